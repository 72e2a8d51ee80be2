(** Combinatorics behind the linear change of variables (C07): binomial and
    multinomial coefficients, and the two odometer style enumerations. *)
From Coq Require Import List Arith ZArith Lia Bool Ring.
From Verif Require Import SimplexModel SimplexEnum SimplexPairs.
Import ListNotations.

(** ** Binomials *)
(** specification: Pascal's triangle *)
Fixpoint choose (n k : nat) : nat :=
  match n, k with
  | _, O => 1
  | O, S _ => 0
  | S n', S k' => choose n' k' + choose n' k
  end.

Lemma choose_n_0 n : choose n 0 = 1. Proof. destruct n; reflexivity. Qed.
Lemma choose_gt n k : n < k -> choose n k = 0.
Proof.
  revert k. induction n as [|n IH]; intros [|k] H; try lia; simpl; auto.
  rewrite !IH by lia. reflexivity.
Qed.
Lemma choose_n_n n : choose n n = 1.
Proof. induction n as [|n IH]; simpl; auto. rewrite IH, choose_gt by lia. lia. Qed.
Lemma choose_step n k : (k + 1) * choose n (k + 1) = (n - k) * choose n k.
Proof.
  revert k. induction n as [|n IH]; intros k.
  - replace (k + 1) with (S k) by lia. simpl. lia.
  - destruct k as [|k].
    + simpl. rewrite choose_n_0. specialize (IH 0). rewrite choose_n_0 in IH. simpl in IH. lia.
    + replace (S k + 1) with (S (k + 1)) by lia. cbn [choose].
      pose proof (IH (S k)) as H1. pose proof (IH k) as H2.
      replace (S k + 1) with (S (k + 1)) in H1 by lia.
      replace (k + 1) with (S k) in * by lia. cbn [choose] in *.
      replace (S n - S k) with (n - k) by lia.
      destruct (le_lt_dec (S k) n) as [Hle|Hlt].
      * assert (E : n - k = n - S k + 1) by lia. rewrite E in *. clear IH E Hle. nia.
      * assert (E : n - k = 0) by lia. rewrite E in *.
        rewrite (choose_gt n (S k)) in * by lia. rewrite (choose_gt n (S (S k))) by lia. lia.
Qed.
Lemma choose_sym n k : k <= n -> choose n k = choose n (n - k).
Proof.
  revert k. induction n as [|n IH]; intros k H; [f_equal; lia|].
  destruct k as [|k].
  - rewrite Nat.sub_0_r, choose_n_n. reflexivity.
  - destruct (Nat.eq_dec k n) as [->|].
    + rewrite Nat.sub_diag, choose_n_n. reflexivity.
    + replace (S n - S k) with (S (n - S k)) by lia. cbn [choose].
      rewrite (IH k) by lia. rewrite (IH (S k)) by lia.
      replace (n - k) with (S (n - S k)) by lia. lia.
Qed.

Lemma binom_loop n j : j <= n ->
  fold_left (fun '(r, n) i => (r * n / i, n - 1)) (seq 1 j) (1, n) = (choose n j, n - j).
Proof.
  induction j as [|j IH]; intros H.
  - simpl. rewrite choose_n_0, Nat.sub_0_r. reflexivity.
  - rewrite seq_S, fold_left_app, IH by lia. cbn [fold_left].
    f_equal; [|lia]. pose proof (choose_step n j) as E.
    replace (j + 1) with (S j) in E by lia. replace (1 + j) with (S j) by lia.
    replace (choose n j * (n - j)) with (choose n (S j) * S j) by lia.
    apply Nat.div_mul. lia.
Qed.
Lemma binom_choose n k : binom n k = choose n k.
Proof.
  unfold binom. destruct (Nat.ltb_spec n k) as [H|H].
  - symmetry. apply choose_gt; auto.
  - rewrite binom_loop by lia. simpl.
    destruct (Nat.min_spec k (n - k)) as [[_ ->]|[_ ->]]; auto.
    symmetry. apply choose_sym; auto.
Qed.

(** ** Multinomials *)
Definition mn_step : nat * nat -> nat -> nat * nat :=
  fun '(t, r) ki => (t + ki, r * binom (t + ki) ki).
Lemma multinom_fold k0 ks :
  multinom (k0 :: ks) = snd (fold_left mn_step ks (k0, 1)).
Proof. reflexivity. Qed.
Lemma mn_fst ks t r : fst (fold_left mn_step ks (t, r)) = t + list_sum ks.
Proof.
  revert t r. induction ks as [|k ks IH]; intros t r; simpl; [lia|]. rewrite IH. lia.
Qed.
Lemma multinom_snoc q c : q <> [] ->
  multinom (q ++ [c]) = multinom q * choose (list_sum q + c) c.
Proof.
  intros Hq. destruct q as [|k0 ks]; [congruence|].
  change ((k0 :: ks) ++ [c]) with (k0 :: (ks ++ [c])). rewrite !multinom_fold, fold_left_app.
  pose proof (mn_fst ks k0 1) as H. destruct (fold_left mn_step ks (k0, 1)) as [t r].
  simpl in H |- *. rewrite H, binom_choose. reflexivity.
Qed.
Lemma choose_pos n k : k <= n -> 1 <= choose n k.
Proof.
  revert k. induction n as [|n IH]; intros [|k] H; try lia; simpl; try lia.
  pose proof (IH k). lia.
Qed.
Lemma multinom_pos q : 1 <= multinom q.
Proof.
  induction q as [|c q IH] using rev_ind; [simpl; lia|].
  destruct q as [|k ks]; [simpl; lia|].
  rewrite multinom_snoc by discriminate.
  pose proof (choose_pos (list_sum (k :: ks) + c) c ltac:(lia)). nia.
Qed.
Lemma multinom_first p n : multinom (p :: repeat 0 n) = 1.
Proof.
  rewrite multinom_fold.
  assert (H : forall r, snd (fold_left mn_step (repeat 0 n) (p, r)) = r).
  { induction n as [|n IH]; intros r; simpl; auto. rewrite Nat.add_0_r.
    rewrite binom_choose, choose_n_0, Nat.mul_1_r. apply IH. }
  apply H.
Qed.

(** ** Specification of the enumeration: all lists of length [S n] with sum [p],
    the last entry most significant *)
Fixpoint comps (n p : nat) : list (list nat) :=
  match n with
  | O => [[p]]
  | S n' => flat_map (fun c => map (fun q => q ++ [c]) (comps n' (p - c))) (seq 0 (S p))
  end.

Lemma comps_spec n p q : In q (comps n p) <-> length q = S n /\ list_sum q = p.
Proof.
  revert p q. induction n as [|n IH]; intros p q.
  - simpl. split.
    + intros [<-|[]]. simpl. lia.
    + intros [H1 H2]. destruct q as [|x [|y q]]; simpl in *; try lia. left. f_equal. lia.
  - cbn [comps]. rewrite in_flat_map. split.
    + intros (c & Hc & Hq). apply in_seq in Hc. apply in_map_iff in Hq.
      destruct Hq as (q' & <- & Hq'). apply IH in Hq'.
      rewrite app_length, list_sum_app. simpl. lia.
    + intros [H1 H2]. destruct q as [|c q _] using rev_ind; [discriminate|].
      rewrite app_length in H1. rewrite list_sum_app in H2. simpl in H1, H2.
      exists c. split; [apply in_seq; lia|]. apply in_map_iff. exists q.
      split; auto. apply IH. lia.
Qed.

(** ** The successor function *)
Lemma nth_repeat_0 n i : nth i (repeat 0 n) 0 = 0.
Proof. revert i; induction n as [|n IH]; intros [|i]; simpl; auto. Qed.

(** entries of a list at [i] splits its sum *)
Lemma list_sum_firstn_S q i : i < length q ->
  list_sum (firstn (S i) q) = list_sum (firstn i q) + nth i q 0.
Proof.
  revert i. induction q as [|x q IH]; intros [|i] H; simpl in *; try lia.
  specialize (IH i ltac:(lia)). simpl in IH. lia.
Qed.
Lemma repeat_sum0 n : list_sum (repeat 0 n) = 0.
Proof. induction n; simpl; auto. Qed.
Lemma firstn_repeat_app {A} (x : A) n l : firstn n (repeat x n ++ l) = repeat x n.
Proof.
  rewrite firstn_app, repeat_length, Nat.sub_diag. simpl. rewrite app_nil_r.
  apply firstn_all2. rewrite repeat_length. lia.
Qed.

Lemma upd_repeat_app {A} (z x : A) i y r : upd i x (repeat z i ++ y :: r) = repeat z i ++ x :: r.
Proof. induction i as [|i IH]; simpl; auto. rewrite IH. reflexivity. Qed.
Lemma upd_repeat_app1 {A} (z x : A) i y y1 r :
  upd (i + 1) x (repeat z i ++ y :: y1 :: r) = repeat z i ++ y :: x :: r.
Proof. induction i as [|i IH]; simpl; auto. rewrite IH. reflexivity. Qed.

(** the loop stops at the first nonzero entry *)
Lemma next_loop_first i a b r i1 :
  let q := repeat 0 i ++ S a :: b :: r in
  i < i1 -> i1 <= length q ->
  multinom_next_loop i1 (list_sum (firstn i1 q)) q =
  a :: repeat 0 i ++ u16 (b + 1) :: r.
Proof.
  intros q. induction i1 as [|k IH]; intros Hi Hl; [lia|].
  cbn [multinom_next_loop].
  rewrite list_sum_firstn_S by lia.
  assert (Hnz : i < k -> 1 <= list_sum (firstn k q)).
  { intros Hik. replace k with (length (repeat 0 i) + S (k - i - 1)) by (rewrite repeat_length; lia).
    unfold q. rewrite firstn_app_2, list_sum_app. simpl. lia. }
  destruct (Nat.eq_dec i k) as [->|Hne].
  - assert (E : nth k q 0 = S a).
    { unfold q. rewrite app_nth2 by (rewrite repeat_length; lia).
      rewrite repeat_length, Nat.sub_diag. reflexivity. }
    assert (F : list_sum (firstn k q) = 0).
    { unfold q. rewrite firstn_repeat_app. apply repeat_sum0. }
    rewrite E, F. rewrite Nat.eqb_refl.
    assert (E1 : nth (k + 1) q 0 = b).
    { unfold q. rewrite app_nth2 by (rewrite repeat_length; lia).
      rewrite repeat_length. replace (k + 1 - k) with 1 by lia. reflexivity. }
    rewrite E1. unfold q. rewrite upd_repeat_app1, upd_repeat_app.
    destruct k as [|k]; simpl; rewrite ?Nat.sub_0_r; f_equal.
    clear. induction k as [|k IHk]; simpl; auto. rewrite IHk. reflexivity.
  - destruct (Nat.eqb_spec (nth k q 0) (list_sum (firstn k q) + nth k q 0)) as [E|_].
    + exfalso. specialize (Hnz ltac:(lia)). lia.
    + replace (list_sum (firstn k q) + nth k q 0 - nth k q 0) with (list_sum (firstn k q)) by lia.
      apply IH; lia.
Qed.

Definition firstc (d p : nat) : list nat := p :: repeat 0 (d - 1).
Definition lastc (d p : nat) : list nat := repeat 0 (d - 1) ++ [p].
(** one enumeration step *)
Inductive nxt : list nat -> list nat -> Prop :=
| nxt_intro i a b r : nxt (repeat 0 i ++ S a :: b :: r) (a :: repeat 0 i ++ S b :: r).

Lemma nxt_sum q q' : nxt q q' -> list_sum q = list_sum q' /\ length q = length q'.
Proof.
  intros [i a b r]. rewrite list_sum_app. simpl. rewrite list_sum_app. simpl.
  rewrite !app_length, repeat_length. simpl. lia.
Qed.

Lemma multinom_next_last d p : 1 <= d -> multinom_next p (lastc d p) = (0, lastc d p).
Proof.
  intros Hd. unfold multinom_next, lastc.
  rewrite app_length, repeat_length. simpl.
  rewrite app_nth2 by (rewrite repeat_length; lia). rewrite repeat_length.
  replace (d - 1 + 1 - 1 - (d - 1)) with 0 by lia. simpl. rewrite Nat.eqb_refl. reflexivity.
Qed.

Lemma in_list_sum_le x l : In x l -> x <= list_sum l.
Proof.
  induction l as [|y l IH]; simpl; [tauto|]. intros [->|H]; [lia|]. specialize (IH H). lia.
Qed.

Lemma multinom_next_nxt q q' :
  nxt q q' -> (Z.of_nat (list_sum q) < 65536)%Z ->
  multinom_next (list_sum q) q = (multinom q', q').
Proof.
  intros H Hb. pose proof H as H0. destruct H as [i a b r]. unfold multinom_next.
  set (q := repeat 0 i ++ S a :: b :: r) in *.
  assert (Hl : i + 2 <= length q) by (unfold q; rewrite app_length, repeat_length; simpl; lia).
  assert (Hlast : nth (length q - 1) q 0 < list_sum q).
  { unfold q. rewrite app_nth2 by (fold q; rewrite repeat_length; lia). rewrite repeat_length.
    rewrite list_sum_app. fold q. destruct (length q - 1 - i) as [|k] eqn:E; [lia|].
    cbn [nth]. change (list_sum (S a :: b :: r)) with (S a + list_sum (b :: r)).
    assert (nth k (b :: r) 0 <= list_sum (b :: r)).
    { destruct (nth_in_or_default k (b :: r) 0) as [Hin| -> ]; [apply in_list_sum_le; auto|lia]. }
    cbn [nth] in H. lia. }
  destruct (Nat.eqb_spec (nth (length q - 1) q 0) (list_sum q)) as [E|_]; [lia|].
  pose proof (next_loop_first i a b r (length q)) as Hn. fold q in Hn. cbv zeta in Hn.
  rewrite firstn_all in Hn. rewrite Hn by lia.
  rewrite u16_small.
  - replace (b + 1) with (S b) by lia. reflexivity.
  - assert (b + 1 <= list_sum q); [|lia].
    unfold q. rewrite list_sum_app. simpl. lia.
Qed.

Lemma multinom_next_zero q q' :
  nxt q q' -> 1 <= length q -> multinom q' <> 0.
Proof. intros _ _. pose proof (multinom_pos q'). lia. Qed.

(** ** The enumeration is a chain of steps from first to last *)
Section Chain.
  Context {A : Type}.
  Inductive chain (R : A -> A -> Prop) : A -> list A -> A -> Prop :=
  | chain_one x : chain R x [x] x
  | chain_cons x y l z : R x y -> chain R y l z -> chain R x (x :: l) z.

  Lemma chain_app R x l y x' l' y' :
    chain R x l y -> R y x' -> chain R x' l' y' -> chain R x (l ++ l') y'.
  Proof.
    intros H Hr H'. induction H as [x|x w l z Hxw H IH]; simpl.
    - econstructor; eauto.
    - econstructor; eauto.
  Qed.
  Lemma chain_impl (R R' : A -> A -> Prop) x l y :
    (forall u v, R u v -> R' u v) -> chain R x l y -> chain R' x l y.
  Proof. intros Hi H. induction H; econstructor; eauto. Qed.
End Chain.
Lemma chain_map {A B} (f : A -> B) (R : A -> A -> Prop) (R' : B -> B -> Prop) x l y :
  (forall u v, R u v -> R' (f u) (f v)) -> chain R x l y -> chain R' (f x) (map f l) (f y).
Proof. intros Hi H. induction H; simpl; econstructor; eauto. Qed.

(** concatenating chains *)
Lemma chain_flat {A} (R : A -> A -> Prop) (g : nat -> list A) (fst lst : nat -> A) lo n :
  (forall c, lo <= c <= lo + n -> chain R (fst c) (g c) (lst c)) ->
  (forall c, lo <= c < lo + n -> R (lst c) (fst (S c))) ->
  chain R (fst lo) (flat_map g (seq lo (S n))) (lst (lo + n)).
Proof.
  revert lo. induction n as [|n IH]; intros lo H1 H2.
  - simpl. rewrite app_nil_r, Nat.add_0_r. apply H1. lia.
  - change (seq lo (S (S n))) with (lo :: seq (S lo) (S n)). cbn [flat_map].
    eapply chain_app; [apply H1; lia|apply H2; lia|].
    replace (lo + S n) with (S lo + n) by lia. apply IH.
    + intros c Hc. apply H1. lia.
    + intros c Hc. apply H2. lia.
Qed.

Lemma comps_chain n p : chain nxt (firstc (S n) p) (comps n p) (lastc (S n) p).
Proof.
  revert p. induction n as [|n IH]; intros p.
  - simpl. unfold firstc, lastc. simpl. constructor.
  - cbn [comps].
    pose proof (chain_flat nxt
      (fun c => map (fun q => q ++ [c]) (comps n (p - c)))
      (fun c => firstc (S n) (p - c) ++ [c]) (fun c => lastc (S n) (p - c) ++ [c]) 0 p) as H.
    unfold firstc, lastc in *.
    replace (S (S n) - 1) with (S n) by lia. replace (S n - 1) with n in * by lia.
    rewrite Nat.add_0_l, Nat.sub_diag in H.
    replace (p :: repeat 0 (S n)) with ((p - 0 :: repeat 0 n) ++ [0]).
    2:{ rewrite Nat.sub_0_r. simpl. f_equal. rewrite <- repeat_cons. reflexivity. }
    replace (repeat 0 (S n) ++ [p]) with ((repeat 0 n ++ [0]) ++ [p]).
    2:{ rewrite <- repeat_cons. reflexivity. }
    apply H.
    + intros c Hc. apply (chain_map (fun q => q ++ [c]) nxt nxt); [|apply IH].
      intros u v [i a b r]. rewrite <- app_assoc. simpl. rewrite <- app_assoc. simpl.
      constructor.
    + intros c Hc. rewrite <- app_assoc. simpl.
      replace (p - c) with (S (p - S c)) by lia. apply (nxt_intro n (p - S c) c []).
Qed.

(** ** Odometer over all rows, last row fastest *)
Fixpoint prods {A} (ls : list (list A)) : list (list A) :=
  match ls with
  | [] => [[]]
  | l :: ls' => flat_map (fun x => map (cons x) (prods ls')) l
  end.

Inductive odo (d : nat) : list nat -> list (list nat) -> list (list nat) -> Prop :=
| odo_here p ps r r' : nxt r r' -> list_sum r = p -> length r = d ->
    odo d (p :: ps) (r :: map (lastc d) ps) (r' :: map (firstc d) ps)
| odo_there p ps r rows rows' : odo d ps rows rows' ->
    odo d (p :: ps) (r :: rows) (r :: rows').

Lemma comps_nonnil n p : comps n p <> [].
Proof.
  intros E. assert (H : In (firstc (S n) p) (comps n p)).
  { apply comps_spec. unfold firstc. simpl. rewrite repeat_length, Nat.sub_0_r, repeat_sum0. lia. }
  rewrite E in H. destruct H.
Qed.

Lemma prods_chain n ps :
  chain (odo (S n) ps) (map (firstc (S n)) ps) (prods (map (comps n) ps)) (map (lastc (S n)) ps).
Proof.
  induction ps as [|p ps IH].
  - simpl. constructor.
  - cbn [map prods].
    assert (Hin : forall q, In q (comps n p) -> length q = S n /\ list_sum q = p)
      by (intros q; apply comps_spec).
    pose proof (comps_chain n p) as Hc. induction Hc as [x|x y l z Hxy Hc IHc].
    + simpl. rewrite app_nil_r.
      eapply chain_map; [|exact IH]. intros u v Huv. apply odo_there. exact Huv.
    + cbn [flat_map]. eapply chain_app.
      * eapply chain_map; [|exact IH]. intros u v Huv. apply odo_there. exact Huv.
      * destruct (Hin x) as [Hl Hs]; [left; auto|]. apply odo_here; eauto.
      * apply IHc. intros q Hq. apply Hin. right; auto.
Qed.
