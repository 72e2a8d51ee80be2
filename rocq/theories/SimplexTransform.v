(** Linear change of variables of truncated multinomials (C07). *)
From Coq Require Import List Arith ZArith Lia Bool Ring.
From Verif Require Import SimplexModel SimplexEnum SimplexPairs SimplexMul SimplexEval SimplexComb.
Import ListNotations.

Lemma nth_app_r {A} (l l' : list A) n dft : nth (length l + n) (l ++ l') dft = nth n l' dft.
Proof. rewrite app_nth2 by lia. f_equal. lia. Qed.
Lemma nth_app_here {A} (l : list A) x l' n dft : length l = n -> nth n (l ++ x :: l') dft = x.
Proof. intros <-. rewrite app_nth2, Nat.sub_diag by lia. reflexivity. Qed.
Lemma upd_app_here {A} (l : list A) x y l' n : length l = n -> upd n y (l ++ x :: l') = l ++ y :: l'.
Proof. intros <-. induction l as [|z l IH]; simpl; auto. rewrite IH. reflexivity. Qed.

Definition small (n : nat) : Prop := (Z.of_nat n < 65536)%Z.
(** what the code stores for a multinomial coefficient *)
Definition wmult (q : list nat) : nat := u16 (multinom q).
Lemma wmult_first d p : wmult (firstc d p) = 1%nat.
Proof. unfold wmult, firstc. rewrite multinom_first. reflexivity. Qed.
Lemma wmult_small q : small (multinom q) -> wmult q = multinom q.
Proof. intros H. unfold wmult. apply u16_small. unfold small in H. lia. Qed.


(** rows that have reached their last composition are reset *)
Lemma supernom_reset d ps pp qq mm ms s1 s2 s3 :
  1 <= d -> length qq = length pp -> length mm = length pp -> length ms = length ps ->
  supernom_loop d (length pp + length ps) (pp ++ ps ++ s1) (qq ++ map (lastc d) ps ++ s2) (mm ++ ms ++ s3) =
  supernom_loop d (length pp) (pp ++ ps ++ s1) (qq ++ map (firstc d) ps ++ s2)
                (mm ++ repeat 1 (length ps) ++ s3).
Proof.
  intros Hd Hq Hm. revert ms s1 s2 s3. induction ps as [|p ps IH] using rev_ind; intros ms s1 s2 s3 Hms.
  - destruct ms; [|discriminate]. simpl. rewrite Nat.add_0_r. reflexivity.
  - rewrite app_length in Hms. simpl in Hms.
    destruct ms as [|mi ms _] using rev_ind; [simpl in Hms; lia|].
    rewrite app_length in Hms. simpl in Hms.
    rewrite app_length. simpl. replace (length pp + (length ps + 1)) with (S (length pp + length ps)) by lia.
    rewrite !map_app. cbn [map supernom_loop].
    repeat rewrite <- app_assoc. simpl ([_] ++ _).
    rewrite (app_assoc pp ps (p :: s1)).
    rewrite (app_assoc qq (map (lastc d) ps) (lastc d p :: s2)).
    rewrite (app_assoc mm ms (mi :: s3)).
    assert (E1 : length (pp ++ ps) = length pp + length ps) by apply app_length.
    assert (E2 : length (qq ++ map (lastc d) ps) = length pp + length ps)
      by (rewrite app_length, map_length; lia).
    assert (E3 : length (mm ++ ms) = length pp + length ps) by (rewrite app_length; lia).
    rewrite (nth_app_here _ _ _ _ _ E1), (nth_app_here _ _ _ _ _ E2).
    rewrite multinom_next_last by auto. change (u16 0) with 0. cbn [Nat.eqb].
    rewrite (upd_app_here _ _ _ _ _ E2), (upd_app_here _ _ _ _ _ E3).
    repeat rewrite <- app_assoc.
    rewrite IH by lia. unfold firstc at 2. simpl.
    f_equal. f_equal.
    replace (repeat 1 (length ps) ++ 1 :: s3) with ((repeat 1 (length ps) ++ [1]) ++ s3)
      by (rewrite <- app_assoc; reflexivity).
    rewrite <- repeat_cons. replace (length ps + 1) with (S (length ps)) by lia. reflexivity.
Qed.

Lemma supernom_step d ps rows rows' : 1 <= d -> odo d ps rows rows' ->
  Forall small ps -> (forall q, length q = d -> In (list_sum q) ps -> wmult q <> 0%nat) ->
  forall pp qq mm, length qq = length pp -> length mm = length pp ->
  supernom_loop d (length pp + length ps) (pp ++ ps) (qq ++ rows) (mm ++ map wmult rows) =
  (true, qq ++ rows', mm ++ map wmult rows').
Proof.
  intros Hd H. induction H as [p ps r r' Hn Hs Hl|p ps r rows rows' H IH]; intros Hps Hmul pp qq mm Hq Hm.
  - replace (length pp + length (p :: ps)) with (length (pp ++ [p]) + length ps)
      by (rewrite app_length; simpl; lia).
    replace (pp ++ p :: ps) with ((pp ++ [p]) ++ ps ++ []) by (rewrite app_nil_r, <- app_assoc; reflexivity).
    replace (qq ++ r :: map (lastc d) ps) with ((qq ++ [r]) ++ map (lastc d) ps ++ [])
      by (rewrite app_nil_r, <- app_assoc; reflexivity).
    replace (mm ++ map wmult (r :: map (lastc d) ps))
      with ((mm ++ [wmult r]) ++ map wmult (map (lastc d) ps) ++ [])
      by (rewrite app_nil_r, <- app_assoc; reflexivity).
    rewrite supernom_reset by (rewrite ?app_length, ?map_length; simpl; lia).
    rewrite !app_nil_r, <- !app_assoc. rewrite app_length. simpl.
    replace (length pp + 1) with (S (length pp)) by lia. cbn [supernom_loop].
    rewrite (nth_app_here pp) by auto. rewrite (nth_app_here qq) by auto.
    inversion Hps as [|? ? Hp Hps']; subst.
    rewrite (multinom_next_nxt r r') by auto.
    destruct (nxt_sum r r' Hn) as [Es El].
    assert (Hsm : wmult r' <> 0).
    { apply Hmul; [congruence|]. rewrite <- Es. left; auto. }
    fold (wmult r').
    destruct (Nat.eqb_spec (wmult r') 0) as [E|_]; [contradiction|].
    rewrite (upd_app_here qq) by auto. rewrite (upd_app_here mm) by auto.
    f_equal. f_equal. cbn [map]. f_equal.
    clear. induction ps as [|p ps IH]; cbn [map length repeat]; auto. rewrite IH.
    f_equal. symmetry. apply wmult_first.
  - specialize (IH ltac:(inversion Hps; auto) ltac:(intros q Hq1 Hq2; apply Hmul; [auto|right; auto])
      (pp ++ [p]) (qq ++ [r]) (mm ++ [wmult r])).
    rewrite !app_length in IH. simpl in IH. rewrite <- !app_assoc in IH. simpl in IH.
    simpl. replace (length pp + S (length ps)) with (length pp + 1 + length ps) by lia.
    apply IH; lia.
Qed.

Lemma supernom_next_odo d ps rows rows' : 1 <= d -> length ps = d -> odo d ps rows rows' ->
  Forall small ps -> (forall q, length q = d -> In (list_sum q) ps -> wmult q <> 0%nat) ->
  supernom_next ps rows (map wmult rows) = (true, rows', map wmult rows').
Proof.
  intros Hd Hl H H1 H2. unfold supernom_next. rewrite Hl.
  pose proof (supernom_step d ps rows rows' Hd H H1 H2 [] [] [] eq_refl eq_refl) as E.
  simpl in E. rewrite Hl in E. exact E.
Qed.
Lemma supernom_next_end d ps : 1 <= d -> length ps = d ->
  supernom_next ps (map (lastc d) ps) (map wmult (map (lastc d) ps)) =
  (false, map (firstc d) ps, repeat 1 d).
Proof.
  intros Hd Hl. unfold supernom_next. rewrite Hl.
  pose proof (supernom_reset d ps [] [] [] (map wmult (map (lastc d) ps)) [] [] []) as E.
  simpl in E. rewrite !app_nil_r in E. rewrite Hl in E. rewrite E; auto.
  rewrite !map_length. auto.
Qed.

(** column sums of a matrix of exponents *)
Definition colsum (d : nat) (P : list (list nat)) : list nat :=
  map (fun j => list_sum (map (fun r => nth j r 0) P)) (seq 0 d).

Lemma list_sum_map_add {A} (f g : A -> nat) l :
  list_sum (map (fun x => f x + g x) l) = list_sum (map f l) + list_sum (map g l).
Proof. induction l as [|x l IH]; simpl; auto. rewrite IH. lia. Qed.
Lemma list_sum_nth r d : length r = d -> list_sum (map (fun j => nth j r 0) (seq 0 d)) = list_sum r.
Proof.
  intros <-. induction r as [|x r IH]; simpl; auto.
  rewrite <- seq_shift, map_map. rewrite <- IH. reflexivity.
Qed.
Lemma colsum_sum d P : Forall (fun r => length r = d) P ->
  list_sum (colsum d P) = list_sum (map (@list_sum) P).
Proof.
  unfold colsum. induction P as [|r P IH]; intros H.
  - simpl. induction (seq 0 d); simpl; auto.
  - inversion H; subst. simpl. rewrite list_sum_map_add, IH by auto.
    rewrite list_sum_nth by auto. reflexivity.
Qed.
Lemma colsum_length d P : length (colsum d P) = d.
Proof. unfold colsum. rewrite map_length, seq_length. reflexivity. Qed.

(** the flat index of digits below [s] *)
Lemma unflatten_digits s l : 1 <= s -> Forall (fun c => c < s) l ->
  unflatten s (length l) (fold_left (fun a c => a * s + c) l 0) = l.
Proof.
  intros Hs. induction l as [|c l IH] using rev_ind; intros H; auto.
  rewrite app_length, Nat.add_comm. simpl. rewrite fold_left_app. simpl.
  apply Forall_app in H. destruct H as [H1 H2]. inversion H2; subst.
  rewrite Nat.div_add_l by lia. rewrite Nat.div_small, Nat.add_0_r by lia.
  rewrite IH by auto. rewrite Nat.add_comm, Nat.mod_add by lia. rewrite Nat.mod_small by lia.
  reflexivity.
Qed.

Section Transform.
  Variable K : Type.
  Variables (k0 k1 : K) (kadd kmul ksub : K -> K -> K) (kopp : K -> K).
  Hypothesis Kth : ring_theory k0 k1 kadd kmul ksub kopp (@eq K).
  Add Ring Kring : Kth.
  Local Notation "x + y" := (kadd x y).
  Local Notation "x * y" := (kmul x y).
  Local Notation ksum := (ksum K k0 kadd).
  Local Notation kpow := (kpow K k1 kmul).
  Local Notation kofnat := (kofnat K k0 k1 kadd).
  Local Notation coef := (coef K k0).
  Local Notation mono := (mono K k1 kmul).

  Definition kprod {A} (f : A -> K) (l : list A) : K := fold_right (fun x s => f x * s) k1 l.
  Lemma kprod_app {A} (f : A -> K) l l' : kprod f (l ++ l') = kprod f l * kprod f l'.
  Proof. induction l as [|x l IH]; simpl; [ring|]. rewrite IH. ring. Qed.
  Lemma kprod_ext {A} (f g : A -> K) l : (forall x, In x l -> f x = g x) -> kprod f l = kprod g l.
  Proof.
    induction l as [|x l IH]; simpl; intros H; auto. rewrite H by auto. rewrite IH; auto.
  Qed.
  Lemma kprod_map {A B} (f : B -> K) (g : A -> B) l : kprod f (map g l) = kprod (fun x => f (g x)) l.
  Proof. induction l as [|x l IH]; simpl; auto. rewrite IH; auto. Qed.
  Lemma kprod_mul {A} (f g : A -> K) l : kprod (fun x => f x * g x) l = kprod f l * kprod g l.
  Proof. induction l as [|x l IH]; simpl; [ring|]. rewrite IH; ring. Qed.
  Lemma kprod_one {A} (l : list A) : kprod (fun _ => k1) l = k1.
  Proof. induction l as [|x l IH]; simpl; auto. rewrite IH; ring. Qed.
  Lemma kprod_swap {A B} (f : A -> B -> K) la lb :
    kprod (fun a => kprod (f a) lb) la = kprod (fun b => kprod (fun a => f a b) la) lb.
  Proof.
    induction la as [|a la IH]; simpl.
    - symmetry. apply kprod_one.
    - rewrite IH, <- kprod_mul. reflexivity.
  Qed.

  Lemma kofnat_add a b : kofnat (a + b) = kofnat a + kofnat b.
  Proof. induction a as [|a IH]; simpl; [ring|]. rewrite IH. ring. Qed.
  Lemma kofnat_mul a b : kofnat (a * b) = kofnat a * kofnat b.
  Proof. induction a as [|a IH]; simpl; [ring|]. rewrite kofnat_add, IH. ring. Qed.
  Lemma kofnat_1 : kofnat 1 = k1.
  Proof. simpl. ring. Qed.

  (** ** Binomial and multinomial theorem *)
  Lemma binomial_theorem a b n :
    kpow (a + b) n = nsum K k0 kadd n (fun c => kofnat (choose n c) * kpow a (n - c) * kpow b c).
  Proof.
    induction n as [|n IH].
    - rewrite nsum_0 with (1:=Kth). simpl. ring.
    - cbn [SimplexModel.kpow]. rewrite IH.
      transitivity (nsum K k0 kadd n (fun c => kofnat (choose n c) * kpow a (S n - c) * kpow b c) +
                    nsum K k0 kadd n (fun c => kofnat (choose n c) * kpow a (n - c) * kpow b (S c))).
      + unfold nsum. rewrite <- (ksum_scale K k0 k1 kadd kmul ksub kopp Kth).
        rewrite <- (ksum_add K k0 k1 kadd kmul ksub kopp Kth). apply ksum_ext. intros c Hc.
        apply in_seq in Hc. replace (S n - c)%nat with (S (n - c)) by lia. simpl. ring.
      + rewrite (nsum_shift K k0 kadd n (fun c => kofnat (choose (S n) c) * kpow a (S n - c) * kpow b c)).
        assert (E1 : nsum K k0 kadd n (fun i => kofnat (choose (S n) (S i)) * kpow a (S n - S i) * kpow b (S i)) =
          nsum K k0 kadd n (fun i => kofnat (choose n i) * kpow a (n - i) * kpow b (S i)) +
          nsum K k0 kadd n (fun i => kofnat (choose n (S i)) * kpow a (n - i) * kpow b (S i))).
        { unfold nsum. rewrite <- (ksum_add K k0 k1 kadd kmul ksub kopp Kth). apply ksum_ext.
          intros i _. cbn [choose]. rewrite kofnat_add.
          replace (S n - S i)%nat with (n - i)%nat by lia. ring. }
        rewrite E1.
        assert (E2 : nsum K k0 kadd n (fun c => kofnat (choose n c) * kpow a (S n - c) * kpow b c) =
          kofnat (choose n 0) * kpow a (S n - 0) * kpow b 0 +
          nsum K k0 kadd n (fun i => kofnat (choose n (S i)) * kpow a (n - i) * kpow b (S i))).
        { pose proof (nsum_shift K k0 kadd n (fun c => kofnat (choose n c) * kpow a (S n - c) * kpow b c)) as H.
          rewrite (nsum_S K k0 k1 kadd kmul ksub kopp Kth) in H.
          rewrite (choose_gt n (S n)) in H by lia. simpl (kofnat 0) in H.
          transitivity (nsum K k0 kadd n (fun c => kofnat (choose n c) * kpow a (S n - c) * kpow b c) +
             k0 * kpow a (S n - S n) * kpow b (S n)); [ring|]. rewrite H. reflexivity. }
        rewrite E2. rewrite !choose_n_0. ring.
  Qed.

  Lemma mono_snoc x z q c : length x = length q -> mono (x ++ [z]) (q ++ [c]) = mono x q * kpow z c.
  Proof.
    revert q. induction x as [|xi x IH]; intros [|j q] H; simpl in *; try lia; [ring|].
    rewrite IH by lia. ring.
  Qed.

  Lemma multinomial_theorem n p z : length z = S n ->
    ksum (fun q => kofnat (multinom q) * mono z q) (comps n p) = kpow (ksum (fun v => v) z) p.
  Proof.
    revert p z. induction n as [|n IH]; intros p z Hz.
    - destruct z as [|z0 [|]]; simpl in Hz; try lia. simpl.
      replace (z0 + k0) with z0 by ring. ring.
    - destruct z as [|zn z _] using rev_ind; [discriminate|].
      rewrite app_length in Hz. simpl in Hz.
      rewrite (ksum_app K k0 k1 kadd kmul ksub kopp Kth). simpl (ksum _ [zn]).
      replace (zn + k0) with zn by ring.
      rewrite binomial_theorem. cbn [comps].
      rewrite (ksum_flat_map K k0 k1 kadd kmul ksub kopp Kth). unfold nsum.
      apply ksum_ext. intros c Hc. apply in_seq in Hc. rewrite ksum_map.
      rewrite <- (IH (p - c)%nat z) by lia.
      replace (kofnat (choose p c) * ksum (fun q => kofnat (multinom q) * mono z q) (comps n (p - c)) * kpow zn c)
        with (kofnat (choose p c) * kpow zn c * ksum (fun q => kofnat (multinom q) * mono z q) (comps n (p - c)))
        by ring.
      rewrite <- (ksum_scale K k0 k1 kadd kmul ksub kopp Kth). apply ksum_ext.
      intros q Hq. apply comps_spec in Hq. destruct Hq as [Hl Hs].
      rewrite multinom_snoc by (intros ->; discriminate).
      rewrite Hs, kofnat_mul, mono_snoc by lia.
      replace (p - c + c)%nat with p by lia. ring.
  Qed.

  (** distributing a product of sums *)
  Lemma ksum_prods {A} (f : nat -> A -> K) i (ls : list (list A)) :
    ksum (fun P => kprod (fun kr => f (fst kr) (snd kr)) (combine (seq i (length ls)) P)) (prods ls) =
    kprod (fun kl => ksum (f (fst kl)) (snd kl)) (combine (seq i (length ls)) ls).
  Proof.
    revert i. induction ls as [|l ls IH]; intros i; simpl.
    - ring.
    - rewrite (ksum_flat_map K k0 k1 kadd kmul ksub kopp Kth).
      rewrite <- IH. rewrite <- (ksum_scale_r K k0 k1 kadd kmul ksub kopp Kth).
      apply ksum_ext. intros x _. rewrite ksum_map.
      rewrite <- (ksum_scale K k0 k1 kadd kmul ksub kopp Kth). apply ksum_ext. intros P _. reflexivity.
  Qed.

  (** ** One term *)
  Lemma tr_inner_ok t p j q l :
    tr_inner K k0 k1 kmul t p j (q, l) =
    (q * kprod (fun k => kpow (nth j (nth k t []) k0) (nth j (nth k p []) 0%nat)) (seq 0 (length p)),
     (l + list_sum (map (fun r => nth j r 0%nat) p))%nat).
  Proof.
    unfold tr_inner.
    assert (H : forall ks q l,
      fold_left (fun '(q, l) k =>
                 (kmul q (kpow (nth j (nth k t []) k0) (nth j (nth k p []) 0%nat)),
                  (l + nth j (nth k p []) 0)%nat)) ks (q, l) =
      (q * kprod (fun k => kpow (nth j (nth k t []) k0) (nth j (nth k p []) 0%nat)) ks,
       (l + list_sum (map (fun k => nth j (nth k p []) 0%nat) ks))%nat)).
    { induction ks as [|k ks IH]; intros q' l'; simpl.
      - f_equal; [ring|lia].
      - rewrite IH. f_equal; [ring|lia]. }
    rewrite H. f_equal. f_equal. f_equal. clear.
    induction p as [|r p IH]; simpl; auto. f_equal.
    rewrite <- seq_shift, map_map. exact IH.
  Qed.
  Lemma tr_term_ok s t p m :
    tr_term K k0 k1 kadd kmul s t p m =
    (kprod (fun j => kofnat (nth j m 0%nat) *
        kprod (fun k => kpow (nth j (nth k t []) k0) (nth j (nth k p []) 0%nat)) (seq 0 (length p)))
        (seq 0 (length p)),
     fold_left (fun a c => (a * s + c)%nat) (colsum (length p) p) 0%nat).
  Proof.
    unfold tr_term, colsum.
    assert (H : forall js q l,
      fold_left (fun '(q, l) j => tr_inner K k0 k1 kmul t p j (kmul q (kofnat (nth j m 0%nat)), (l * s)%nat))
        js (q, l) =
      (q * kprod (fun j => kofnat (nth j m 0%nat) *
        kprod (fun k => kpow (nth j (nth k t []) k0) (nth j (nth k p []) 0%nat)) (seq 0 (length p))) js,
       fold_left (fun a c => (a * s + c)%nat) (map (fun j => list_sum (map (fun r => nth j r 0%nat) p)) js) l)).
    { induction js as [|j js IH]; intros q l; cbn [fold_left kprod fold_right map].
      - f_equal. ring.
      - rewrite tr_inner_ok, IH. f_equal. unfold kprod. ring. }
    rewrite H. f_equal. ring.
  Qed.

  Definition termc (t : list (list K)) (d : nat) (P : list (list nat)) : K :=
    kprod (fun j => kofnat (wmult (nth j P [])) *
        kprod (fun k => kpow (nth j (nth k t []) k0) (nth j (nth k P []) 0%nat)) (seq 0 d)) (seq 0 d).
  Definition addat (l : nat) (v : K) (y : list K) : list K := upd l (nth l y k0 + v) y.

  (** exponent matrices met by the loop *)
  Definition rows_ok (d : nat) (ji : list nat) (P : list (list nat)) : Prop :=
    Forall2 (fun p r => length r = d /\ list_sum r = p) ji P.

  Lemma rows_ok_sum d ji P : rows_ok d ji P ->
    Forall (fun r => length r = d) P /\ length P = length ji /\ list_sum (map (@list_sum) P) = list_sum ji.
  Proof.
    intros H. induction H as [|p r ji P [H1 H2] H (IH1 & IH2 & IH3)]; simpl; auto.
  Qed.
  Lemma prods_ok n ji P : In P (prods (map (comps n) ji)) -> rows_ok (S n) ji P.
  Proof.
    unfold rows_ok. revert P. induction ji as [|p ji IH]; intros P; simpl.
    - intros [<-|[]]. constructor.
    - intros H. apply in_flat_map in H. destruct H as (r & Hr & H).
      apply in_map_iff in H. destruct H as (P' & <- & H'). constructor; auto.
      apply comps_spec in Hr. auto.
  Qed.

  Lemma tr_loop_ok d s idx t ji xi x L z :
    (1 <= d)%nat -> length ji = d -> (list_sum ji < s)%nat -> Forall small ji ->
    (forall q, length q = d -> In (list_sum q) ji -> wmult q <> 0%nat) ->
    chain (odo d ji) x L z -> z = map (lastc d) ji ->
    Forall (rows_ok d ji) L ->
    forall fuel y, (length L <= fuel)%nat ->
    tr_loop K k0 k1 kadd kmul fuel idx d s t ji xi x (map wmult x) y =
    Some (map (firstc d) ji, repeat 1%nat d,
          fold_left (fun y P => addat (idx (colsum d P)) (termc t d P * xi) y) L y).
  Proof.
    intros Hd Hl Hs Hsm Hmul Hc. 
    assert (Hterm : forall P, rows_ok d ji P ->
      tr_term K k0 k1 kadd kmul s t P (map wmult P) =
      (termc t d P, fold_left (fun a c => (a * s + c)%nat) (colsum d P) 0%nat)).
    { intros P HP. apply rows_ok_sum in HP. destruct HP as (_ & HP & _).
      rewrite tr_term_ok. rewrite HP, Hl. f_equal. unfold termc. apply kprod_ext.
      intros j Hj. f_equal. f_equal. apply in_seq in Hj.
      rewrite (nth_indep _ 0%nat (wmult [])) by (rewrite map_length; lia).
      apply map_nth. }
    assert (Hflat : forall P, rows_ok d ji P ->
      unflatten s d (fold_left (fun a c => (a * s + c)%nat) (colsum d P) 0%nat) = colsum d P).
    { intros P HP. apply rows_ok_sum in HP. destruct HP as (HP & _ & HP').
      rewrite <- (colsum_length d P) at 1. apply unflatten_digits; [lia|].
      apply Forall_forall. intros c Hc'. apply in_list_sum_le in Hc'.
      rewrite colsum_sum in Hc' by auto. lia. }
    induction Hc as [x|x w l z Hxw Hc IH]; intros Hz HL fuel y Hf; simpl in Hf;
      (destruct fuel as [|fuel]; [lia|]); cbn [tr_loop].
    - inversion HL; subst. rewrite Hterm by auto. rewrite Hflat by auto.
      rewrite supernom_next_end by auto. reflexivity.
    - inversion HL as [|? ? HP HL']; subst. rewrite Hterm by auto. rewrite Hflat by auto.
      rewrite (supernom_next_odo (length ji) ji x w) by auto.
      rewrite IH by (auto; lia). reflexivity.
  Qed.

  (** ** Value of the result *)
  Lemma ksum_bump (f f' : nat -> K) v l n : (l < n)%nat ->
    (forall k, k <> l -> f' k = f k) -> f' l = f l + v ->
    ksum f' (seq 0 n) = ksum f (seq 0 n) + v.
  Proof.
    intros Hl He Hv.
    assert (H : forall i n, ksum f' (seq i n) = ksum f (seq i n) + (if andb (Nat.leb i l) (Nat.ltb l (i + n)) then v else k0)).
    { clear n Hl. intros i n. revert i. induction n as [|n IH]; intros i.
      - simpl. destruct (Nat.leb_spec i l), (Nat.ltb_spec l (i + 0)); simpl; try ring; lia.
      - simpl. rewrite IH.
        destruct (Nat.eq_dec i l) as [->|Hne].
        + rewrite Hv.
          destruct (Nat.leb_spec (S l) l), (Nat.leb_spec l l), (Nat.ltb_spec l (S l + n)),
            (Nat.ltb_spec l (l + S n)); simpl; try lia; ring.
        + rewrite He by auto.
          destruct (Nat.leb_spec (S i) l), (Nat.leb_spec i l), (Nat.ltb_spec l (S i + n)),
            (Nat.ltb_spec l (i + S n)); simpl; try lia; ring. }
    rewrite H. destruct (Nat.leb_spec 0 l), (Nat.ltb_spec l (0 + n)); simpl; try lia. reflexivity.
  Qed.

  Lemma pvalue_seq d m y X : length y = length (simplex_iter d m) ->
    pvalue K k0 k1 kadd kmul d m (coef d m y) X =
    ksum (fun k => nth k y k0 * mono X (nth k (simplex_iter d m) [])) (seq 0 (length y)).
  Proof.
    intros Hy. unfold pvalue, SimplexMul.coef.
    rewrite <- (ksum_combine_lookup K k0 k1 kadd kmul X (simplex_iter d m) y)
      by (auto using simplex_iter_NoDup).
    revert Hy. generalize (simplex_iter d m) as es. induction y as [|c y IH]; intros [|e es] Hy;
      simpl in *; try lia; auto.
    rewrite IH by lia. f_equal. rewrite <- seq_shift, ksum_map. reflexivity.
  Qed.

  Lemma addat_length l v y : length (addat l v y) = length y.
  Proof. unfold addat. apply upd_length. Qed.

  Section Value.
    Variables (d m : nat) (idx : itable) (jdx : list (list nat)).
    Hypothesis Hd : (1 <= d)%nat.
    Hypothesis Hm : (1 <= m)%nat.
    Hypothesis Hs : (Z.of_nat (simplex_size d m) <= 65536)%Z.
    Hypothesis Hen : simplex_enum d m = Some (idx, jdx).

    Lemma pvalue_addat y e v X : length y = simplex_size d m -> length e = d -> (list_sum e < m)%nat ->
      pvalue K k0 k1 kadd kmul d m (coef d m (addat (idx e) v y)) X =
      pvalue K k0 k1 kadd kmul d m (coef d m y) X + v * mono X e.
    Proof.
      intros Hy Hl Hsum. rewrite <- simplex_size_length in Hy by auto.
      rewrite !pvalue_seq by (rewrite ?addat_length; auto). rewrite addat_length.
      pose proof (idx_valid d m Hd Hm Hs idx jdx Hen e Hl Hsum) as Hv.
      rewrite (jdx_iter d m Hd Hm Hs idx jdx Hen) in Hv.
      assert (Hlt : (idx e < length y)%nat) by (rewrite Hy; apply nth_error_Some; congruence).
      apply (ksum_bump _ _ _ (idx e)); auto.
      - intros k Hk. unfold addat. rewrite nth_upd_neq by auto. reflexivity.
      - unfold addat. rewrite nth_upd_eq by auto.
        rewrite (nth_error_nth _ _ [] Hv). ring.
    Qed.

    Lemma pvalue_addats f g X L y :
      (forall P, In P L -> length (f P) = d /\ (list_sum (f P) < m)%nat) ->
      length y = simplex_size d m ->
      pvalue K k0 k1 kadd kmul d m (coef d m (fold_left (fun y (P : list (list nat)) => addat (idx (f P)) (g P) y) L y)) X =
      pvalue K k0 k1 kadd kmul d m (coef d m y) X + ksum (fun P => g P * mono X (f P)) L /\
      length (fold_left (fun y P => addat (idx (f P)) (g P) y) L y) = simplex_size d m.
    Proof.
      revert y. induction L as [|P L IH]; intros y HL Hy; simpl.
      - split; [ring|auto].
      - destruct (IH (addat (idx (f P)) (g P) y)) as [E1 E2].
        + intros P' H'. apply HL. right; auto.
        + rewrite addat_length; auto.
        + split; auto. rewrite E1. destruct (HL P) as [H1 H2]; [left; auto|].
          rewrite pvalue_addat by auto. ring.
    Qed.
  End Value.

  Lemma mono_kprod d x e : length x = d -> length e = d ->
    mono x e = kprod (fun j => kpow (nth j x k0) (nth j e 0%nat)) (seq 0 d).
  Proof.
    revert x e. induction d as [|d IH]; intros [|xi x] [|j e] Hx He; simpl in *; try lia; auto.
    rewrite <- seq_shift, kprod_map. f_equal. apply IH; lia.
  Qed.
  Lemma kpow_sum x l : kpow x (list_sum l) = kprod (kpow x) l.
  Proof.
    induction l as [|n l IH]; simpl; auto.
    rewrite (kpow_add K k0 k1 kadd kmul ksub kopp Kth). rewrite IH. reflexivity.
  Qed.
  Lemma kpow_mul a b n : kpow (a * b) n = kpow a n * kpow b n.
  Proof. induction n as [|n IH]; simpl; [ring|]. rewrite IH. ring. Qed.

  (** the linear map applied to a point *)
  Definition kdot (a b : list K) : K := ksum (fun xy => fst xy * snd xy) (combine a b).
  Definition zipmul (a b : list K) : list K := map (fun xy => fst xy * snd xy) (combine a b).
  Lemma nth_zipmul a b j : length a = length b -> nth j (zipmul a b) k0 = nth j a k0 * nth j b k0.
  Proof.
    revert b j. induction a as [|x a IH]; intros [|y b] [|j] H; simpl in *; try lia; try ring; auto.
    apply IH. lia.
  Qed.

  Lemma nth_colsum d P j : (j < d)%nat -> nth j (colsum d P) 0%nat = list_sum (map (fun r => nth j r 0%nat) P).
  Proof.
    intros H. unfold colsum.
    rewrite (nth_indep _ 0%nat ((fun j => list_sum (map (fun r => nth j r 0%nat) P)) 0%nat))
      by (rewrite map_length, seq_length; auto).
    rewrite (map_nth (fun j => list_sum (map (fun r => nth j r 0%nat) P))).
    rewrite seq_nth by auto. reflexivity.
  Qed.

  Lemma kprod_list {A} (f : A -> K) l dft : kprod f l = kprod (fun k => f (nth k l dft)) (seq 0 (length l)).
  Proof.
    induction l as [|x l IH]; simpl; auto. rewrite <- seq_shift, kprod_map. f_equal. exact IH.
  Qed.
  Lemma kprod_combine_seq {A} (f : nat -> A -> K) l dft :
    kprod (fun kr => f (fst kr) (snd kr)) (combine (seq 0 (length l)) l) =
    kprod (fun k => f k (nth k l dft)) (seq 0 (length l)).
  Proof.
    assert (H : forall i, kprod (fun kr => f (fst kr) (snd kr)) (combine (seq i (length l)) l) =
      kprod (fun k => f (i + k)%nat (nth k l dft)) (seq 0 (length l))).
    { induction l as [|x l IH]; intros i; simpl; auto. rewrite IH, <- seq_shift, kprod_map.
      rewrite Nat.add_0_r. f_equal. apply kprod_ext. intros k _. f_equal. lia. }
    apply H.
  Qed.

  Lemma term_value t d ji P X : rows_ok d ji P -> length ji = d ->
    length t = d -> Forall (fun r => length r = d) t -> length X = d ->
    termc t d P * mono X (colsum d P) =
    kprod (fun kr => kofnat (wmult (snd kr)) * mono (zipmul (nth (fst kr) t []) X) (snd kr))
          (combine (seq 0 d) P).
  Proof.
    intros HP Hji Ht Htr HX. destruct (rows_ok_sum _ _ _ HP) as (Hr & HPl & _).
    rewrite Forall_forall in Hr, Htr.
    assert (HPd : length P = d) by lia.
    pose proof (kprod_combine_seq (fun k r => kofnat (wmult r) * mono (zipmul (nth k t []) X) r) P []) as E.
    rewrite HPd in E. rewrite E. clear E.
    unfold termc. rewrite !kprod_mul.
    rewrite (mono_kprod d X) by (auto; apply colsum_length).
    replace (kprod (fun j => kofnat (wmult (nth j P []))) (seq 0 d) *
      kprod (fun x => kprod (fun k => kpow (nth x (nth k t []) k0) (nth x (nth k P []) 0%nat)) (seq 0 d)) (seq 0 d) *
      kprod (fun j => kpow (nth j X k0) (nth j (colsum d P) 0%nat)) (seq 0 d))
    with (kprod (fun j => kofnat (wmult (nth j P []))) (seq 0 d) *
      (kprod (fun x => kprod (fun k => kpow (nth x (nth k t []) k0) (nth x (nth k P []) 0%nat)) (seq 0 d)) (seq 0 d) *
      kprod (fun j => kpow (nth j X k0) (nth j (colsum d P) 0%nat)) (seq 0 d))) by ring.
    f_equal. rewrite <- kprod_mul.
    transitivity (kprod (fun j => kprod (fun k => kpow (nth j (nth k t []) k0 * nth j X k0) (nth j (nth k P []) 0%nat))
       (seq 0 d)) (seq 0 d)).
    - apply kprod_ext. intros j Hj. apply in_seq in Hj. rewrite nth_colsum by lia.
      rewrite kpow_sum, kprod_map, (kprod_list _ P []), HPd, <- kprod_mul.
      apply kprod_ext. intros k _. rewrite kpow_mul. reflexivity.
    - rewrite kprod_swap. apply kprod_ext. intros k Hk. apply in_seq in Hk.
      assert (Htk : length (nth k t []) = d) by (apply Htr, nth_In; lia).
      assert (Hpk : length (nth k P []) = d) by (apply Hr, nth_In; lia).
      rewrite (mono_kprod d).
      + apply kprod_ext. intros j _. rewrite nth_zipmul by congruence. reflexivity.
      + unfold zipmul. rewrite map_length, combine_length. lia.
      + auto.
  Qed.

  (** the expansion of a power of a linear form with stored coefficients *)
  Definition wexpand (n p : nat) (z : list K) : K :=
    ksum (fun q => kofnat (wmult q) * mono z q) (comps n p).
  Definition wmono (n : nat) (t : list (list K)) (X : list K) (e : list nat) : K :=
    kprod (fun k => wexpand n (nth k e 0%nat) (zipmul (nth k t []) X)) (seq 0 (S n)).

  Lemma source_value t n ji xi X : length ji = S n ->
    length t = S n -> Forall (fun r => length r = S n) t -> length X = S n ->
    ksum (fun P => termc t (S n) P * xi * mono X (colsum (S n) P)) (prods (map (comps n) ji)) =
    xi * wmono n t X ji.
  Proof.
    intros Hji Ht Htr HX.
    transitivity (ksum (fun P => xi *
      kprod (fun kr => kofnat (wmult (snd kr)) * mono (zipmul (nth (fst kr) t []) X) (snd kr))
          (combine (seq 0 (length (map (comps n) ji))) P)) (prods (map (comps n) ji))).
    - apply ksum_ext. intros P HP. apply prods_ok in HP. rewrite map_length, Hji.
      rewrite <- (term_value t (S n) ji P X) by auto. ring.
    - rewrite (ksum_scale K k0 k1 kadd kmul ksub kopp Kth). f_equal.
      rewrite (ksum_prods (fun k r => kofnat (wmult r) * mono (zipmul (nth k t []) X) r)).
      rewrite (kprod_combine_seq (fun k l => ksum (fun r => kofnat (wmult r) * mono (zipmul (nth k t []) X) r) l) _ []).
      rewrite map_length, Hji. unfold wmono.
      apply kprod_ext. intros k Hk. apply in_seq in Hk.
      rewrite (nth_indep _ [] (comps n 0)) by (rewrite map_length; lia).
      rewrite (map_nth (comps n)). reflexivity.
  Qed.

  Lemma wmono_small n t X ji : length ji = S n ->
    length t = S n -> Forall (fun r => length r = S n) t -> length X = S n ->
    (forall q, length q = S n -> (list_sum q <= list_sum ji)%nat -> small (multinom q)) ->
    wmono n t X ji = mono (map (fun r => kdot r X) t) ji.
  Proof.
    intros Hji Ht Htr HX Hsm.
    unfold wmono. rewrite (mono_kprod (S n)) by (rewrite ?map_length; auto).
    apply kprod_ext. intros k Hk. apply in_seq in Hk.
    assert (Htk : length (nth k t []) = S n) by (rewrite Forall_forall in Htr; apply Htr, nth_In; lia).
    unfold wexpand.
    transitivity (ksum (fun q => kofnat (multinom q) * mono (zipmul (nth k t []) X) q) (comps n (nth k ji 0%nat))).
    - apply ksum_ext. intros q Hq. apply comps_spec in Hq. destruct Hq as [Hq1 Hq2].
      rewrite wmult_small; auto. apply Hsm; auto. rewrite Hq2. apply in_list_sum_le, nth_In. lia.
    - rewrite multinomial_theorem by (unfold zipmul; rewrite map_length, combine_length; lia).
      f_equal. unfold zipmul. rewrite ksum_map.
      rewrite (nth_indep _ k0 (kdot [] X)) by (rewrite map_length; lia).
      rewrite (map_nth (fun r => kdot r X)). reflexivity.
  Qed.

  (** ** The transform *)
  Lemma set_first_zero d ji : (1 <= d)%nat -> length ji = d ->
    tr_set_first ji (repeat (repeat 0%nat d) d) = map (firstc d) ji.
  Proof.
    intros Hd Hl. unfold tr_set_first. rewrite <- Hl at 2. clear Hl.
    induction ji as [|j ji IH]; cbn [length repeat combine map fst snd]; auto.
    rewrite IH. f_equal. unfold firstc. destruct d; [lia|]. simpl. rewrite Nat.sub_0_r. reflexivity.
  Qed.
  Lemma set_first_first d ji ji' : length ji = length ji' ->
    tr_set_first ji' (map (firstc d) ji) = map (firstc d) ji'.
  Proof.
    revert ji'. induction ji as [|j ji IH]; intros [|j' ji'] H; simpl in *; try lia; auto.
    unfold tr_set_first in *. simpl. rewrite IH by lia. reflexivity.
  Qed.
  Lemma firsts_ones d ji : map wmult (map (firstc d) ji) = repeat 1%nat (length ji).
  Proof.
    induction ji as [|j ji IH]; cbn [map length repeat]; auto. rewrite IH. f_equal. apply wmult_first.
  Qed.

  Definition fuel_for (n : nat) (src : list (list nat * K)) : nat :=
    list_max (map (fun s => length (prods (map (comps n) (fst s)))) src).

  Section Main.
    Variables (n m : nat) (idx : itable) (jdx : list (list nat)).
    Let d := S n.
    Hypothesis Hm : (1 <= m)%nat.
    Hypothesis Hs : (Z.of_nat (simplex_size d m) <= 65536)%Z.
    Hypothesis Hen : simplex_enum d m = Some (idx, jdx).
    Hypothesis Hmul : forall q, length q = d -> (list_sum q < m)%nat -> wmult q <> 0%nat.

    Lemma m_small : (Z.of_nat m <= 65536)%Z.
    Proof.
      assert (Hle : (m <= simplex_size d m)%nat).
      { rewrite <- simplex_size_length by auto.
        assert (Hinc : incl (map (fun k => k :: repeat 0%nat n) (seq 0 m)) (simplex_iter d m)).
        { intros e He. apply in_map_iff in He. destruct He as (k & <- & Hk). apply in_seq in Hk.
          apply simplex_iter_spec; [left; unfold d; lia|]. simpl.
          rewrite repeat_length, repeat_sum0. unfold d. lia. }
        apply NoDup_incl_length in Hinc.
        - rewrite map_length, seq_length in Hinc. exact Hinc.
        - apply FinFun.Injective_map_NoDup; [|apply seq_NoDup]. intros u v E; inversion E; auto. }
      lia.
    Qed.

    Lemma tr_outer_ok t X : length t = d -> Forall (fun r => length r = d) t -> length X = d ->
      forall src fuel p y,
      Forall (fun s => length (fst s) = d /\ (list_sum (fst s) < m)%nat) src ->
      (p = repeat (repeat 0%nat d) d \/ exists ji, length ji = d /\ p = map (firstc d) ji) ->
      (fuel_for n src <= fuel)%nat -> length y = simplex_size d m ->
      exists y', tr_outer K k0 k1 kadd kmul fuel idx d m t src p (repeat 1%nat d) y = Some y' /\
        length y' = simplex_size d m /\
        pvalue K k0 k1 kadd kmul d m (coef d m y') X =
        pvalue K k0 k1 kadd kmul d m (coef d m y) X +
        ksum (fun s => snd s * wmono n t X (fst s)) src.
    Proof.
      intros Ht Htr HX. induction src as [|[ji xi] src IH]; intros fuel p y Hsrc Hp Hf Hy.
      - exists y. simpl. repeat split; auto. ring.
      - inversion Hsrc as [|? ? [Hjl Hjs] Hsrc']; subst. simpl in Hjl, Hjs.
        cbn [tr_outer].
        assert (Hp0 : tr_set_first ji p = map (firstc d) ji).
        { destruct Hp as [-> | (ji' & Hl' & -> )].
          - apply set_first_zero; auto. unfold d; lia.
          - apply set_first_first. lia. }
        rewrite Hp0.
        replace (repeat 1%nat d) with (map wmult (map (firstc d) ji)) by (rewrite firsts_ones, Hjl; auto).
        assert (Hfu : (length (prods (map (comps n) ji)) <= fuel)%nat /\ (fuel_for n src <= fuel)%nat).
        { unfold fuel_for in *. cbn [map list_max fold_right fst] in Hf.
          change (fold_right Nat.max 0%nat (map (fun s : list nat * K => length (prods (map (comps n) (fst s)))) src))
            with (list_max (map (fun s : list nat * K => length (prods (map (comps n) (fst s)))) src)) in Hf.
          lia. }
        rewrite (tr_loop_ok d m idx t ji xi _ (prods (map (comps n) ji)) (map (lastc d) ji)); auto.
        + 
          destruct (pvalue_addats d m idx jdx ltac:(unfold d; lia) Hm Hs Hen (colsum d) (fun P => termc t d P * xi) X
                      (prods (map (comps n) ji)) y) as [Ev El]; auto.
          { intros P HP. apply prods_ok in HP. fold d in HP. apply rows_ok_sum in HP.
            destruct HP as (HP1 & HP2 & HP3).
            split; [apply colsum_length|]. rewrite colsum_sum by auto. lia. }
          destruct (IH fuel (map (firstc d) ji)
             (fold_left (fun y P => addat (idx (colsum d P)) (termc t d P * xi) y) (prods (map (comps n) ji)) y))
            as (y' & E1 & E2 & E3); auto.
          * right. exists ji. auto.
          * tauto.
          * exists y'. split; [exact E1|]. split; [exact E2|]. rewrite E3, Ev.
            pose proof (source_value t n ji xi X Hjl Ht Htr HX) as Esrc. fold d in Esrc. rewrite Esrc. simpl. ring.
        + unfold d; lia.
        + apply Forall_forall. intros j Hj. apply in_list_sum_le in Hj. pose proof m_small.
          unfold small. lia.
        + intros q Hq Hin. apply Hmul; auto. apply in_list_sum_le in Hin. lia.
        + apply prods_chain.
        + apply Forall_forall. intros P HP. apply prods_ok in HP. exact HP.
        + tauto.
    Qed.

    Theorem transform_wrapped a t : length a = simplex_size d m ->
      length t = d -> Forall (fun r => length r = d) t ->
      exists N, forall fuel, (N <= fuel)%nat -> forall X, length X = d ->
      exists b, simplex_transform K k0 k1 kadd kmul fuel idx jdx a t = Some b /\
        length b = simplex_size d m /\
        pvalue K k0 k1 kadd kmul d m (coef d m b) X =
        ksum (fun e => coef d m a e * wmono n t X e) (simplex_iter d m).
    Proof.
      intros Ha Ht Htr.
      exists (fuel_for n (combine jdx a)). intros fuel Hf X HX.
      unfold simplex_transform.
      assert (Hj : jdx = simplex_iter d m) by (apply (jdx_iter d m ltac:(unfold d; lia) Hm Hs idx jdx Hen)).
      assert (Hjn : length jdx = simplex_size d m) by (rewrite Hj; apply simplex_size_length; auto).
      assert (H0 : length (nth 0 jdx []) = d).
      { pose proof (simplex_iter_first d m Hm) as H0. rewrite <- Hj in H0.
        rewrite (nth_error_nth _ _ [] H0) || idtac. destruct jdx as [|e0 js]; [discriminate|].
        simpl in *. inversion H0; subst. simpl; rewrite repeat_length; reflexivity. }
      assert (Hl : (last (nth (length jdx - 1) jdx []) 0 + 1)%nat = m).
      { assert (Hlast : nth (length jdx - 1) jdx [] = last jdx []).
        { clear. induction jdx as [|e js IH]; auto. destruct js as [|e' js]; auto.
          simpl in *. rewrite Nat.sub_0_r in IH. exact IH. }
        rewrite Hlast, Hj, simplex_iter_last by (unfold d; lia). rewrite last_last. lia. }
      rewrite H0, Hl, Hjn.
      destruct (tr_outer_ok t X Ht Htr HX (combine jdx a) fuel (repeat (repeat 0%nat d) d) (repeat k0 (simplex_size d m)))
        as (b & E1 & E2 & E3); auto.
      - apply Forall_forall. intros [e c] Hin. apply in_combine_l in Hin. simpl.
        rewrite Hj in Hin. apply simplex_iter_spec in Hin; auto.
      - apply repeat_length.
      - exists b. split; [exact E1|]. split; [exact E2|]. rewrite E3.
        rewrite pvalue_seq by (rewrite repeat_length; symmetry; apply simplex_size_length; auto).
        rewrite (ksum_zero K k0 k1 kadd kmul ksub kopp Kth).
        + transitivity (ksum (fun s => snd s * wmono n t X (fst s)) (combine jdx a)); [ring|].
          rewrite Hj. unfold SimplexMul.coef.
          assert (Hal : length a = length (simplex_iter d m)) by (rewrite Ha; symmetry; apply simplex_size_length; auto).
          pose proof (simplex_iter_NoDup d m) as Hnd. revert Hal Hnd.
          clear. generalize (simplex_iter d m) as es. revert a.
          induction a as [|c a IH]; intros [|e es] Hal Hnd; simpl in *; try lia; auto.
          inversion Hnd as [|? ? Hni Hn']; subst.
          assert (E : tuple_eqb e e = true) by (apply tuple_eqb_eq; auto). rewrite E.
          f_equal. rewrite IH by (auto; lia). apply ksum_ext. intros e' He'.
          destruct (tuple_eqb e e') eqn:E'; auto.
          apply tuple_eqb_eq in E'. subst. contradiction.
        + intros k _. 
          assert (Hz : forall N k, nth k (repeat k0 N) k0 = k0) by (clear; intros N; induction N; intros [|k]; simpl; auto).
          rewrite Hz. ring.
    Qed.

    Theorem transform_value a t : 
      (forall q, length q = d -> (list_sum q < m)%nat -> small (multinom q)) ->
      length a = simplex_size d m ->
      length t = d -> Forall (fun r => length r = d) t ->
      exists N, forall fuel, (N <= fuel)%nat -> forall X, length X = d ->
      exists b, simplex_transform K k0 k1 kadd kmul fuel idx jdx a t = Some b /\
        length b = simplex_size d m /\
        pvalue K k0 k1 kadd kmul d m (coef d m b) X =
        pvalue K k0 k1 kadd kmul d m (coef d m a) (map (fun r => kdot r X) t).
    Proof.
      intros Hsm Ha Ht Htr. destruct (transform_wrapped a t Ha Ht Htr) as [N HN].
      exists N. intros fuel Hf X HX. destruct (HN fuel Hf X HX) as (b & H1 & H2 & H3).
      exists b. split; [auto|]. split; [auto|]. rewrite H3. unfold pvalue. apply ksum_ext.
      intros e He. apply simplex_iter_spec in He; auto.
      destruct He as [He1 He2]. f_equal. apply wmono_small; auto.
      intros q Hq1 Hq2. apply Hsm; auto. lia.
    Qed.
  End Main.
End Transform.
