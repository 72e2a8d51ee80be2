(** Evaluation of truncated multinomials (C06). *)
From Coq Require Import List Arith ZArith Lia Bool Permutation Ring.
From Verif Require Import SimplexModel SimplexEnum SimplexPairs SimplexMul.
Import ListNotations.

(** the last monomial is the highest power of the last variable *)
Lemma simplex_iter_last d m : 1 <= d -> 1 <= m ->
  last (simplex_iter d m) [] = repeat 0 (d - 1) ++ [m - 1].
Proof.
  revert m. induction d as [|d IH]; intros m Hd Hm; [lia|].
  destruct m as [|m]; [lia|].
  cbn [simplex_iter]. rewrite seq_S, flat_map_app. simpl.
  rewrite app_nil_r.
  assert (Hne : simplex_iter d (m + 1) <> []).
  { intros E. pose proof (simplex_iter_first d (m + 1) ltac:(lia)) as H.
    rewrite E in H. discriminate. }
  assert (Hl : forall {A} (l l' : list A) x, l' <> [] -> last (l ++ l') x = last l' x).
  { clear. intros A l l' x Hl. induction l as [|y l IH]; auto. simpl.
    destruct (l ++ l') eqn:E; auto. destruct l; simpl in E; [congruence|discriminate]. }
  assert (Hml : forall {A B} (f : A -> B) l x y, l <> [] -> last (map f l) x = f (last l y)).
  { clear. intros A B f l x y H. induction l as [|z l IH]; [congruence|].
    destruct l as [|z' l]; [reflexivity|]. change (last (z :: z' :: l) y) with (last (z' :: l) y).
    rewrite <- IH by discriminate. reflexivity. }
  rewrite Hl by (destruct (simplex_iter d (m + 1)); [congruence|discriminate]).
  rewrite (Hml _ _ _ _ _ []) by auto.
  destruct d as [|d].
  - simpl. f_equal; lia || reflexivity.
  - rewrite IH by lia. replace (m + 1 - 1) with m by lia.
    rewrite list_sum_app.
    assert (Hz : forall n, list_sum (repeat 0 n) = 0) by (intros n; induction n; simpl; auto).
    rewrite Hz. simpl. rewrite Nat.sub_0_r.
    replace (m - (m + 0)) with 0 by lia. rewrite ?Nat.sub_0_r; reflexivity.
Qed.

Section Eval.
  Variable K : Type.
  Variables (k0 k1 : K) (kadd kmul ksub : K -> K -> K) (kopp : K -> K).
  Hypothesis Kth : ring_theory k0 k1 kadd kmul ksub kopp (@eq K).
  Add Ring Kring : Kth.
  Local Notation "x + y" := (kadd x y).
  Local Notation "x * y" := (kmul x y).
  Local Notation ksum := (ksum K k0 kadd).
  Local Notation kpow := (kpow K k1 kmul).
  Local Notation coef := (coef K k0).

  (** ** Specification: value of a monomial and of a polynomial *)
  Fixpoint mono (x : list K) (e : list nat) : K :=
    match x, e with
    | xi :: x', ei :: e' => kpow xi ei * mono x' e'
    | _, _ => k1
    end.
  Definition pvalue (d m : nat) (c : list nat -> K) (x : list K) : K :=
    ksum (fun e => c e * mono x e) (simplex_iter d m).

  Lemma kpow_S x n : kpow x (S n) = x * kpow x n. Proof. reflexivity. Qed.
  Lemma kpow_add x i j : kpow x (i + j) = kpow x i * kpow x j.
  Proof. induction i as [|i IH]; simpl; [ring|]. rewrite IH. ring. Qed.

  Lemma powers_from_nth x cur n k : (k < n)%nat ->
    nth_error (powers_from K kmul x cur n) k = Some (cur * kpow x k).
  Proof.
    revert cur k. induction n as [|n IH]; intros cur k Hk; [lia|].
    destruct k as [|k]; simpl.
    - f_equal. ring.
    - rewrite IH by lia. f_equal. ring.
  Qed.

  Lemma tables_some x n : (1 <= n)%nat ->
    all_some (map (fun xi => power_table K kmul xi n) x) =
    Some (map (fun xi => powers_from K kmul xi xi n) x).
  Proof.
    intros Hn. destruct n as [|n]; [lia|].
    induction x as [|xi x IH]; [reflexivity|]. simpl in *. rewrite IH. reflexivity.
  Qed.

  Lemma eval_mono_ok n x e yi :
    length x = length e -> Forall (fun j => (j <= n)%nat) e ->
    eval_mono K kmul (map (fun xi => powers_from K kmul xi xi n) x) e yi = Some (yi * mono x e).
  Proof.
    revert x yi. induction e as [|j e IH]; intros [|xi x] yi Hl Hf; simpl in Hl; try lia.
    - simpl. f_equal. ring.
    - inversion Hf; subst. destruct j as [|j]; cbn [map eval_mono mono].
      + rewrite IH by (auto; lia). f_equal. simpl. ring.
      + rewrite powers_from_nth by lia. rewrite IH by (auto; lia).
        f_equal. rewrite kpow_S. ring.
  Qed.

  Lemma eval_fold n x es a y :
    length a = length es ->
    Forall (fun e => length x = length e /\ Forall (fun j => (j <= n)%nat) e) es ->
    fold_left (fun y ae =>
                     match y with
                     | None => None
                     | Some y => match eval_mono K kmul (map (fun xi => powers_from K kmul xi xi n) x) (snd ae) (fst ae) with
                                 | None => None
                                 | Some yi => Some (y + yi)
                                 end
                     end) (combine a es) (Some y) =
    Some (y + ksum (fun ae => fst ae * mono x (snd ae)) (combine a es)).
  Proof.
    revert a y. induction es as [|e es IH]; intros [|c a] y Hl Hf; simpl in Hl; try lia.
    - simpl. f_equal. ring.
    - inversion Hf as [|? ? [H1 H2] Hf']; subst. cbn [combine fold_left fst snd].
      rewrite eval_mono_ok by auto. rewrite IH by (auto; lia).
      f_equal. simpl. ring.
  Qed.

  Lemma ksum_combine_lookup x es a :
    NoDup es -> length a = length es ->
    ksum (fun ae => fst ae * mono x (snd ae)) (combine a es) =
    ksum (fun e => lookup K k0 es a e * mono x e) es.
  Proof.
    revert a. induction es as [|e es IH]; intros [|c a] Hn Hl; simpl in Hl; try lia; auto.
    inversion Hn as [|? ? Hni Hn']; subst. simpl.
    assert (E : tuple_eqb e e = true) by (apply tuple_eqb_eq; auto). rewrite E.
    f_equal. rewrite IH by (auto; lia). apply ksum_ext. intros e' He'.
    destruct (tuple_eqb e e') eqn:E'; auto.
    apply tuple_eqb_eq in E'. subst. contradiction.
  Qed.

  Lemma list_sum_bound e : Forall (fun j => (j <= list_sum e)%nat) e.
  Proof.
    induction e as [|x e IH]; constructor; simpl; [lia|].
    eapply Forall_impl; [|exact IH]. simpl. intros; lia.
  Qed.

  Theorem eval_n_value d m n a x :
    (1 <= d)%nat -> (1 <= m)%nat -> (1 <= n)%nat -> (m - 1 <= n)%nat ->
    length a = simplex_size d m -> length x = d ->
    simplex_eval_n K k0 kadd kmul n (simplex_iter d m) a x = Some (pvalue d m (coef d m a) x).
  Proof.
    intros Hd Hm Hn1 Hn Ha Hx. unfold simplex_eval_n. rewrite tables_some by auto.
    rewrite <- simplex_size_length in Ha by auto.
    rewrite eval_fold; auto.
    - rewrite ksum_combine_lookup by (auto using simplex_iter_NoDup).
      unfold pvalue, SimplexMul.coef. f_equal. ring.
    - apply Forall_forall. intros e He. apply simplex_iter_spec in He; auto.
      destruct He as [Hl Hlt]. split; [lia|].
      eapply Forall_impl; [|apply (list_sum_bound e)]. simpl. intros; lia.
  Qed.

  Theorem eval_value d m idx jdx a x :
    (1 <= d)%nat -> (2 <= m)%nat -> (Z.of_nat (simplex_size d m) <= 65536)%Z ->
    simplex_enum d m = Some (idx, jdx) ->
    length a = simplex_size d m -> length x = d ->
    simplex_eval K k0 kadd kmul jdx a x = Some (pvalue d m (coef d m a) x).
  Proof.
    intros Hd Hm Hs Hen Ha Hx. unfold simplex_eval.
    rewrite (jdx_iter d m Hd ltac:(lia) Hs idx jdx Hen).
    rewrite simplex_iter_last by lia. rewrite last_last.
    apply eval_n_value; auto; lia.
  Qed.

  (** ** Products *)
  Lemma mono_zip_add x p q : length x = length p -> length p = length q ->
    mono x (zip_add p q) = mono x p * mono x q.
  Proof.
    revert p q. induction x as [|xi x IH]; intros [|a p] [|b q] H1 H2; simpl in *; try lia; try ring.
    unfold zip_add in *. simpl. rewrite IH by lia. rewrite kpow_add. ring.
  Qed.

  (** all monomial pairs, those below the truncation order and those above *)
  Definition allpairs (d m : nat) : list (list nat * list nat) :=
    list_prod (simplex_iter d m) (simplex_iter d m).
  Definition low (m : nat) (pq : list nat * list nat) : bool :=
    Nat.ltb (list_sum (fst pq) + list_sum (snd pq)) m.

  Lemma ksum_list_prod {A B} (f : A -> B -> K) la lb :
    ksum (fun ab => f (fst ab) (snd ab)) (list_prod la lb) = ksum (fun a => ksum (f a) lb) la.
  Proof.
    induction la as [|a la IH]; simpl; auto.
    rewrite (ksum_app K k0 k1 kadd kmul ksub kopp Kth), ksum_map, IH. reflexivity.
  Qed.

  Lemma ksum_filter {A} (f : A -> K) (b : A -> bool) l :
    ksum f l = ksum f (filter b l) + ksum f (filter (fun x => negb (b x)) l).
  Proof.
    induction l as [|x l IH]; simpl; [ring|].
    destruct (b x); simpl; rewrite IH; ring.
  Qed.

  Lemma low_pairs_perm d m : (1 <= d)%nat -> (1 <= m)%nat ->
    Permutation (filter (low m) (allpairs d m))
      (flat_map (fun e => map (fun p => (p, zip_sub e p)) (below e)) (simplex_iter d m)).
  Proof.
    intros Hd Hm. apply NoDup_Permutation.
    - apply NoDup_filter. unfold allpairs.
      assert (H : forall {A B} (la : list A) (lb : list B), NoDup la -> NoDup lb -> NoDup (list_prod la lb)).
      { clear. intros A B la lb Ha Hb. induction Ha as [|a la Hna Ha IH]; simpl; [constructor|].
        assert (Hd : forall x, In x (map (fun y => (a, y)) lb) -> ~ In x (list_prod la lb)).
        { intros x Hx Hy. apply in_map_iff in Hx. destruct Hx as (y & <- & _).
          apply in_prod_iff in Hy. tauto. }
        assert (Hm : NoDup (map (fun y => (a, y)) lb)).
        { apply FinFun.Injective_map_NoDup; auto. intros u v E; inversion E; auto. }
        revert Hd Hm. generalize (map (fun y => (a, y)) lb). intros l Hd Hm.
        induction Hm as [|x l Hx Hm IHl]; simpl; auto. constructor.
        - rewrite in_app_iff. intros [H|H]; [auto|]. apply (Hd x); [left; auto|auto].
        - apply IHl. intros y Hy. apply Hd. right; auto. }
      apply H; apply simplex_iter_NoDup.
    - apply NoDup_flat_map_disj.
      + apply simplex_iter_NoDup.
      + intros e _. apply FinFun.Injective_map_NoDup; [|apply below_NoDup].
        intros u v E; inversion E; auto.
      + intros e e' b _ _ Hb Hb'. apply in_map_iff in Hb, Hb'.
        destruct Hb as (p & <- & Hp), Hb' as (p' & E & Hp').
        inversion E; subst. apply in_below in Hp, Hp'.
        rewrite <- (zip_add_sub e p Hp), <- (zip_add_sub e' p Hp'). congruence.
    - intros [p q]. rewrite filter_In. unfold allpairs. rewrite in_prod_iff.
      rewrite in_flat_map. rewrite !simplex_iter_spec by auto.
      unfold low. simpl. rewrite Nat.ltb_lt. split.
      + intros [[[Hp Hp'] [Hq Hq']] Hs]. exists (zip_add p q). split.
        * apply simplex_iter_spec; auto. rewrite zip_add_length, zip_add_sum by lia. lia.
        * apply in_map_iff. exists p. split; [rewrite zip_sub_add; [auto|lia]|].
          apply in_below. apply zip_add_le. lia.
      + intros (e & He & Hin). apply simplex_iter_spec in He; auto.
        apply in_map_iff in Hin. destruct Hin as (p' & E & Hp). inversion E; subst.
        apply in_below in Hp. pose proof (Forall2_le_length _ _ Hp).
        pose proof (Forall2_le_sum _ _ Hp).
        assert (Hl2 : length (zip_sub e p) = length p) by (apply zip_sub_length; lia).
        assert (Hz : list_sum (zip_add p (zip_sub e p)) = list_sum e) by (rewrite zip_add_sub; auto).
        rewrite zip_add_sum in Hz by lia. lia.
  Qed.

  (** evaluating a product: only monomials at or above the truncation order
      are missing *)
  Theorem pvalue_conv d m f g x :
    (1 <= d)%nat -> (1 <= m)%nat -> length x = d ->
    pvalue d m f x * pvalue d m g x =
    pvalue d m (conv K k0 kadd kmul f g) x +
    ksum (fun pq => f (fst pq) * g (snd pq) * mono x (zip_add (fst pq) (snd pq)))
         (filter (fun pq => negb (low m pq)) (allpairs d m)).
  Proof.
    intros Hd Hm Hx.
    transitivity (ksum (fun pq => f (fst pq) * g (snd pq) * mono x (zip_add (fst pq) (snd pq))) (allpairs d m)).
    - unfold pvalue, allpairs.
      rewrite (ksum_list_prod (fun p q => f p * g q * mono x (zip_add p q))).
      rewrite <- (ksum_scale_r K k0 k1 kadd kmul ksub kopp Kth). apply ksum_ext. intros p Hp.
      rewrite <- (ksum_scale K k0 k1 kadd kmul ksub kopp Kth). apply ksum_ext. intros q Hq.
      apply simplex_iter_spec in Hp, Hq; auto.
      rewrite mono_zip_add by lia. ring.
    - rewrite (ksum_filter _ (low m)). f_equal.
      rewrite (ksum_perm K k0 k1 kadd kmul ksub kopp Kth _ _ _ (low_pairs_perm d m Hd Hm)).
      rewrite (ksum_flat_map K k0 k1 kadd kmul ksub kopp Kth).
      unfold pvalue. apply ksum_ext. intros e He. rewrite ksum_map.
      unfold conv. rewrite <- (ksum_scale_r K k0 k1 kadd kmul ksub kopp Kth).
      apply ksum_ext. intros p Hp. apply in_below in Hp. simpl.
      rewrite zip_add_sub by auto. reflexivity.
  Qed.
End Eval.
