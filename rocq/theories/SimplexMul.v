(** Multiplication is truncated polynomial multiplication (C03, C04). *)
From Coq Require Import List Arith ZArith Lia Bool Permutation FinFun Ring.
From Verif Require Import SimplexModel SimplexEnum SimplexPairs.
Import ListNotations.

(** ** Contents of the tables *)
Section Tables.
  Variables (d m : nat).
  Hypothesis Hd : 1 <= d.
  Hypothesis Hm : 1 <= m.
  Hypothesis Hs : (Z.of_nat (simplex_size d m) <= 65536)%Z.
  Variables (idx : itable) (jdx : list (list nat)).
  Hypothesis Hen : simplex_enum d m = Some (idx, jdx).

  Lemma jdx_iter : jdx = simplex_iter d m.
  Proof. apply (simplex_enum_spec d m idx jdx); auto. Qed.

  Lemma idx_nth k e : nth_error jdx k = Some e -> idx e = k.
  Proof. apply (simplex_enum_spec d m idx jdx); auto. Qed.

  Lemma idx_valid e : length e = d -> list_sum e < m -> nth_error jdx (idx e) = Some e.
  Proof.
    intros Hl Hlt. assert (Hin : In e jdx).
    { rewrite jdx_iter. apply simplex_iter_spec; auto. }
    apply In_nth_error in Hin. destruct Hin as [k Hk].
    rewrite (idx_nth _ _ Hk). auto.
  Qed.

  Lemma idx_inj e e' : length e = d -> list_sum e < m -> length e' = d -> list_sum e' < m ->
    idx e = idx e' -> e = e'.
  Proof.
    intros H1 H2 H3 H4 E. apply idx_valid in H1; auto. apply idx_valid in H3; auto.
    rewrite E in H1. congruence.
  Qed.

  Lemma jdx_valid k e : nth_error jdx k = Some e -> length e = d /\ list_sum e < m.
  Proof.
    intros H. apply nth_error_In in H. rewrite jdx_iter in H.
    apply simplex_iter_spec in H; auto.
  Qed.

  (** row [k] of the table, as index pairs, up to order *)
  Lemma row_of_perm k e :
    nth_error jdx k = Some e ->
    Permutation (row_of idx k (simplex_iter (2 * d) m))
                (map (fun p => (idx p, idx (zip_sub e p))) (below e)).
  Proof.
    intros Hk. destruct (jdx_valid _ _ Hk) as [Hl Hlt].
    pose proof (idx_nth _ _ Hk) as Hik.
    assert (E : row_of idx k (simplex_iter (2 * d) m) =
      map (fun x => (idx (fst x), idx (snd x)))
        (filter (fun x => tuple_eqb (pair_sum x) e) (map split_pq (simplex_iter (2 * d) m)))).
    { unfold row_of.
      assert (Hall : forall pq, In pq (simplex_iter (2 * d) m) ->
        Nat.eqb (slot_of idx pq) k = tuple_eqb (pair_sum (split_pq pq)) e).
      { intros pq Hpq.
        assert (Hin : In (split_pq pq) (map split_pq (simplex_iter (2 * d) m))) by (apply in_map; auto).
        unfold split_pq in Hin. apply in_split_iter in Hin; auto.
        destruct Hin as (H1 & H2 & H3).
        apply eq_true_iff_eq. rewrite Nat.eqb_eq, tuple_eqb_eq.
        unfold slot_of, pair_sum, split_pq. simpl. split; intros H.
        - apply idx_inj; auto.
          + rewrite zip_add_length; lia.
          + rewrite zip_add_sum; lia.
          + congruence.
        - congruence. }
      revert Hall. generalize (simplex_iter (2 * d) m). intros l Hall.
      induction l as [|pq l IH]; simpl; auto.
      rewrite Hall by (left; auto).
      destruct (tuple_eqb (pair_sum (split_pq pq)) e); simpl; rewrite IH; auto;
        intros; apply Hall; right; auto. }
    rewrite E. rewrite (pairs_permutation d m e Hl Hlt).
    rewrite map_map. reflexivity.
  Qed.

  Lemma row_of_length k e :
    nth_error jdx k = Some e ->
    length (row_of idx k (simplex_iter (2 * d) m)) = npairs e.
  Proof.
    intros Hk. rewrite (Permutation_length (row_of_perm k e Hk)).
    rewrite map_length. apply length_below.
  Qed.

  Lemma slot_of_valid pq : In pq (simplex_iter (2 * d) m) -> slot_of idx pq < length jdx.
  Proof.
    intros Hpq.
    assert (Hin : In (split_pq pq) (map split_pq (simplex_iter (2 * d) m))) by (apply in_map; auto).
    unfold split_pq in Hin. apply in_split_iter in Hin; auto.
    destruct Hin as (H1 & H2 & H3).
    apply nth_error_Some. unfold slot_of. rewrite idx_valid; [discriminate| |].
    - rewrite zip_add_length; lia.
    - rewrite zip_add_sum; lia.
  Qed.

  Lemma repeat_rows k : k < length jdx ->
    nth_error (repeat (A := row) [] (length jdx)) k = Some (row_of idx k []).
  Proof.
    unfold row_of. simpl. revert k. induction (length jdx) as [|n IHn];
      intros [|k] Hk; simpl; try lia; auto. apply IHn; lia.
  Qed.

  (** the loop succeeds exactly when every monomial's pairs fit *)
  Lemma idx_fold_ok :
    (forall e, length e = d -> list_sum e < m -> npairs e <= idx_capacity m) ->
    exists abi, fold_left (idx_step idx (idx_capacity m)) (simplex_iter (2 * d) m)
                  (Some (repeat [] (length jdx))) = Some abi.
  Proof.
    intros Hc.
    destruct (idx_loop_ok idx (idx_capacity m) (length jdx) (simplex_iter (2 * d) m) []
                (repeat [] (length jdx))) as (abi & E & _).
    - apply repeat_length.
    - apply repeat_rows.
    - apply slot_of_valid.
    - intros l Hl. apply nth_error_Some in Hl.
      destruct (nth_error jdx l) as [e|] eqn:Ee; [|congruence].
      rewrite app_nil_l, (row_of_length l e Ee).
      destruct (jdx_valid _ _ Ee). apply Hc; auto.
    - exists abi; auto.
  Qed.

  Lemma idx_fold_spec abi :
    fold_left (idx_step idx (idx_capacity m)) (simplex_iter (2 * d) m)
              (Some (repeat [] (length jdx))) = Some abi ->
    length abi = length jdx /\
    (forall k e, nth_error jdx k = Some e ->
       exists r, nth_error abi k = Some r /\ length r = npairs e /\
         Permutation r (map (fun p => (idx p, idx (zip_sub e p))) (below e))) /\
    (forall e, length e = d -> list_sum e < m -> npairs e <= idx_capacity m).
  Proof.
    intros E.
    apply (idx_loop_inv idx (idx_capacity m) (length jdx) _ []) in E.
    - simpl app in E. destruct E as (E1 & E2 & E3). split; auto. split.
      + intros k e Hk. exists (row_of idx k (simplex_iter (2 * d) m)).
        assert (k < length jdx) by (apply nth_error_Some; congruence).
        split; [auto|]. split; [apply row_of_length; auto|apply row_of_perm; auto].
      + intros e H1 H2. apply idx_valid in H1; auto.
        rewrite <- (row_of_length _ _ H1). apply E3. apply nth_error_Some. congruence.
    - apply repeat_length.
    - apply repeat_rows.
    - intros l _. unfold row_of. simpl. lia.
  Qed.
End Tables.

Lemma simplex_idx_inv d m idx jdx abi :
  simplex_idx d m = Some (idx, jdx, abi) ->
  simplex_enum d m = Some (idx, jdx) /\
  fold_left (idx_step idx (idx_capacity m)) (simplex_iter (2 * d) m)
            (Some (repeat [] (length jdx))) = Some abi /\
  list_max (map (@length _) abi) = idx_capacity m.
Proof.
  unfold simplex_idx. destruct (simplex_enum d m) as [[i j]|]; [|discriminate].
  destruct (fold_left _ _ _) as [t|] eqn:E; [|discriminate].
  destruct (Nat.eqb_spec (list_max (map (@length _) t)) (idx_capacity m)); [|discriminate].
  intros H; inversion H; subst. auto.
Qed.

(** ** C04: three variables, every order *)
Lemma npairs3 x y z : npairs [x; y; z] = (x + 1) * (y + 1) * (z + 1).
Proof. unfold npairs. simpl. ring. Qed.

Lemma list_max_attained l v :
  (forall x, In x l -> x <= v) -> In v l -> list_max l = v.
Proof.
  intros Hle Hin. apply Nat.le_antisymm.
  - apply list_max_le. apply Forall_forall. auto.
  - pose proof (list_max_le l (list_max l)) as [H _].
    specialize (H (le_n _)). rewrite Forall_forall in H. auto.
Qed.

Lemma simplex_idx_3 m :
  1 <= m -> (Z.of_nat (simplex_size 3 m) <= 65536)%Z ->
  exists t, simplex_idx 3 m = Some t.
Proof.
  intros Hm Hs. pose proof (simplex_enum_some 3 m Hm) as Hen.
  destruct (enum_loop 0 (simplex_iter 3 m) izero []) as [idx jdx].
  destruct (idx_fold_ok 3 m ltac:(lia) Hm Hs idx jdx Hen) as [abi Habi].
  { intros e Hl Hlt. destruct e as [|x [|y [|z [|]]]]; simpl in Hl; try lia.
    rewrite npairs3. simpl in Hlt. apply capacity_upper. lia. }
  unfold simplex_idx. rewrite Hen. cbv zeta. rewrite Habi.
  destruct (idx_fold_spec 3 m ltac:(lia) Hm Hs idx jdx Hen abi Habi) as (H1 & H2 & H3).
  assert (Hmax : list_max (map (@length _) abi) = idx_capacity m).
  { apply list_max_attained.
    - intros x Hx. apply in_map_iff in Hx. destruct Hx as (r & <- & Hr).
      apply In_nth_error in Hr. destruct Hr as [k Hk].
      assert (k < length jdx) by (rewrite <- H1; eapply nth_error_lt; exact Hk).
      destruct (nth_error jdx k) as [e|] eqn:Ee.
      2: { apply nth_error_None in Ee. lia. }
      destruct (H2 k e Ee) as (r' & Hr' & Hlen & _).
      assert (r = r') by congruence. subst. rewrite Hlen.
      destruct (jdx_valid 3 m ltac:(lia) Hm Hs idx jdx Hen k e Ee). apply H3; auto.
    - destruct (capacity_reached m Hm) as (x & y & z & Hlt & E).
      assert (Hv : nth_error jdx (idx [x; y; z]) = Some [x; y; z]).
      { apply (idx_valid 3 m ltac:(lia) Hm Hs idx jdx Hen); simpl; auto. lia. }
      destruct (H2 _ _ Hv) as (r & Hr & Hlen & _).
      apply in_map_iff. exists r. split; [|eapply nth_error_In; eauto].
      rewrite Hlen, npairs3. auto. }
  rewrite Hmax, Nat.eqb_refl. eexists; reflexivity.
Qed.

(** ** Sums in a commutative ring *)
Section Ring.
  Variable K : Type.
  Variables (k0 k1 : K) (kadd kmul ksub : K -> K -> K) (kopp : K -> K).
  Hypothesis Kth : ring_theory k0 k1 kadd kmul ksub kopp (@eq K).
  Add Ring Kring : Kth.
  Local Notation "x + y" := (kadd x y).
  Local Notation "x * y" := (kmul x y).

  Definition ksum {A} (f : A -> K) (l : list A) : K :=
    fold_right (fun x s => f x + s) k0 l.

  Lemma ksum_app {A} (f : A -> K) l l' : ksum f (l ++ l') = ksum f l + ksum f l'.
  Proof. induction l as [|x l IH]; simpl; [ring|]. rewrite IH. ring. Qed.
  Lemma ksum_ext {A} (f g : A -> K) l : (forall x, In x l -> f x = g x) -> ksum f l = ksum g l.
  Proof.
    induction l as [|x l IH]; simpl; intros H; auto.
    rewrite H by auto. rewrite IH; auto.
  Qed.
  Lemma ksum_map {A B} (f : B -> K) (g : A -> B) l : ksum f (map g l) = ksum (fun x => f (g x)) l.
  Proof. induction l as [|x l IH]; simpl; auto. rewrite IH; auto. Qed.
  Lemma ksum_flat_map {A B} (f : B -> K) (g : A -> list B) l :
    ksum f (flat_map g l) = ksum (fun x => ksum f (g x)) l.
  Proof. induction l as [|x l IH]; simpl; auto. rewrite ksum_app, IH; auto. Qed.
  Lemma ksum_perm {A} (f : A -> K) l l' : Permutation l l' -> ksum f l = ksum f l'.
  Proof. induction 1; simpl; try ring; congruence. Qed.
  Lemma ksum_add {A} (f g : A -> K) l : ksum (fun x => f x + g x) l = ksum f l + ksum g l.
  Proof. induction l as [|x l IH]; simpl; [ring|]. rewrite IH; ring. Qed.
  Lemma ksum_scale {A} (f : A -> K) c l : ksum (fun x => c * f x) l = c * ksum f l.
  Proof. induction l as [|x l IH]; simpl; [ring|]. rewrite IH; ring. Qed.
  Lemma ksum_scale_r {A} (f : A -> K) c l : ksum (fun x => f x * c) l = ksum f l * c.
  Proof. induction l as [|x l IH]; simpl; [ring|]. rewrite IH; ring. Qed.
  Lemma ksum_zero {A} (f : A -> K) l : (forall x, In x l -> f x = k0) -> ksum f l = k0.
  Proof. induction l as [|x l IH]; simpl; intros H; auto. rewrite H, IH by auto. ring. Qed.
  Lemma ksum_swap {A B} (f : A -> B -> K) la lb :
    ksum (fun a => ksum (f a) lb) la = ksum (fun b => ksum (fun a => f a b) la) lb.
  Proof.
    induction la as [|a la IH]; simpl.
    - symmetry. apply ksum_zero. auto.
    - rewrite IH, <- ksum_add. reflexivity.
  Qed.
  Lemma ksum_fold {A} (f : A -> K) l c :
    fold_left (fun s x => s + f x) l c = c + ksum f l.
  Proof.
    revert c. induction l as [|x l IH]; intros c; simpl; [ring|]. rewrite IH. ring.
  Qed.

  (** sums over [0..n] *)
  Definition nsum (n : nat) (f : nat -> K) : K := ksum f (seq 0 (S n)).
  Lemma nsum_S n f : nsum (S n) f = nsum n f + f (S n).
  Proof. unfold nsum. rewrite seq_S, ksum_app. simpl. ring. Qed.
  Lemma nsum_0 f : nsum 0 f = f O.
  Proof. unfold nsum. simpl. ring. Qed.
  Lemma nsum_ext n f g : (forall i, i <= n -> f i = g i) -> nsum n f = nsum n g.
  Proof. intros H. apply ksum_ext. intros i Hi. apply in_seq in Hi. apply H. lia. Qed.
  Lemma nsum_rev n f : nsum n f = nsum n (fun i => f (n - i)%nat).
  Proof.
    unfold nsum. rewrite <- (ksum_map f (fun i => (n - i)%nat)).
    apply ksum_perm. apply NoDup_Permutation_bis.
    - apply seq_NoDup.
    - rewrite map_length. auto.
    - intros i Hi. apply in_seq in Hi. apply in_map_iff.
      exists (n - i)%nat. split; [lia|apply in_seq; lia].
  Qed.
  Lemma nsum_shift n f : nsum (S n) f = f O + nsum n (fun i => f (S i)).
  Proof. unfold nsum. change (seq 0 (S (S n))) with (0%nat :: seq 1 (S n)). simpl ksum at 1.
    rewrite <- seq_shift, ksum_map. reflexivity. Qed.
  (** triangular exchange *)
  Lemma nsum_tri n (f : nat -> nat -> K) :
    nsum n (fun i => nsum i (fun j => f i j)) =
    nsum n (fun j => nsum (n - j) (fun k => f (j + k)%nat j)).
  Proof.
    induction n as [|n IH].
    - reflexivity.
    - rewrite nsum_S, IH. rewrite (nsum_S n (fun j => nsum (S n - j) _)).
      replace (S n - S n)%nat with O by lia.
      assert (E : nsum n (fun j => nsum (S n - j) (fun k => f (j + k)%nat j)) =
        nsum n (fun j => nsum (n - j) (fun k => f (j + k)%nat j)) + nsum n (fun j => f (S n) j)).
      { unfold nsum at 1 3 5. rewrite <- ksum_add. apply ksum_ext. intros j Hj.
        apply in_seq in Hj. replace (S n - j)%nat with (S (n - j)) by lia.
        rewrite nsum_S. f_equal. f_equal. lia. }
      rewrite E, nsum_0, Nat.add_0_r, nsum_S. ring.
  Qed.

  (** ** Specification: convolution of coefficient functions *)
  Definition poly := list nat -> K.
  Definition conv (f g : poly) : poly :=
    fun e => ksum (fun p => f p * g (zip_sub e p)) (below e).

  Lemma conv_nil f g : conv f g [] = f [] * g [].
  Proof. unfold conv. simpl. unfold zip_sub. simpl. ring. Qed.
  Lemma conv_cons f g x e :
    conv f g (x :: e) =
    nsum x (fun i => conv (fun p => f (i :: p)) (fun p => g ((x - i)%nat :: p)) e).
  Proof.
    unfold conv, nsum.
    change (below (x :: e)) with (flat_map (fun i => map (cons i) (below e)) (seq 0 (S x))).
    rewrite ksum_flat_map. apply ksum_ext. intros i _. rewrite ksum_map. reflexivity.
  Qed.
  Lemma conv_ext f f' g g' e :
    (forall p, Forall2 le p e -> f p = f' p) ->
    (forall p, Forall2 le p e -> g p = g' p) ->
    conv f g e = conv f' g' e.
  Proof.
    intros Hf Hg. unfold conv. apply ksum_ext. intros p Hp. apply in_below in Hp.
    rewrite Hf by auto. rewrite Hg; auto.
    clear - Hp. induction Hp; unfold zip_sub in *; simpl; constructor; auto; lia.
  Qed.
  Lemma conv_comm f g e : conv f g e = conv g f e.
  Proof.
    revert f g. induction e as [|x e IH]; intros f g.
    - rewrite !conv_nil. ring.
    - rewrite !conv_cons, nsum_rev. apply nsum_ext. intros i Hi.
      rewrite IH. replace (x - (x - i))%nat with i by lia. reflexivity.
  Qed.
  Lemma conv_add_l f f' g e : conv (fun p => f p + f' p) g e = conv f g e + conv f' g e.
  Proof. unfold conv. rewrite <- ksum_add. apply ksum_ext. intros; ring. Qed.
  Lemma conv_add_r f g g' e : conv f (fun p => g p + g' p) e = conv f g e + conv f g' e.
  Proof. rewrite conv_comm, conv_add_l. f_equal; apply conv_comm. Qed.
  Lemma conv_scale_l c f g e : conv (fun p => c * f p) g e = c * conv f g e.
  Proof. unfold conv. rewrite <- ksum_scale. apply ksum_ext. intros; ring. Qed.
  Lemma conv_sum_l {A} (f : A -> poly) l g e :
    conv (fun p => ksum (fun a => f a p) l) g e = ksum (fun a => conv (f a) g e) l.
  Proof.
    induction l as [|a l IH]; simpl.
    - unfold conv. apply ksum_zero. intros; ring.
    - rewrite <- IH. apply conv_add_l.
  Qed.
  Lemma conv_sum_r {A} (f : A -> poly) l g e :
    conv g (fun p => ksum (fun a => f a p) l) e = ksum (fun a => conv g (f a) e) l.
  Proof.
    rewrite conv_comm, conv_sum_l. apply ksum_ext. intros; apply conv_comm.
  Qed.
  Lemma conv_assoc f g h e : conv (conv f g) h e = conv f (conv g h) e.
  Proof.
    revert f g h. induction e as [|x e IH]; intros f g h.
    - rewrite !conv_nil. ring.
    - rewrite !conv_cons.
      transitivity (nsum x (fun i => nsum i (fun j =>
        conv (fun p => f (j :: p)) (conv (fun p => g ((i - j)%nat :: p)) (fun p => h ((x - i)%nat :: p))) e))).
      + apply nsum_ext. intros i Hi.
        transitivity (conv (fun p => nsum i (fun j => conv (fun p => f (j :: p)) (fun p => g ((i - j)%nat :: p)) p))
                           (fun p => h ((x - i)%nat :: p)) e).
        { apply conv_ext; auto. intros p _. apply conv_cons. }
        unfold nsum. rewrite conv_sum_l. apply ksum_ext. intros j _. apply IH.
      + rewrite nsum_tri. apply nsum_ext. intros j Hj.
        transitivity (conv (fun p => f (j :: p))
          (fun p => nsum (x - j) (fun k => conv (fun p => g (k :: p)) (fun p => h ((x - j - k)%nat :: p)) p)) e).
        { unfold nsum. rewrite conv_sum_r. apply ksum_ext. intros k _.
          apply conv_ext; auto. intros p _.
          apply conv_ext.
          - intros q _. f_equal. f_equal. lia.
          - intros q _. f_equal. f_equal. lia. }
        apply conv_ext; auto. intros p _. symmetry. apply conv_cons.
  Qed.

  (** the constant polynomial *)
  Definition pconst (c : K) : poly :=
    fun e => if forallb (Nat.eqb 0) e then c else k0.
  Lemma conv_const_l c f e : conv (pconst c) f e = c * f e.
  Proof.
    revert f. induction e as [|x e IH]; intros f.
    - rewrite conv_nil. reflexivity.
    - rewrite conv_cons. unfold nsum. simpl seq. simpl ksum.
      rewrite ksum_zero.
      + transitivity (c * f ((x - 0)%nat :: e) + k0).
        * f_equal. transitivity (conv (pconst c) (fun p => f ((x - 0)%nat :: p)) e);
            [apply conv_ext; auto|apply IH].
        * rewrite Nat.sub_0_r. ring.
      + intros i Hi. apply in_seq in Hi. unfold conv. apply ksum_zero.
        intros p _. unfold pconst. destruct i; [lia|]. simpl. ring.
  Qed.

  (** ** Coefficient of a monomial in a coefficient vector *)
  Fixpoint lookup (es : list (list nat)) (a : list K) (e : list nat) : K :=
    match es, a with
    | e' :: es', x :: a' => if tuple_eqb e' e then x else lookup es' a' e
    | _, _ => k0
    end.
  Definition coef (d m : nat) (a : list K) : poly := lookup (simplex_iter d m) a.

  Lemma lookup_nth es a k e :
    NoDup es -> nth_error es k = Some e -> lookup es a e = nth k a k0.
  Proof.
    revert a k. induction es as [|e' es IH]; intros a k Hn Hk; [destruct k; discriminate|].
    inversion Hn as [|? ? Hni Hn']; subst. destruct k as [|k]; simpl in Hk.
    - inversion Hk; subst. destruct a; simpl; auto.
      unfold tuple_eqb. destruct (list_eq_dec _ e e); [auto|contradiction].
    - destruct a as [|x a]; simpl.
      { reflexivity. }
      unfold tuple_eqb. destruct (list_eq_dec _ e' e) as [->|].
      + exfalso. apply Hni. eapply nth_error_In; eauto.
      + apply IH; auto.
  Qed.

  (** vectors of the right length are determined by their coefficients *)
  Lemma coef_ext d m a b :
    1 <= d \/ 1 <= m ->
    length a = length (simplex_iter d m) -> length b = length (simplex_iter d m) ->
    (forall e, length e = d -> list_sum e < m -> coef d m a e = coef d m b e) -> a = b.
  Proof.
    intros Hdm Ha Hb H. apply nth_ext with k0 k0; [congruence|].
    intros k Hk. destruct (nth_error (simplex_iter d m) k) as [e|] eqn:E.
    - pose proof (nth_error_In _ _ E) as Hin. apply simplex_iter_spec in Hin; auto.
      specialize (H e). unfold coef in H.
      rewrite !(lookup_nth _ _ k e) in H by (auto using simplex_iter_NoDup).
      apply H; tauto.
    - apply nth_error_None in E. lia.
  Qed.

  Lemma lookup_vadd es a b e : length a = length b ->
    lookup es (vadd K kadd a b) e = lookup es a e + lookup es b e.
  Proof.
    revert a b. induction es as [|e' es IH]; intros [|x a] [|y b] H; simpl in *; try lia; try ring.
    destruct (tuple_eqb e' e); auto. apply IH. lia.
  Qed.

  Lemma vadd_length a b : length a = length b -> length (vadd K kadd a b) = length a.
  Proof. intros. unfold vadd. rewrite map_length, combine_length. lia. Qed.

  Section Mul.
    Variables (d m : nat) (idx : itable) (jdx : list (list nat)) (abi : list row).
    Hypothesis Hd : 1 <= d.
    Hypothesis Hm : 1 <= m.
    Hypothesis Hs : (Z.of_nat (simplex_size d m) <= 65536)%Z.
    Hypothesis Hidx : simplex_idx d m = Some (idx, jdx, abi).

    Let Hen : simplex_enum d m = Some (idx, jdx).
    Proof. apply (simplex_idx_inv d m idx jdx abi Hidx). Qed.

    Lemma mul_length a b : length (simplex_mul K k0 kadd kmul abi a b) = simplex_size d m.
    Proof.
      unfold simplex_mul. rewrite map_length.
      destruct (simplex_idx_inv d m idx jdx abi Hidx) as (H1 & H2 & _).
      destruct (idx_fold_spec d m Hd Hm Hs idx jdx H1 abi H2) as (E & _).
      rewrite E, (jdx_iter d m Hd Hm Hs idx jdx H1). apply simplex_size_length; auto.
    Qed.

    Lemma coef_idx a e : length e = d -> list_sum e < m -> coef d m a e = nth (idx e) a k0.
    Proof.
      intros H1 H2. unfold coef. apply lookup_nth; [apply simplex_iter_NoDup|].
      rewrite <- (jdx_iter d m Hd Hm Hs idx jdx Hen).
      apply (idx_valid d m Hd Hm Hs idx jdx Hen); auto.
    Qed.

    Theorem mul_conv a b e :
      length e = d -> list_sum e < m ->
      coef d m (simplex_mul K k0 kadd kmul abi a b) e = conv (coef d m a) (coef d m b) e.
    Proof.
      intros Hl Hlt. rewrite coef_idx by auto.
      destruct (simplex_idx_inv d m idx jdx abi Hidx) as (_ & H2 & _).
      destruct (idx_fold_spec d m Hd Hm Hs idx jdx Hen abi H2) as (E1 & E2 & _).
      pose proof (idx_valid d m Hd Hm Hs idx jdx Hen e Hl Hlt) as Hv.
      destruct (E2 _ _ Hv) as (r & Hr & _ & Hp).
      unfold simplex_mul.
      erewrite nth_error_nth; [|rewrite nth_error_map, Hr; reflexivity].
      rewrite (ksum_fold (fun pq : nat * nat => nth (fst pq) a k0 * nth (snd pq) b k0)).
      rewrite (ksum_perm _ _ _ Hp), ksum_map.
      unfold conv. transitivity (ksum (fun p => nth (idx p) a k0 * nth (idx (zip_sub e p)) b k0) (below e)).
      { simpl. ring. }
      apply ksum_ext. intros p Hpe. apply in_below in Hpe.
      pose proof (Forall2_le_length _ _ Hpe). pose proof (Forall2_le_sum _ _ Hpe).
      rewrite !coef_idx; auto; try lia.
      - rewrite zip_sub_length; lia.
      - assert (Hz : list_sum (zip_add p (zip_sub e p)) = list_sum e)
          by (rewrite zip_add_sub; auto).
        rewrite zip_add_sum in Hz by (rewrite zip_sub_length; lia). lia.
    Qed.

    Local Notation mul := (simplex_mul K k0 kadd kmul abi).

    Lemma mul_comm a b : mul a b = mul b a.
    Proof.
      apply (coef_ext d m); auto; try (rewrite mul_length; symmetry; apply simplex_size_length; auto).
      intros e H1 H2. rewrite !mul_conv by auto. apply conv_comm.
    Qed.

    Lemma mul_assoc a b c : mul (mul a b) c = mul a (mul b c).
    Proof.
      apply (coef_ext d m); auto; try (rewrite mul_length; symmetry; apply simplex_size_length; auto).
      intros e H1 H2. rewrite !mul_conv by auto.
      transitivity (conv (conv (coef d m a) (coef d m b)) (coef d m c) e).
      - apply conv_ext; auto. intros p Hp. apply mul_conv.
        + apply Forall2_le_length in Hp. lia.
        + apply Forall2_le_sum in Hp. lia.
      - rewrite conv_assoc. apply conv_ext; auto. intros p Hp. symmetry. apply mul_conv.
        + apply Forall2_le_length in Hp. lia.
        + apply Forall2_le_sum in Hp. lia.
    Qed.

    Lemma mul_add_l a b c : length a = length b ->
      mul (vadd K kadd a b) c = vadd K kadd (mul a c) (mul b c).
    Proof.
      intros Hab.
      apply (coef_ext d m); auto.
      - rewrite mul_length; symmetry; apply simplex_size_length; auto.
      - rewrite vadd_length; rewrite !mul_length; auto; symmetry; apply simplex_size_length; auto.
      - intros e H1 H2. unfold coef at 2. rewrite lookup_vadd by (rewrite !mul_length; auto).
        fold (coef d m (mul a c) e) (coef d m (mul b c) e).
        rewrite !mul_conv by auto. rewrite <- conv_add_l.
        apply conv_ext; auto. intros p _. apply lookup_vadd; auto.
    Qed.

    (** the constant-1 vector *)
    Definition vconst (c : K) : list K := c :: repeat k0 (simplex_size d m - 1).

    Lemma size_pos : 1 <= simplex_size d m.
    Proof.
      rewrite <- simplex_size_length by auto. pose proof (simplex_iter_first d m Hm) as H.
      destruct (simplex_iter d m); [discriminate|simpl; lia].
    Qed.

    Lemma coef_vconst c e : length e = d -> list_sum e < m -> coef d m (vconst c) e = pconst c e.
    Proof.
      intros H1 H2. unfold coef, vconst, pconst. pose proof (simplex_iter_first d m Hm) as Hf.
      pose proof (simplex_iter_NoDup d m) as Hn.
      destruct (simplex_iter d m) as [|e0 es]; [discriminate|].
      simpl in Hf. inversion Hf; subst e0. cbn [lookup].
      assert (Hz : forall n, forallb (Nat.eqb 0) (repeat 0%nat n) = true) by (intros n; induction n; simpl; auto).
      destruct (tuple_eqb (repeat 0%nat d) e) eqn:Et.
      - apply tuple_eqb_eq in Et. subst e. rewrite Hz. reflexivity.
      - destruct (forallb (Nat.eqb 0) e) eqn:Eb.
        + exfalso. assert (Hne : repeat 0%nat d = e).
          { rewrite <- H1. clear - Eb. induction e as [|x e IH]; simpl; auto.
            simpl in Eb. apply andb_prop in Eb. destruct Eb as [E1 E2].
            destruct x; [|discriminate]. rewrite IH; auto. }
          apply tuple_eqb_eq in Hne. congruence.
        + generalize (simplex_size d m - 1). clear.
          induction es as [|e' es IH]; intros [|n]; simpl; auto.
          destruct (tuple_eqb e' e); auto.
    Qed.

    Lemma mul_const_l c a : length a = simplex_size d m -> mul (vconst c) a = vscale K kmul c a.
    Proof.
      intros Ha. apply (coef_ext d m); auto.
      - rewrite mul_length; symmetry; apply simplex_size_length; auto.
      - unfold vscale. rewrite map_length, Ha. symmetry; apply simplex_size_length; auto.
      - intros e H1 H2. rewrite mul_conv by auto.
        transitivity (conv (pconst c) (coef d m a) e).
        + apply conv_ext; auto. intros p Hp. apply coef_vconst.
          * apply Forall2_le_length in Hp. lia.
          * apply Forall2_le_sum in Hp. lia.
        + rewrite conv_const_l. unfold coef, vscale. generalize (simplex_iter d m).
          intros es. clear Ha. revert a.
          induction es as [|e' es IH]; intros [|x a]; simpl; try ring.
          destruct (tuple_eqb e' e); auto.
    Qed.
  End Mul.
End Ring.
