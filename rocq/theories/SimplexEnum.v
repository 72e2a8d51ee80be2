(** Proofs about the enumeration of monomials (C01, C02). *)
From Coq Require Import List Arith ZArith Lia Bool Sorted Factorial FinFun.
From Verif Require Import SimplexModel.
Import ListNotations.

(** ** Soundness and completeness *)
Lemma in_iter_S d m e :
  In e (simplex_iter (S d) m) <->
  exists i j, i < m /\ In j (simplex_iter d (i + 1)) /\ e = (i - list_sum j) :: j.
Proof.
  simpl. rewrite in_flat_map. split.
  - intros (i & Hi & He). apply in_seq in Hi.
    apply in_map_iff in He. destruct He as (j & <- & Hj).
    exists i, j. repeat split; auto; lia.
  - intros (i & j & Hi & Hj & ->). exists i. split.
    + apply in_seq; lia.
    + apply in_map_iff. exists j; auto.
Qed.

Lemma simplex_iter_spec d m e :
  (1 <= d \/ 1 <= m) ->
  (In e (simplex_iter d m) <-> length e = d /\ list_sum e < m).
Proof.
  revert m e. induction d as [|d IH]; intros m e Hdm.
  - simpl. split.
    + intros [<-|[]]. simpl. lia.
    + intros [He _]. destruct e; [auto|discriminate].
  - rewrite in_iter_S. split.
    + intros (i & j & Hi & Hj & ->).
      apply IH in Hj; [|right; lia]. simpl. lia.
    + intros [He Hs]. destruct e as [|x e]; [discriminate|].
      simpl in *. exists (x + list_sum e), e.
      split; [lia|]. split.
      * apply IH; [right; lia|]. lia.
      * f_equal. lia.
Qed.

(** the subtraction in the generator is never truncated *)
Lemma simplex_iter_sum d i j : In j (simplex_iter d (i + 1)) -> list_sum j <= i.
Proof. intros H. apply simplex_iter_spec in H; [lia|right; lia]. Qed.

(** ** No duplicates *)
Lemma NoDup_flat_map_disj {A B} (f : A -> list B) (l : list A) :
  NoDup l -> (forall a, In a l -> NoDup (f a)) ->
  (forall a a' b, In a l -> In a' l -> In b (f a) -> In b (f a') -> a = a') ->
  NoDup (flat_map f l).
Proof.
  induction l as [|a l IH]; intros Hl Hf Hd; simpl; [constructor|].
  inversion Hl as [|? ? Ha Hl']; subst.
  assert (Hrest : NoDup (flat_map f l)).
  { apply IH; auto. - intros; apply Hf; right; auto.
    - intros a0 a1 b H0 H1; apply Hd; right; auto. }
  assert (Ha' : NoDup (f a)) by (apply Hf; left; auto).
  assert (Hdis : forall b, In b (f a) -> ~ In b (flat_map f l)).
  { intros b Hb Hc. apply in_flat_map in Hc. destruct Hc as (a' & Ha2 & Hb').
    assert (a = a') by (eapply Hd; eauto; [left; auto|right; auto]).
    subst. contradiction. }
  clear - Hrest Ha' Hdis. induction (f a) as [|x xs IHx]; simpl; auto.
  inversion Ha'; subst. constructor.
  - rewrite in_app_iff. intros [H|H]; [contradiction|].
    apply (Hdis x); [left; auto|auto].
  - apply IHx; auto. intros b Hb; apply Hdis; right; auto.
Qed.

Lemma iter_block_sum d i e :
  In e (map (fun j => (i - list_sum j) :: j) (simplex_iter d (i + 1))) ->
  list_sum e = i.
Proof.
  intros H. apply in_map_iff in H. destruct H as (j & <- & Hj).
  apply simplex_iter_sum in Hj. simpl. lia.
Qed.

Lemma simplex_iter_NoDup d m : NoDup (simplex_iter d m).
Proof.
  revert m. induction d as [|d IH]; intros m; simpl.
  - constructor; [simpl; tauto|constructor].
  - apply NoDup_flat_map_disj.
    + apply seq_NoDup.
    + intros i _. apply Injective_map_NoDup; [|apply IH].
      intros x y H. inversion H; auto.
    + intros i i' b _ _ Hb Hb'.
      apply iter_block_sum in Hb, Hb'. congruence.
Qed.

(** ** Order: total degrees never decrease *)
Lemma simplex_iter_sorted d m :
  StronglySorted le (map (@list_sum) (simplex_iter d m)).
Proof.
  destruct d as [|d]; simpl.
  - repeat constructor.
  - assert (H : forall s n, StronglySorted le (map list_sum
      (flat_map (fun i => map (fun j => (i - list_sum j) :: j) (simplex_iter d (i + 1))) (seq s n)))
      /\ Forall (fun x => s <= x) (map list_sum
      (flat_map (fun i => map (fun j => (i - list_sum j) :: j) (simplex_iter d (i + 1))) (seq s n)))).
    { intros s n. revert s. induction n as [|n IHn]; intros s; simpl.
      - split; constructor.
      - rewrite map_app. destruct (IHn (S s)) as [IH1 IH2].
        assert (Hb : Forall (fun x => x = s) (map list_sum
          (map (fun j => (s - list_sum j) :: j) (simplex_iter d (s + 1))))).
        { apply Forall_forall. intros x Hx. apply in_map_iff in Hx.
          destruct Hx as (e & <- & He). eapply iter_block_sum; eauto. }
        revert Hb. generalize (map list_sum
          (map (fun j => (s - list_sum j) :: j) (simplex_iter d (s + 1)))).
        intros l Hl. split.
        + induction Hl as [|x l Hx Hl IHl]; simpl; auto.
          constructor; auto. apply Forall_app. split.
          * eapply Forall_impl; [|exact Hl]. simpl. intros; lia.
          * eapply Forall_impl; [|exact IH2]. simpl. intros; lia.
        + apply Forall_app. split.
          * eapply Forall_impl; [|exact Hl]. simpl. intros; lia.
          * eapply Forall_impl; [|exact IH2]. simpl. intros; lia. }
    apply H.
Qed.

(** ** Size *)
Fixpoint rising (d m : nat) : nat :=
  match d with O => 1 | S d' => rising d' m * (m + d') end.

Lemma rising_shift d m : rising (S d) m = m * rising d (S m).
Proof.
  induction d as [|d IH].
  - simpl. lia.
  - change (rising (S (S d)) m) with (rising (S d) m * (m + S d)).
    rewrite IH. change (rising (S d) (S m)) with (rising d (S m) * (S m + d)).
    replace (S m + d) with (m + S d) by lia. ring.
Qed.

Lemma rising_step d m :
  rising (S d) (S m) = rising (S d) m + S d * rising d (S m).
Proof.
  rewrite rising_shift with (m := m).
  change (rising (S d) (S m)) with (rising d (S m) * (S m + d)). ring.
Qed.

Lemma length_flat_map_sum {A B} (f : A -> list B) l :
  length (flat_map f l) = list_sum (map (fun x => length (f x)) l).
Proof. induction l; simpl; auto. rewrite app_length; lia. Qed.

Lemma length_iter_rising d m :
  1 <= d \/ 1 <= m -> fact d * length (simplex_iter d m) = rising d m.
Proof.
  revert m. induction d as [|d IH]; intros m Hdm; [reflexivity|].
  simpl simplex_iter. rewrite length_flat_map_sum.
  clear Hdm. induction m as [|m IHm].
  - rewrite rising_shift. simpl. lia.
  - rewrite seq_S, map_app, list_sum_app, Nat.mul_add_distr_l, IHm.
    rewrite rising_step. f_equal. simpl.
    rewrite map_length, Nat.add_0_r.
    replace (m + 1) with (S m) by lia.
    rewrite <- (IH (S m)) by lia. ring.
Qed.

Lemma size_fold d m :
  fold_left (fun '(n, p) i => (n * (m + i), p * (i + 1))) (seq 0 d) (1, 1)
  = (rising d m, fact d).
Proof.
  induction d as [|d IH]; [reflexivity|].
  rewrite seq_S, fold_left_app, IH. simpl. f_equal. lia.
Qed.

Lemma simplex_size_length d m :
  1 <= d \/ 1 <= m -> length (simplex_iter d m) = simplex_size d m.
Proof.
  intros H. unfold simplex_size. rewrite size_fold.
  rewrite <- (length_iter_rising d m H).
  rewrite Nat.mul_comm, Nat.div_mul; auto. apply fact_neq_0.
Qed.

(** the floor division is exact *)
Lemma simplex_size_exact d m :
  1 <= d \/ 1 <= m -> fact d * simplex_size d m = rising d m.
Proof. intros H. rewrite <- simplex_size_length; auto. apply length_iter_rising; auto. Qed.

(** ** Index tables *)
Lemma u16_small n : (Z.of_nat n < 65536)%Z -> u16 n = n.
Proof. intros H. unfold u16. rewrite Z.mod_small; lia. Qed.

Lemma enum_loop_jdx es j idx jdx :
  snd (enum_loop j es idx jdx) = jdx ++ map (map u16) es.
Proof.
  revert j idx jdx. induction es as [|e es IH]; intros; simpl.
  - now rewrite app_nil_r.
  - rewrite IH, <- app_assoc. reflexivity.
Qed.

Lemma enum_loop_idx_out es j idx jdx e :
  ~ In e es -> fst (enum_loop j es idx jdx) e = idx e.
Proof.
  revert j idx jdx. induction es as [|e' es IH]; intros j idx jdx H; simpl; auto.
  rewrite IH by (intro; apply H; right; auto).
  unfold iset. destruct (list_eq_dec _ e' e) as [->|]; auto.
  exfalso; apply H; left; auto.
Qed.

Lemma enum_loop_idx es j idx jdx k e :
  NoDup es -> nth_error es k = Some e ->
  fst (enum_loop j es idx jdx) e = u16 (j + k).
Proof.
  revert j idx jdx k. induction es as [|e' es IH]; intros j idx jdx k Hn Hk.
  - destruct k; discriminate.
  - inversion Hn; subst. destruct k as [|k]; simpl in *.
    + inversion Hk; subst. rewrite enum_loop_idx_out; auto.
      unfold iset. destruct (list_eq_dec _ e e); [|contradiction].
      f_equal; lia.
    + rewrite (IH _ _ _ k); auto. f_equal; lia.
Qed.

Lemma simplex_enum_some d m :
  1 <= m -> simplex_enum d m = Some (enum_loop 0 (simplex_iter d m) izero []).
Proof.
  intros Hm. unfold simplex_enum.
  rewrite simplex_size_length by auto. rewrite Nat.eqb_refl.
  destruct (Nat.eqb_spec (simplex_size d m) 0) as [E|]; auto.
  exfalso. rewrite <- simplex_size_length in E by auto.
  apply length_zero_iff_nil in E.
  assert (H : In (repeat 0 d) (simplex_iter d m)).
  { apply simplex_iter_spec; auto. rewrite repeat_length. split; auto.
    clear - Hm. induction d; simpl; lia. }
  rewrite E in H. contradiction.
Qed.

Lemma map_u16_id e : (Z.of_nat (list_sum e) < 65536)%Z -> map u16 e = e.
Proof.
  induction e as [|x e IH]; simpl; intros H; auto.
  rewrite u16_small by lia. rewrite IH by lia. reflexivity.
Qed.

(** the j-th monomial *)
Lemma simplex_enum_spec d m idx jdx :
  1 <= d -> 1 <= m -> (Z.of_nat (simplex_size d m) <= 65536)%Z ->
  simplex_enum d m = Some (idx, jdx) ->
  jdx = simplex_iter d m /\
  (forall k e, nth_error jdx k = Some e -> idx e = k).
Proof.
  intros Hd Hm Hs H. rewrite simplex_enum_some in H by auto.
  assert (Hj : jdx = map (map u16) (simplex_iter d m)).
  { inversion H as [H']. replace jdx with (snd (enum_loop 0 (simplex_iter d m) izero []))
      by (rewrite H'; reflexivity). apply enum_loop_jdx. }
  assert (Hi : idx = fst (enum_loop 0 (simplex_iter d m) izero [])).
  { inversion H as [H']. rewrite H'. reflexivity. }
  assert (Hmm : m <= simplex_size d m).
  { rewrite <- simplex_size_length by auto.
    assert (Hincl : incl (map (fun i => i :: repeat 0 (d - 1)) (seq 0 m)) (simplex_iter d m)).
    { intros e He. apply in_map_iff in He. destruct He as (i & <- & Hi2).
      apply in_seq in Hi2. apply simplex_iter_spec; auto.
      simpl. rewrite repeat_length. split; [lia|].
      assert (list_sum (repeat 0 (d-1)) = 0) by (generalize (d-1); intro k; induction k; simpl; auto).
      lia. }
    apply NoDup_incl_length in Hincl.
    - rewrite map_length, seq_length in Hincl. auto.
    - apply Injective_map_NoDup; [|apply seq_NoDup].
      intros x y E; inversion E; auto. }
  assert (Hid : map (map u16) (simplex_iter d m) = simplex_iter d m).
  { rewrite <- map_id. apply map_ext_in. intros e He.
    apply simplex_iter_spec in He; auto. apply map_u16_id. lia. }
  rewrite Hid in Hj. split; auto.
  intros k e Hk. subst.
  rewrite (enum_loop_idx _ _ _ _ k); auto using simplex_iter_NoDup.
  simpl. apply u16_small.
  assert (k < length (simplex_iter d m)).
  { apply nth_error_Some. congruence. }
  rewrite simplex_size_length in H0 by auto. lia.
Qed.

Lemma simplex_iter_1 m : simplex_iter 1 m = map (fun i => [i]) (seq 0 m).
Proof.
  simpl. rewrite flat_map_concat_map.
  induction (seq 0 m) as [|x l IH]; simpl; auto.
  rewrite IH. repeat f_equal. lia.
Qed.

Lemma enum_wrap_collision :
  exists d m idx jdx e1 e2,
    1 <= d /\ 1 <= m /\ simplex_enum d m = Some (idx, jdx) /\
    In e1 (simplex_iter d m) /\ In e2 (simplex_iter d m) /\ e1 <> e2 /\
    idx e1 = idx e2.
Proof.
  assert (Hex : exists m k, Z.of_nat m = 65537%Z /\ Z.of_nat k = 65536%Z).
  { exists (Z.to_nat 65537), (Z.to_nat 65536). split; apply Z2Nat.id; lia. }
  destruct Hex as (m & w & Em & Ew).
  assert (Hm : 1 <= m) by lia.
  exists 1, m. rewrite (simplex_enum_some 1 m Hm).
  destruct (enum_loop 0 (simplex_iter 1 m) izero []) as [idx jdx] eqn:E.
  exists idx, jdx, [0], [w].
  assert (H0 : forall k, k < m -> nth_error (simplex_iter 1 m) k = Some [k]).
  { intros k Hk. rewrite simplex_iter_1.
    rewrite nth_error_map. rewrite (nth_error_nth' _ 0) by (rewrite seq_length; auto).
    unfold option_map. rewrite seq_nth by auto. reflexivity. }
  assert (Hidx : forall k, k < m -> idx [k] = u16 k).
  { intros k Hk. replace idx with (fst (enum_loop 0 (simplex_iter 1 m) izero []))
      by (rewrite E; auto).
    rewrite (enum_loop_idx _ _ _ _ k); auto using simplex_iter_NoDup. }
  repeat split; auto.
  - apply nth_error_In with 0. apply H0. lia.
  - apply nth_error_In with w. apply H0. lia.
  - intros H. inversion H as [H']. lia.
  - rewrite !Hidx by lia. unfold u16. rewrite Ew. reflexivity.
Qed.

(** the first monomial is the constant *)
Lemma simplex_iter_first d m : 1 <= m ->
  nth_error (simplex_iter d m) 0 = Some (repeat 0 d).
Proof.
  revert m. induction d as [|d IH]; intros m Hm; [reflexivity|].
  destruct m as [|m]; [lia|].
  simpl. specialize (IH 1 (le_n 1)).
  destruct (simplex_iter d 1) as [|e0 l]; [destruct d; discriminate|].
  simpl in *. inversion IH; subst. reflexivity.
Qed.
