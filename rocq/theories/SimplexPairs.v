(** The multiplication table (C03 tables, C04 capacity). *)
From Coq Require Import List Arith ZArith Lia Bool Permutation FinFun.
From Verif Require Import SimplexModel SimplexEnum.
Import ListNotations.

(** ** Specification: factor pairs of a monomial *)

(** all exponent tuples componentwise below [e] *)
Fixpoint below (e : list nat) : list (list nat) :=
  match e with
  | [] => [[]]
  | x :: e' => flat_map (fun i => map (cons i) (below e')) (seq 0 (S x))
  end.

(** componentwise difference *)
Definition zip_sub (e p : list nat) : list nat :=
  map (fun x => fst x - snd x) (combine e p).

(** number of factor pairs *)
Definition npairs (e : list nat) : nat := fold_right (fun x n => (x + 1) * n) 1 e.

Lemma in_below e p :
  In p (below e) <-> Forall2 le p e.
Proof.
  revert p. induction e as [|x e IH]; intros p; simpl.
  - split.
    + intros [<-|[]]. constructor.
    + intros H. inversion H. auto.
  - change (map (cons 0) (below e) ++ flat_map (fun i => map (cons i) (below e)) (seq 1 x))
      with (flat_map (fun i => map (cons i) (below e)) (seq 0 (S x))).
    rewrite in_flat_map. split.
    + intros (i & Hi & Hp). apply in_seq in Hi. apply in_map_iff in Hp.
      destruct Hp as (p' & <- & Hp'). apply IH in Hp'. constructor; auto. lia.
    + intros H. inversion H as [|y ? p' ? Hy Hp']; subst. exists y.
      split; [apply in_seq; lia|]. apply in_map_iff. exists p'. split; auto.
      apply IH; auto.
Qed.

Lemma below_NoDup e : NoDup (below e).
Proof.
  induction e as [|x e IH]; [repeat constructor; simpl; tauto|].
  change (below (x :: e)) with (flat_map (fun i => map (cons i) (below e)) (seq 0 (S x))).
  apply NoDup_flat_map_disj.
  - apply seq_NoDup.
  - intros i _. apply Injective_map_NoDup; auto. intros a b H; inversion H; auto.
  - intros i j b _ _ Hb Hb'. apply in_map_iff in Hb, Hb'.
    destruct Hb as (? & <- & _), Hb' as (? & H & _). inversion H; auto.
Qed.

Lemma length_below e : length (below e) = npairs e.
Proof.
  induction e as [|x e IH]; [reflexivity|].
  change (below (x :: e)) with (flat_map (fun i => map (cons i) (below e)) (seq 0 (S x))).
  rewrite length_flat_map_sum.
  rewrite map_ext with (g := fun _ => npairs e).
  2: { intros i. rewrite map_length. auto. }
  assert (H : forall s n c, list_sum (map (fun _ : nat => c) (seq s n)) = n * c).
  { intros s n c. revert s. induction n; intros; simpl; auto. }
  rewrite H. simpl. lia.
Qed.

Lemma zip_add_length p q : length p = length q -> length (zip_add p q) = length p.
Proof. intros. unfold zip_add. rewrite map_length, combine_length. lia. Qed.

Lemma zip_add_sum p q : length p = length q ->
  list_sum (zip_add p q) = list_sum p + list_sum q.
Proof.
  revert q. induction p as [|x p IH]; intros [|y q] H; simpl in *; try lia.
  unfold zip_add in *. simpl. rewrite IH by lia. lia.
Qed.

Lemma zip_add_le p q : length p = length q -> Forall2 le p (zip_add p q).
Proof.
  revert q. induction p as [|x p IH]; intros [|y q] H; simpl in *; try lia.
  - constructor.
  - unfold zip_add in *. simpl. constructor; [lia|]. apply IH; lia.
Qed.

Lemma zip_sub_add p q : length p = length q -> zip_sub (zip_add p q) p = q.
Proof.
  revert q. induction p as [|x p IH]; intros [|y q] H; simpl in *; try lia; auto.
  unfold zip_add, zip_sub in *. simpl. f_equal; [lia|]. apply IH; lia.
Qed.

Lemma zip_add_sub e p : Forall2 le p e -> zip_add p (zip_sub e p) = e.
Proof.
  induction 1 as [|x y p e Hxy _ IH]; auto.
  unfold zip_add, zip_sub in *. simpl. f_equal; [lia|auto].
Qed.

Lemma zip_sub_length e p : length e = length p -> length (zip_sub e p) = length p.
Proof. intros. unfold zip_sub. rewrite map_length, combine_length. lia. Qed.

Lemma Forall2_le_length p e : Forall2 le p e -> length p = length e.
Proof. induction 1; simpl; auto. Qed.

Lemma Forall2_le_sum p e : Forall2 le p e -> list_sum p <= list_sum e.
Proof. induction 1; simpl; lia. Qed.

(** ** Splitting of interleaved tuples *)
Fixpoint interleave (p q : list nat) : list nat :=
  match p, q with
  | x :: p', y :: q' => x :: y :: interleave p' q'
  | _, _ => []
  end.

Lemma evens_interleave p q : length p = length q ->
  evens (interleave p q) = p /\ odds (interleave p q) = q.
Proof.
  revert q. induction p as [|x p IH]; intros [|y q] H; simpl in H; try lia.
  - split; reflexivity.
  - destruct (IH q) as [H1 H2]; [lia|]. unfold odds in *. simpl. rewrite H1.
    split; auto. destruct p as [|x' p], q as [|y' q]; simpl in *; try lia; auto.
    rewrite H2. reflexivity.
Qed.

Lemma interleave_sum p q : length p = length q ->
  length (interleave p q) = 2 * length p /\
  list_sum (interleave p q) = list_sum p + list_sum q.
Proof.
  revert q. induction p as [|x p IH]; intros [|y q] H; simpl in H; try lia.
  - split; reflexivity.
  - destruct (IH q) as [H1 H2]; [lia|]. simpl. rewrite H1, H2. split; lia.
Qed.

Lemma interleave_surj d pq : length pq = 2 * d ->
  exists p q, length p = d /\ length q = d /\ pq = interleave p q.
Proof.
  revert pq. induction d as [|d IH]; intros pq H.
  - destruct pq; [|discriminate]. exists [], []; auto.
  - destruct pq as [|x [|y pq]]; simpl in H; try lia.
    destruct (IH pq) as (p & q & Hp & Hq & ->); [lia|].
    exists (x :: p), (y :: q). simpl. auto.
Qed.

Definition split_pq (pq : list nat) : list nat * list nat := (evens pq, odds pq).

Lemma in_split_iter d m p q :
  1 <= m ->
  (In (p, q) (map split_pq (simplex_iter (2 * d) m)) <->
   length p = d /\ length q = d /\ list_sum p + list_sum q < m).
Proof.
  intros Hm. rewrite in_map_iff. split.
  - intros (pq & E & Hpq). apply simplex_iter_spec in Hpq; [|auto].
    destruct Hpq as [Hl Hs]. apply interleave_surj in Hl.
    destruct Hl as (p' & q' & Hp & Hq & ->).
    unfold split_pq in E. destruct (evens_interleave p' q') as [E1 E2]; [lia|].
    destruct (interleave_sum p' q') as [_ E3]; [lia|].
    inversion E; subst. rewrite E1, E2. repeat split; auto. lia.
  - intros (Hp & Hq & Hs). exists (interleave p q).
    destruct (evens_interleave p q) as [E1 E2]; [lia|].
    destruct (interleave_sum p q) as [E3 E4]; [lia|].
    split; [unfold split_pq; congruence|].
    apply simplex_iter_spec; auto. lia.
Qed.

Lemma split_pq_NoDup d m : 1 <= m -> NoDup (map split_pq (simplex_iter (2 * d) m)).
Proof.
  intros Hm. assert (H : forall l, NoDup l -> (forall x, In x l -> length x = 2 * d) ->
    NoDup (map split_pq l)).
  { induction l as [|x l IH]; intros Hn Hl; simpl; [constructor|].
    inversion Hn; subst. constructor.
    - intros Hin. apply in_map_iff in Hin. destruct Hin as (y & E & Hy).
      destruct (interleave_surj d x) as (p & q & Hp & Hq & ->); [apply Hl; left; auto|].
      destruct (interleave_surj d y) as (p' & q' & Hp' & Hq' & ->); [apply Hl; right; auto|].
      unfold split_pq in E.
      destruct (evens_interleave p q) as [E1 E2]; [lia|].
      destruct (evens_interleave p' q') as [E3 E4]; [lia|].
      rewrite E1, E2, E3, E4 in E. inversion E; subst. contradiction.
    - apply IH; auto. intros; apply Hl; right; auto. }
  apply H; [apply simplex_iter_NoDup|].
  intros x Hx. apply simplex_iter_spec in Hx; [lia|auto].
Qed.

Definition pair_sum (x : list nat * list nat) : list nat := zip_add (fst x) (snd x).

Definition tuple_eqb (x y : list nat) : bool :=
  if list_eq_dec Nat.eq_dec x y then true else false.
Lemma tuple_eqb_eq x y : tuple_eqb x y = true <-> x = y.
Proof. unfold tuple_eqb. destruct (list_eq_dec _ x y); split; congruence. Qed.

(** the factor pairs of [e] met by the table loop are exactly the [(p, e-p)] *)
Lemma pairs_permutation d m e :
  length e = d -> list_sum e < m ->
  Permutation
    (filter (fun x => tuple_eqb (pair_sum x) e) (map split_pq (simplex_iter (2 * d) m)))
    (map (fun p => (p, zip_sub e p)) (below e)).
Proof.
  intros Hd Hm. apply NoDup_Permutation.
  - apply NoDup_filter. apply split_pq_NoDup. lia.
  - apply Injective_map_NoDup; [|apply below_NoDup].
    intros x y H; inversion H; auto.
  - intros [p q]. rewrite filter_In, tuple_eqb_eq, in_split_iter by lia.
    rewrite in_map_iff. unfold pair_sum. simpl. split.
    + intros ((Hp & Hq & Hs) & <-). exists p. split.
      * rewrite zip_sub_add; [auto|congruence].
      * apply in_below. apply zip_add_le. congruence.
    + intros (p' & E & Hp'). inversion E; subst. apply in_below in Hp'.
      pose proof (Forall2_le_length _ _ Hp').
      rewrite zip_add_sub by auto. repeat split; auto.
      * rewrite zip_sub_length; lia.
      * rewrite <- (zip_add_sum p (zip_sub e p)) by (rewrite zip_sub_length; lia).
        rewrite zip_add_sub; auto.
Qed.

(** ** The table loop *)
Lemma upd_length {A} n (x : A) l : length (upd n x l) = length l.
Proof. revert n; induction l as [|y l IH]; intros [|n]; simpl; auto. Qed.

Lemma nth_error_upd_eq {A} n (x : A) l : n < length l -> nth_error (upd n x l) n = Some x.
Proof. revert n; induction l as [|y l IH]; intros [|n]; simpl; intros; try lia; try reflexivity; apply IH; lia. Qed.

Lemma nth_error_upd_neq {A} n k (x : A) l : n <> k -> nth_error (upd n x l) k = nth_error l k.
Proof. revert n k; induction l as [|y l IH]; intros [|n] [|k]; simpl; intros; try lia; try reflexivity; apply IH; lia. Qed.

Lemma nth_upd_eq {A} n (x : A) l dft : n < length l -> nth n (upd n x l) dft = x.
Proof. revert n; induction l as [|y l IH]; intros [|n]; simpl; intros; try lia; try reflexivity; apply IH; lia. Qed.

Lemma nth_upd_neq {A} n k (x : A) l dft : n <> k -> nth k (upd n x l) dft = nth k l dft.
Proof. revert n k; induction l as [|y l IH]; intros [|n] [|k]; simpl; intros; try lia; try reflexivity; apply IH; lia. Qed.

Lemma nth_error_lt {A} (l : list A) k x : nth_error l k = Some x -> k < length l.
Proof. intros H. apply nth_error_Some. congruence. Qed.

Section Loop.
  Variables (idx : itable) (cap q : nat).
  Definition slot_of (pq : list nat) : nat := idx (zip_add (evens pq) (odds pq)).
  Definition entry (pq : list nat) : nat * nat := (idx (evens pq), idx (odds pq)).
  Definition row_of (l : nat) (done : list (list nat)) : row :=
    map entry (filter (fun pq => Nat.eqb (slot_of pq) l) done).

  Lemma row_of_snoc l done pq :
    row_of l (done ++ [pq]) = row_of l done ++
      (if Nat.eqb (slot_of pq) l then [entry pq] else []).
  Proof.
    unfold row_of. rewrite filter_app, map_app. simpl.
    destruct (Nat.eqb (slot_of pq) l); reflexivity.
  Qed.

  Lemma idx_loop_none todo : fold_left (idx_step idx cap) todo None = None.
  Proof. induction todo; simpl; auto. Qed.

  Lemma idx_loop_ok todo done abi :
    length abi = q ->
    (forall l, l < q -> nth_error abi l = Some (row_of l done)) ->
    (forall pq, In pq (done ++ todo) -> slot_of pq < q) ->
    (forall l, l < q -> length (row_of l (done ++ todo)) <= cap) ->
    exists abi', fold_left (idx_step idx cap) todo (Some abi) = Some abi' /\
      length abi' = q /\
      forall l, l < q -> nth_error abi' l = Some (row_of l (done ++ todo)).
  Proof.
    revert done abi. induction todo as [|pq todo IH]; intros done abi Hq Hrows Hs Hc.
    - exists abi. rewrite app_nil_r. auto.
    - assert (Hslot : slot_of pq < q).
      { apply Hs. rewrite in_app_iff. right; left; auto. }
      assert (Hlt : length (row_of (slot_of pq) done) < cap).
      { specialize (Hc _ Hslot). replace (done ++ pq :: todo) with ((done ++ [pq]) ++ todo) in Hc
          by (rewrite <- app_assoc; auto).
        unfold row_of in Hc. rewrite filter_app, map_app, app_length in Hc.
        change (map entry (filter (fun pq0 => slot_of pq0 =? slot_of pq) (done ++ [pq])))
          with (row_of (slot_of pq) (done ++ [pq])) in Hc.
        rewrite row_of_snoc, Nat.eqb_refl, app_length in Hc. simpl in Hc. lia. }
      simpl. fold (slot_of pq). rewrite (Hrows _ Hslot).
      apply Nat.ltb_lt in Hlt. rewrite Hlt.
      destruct (IH (done ++ [pq]) (upd (slot_of pq) (row_of (slot_of pq) done ++ [entry pq]) abi))
        as (abi' & E & Hl & Hr).
      + rewrite upd_length; auto.
      + intros l Hlq. rewrite row_of_snoc.
        destruct (Nat.eqb_spec (slot_of pq) l) as [<-|Hne].
        * apply nth_error_upd_eq. lia.
        * rewrite nth_error_upd_neq, app_nil_r; auto.
      + intros x Hx. rewrite <- app_assoc in Hx. auto.
      + intros l Hlq. rewrite <- app_assoc. auto.
      + rewrite <- app_assoc in Hr. simpl in Hr.
        exists abi'. repeat split; auto.
  Qed.

  (** the loop fails when some row overflows *)
  Lemma idx_loop_inv todo done abi abi' :
    length abi = q ->
    (forall l, l < q -> nth_error abi l = Some (row_of l done)) ->
    (forall l, l < q -> length (row_of l done) <= cap) ->
    fold_left (idx_step idx cap) todo (Some abi) = Some abi' ->
    length abi' = q /\
    (forall l, l < q -> nth_error abi' l = Some (row_of l (done ++ todo))) /\
    (forall l, l < q -> length (row_of l (done ++ todo)) <= cap).
  Proof.
    revert done abi. induction todo as [|pq todo IH]; intros done abi Hq Hrows Hc E.
    - simpl in E. inversion E; subst. rewrite app_nil_r. auto.
    - simpl in E. fold (slot_of pq) in E.
      destruct (nth_error abi (slot_of pq)) as [r|] eqn:Er.
      2: { rewrite idx_loop_none in E. discriminate. }
      destruct (Nat.ltb_spec (length r) cap) as [Hlt|].
      2: { rewrite idx_loop_none in E. discriminate. }
      assert (Hslot : slot_of pq < q).
      { rewrite <- Hq. apply nth_error_Some. congruence. }
      rewrite (Hrows _ Hslot) in Er. inversion Er; subst r.
      apply (IH (done ++ [pq])) in E.
      + rewrite <- app_assoc in E. exact E.
      + rewrite upd_length; auto.
      + intros l Hlq. rewrite row_of_snoc.
        destruct (Nat.eqb_spec (slot_of pq) l) as [<-|Hne].
        * apply nth_error_upd_eq. lia.
        * rewrite nth_error_upd_neq, app_nil_r; auto.
      + intros l Hlq. rewrite row_of_snoc, app_length.
        destruct (Nat.eqb_spec (slot_of pq) l) as [<-|Hne]; simpl.
        * lia.
        * specialize (Hc _ Hlq). lia.
  Qed.
End Loop.

(** ** Capacity for three variables: discrete AM-GM *)
Lemma amgm3 (A r X Y Z : Z) :
  (0 <= A -> 0 <= r <= 2 -> 1 <= X -> X <= Y -> Y <= Z -> X + Y + Z <= 3 * A + r ->
  X * Y * Z <= A * (if Z.eqb r 2 then A + 1 else A) * (if Z.eqb r 0 then A else A + 1))%Z.
Proof.
  intros HA Hr HX HXY HYZ Hs.
  assert (HXA : (X <= A)%Z) by lia.
  assert (Hex : exists t, (0 <= t /\ X = A - t)%Z) by (exists (A - X)%Z; lia).
  destruct Hex as (t & Ht & EX).
  assert (Hyz : (Y + Z <= 2 * A + r + t)%Z) by lia.
  assert (H4 : (4 * (Y * Z) <= (2 * A + r + t) * (2 * A + r + t))%Z).
  { assert (0 <= (Y - Z) * (Y - Z))%Z by nia. nia. }
  destruct (Z.eq_dec t 0) as [Et|Hne].
  - assert (EA : X = A) by lia. rewrite EA. clear EX EA.
    assert (HYZ' : (Y * Z <= (if Z.eqb r 2 then A + 1 else A) * (if Z.eqb r 0 then A else A + 1))%Z).
    { assert (r = 0 \/ r = 1 \/ r = 2)%Z as [-> | [-> | -> ] ] by lia; simpl; nia. }
    rewrite <- !Z.mul_assoc. apply Z.mul_le_mono_nonneg_l; auto.
  - assert (H5 : (4 * (X * (Y * Z)) <= (A - t) * ((2 * A + r + t) * (2 * A + r + t)))%Z).
    { rewrite EX. replace (4 * ((A - t) * (Y * Z)))%Z with ((A - t) * (4 * (Y * Z)))%Z by ring.
      apply Z.mul_le_mono_nonneg_l; lia. }
    assert (HAt : (0 <= A * t)%Z) by (clear - HA Ht; nia).
    assert (Htt : (t * t >= t)%Z) by (clear - Ht Hne; nia).
    assert (HAtt : (A * (t * t) >= A * t)%Z) by (clear - HA Htt; nia).
    assert (HAt1 : (A * t >= A)%Z) by (clear - HA Ht Hne; nia).
    assert (Httt : (0 <= t * (t * t))%Z) by (clear - Ht; nia).
    assert (r = 0 \/ r = 1 \/ r = 2)%Z as [-> | [-> | -> ] ] by lia; simpl; nia.
Qed.

Lemma capacity_form m : 1 <= m ->
  exists A r : Z, (0 <= A /\ 0 <= r <= 2 /\ Z.of_nat (m + 2) = 3 * A + r /\
    Z.of_nat (idx_capacity m) =
    A * (if Z.eqb r 2 then A + 1 else A) * (if Z.eqb r 0 then A else A + 1))%Z.
Proof.
  intros Hm. exists (Z.of_nat ((m + 2) / 3)), (Z.of_nat ((m + 2) mod 3)).
  pose proof (Nat.div_mod (m + 2) 3 ltac:(lia)) as E.
  pose proof (Nat.mod_upper_bound (m + 2) 3 ltac:(lia)) as Hr.
  set (A := (m + 2) / 3) in *. set (r := (m + 2) mod 3) in *.
  assert (Ea : (m - 1) / 3 = A - 1).
  { symmetry. apply Nat.div_unique with r; lia. }
  unfold idx_capacity. rewrite Ea.
  assert (Eb : (m - (A - 1) - 1) / 2 = (if Nat.eqb r 2 then A else A - 1)).
  { symmetry. destruct (Nat.eqb_spec r 2).
    - apply Nat.div_unique with 0; lia.
    - destruct (Nat.eq_dec r 0).
      + apply Nat.div_unique with 0; lia.
      + apply Nat.div_unique with 1; lia. }
  rewrite Eb. repeat split; try lia.
  destruct (Nat.eqb_spec r 2) as [Er|]; [|destruct (Nat.eq_dec r 0) as [Er|]].
  - rewrite Er. cbn [Z.eqb Z.of_nat]. simpl (Z.eqb _ _).
    replace (A - 1 + 1) with A by lia.
    replace (m - (A - 1) - A) with (A + 1) by lia. simpl. nia.
  - rewrite Er. simpl (Z.eqb _ _).
    replace (A - 1 + 1) with A by lia.
    replace (m - (A - 1) - (A - 1)) with A by lia. simpl. nia.
  - assert (Er : r = 1) by lia. rewrite Er. simpl (Z.eqb _ _).
    replace (A - 1 + 1) with A by lia.
    replace (m - (A - 1) - (A - 1)) with (A + 1) by lia. simpl. nia.
Qed.

Lemma capacity_upper m x y z :
  x + y + z < m -> (x + 1) * (y + 1) * (z + 1) <= idx_capacity m.
Proof.
  intros H. destruct (capacity_form m ltac:(lia)) as (A & r & HA & Hr & E & Ec).
  apply Nat2Z.inj_le. rewrite Ec.
  assert (Hord : forall a b c : Z, (1 <= a -> 1 <= b -> 1 <= c -> a + b + c <= 3 * A + r ->
     a * b * c <= A * (if Z.eqb r 2 then A + 1 else A) * (if Z.eqb r 0 then A else A + 1))%Z).
  { intros a b c Ha Hb Hc Hs.
    destruct (Z_le_dec a b), (Z_le_dec b c), (Z_le_dec a c); try lia.
    - apply amgm3; lia.
    - replace (a * b * c)%Z with (a * c * b)%Z by ring. apply amgm3; lia.
    - replace (a * b * c)%Z with (c * a * b)%Z by ring. apply amgm3; lia.
    - replace (a * b * c)%Z with (b * a * c)%Z by ring. apply amgm3; lia.
    - replace (a * b * c)%Z with (b * c * a)%Z by ring. apply amgm3; lia.
    - replace (a * b * c)%Z with (c * b * a)%Z by ring. apply amgm3; lia. }
  rewrite !Nat2Z.inj_mul. apply Hord; lia.
Qed.

Lemma capacity_reached m : 1 <= m ->
  exists x y z, x + y + z < m /\ (x + 1) * (y + 1) * (z + 1) = idx_capacity m.
Proof.
  intros Hm. unfold idx_capacity.
  set (a := (m - 1) / 3). set (b := (m - a - 1) / 2).
  assert (Ha : 3 * a <= m - 1) by (unfold a; apply Nat.mul_div_le; lia).
  assert (Hb : 2 * b <= m - a - 1) by (unfold b; apply Nat.mul_div_le; lia).
  exists a, b, (m - a - b - 1). split; [lia|]. f_equal. lia.
Qed.
