From Coq Require Import Reals List Lra Lia Psatz Bool.
From Verif Require Import Base Vec RotModel RotProofs RotEuler PlacementModel.
Open Scope R_scope.

Lemma Rabs_def2b x y : Rabs x <= y -> - y <= x <= y.
Proof. unfold Rabs. destruct (Rcase_abs x); lra. Qed.
Lemma isclose_true a b : isclose a b = true <-> Rabs (a - b) <= tol + / 100000 * Rabs b.
Proof. unfold isclose. destruct (Rle_dec _ _); split; intros; auto; discriminate. Qed.
Lemma allclose_v0 a : allclose a v0 = true <-> (Rabs (vx a) <= tol /\ Rabs (vy a) <= tol /\ Rabs (vz a) <= tol).
Proof.
  unfold allclose. rewrite !andb_true_iff, !isclose_true. unfold v0. cbn [vx vy vz].
  rewrite Rabs_R0, !Rminus_0_r. split; intros; repeat split; lra.
Qed.
Lemma allclose_ez a : allclose a ez = true <->
  (Rabs (vx a) <= tol /\ Rabs (vy a) <= tol /\ Rabs (vz a - 1) <= tol + / 100000).
Proof.
  unfold allclose. rewrite !andb_true_iff, !isclose_true. unfold ez. cbn [vx vy vz].
  rewrite Rabs_R0, Rabs_R1, !Rminus_0_r. split; intros; repeat split; lra.
Qed.

Lemma unit_or_axis_spec d : exists u, unit_or_axis d = Some u /\ dot u u = 1 /\
  (d <> v0 -> d = vmul3 (norm d) u) /\ (d = v0 -> u = ez) /\ (dot d d = 1 -> u = d).
Proof.
  unfold unit_or_axis. destruct (Req_EM_T (norm d) 0) as [Z|Z].
  - rewrite !fdiv_some by lra. cbn [obind]. exists ez. unfold ez. cbn [vx vy vz].
    split; [f_equal; apply vec_eq; simpl; field|].
    split; [unfold dot; simpl; ring|]. apply norm_zero in Z. split; [congruence|split; auto].
    intros E. subst. exfalso. unfold dot, v0 in E; simpl in E; lra.
  - rewrite !fdiv_some by auto. cbn [obind]. eexists; split; [reflexivity|].
    assert (N : d <> v0) by (intros ->; apply Z, norm_zero; auto).
    destruct (unit_vector_some d N) as (n & U & D & E & En).
    replace (V (vx d / norm d) (vy d / norm d) (vz d / norm d)) with n
      by (rewrite En; apply vec_eq; simpl; field; auto).
    split; [auto|]. split; [auto|]. split; [congruence|].
    intros O. rewrite En. unfold norm. rewrite O, sqrt_1. apply vec_eq; simpl; field.
Qed.

Lemma sin_PI_minus x : sin (PI - x) = sin x.
Proof. apply sin_PI_x. Qed.
Lemma cos_PI_minus x : cos (PI - x) = - cos x.
Proof. unfold Rminus. rewrite Rplus_comm, neg_cos, cos_neg. reflexivity. Qed.

(** the rotation of the optical axis exists and is proper; image of (0,0,1) *)
Lemma axis_rotation_spec u : dot u u = 1 ->
  exists r, axis_rotation u = Some r /\ rotation r /\
    (allclose (cross u ez) v0 = false -> vm ez r = u) /\
    (allclose (cross u ez) v0 = true -> vm ez r = V 0 (sqrt (vx u * vx u + vy u * vy u)) (vz u)).
Proof.
  intros D. unfold axis_rotation.
  assert (CC : dot (cross u ez) (cross u ez) = vx u * vx u + vy u * vy u).
  { unfold dot, cross, ez. cbn [vx vy vz]. ring. }
  assert (NN : norm (cross u ez) * norm (cross u ez) = vx u * vx u + vy u * vy u).
  { rewrite norm_sqr. auto. }
  pose proof (norm_nonneg (cross u ez)) as NP.
  assert (NE : norm (cross u ez) = sqrt (vx u * vx u + vy u * vy u)).
  { unfold norm. rewrite CC. reflexivity. }
  set (s := norm (cross u ez)) in *. unfold dot in D.
  assert (B : -1 <= s <= 1) by (pose proof (sq_nn (vz u)); split; nra).
  assert (SZ : sqrt (1 - s²) = Rabs (vz u)).
  { rewrite <- sqrt_Rsqr_abs. f_equal. unfold Rsqr. lra. }
  set (ang := if Rlt_dec (vz u) 0 then PI - asin s else asin s).
  assert (SA : sin ang = s).
  { unfold ang. destruct (Rlt_dec (vz u) 0); rewrite ?sin_PI_minus; apply sin_asin; auto. }
  assert (CA : cos ang = vz u).
  { unfold ang. destruct (Rlt_dec (vz u) 0); rewrite ?cos_PI_minus, cos_asin, SZ by auto.
    - rewrite Rabs_left by auto. ring.
    - apply Rabs_right. lra. }
  destruct (allclose (cross u ez) v0) eqn:AC.
  - assert (X : ex <> v0) by (unfold ex, v0; intros E; injection E; lra).
    destruct (unit_vector_some ex X) as (n & U & N1 & E & En).
    assert (n = ex).
    { rewrite En. unfold norm, ex, dot. cbn [vx vy vz].
      replace (1*1+0*0+0*0) with 1 by ring. rewrite sqrt_1. apply vec_eq; simpl; field. }
    clear E En. subst n. rewrite (rotation_matrix_rodrigues _ _ _ U).
    eexists. split; [reflexivity|]. split; [apply rodrigues_rotation; auto|].
    split; [discriminate|]. intros _. unfold rodrigues. rewrite SA, CA, <- NE. unfold ex.
    vec_simpl. apply vec_eq; cbn [vx vy vz row0 row1 row2]. all: ring.
  - assert (X : cross u ez <> v0).
    { intros E. rewrite E in AC.
      assert (allclose v0 v0 = true); [|congruence]. apply allclose_v0.
      unfold v0; simpl. rewrite Rabs_R0. unfold tol. repeat split; lra. }
    destruct (unit_vector_some _ X) as (n & U & N1 & E & En). fold s in E, En.
    assert (s <> 0) by (intros Z; apply X, norm_zero; auto).
    rewrite (rotation_matrix_rodrigues _ _ _ U).
    eexists. split; [reflexivity|]. split; [apply rodrigues_rotation; auto|].
    split; [|discriminate]. intros _.
    assert (NX : vx n = vy u / s) by (rewrite En; unfold cross, ez, vmul3; cbn [vx vy vz]; field; auto).
    assert (NY : vy n = - vx u / s) by (rewrite En; unfold cross, ez, vmul3; cbn [vx vy vz]; field; auto).
    assert (NZ : vz n = 0) by (rewrite En; unfold cross, ez, vmul3; cbn [vx vy vz]; field; auto).
    unfold rodrigues. rewrite SA, CA, NX, NY, NZ. vec_simpl.
    apply vec_eq; cbn [vx vy vz]; field; auto.
Qed.

(** normal form of a placement *)
Definition normal_form (p : placement) : Prop :=
  0 <= p_distance p /\ dot (p_direction p) (p_direction p) = 1 /\
  p_offset p = vmul3 (p_distance p) (p_direction p).

(** description of the matrices stored by update *)
Definition frame_ok (p : placement) : Prop :=
  p_straight p = allclose (p_direction p) ez /\ p_normal p = allclose (p_angles p) v0 /\
  (p_straight p = false -> exists r, p_rot_axis p = Some r /\ axis_rotation (p_direction p) = Some r) /\
  (p_rotated p = true -> exists r, p_rot_normal p = Some r /\ rotation r /\
    exists r1 r2, r = mm r1 r2 /\
    (if p_straight p then r1 = eye else p_rot_axis p = Some r1) /\
    (r2 = if p_normal p then eye else euler_matrix (vx (p_angles p)) (vy (p_angles p)) (vz (p_angles p)) rxyz)).

Lemma rxyz_ok : axes_ok rxyz. Proof. unfold axes_ok, rxyz; simpl; lia. Qed.

Lemma update_spec distance direction angles :
  exists p, update distance direction angles = Some p /\ normal_form p /\ frame_ok p /\
    p_angles p = angles /\ p_distance p = Rabs distance /\
    exists u, unit_or_axis direction = Some u /\ p_offset p = vmul3 distance u /\
      p_direction p = (if Rlt_dec distance 0 then vmul3 (-1) u else u).
Proof.
  unfold update. destruct (unit_or_axis_spec direction) as (u & U & D & _). rewrite U. cbn [obind].
  set (w := if Rlt_dec distance 0 then vmul3 (-1) u else u).
  set (d := if Rlt_dec distance 0 then distance * -1 else distance).
  assert (E : (if Rlt_dec distance 0 then (distance * -1, vmul3 (-1) u) else (distance, u)) = (d, w)).
  { unfold d, w. destruct (Rlt_dec distance 0); auto. }
  rewrite E.
  assert (Dw : dot w w = 1).
  { unfold w. destruct (Rlt_dec distance 0); auto. rewrite dot_scale_l, dot_scale_r. lra. }
  assert (Dp : 0 <= d) by (unfold d; destruct (Rlt_dec distance 0); lra).
  assert (Da : d = Rabs distance).
  { unfold d. destruct (Rlt_dec distance 0); [rewrite Rabs_left by auto; ring|rewrite Rabs_right by lra; auto]. }
  assert (Off : vmul3 d w = vmul3 distance u).
  { unfold d, w. destruct (Rlt_dec distance 0); auto. vec_ring. }
  set (st := allclose w ez) in *. set (nm := allclose angles v0) in *.
  destruct (axis_rotation_spec w Dw) as (r1 & A & R1 & _).
  assert (RE : rotation (euler_matrix (vx angles) (vy angles) (vz angles) rxyz)) by (apply euler_rotation, rxyz_ok).
  destruct st eqn:ST.
  - destruct nm eqn:NM; cbn [andb].
    + eexists; split; [reflexivity|]. split; [split; [|split]; cbn; auto|].
      split; [|cbn; repeat split; auto; exists u; repeat split; auto].
      unfold frame_ok; cbn. unfold p_rotated; cbn. repeat split; auto; intros; discriminate.
    + eexists; split; [reflexivity|]. split; [split; [|split]; cbn; auto|].
      split; [|cbn; repeat split; auto; exists u; repeat split; auto].
      unfold frame_ok; cbn. repeat split; auto; try discriminate. intros _.
      eexists; split; [reflexivity|]. split; [apply rotation_mm; auto using rotation_eye|].
      eexists; eexists; split; [reflexivity|]. split; auto.
  - rewrite andb_false_r, A. cbn [obind].
    eexists; split; [reflexivity|]. split; [split; [|split]; cbn; auto|].
    split; [|cbn; repeat split; auto; exists u; repeat split; auto].
    unfold frame_ok; cbn. split; [auto|split; [auto|split]].
    + intros _. eauto.
    + intros _. destruct nm; (eexists; split; [reflexivity|]).
      * split; [apply rotation_mm; auto using rotation_eye|].
        exists r1, eye. rewrite mm_eye_l, mm_eye_r. auto.
      * split; [repeat apply rotation_mm; auto using rotation_eye|].
        eexists r1, _. rewrite mm_eye_l. split; [reflexivity|auto].
Qed.

(** rigid pair of conversions *)
Definition rigid (f g : vec -> option vec) : Prop :=
  exists r, rotation r /\ (forall y, f y = Some (vm y r)) /\ (forall y, g y = Some (vm y (mT r))).

Lemma axis_rigid p : normal_form p -> frame_ok p -> rigid (from_axis p) (to_axis p).
Proof.
  intros (_ & D & _) (S & N & A & _). unfold from_axis, to_axis, do_rotate.
  destruct (p_straight p) eqn:E; cbn [negb].
  - exists eye. split; [apply rotation_eye|]. rewrite mT_eye. split; intros; rewrite vm_eye; auto.
  - destruct (A eq_refl) as (r & -> & Hr).
    destruct (axis_rotation_spec _ D) as (r' & A' & R' & _). rewrite A' in Hr. injection Hr as ->.
    exists r. split; auto.
Qed.
Lemma normal_rigid p : frame_ok p -> rigid (from_normal p) (to_normal p).
Proof.
  intros (S & N & A & B). unfold from_normal, to_normal, do_rotate.
  destruct (p_rotated p).
  - destruct (B eq_refl) as (r & -> & Hr & _). exists r. split; auto.
  - exists eye. split; [apply rotation_eye|]. rewrite mT_eye. split; intros; rewrite vm_eye; auto.
Qed.

Lemma Rabs_sq x : Rabs x * Rabs x = x * x.
Proof. unfold Rabs. destruct (Rcase_abs x); ring. Qed.

(** the axis (0, 0, 1) goes to the direction *)
Lemma axis_direction p : normal_form p -> frame_ok p ->
  exists a, from_axis p ez = Some a /\
    (p_straight p = false -> allclose (cross (p_direction p) ez) v0 = false -> a = p_direction p) /\
    (p_direction p = ez -> a = ez) /\
    Rabs (vx a - vx (p_direction p)) <= 3 * tol /\
    Rabs (vy a - vy (p_direction p)) <= 3 * tol /\
    Rabs (vz a - vz (p_direction p)) <= 3 * tol.
Proof.
  intros (_ & D & _) (S & N & A & _). unfold from_axis, do_rotate.
  assert (T : 0 < tol < / 10000000) by (unfold tol; lra).
  destruct (p_straight p) eqn:E; cbn [negb].
  - exists ez. split; [auto|]. split; [discriminate|]. split; [auto|].
    symmetry in S. apply allclose_ez in S. destruct S as (S1 & S2 & S3).
    set (u := p_direction p) in *. unfold dot in D. cbn [ez vx vy vz].
    rewrite !Rminus_0_l, !Rabs_Ropp.
    assert (U : Rabs (1 - vz u) <= 3 * tol).
    { pose proof (Rabs_sq (vx u)). pose proof (Rabs_sq (vy u)).
      pose proof (Rabs_pos (vx u)). pose proof (Rabs_pos (vy u)).
      apply Rabs_le. assert (Z : -1/10 <= vz u - 1 <= 1/10).
      { apply Rabs_def2b in S3. lra. }
      assert (vx u * vx u <= tol) by nra. assert (vy u * vy u <= tol) by nra.
      split; nra. }
    repeat split; lra.
  - destruct (A eq_refl) as (r & -> & Hr).
    destruct (axis_rotation_spec _ D) as (r' & A' & R' & R1 & R2). rewrite A' in Hr. injection Hr as ->.
    exists (vm ez r). split; [auto|]. split; [auto|]. split.
    + intros Z. exfalso. rewrite Z in S. symmetry in S.
      assert (allclose ez ez = true); [|congruence]. apply allclose_ez. unfold ez; cbn [vx vy vz].
      rewrite Rminus_diag_eq by auto. rewrite Rabs_R0. repeat split; lra.
    + destruct (allclose (cross (p_direction p) ez) v0) eqn:C.
      * rewrite R2 by auto. apply allclose_v0 in C. unfold cross, ez in C. cbn [vx vy vz] in *.
        set (u := p_direction p) in *. destruct C as (C1 & C2 & _).
        rewrite Rmult_1_r, Rmult_0_r, Rminus_0_r in C1.
        rewrite Rmult_1_r, Rmult_0_r, Rminus_0_l, Rabs_Ropp in C2.
        rewrite Rminus_0_l, Rabs_Ropp. 
        split; [lra|]. split; [|rewrite Rminus_diag_eq, Rabs_R0 by auto; lra].
        apply Rabs_def2b in C1. apply Rabs_def2b in C2.
        pose proof (sqrt_pos (vx u * vx u + vy u * vy u)) as P.
        assert (SS : sqrt (vx u * vx u + vy u * vy u) * sqrt (vx u * vx u + vy u * vy u) = vx u * vx u + vy u * vy u).
        { apply sqrt_sqrt. pose proof (sq_nn (vx u)); pose proof (sq_nn (vy u)); lra. }
        set (q := sqrt _) in *. assert (q <= 2 * tol) by (clear - P SS C1 C2 T; nra).
        apply Rabs_le. lra.
      * rewrite R1 by auto. rewrite !Rminus_diag_eq by auto. rewrite Rabs_R0. lra.
Qed.

Lemma axis_normal_zero p : frame_ok p -> p_normal p = true ->
  forall y, from_normal p y = from_axis p y.
Proof.
  intros (S & N & A & B) Z y. unfold from_normal, from_axis, do_rotate.
  unfold p_rotated in *. rewrite Z in *. cbn [andb] in *. destruct (p_straight p); cbn [negb] in *; auto.
  destruct (B eq_refl) as (r & -> & Hr & r1 & r2 & E & E1 & E2).
  rewrite E1. subst. rewrite mm_eye_r. auto.
Qed.

(** ** setter histories *)
Lemma set_offset_spec p o : exists q, set_offset p o = Some q /\ normal_form q /\ frame_ok q /\
  p_offset q = o /\ p_distance q = norm o /\ p_angles q = p_angles p.
Proof.
  unfold set_offset. destruct (Req_EM_T (norm o) 0) as [Z|Z].
  - destruct (update_spec (norm o) ez (p_angles p)) as (q & U & NF & FO & A & DI & u & _ & OF & _).
    exists q. repeat split; try apply NF; try apply FO; auto.
    + rewrite OF, Z. apply norm_zero in Z. subst. vec_ring.
    + rewrite DI, Z, Rabs_R0. auto.
  - rewrite !fdiv_some by auto. cbn [obind].
    match goal with |- context [update ?d ?v ?a] =>
      destruct (update_spec d v a) as (q & U & NF & FO & A & DI & u & HU & OF & _) end.
    exists q. split; [auto|]. split; [auto|]. split; [auto|].
    assert (u = V (vx o / norm o) (vy o / norm o) (vz o / norm o)).
    { match type of HU with unit_or_axis ?v = _ =>
        destruct (unit_or_axis_spec v) as (u' & HU' & _ & _ & _ & UN) end.
      rewrite HU' in HU. injection HU as ->. apply UN.
      unfold dot. cbn [vx vy vz]. pose proof (norm_sqr o) as NS. unfold dot in NS.
      transitivity ((vx o * vx o + vy o * vy o + vz o * vz o) / (norm o * norm o)); [field; auto|].
      rewrite NS. field. rewrite <- NS. intros K. apply Rmult_integral in K. lra. }
    subst u. repeat split; auto.
    + rewrite OF. apply vec_eq; cbn [vmul3 vx vy vz]; field; auto.
    + rewrite DI. apply Rabs_right. pose proof (norm_nonneg o); lra.
Qed.

Lemma setter_spec s p : normal_form p -> exists q, apply_setter s p = Some q /\ normal_form q /\ frame_ok q.
Proof.
  intros H. destruct s; cbn [apply_setter].
  - unfold set_distance. destruct (update_spec d (p_direction p) (p_angles p)) as (q & ? & ? & ? & _); eauto.
  - unfold set_direction. destruct (update_spec (p_distance p) u (p_angles p)) as (q & ? & ? & ? & _); eauto.
  - unfold set_angles. destruct (update_spec (p_distance p) (p_direction p) a) as (q & ? & ? & ? & _); eauto.
  - destruct (set_offset_spec p o) as (q & ? & ? & ? & _); eauto.
Qed.
Lemma run_spec l : forall p, normal_form p -> frame_ok p ->
  exists q, run l p = Some q /\ normal_form q /\ frame_ok q.
Proof.
  induction l as [|s l IH]; intros p H F; cbn [run].
  - eauto.
  - destruct (setter_spec s p H) as (q & -> & Hq & Fq). cbn [obind]. apply IH; auto.
Qed.
Lemma init_spec d u a o : exists p, init d u a o = Some p /\ normal_form p /\ frame_ok p.
Proof.
  unfold init. destruct (update_spec d u a) as (p & -> & NF & FO & _). cbn [obind].
  destruct o as [o|]; [|eauto]. destruct (set_offset_spec p o) as (q & ? & ? & ? & _); eauto.
Qed.
Lemma set_distance_spec p d : normal_form p -> exists q, set_distance p d = Some q /\
  p_offset q = vmul3 d (p_direction p) /\ p_distance q = Rabs d /\ p_angles q = p_angles p.
Proof.
  intros (_ & D & _). unfold set_distance.
  destruct (update_spec d (p_direction p) (p_angles p)) as (q & U & NF & FO & A & DI & u & HU & OF & _).
  exists q. destruct (unit_or_axis_spec (p_direction p)) as (u' & HU' & _ & _ & _ & UN).
  rewrite HU' in HU. injection HU as ->. rewrite (UN D) in OF. auto.
Qed.
