(** C08, C09, C42: placement of elements and rotation utilities. *)
From Coq Require Import Reals List Lra Lia.
From Verif Require Import Base Vec RotModel RotProofs RotEuler QuatProofs PlacementModel PlacementProofs.
Import ListNotations.
Open Scope R_scope.

(** ** C08 *)
(** specification: [f] and [g] are mutually inverse, total, and preserve
    lengths, angles and handedness *)
Definition frame_change (f g : vec -> option vec) : Prop :=
  (forall y, exists z, f y = Some z /\ g z = Some y /\ norm z = norm y) /\
  (forall z, exists y, g z = Some y /\ f y = Some z) /\
  (forall y1 y2 z1 z2, f y1 = Some z1 -> f y2 = Some z2 ->
     dot z1 z2 = dot y1 y2 /\ f (cross y1 y2) = Some (cross z1 z2)).

Lemma rigid_frame_change f g : rigid f g -> frame_change f g.
Proof.
  intros (r & R & F & G). split; [|split].
  - intros y. exists (vm y r). rewrite F, G, rotation_inv_r, rotation_norm by auto. auto.
  - intros z. exists (vm z (mT r)). rewrite F, G, rotation_inv_l by auto. auto.
  - intros y1 y2 z1 z2 H1 H2. rewrite F in *. injection H1 as <-. injection H2 as <-.
    rewrite rotation_dot, rotation_cross by auto. auto.
Qed.

(** whatever the element was given, its frame conversions are rigid motions and
    (0, 0, 1) of the axis frame is the element direction: exactly outside the
    allclose tolerance around the +z/-z axis, and within 3e-8 always *)
Theorem C08_frames_rigid distance direction angles offset history :
  exists p q, init distance direction angles offset = Some p /\ run history p = Some q /\
    frame_change (from_axis q) (to_axis q) /\
    frame_change (from_normal q) (to_normal q) /\
    (p_normal q = true -> forall y, from_normal q y = from_axis q y) /\
    (exists a, from_axis q ez = Some a /\
       (/ 100000000 < Rabs (vx (p_direction q)) \/ / 100000000 < Rabs (vy (p_direction q)) ->
          a = p_direction q) /\
       (p_direction q = ez -> a = ez) /\
       Rabs (vx a - vx (p_direction q)) <= 3 * / 100000000 /\
       Rabs (vy a - vy (p_direction q)) <= 3 * / 100000000 /\
       Rabs (vz a - vz (p_direction q)) <= 3 * / 100000000).
Proof.
  destruct (init_spec distance direction angles offset) as (p & I & NF & FO).
  destruct (run_spec history p NF FO) as (q & RN & NF' & FO').
  exists p, q. split; [auto|]. split; [auto|].
  split; [apply rigid_frame_change, axis_rigid; auto|].
  split; [apply rigid_frame_change, normal_rigid; auto|].
  split; [intros; apply axis_normal_zero; auto|].
  destruct (axis_direction q NF' FO') as (a & A & E & Z & B).
  exists a. split; [auto|]. split; [|split; auto].
  intros H.
  assert (T : / 100000000 = tol) by reflexivity. rewrite T in H.
  apply E.
  - destruct FO' as (S & _). rewrite S. destruct (allclose (p_direction q) ez) eqn:K; auto.
    apply allclose_ez in K. lra.
  - destruct (allclose (cross (p_direction q) ez) v0) eqn:K; auto.
    apply allclose_v0 in K. unfold cross, ez in K. cbn [vx vy vz] in K.
    rewrite !Rmult_1_r, !Rmult_0_r, Rminus_0_r, Rminus_0_l, Rabs_Ropp in K. lra.
Qed.

(** Tilted surface: with [rxyz] angles the conversion from the surface frame is
    first the tilt x, then y, then z rotation (acting on row vectors), then the
    axis frame *)
Theorem C08_tilt_order distance direction angles :
  exists p, update distance direction angles = Some p /\
    (p_normal p = false -> forall y, exists z, 
       from_axis p y = Some z /\
       from_normal p y = Some (vm (vm (vm z (axis_rot 0 (vx angles))) (axis_rot 1 (vy angles)))
          (axis_rot 2 (vz angles)))).
Proof.
  destruct (update_spec distance direction angles) as (p & U & NF & FO & A & _).
  exists p. split; [auto|]. intros N y. destruct FO as (S & N' & B & C).
  unfold from_axis, from_normal, do_rotate.
  assert (PR : p_rotated p = true) by (unfold p_rotated; rewrite N; auto).
  rewrite PR. destruct (C PR) as (r & -> & R & r1 & r2 & E & E1 & E2).
  rewrite N, A in E2. pose proof (euler_product (vx angles) (vy angles) (vz angles) rxyz rxyz_ok) as P.
  change (euler_matrix (vx angles) (vy angles) (vz angles) rxyz = mm (axis_rot 0 (vx angles)) (mm (axis_rot 1 (vy angles)) (axis_rot 2 (vz angles)))) in P.
  rewrite P in E2. subst r r2. rewrite !vm_mm.
  destruct (p_straight p); cbn [negb].
  - subst r1. exists y. rewrite vm_eye. auto.
  - rewrite E1. exists (vm y r1). auto.
Qed.

(** non-trivial instance: oblique direction with length 7 and a tilt *)
Example C08_example :
  exists p, update 2 (V 2 3 6) (V 1 0 0) = Some p /\ p_direction p = V (2/7) (3/7) (6/7) /\
    from_axis p ez = Some (V (2/7) (3/7) (6/7)).
Proof.
  destruct (update_spec 2 (V 2 3 6) (V 1 0 0)) as (p & U & NF & FO & A & DI & u & HU & OF & DU).
  assert (S7 : norm (V 2 3 6) = 7).
  { unfold norm, dot; cbn [vx vy vz]. replace (2*2+3*3+6*6) with (7*7) by ring. apply sqrt_square. lra. }
  exists p. split; [auto|].
  assert (E : p_direction p = V (2/7) (3/7) (6/7)).
  { rewrite DU. destruct (Rlt_dec 2 0); [lra|]. unfold unit_or_axis in HU. rewrite S7 in HU.
    destruct (Req_EM_T 7 0); [lra|]. rewrite !fdiv_some in HU by lra. cbn in HU. congruence. }
  split; [auto|].
  destruct (axis_direction p NF FO) as (a & F & X & _). rewrite F. f_equal. rewrite <- E. apply X.
  - destruct FO as (S & _). rewrite S, E. destruct (allclose (V (2/7) (3/7) (6/7)) ez) eqn:K; auto.
    apply allclose_ez in K. cbn [vx vy vz] in K. destruct K as (K & _). rewrite Rabs_right in K by lra. unfold tol in K. lra.
  - rewrite E. destruct (allclose (cross (V (2/7) (3/7) (6/7)) ez) v0) eqn:K; auto.
    apply allclose_v0 in K. unfold cross, ez in K; cbn [vx vy vz] in K. destruct K as (K & _).
    rewrite Rabs_right in K by lra. unfold tol in K. lra.
Qed.

(** ** C09 *)
Theorem C09_normal_form distance direction angles offset history :
  exists p q, init distance direction angles offset = Some p /\ run history p = Some q /\
    0 <= p_distance q /\ norm (p_direction q) = 1 /\
    p_offset q = vmul3 (p_distance q) (p_direction q).
Proof.
  destruct (init_spec distance direction angles offset) as (p & I & NF & FO).
  destruct (run_spec history p NF FO) as (q & RN & (N1 & N2 & N3) & FO').
  exists p, q. repeat split; auto. apply norm_unit; auto.
Qed.

Theorem C09_offset_roundtrip distance direction angles offset history p q o :
  init distance direction angles offset = Some p -> run history p = Some q ->
  exists r, apply_setter (SetOffset o) q = Some r /\ p_offset r = o /\ p_distance r = norm o /\
    p_angles r = p_angles q.
Proof.
  intros _ _. destruct (set_offset_spec q o) as (r & ? & _ & _ & ? & ? & ?). exists r. auto.
Qed.

Theorem C09_distance_keeps_line distance direction angles offset history p q d :
  init distance direction angles offset = Some p -> run history p = Some q ->
  exists r, apply_setter (SetDistance d) q = Some r /\ p_offset r = vmul3 d (p_direction q) /\
    p_distance r = Rabs d /\ p_angles r = p_angles q /\
    p_direction r = (if Rlt_dec d 0 then vneg (p_direction q) else p_direction q).
Proof.
  intros I RN. destruct (init_spec distance direction angles offset) as (p' & I' & NF & FO).
  rewrite I in I'. injection I' as <-. destruct (run_spec history p NF FO) as (q' & RN' & NF' & FO').
  rewrite RN in RN'. injection RN' as <-.
  destruct (update_spec d (p_direction q) (p_angles q)) as (r & U & _ & _ & A & DI & u & HU & OF & DU).
  exists r. split; [exact U|].
  destruct (unit_or_axis_spec (p_direction q)) as (u' & HU' & _ & _ & _ & UN).
  rewrite HU' in HU. injection HU as ->. rewrite (UN (proj1 (proj2 NF'))) in *.
  repeat split; auto. rewrite DU. destruct (Rlt_dec d 0); auto. vec_ring.
Qed.

(** direction and angles read back what was assigned *)
Theorem C09_direction_angles distance direction angles offset history p q u a :
  init distance direction angles offset = Some p -> run history p = Some q ->
  (exists r, apply_setter (SetDirection u) q = Some r /\ p_distance r = p_distance q /\
     (u <> v0 -> u = vmul3 (norm u) (p_direction r)) /\ (u = v0 -> p_direction r = ez)) /\
  (exists r, apply_setter (SetAngles a) q = Some r /\ p_angles r = a /\
     p_distance r = p_distance q /\ p_direction r = p_direction q /\ p_offset r = p_offset q).
Proof.
  intros I RN. destruct (init_spec distance direction angles offset) as (p' & I' & NF & FO).
  rewrite I in I'. injection I' as <-. destruct (run_spec history p NF FO) as (q' & RN' & NF' & FO').
  rewrite RN in RN'. injection RN' as <-. destruct NF' as (D0 & DU & OFF).
  split.
  - destruct (update_spec (p_distance q) u (p_angles q)) as (r & U & _ & _ & A & DI & w & HU & OF & DW).
    exists r. split; [exact U|]. split; [rewrite DI; apply Rabs_right; lra|].
    destruct (unit_or_axis_spec u) as (w' & HU' & _ & X & Y & UN).
    rewrite HU' in HU. injection HU as ->. destruct (Rlt_dec (p_distance q) 0); [lra|].
    rewrite DW. auto.
  - destruct (update_spec (p_distance q) (p_direction q) a) as (r & U & _ & _ & A & DI & w & HU & OF & DW).
    exists r. split; [exact U|]. split; [auto|]. split; [rewrite DI; apply Rabs_right; lra|].
    destruct (unit_or_axis_spec (p_direction q)) as (w' & HU' & _ & X & Y & UN).
    rewrite HU' in HU. injection HU as ->. destruct (Rlt_dec (p_distance q) 0); [lra|].
    rewrite (UN DU) in *. split; [auto|]. congruence.
Qed.

Example C09_example : exists p q,
  init 3 (V 0 0 1) v0 None = Some p /\
  run [SetDistance (-2); SetOffset (V 0 3 4)] p = Some q /\ p_distance q = 5 /\ p_offset q = V 0 3 4.
Proof.
  destruct (init_spec 3 (V 0 0 1) v0 None) as (p & I & NF & FO). exists p.
  destruct (setter_spec (SetDistance (-2)) p NF) as (q & Q1 & NFq & _).
  destruct (set_offset_spec q (V 0 3 4)) as (r & R1 & _ & _ & R2 & R3 & _).
  exists r. split; [auto|]. cbn [run]. rewrite Q1. cbn [obind apply_setter]. rewrite R1. cbn [obind].
  split; [auto|]. split; [|auto]. rewrite R3. unfold norm, dot; cbn [vx vy vz].
  replace (0*0+3*3+4*4) with (5*5) by ring. apply sqrt_square. lra.
Qed.

(** ** C42 *)
(** rotation_matrix: exists exactly for non-zero axes; proper rotation; fixes the
    axis; turns orthogonal vectors by the angle (right hand rule); trace *)
Theorem C42_rotation_matrix angle direction :
  (direction = v0 -> rotation_matrix angle direction = None) /\
  (direction <> v0 -> exists m, rotation_matrix angle direction = Some m /\ rotation m /\
     mv m direction = direction /\
     mget m 0 0 + mget m 1 1 + mget m 2 2 = 1 + 2 * cos angle /\
     forall y, dot y direction = 0 ->
       mv m y = vadd3 (vmul3 (cos angle) y) (vmul3 (sin angle / norm direction) (cross direction y))).
Proof.
  split.
  - intros ->. unfold rotation_matrix. rewrite (proj2 (unit_vector_none v0) eq_refl). reflexivity.
  - intros N. destruct (unit_vector_some _ N) as (n & U & D & E & En).
    assert (NZ : norm direction <> 0) by (rewrite norm_zero; auto).
    exists (rodrigues angle n). split; [apply rotation_matrix_rodrigues; auto|].
    split; [apply rodrigues_rotation; auto|]. split; [|split].
    + rewrite E at 1. rewrite mv_vm, vm_scale, <- mv_vm, rodrigues_axis by auto. auto.
    + unfold dot in D. unfold rodrigues. cbn [mget mrow vget row0 row1 row2 vx vy vz].
      transitivity (3 * cos angle + (1 - cos angle) * (vx n * vx n + vy n * vy n + vz n * vz n)); [ring|].
      rewrite D. ring.
    + intros y Y. rewrite rodrigues_action by auto.
      assert (Z : dot n y = 0).
      { rewrite En, dot_scale_l, dot_comm, Y. ring. }
      rewrite Z. rewrite E at 2. set (k := norm direction) in *. clearbody k. clear - NZ.
      destruct n as [a b c], y as [d e f]. vec_simpl. apply vec_eq; cbn [vx vy vz]; field; auto.
Qed.

(** every one of the 24 conventions is the product of three elementary rotations
    in the order of its name; hence a proper rotation *)
Theorem C42_euler_matrix ai aj ak a : axes_ok a ->
  (let '(a1, a3) := if ax_frame a then (ak, ai) else (ai, ak) in
   let last := if ax_rep a then ax_i a else ax_k a in
   euler_matrix ai aj ak a =
   mm (axis_rot last a3) (mm (axis_rot (ax_j a) aj) (axis_rot (ax_i a) a1))) /\
  rotation (euler_matrix ai aj ak a).
Proof. intros H. split; [apply euler_product; auto|apply euler_rotation; auto]. Qed.

(** matrix -> angles -> matrix: exact outside the gimbal-lock band of width
    _EPS = 2^-50 (and at exact gimbal lock), within 2*_EPS per entry always *)
Theorem C42_euler_round_trip m a : axes_ok a -> rotation m ->
  let '(x, y, z) := euler_from_matrix m a in
  (EPS < gimbal a m \/ gimbal a m = 0 -> euler_matrix x y z a = m) /\
  forall r s, (r < 3)%nat -> (s < 3)%nat ->
    Rabs (mget (euler_matrix x y z a) r s - mget m r s) <= 2 * EPS.
Proof.
  intros H R. pose proof (euler_round m a H R) as A. pose proof (euler_round_close m a H R) as B.
  destruct (euler_from_matrix m a) as [[x y] z]. auto.
Qed.

Theorem C42_quaternion_algebra a b c :
  quaternion_multiply a (quaternion_multiply b c) = quaternion_multiply (quaternion_multiply a b) c /\
  qdot (quaternion_multiply a b) (quaternion_multiply a b) = qdot a a * qdot b b /\
  quaternion_multiply a (quaternion_conjugate a) = Q (qdot a a) 0 0 0 /\
  (a <> Q 0 0 0 0 -> exists r, quaternion_inverse a = Some r /\
     quaternion_multiply a r = Q 1 0 0 0 /\ quaternion_multiply r a = Q 1 0 0 0) /\
  (a = Q 0 0 0 0 -> quaternion_inverse a = None).
Proof.
  split; [apply qmul_assoc|]. split; [apply qdot_mul|]. split.
  { destruct a as [w x y z]. unfold quaternion_multiply, quaternion_conjugate, qdot. cbn [qw qx qy qz].
    f_equal; ring. }
  destruct (quaternion_inverse_spec a) as [(r & N & I & E1 & E2)|(Z & I)].
  - split; [intros _; exists r; auto|]. intros ->. exfalso. apply N. unfold qdot; cbn. ring.
  - split; [intros K; contradiction|auto].
Qed.

Theorem C42_quaternion_matrix :
  (forall q, rotation (quaternion_matrix q)) /\
  (forall a b, qdot a a = 1 -> qdot b b = 1 ->
     quaternion_matrix (quaternion_multiply a b) = mm (quaternion_matrix a) (quaternion_matrix b)) /\
  (forall angle v, EPS < norm v ->
     rotation_matrix angle v = Some (quaternion_matrix (quaternion_about_axis angle v))) /\
  (forall ai aj ak a, axes_ok a ->
     quaternion_matrix (quaternion_from_euler ai aj ak a) = euler_matrix ai aj ak a) /\
  (forall junk m, rotation m -> 0 < mget m 0 0 + mget m 1 1 + mget m 2 2 ->
     exists q, quaternion_from_matrix_precise junk m = Some q /\ qdot q q = 1 /\
       quaternion_matrix q = m).
Proof.
  split; [apply quaternion_matrix_rotation|]. split.
  { intros a b A B. apply quaternion_matrix_mul; rewrite ?A, ?B; unfold EPS; lra. }
  split.
  { intros angle v H. destruct (quaternion_about_axis_matrix angle v H) as (m & -> & ->). auto. }
  split; [intros; apply quat_euler_matrix; auto|apply quat_from_matrix].
Qed.

(** quaternion_from_matrix(isprecise=True) does not handle rotations with
    non-positive trace: for the half turn about x the result is 0.5/sqrt(0) *)
Theorem C42_quaternion_from_matrix_refuted junk :
  let m := M (V 1 0 0) (V 0 (-1) 0) (V 0 0 (-1)) in
  rotation m /\ quaternion_from_matrix_precise junk m = None.
Proof.
  split.
  - apply rotation_intro; vec_ring.
  - unfold quaternion_from_matrix_precise. cbn [mget mrow vget row0 row1 row2 vx vy vz].
    destruct (Rlt_dec 1 (1 + -1 + -1 + 1)); [lra|].
    destruct (Rlt_dec 1 (-1)); [lra|]. cbn [hget mget mrow vget row0 row1 row2 vx vy vz].
    destruct (Rlt_dec (-1) (-1)); [lra|].
    cbv [hget mget mrow vget row0 row1 row2 vx vy vz].
    match goal with |- obind (fsqrt ?t) _ = _ => replace t with 0 by ring end.
    rewrite fsqrt_some by lra. rewrite sqrt_0. cbn [obind]. rewrite fdiv_zero. reflexivity.
Qed.

Example C42_example : axes_ok rxyz /\ rotation (euler_matrix 1 (1/2) 2 rxyz) /\
  EPS < gimbal rxyz eye /\ EPS < norm (V 1 2 3) /\ 0 < mget eye 0 0 + mget eye 1 1 + mget eye 2 2.
Proof.
  split; [apply rxyz_ok|]. split; [apply euler_rotation, rxyz_ok|].
  split; [|split].
  - change (gimbal rxyz eye) with (sqrt (1 * 1 + 0 * 0)). replace (1*1+0*0) with 1 by ring.
    rewrite sqrt_1. unfold EPS; lra.
  - apply Rlt_trans with 1; [unfold EPS; lra|]. unfold norm, dot. cbn [vx vy vz].
    apply Rlt_le_trans with (sqrt (2*2)); [rewrite sqrt_square; lra|apply sqrt_le_1; lra].
  - cbn. lra.
Qed.

Print Assumptions C08_frames_rigid.
Print Assumptions C08_tilt_order.
Print Assumptions C09_normal_form.
Print Assumptions C09_offset_roundtrip.
Print Assumptions C09_distance_keeps_line.
Print Assumptions C09_direction_angles.
Print Assumptions C42_rotation_matrix.
Print Assumptions C42_euler_matrix.
Print Assumptions C42_euler_round_trip.
Print Assumptions C42_quaternion_algebra.
Print Assumptions C42_quaternion_matrix.
Print Assumptions C42_quaternion_from_matrix_refuted.
