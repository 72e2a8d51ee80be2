(** Aligning a surface so that the axis is refracted or reflected into the next direction (C51). *)
From Coq Require Import Reals List ZArith Bool Lia Lra Psatz Nsatz.
From Verif Require Import Base Vec RotModel PlacementModel ElementModel LayoutModel RotProofs RotEuler PlacementProofs PropsLayout.
Import ListNotations.
Open Scope R_scope.

Lemma lagrange a b : dot (cross a b) (cross a b) = dot a a * dot b b - dot a b * dot a b.
Proof. unfold dot, cross; cbn; ring. Qed.
Lemma triple a b : cross (cross a b) a = vsub3 (vmul3 (dot a a) b) (vmul3 (dot a b) a).
Proof. vec_ring. Qed.
Lemma cross_orth a b : dot (cross a b) a = 0. Proof. vec_ring. Qed.

(** the rotation computed by align takes the axis to the wanted normal and is not at gimbal lock *)
Lemma gimbal_zz m : Rabs (vz (row2 m)) <= gimbal rxyz m.
Proof.
  unfold gimbal. change (ax_rep rxyz) with false. unfold lock.
  match goal with |- _ <= sqrt (?x * ?x + ?y * ?y) => assert (E : x = vz (row2 m)) by reflexivity; rewrite E; set (t := y) end.
  rewrite <- sqrt_Rsqr_abs. apply sqrt_le_1_alt. unfold Rsqr. pose proof (sq_nn t). lra.
Qed.
Lemma align_rotation i r : dot i i = 1 -> dot r r = 1 -> EPS < dot i r -> cross i r = v0 \/ allclose (cross i r) v0 = false ->
  exists m, rotation_matrix (asin (norm (cross i r))) (if allclose (cross i r) v0 then ex else cross i r) = Some m /\ rotation m /\ mv m i = r /\ EPS < gimbal rxyz (mT m) /\ (cross i r = v0 -> m = eye).
Proof.
  intros I R C N. assert (EP : 0 < EPS) by (unfold EPS; lra). pose proof (lagrange i r) as L. rewrite I, R in L. rewrite <- norm_sqr in L. pose proof (norm_nonneg (cross i r)) as NP.
  set (s := norm (cross i r)) in *. set (c := dot i r) in *.
  assert (B : -1 <= s <= 1) by (split; nra).
  assert (SA : sin (asin s) = s) by (apply sin_asin; auto).
  assert (CA : cos (asin s) = c).
  { rewrite cos_asin by auto. replace (1 - s²) with (c²) by (unfold Rsqr; lra). rewrite sqrt_Rsqr; lra. }
  assert (K : exists n, unit_vector (if allclose (cross i r) v0 then ex else cross i r) = Some n /\ dot n n = 1 /\
     vadd3 (vadd3 (vmul3 c i) (vmul3 s (cross n i))) (vmul3 ((1 - c) * dot n i) n) = r).
  { destruct N as [Z|Z].
    - rewrite Z. assert (A : allclose v0 v0 = true) by (apply allclose_v0; unfold v0; cbn; rewrite Rabs_R0; unfold tol; repeat split; lra). rewrite A.
      assert (X : ex <> v0) by (unfold ex, v0; intros E; injection E; lra). destruct (unit_vector_some ex X) as (n & U & N1 & _). exists n. split; [auto|]. split; [auto|].
      assert (S0 : s = 0) by (unfold s; rewrite Z; apply norm_zero; auto). assert (C1 : c = 1) by (rewrite S0 in L; nra).
      assert (IR : i = r).
      { assert (D : dot (vsub3 i r) (vsub3 i r) = 0). { replace (dot (vsub3 i r) (vsub3 i r)) with (dot i i - 2 * dot i r + dot r r) by (vec_ring). fold c. lra. }
        apply dot_zero in D. destruct i as [a b d], r as [a' b' d']. unfold vsub3, v0 in D. cbn in D. injection D as D1 D2 D3. f_equal; lra. }
      rewrite S0, C1, IR. vec_ring.
    - rewrite Z. assert (X : cross i r <> v0).
      { intros E. rewrite E in Z. assert (allclose v0 v0 = true); [|congruence]. apply allclose_v0. unfold v0; cbn. rewrite Rabs_R0. unfold tol. repeat split; lra. }
      destruct (unit_vector_some _ X) as (n & U & N1 & E & En). exists n. split; [auto|]. split; [auto|].
      assert (S0 : s <> 0) by (intros Q; apply X, norm_zero; auto).
      assert (NI : dot n i = 0) by (rewrite En, dot_scale_l, cross_orth; ring).
      assert (NC : vmul3 s (cross n i) = vsub3 r (vmul3 c i)).
      { replace (vmul3 s (cross n i)) with (cross (vmul3 s n) i) by vec_ring. unfold s at 1. rewrite <- E, triple, I. fold c. vec_ring. }
      rewrite NI, NC. vec_ring. }
  destruct K as (n & U & N1 & A). exists (rodrigues (asin s) n). split; [apply rotation_matrix_rodrigues; auto|]. split; [apply rodrigues_rotation; auto|].
  split; [rewrite rodrigues_action by auto; rewrite SA, CA; auto|]. split.
  2: { intros E. assert (S0 : s = 0) by (unfold s; rewrite E; apply norm_zero; auto). rewrite S0, asin_0. unfold rodrigues. rewrite sin_0, cos_0. vec_ring. }
  eapply Rlt_le_trans; [|apply gimbal_zz]. change (vz (row2 (mT (rodrigues (asin s) n)))) with (cos (asin s) + (1 - cos (asin s)) * (vz n * vz n)). rewrite CA.
  assert (C1 : c <= 1) by nra. assert (0 <= (1 - c) * (vz n * vz n)) by (apply Rmult_le_pos; [lra|apply sq_nn]). rewrite Rabs_right; lra.
Qed.

Lemma sin_abs x : Rabs (sin x) <= Rabs x.
Proof.
  assert (P : forall y, 0 < y -> Rabs (sin y) <= y).
  { intros y Y. apply Rabs_le. pose proof (sin_lt_x y Y). destruct (Rle_dec y 1).
    - pose proof (sin_gt_0 y Y) as G. assert (1 < PI) by (pose proof PI_RGT_0; pose proof PI2_1; lra). assert (0 < sin y) by (apply G; lra). lra.
    - pose proof (SIN_bound y). lra. }
  destruct (Rtotal_order x 0) as [L|[E|G]].
  - specialize (P (- x) ltac:(lra)). rewrite sin_neg, Rabs_Ropp in P. rewrite (Rabs_left x); auto.
  - subst. rewrite sin_0. lra.
  - rewrite (Rabs_right x) by lra. apply P. lra.
Qed.
Lemma chord t : 2 - 2 * cos t <= t * t.
Proof.
  replace t with (2 * (t / 2)) at 1 by field. rewrite cos_2a_sin. pose proof (sin_abs (t / 2)) as S.
  assert (S2 : sin (t / 2) * sin (t / 2) <= (t / 2) * (t / 2)).
  { pose proof (Rabs_pos (sin (t / 2))). pose proof (Rsqr_abs (sin (t / 2))) as E1. pose proof (Rsqr_abs (t / 2)) as E2. unfold Rsqr in *. rewrite E1, E2. apply Rmult_le_compat; auto. }
  nra.
Qed.
(** a rotation about a coordinate axis moves no vector by more than the angle times its length *)
Lemma axis_rot_moves n t y : norm (vsub3 (vm y (axis_rot n t)) y) <= Rabs t * norm y.
Proof.
  pose proof (norm_nonneg y) as N. pose proof (Rabs_pos t) as T.
  assert (Q : norm (vsub3 (vm y (axis_rot n t)) y) * norm (vsub3 (vm y (axis_rot n t)) y) <= (Rabs t * norm y) * (Rabs t * norm y)).
  { rewrite norm_sqr. replace (Rabs t * norm y * (Rabs t * norm y)) with (t * t * dot y y) by (rewrite <- norm_sqr; pose proof (Rsqr_abs t) as E; unfold Rsqr in E; rewrite E; ring).
    pose proof (chord t) as C. pose proof (sc1 t) as S. set (s := sin t) in *. set (c := cos t) in *.
    assert (K : exists z, 0 <= z <= dot y y /\ dot (vsub3 (vm y (axis_rot n t)) y) (vsub3 (vm y (axis_rot n t)) y) = (2 - 2 * c) * z).
    { destruct y as [x y z]. unfold dot. cbn [vx vy vz]. pose proof (sq_nn x). pose proof (sq_nn y). pose proof (sq_nn z). unfold axis_rot. fold s c. clearbody s c. clear C. destruct n as [|[|n]].
      - exists (y * y + z * z). split; [lra|]. vec_simpl. transitivity ((s * s + c * c - 2 * c + 1) * (y * y + z * z)); [ring|rewrite S; ring].
      - exists (x * x + z * z). split; [lra|]. vec_simpl. transitivity ((s * s + c * c - 2 * c + 1) * (x * x + z * z)); [ring|rewrite S; ring].
      - exists (x * x + y * y). split; [lra|]. vec_simpl. transitivity ((s * s + c * c - 2 * c + 1) * (x * x + y * y)); [ring|rewrite S; ring]. }
    destruct K as (z & Z & E). rewrite E. apply Rmult_le_compat; try lra. unfold c. pose proof (COS_bound t). lra. }
  apply abs_bound in Q; [|apply Rmult_le_pos; auto]. lra.
Qed.
Lemma euler_moves a b c y : norm (vsub3 (vm y (euler_matrix a b c rxyz)) y) <= (Rabs a + Rabs b + Rabs c) * norm y.
Proof.
  pose proof (euler_product a b c rxyz rxyz_ok) as E. change (ax_frame rxyz) with true in E. cbv zeta iota beta in E. change (ax_rep rxyz) with false in E. cbv iota in E. rewrite E. clear E.
  rewrite !vm_mm. set (y1 := vm y _). set (y2 := vm y1 _).
  assert (N1 : norm y1 = norm y) by (unfold norm; f_equal; apply rotation_dot, axis_rot_rotation).
  assert (N2 : norm y2 = norm y) by (rewrite <- N1; unfold norm; f_equal; apply rotation_dot, axis_rot_rotation).
  pose proof (axis_rot_moves (ax_k rxyz) a y) as M1. pose proof (axis_rot_moves (ax_j rxyz) b y1) as M2. pose proof (axis_rot_moves (ax_i rxyz) c y2) as M3.
  fold y1 in M1. fold y2 in M2. rewrite N1 in M2. rewrite N2 in M3. set (y3 := vm y2 _) in *.
  replace (vsub3 y3 y) with (vadd3 (vsub3 y3 y2) (vadd3 (vsub3 y2 y1) (vsub3 y1 y))) by vec_ring.
  pose proof (norm_triangle (vsub3 y3 y2) (vadd3 (vsub3 y2 y1) (vsub3 y1 y))). pose proof (norm_triangle (vsub3 y2 y1) (vsub3 y1 y)). lra.
Qed.
Lemma cross_moves i r : dot i i = 1 -> norm (cross i r) <= norm (vsub3 r i).
Proof.
  intros I. replace (cross i r) with (cross i (vsub3 r i)) by vec_ring. set (w := vsub3 r i).
  assert (Q : norm (cross i w) * norm (cross i w) <= norm w * norm w). { rewrite !norm_sqr, lagrange, I. pose proof (sq_nn (dot i w)). lra. }
  apply abs_bound in Q; [lra|apply norm_nonneg].
Qed.
Lemma allclose_norm w : allclose w v0 = true -> norm w <= 3 * tol.
Proof.
  intros A. apply allclose_v0 in A. destruct A as (X & Y & Z). assert (T : 0 < tol) by (unfold tol; lra).
  assert (Q : norm w * norm w <= (3 * tol) * (3 * tol)).
  { rewrite norm_sqr. unfold dot. assert (S : forall x, Rabs x <= tol -> x * x <= tol * tol). { intros x H. pose proof (Rsqr_abs x) as E. unfold Rsqr in E. rewrite E. pose proof (Rabs_pos x). apply Rmult_le_compat; lra. }
    pose proof (S _ X). pose proof (S _ Y). pose proof (S _ Z). pose proof (sq_nn tol). lra. }
  apply abs_bound in Q; [lra|lra].
Qed.
(** the direction is not in the narrow band where the stored frame is only approximate *)
Definition exact_axis (p : placement) : Prop := p_direction p = ez \/ (p_straight p = false /\ allclose (cross (p_direction p) ez) v0 = false).
(** the normal align aims for *)
Definition wanted (i d : vec) (mu : R) : vec :=
  let w := vsub3 (vmul3 mu i) d in vmul3 ((if Rlt_dec mu 1 then -1 else 1) / norm w) w.

Lemma allclose_neg w : allclose (vmul3 (-1) w) v0 = allclose w v0.
Proof.
  destruct (allclose w v0) eqn:A.
  - apply allclose_v0 in A. apply allclose_v0. unfold vmul3; cbn [vx vy vz]. replace (-1 * vx w) with (- vx w) by ring. replace (-1 * vy w) with (- vy w) by ring. replace (-1 * vz w) with (- vz w) by ring. rewrite !Rabs_Ropp. auto.
  - destruct (allclose (vmul3 (-1) w) v0) eqn:B; [|auto]. apply allclose_v0 in B. unfold vmul3 in B; cbn [vx vy vz] in B.
    replace (-1 * vx w) with (- vx w) in B by ring. replace (-1 * vy w) with (- vy w) in B by ring. replace (-1 * vz w) with (- vz w) in B by ring. rewrite !Rabs_Ropp in B.
    assert (allclose w v0 = true); [|congruence]. apply allclose_v0. auto.
Qed.
Lemma align_frame p d mu q : normal_form p -> frame_ok p -> exact_axis p ->
  allclose (vsub3 (vmul3 mu (p_direction p)) d) v0 = false ->
  let r := wanted (p_direction p) d mu in
  EPS < dot (p_direction p) r -> cross (p_direction p) r = v0 \/ 3 * tol < norm (cross (p_direction p) r) ->
  align p d mu = Some q ->
  p_direction q = p_direction p /\ exists m, rotation m /\ (forall y, from_normal q y = Some (vm y m)) /\ (forall y, to_normal q y = Some (vm y (mT m))) /\ vm ez m = r.
Proof.
  intros NF FO EA W r C CR H. unfold align in H. set (i := p_direction p) in *. set (w := vsub3 (vmul3 mu i) d) in *.
  assert (W0 : norm w <> 0).
  { intros E. apply norm_zero in E. rewrite E in W. assert (allclose v0 v0 = true); [|congruence]. apply allclose_v0. unfold v0; cbn. rewrite Rabs_R0. unfold tol. repeat split; lra. }
  set (s := if Rlt_dec mu 1 then -1 else 1) in *.
  assert (SS : s * s = 1 /\ Rabs s = 1) by (unfold s; destruct (Rlt_dec mu 1); split; try ring; [rewrite Rabs_left; lra|rewrite Rabs_right; lra]). destruct SS as [SS SA].
  assert (SW : (if Rlt_dec mu 1 then vmul3 (-1) w else w) = vmul3 s w) by (unfold s; destruct (Rlt_dec mu 1); [auto|vec_ring]).
  rewrite SW in H. assert (AC : allclose (vmul3 s w) v0 = false) by (unfold s; destruct (Rlt_dec mu 1); [rewrite allclose_neg; auto|]; replace (vmul3 1 w) with w by vec_ring; auto).
  rewrite AC in H. assert (NS : norm (vmul3 s w) = norm w) by (rewrite norm_scale, SA; ring). rewrite NS in H. rewrite !fdiv_some in H by auto. cbn [obind] in H.
  assert (RV : V (vx (vmul3 s w) / norm w) (vy (vmul3 s w) / norm w) (vz (vmul3 s w) / norm w) = r).
  { unfold r, wanted. fold w s. apply vec_eq; cbn [vmul3 vx vy vz]; field; auto. }
  rewrite RV in H. assert (R1 : dot r r = 1).
  { unfold r, wanted. fold w s. rewrite dot_scale_l, dot_scale_r, <- norm_sqr. replace (s / norm w * (s / norm w * (norm w * norm w))) with (s * s) by (field; auto). auto. }
  destruct NF as (DN & DU & OF). assert (CR' : cross i r = v0 \/ allclose (cross i r) v0 = false). { destruct CR as [CR|CR]; [auto|]. right. destruct (allclose (cross i r) v0) eqn:A; [|auto]. apply allclose_norm in A. lra. }
  destruct (align_rotation i r DU R1 C CR') as (m & M & MR & MI & MG & ME). rewrite M in H. cbn [obind] in H.
  pose proof (euler_round (mT m) rxyz rxyz_ok (rotation_mT _ MR) (or_introl MG)) as ER. destruct (euler_from_matrix (mT m) rxyz) as [[a b] c].
  destruct (update_spec (p_distance p) i (V a b c)) as (q' & U & NQ & FQ & AQ & DQ & u & HU & OQ & DIQ). rewrite U in H. injection H as <-.
  destruct (unit_or_axis_spec i) as (u' & HU' & _ & _ & _ & UN). rewrite HU' in HU. injection HU as ->. rewrite (UN DU) in *.
  destruct (Rlt_dec (p_distance p) 0); [lra|]. split; [auto|].
  assert (E2 : (if p_normal q' then eye else euler_matrix (vx (p_angles q')) (vy (p_angles q')) (vz (p_angles q')) rxyz) = mT m).
  { destruct (p_normal q') eqn:PN; [|rewrite AQ; auto]. destruct CR as [CR|CR]; [rewrite (ME CR); symmetry; apply mT_eye|]. exfalso.
    destruct FQ as (_ & NMQ & _). rewrite PN, AQ in NMQ. symmetry in NMQ. apply allclose_v0 in NMQ. cbn [vx vy vz] in NMQ. pose proof (euler_moves a b c i) as MV. rewrite ER, <- mv_vm, MI in MV.
    assert (NI : norm i = 1) by (unfold norm, i; rewrite DU; apply sqrt_1). rewrite NI in MV. pose proof (cross_moves i r DU). lra. }
  destruct FO as (S & _). destruct FQ as (SQ & NMQ & AXQ & ROT).
  assert (EX : forall r1, (if p_straight q' then r1 = eye else p_rot_axis q' = Some r1) -> vm ez r1 = i).
  { intros r1 H1. destruct EA as [E|[E1 E2']].
    - rewrite DIQ in SQ. unfold i in *. rewrite E in SQ. assert (A : allclose ez ez = true). { apply allclose_ez. unfold ez; cbn [vx vy vz]. rewrite Rminus_diag_eq by auto. rewrite Rabs_R0. unfold tol. repeat split; lra. }
      rewrite A in SQ. rewrite SQ in H1. subst r1. rewrite vm_eye. auto.
    - rewrite DIQ in SQ. unfold i in SQ. rewrite <- S in SQ. rewrite SQ, E1 in H1. rewrite E1 in SQ. destruct (AXQ SQ) as (r2 & A1 & A2). rewrite A1 in H1. injection H1 as ->.
      rewrite DIQ in A2. destruct (axis_rotation_spec i DU) as (r3 & B1 & _ & B2 & _). rewrite B1 in A2. injection A2 as ->. apply B2. auto. }
  destruct (p_rotated q') eqn:PR.
  - destruct (ROT eq_refl) as (rr & RN & RR & r1 & r2 & E & E1 & E3). exists rr. split; [auto|]. unfold from_normal, to_normal, do_rotate. rewrite PR, RN. split; [auto|]. split; [auto|].
    rewrite E, E3, E2, vm_mm, (EX r1 E1). rewrite <- mv_vm. auto.
  - unfold p_rotated in PR. apply negb_false_iff, andb_true_iff in PR. destruct PR as [PN PS]. exists eye. split; [apply rotation_eye|]. unfold from_normal, to_normal, do_rotate, p_rotated. rewrite PN, PS. cbn [andb negb].
    rewrite mT_eye. split; [intros; rewrite vm_eye; auto|]. split; [intros; rewrite vm_eye; auto|]. rewrite vm_eye. rewrite PN in E2.
    assert (m = eye) by (rewrite <- (mT_mT m), <- E2; apply mT_eye). subst m. rewrite mv_vm, mT_eye, vm_eye in MI. rewrite <- MI. rewrite PS in EX. specialize (EX eye eq_refl). rewrite vm_eye in EX. auto.
Qed.

(** * C51 *)
(** After aligning, the ray tracer's law of refraction at the vertex sends the axis into the wanted
    direction, and so does [excidence], whenever Snell's law allows that deviation (with the normal less
    than 90 degrees off the axis) *)
Theorem C51_align p d mu q : normal_form p -> frame_ok p -> exact_axis p -> dot d d = 1 -> 0 < mu -> mu <> 1 ->
  allclose (vsub3 (vmul3 mu (p_direction p)) d) v0 = false ->
  EPS < dot (p_direction p) (wanted (p_direction p) d mu) -> (1 < mu -> 1 <= mu * dot (p_direction p) d) ->
  (cross (p_direction p) (wanted (p_direction p) d mu) = v0 \/ 3 * tol < norm (cross (p_direction p) (wanted (p_direction p) d mu))) ->
  align p d mu = Some q ->
  (exists i' d', to_normal q (p_direction q) = Some i' /\ to_normal q d = Some d' /\ refract_normal i' ez mu = Some d') /\
  (exists e, excidence q mu = Some e /\ from_normal q e = Some d).
Proof.
  intros NF FO EA D M0 M1 W C CD CR H. destruct (align_frame p d mu q NF FO EA W C CR H) as (DQ & m & MR & FN & TN & EZ).
  set (i := p_direction p) in *. set (w := vsub3 (vmul3 mu i) d) in *. set (r := wanted i d mu) in *.
  assert (I : dot i i = 1) by apply NF.
  assert (W0 : norm w <> 0).
  { intros E. apply norm_zero in E. rewrite E in W. assert (allclose v0 v0 = true); [|congruence]. apply allclose_v0. unfold v0; cbn. rewrite Rabs_R0. unfold tol. repeat split; lra. }
  set (s := if Rlt_dec mu 1 then -1 else 1) in *. assert (SS : s * s = 1) by (unfold s; destruct (Rlt_dec mu 1); ring).
  assert (RE : r = vmul3 (s / norm w) w) by reflexivity.
  assert (R1 : dot r r = 1).
  { rewrite RE, dot_scale_l, dot_scale_r, <- norm_sqr. replace (s / norm w * (s / norm w * (norm w * norm w))) with (s * s) by (field; auto). auto. }
  assert (DE : d = vadd3 (vmul3 mu i) (vmul3 (- (s * norm w)) r)).
  { rewrite RE. assert (E : vmul3 (- (s * norm w)) (vmul3 (s / norm w) w) = vmul3 (-1) w). { assert (F : forall x, - (s * norm w) * (s / norm w * x) = - (s * s) * x) by (intros; field; auto).
      apply vec_eq; cbn [vmul3 vx vy vz]; rewrite F, SS; ring. }
    rewrite E. unfold w. vec_ring. }
  set (a := mu * dot i r). set (g := - (s * norm w)) in *.
  assert (DR : dot d r = a + g) by (rewrite DE, dot_add_l, !dot_scale_l, R1; unfold a; ring).
  assert (G : (a + g) * (a + g) = a * a - mu * mu + 1).
  { rewrite DE in D. rewrite dot_add_l, !dot_add_r, !dot_scale_l, !dot_scale_r, I, R1, (dot_comm r i) in D. unfold a. nra. }
  assert (CD' : 0 <= dot d r).
  { rewrite RE, dot_scale_r. replace (dot d w) with (mu * dot i d - dot d d) by (unfold w; vec_ring). rewrite D.
    assert (NW : 0 < norm w) by (pose proof (norm_nonneg w); lra). unfold s. destruct (Rlt_dec mu 1).
    - pose proof (dot_nonneg (cross i d)) as L. rewrite lagrange, I, D in L. assert (dot i d <= 1) by nra. assert (mu * dot i d <= 1) by nra.
      replace (-1 / norm w * (mu * dot i d - 1)) with ((1 - mu * dot i d) / norm w) by (field; auto). apply Rmult_le_pos; [lra|]. left. apply Rinv_0_lt_compat. auto.
    - replace (1 / norm w * (mu * dot i d - 1)) with ((mu * dot i d - 1) / norm w) by (field; auto). apply Rmult_le_pos; [specialize (CD ltac:(lra)); lra|]. left. apply Rinv_0_lt_compat. auto. }
  rewrite DR in CD'. assert (Q : sqrt (a * a - mu * mu + 1) = a + g) by (rewrite <- G; apply sqrt_square; auto).
  assert (QP : 0 <= a * a - mu * mu + 1) by (rewrite <- G; apply sq_nn).
  assert (IZ : forall y, dot (vm y (mT m)) ez = dot y r) by (intros y; rewrite dot_vm, mT_mT, EZ; auto).
  assert (VZ : forall y, vz y = dot y ez) by (intros y; unfold dot, ez; cbn; ring).
  assert (SG : sign mu = 1) by (unfold sign; destruct (Rlt_dec 0 mu); [auto|contradiction]).
  assert (SG2 : sgn mu = 1) by (unfold sgn; destruct (Rlt_dec 0 mu); [auto|contradiction]).
  assert (RM : vadd3 (vmul3 mu (vm i (mT m))) (vmul3 g ez) = vm d (mT m)).
  { rewrite DE at 1. rewrite vm_add, !vm_scale. do 2 f_equal. rewrite <- EZ, rotation_inv_r; auto. }
  split.
  - exists (vm i (mT m)), (vm d (mT m)). rewrite DQ. split; [apply TN|]. split; [apply TN|]. unfold refract_normal.
    replace (dot ez ez) with 1 by (unfold dot, ez; cbn; ring). rewrite IZ, Rabs_right by lra. rewrite fdiv_some by lra. cbn [obind].
    destruct (Req_EM_T mu (-1)); [lra|]. rewrite fdiv_some by lra. cbn [obind].
    replace (mu * dot i r / 1) with a by (unfold a; field). replace ((mu ^ 2 - 1) / 1) with (mu * mu - 1) by field. rewrite fsqrt_some by lra. cbn [obind]. f_equal.
    replace (a * a - (mu * mu - 1)) with (a * a - mu * mu + 1) by ring. rewrite Q, SG. replace (- a + 1 * (a + g)) with g by ring. auto.
  - unfold excidence. rewrite DQ, TN. cbn [obind]. destruct (Req_EM_T mu 1); [contradiction|]. rewrite VZ, IZ, Rabs_right by lra. fold a.
    replace (a ^ 2 - mu ^ 2 + 1) with (a * a - mu * mu + 1) by ring. rewrite fsqrt_some by auto. cbn [obind]. eexists. split; [reflexivity|].
    rewrite Q, SG2. replace (- a + 1 * (a + g)) with g by ring. rewrite RM, FN. f_equal. apply rotation_inv_l. auto.
Qed.
(** a mirror (index ratio 1 in the call) reflects the axis into the wanted direction *)
Theorem C51_mirror p d q : normal_form p -> frame_ok p -> exact_axis p -> dot d d = 1 ->
  allclose (vsub3 (vmul3 1 (p_direction p)) d) v0 = false ->
  EPS < dot (p_direction p) (wanted (p_direction p) d 1) ->
  (cross (p_direction p) (wanted (p_direction p) d 1) = v0 \/ 3 * tol < norm (cross (p_direction p) (wanted (p_direction p) d 1))) ->
  align p d 1 = Some q ->
  exists i' d', to_normal q (p_direction q) = Some i' /\ to_normal q d = Some d' /\ refract_normal i' ez (-1) = Some d'.
Proof.
  intros NF FO EA D W C CR H. destruct (align_frame p d 1 q NF FO EA W C CR H) as (DQ & m & MR & FN & TN & EZ).
  set (i := p_direction p) in *. set (w := vsub3 (vmul3 1 i) d) in *. set (r := wanted i d 1) in *.
  assert (I : dot i i = 1) by apply NF.
  assert (W0 : norm w <> 0).
  { intros E. apply norm_zero in E. rewrite E in W. assert (allclose v0 v0 = true); [|congruence]. apply allclose_v0. unfold v0; cbn. rewrite Rabs_R0. unfold tol. repeat split; lra. }
  assert (RE : r = vmul3 (/ norm w) w). { unfold r, wanted. fold w. destruct (Rlt_dec 1 1); [lra|]. f_equal. field. auto. }
  assert (WN : norm w * norm w = 2 - 2 * dot i d).
  { rewrite norm_sqr. unfold w. replace (dot (vsub3 (vmul3 1 i) d) (vsub3 (vmul3 1 i) d)) with (dot i i - 2 * dot i d + dot d d) by vec_ring. lra. }
  assert (IR : dot i r = norm w / 2).
  { rewrite RE, dot_scale_r. replace (dot i w) with (dot i i - dot i d) by (unfold w; vec_ring). rewrite I. replace (1 - dot i d) with (norm w * norm w / 2) by lra. field. auto. }
  exists (vm i (mT m)), (vm d (mT m)). rewrite DQ. split; [apply TN|]. split; [apply TN|]. unfold refract_normal.
  replace (dot ez ez) with 1 by (unfold dot, ez; cbn; ring). replace (Rabs (-1)) with 1 by (rewrite Rabs_left; lra). rewrite dot_vm, mT_mT, EZ. fold i. rewrite fdiv_some by lra. cbn [obind].
  destruct (Req_EM_T (-1) (-1)); [|contradiction]. f_equal. rewrite IR. replace (2 * (1 * (norm w / 2) / 1)) with (norm w) by field.
  assert (DE : d = vsub3 i (vmul3 (norm w) r)).
  { rewrite RE. assert (E : vmul3 (norm w) (vmul3 (/ norm w) w) = w) by (apply vec_eq; cbn [vmul3 vx vy vz]; field; auto). rewrite E. unfold w. vec_ring. }
  rewrite DE at 1. replace ez with (vm r (mT m)) by (rewrite <- EZ; apply rotation_inv_r; auto). vec_ring.
Qed.

(** * aligning a whole system *)
Lemma align_some p d mu : normal_form p -> exists q, align p d mu = Some q /\ normal_form q /\ p_offset q = p_offset p /\ p_distance q = p_distance p /\ p_direction q = p_direction p.
Proof.
  intros (DN & DU & OF). unfold align. set (w := if Rlt_dec mu 1 then _ else _). set (r := if allclose w v0 then ez else w).
  assert (R0 : norm r <> 0).
  { unfold r. destruct (allclose w v0) eqn:A; intros E; apply norm_zero in E; [unfold ez, v0 in E; injection E; lra|]. rewrite E in A. assert (allclose v0 v0 = true); [|congruence]. apply allclose_v0. unfold v0; cbn. rewrite Rabs_R0. unfold tol. repeat split; lra. }
  rewrite !fdiv_some by auto. cbn [obind]. set (x := cross _ _).
  assert (X : (if allclose x v0 then ex else x) <> v0).
  { destruct (allclose x v0) eqn:A; intros E; [unfold ex, v0 in E; injection E; lra|]. rewrite E in A. assert (allclose v0 v0 = true); [|congruence]. apply allclose_v0. unfold v0; cbn. rewrite Rabs_R0. unfold tol. repeat split; lra. }
  destruct (unit_vector_some _ X) as (n & U & _). rewrite (rotation_matrix_rodrigues _ _ _ U). cbn [obind]. destruct (euler_from_matrix _ rxyz) as [[a b] c].
  destruct (update_spec (p_distance p) (p_direction p) (V a b c)) as (q & Q & NQ & _ & _ & DQ & u & HU & OQ & DIQ). exists q. split; [auto|]. split; [auto|].
  destruct (unit_or_axis_spec (p_direction p)) as (u' & HU' & _ & _ & _ & UN). rewrite HU' in HU. injection HU as ->. rewrite (UN DU) in *. destruct (Rlt_dec (p_distance p) 0); [lra|]. rewrite OQ, DQ, DIQ, Rabs_right by lra. auto.
Qed.
(** every surface but the last is aligned with the direction of the next one for the index ratio across
    it; the last one loses its tilt; no element moves *)
Theorem C51_system s n : Forall normal_form s -> Forall (fun x => x <> 0) n -> length n = length s -> s <> [] ->
  exists s', sys_align s n = Some s' /\ length s' = length s /\ origins s' = origins s /\ path s' = path s /\
    (forall j p d a b, nth_error s (S j) = Some p -> nth_error s (S (S j)) = Some d -> nth_error n j = Some a -> nth_error n (S j) = Some b ->
       exists q, nth_error s' (S j) = Some q /\ align p (p_direction d) (a / b) = Some q) /\
    (forall p, nth_error s' (length s - 1) = Some p -> p_angles p = v0).
Proof.
  intros NF NZ L NE.
  assert (G : forall s n n0, Forall normal_form s -> Forall (fun x => x <> 0) n -> length n = length s -> s <> [] ->
    exists s', align_from s n0 n = Some s' /\ length s' = length s /\ map p_offset s' = map p_offset s /\ map p_distance s' = map p_distance s /\
    (forall p d b, nth_error s 0 = Some p -> nth_error s 1 = Some d -> nth_error n 0 = Some b -> exists q, nth_error s' 0 = Some q /\ align p (p_direction d) (n0 / b) = Some q) /\
    (forall j p d a b, nth_error s (S j) = Some p -> nth_error s (S (S j)) = Some d -> nth_error n j = Some a -> nth_error n (S j) = Some b ->
       exists q, nth_error s' (S j) = Some q /\ align p (p_direction d) (a / b) = Some q) /\
    (forall p, nth_error s' (length s - 1) = Some p -> p_angles p = v0)).
  { clear. induction s as [|p s IH]; intros n n0 NF NZ L NE; [contradiction|]. destruct n as [|n1 n]; [discriminate|]. inversion NF as [|? ? NP NS]; subst. inversion NZ as [|? ? N1 NN]; subst.
    destruct s as [|p' s].
    - cbn [align_from]. unfold set_angles. destruct (update_spec (p_distance p) (p_direction p) v0) as (q & Q & NQ & _ & AQ & DQ & u & HU & OQ & DIQ). rewrite Q. cbn [obind]. exists (q :: nil). destruct NP as (DN & DU & OF).
      destruct (unit_or_axis_spec (p_direction p)) as (u' & HU' & _ & _ & _ & UN). rewrite HU' in HU. injection HU as ->. rewrite (UN DU) in *.
      split; [auto|]. split; [auto|]. assert (O1 : p_offset q = p_offset p) by congruence. assert (D1 : p_distance q = p_distance p) by (rewrite DQ, Rabs_right by lra; auto).
      cbn [map]. rewrite O1, D1. split; [auto|]. split; [auto|]. split; [intros ? ? ? _ H; discriminate H|]. split; [intros [|?] ? ? ? ? H; discriminate H|]. cbn. intros ? H. injection H as <-. auto.
    - injection L as L. destruct (align_some p (p_direction p') (n0 / n1) NP) as (q & Q & NQ & OQ & DQ & DIQ). destruct (IH n n1 NS NN L ltac:(intros H; discriminate H)) as (s' & A & L' & MO & MD & F & J & LA).
      change (align_from (p :: p' :: s) n0 (n1 :: n)) with (do mu <- fdiv n0 n1; do q <- align p (p_direction p') mu; do r <- align_from (p' :: s) n1 n; Some (q :: r)).
      rewrite fdiv_some by auto. cbn [obind]. rewrite Q. cbn [obind]. rewrite A. cbn [obind]. exists (q :: s'). split; [auto|]. split; [cbn [length] in *; lia|]. cbn [map] in *. rewrite MO, MD, OQ, DQ. split; [auto|]. split; [auto|]. split; [|split].
      + cbn. intros ? ? ? H1 H2 H3. injection H1 as <-. injection H2 as <-. injection H3 as <-. eauto.
      + intros [|j] p1 d a b H1 H2 H3 H4.
        * cbn in H1, H2, H3, H4. injection H1 as <-. injection H3 as <-. cbn [nth_error]. apply F; auto.
        * change (nth_error (q :: s') (S (S j))) with (nth_error s' (S j)). apply (J j p1 d a b); auto.
      + intros p1 H. apply LA. cbn [length] in *. replace (S (S (length s)) - 1)%nat with (S (S (length s) - 1))%nat in H by lia. auto. }
  unfold sys_align. destruct n as [|n0 n]; [destruct s; [contradiction|discriminate]|]. destruct (G s (n0 :: n) n0 NF NZ L NE) as (s' & A & L' & MO & MD & _ & J & LA).
  exists s'. split; [auto|]. split; [auto|]. unfold origins, path. rewrite MO, MD. auto.
Qed.
Lemma straight_plane : exists p, normal_form p /\ frame_ok p /\ p_direction p = ez /\ update 1 ez v0 = Some p.
Proof.
  destruct (update_spec 1 ez v0) as (p & P & NF & FO & _ & _ & u & U & _ & D). exists p. split; [auto|]. split; [auto|]. split; [|auto].
  destruct (unit_or_axis_spec ez) as (u' & U' & _ & _ & _ & UN). rewrite U in U'. injection U' as <-. destruct (Rlt_dec 1 0); [lra|]. rewrite D. apply UN. vec_ring.
Qed.
(** ** C51: excidence obeys the law of refraction for every ratio, negative for a mirror: it is a unit vector, its
    component along the surface is |mu| times the incoming one, and it goes on through the surface or back; it exists unless
    there is total reflection *)
Theorem C51_excidence p mu i : to_normal p (p_direction p) = Some i -> dot i i = 1 -> mu <> 0 -> mu <> 1 ->
  (excidence p mu <> None <-> mu ^ 2 * (vx i ^ 2 + vy i ^ 2) <= 1) /\
  forall e, excidence p mu = Some e ->
    dot e e = 1 /\ vx e = Rabs mu * vx i /\ vy e = Rabs mu * vy i /\ 0 <= mu * vz e.
Proof.
  intros T I M0 M1. unfold excidence. rewrite T. cbn [obind]. destruct (Req_EM_T mu 1); [contradiction|].
  assert (A : (Rabs mu * vz i) ^ 2 - mu ^ 2 + 1 = 1 - mu ^ 2 * (vx i ^ 2 + vy i ^ 2)).
  { unfold dot in I. assert (AA : Rabs mu ^ 2 = mu ^ 2) by (rewrite RPow_abs; apply Rabs_right; nra). replace ((Rabs mu * vz i) ^ 2) with (Rabs mu ^ 2 * vz i ^ 2) by ring. rewrite AA. replace (vz i ^ 2) with (1 - vx i ^ 2 - vy i ^ 2) by lra. ring. }
  rewrite A. destruct (Rle_dec 0 (1 - mu ^ 2 * (vx i ^ 2 + vy i ^ 2))) as [L|L].
  - rewrite fsqrt_some by auto. cbn [obind]. split; [split; [intros; lra|discriminate]|]. intros e E. injection E as <-. unfold vadd3, vmul3, ez. cbn [vx vy vz].
    set (q := sqrt _). assert (Q : q * q = 1 - mu ^ 2 * (vx i ^ 2 + vy i ^ 2)) by (apply sqrt_sqrt; auto). assert (Q0 : 0 <= q) by apply sqrt_pos.
    assert (S : sgn mu * sgn mu = 1 /\ 0 <= mu * sgn mu). { unfold sgn. destruct (Rlt_dec 0 mu); [lra|]. destruct (Rlt_dec mu 0); lra. } destruct S as [S1 S2].
    assert (AA : Rabs mu * Rabs mu = mu * mu) by (rewrite <- Rabs_mult; apply Rabs_right; nra).
    split; [|split; [ring|split; [ring|]]].
    + unfold dot. cbn [vx vy vz]. replace (Rabs mu * vz i + (- (Rabs mu * vz i) + sgn mu * q) * 1) with (sgn mu * q) by ring.
      replace (Rabs mu * vx i + (- (Rabs mu * vz i) + sgn mu * q) * 0) with (Rabs mu * vx i) by ring. replace (Rabs mu * vy i + (- (Rabs mu * vz i) + sgn mu * q) * 0) with (Rabs mu * vy i) by ring.
      transitivity (Rabs mu * Rabs mu * (vx i ^ 2 + vy i ^ 2) + sgn mu * sgn mu * (q * q)); [ring|]. rewrite AA, S1, Q. ring.
    + replace (mu * (Rabs mu * vz i + (- (Rabs mu * vz i) + sgn mu * q) * 1)) with (mu * sgn mu * q) by ring. apply Rmult_le_pos; auto.
  - rewrite fsqrt_none by lra. cbn [obind]. split; [split; [congruence|intros; lra]|]. discriminate.
Qed.
(** a plane between glass and air (1.5 : 1) deviating the axis by an angle with sine 3/5, a fold mirror at
    45 degrees *)
Example C51_align_example : exists p q, normal_form p /\ frame_ok p /\ exact_axis p /\ align p (V 0 (3/5) (4/5)) (3/2) = Some q /\
  allclose (vsub3 (vmul3 (3/2) (p_direction p)) (V 0 (3/5) (4/5))) v0 = false /\ 1 <= 3/2 * dot (p_direction p) (V 0 (3/5) (4/5)) /\
  EPS < dot (p_direction p) (wanted (p_direction p) (V 0 (3/5) (4/5)) (3/2)) /\ 3 * tol < norm (cross (p_direction p) (wanted (p_direction p) (V 0 (3/5) (4/5)) (3/2))).
Proof.
  destruct straight_plane as (p & NF & FO & DP & _). destruct (align_some p (V 0 (3/5) (4/5)) (3/2) NF) as (q & Q & _). exists p, q. rewrite DP.
  split; [auto|]. split; [auto|]. split; [left; auto|]. split; [auto|].
  assert (W : vsub3 (vmul3 (3/2) ez) (V 0 (3/5) (4/5)) = V 0 (-3/5) (7/10)) by (vec_simpl; apply vec_eq; cbn [vx vy vz]; field).
  unfold wanted. rewrite W. destruct (Rlt_dec (3/2) 1); [lra|].
  assert (N : norm (V 0 (-3/5) (7/10)) * norm (V 0 (-3/5) (7/10)) = 85/100) by (rewrite norm_sqr; unfold dot; cbn; field).
  pose proof (norm_nonneg (V 0 (-3/5) (7/10))) as NP. set (t := norm (V 0 (-3/5) (7/10))) in *. assert (T : 0 < t < 1) by nra. assert (TI : 1 < 1 / t) by (apply (Rmult_lt_reg_r t); [lra|]; field_simplify; lra).
  split; [|split; [|split]].
  - destruct (allclose (V 0 (-3/5) (7/10)) v0) eqn:A; [|auto]. apply allclose_norm in A. fold t in A. unfold tol in A. nra.
  - unfold dot, ez; cbn. lra.
  - unfold dot, ez, vmul3, EPS; cbn [vx vy vz]. lra.
  - replace (cross ez (vmul3 (1 / t) (V 0 (-3/5) (7/10)))) with (vmul3 (1 / t) (V (3/5) 0 0)) by (vec_simpl; apply vec_eq; cbn [vx vy vz]; field; lra).
    rewrite norm_scale, Rabs_right by lra. assert (M : norm (V (3/5) 0 0) = 3/5). { unfold norm, dot; cbn [vx vy vz]. replace (3/5*(3/5) + 0*0 + 0*0) with (3/5*(3/5)) by ring. apply sqrt_square; lra. } rewrite M. unfold tol. nra.
Qed.
(** a ray at 3/5 to the normal of a mirror and of a surface into glass *)
Example C51_excidence_example p i : to_normal p (p_direction p) = Some i -> i = V (3/5) 0 (4/5) ->
  excidence p (-1) = Some (V (3/5) 0 (-4/5)) /\ excidence p 2 = None.
Proof.
  intros T E. unfold excidence. rewrite T, E. cbn [obind vx vy vz]. split.
  - destruct (Req_EM_T (-1) 1); [lra|]. rewrite (Rabs_left (-1)) by lra. replace ((- -1 * (4/5)) ^ 2 - (-1) ^ 2 + 1) with ((4/5) * (4/5)) by field. rewrite fsqrt_some by lra. cbn [obind]. rewrite sqrt_square by lra.
    unfold sgn. destruct (Rlt_dec 0 (-1)); [lra|]. destruct (Rlt_dec (-1) 0); [|lra]. f_equal. unfold vadd3, vmul3, ez. cbn [vx vy vz]. f_equal; field.
  - destruct (Req_EM_T 2 1); [lra|]. rewrite (Rabs_right 2) by lra. rewrite fsqrt_none by lra. reflexivity.
Qed.
(** a tilted surface meets the hypotheses *)
Example C51_excidence_reachable : exists p i e, p_angles p = V 1 0 0 /\ to_normal p (p_direction p) = Some i /\ dot i i = 1 /\ excidence p (-1) = Some e.
Proof.
  destruct (update_spec 1 ez (V 1 0 0)) as (p & P & NF & FO & A & _). destruct (normal_rigid p FO) as (r & R & _ & G).
  assert (I : dot (vm (p_direction p) (mT r)) (vm (p_direction p) (mT r)) = 1) by (rewrite rotation_dot by (apply rotation_mT; auto); apply NF).
  destruct (C51_excidence p (-1) _ (G _) I) as [[_ E] _]; [lra|lra|]. destruct (excidence p (-1)) as [e|] eqn:X.
  - exists p, (vm (p_direction p) (mT r)), e. auto.
  - exfalso. apply E; [|auto]. set (w := vm _ _) in *. unfold dot in I. nra.
Qed.
Example C51_mirror_example : exists p q, normal_form p /\ frame_ok p /\ exact_axis p /\ align p ey 1 = Some q /\
  allclose (vsub3 (vmul3 1 (p_direction p)) ey) v0 = false /\
  EPS < dot (p_direction p) (wanted (p_direction p) ey 1) /\ 3 * tol < norm (cross (p_direction p) (wanted (p_direction p) ey 1)).
Proof.
  destruct straight_plane as (p & NF & FO & DP & _). destruct (align_some p ey 1 NF) as (q & Q & _). exists p, q. rewrite DP.
  split; [auto|]. split; [auto|]. split; [left; auto|]. split; [auto|].
  assert (W : vsub3 (vmul3 1 ez) ey = V 0 (-1) 1) by (vec_simpl; apply vec_eq; cbn [vx vy vz]; field).
  unfold wanted. rewrite W. destruct (Rlt_dec 1 1); [lra|].
  assert (N : norm (V 0 (-1) 1) * norm (V 0 (-1) 1) = 2) by (rewrite norm_sqr; unfold dot; cbn; field).
  pose proof (norm_nonneg (V 0 (-1) 1)) as NP. set (t := norm (V 0 (-1) 1)) in *. assert (T : 0 < t < 2) by nra. assert (TI : /2 < 1 / t) by (apply (Rmult_lt_reg_r t); [lra|]; field_simplify; lra).
  split; [|split].
  - destruct (allclose (V 0 (-1) 1) v0) eqn:A; [|auto]. apply allclose_norm in A. fold t in A. unfold tol in A. nra.
  - unfold dot, ez, vmul3, EPS; cbn [vx vy vz]. lra.
  - replace (cross ez (vmul3 (1 / t) (V 0 (-1) 1))) with (vmul3 (1 / t) ex) by (vec_simpl; apply vec_eq; cbn [vx vy vz]; field; lra).
    rewrite norm_scale, Rabs_right by lra. assert (M : norm ex = 1). { unfold norm, dot, ex; cbn [vx vy vz]. replace (1*1 + 0*0 + 0*0) with 1 by ring. apply sqrt_1. } rewrite M. unfold tol. lra.
Qed.
(** finding: without an index change the axis leaves undeviated whatever the tilt, so aligning a surface
    with ratio 1 that is not a mirror (always the case for the object surface, whose ratio is n0/n0) does
    not make the wanted direction the excidence *)
Theorem C51_ratio_one_refuted :
  (forall p d q e, normal_form p -> align p d 1 = Some q -> excidence q 1 = Some e -> frame_ok q -> from_normal q e = Some (p_direction p)) /\
  exists p d q, normal_form p /\ frame_ok p /\ dot d d = 1 /\ align p d 1 = Some q /\ p_direction p <> d.
Proof.
  split.
  - intros p d q e NF A E FQ. destruct (align_some p d 1 NF) as (q' & A' & _ & _ & _ & DQ). rewrite A in A'. injection A' as <-. unfold excidence in E. destruct (to_normal q (p_direction q)) as [i|] eqn:T; [|discriminate E].
    cbn [obind] in E. destruct (Req_EM_T 1 1); [|contradiction]. injection E as <-. rewrite <- DQ. unfold to_normal, from_normal, do_rotate in *. destruct (p_rotated q) eqn:PR; [|injection T as <-; auto].
    destruct FQ as (_ & _ & _ & ROT). destruct (ROT PR) as (r & RN & RR & _). rewrite RN in *. injection T as <-. f_equal. apply rotation_inv_l. auto.
  - destruct straight_plane as (p & NF & FO & DP & _). destruct (align_some p ey 1 NF) as (q & Q & _). exists p, ey, q. split; [auto|]. split; [auto|]. split; [vec_ring|]. split; [auto|].
    rewrite DP. unfold ez, ey. intros E. injection E. lra.
Qed.
Print Assumptions C51_align.
Print Assumptions C51_mirror.
Print Assumptions C51_system.
Print Assumptions C51_ratio_one_refuted.
Print Assumptions C51_excidence.
