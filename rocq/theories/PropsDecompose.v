(** Property C75: matrices taken apart. *)
From Coq Require Import Reals List Bool Lra Lia Psatz Nsatz.
From Verif Require Import Base Vec RotModel RotProofs RotEuler PropsPlacement PropsSums AffineModel PropsAffine DecomposeModel.
Import ListNotations.
Open Scope R_scope.

(** * compose and decompose *)
Lemma some_inj {A} (a b : A) : Some a = Some b -> a = b. Proof. congruence. Qed.
Lemma divide_some v s : s <> 0 -> divide v s = Some (vmul3 (/ s) v).
Proof. intros S. unfold divide. rewrite !fdiv_some by auto. cbn [obind]. f_equal. unfold vmul3, Rdiv. apply vec_eq; cbn; ring. Qed.
Lemma unit_of v : v <> v0 -> norm v <> 0 /\ 0 < norm v /\ dot (vmul3 (/ norm v) v) (vmul3 (/ norm v) v) = 1 /\ v = vmul3 (norm v) (vmul3 (/ norm v) v).
Proof.
  intros N. assert (NZ : norm v <> 0) by (rewrite norm_zero; auto). pose proof (norm_nonneg v). split; [auto|]. split; [lra|]. split.
  - rewrite dot_scale_l, dot_scale_r, <- norm_sqr. field. auto.
  - apply vec_eq; cbn; field; auto.
Qed.
(** the angles of a rotation as the function computes them *)
Definition angles_of (r0 r1 r2 : vec) : vec :=
  let a1 := asin (- vz r0) in
  let '(a0, a2) := if Req_EM_T (cos a1) 0 then (atan2 (- vy r2) (vy r1), 0) else (atan2 (vz r1) (vz r2), atan2 (vy r0) (vx r0)) in V a0 a1 a2.
Lemma sxyz_matrix a b c : euler_matrix a b c sxyz = M (V (cos b * cos c) (sin b * (sin a * cos c) - cos a * sin c) (sin b * (cos a * cos c) + sin a * sin c))
  (V (cos b * sin c) (sin b * (sin a * sin c) + cos a * cos c) (sin b * (cos a * sin c) - sin a * cos c)) (V (- sin b) (cos b * sin a) (cos b * cos a)).
Proof. unfold euler_matrix, sxyz. cbn. reflexivity. Qed.
Lemma angles_matrix m : rotation m -> let a := angles_of (col0 m) (col1 m) (col2 m) in euler_matrix (vx a) (vy a) (vz a) sxyz = m /\ - 1 <= - vz (col0 m) <= 1.
Proof.
  intros R. destruct m as [[a b c] [d e f] [g h i]]. unfold col0, col1, col2. cbn [row0 row1 row2 vx vy vz]. pose proof (rot_entries _ _ _ _ _ _ _ _ _ R) as ((R1 & R2 & R3) & (R4 & R5 & R6) & (R7 & R8 & R9) & (R10 & R11 & R12) & (E1 & E2 & E3) & (E4 & E5 & E6) & (E7 & E8 & E9)).
  pose proof (sq_nn a) as SQA; pose proof (sq_nn d) as SQD. assert (GG : g * g <= 1) by lra. assert (G : -1 <= - g <= 1) by (clear - GG; split; nra). split; [|lra]. unfold angles_of. cbn [vx vy vz].
  set (y := asin (- g)). assert (SY : sin y = - g) by (apply sin_asin; lra). assert (CY : cos y * cos y = a * a + d * d) by (pose proof (sc1 y); rewrite SY in *; lra).
  assert (CP : 0 <= cos y) by (apply cos_ge_0; pose proof (asin_bound (- g)); unfold y; lra). rewrite sxyz_matrix. destruct (Req_EM_T (cos y) 0) as [Z|Z]; cbn [vx vy vz].
  - rewrite Z in CY. assert (SQ0 : forall x, x * x = 0 -> x = 0) by (intros x X; apply Rmult_integral in X; tauto). pose proof (sq_nn h) as SQH; pose proof (sq_nn i) as SQI.
    assert (A0 : a = 0) by (apply SQ0; lra). assert (D0 : d = 0) by (apply SQ0; lra). assert (H0 : h = 0) by (apply SQ0; lra). assert (I0 : i = 0) by (apply SQ0; lra). subst a d h i.
    destruct (atan2_cs (- f) e) as (CC & SS); [lra|]. replace (e * e + - f * - f) with 1 in CC, SS by lra. rewrite sqrt_1 in CC, SS. rewrite SY, Z, CC, SS, cos_0, sin_0. clear CC SS; apply mat_eq; apply vec_eq; cbn; lra.
  - assert (CZ : cos y * cos y <> 0) by (apply Rmult_integral_contrapositive; auto). destruct (atan2_cs h i) as (CC & SS); [lra|]. destruct (atan2_cs d a) as (CC' & SS'); [lra|]. replace (i * i + h * h) with (a * a + d * d) in CC, SS by lra.
    assert (Q : sqrt (a * a + d * d) = cos y) by (rewrite <- CY; apply sqrt_square; auto). rewrite Q in *. rewrite CC, SS, CC', SS'.
    eapply (core_frame _ (cos y)); [reflexivity|exact R|auto|auto| | | | | |]; try (field; auto); auto.
Qed.
(** orthonormal columns *)
Lemma cols_rotation r0 r1 r2 : dot r0 r0 = 1 -> dot r1 r1 = 1 -> dot r2 r2 = 1 -> dot r0 r1 = 0 -> dot r0 r2 = 0 -> dot r1 r2 = 0 -> 0 <= dot r0 (cross r1 r2) ->
  rotation (mT (M r0 r1 r2)) /\ dot r0 (cross r1 r2) = 1.
Proof.
  intros A B C D E F G. assert (T : mm (M r0 r1 r2) (mT (M r0 r1 r2)) = eye).
  { replace (mm (M r0 r1 r2) (mT (M r0 r1 r2))) with (M (V (dot r0 r0) (dot r0 r1) (dot r0 r2)) (V (dot r0 r1) (dot r1 r1) (dot r1 r2)) (V (dot r0 r2) (dot r1 r2) (dot r2 r2))) by mat_ring.
    rewrite A, B, C, D, E, F. reflexivity. }
  assert (DD : det (M r0 r1 r2) * det (M r0 r1 r2) = 1) by (rewrite <- (det_mT (M r0 r1 r2)) at 2; rewrite <- det_mm, T; apply det_eye).
  assert (DE : det (M r0 r1 r2) = dot r0 (cross r1 r2)) by reflexivity. assert (D1 : det (M r0 r1 r2) = 1) by (rewrite DE in *; nra). rewrite <- DE. split; [|auto].
  assert (RO : mm (mT (M r0 r1 r2)) (M r0 r1 r2) = eye).
  { assert (CO := cofactor_mul (M r0 r1 r2)). rewrite D1 in CO. replace (M (vmul3 1 ex) (vmul3 1 ey) (vmul3 1 ez)) with eye in CO by mat_ring.
    assert (X : mT (M r0 r1 r2) = mT (cofactor (M r0 r1 r2))).
    { assert (Y : mm (mT (cofactor (M r0 r1 r2))) (M r0 r1 r2) = eye). { transitivity (mscale (det (M r0 r1 r2)) eye); [unfold cofactor; mat_ring|rewrite D1; mat_ring]. }
      rewrite <- (mm_eye_l (mT (M r0 r1 r2))), <- Y, <- mm_assoc, T, mm_eye_r. reflexivity. }
    rewrite X. transitivity (mscale (det (M r0 r1 r2)) eye); [unfold cofactor; mat_ring|rewrite D1; mat_ring]. }
  unfold rotation. rewrite mT_mT. split; [exact RO|]. split; [exact T|]. rewrite det_mT. auto.
Qed.
(** spec: the affine map of the parts, applied to a point: scaled, sheared, turned about the static axes, moved *)
Definition parts_map (scale shear angles translate : vec) (P : vec) : vec :=
  let P := V (vx scale * vx P) (vy scale * vy P) (vz scale * vz P) in
  let P := V (vx P + vx shear * vy P + vy shear * vz P) (vy P + vz shear * vz P) (vz P) in
  vadd3 (mv (euler_matrix (vx angles) (vy angles) (vz angles) sxyz) P) translate.
(** composing the parts gives this map, followed by the projective map with the given last row: without perspective, and with *)
Theorem C75_compose scale shear angles translate :
  (exists m, compose_matrix (Some scale) (Some shear) (Some angles) (Some translate) None = Some m /\ forall P Q, image m P Q <-> Q = parts_map scale shear angles translate P) /\
  (forall p, let w := dot (hv p) translate + h4 p in
    (w = 0 -> compose_matrix (Some scale) (Some shear) (Some angles) (Some translate) (Some p) = None) /\
    (w <> 0 -> exists m, compose_matrix (Some scale) (Some shear) (Some angles) (Some translate) (Some p) = Some m /\ hw m = 1 /\
      forall P Q, image m P Q <-> let P' := parts_map scale shear angles translate P in dot (hv p) P' + h4 p <> 0 /\ vmul3 (dot (hv p) P' + h4 p) Q = P')) /\
  (forall a b c d e, compose_matrix a b c d e = compose_matrix (Some (match a with Some a => a | None => V 1 1 1 end)) (Some (match b with Some b => b | None => v0 end))
     (Some (match c with Some c => c | None => v0 end)) (Some (match d with Some d => d | None => v0 end)) e).
Proof.
  set (r := euler_matrix (vx angles) (vy angles) (vz angles) sxyz). set (z := M (V 1 (vx shear) (vy shear)) (V 0 1 (vz shear)) (V 0 0 1)). set (s := M (V (vx scale) 0 0) (V 0 (vy scale) 0) (V 0 0 (vz scale))).
  assert (PM : forall P, parts_map scale shear angles translate P = vadd3 (mv (mm (mm r z) s) P) translate) by (intros P; unfold parts_map; fold r; unfold z, s; destruct r; mat_ring).
  assert (HD : forall l t, hdiv (HM l t v0 1) 1 = Some (HM l t v0 1)). { intros l t. unfold hdiv. destruct (Req_EM_T 1 0); [lra|]. cbn [hl ht hp hw]. rewrite Rinv_1. replace (1 / 1) with 1 by field. f_equal. f_equal; mat_ring. }
  assert (HMM : forall p, hmm (hmm (hmm (hmm (perspective_part p) (HM eye translate v0 1)) (HM r v0 v0 1)) (HM z v0 v0 1)) (HM s v0 v0 1) = HM (mm (mm r z) s) translate (vm (hv p) (mm (mm r z) s)) (dot (hv p) translate + h4 p)).
  { intros [p w]. unfold hmm, perspective_part. cbn [hl ht hp hw hv h4]. clearbody r z s. f_equal; try mat_ring. }
  split; [|split].
  - assert (E : compose_matrix (Some scale) (Some shear) (Some angles) (Some translate) None = Some (HM (mm (mm r z) s) translate v0 1)).
    { unfold compose_matrix. fold r z s. replace (hmm identity_matrix (HM eye translate v0 1)) with (hmm (perspective_part (HV v0 1)) (HM eye translate v0 1)) by reflexivity. rewrite HMM. cbn [hv h4 hw]. rewrite <- HD. f_equal.
      - f_equal; [destruct (mm (mm r z) s); mat_ring|vec_ring].
      - vec_ring. }
    exists (HM (mm (mm r z) s) translate v0 1). split; [exact E|]. intros P Q. rewrite image_affine, PM. reflexivity.
  - intros p w. assert (E : compose_matrix (Some scale) (Some shear) (Some angles) (Some translate) (Some p) = hdiv (HM (mm (mm r z) s) translate (vm (hv p) (mm (mm r z) s)) w) w).
    { unfold compose_matrix. fold r z s. replace (hmm identity_matrix (perspective_part p)) with (perspective_part p). { rewrite HMM. reflexivity. } destruct p as [p q]. unfold hmm, identity_matrix, perspective_part. cbn. f_equal; mat_ring. }
    rewrite E. unfold hdiv. split.
    + intros Z. destruct (Req_EM_T w 0); [auto|contradiction].
    + intros N. destruct (Req_EM_T w 0); [contradiction|]. eexists. split; [reflexivity|]. cbn [hl ht hp hw]. split; [field; auto|]. intros P Q. cbv zeta. rewrite PM. set (P' := mv (mm (mm r z) s) P).
      unfold image, hmv. cbn [hl ht hp hw hv h4].
      assert (N1 : vadd3 (mv (mscale (/ w) (mm (mm r z) s)) P) (vmul3 1 (vmul3 (/ w) translate)) = vmul3 (/ w) (vadd3 P' translate)) by (unfold P'; generalize (mm (mm r z) s); intros; mat_ring).
      assert (N2 : dot (vmul3 (/ w) (vm (hv p) (mm (mm r z) s))) P + w / w * 1 = / w * (dot (hv p) (vadd3 P' translate) + h4 p)).
      { replace (dot (hv p) (vadd3 P' translate) + h4 p) with (dot (hv p) P' + w) by (unfold w; rewrite dot_add_r; ring). replace (dot (vmul3 (/ w) (vm (hv p) (mm (mm r z) s))) P) with (/ w * dot (hv p) P') by (unfold P'; generalize (mm (mm r z) s); intros; mat_ring). field. auto. }
      rewrite N1, N2. set (k := dot (hv p) (vadd3 P' translate) + h4 p). assert (IW : / w <> 0) by (apply Rinv_neq_0_compat; auto). split.
      * intros (c & C & EQ). injection EQ as X Y ZZ KK. split; [intros K0; rewrite K0 in KK; lra|]. subst c. apply vec_eq; cbn; apply (Rmult_eq_reg_l (/ w)); auto; cbn in *; lra.
      * intros (K & EQ). exists (/ w * k). split; [apply Rmult_integral_contrapositive; auto|]. rewrite <- EQ. f_equal. apply vec_eq; cbn; ring.
  - intros a b c d e. assert (I : forall m, hmm m identity_matrix = m) by (intros [l t p q]; unfold hmm, identity_matrix; cbn [hl ht hp hw]; f_equal; mat_ring).
    assert (O : forall A (F : A -> hmat) (o : option A) x m, F x = identity_matrix -> match o with Some y => hmm m (F y) | None => m end = hmm m (F (match o with Some y => y | None => x end))) by (intros A F [y|] x m H; [reflexivity|rewrite H, I; reflexivity]).
    unfold compose_matrix. cbv zeta. set (m := match e with Some p => hmm identity_matrix (perspective_part p) | None => identity_matrix end).
    rewrite (O _ (fun t => HM eye t v0 1) d v0 m eq_refl). rewrite (O _ (fun a => HM (euler_matrix (vx a) (vy a) (vz a) sxyz) v0 v0 1) c v0). 2: { rewrite sxyz_matrix. cbn [vx vy vz v0]. rewrite cos_0, sin_0. unfold identity_matrix. f_equal. mat_ring. }
    rewrite (O _ (fun z => HM (M (V 1 (vx z) (vy z)) (V 0 1 (vz z)) (V 0 0 1)) v0 v0 1) b v0) by reflexivity.
    rewrite (O _ (fun s => HM (M (V (vx s) 0 0) (V 0 (vy s) 0) (V 0 0 (vz s))) v0 v0 1) a (V 1 1 1)) by reflexivity. reflexivity.
Qed.
