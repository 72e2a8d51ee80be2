(** Proofs about quaternions. *)
From Coq Require Import Reals List Lra Lia Psatz Nsatz Arith.
From Verif Require Import Base Vec RotModel RotProofs RotEuler.
Open Scope R_scope.

(** homogeneous quadratic form of the rotation matrix of a quaternion *)
Definition qN (q : quat) : mat :=
  let '(Q w x y z) := q in
  M (V (w*w+x*x-y*y-z*z) (2*(x*y-z*w)) (2*(x*z+y*w)))
    (V (2*(x*y+z*w)) (w*w-x*x+y*y-z*z) (2*(y*z-x*w)))
    (V (2*(x*z-y*w)) (2*(y*z+x*w)) (w*w-x*x-y*y+z*z)).

Lemma EPS_pos : 0 < EPS. Proof. unfold EPS; lra. Qed.

Lemma qdot_nn q : 0 <= qdot q q.
Proof. unfold qdot. pose proof (sq_nn (qw q)); pose proof (sq_nn (qx q));
  pose proof (sq_nn (qy q)); pose proof (sq_nn (qz q)); lra. Qed.

Lemma quaternion_matrix_qN q : EPS <= qdot q q ->
  quaternion_matrix q = mscale (/ qdot q q) (qN q).
Proof.
  intros H. pose proof EPS_pos. unfold quaternion_matrix.
  destruct (Rlt_dec (qdot q q) EPS); [lra|].
  assert (S : sqrt (2 / qdot q q) * sqrt (2 / qdot q q) = 2 / qdot q q).
  { apply sqrt_sqrt. apply Rlt_le, Rdiv_lt_0_compat; lra. }
  set (t := sqrt (2 / qdot q q)) in *. assert (N : qdot q q <> 0) by lra.
  destruct q as [w x y z]. unfold qdot, qN, mscale, qscale in *. cbn [qw qx qy qz] in *.
  vec_simpl. cbn [qw qx qy qz vx vy vz row0 row1 row2].
  assert (K : forall a b, t * a * (t * b) = 2 / (w*w+x*x+y*y+z*z) * (a * b)).
  { intros. rewrite <- S. ring. }
  rewrite !K. repeat (apply mat_eq || apply vec_eq); cbn [vx vy vz row0 row1 row2]; field; auto.
Qed.

Lemma qN_mul a b : qN (quaternion_multiply a b) = mm (qN a) (qN b).
Proof.
  destruct a as [w x y z], b as [w' x' y' z']. unfold qN, quaternion_multiply. vec_simpl.
  repeat (apply mat_eq || apply vec_eq); cbn [vx vy vz row0 row1 row2]; ring.
Qed.
Lemma qdot_mul a b : qdot (quaternion_multiply a b) (quaternion_multiply a b) = qdot a a * qdot b b.
Proof. destruct a, b. unfold qdot, quaternion_multiply. cbn. ring. Qed.
Lemma qmul_assoc a b c : quaternion_multiply a (quaternion_multiply b c) =
  quaternion_multiply (quaternion_multiply a b) c.
Proof. destruct a, b, c. unfold quaternion_multiply. f_equal; ring. Qed.

Lemma qN_det q : det (qN q) = qdot q q * (qdot q q * qdot q q).
Proof. destruct q as [w x y z]. unfold qN, qdot. vec_simpl. cbn [qw qx qy qz]. ring. Qed.
Lemma qN_orth q : mm (qN q) (mT (qN q)) = mscale (qdot q q * qdot q q) eye.
Proof. destruct q as [w x y z]. unfold qN, qdot, mscale. vec_simpl. cbn [qw qx qy qz].
  repeat (apply mat_eq || apply vec_eq); cbn [vx vy vz row0 row1 row2]; ring. Qed.

Lemma mscale_mm s t a b : mm (mscale s a) (mscale t b) = mscale (s * t) (mm a b).
Proof. unfold mscale. vec_ring. Qed.
Lemma mscale_mT s a : mT (mscale s a) = mscale s (mT a). Proof. unfold mscale. vec_ring. Qed.
Lemma mscale_det s a : det (mscale s a) = s * s * s * det a. Proof. unfold mscale. vec_ring. Qed.
Lemma mscale_mscale s t a : mscale s (mscale t a) = mscale (s * t) a.
Proof. unfold mscale. vec_ring. Qed.
Lemma mscale_1 a : mscale 1 a = a. Proof. unfold mscale. vec_ring. Qed.

Lemma quaternion_matrix_rotation q : rotation (quaternion_matrix q).
Proof.
  pose proof EPS_pos.
  destruct (Rlt_dec (qdot q q) EPS) as [L|L].
  - unfold quaternion_matrix. destruct (Rlt_dec (qdot q q) EPS); [apply rotation_eye|contradiction].
  - rewrite quaternion_matrix_qN by lra. assert (N : qdot q q <> 0) by lra.
    apply rotation_intro.
    + rewrite mscale_mT, mscale_mm, qN_orth, mscale_mscale.
      replace (/ qdot q q * / qdot q q * (qdot q q * qdot q q)) with 1 by (field; auto). apply mscale_1.
    + rewrite mscale_det, qN_det. field. auto.
Qed.

Lemma quaternion_matrix_mul a b :
  EPS <= qdot a a -> EPS <= qdot b b -> EPS <= qdot a a * qdot b b ->
  quaternion_matrix (quaternion_multiply a b) = mm (quaternion_matrix a) (quaternion_matrix b).
Proof.
  intros H1 H2 H3. pose proof EPS_pos.
  rewrite !quaternion_matrix_qN by (rewrite ?qdot_mul; auto).
  rewrite mscale_mm, qN_mul, qdot_mul. f_equal. field. split; lra.
Qed.

Lemma quaternion_inverse_spec q : (exists r, qdot q q <> 0 /\ quaternion_inverse q = Some r /\
    quaternion_multiply q r = Q 1 0 0 0 /\ quaternion_multiply r q = Q 1 0 0 0)
  \/ (q = Q 0 0 0 0 /\ quaternion_inverse q = None).
Proof.
  assert (E : qdot (quaternion_conjugate q) (quaternion_conjugate q) = qdot q q).
  { destruct q as [w x y z]. unfold qdot, quaternion_conjugate. cbn. ring. }
  destruct (Req_EM_T (qdot q q) 0) as [Z|N].
  - right. split.
    + destruct q as [w x y z]. unfold qdot in Z. cbn in Z.
      pose proof (sq_nn w); pose proof (sq_nn x); pose proof (sq_nn y); pose proof (sq_nn z).
      f_equal; apply Rsqr_0_uniq; unfold Rsqr; lra.
    + unfold quaternion_inverse. rewrite E, Z, fdiv_zero. reflexivity.
  - left. unfold quaternion_inverse. rewrite E. rewrite !fdiv_some by auto. cbn [obind].
    eexists. split; [auto|split; [reflexivity|]].
    destruct q as [w x y z]. unfold quaternion_multiply, quaternion_conjugate, qdot in *.
    cbn [qw qx qy qz] in *. split; f_equal; field; auto.
Qed.

(** axis-angle *)
Lemma quaternion_about_axis_matrix a v : EPS < norm v ->
  exists m, rotation_matrix a v = Some m /\ quaternion_matrix (quaternion_about_axis a v) = m.
Proof.
  intros H. pose proof EPS_pos as EP.
  assert (N0 : v <> v0) by (intros ->; rewrite (proj2 (norm_zero v0) eq_refl) in H; lra).
  destruct (unit_vector_some v N0) as (n & U & D & E & En).
  exists (rodrigues a n). split; [apply rotation_matrix_rodrigues; auto|].
  assert (QL : sqrt (qdot (Q 0 (vx v) (vy v) (vz v)) (Q 0 (vx v) (vy v) (vz v))) = norm v).
  { unfold norm, qdot, dot. cbn. f_equal. ring. }
  assert (EQ : quaternion_about_axis a v =
     Q (cos (a/2)) (sin (a/2) * vx n) (sin (a/2) * vy n) (sin (a/2) * vz n)).
  { unfold quaternion_about_axis. rewrite QL. destruct (Rlt_dec EPS (norm v)); [|contradiction].
    rewrite En. unfold qscale, vmul3. cbn [qw qx qy qz vx vy vz]. f_equal; field; lra. }
  rewrite EQ.
  assert (C : cos a = cos (a/2) * cos (a/2) - sin (a/2) * sin (a/2)).
  { replace a with (a/2 + a/2) at 1 by lra. rewrite cos_plus. ring. }
  assert (S : sin a = 2 * sin (a/2) * cos (a/2)).
  { replace a with (a/2 + a/2) at 1 by lra. rewrite sin_plus. ring. }
  pose proof (sc1 (a/2)) as SC.
  assert (ND : qdot (Q (cos (a/2)) (sin (a/2) * vx n) (sin (a/2) * vy n) (sin (a/2) * vz n))
     (Q (cos (a/2)) (sin (a/2) * vx n) (sin (a/2) * vy n) (sin (a/2) * vz n)) = 1).
  { unfold qdot, dot in *. cbn [qw qx qy qz]. 
    transitivity (cos (a/2) * cos (a/2) + sin (a/2) * sin (a/2) * (vx n * vx n + vy n * vy n + vz n * vz n)); [ring|].
    rewrite D. lra. }
  rewrite quaternion_matrix_qN by (rewrite ND; unfold EPS; lra). rewrite ND, Rinv_1, mscale_1.
  unfold rodrigues, qN. rewrite C, S. unfold dot in D.
  set (s := sin (a/2)) in *. set (c := cos (a/2)) in *. clearbody s c.
  destruct n as [x y z]. cbn [vx vy vz] in *. clear - SC D.
  repeat (apply mat_eq || apply vec_eq); cbn [vx vy vz row0 row1 row2]; nsatz.
Qed.

(** Euler angles *)
Lemma half_c x : cos x = cos (x/2) * cos (x/2) - sin (x/2) * sin (x/2).
Proof. replace x with (x/2 + x/2) at 1 by lra. rewrite cos_plus. ring. Qed.
Lemma half_s x : sin x = 2 * sin (x/2) * cos (x/2).
Proof. replace x with (x/2 + x/2) at 1 by lra. rewrite sin_plus. ring. Qed.
Lemma half_neg x : - x / 2 = - (x / 2). Proof. lra. Qed.

(** unit quaternion of the elementary rotation *)
Definition axis_quat (n : nat) (t : R) : quat :=
  match n with
  | 0 => Q (cos (t/2)) (sin (t/2)) 0 0
  | 1 => Q (cos (t/2)) 0 (sin (t/2)) 0
  | _ => Q (cos (t/2)) 0 0 (sin (t/2))
  end%nat.
Lemma axis_quat_unit n t : qdot (axis_quat n t) (axis_quat n t) = 1.
Proof. pose proof (sc1 (t/2)). destruct n as [|[|n]]; unfold qdot, axis_quat; cbn [qw qx qy qz]; lra. Qed.
Lemma axis_quat_matrix n t : qN (axis_quat n t) = axis_rot n t.
Proof.
  pose proof (sc1 (t/2)) as H.
  destruct n as [|[|n]]; unfold axis_quat, axis_rot, qN; rewrite (half_c t), (half_s t);
  repeat (apply mat_eq || apply vec_eq); cbn [vx vy vz row0 row1 row2]; lra.
Qed.

Lemma quat_euler_product ai aj ak a : axes_ok a ->
  let '(a1, a3) := if ax_frame a then (ak, ai) else (ai, ak) in
  let last := if ax_rep a then ax_i a else ax_k a in
  quaternion_from_euler ai aj ak a =
  quaternion_multiply (axis_quat last a3)
    (quaternion_multiply (axis_quat (ax_j a) aj) (axis_quat (ax_i a) a1)).
Proof.
  unfold axes_ok. destruct a as [f p r fr]. cbn [ax_first]. intros H.
  unfold ax_i, ax_j, ax_k, quaternion_from_euler.
  cbn [ax_first ax_parity ax_rep ax_frame].
  destruct fr; destruct p; destruct r; (destruct f as [|[|[|f]]]; [| | |exfalso; lia]);
  cbn [b2n Nat.add Nat.sub next_axis List.nth qset qget axis_quat qw qx qy qz];
  unfold quaternion_multiply; rewrite ?half_neg, ?sin_neg, ?cos_neg; f_equal; ring.
Qed.

Lemma quat_euler_matrix ai aj ak a : axes_ok a ->
  quaternion_matrix (quaternion_from_euler ai aj ak a) = euler_matrix ai aj ak a.
Proof.
  intros H. pose proof (quat_euler_product ai aj ak a H) as E.
  pose proof (euler_product ai aj ak a H) as E'.
  destruct (ax_frame a); cbv zeta in E, E'; rewrite E, E';
  (rewrite quaternion_matrix_qN;
   [|rewrite !qdot_mul, !axis_quat_unit; unfold EPS; lra]);
  rewrite !qdot_mul, !axis_quat_unit, !qN_mul, !axis_quat_matrix;
  replace (/ (1 * (1 * 1))) with 1 by field; apply mscale_1.
Qed.

(** quaternion_from_matrix(isprecise=True) is right while the trace is positive *)
Lemma quat_from_matrix junk m : rotation m -> 0 < mget m 0 0 + mget m 1 1 + mget m 2 2 ->
  exists q, quaternion_from_matrix_precise junk m = Some q /\ qdot q q = 1 /\ quaternion_matrix q = m.
Proof.
  intros R. destruct m as [[a b c] [d e f] [g h i]]. apply rot_entries in R.
  destruct R as ((R1&R2&R3)&(R4&R5&R6)&(R7&R8&R9)&(R10&R11&R12)&(E1&E2&E3)&(E4&E5&E6)&(E7&E8&E9)).
  unfold quaternion_from_matrix_precise. cbn [mget mrow vget row0 row1 row2 vx vy vz]. intros T.
  set (t := a + e + i + 1). destruct (Rlt_dec 1 t) as [L|L]; [|unfold t in L; lra].
  rewrite Rmult_1_r. rewrite fsqrt_some by lra. cbn [obind].
  pose proof (sqrt_lt_R0 t ltac:(lra)) as SP. pose proof (sqrt_sqrt t ltac:(lra)) as SS.
  set (s := sqrt t) in *. rewrite fdiv_some by lra. cbn [obind].
  assert (FT : 1/2/s * t = s / 2) by (rewrite <- SS; field; lra).
  destruct (Rlt_dec (qw (qscale (1/2/s) _)) 0) as [B|B].
  { exfalso. unfold qscale in B. cbn [qw] in B. lra. }
  eexists. split; [reflexivity|].
  set (k := 1/2/s). assert (K : k * k * t * 4 = 1) by (unfold k; rewrite <- SS; field; lra).
  assert (T1 : t*t + (h-f)*(h-f) + (c-g)*(c-g) + (d-b)*(d-b) = 4*t).
  { unfold t. clear - R1 R2 R3 R4 R5 R6 R7 R8 R9 R10 R11 R12 E1 E2 E3 E4 E5 E6 E7 E8 E9. nsatz. }
  match goal with |- qdot ?q ?q = 1 /\ _ => assert (D : qdot q q = 1) end.
  { unfold qdot, qscale. cbn [qw qx qy qz].
    transitivity (k*k*(t*t + (h-f)*(h-f) + (c-g)*(c-g) + (d-b)*(d-b))); [ring|]. rewrite T1. lra. }
  split; [auto|]. rewrite quaternion_matrix_qN by (rewrite D; unfold EPS; lra).
  rewrite D, Rinv_1, mscale_1. unfold qN, qscale. cbn [qw qx qy qz].
  assert (KT : forall p q r, p = 4 * t * q -> k * k * r = k * k * p -> k * k * r = q).
  { intros p q r -> ->. transitivity (k * k * t * 4 * q); [ring|]. rewrite K. ring. }
  assert (Ht : t = a + e + i + 1) by reflexivity. clearbody t. 
  repeat (apply mat_eq || apply vec_eq); cbn [vx vy vz row0 row1 row2];
  match goal with |- ?l = ?q =>
    match l with
    | k * ?a1 * (k * ?a1) + k * ?b1 * (k * ?b1) - k * ?c1 * (k * ?c1) - k * ?d1 * (k * ?d1) =>
        replace l with (k * k * (a1*a1+b1*b1-c1*c1-d1*d1)) by ring
    | k * ?a1 * (k * ?a1) - k * ?b1 * (k * ?b1) + k * ?c1 * (k * ?c1) - k * ?d1 * (k * ?d1) =>
        replace l with (k * k * (a1*a1-b1*b1+c1*c1-d1*d1)) by ring
    | k * ?a1 * (k * ?a1) - k * ?b1 * (k * ?b1) - k * ?c1 * (k * ?c1) + k * ?d1 * (k * ?d1) =>
        replace l with (k * k * (a1*a1-b1*b1-c1*c1+d1*d1)) by ring
    | 2 * (k * ?a1 * (k * ?b1) - k * ?c1 * (k * ?d1)) => replace l with (k * k * (2*(a1*b1-c1*d1))) by ring
    | 2 * (k * ?a1 * (k * ?b1) + k * ?c1 * (k * ?d1)) => replace l with (k * k * (2*(a1*b1+c1*d1))) by ring
    end end;
    (eapply KT; [reflexivity|]); f_equal; rewrite Ht;
    clear - R1 R2 R3 R4 R5 R6 R7 R8 R9 R10 R11 R12 E1 E2 E3 E4 E5 E6 E7 E8 E9; nsatz.
Qed.
