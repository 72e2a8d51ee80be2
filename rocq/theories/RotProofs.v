(** Proofs about rotation_matrix / euler_matrix / quaternions. *)
From Coq Require Import Reals List Lra Lia Psatz Nsatz Arith.
From Verif Require Import Base Vec RotModel.
Import ListNotations.
Open Scope R_scope.

Lemma sc1 x : sin x * sin x + cos x * cos x = 1.
Proof. pose proof (sin2_cos2 x) as H. unfold Rsqr in H. exact H. Qed.

Lemma rotation_intro m : mm m (mT m) = eye -> det m = 1 -> rotation m.
Proof.
  intros H D.
  assert (E : mT m = mT (cofactor m)).
  { assert (L : mm (mT (cofactor m)) m = eye).
    { transitivity (M (vmul3 (det m) ex) (vmul3 (det m) ey) (vmul3 (det m) ez)).
      - unfold cofactor; vec_ring.
      - rewrite D. vec_ring. }
    rewrite <- (mm_eye_l (mT m)), <- L, <- mm_assoc, H. apply mm_eye_r. }
  split; [auto|split; auto].
  rewrite E. transitivity (M (vmul3 (det m) ex) (vmul3 (det m) ey) (vmul3 (det m) ez)).
  - unfold cofactor; vec_ring.
  - rewrite D. vec_ring.
Qed.

(** ** unit_vector *)
Lemma unit_vector_some v : v <> v0 ->
  exists n, unit_vector v = Some n /\ dot n n = 1 /\ v = vmul3 (norm v) n /\ n = vmul3 (/ norm v) v.
Proof.
  intros H. assert (N : norm v <> 0) by (rewrite norm_zero; auto).
  exists (vmul3 (/ norm v) v). unfold unit_vector, obind. rewrite !fdiv_some by auto.
  split; [f_equal; apply vec_eq; simpl; field; auto|].
  split; [|split; auto].
  - rewrite dot_scale_l, dot_scale_r, <- norm_sqr. field; auto.
  - apply vec_eq; simpl; field; auto.
Qed.
Lemma unit_vector_none v : unit_vector v = None <-> v = v0.
Proof.
  split.
  - intros H. destruct (Req_EM_T (norm v) 0) as [E|E]; [apply norm_zero; auto|].
    unfold unit_vector in H. rewrite !fdiv_some in H by auto. discriminate.
  - intros ->. unfold unit_vector. rewrite (proj2 (norm_zero v0) eq_refl), fdiv_zero. reflexivity.
Qed.

(** ** rotation_matrix *)
Definition rodrigues (a : R) (n : vec) : mat :=
  let s := sin a in let c := cos a in
  M (V (c + (1 - c) * (vx n * vx n)) ((1 - c) * (vx n * vy n) - s * vz n) ((1 - c) * (vx n * vz n) + s * vy n))
    (V ((1 - c) * (vy n * vx n) + s * vz n) (c + (1 - c) * (vy n * vy n)) ((1 - c) * (vy n * vz n) - s * vx n))
    (V ((1 - c) * (vz n * vx n) - s * vy n) ((1 - c) * (vz n * vy n) + s * vx n) (c + (1 - c) * (vz n * vz n))).

Lemma rotation_matrix_rodrigues a v n : unit_vector v = Some n ->
  rotation_matrix a v = Some (rodrigues a n).
Proof.
  intros H. unfold rotation_matrix. rewrite H. cbn [obind]. f_equal.
  unfold rodrigues, madd, mscale, outer. vec_ring.
Qed.

Lemma rodrigues_rotation a n : dot n n = 1 -> rotation (rodrigues a n).
Proof.
  intros H. pose proof (sc1 a) as S. unfold rodrigues.
  set (s := sin a) in *. set (c := cos a) in *. clearbody s c.
  destruct n as [x y z]. unfold dot in H. cbn [vx vy vz] in *.
  apply rotation_intro.
  - vec_simpl. apply mat_eq; apply vec_eq; cbn [vx vy vz row0 row1 row2]; nsatz.
  - vec_simpl. nsatz.
Qed.

Lemma rodrigues_action a n y : dot n n = 1 ->
  mv (rodrigues a n) y =
  vadd3 (vadd3 (vmul3 (cos a) y) (vmul3 (sin a) (cross n y))) (vmul3 ((1 - cos a) * dot n y) n).
Proof. intros _. unfold rodrigues. set (s := sin a). set (c := cos a). vec_ring. Qed.

Lemma rodrigues_axis a n : dot n n = 1 -> mv (rodrigues a n) n = n.
Proof.
  intros H. rewrite rodrigues_action by auto. rewrite H.
  set (s := sin a). set (c := cos a). vec_ring.
Qed.

(** ** elementary rotations and Euler angles *)
(** specification: rotation by [t] about coordinate axis [n], acting on column
    vectors *)
Definition axis_rot (n : nat) (t : R) : mat :=
  match n with
  | 0 => M (V 1 0 0) (V 0 (cos t) (- sin t)) (V 0 (sin t) (cos t))
  | 1 => M (V (cos t) 0 (sin t)) (V 0 1 0) (V (- sin t) 0 (cos t))
  | _ => M (V (cos t) (- sin t) 0) (V (sin t) (cos t) 0) (V 0 0 1)
  end%nat.

Lemma axis_rot_rotation n t : rotation (axis_rot n t).
Proof.
  pose proof (sc1 t) as S. unfold axis_rot.
  destruct n as [|[|n]]; apply rotation_intro; vec_simpl;
    repeat (apply mat_eq || apply vec_eq); cbn [vx vy vz row0 row1 row2];
    set (s := sin t) in *; set (c := cos t) in *; clearbody s c; nsatz.
Qed.

Lemma euler_product ai aj ak a : axes_ok a ->
  let '(a1, a3) := if ax_frame a then (ak, ai) else (ai, ak) in
  let last := if ax_rep a then ax_i a else ax_k a in
  euler_matrix ai aj ak a =
  mm (axis_rot last a3) (mm (axis_rot (ax_j a) aj) (axis_rot (ax_i a) a1)).
Proof.
  unfold axes_ok. destruct a as [f p r fr]. cbn [ax_first]. intros H.
  unfold ax_i, ax_j, ax_k, euler_matrix, ax_i, ax_j, ax_k.
  cbn [ax_first ax_parity ax_rep ax_frame].
  destruct fr; destruct p; destruct r; (destruct f as [|[|[|f]]]; [| | |exfalso; lia]);
  cbn [b2n Nat.add Nat.sub next_axis List.nth mset vset eye ex ey ez vx vy vz axis_rot row0 row1 row2];
  rewrite ?sin_neg, ?cos_neg; vec_simpl;
  repeat (apply mat_eq || apply vec_eq); cbn [vx vy vz row0 row1 row2]; ring.
Qed.

Lemma euler_rotation ai aj ak a : axes_ok a -> rotation (euler_matrix ai aj ak a).
Proof.
  intros H. pose proof (euler_product ai aj ak a H) as E.
  destruct (ax_frame a); cbv zeta in E; rewrite E;
    repeat apply rotation_mm; apply axis_rot_rotation.
Qed.

(** ** atan2 *)
Lemma atan2_cs y x : x * x + y * y <> 0 ->
  cos (atan2 y x) = x / sqrt (x * x + y * y) /\ sin (atan2 y x) = y / sqrt (x * x + y * y).
Proof.
  intros N.
  assert (P : 0 < x * x + y * y) by (pose proof (Rle_0_sqr x); pose proof (Rle_0_sqr y); unfold Rsqr in *; lra).
  pose proof (sqrt_lt_R0 _ P) as Q.
  assert (K : x <> 0 -> sqrt (1 + (y / x)²) = sqrt (x * x + y * y) / Rabs x).
  { intros X. rewrite <- (sqrt_Rsqr_abs x).
    rewrite <- sqrt_div_alt by (apply Rsqr_pos_lt; auto).
    f_equal. unfold Rsqr. field. auto. }
  unfold atan2. destruct (Rlt_dec 0 x) as [a|a].
  { rewrite cos_atan, sin_atan, K by lra. rewrite Rabs_right by lra. split; field; lra. }
  destruct (Rlt_dec x 0) as [b|b].
  { assert (C : forall e, (e = PI \/ e = - PI) ->
      cos (atan (y / x) + e) = x / sqrt (x * x + y * y) /\ sin (atan (y / x) + e) = y / sqrt (x * x + y * y)).
    { intros e [ -> | -> ].
      - rewrite neg_cos, neg_sin, cos_atan, sin_atan, K by lra. rewrite Rabs_left by lra. split; field; lra.

      - rewrite cos_plus, sin_plus, cos_neg, sin_neg, cos_PI, sin_PI, cos_atan, sin_atan, K by lra.
        rewrite Rabs_left by lra. split; field; lra. }
    destruct (Rle_dec 0 y); [apply (C PI); auto|apply (C (- PI)); auto]. }
  assert (x = 0) by lra. subst x. replace (0 * 0 + y * y) with (y * y) in * by ring.
  replace (sqrt (y * y)) with (Rabs y) by (rewrite <- sqrt_Rsqr_abs; reflexivity).
  destruct (Rlt_dec 0 y) as [c|c].
  { rewrite cos_PI2, sin_PI2, Rabs_right by lra. split; field; lra. }
  destruct (Rlt_dec y 0) as [d|d].
  { rewrite cos_neg, sin_neg, cos_PI2, sin_PI2, Rabs_left by lra. split; field; lra. }
  exfalso. assert (y = 0) by lra. subst. lra.
Qed.
