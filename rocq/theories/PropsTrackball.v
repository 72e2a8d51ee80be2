(** Property C74: interpolation between rotations, random rotations, rotations as quaternions, the trackball. *)
From Coq Require Import Reals List ZArith Bool Lia Lra Psatz.
From Verif Require Import Base Vec RotModel RotProofs RotEuler QuatProofs ParaxialModel ParaxialProofs PropsPlacement PropsSums AffineModel SampleModel PropsSample TrackballModel.
Import ListNotations.
Open Scope R_scope.

Lemma some_inj {A} (a b : A) : Some a = Some b -> a = b. Proof. congruence. Qed.
Lemma q_eq a b : qw a = qw b -> qx a = qx b -> qy a = qy b -> qz a = qz b -> a = b.
Proof. destruct a, b; cbn; congruence. Qed.
Ltac q_ring := apply q_eq; cbn [qw qx qy qz quaternion_multiply qscale qadd quaternion_conjugate]; ring.
Lemma unit_quat_scale a q : 0 < a -> qdot q q = 1 -> unit_quat (qscale a q) = Some q.
Proof.
  intros A U. unfold unit_quat. replace (qdot (qscale a q) (qscale a q)) with (a * a) by (transitivity (a * a * qdot q q); [rewrite U; ring|unfold qdot, qscale; cbn; ring]).
  rewrite sqrt_square by lra. rewrite !fdiv_some by lra. cbn [obind]. f_equal. apply q_eq; cbn [qw qx qy qz qscale]; field; lra.
Qed.
Lemma unit_quat_1 q : qdot q q = 1 -> unit_quat q = Some q.
Proof. intros U. rewrite <- (unit_quat_scale 1 q) at 1 by (auto; lra). f_equal. q_ring. Qed.
Lemma unit_quat_spec q : (q = Q 0 0 0 0 /\ unit_quat q = None) \/ exists u, unit_quat q = Some u /\ qdot u u = 1 /\ q = qscale (sqrt (qdot q q)) u /\ 0 < sqrt (qdot q q).
Proof.
  destruct (Req_EM_T (qdot q q) 0) as [Z|N].
  - left. split.
    + destruct q as [w x y z]. unfold qdot in Z. cbn in Z. pose proof (sq_nn w); pose proof (sq_nn x); pose proof (sq_nn y); pose proof (sq_nn z). f_equal; apply Rsqr_0_uniq; unfold Rsqr; lra.
    + unfold unit_quat. rewrite Z, sqrt_0, fdiv_zero. reflexivity.
  - right. pose proof (qdot_nn q) as P. assert (S : 0 < sqrt (qdot q q)) by (apply sqrt_lt_R0; lra). pose proof (sqrt_sqrt _ P) as SS.
    unfold unit_quat. rewrite !fdiv_some by lra. cbn [obind]. eexists. split; [reflexivity|]. set (n := sqrt (qdot q q)) in *. split.
    + transitivity (qdot q q / (n * n)); [unfold qdot; cbn; field; lra|]. rewrite SS. field. auto.
    + split; [apply q_eq; cbn; field; lra|auto].
Qed.

(** * interpolation *)
(** spec: the unit quaternion of the rotation by twice the angle about an axis *)
Definition turn (n : vec) (t : R) : quat := Q (cos t) (sin t * vx n) (sin t * vy n) (sin t * vz n).
Lemma turn_unit n t : dot n n = 1 -> qdot (turn n t) (turn n t) = 1.
Proof.
  intros N. transitivity (cos t * cos t + sin t * sin t * dot n n); [unfold qdot, turn, dot; cbn; ring|]. rewrite N. pose proof (sc1 t). lra.
Qed.
Lemma turn_matrix n t : dot n n = 1 -> rotation_matrix (2 * t) n = Some (quaternion_matrix (turn n t)).
Proof.
  intros N. assert (NN : norm n = 1) by (apply norm_unit; auto). destruct (quaternion_about_axis_matrix (2 * t) n) as (m & E & K); [rewrite NN; unfold EPS; lra|].
  rewrite E. f_equal. rewrite <- K. f_equal. unfold quaternion_about_axis, turn. replace (2 * t / 2) with t by field.
  replace (sqrt _) with 1 by (rewrite <- NN; unfold norm, qdot, dot; cbn; f_equal; ring). destruct (Rlt_dec EPS 1) as [_|C]; [|unfold EPS in C; lra].
  apply q_eq; cbn; field.
Qed.
Lemma qdot_cs a b : qdot a a = 1 -> qdot b b = 1 -> qdot a b * qdot a b <= 1.
Proof.
  intros A B. assert (K : qdot a a * qdot b b - qdot a b * qdot a b = qdot (quaternion_multiply a (quaternion_conjugate b)) (quaternion_multiply a (quaternion_conjugate b)) - qdot a b * qdot a b).
  { rewrite qdot_mul. unfold qdot, quaternion_conjugate. cbn. ring. }
  rewrite A, B in K. set (r := quaternion_multiply a (quaternion_conjugate b)) in *. assert (W : qw r = qdot a b) by (destruct a, b; unfold r, qdot; cbn; ring).
  assert (0 <= qdot r r - qw r * qw r) by (unfold qdot; pose proof (sq_nn (qx r)); pose proof (sq_nn (qy r)); pose proof (sq_nn (qz r)); lra). rewrite W in H. lra.
Qed.
(** relative rotation of two unit quaternions that are not parallel *)
Lemma relative q0 q1 d : qdot q0 q0 = 1 -> qdot q1 q1 = 1 -> qdot q0 q1 = d -> -1 < d < 1 ->
  exists n, dot n n = 1 /\ 0 < acos d < PI /\ cos (acos d) = d /\ 0 < sin (acos d) /\ q1 = quaternion_multiply (turn n (acos d)) q0.
Proof.
  intros U0 U1 D B. assert (C : cos (acos d) = d) by (apply cos_acos; lra). assert (AB : 0 <= acos d <= PI) by apply acos_bound.
  assert (A0 : 0 < acos d). { destruct (Req_dec (acos d) 0) as [Z|Z]; [rewrite Z, cos_0 in C; lra|lra]. }
  assert (A1 : acos d < PI). { destruct (Req_dec (acos d) PI) as [Z|Z]; [rewrite Z, cos_PI in C; lra|lra]. }
  assert (S : 0 < sin (acos d)) by (apply sin_gt_0; auto). set (s := sin (acos d)) in *. pose proof (sc1 (acos d)) as SC. rewrite C in SC. fold s in SC.
  set (r := quaternion_multiply q1 (quaternion_conjugate q0)). assert (RW : qw r = d) by (rewrite <- D; destruct q0, q1; unfold r, qdot; cbn; ring).
  assert (RU : qdot r r = 1). { unfold r. rewrite qdot_mul, U1. replace (qdot (quaternion_conjugate q0) (quaternion_conjugate q0)) with (qdot q0 q0) by (unfold qdot, quaternion_conjugate; cbn; ring). lra. }
  exists (V (qx r / s) (qy r / s) (qz r / s)). split; [|split; [auto|split; [auto|split; [auto|]]]].
  - unfold dot. cbn [vx vy vz]. transitivity ((qdot r r - qw r * qw r) / (s * s)); [unfold qdot; field; lra|]. rewrite RU, RW. replace (1 - d * d) with (s * s) by lra. field. lra.
  - unfold turn. fold s. rewrite C. cbn [vx vy vz]. replace (Q d (s * (qx r / s)) (s * (qy r / s)) (s * (qz r / s))) with r by (apply q_eq; cbn; [auto|field; lra|field; lra|field; lra]).
    unfold r. rewrite <- qmul_assoc. replace (quaternion_multiply (quaternion_conjugate q0) q0) with (Q 1 0 0 0); [clear; destruct q1; q_ring|]. rewrite <- U0. clear. destruct q0; unfold qdot; q_ring.
Qed.
(** the numbers the interpolation is made of *)
Lemma slerp_core q0 q1 n A f : dot n n = 1 -> sin A <> 0 -> q1 = quaternion_multiply (turn n A) q0 ->
  qadd (qscale (sin ((1 - f) * A) * (1 / sin A)) q0) (qscale (sin (f * A) * (1 / sin A)) q1) = quaternion_multiply (turn n (f * A)) q0.
Proof.
  intros N S ->. replace ((1 - f) * A) with (A - f * A) by ring. rewrite sin_minus. destruct q0 as [w x y z]. unfold turn.
  apply q_eq; cbn [qw qx qy qz qadd qscale quaternion_multiply]; field; auto.
Qed.
Lemma small_angle d : -1 < d -> d <= 1 - EPS -> EPS <= acos d.
Proof.
  intros L D. assert (EP := EPS_pos). destruct (Rle_dec EPS (acos d)) as [|C]; [auto|exfalso]. assert (AB : 0 <= acos d <= PI) by apply acos_bound. assert (CC : cos (acos d) = d) by (apply cos_acos; lra).
  set (t := acos d) in *. assert (E1 : EPS < 1) by (unfold EPS; lra).
  replace t with (2 * (t / 2)) in CC by field. rewrite cos_2a_sin in CC.
  destruct (Req_dec t 0) as [Z|Z]; [rewrite Z in CC; replace (0 / 2) with 0 in CC by field; rewrite sin_0 in CC; lra|].
  assert (P := PI_RGT_0). assert (S1 : sin (t / 2) < t / 2) by (apply sin_lt_x; lra). assert (S0 : 0 <= sin (t / 2)) by (apply sin_ge_0; lra). nra.
Qed.
Lemma even_spin t m : cos (t + 2 * IZR m * PI) = cos t /\ sin (t + 2 * IZR m * PI) = sin t.
Proof.
  assert (G : forall k : nat, cos (t + 2 * INR k * PI) = cos t /\ sin (t + 2 * INR k * PI) = sin t /\ cos (t + 2 * - INR k * PI) = cos t /\ sin (t + 2 * - INR k * PI) = sin t).
  { intros k. split; [apply cos_period|split; [apply sin_period|]]. split; [rewrite <- (cos_period _ k)|rewrite <- (sin_period _ k)]; f_equal; ring. }
  destruct (Z_le_gt_dec 0 m) as [H|H].
  - specialize (G (Z.to_nat m)). rewrite INR_IZR_INZ, Z2Nat.id in G by auto. tauto.
  - specialize (G (Z.to_nat (- m))). rewrite INR_IZR_INZ, Z2Nat.id, opp_IZR, Ropp_involutive in G by lia. tauto.
Qed.
(** between two rotations that are neither equal nor (as quaternions) opposite the interpolation turns about one fixed axis with constant speed,
    from the first to the second, by the smaller of the two possible angles if asked, with extra full turns for an even spin; outside of 0..1 it goes on like that *)
Theorem C74_slerp q0 q1 m shortest : qdot q0 q0 = 1 -> qdot q1 q1 = 1 -> EPS <= Rabs (Rabs (qdot q0 q1) - 1) ->
  exists n t sg, dot n n = 1 /\ 0 < t < PI /\ (sg = 1 \/ sg = -1) /\ (shortest = false -> sg = 1) /\ (shortest = true -> t <= PI / 2) /\
    cos t = sg * qdot q0 q1 /\ qscale sg q1 = quaternion_multiply (turn n t) q0 /\
    forall f, exists q r, quaternion_slerp q0 q1 f (2 * IZR m) shortest = Some q /\ qdot q q = 1 /\ (f = 0 -> q = q0) /\ (f = 1 -> q = q1) /\
      (f <> 1 -> q = quaternion_multiply (turn n (f * (t + 2 * IZR m * PI))) q0) /\
      rotation_matrix (2 * f * (t + 2 * IZR m * PI)) n = Some r /\ quaternion_matrix q = mm r (quaternion_matrix q0).
Proof.
  intros U0 U1 D. assert (EP := EPS_pos). assert (P := PI_RGT_0). pose proof (qdot_cs q0 q1 U0 U1) as CS. set (d := qdot q0 q1) in *.
  assert (RD : Rabs d <= 1 - EPS).
  { assert (Rabs d <= 1) by (rewrite <- (Rabs_pos_eq 1) by lra; apply Rsqr_le_abs_0; unfold Rsqr; lra). rewrite Rabs_left1 in D by lra. lra. }
  set (flip := shortest && (if Rlt_dec d 0 then true else false)). set (sg := if flip then -1 else 1).
  set (d' := sg * d). assert (DB : -1 < d' <= 1 - EPS). { pose proof (Rle_abs d). pose proof (Rle_abs (- d)). rewrite Rabs_Ropp in *. unfold d', sg. destruct flip; lra. }
  assert (U1' : qdot (qscale sg q1) (qscale sg q1) = 1). { transitivity (sg * sg * qdot q1 q1); [unfold qdot; cbn; ring|]. rewrite U1. unfold sg. destruct flip; ring. }
  destruct (relative q0 (qscale sg q1) d' U0 U1') as (n & N & TB & TC & TS & REL); [unfold d', d, qdot; cbn; ring|lra|].
  exists n, (acos d'), sg. split; [auto|]. split; [auto|]. split; [unfold sg; destruct flip; auto|]. split; [intros ->; unfold sg, flip; reflexivity|].
  split. { intros ->. destruct (Rle_dec (acos d') (PI / 2)) as [|C]; [auto|exfalso]. assert (0 <= d'). { unfold d', sg, flip. cbn [andb]. destruct (Rlt_dec d 0); lra. }
    assert (cos (acos d') < 0) by (apply cos_lt_0; lra). lra. }
  split; [exact TC|]. split; [exact REL|]. intros f. destruct (even_spin (acos d') m) as (EC & ES). set (A := acos d' + 2 * IZR m * PI) in *.
  assert (REL' : qscale sg q1 = quaternion_multiply (turn n A) q0). { rewrite REL. unfold turn. rewrite EC, ES. reflexivity. }
  destruct (Req_EM_T f 1) as [F1|F1].
  - subst f. exists q1, (quaternion_matrix (turn n A)). unfold quaternion_slerp. rewrite !unit_quat_1 by auto. cbn [obind]. destruct (Req_EM_T 1 0); [lra|]. destruct (Req_EM_T 1 1) as [_|]; [|lra].
    repeat apply conj; auto; try (intros; lra). { rewrite <- turn_matrix by auto. f_equal. ring. }
    transitivity (quaternion_matrix (qscale sg q1)).
    + rewrite !quaternion_matrix_qN by (rewrite ?U1, ?U1'; unfold EPS; lra). rewrite U1, U1'. f_equal. unfold sg. destruct flip; destruct q1; cbn; apply mat_eq; apply vec_eq; cbn; ring.
    + rewrite REL'. apply quaternion_matrix_mul; rewrite ?turn_unit, ?U0 by auto; unfold EPS; lra.
  - exists (quaternion_multiply (turn n (f * A)) q0), (quaternion_matrix (turn n (f * A))).
    assert (TU : qdot (quaternion_multiply (turn n (f * A)) q0) (quaternion_multiply (turn n (f * A)) q0) = 1) by (rewrite qdot_mul, turn_unit, U0 by auto; ring).
    assert (T0 : f = 0 -> quaternion_multiply (turn n (f * A)) q0 = q0). { intros ->. rewrite Rmult_0_l. unfold turn. rewrite cos_0, sin_0. destruct q0. q_ring. }
    repeat apply conj; auto; try (intros; contradiction).
    + unfold quaternion_slerp. rewrite !unit_quat_1 by auto. cbn [obind]. destruct (Req_EM_T f 0) as [F0|F0]; [rewrite (T0 F0); reflexivity|]. destruct (Req_EM_T f 1); [contradiction|].
      fold d. destruct (Rlt_dec (Rabs (Rabs d - 1)) EPS); [lra|]. fold flip.
      assert (X : (if flip then (- d, qscale (-1) q1) else (d, q1)) = (d', qscale sg q1)). { unfold d', sg. destruct flip; f_equal; try ring. destruct q1. q_ring. }
      rewrite X. unfold facos. destruct (Rle_dec (- (1)) d') as [_|]; [|lra]. destruct (Rle_dec d' 1) as [_|]; [|lra]. cbn [obind].
      assert (AE : EPS <= Rabs A).
      { pose proof (small_angle d' ltac:(lra) ltac:(lra)) as SA. destruct (Z_lt_le_dec m 0) as [M|M].
        - assert (IZR m <= -1) by (apply IZR_le; lia). assert (2 * IZR m * PI <= - 2 * PI) by nra. unfold A. rewrite Rabs_left by lra. assert (1 < PI) by (pose proof PI2_1; lra). unfold EPS in *. lra.
        - assert (0 <= IZR m) by (apply IZR_le; lia). assert (0 <= 2 * IZR m * PI) by nra. unfold A. rewrite Rabs_pos_eq by lra. lra. }
      fold A. destruct (Rlt_dec (Rabs A) EPS); [lra|]. rewrite fdiv_some by (rewrite ES; lra). cbn [obind]. f_equal. apply slerp_core; auto. rewrite ES. lra.
    + rewrite <- turn_matrix by auto. f_equal. ring.
    + apply quaternion_matrix_mul; rewrite ?turn_unit, ?U0 by auto; unfold EPS; lra.
Qed.
(** rotations closer than the tolerance: the interpolation stays at the first *)
Theorem C74_slerp_close q0 q1 f spin shortest : qdot q0 q0 = 1 -> qdot q1 q1 = 1 -> Rabs (Rabs (qdot q0 q1) - 1) < EPS ->
  quaternion_slerp q0 q1 f spin shortest = Some (if Req_EM_T f 1 then q1 else q0).
Proof.
  intros U0 U1 D. unfold quaternion_slerp. rewrite !unit_quat_1 by auto. cbn [obind]. destruct (Req_EM_T f 0), (Req_EM_T f 1); auto; [lra|].
  destruct (Rlt_dec (Rabs (Rabs (qdot q0 q1) - 1)) EPS); [auto|lra].
Qed.
(** the lengths of the arguments do not matter *)
Theorem C74_slerp_scale q0 q1 a b f spin shortest : 0 < a -> 0 < b -> qdot q0 q0 = 1 -> qdot q1 q1 = 1 ->
  quaternion_slerp (qscale a q0) (qscale b q1) f spin shortest = quaternion_slerp q0 q1 f spin shortest.
Proof. intros. unfold quaternion_slerp. rewrite !unit_quat_scale, !unit_quat_1 by auto. reflexivity. Qed.
Theorem C74_slerp_zero q f spin shortest : quaternion_slerp (Q 0 0 0 0) q f spin shortest = None /\ quaternion_slerp q (Q 0 0 0 0) f spin shortest = None.
Proof.
  destruct (unit_quat_spec (Q 0 0 0 0)) as [(_ & N)|(u & _ & _ & _ & P)].
  - unfold quaternion_slerp. rewrite N. split; [reflexivity|]. destruct (unit_quat q); reflexivity.
  - exfalso. replace (qdot (Q 0 0 0 0) (Q 0 0 0 0)) with 0 in P by (unfold qdot; cbn; ring). rewrite sqrt_0 in P. lra.
Qed.
Example C74_slerp_example : quaternion_slerp (Q 1 0 0 0) (Q 0 1 0 0) (1 / 2) 0 true = Some (Q (1 / sqrt 2) (1 / sqrt 2) 0 0).
Proof.
  unfold quaternion_slerp. rewrite !unit_quat_1 by (unfold qdot; cbn; ring). cbn [obind]. destruct (Req_EM_T (1 / 2) 0); [lra|]. destruct (Req_EM_T (1 / 2) 1); [lra|].
  replace (qdot (Q 1 0 0 0) (Q 0 1 0 0)) with 0 by (unfold qdot; cbn; ring). rewrite Rabs_R0. destruct (Rlt_dec (Rabs (0 - 1)) EPS) as [C|_].
  { exfalso. rewrite Rabs_left in C by lra. unfold EPS in C. lra. }
  destruct (Rlt_dec 0 0); [lra|]. cbn [andb]. unfold facos. destruct (Rle_dec (- (1)) 0); [|lra]. destruct (Rle_dec 0 1); [|lra]. cbn [obind]. rewrite acos_0, Rmult_0_l, Rplus_0_r.
  assert (P := PI2_1). destruct (Rlt_dec (Rabs (PI / 2)) EPS) as [C|_]. { exfalso. rewrite Rabs_pos_eq in C by lra. unfold EPS in C. lra. }
  rewrite sin_PI2, fdiv_some by lra. cbn [obind]. replace ((1 - 1 / 2) * (PI / 2)) with (PI / 4) by field. replace (1 / 2 * (PI / 2)) with (PI / 4) by field. rewrite sin_PI4.
  f_equal. assert (0 < sqrt 2) by (apply sqrt_lt_R0; lra). apply q_eq; cbn; field; lra.
Qed.
Example C74_slerp_case : qdot (Q 1 0 0 0) (Q 1 0 0 0) = 1 /\ qdot (Q 0 1 0 0) (Q 0 1 0 0) = 1 /\ EPS <= Rabs (Rabs (qdot (Q 1 0 0 0) (Q 0 1 0 0)) - 1).
Proof.
  unfold qdot. cbn. split; [ring|]. split; [ring|]. replace (1 * 0 + 0 * 1 + 0 * 0 + 0 * 0) with 0 by ring. rewrite Rabs_R0, Rabs_left by lra. unfold EPS. lra.
Qed.
Example C74_slerp_close_example : Rabs (Rabs (qdot (Q 1 0 0 0) (Q 1 0 0 0)) - 1) < EPS.
Proof. replace (qdot (Q 1 0 0 0) (Q 1 0 0 0)) with 1 by (unfold qdot; cbn; ring). rewrite Rabs_R1, Rminus_eq_0, Rabs_R0. apply EPS_pos. Qed.
(** refuted: "the result is a unit quaternion": with an odd spin it is not *)
Theorem C74_slerp_odd_refuted : exists q0 q1 q, qdot q0 q0 = 1 /\ qdot q1 q1 = 1 /\ quaternion_slerp q0 q1 (1 / 2) 1 true = Some q /\ qdot q q = 3.
Proof.
  exists (Q 1 0 0 0), (Q (1 / 2) (sqrt 3 / 2) 0 0). assert (S3 : sqrt 3 * sqrt 3 = 3) by (apply sqrt_sqrt; lra).
  assert (U0 : qdot (Q 1 0 0 0) (Q 1 0 0 0) = 1) by (unfold qdot; cbn; ring).
  assert (U1 : qdot (Q (1 / 2) (sqrt 3 / 2) 0 0) (Q (1 / 2) (sqrt 3 / 2) 0 0) = 1) by (unfold qdot; cbn; lra).
  assert (SP : 0 < sqrt 3) by (apply sqrt_lt_R0; lra).
  assert (CP : cos (PI / 3) = 1 / 2) by apply cos_PI3. assert (SS : sin (PI / 3) = sqrt 3 / 2) by apply sin_PI3.
  assert (D : qdot (Q 1 0 0 0) (Q (1 / 2) (sqrt 3 / 2) 0 0) = 1 / 2) by (unfold qdot; cbn; ring).
  exists (Q (- 3 / 2) (- (sqrt 3 / 2)) 0 0). split; [auto|]. split; [auto|]. split.
  - unfold quaternion_slerp. rewrite !unit_quat_1 by auto. cbn [obind]. destruct (Req_EM_T (1 / 2) 0); [lra|]. destruct (Req_EM_T (1 / 2) 1); [lra|]. rewrite D.
    rewrite (Rabs_pos_eq (1 / 2)) by lra. destruct (Rlt_dec (Rabs (1 / 2 - 1)) EPS) as [C|_]. { exfalso. rewrite Rabs_left in C by lra. unfold EPS in C. lra. }
    destruct (Rlt_dec (1 / 2) 0); [lra|]. cbn [andb]. unfold facos. destruct (Rle_dec (- (1)) (1 / 2)); [|lra]. destruct (Rle_dec (1 / 2) 1); [|lra]. cbn [obind].
    assert (P := PI2_1). assert (AC : acos (1 / 2) = PI / 3) by (rewrite <- CP; apply acos_cos; lra). rewrite AC, Rmult_1_l.
    destruct (Rlt_dec (Rabs (PI / 3 + PI)) EPS) as [C|_]. { exfalso. rewrite Rabs_pos_eq in C by lra. unfold EPS in C. lra. }
    assert (SA : sin (PI / 3 + PI) = - (sqrt 3 / 2)) by (rewrite neg_sin, SS; auto). rewrite SA, fdiv_some by lra. cbn [obind]. f_equal.
    replace ((1 - 1 / 2) * (PI / 3 + PI)) with (PI - PI / 3) by field. replace (1 / 2 * (PI / 3 + PI)) with (PI - PI / 3) by field. rewrite sin_PI_x, SS.
    apply q_eq; cbn [qw qx qy qz qadd qscale]; [field; lra|field; lra|field; lra|field; lra].
  - unfold qdot. cbn. lra.
Qed.

(** * random rotations *)
(** spec: a number in the unit interval giving an angle up to full turns *)
Lemma turn_fraction a : - PI < a <= PI -> exists u, 0 <= u < 1 /\ cos (PI * 2 * u) = cos a /\ sin (PI * 2 * u) = sin a.
Proof.
  intros A. assert (P := PI_RGT_0). assert (I : 0 < / (PI * 2)) by (apply Rinv_0_lt_compat; lra). destruct (Rlt_dec a 0) as [L|L].
  - exists ((a + 2 * PI) / (PI * 2)). split.
    + split; [apply Rmult_le_pos; lra|]. apply Rmult_lt_reg_r with (PI * 2); [lra|]. unfold Rdiv. rewrite Rmult_assoc, Rinv_l by lra. lra.
    + replace (PI * 2 * ((a + 2 * PI) / (PI * 2))) with (a + 2 * INR 1 * PI) by (cbn; field; lra). split; [apply cos_period|apply sin_period].
  - exists (a / (PI * 2)). split.
    + split; [apply Rmult_le_pos; lra|]. apply Rmult_lt_reg_r with (PI * 2); [lra|]. unfold Rdiv. rewrite Rmult_assoc, Rinv_l by lra. lra.
    + replace (PI * 2 * (a / (PI * 2))) with a by (field; lra). auto.
Qed.
Lemma polar x y : exists u, 0 <= u < 1 /\ x = cos (PI * 2 * u) * sqrt (x * x + y * y) /\ y = sin (PI * 2 * u) * sqrt (x * x + y * y).
Proof.
  destruct (Req_EM_T (x * x + y * y) 0) as [Z|Z].
  - exists 0. split; [lra|]. rewrite Z, sqrt_0. pose proof (sq_nn x); pose proof (sq_nn y). split; rewrite Rmult_0_r; apply Rsqr_0_uniq; unfold Rsqr; lra.
  - destruct (atan2_cs y x Z) as (C & S). destruct (turn_fraction _ (atan2_range y x)) as (u & B & CU & SU). exists u. split; [auto|]. rewrite CU, SU, C, S.
    assert (0 < sqrt (x * x + y * y)) by (apply sqrt_lt_R0; pose proof (sq_nn x); pose proof (sq_nn y); lra). split; field; lra.
Qed.
(** random numbers from the unit interval always give a unit quaternion and so a rotation; every unit quaternion and every rotation given by a quaternion can come out;
    the first number is the squared length of the (w, z) part, the others the angles in the (y, x) and (w, z) planes *)
Theorem C74_random :
  (forall a b c, 0 <= a <= 1 -> exists q, random_quaternion (a, b, c) = Some q /\ qdot q q = 1 /\ qw q * qw q + qz q * qz q = a /\
     random_rotation_matrix (a, b, c) = Some (quaternion_matrix q) /\ rotation (quaternion_matrix q) /\
     qw q = sqrt a * cos (2 * PI * c) /\ qz q = sqrt a * sin (2 * PI * c) /\ qy q = sqrt (1 - a) * cos (2 * PI * b) /\ qx q = sqrt (1 - a) * sin (2 * PI * b)) /\
  (forall q, qdot q q = 1 -> exists a b c, 0 <= a <= 1 /\ 0 <= b < 1 /\ 0 <= c < 1 /\ random_quaternion (a, b, c) = Some q /\ random_rotation_matrix (a, b, c) = Some (quaternion_matrix q)).
Proof.
  assert (F : forall a b c, 0 <= a <= 1 -> random_quaternion (a, b, c) = Some (Q (cos (PI * 2 * c) * sqrt a) (sin (PI * 2 * b) * sqrt (1 - a)) (cos (PI * 2 * b) * sqrt (1 - a)) (sin (PI * 2 * c) * sqrt a))).
  { intros a b c A. unfold random_quaternion. rewrite !fsqrt_some by lra. reflexivity. }
  split.
  - intros a b c A. pose proof (F a b c A) as E. eexists. split; [exact E|]. unfold random_rotation_matrix. rewrite E. cbn [obind qw qx qy qz].
    assert (S1 : sqrt a * sqrt a = a) by (apply sqrt_sqrt; lra). assert (S2 : sqrt (1 - a) * sqrt (1 - a) = 1 - a) by (apply sqrt_sqrt; lra).
    pose proof (sc1 (PI * 2 * b)) as B1. pose proof (sc1 (PI * 2 * c)) as C1.
    assert (WZ : cos (PI * 2 * c) * sqrt a * (cos (PI * 2 * c) * sqrt a) + sin (PI * 2 * c) * sqrt a * (sin (PI * 2 * c) * sqrt a) = a).
    { transitivity ((sin (PI * 2 * c) * sin (PI * 2 * c) + cos (PI * 2 * c) * cos (PI * 2 * c)) * (sqrt a * sqrt a)); [ring|rewrite C1, S1; ring]. }
    split.
    { unfold qdot. cbn [qw qx qy qz]. transitivity ((sin (PI * 2 * c) * sin (PI * 2 * c) + cos (PI * 2 * c) * cos (PI * 2 * c)) * (sqrt a * sqrt a) + (sin (PI * 2 * b) * sin (PI * 2 * b) + cos (PI * 2 * b) * cos (PI * 2 * b)) * (sqrt (1 - a) * sqrt (1 - a))); [ring|]. rewrite B1, C1, S1, S2. ring. }
    split; [exact WZ|]. split; [reflexivity|]. split; [apply quaternion_matrix_rotation|]. replace (2 * PI) with (PI * 2) by ring. repeat apply conj; ring.
  - intros q U. destruct q as [w x y z]. unfold qdot in U. cbn in U. destruct (polar w z) as (c & CB & W & Z). destruct (polar y x) as (b & BB & Y & X).
    exists (w * w + z * z), b, c. assert (A : 0 <= w * w + z * z <= 1) by (pose proof (sq_nn w); pose proof (sq_nn x); pose proof (sq_nn y); pose proof (sq_nn z); lra).
    assert (E : random_quaternion (w * w + z * z, b, c) = Some (Q w x y z)).
    { rewrite F by auto. replace (1 - (w * w + z * z)) with (y * y + x * x) by lra. rewrite <- W, <- Z, <- Y, <- X. reflexivity. }
    split; [auto|]. split; [auto|]. split; [auto|]. split; [exact E|]. unfold random_rotation_matrix. rewrite E. reflexivity.
Qed.
Example C74_random_example : random_quaternion (1 / 4, 1 / 4, 0) = Some (Q (1 / 2) (sqrt 3 / 2) 0 0).
Proof.
  assert (A : sqrt (1 / 4) = 1 / 2) by (replace (1 / 4) with (1 / 2 * (1 / 2)) by field; apply sqrt_square; lra).
  assert (B : sqrt (1 - 1 / 4) = sqrt 3 / 2) by (replace (1 - 1 / 4) with (3 * (1 / 4)) by field; rewrite sqrt_mult, A by lra; field).
  unfold random_quaternion. rewrite !fsqrt_some by lra. cbn [obind]. rewrite A, B.
  replace (PI * 2 * (1 / 4)) with (PI / 2) by field. rewrite Rmult_0_r, cos_0, sin_0, sin_PI2, cos_PI2. f_equal. apply q_eq; cbn; field.
Qed.

(** * real and imaginary part, Euler angles *)
Theorem C74_parts a b :
  quaternion_real (quaternion_multiply a b) = quaternion_real a * quaternion_real b - dot (quaternion_imag a) (quaternion_imag b) /\
  quaternion_imag (quaternion_multiply a b) = vadd3 (vadd3 (vmul3 (quaternion_real a) (quaternion_imag b)) (vmul3 (quaternion_real b) (quaternion_imag a))) (cross (quaternion_imag a) (quaternion_imag b)) /\
  quaternion_real (quaternion_conjugate a) = quaternion_real a /\ quaternion_imag (quaternion_conjugate a) = vmul3 (-1) (quaternion_imag a) /\
  (quaternion_real a = quaternion_real b -> quaternion_imag a = quaternion_imag b -> a = b).
Proof.
  destruct a as [w x y z], b as [w' x' y' z']. unfold quaternion_real, quaternion_imag, quaternion_multiply, quaternion_conjugate, dot, cross, vadd3, vmul3. cbn [qw qx qy qz vx vy vz].
  repeat apply conj; try ring; try (apply vec_eq; cbn; ring). intros -> I. injection I as -> -> ->. reflexivity.
Qed.
Example C74_parts_example : quaternion_imag (quaternion_multiply (Q 0 1 0 0) (Q 0 0 1 0)) = V 0 0 1.
Proof. unfold quaternion_imag, quaternion_multiply. cbn. apply vec_eq; cbn; ring. Qed.
(** the angles of a quaternion give back its rotation, away from or exactly at gimbal lock; close to it up to twice the tolerance; neither length nor sign of the quaternion matter *)
Theorem C74_euler_quaternion q ax : axes_ok ax -> qdot q q = 1 ->
  (let '(x, y, z) := euler_from_quaternion q ax in
  (EPS < gimbal ax (quaternion_matrix q) \/ gimbal ax (quaternion_matrix q) = 0 -> quaternion_matrix (quaternion_from_euler x y z ax) = quaternion_matrix q) /\
  forall r s, (r < 3)%nat -> (s < 3)%nat -> Rabs (mget (quaternion_matrix (quaternion_from_euler x y z ax)) r s - mget (quaternion_matrix q) r s) <= 2 * EPS) /\
  forall k, EPS <= k * k -> euler_from_quaternion (qscale k q) ax = euler_from_quaternion q ax.
Proof.
  intros A U. split.
  - unfold euler_from_quaternion. pose proof (C42_euler_round_trip (quaternion_matrix q) ax A (quaternion_matrix_rotation q)) as E.
    destruct (euler_from_matrix (quaternion_matrix q) ax) as [[x y] z]. destruct C42_quaternion_matrix as (_ & _ & _ & FE & _). rewrite FE by auto. exact E.
  - intros k K. unfold euler_from_quaternion. f_equal. assert (EP := EPS_pos). assert (D : qdot (qscale k q) (qscale k q) = k * k) by (transitivity (k * k * qdot q q); [unfold qdot; cbn; ring|rewrite U; ring]).
    rewrite !quaternion_matrix_qN by (rewrite ?D, ?U; auto; unfold EPS; lra). rewrite D, U. destruct q. cbn. unfold mscale. apply mat_eq; apply vec_eq; cbn; field; intros ->; lra.
Qed.
Example C74_euler_quaternion_example : axes_ok rxyz /\ qdot (Q 1 0 0 0) (Q 1 0 0 0) = 1 /\ EPS < gimbal rxyz (quaternion_matrix (Q 1 0 0 0)) /\ EPS <= 2 * 2.
Proof.
  split; [apply C42_example|]. split; [unfold qdot; cbn; ring|]. split; [|unfold EPS; lra]. replace (quaternion_matrix (Q 1 0 0 0)) with eye; [apply C42_example|].
  rewrite quaternion_matrix_qN; unfold qdot; cbn [qw qx qy qz]; [|unfold EPS; lra]. unfold mscale, eye. cbn. apply mat_eq; apply vec_eq; cbn; field.
Qed.

(** * the quaternion of a matrix *)
Lemma unit_qN p : qdot p p = 1 -> quaternion_matrix p = qN p.
Proof. intros U. rewrite quaternion_matrix_qN by (rewrite U; unfold EPS; lra). rewrite U. destruct p. unfold mscale. cbn. apply mat_eq; apply vec_eq; cbn; field. Qed.
Lemma unit_for q : exists p, qdot p p = 1 /\ quaternion_matrix p = quaternion_matrix q.
Proof.
  assert (EP := EPS_pos). destruct (Rlt_dec (qdot q q) EPS) as [L|L].
  - exists (Q 1 0 0 0). split; [unfold qdot; cbn; ring|]. unfold quaternion_matrix at 2. destruct (Rlt_dec (qdot q q) EPS); [|contradiction]. rewrite unit_qN by (unfold qdot; cbn; ring). unfold eye. cbn. apply mat_eq; apply vec_eq; cbn; ring.
  - destruct (unit_quat_spec q) as [(-> & _)|(u & _ & U & E & P)]; [exfalso; apply L; unfold qdot; cbn; lra|]. exists u. split; [auto|]. set (s := sqrt (qdot q q)) in *.
    rewrite unit_qN, quaternion_matrix_qN by (auto; lra). assert (S : qdot q q = s * s) by (unfold s; rewrite sqrt_sqrt by apply qdot_nn; auto). rewrite S, E. destruct u. cbn. unfold mscale. cbn. apply mat_eq; apply vec_eq; cbn; field; lra.
Qed.
(** every rotation is the rotation of a unit quaternion *)
Lemma rotation_quat m : rotation m -> exists p, qdot p p = 1 /\ quaternion_matrix p = m.
Proof.
  intros R. assert (EP := EPS_pos). assert (E1 : EPS < 1 / 4) by (unfold EPS; lra).
  assert (G : forall ax, axes_ok ax -> EPS < gimbal ax m -> exists p, qdot p p = 1 /\ quaternion_matrix p = m).
  { intros ax A H. pose proof (C42_euler_round_trip m ax A R) as T. destruct (euler_from_matrix m ax) as [[x y] z]. destruct T as (T & _). rewrite <- (T (or_introl H)).
    destruct C42_quaternion_matrix as (_ & _ & _ & FE & _). rewrite <- FE by auto. destruct (unit_for (quaternion_from_euler x y z ax)) as (p & U & P). exists p. auto. }
  destruct m as [[a b c] [d e f] [g h i]]. destruct (rot_entries _ _ _ _ _ _ _ _ _ R) as (_ & _ & (C0 & _) & _).
  assert (SQ : forall x, EPS * EPS < x -> EPS < sqrt x). { intros x X. rewrite <- (sqrt_square EPS) by lra. apply sqrt_lt_1; nra. }
  destruct (Rlt_dec (EPS * EPS) (a * a + d * d)) as [L|L].
  - apply (G (Axes 0 false false false)); [unfold axes_ok; cbn; lia|]. unfold gimbal, lock. cbn. apply SQ. exact L.
  - apply (G (Axes 0 true false false)); [unfold axes_ok; cbn; lia|]. unfold gimbal, lock. cbn. apply SQ. pose proof (sq_nn a). pose proof (sq_nn d). nra.
Qed.
(** spec: what is expected of the eigenvalue routine: eigenvectors of unit length, among them one for the largest eigenvalue *)
Definition smul4 (a : R) (v : v4) : v4 := V4 (a * w0 v) (a * w1 v) (a * w2 v) (a * w3 v).
Definition eigen (k : m4) (e : R * v4) : Prop := mv4 k (snd e) = smul4 (fst e) (snd e) /\ dot4 (snd e) (snd e) = 1.
Definition eigh_ok (k : m4) (l : list (R * v4)) : Prop := Forall (eigen k) l /\ forall e, eigen k e -> exists e', In e' l /\ fst e <= fst e'.
Lemma top_in l : forall best, In (top best l) (best :: l) /\ forall e, In e (best :: l) -> fst e <= fst (top best l).
Proof.
  induction l as [|x l IH]; intros best; cbn [top].
  - split; [left; auto|]. intros e [->|[]]. lra.
  - destruct (Rlt_dec (fst best) (fst x)) as [L|L].
    + destruct (IH x) as (I & M). split; [right; exact I|]. intros e [->|E]; [apply Rle_trans with (fst x); [lra|apply M; left; auto]|apply M; exact E].
    + destruct (IH best) as (I & M). split; [destruct I as [I|I]; [left; auto|right; right; auto]|]. intros e [->|[->|E]]; [apply M; left; auto| |apply M; right; auto].
      apply Rle_trans with (fst best); [lra|apply M; left; auto].
Qed.
Definition as4 (p : quat) : v4 := V4 (qx p) (qy p) (qz p) (qw p).
Lemma itzhack p v : qdot p p = 1 -> mv4 (bar_itzhack (quaternion_matrix p)) v =
  let c := 4 * dot4 (as4 p) v in V4 ((c * qx p - w0 v) / 3) ((c * qy p - w1 v) / 3) ((c * qz p - w2 v) / 3) ((c * qw p - w3 v) / 3).
Proof.
  intros U. rewrite unit_qN by auto. destruct p as [w x y z], v as [v0 v1 v2 v3]. unfold qdot in U. cbn [qw qx qy qz] in U. unfold qN, bar_itzhack, mv4, dot4, as4. cbn [q0 q1 q2 q3 w0 w1 w2 w3 qw qx qy qz].
  f_equal; apply (Rmult_eq_reg_l 3); try lra.
  - transitivity (4 * (x * v0 + y * v1 + z * v2 + w * v3) * x - v0 * (w * w + x * x + y * y + z * z)); [field|rewrite U; field].
  - transitivity (4 * (x * v0 + y * v1 + z * v2 + w * v3) * y - v1 * (w * w + x * x + y * y + z * z)); [field|rewrite U; field].
  - transitivity (4 * (x * v0 + y * v1 + z * v2 + w * v3) * z - v2 * (w * w + x * x + y * y + z * z)); [field|rewrite U; field].
  - transitivity (4 * (x * v0 + y * v1 + z * v2 + w * v3) * w - v3 * (w * w + x * x + y * y + z * z)); [field|rewrite U; field].
Qed.
Lemma qneg p : qdot p p = 1 -> quaternion_matrix (qscale (-1) p) = quaternion_matrix p /\ qdot (qscale (-1) p) (qscale (-1) p) = 1.
Proof.
  intros U. assert (U' : qdot (qscale (-1) p) (qscale (-1) p) = 1) by (rewrite <- U; unfold qdot; cbn; ring). split; [|auto]. rewrite !unit_qN by auto. destruct p. cbn. apply mat_eq; apply vec_eq; cbn; ring.
Qed.
(** with such a routine, every rotation matrix, half turns included, becomes a unit quaternion with non-negative real part that is that rotation *)
Theorem C74_from_matrix eigh m : eigh_ok (bar_itzhack m) (eigh (bar_itzhack m)) -> rotation m ->
  exists q, quaternion_from_matrix eigh m = Some q /\ qdot q q = 1 /\ 0 <= qw q /\ quaternion_matrix q = m.
Proof.
  intros EO R. destruct (rotation_quat m R) as (p & U & <-). set (k := bar_itzhack (quaternion_matrix p)) in *. destruct EO as (AL & MX).
  assert (PP : dot4 (as4 p) (as4 p) = 1) by (rewrite <- U; unfold dot4, as4, qdot; cbn; ring).
  assert (EP : eigen k (1, as4 p)). { split; [|exact PP]. cbn [fst snd]. unfold k. rewrite itzhack by auto. cbv zeta. rewrite PP. unfold smul4, as4. cbn [w0 w1 w2 w3]. f_equal; field. }
  destruct (MX _ EP) as (e1 & I1 & L1). cbn [fst] in L1. unfold quaternion_from_matrix. fold k. destruct (eigh k) as [|e l]; [contradiction|].
  destruct (top_in l e) as (TI & TM). specialize (TM _ I1). set (t := top e l) in *. assert (TE : eigen k t) by (rewrite Forall_forall in AL; auto). destruct TE as (TV & TU). destruct t as [lam v]. cbn [fst snd] in *.
  unfold k in TV. rewrite itzhack in TV by auto. cbv zeta in TV. set (c := 4 * dot4 (as4 p) v) in *. destruct v as [v0 v1 v2 v3]. unfold smul4 in TV. cbn [w0 w1 w2 w3] in TV. injection TV as T0 T1 T2 T3.
  set (s := c / (3 * lam + 1)). assert (L : 3 * lam + 1 <> 0) by lra.
  assert (V0 : v0 = s * qx p) by (unfold s; apply (Rmult_eq_reg_l (3 * lam + 1)); auto; transitivity (c * qx p); [lra|field; auto]).
  assert (V1 : v1 = s * qy p) by (unfold s; apply (Rmult_eq_reg_l (3 * lam + 1)); auto; transitivity (c * qy p); [lra|field; auto]).
  assert (V2 : v2 = s * qz p) by (unfold s; apply (Rmult_eq_reg_l (3 * lam + 1)); auto; transitivity (c * qz p); [lra|field; auto]).
  assert (V3 : v3 = s * qw p) by (unfold s; apply (Rmult_eq_reg_l (3 * lam + 1)); auto; transitivity (c * qw p); [lra|field; auto]).
  clearbody s. clear T0 T1 T2 T3 c. cbn [w0 w1 w2 w3]. assert (SS : s * s = 1). { rewrite <- TU. unfold dot4. cbn [w0 w1 w2 w3]. rewrite V0, V1, V2, V3. transitivity (s * s * qdot p p); [rewrite U; ring|unfold qdot; ring]. }
  assert (QP : Q v3 v0 v1 v2 = qscale s p) by (rewrite V0, V1, V2, V3; reflexivity). rewrite QP. clear V0 V1 V2 V3 TU QP.
  assert (S : s = 1 \/ s = -1). { assert ((s - 1) * (s + 1) = 0) by lra. apply Rmult_integral in H. destruct H; [left|right]; lra. }
  assert (UM : qdot (qscale s p) (qscale s p) = 1 /\ quaternion_matrix (qscale s p) = quaternion_matrix p).
  { destruct S as [-> | ->]; [|destruct (qneg p U); auto]. replace (qscale 1 p) with p by (destruct p; q_ring). auto. }
  destruct UM as (UQ & MQ). eexists. split; [reflexivity|]. destruct (Rlt_dec (qw (qscale s p)) 0) as [N|N].
  - destruct (qneg _ UQ) as (A & B). rewrite A, B. repeat apply conj; auto. cbn in *. lra.
  - repeat apply conj; auto. lra.
Qed.
(** the half turn about x, where the other method fails: the eigenvector is x *)
Example C74_from_matrix_example : let m := M (V 1 0 0) (V 0 (-1) 0) (V 0 0 (-1)) in rotation m /\ eigh_ok (bar_itzhack m) [(1, V4 1 0 0 0)] /\
  quaternion_from_matrix (fun _ => [(1, V4 1 0 0 0)]) m = Some (Q 0 1 0 0).
Proof.
  cbv zeta. split; [|split].
  - repeat split; unfold mm, mT, eye, det; vec_simpl; try (apply mat_eq; apply vec_eq; cbn; ring); ring.
  - assert (E : forall v, mv4 (bar_itzhack (M (V 1 0 0) (V 0 (-1) 0) (V 0 0 (-1)))) v = V4 (w0 v) (- w1 v / 3) (- w2 v / 3) (- w3 v / 3)) by (intros [v0 v1 v2 v3]; unfold mv4, dot4, bar_itzhack; cbn; f_equal; field).
    split.
    + apply Forall_cons; [|apply Forall_nil]. split; [rewrite E; unfold smul4; cbn; f_equal; field|unfold dot4; cbn; ring].
    + intros [lam [v0 v1 v2 v3]] (EV & UV). exists (1, V4 1 0 0 0). split; [left; auto|]. cbn [fst snd] in *. rewrite E in EV. unfold smul4 in EV. cbn [w0 w1 w2 w3] in EV. injection EV as E0 E1 E2 E3.
      unfold dot4 in UV. cbn [w0 w1 w2 w3] in UV. destruct (Rle_dec lam 1) as [|C]; [auto|exfalso].
      assert (v0 = 0) by nra. assert (v1 = 0) by nra. assert (v2 = 0) by nra. assert (v3 = 0) by nra. subst. lra.
  - unfold quaternion_from_matrix. cbn [top snd w0 w1 w2 w3 qw]. destruct (Rlt_dec 0 0); [lra|reflexivity].
Qed.

(** * the trackball *)
(** window coordinates (the second axis points down) to the visible half of the unit sphere: inside of the ball the point above, outside the rim in the same direction;
    a ball without extent gives NaN *)
Theorem C74_sphere px py cx cy r :
  (r = 0 -> map_to_sphere (px, py) (cx, cy) r = None) /\
  (r <> 0 -> exists v, map_to_sphere (px, py) (cx, cy) r = Some v /\ dot v v = 1 /\ 0 <= vz v /\
    ((px - cx) * (px - cx) + (py - cy) * (py - cy) <= r * r -> px = cx + r * vx v /\ py = cy - r * vy v) /\
    (r * r < (px - cx) * (px - cx) + (py - cy) * (py - cy) -> vz v = 0 /\ exists s, 1 < s /\ px = cx + s * r * vx v /\ py = cy - s * r * vy v)).
Proof.
  split; [intros ->; unfold map_to_sphere; rewrite fdiv_zero; reflexivity|]. intros R. unfold map_to_sphere. cbn [fst snd]. rewrite !fdiv_some by auto. cbn [obind]. cbv zeta.
  set (x := (px - cx) / r). set (y := (cy - py) / r). assert (X : px = cx + r * x) by (unfold x; field; auto). assert (Y : py = cy - r * y) by (unfold y; field; auto).
  assert (RR : 0 < r * r) by (pose proof (Rsqr_pos_lt r R); unfold Rsqr in *; lra).
  assert (D : (px - cx) * (px - cx) + (py - cy) * (py - cy) = r * r * (x * x + y * y)) by (rewrite X, Y; ring). rewrite D. clearbody x y.
  destruct (Rlt_dec 1 (x * x + y * y)) as [L|L].
  - rewrite fsqrt_some by lra. cbn [obind]. set (n := sqrt (x * x + y * y)). assert (NN : n * n = x * x + y * y) by (unfold n; apply sqrt_sqrt; lra). assert (N1 : 1 < n) by (unfold n; rewrite <- sqrt_1; apply sqrt_lt_1; lra).
    rewrite !fdiv_some by lra. cbn [obind]. eexists. split; [reflexivity|]. unfold dot. cbn [vx vy vz]. split; [transitivity ((x * x + y * y) / (n * n)); [field; lra|rewrite <- NN; field; lra]|]. split; [lra|].
    split; [intros H; exfalso; nra|]. intros _. split; [auto|]. exists n. split; [auto|]. split; [rewrite X; field; lra|rewrite Y; field; lra].
  - rewrite fsqrt_some by lra. cbn [obind]. eexists. split; [reflexivity|]. unfold dot. cbn [vx vy vz]. split; [rewrite sqrt_sqrt by lra; ring|]. split; [apply sqrt_pos|].
    split; [intros _; auto|]. intros H. exfalso. nra.
Qed.
Example C74_sphere_example : map_to_sphere (320 + 60, 240 - 80) (320, 240) 100 = Some (V (3 / 5) (4 / 5) 0).
Proof.
  unfold map_to_sphere. cbn [fst snd]. rewrite !fdiv_some by lra. cbn [obind]. replace ((320 + 60 - 320) / 100) with (3 / 5) by field. replace ((240 - (240 - 80)) / 100) with (4 / 5) by field.
  destruct (Rlt_dec 1 (3 / 5 * (3 / 5) + 4 / 5 * (4 / 5))); [lra|]. rewrite fsqrt_some by lra. cbn [obind]. replace (1 - _) with 0 by field. rewrite sqrt_0. reflexivity.
Qed.
(** the visible point of the great circle around a unit axis: perpendicular to the axis, along the part of the point that is perpendicular to the axis,
    or opposite to it if that is on the hidden side; where the point is the axis a fixed one *)
Theorem C74_constrain p a w : dot a a = 1 -> constrain_to_axis p a = Some w ->
  dot w w = 1 /\ dot w a = 0 /\ 0 <= vz w /\
  (EPS < norm (vsub3 p (vmul3 (dot a p) a)) -> exists s, p = vadd3 (vmul3 (dot a p) a) (vmul3 s w) /\ (0 <= vz p - dot a p * vz a -> 0 < s) /\ (vz p - dot a p * vz a < 0 -> s < 0)).
Proof.
  intros A H. unfold constrain_to_axis in H. set (v := vsub3 p (vmul3 (dot a p) a)) in *. assert (VA : dot v a = 0) by (transitivity (dot a p * (1 - dot a a)); [unfold v; vec_ring|rewrite A; ring]).
  assert (PV : p = vadd3 (vmul3 (dot a p) a) v) by (unfold v; vec_ring).
  assert (VZ : vz v = vz p - dot a p * vz a) by reflexivity. rewrite <- VZ. clearbody v. destruct (Rlt_dec EPS (norm v)) as [L|L].
  - assert (EP := EPS_pos). set (n := norm v) in *. assert (NN : n * n = dot v v) by apply norm_sqr. assert (N0 : n <> 0) by lra. rewrite !fdiv_some in H by auto. cbn [obind] in H. apply some_inj in H. subst w. clearbody n.
    destruct (Rlt_dec (vz v) 0) as [Z|Z].
    + split; [transitivity (dot v v / (n * n)); [unfold dot; cbn; field; auto|rewrite <- NN; field; auto]|]. split; [transitivity (- dot v a / n); [unfold dot; cbn; field; auto|rewrite VA; field; auto]|].
      split; [cbn; apply Rmult_le_pos; [lra|left; apply Rinv_0_lt_compat; lra]|]. intros _. exists (- n). split; [rewrite PV at 1; f_equal; apply vec_eq; cbn; field; auto|split; intros; lra].
    + split; [transitivity (dot v v / (n * n)); [unfold dot; cbn; field; auto|rewrite <- NN; field; auto]|]. split; [transitivity (dot v a / n); [unfold dot; cbn; field; auto|rewrite VA; field; auto]|].
      split; [cbn; apply Rmult_le_pos; [lra|left; apply Rinv_0_lt_compat; lra]|]. intros _. exists n. split; [rewrite PV at 1; f_equal; apply vec_eq; cbn; field; auto|split; intros; lra].
  - destruct (Req_EM_T (vz a) 1) as [Z|Z].
    + apply some_inj in H. subst w. unfold dot in *. cbn [vx vy vz]. rewrite Z in A. assert (vx a = 0) by nra. assert (vy a = 0) by nra. repeat apply conj; try lra.
    + destruct (unit_vector_some (V (- vy a) (vx a) 0)) as (n & E & U & _ & NV). { intros C. rewrite (proj2 (unit_vector_none _) C) in H. discriminate. }
      rewrite H in E. apply some_inj in E. subst n. split; [auto|]. rewrite NV. split; [unfold dot; cbn; ring|]. split; [cbn; lra|]. intros; lra.
Qed.
(** it exists except for the axis straight away from the viewer with the cursor on it *)
Theorem C74_constrain_none p a : dot a a = 1 ->
  (constrain_to_axis p a = None <-> a = V 0 0 (-1) /\ norm (V (vx p) (vy p) 0) <= EPS).
Proof.
  intros A. unfold constrain_to_axis. set (v := vsub3 p (vmul3 (dot a p) a)). assert (EP := EPS_pos).
  assert (K : a = V 0 0 (-1) -> v = V (vx p) (vy p) 0) by (intros ->; unfold v, vsub3, vmul3, dot; cbn; apply vec_eq; cbn; ring).
  destruct (Rlt_dec EPS (norm v)) as [L|L].
  - cbv zeta. rewrite !fdiv_some by lra. cbn [obind]. split; [discriminate|]. intros (E & N). rewrite (K E) in L. lra.
  - destruct (Req_EM_T (vz a) 1) as [Z|Z]; [split; [discriminate|intros (-> & _); cbn in Z; lra]|]. rewrite unit_vector_none. split.
    + intros E. injection E as E1 E2. assert (AE : a = V 0 0 (-1)). { apply vec_eq; cbn; [lra|lra|]. unfold dot in A. rewrite E2 in A. replace (vy a) with 0 in A by lra. assert ((vz a - 1) * (vz a + 1) = 0) by lra. apply Rmult_integral in H. destruct H; lra. }
      split; [auto|]. rewrite <- (K AE). lra.
    + intros (-> & _). cbn. apply vec_eq; cbn; ring.
Qed.
Theorem C74_constrain_refuted : constrain_to_axis (V 0 0 1) (V 0 0 (-1)) = None /\ constrain_to_axis (V 0 0 1) (V 0 0 1) = Some (V 1 0 0).
Proof.
  split.
  - apply C74_constrain_none; [unfold dot; cbn; ring|]. split; [auto|]. replace (norm _) with 0; [left; apply EPS_pos|]. symmetry. apply norm_zero. reflexivity.
  - unfold constrain_to_axis. replace (vsub3 _ _) with v0 by (unfold v0, vsub3, vmul3, dot; cbn; apply vec_eq; cbn; ring). rewrite (proj2 (norm_zero v0) eq_refl). assert (EP := EPS_pos). destruct (Rlt_dec EPS 0); [lra|]. cbn. destruct (Req_EM_T 1 1); [auto|lra].
Qed.
(** when the perpendicular part is visible, no point of the great circle is nearer to the cursor ... *)
Theorem C74_constrain_nearest p a w u : dot a a = 1 -> constrain_to_axis p a = Some w -> EPS < norm (vsub3 p (vmul3 (dot a p) a)) -> 0 <= vz p - dot a p * vz a ->
  dot u u = 1 -> dot u a = 0 -> dot u p <= dot w p.
Proof.
  intros A H N Z U UA. destruct (C74_constrain p a w A H) as (W & WA & _ & S). destruct (S N) as (s & P & S0 & _). specialize (S0 Z).
  assert (UP : dot u p = s * dot u w) by (rewrite P at 1; rewrite dot_add_r, !dot_scale_r, UA; ring). assert (WP : dot w p = s) by (rewrite P at 1; rewrite dot_add_r, !dot_scale_r, WA, W; ring).
  rewrite UP, WP. assert (dot u w <= 1). { assert (0 <= dot (vsub3 u w) (vsub3 u w)) by apply dot_nonneg. replace (dot (vsub3 u w) (vsub3 u w)) with (dot u u - 2 * dot u w + dot w w) in H0 by vec_ring. lra. }
  nra.
Qed.
(** ... but when it is hidden the result is on the far side of the sphere from the cursor: a drag over such an axis flips over *)
Theorem C74_constrain_nearest_refuted : exists p a w u, dot p p = 1 /\ 0 < vz p /\ dot a a = 1 /\ constrain_to_axis p a = Some w /\ dot u u = 1 /\ dot u a = 0 /\ 0 <= vz u /\ dot w p < 0 /\ 0 <= dot u p.
Proof.
  exists (V (24 / 25) 0 (7 / 25)), (V (3 / 5) 0 (4 / 5)), (V (- (4 / 5)) 0 (3 / 5)), (V 0 1 0). split; [unfold dot; cbn; field|]. split; [cbn; lra|]. split; [unfold dot; cbn; field|].
  split; [|unfold dot; cbn; repeat apply conj; lra]. unfold constrain_to_axis.
  replace (vsub3 _ _) with (vmul3 (3 / 5) (V (4 / 5) 0 (- (3 / 5)))) by (unfold vsub3, vmul3, dot; cbn; apply vec_eq; cbn; field).
  rewrite norm_scale, (norm_unit (V (4 / 5) 0 (- (3 / 5)))) by (unfold dot; cbn; field). rewrite Rabs_pos_eq by lra. destruct (Rlt_dec EPS (3 / 5 * 1)) as [_|C]; [|exfalso; unfold EPS in C; lra].
  cbn [vmul3 vx vy vz]. destruct (Rlt_dec (3 / 5 * - (3 / 5)) 0); [|lra]. rewrite !fdiv_some by lra. cbn [obind vx vy vz]. f_equal. apply vec_eq; cbn; field.
Qed.
Example C74_constrain_example : constrain_to_axis (V 0 (3 / 5) (4 / 5)) (V 0 1 0) = Some (V 0 0 1) /\ EPS < norm (vsub3 (V 0 (3 / 5) (4 / 5)) (vmul3 (dot (V 0 1 0) (V 0 (3 / 5) (4 / 5))) (V 0 1 0))).
Proof.
  assert (E : vsub3 (V 0 (3 / 5) (4 / 5)) (vmul3 (dot (V 0 1 0) (V 0 (3 / 5) (4 / 5))) (V 0 1 0)) = vmul3 (4 / 5) (V 0 0 1)) by (unfold vsub3, vmul3, dot; cbn; apply vec_eq; cbn; field).
  assert (N : norm (vmul3 (4 / 5) (V 0 0 1)) = 4 / 5) by (rewrite norm_scale, (norm_unit (V 0 0 1)) by (unfold dot; cbn; field); rewrite Rabs_pos_eq by lra; ring).
  unfold constrain_to_axis. rewrite E, N. assert (EE : EPS < 4 / 5) by (unfold EPS; lra). split; [|auto]. destruct (Rlt_dec EPS (4 / 5)); [|contradiction]. cbn [vmul3 vx vy vz]. destruct (Rlt_dec (4 / 5 * 1) 0); [lra|].
  rewrite !fdiv_some by lra. cbn [obind vx vy vz]. f_equal. apply vec_eq; cbn; field.
Qed.
(** the constraint axis picked: one of those given, its great circle point being nearest to the cursor, the first of such *)
Lemma nearest_from_spec p axes : forall best mx, (match best with None => mx = -1 | Some b => exists w, constrain_to_axis p b = Some w /\ dot w p = mx /\ -1 < mx end) ->
  match nearest_from p best mx axes with
  | None => best = None /\ forall b w, In b axes -> constrain_to_axis p b = Some w -> dot w p <= -1
  | Some a => exists w, constrain_to_axis p a = Some w /\ -1 < dot w p /\ mx <= dot w p /\ (forall b w', In b axes -> constrain_to_axis p b = Some w' -> dot w' p <= dot w p) /\
      ((best = Some a /\ mx = dot w p) \/ exists l1 l2, axes = l1 ++ a :: l2 /\ mx < dot w p /\ forall b w', In b l1 -> constrain_to_axis p b = Some w' -> dot w' p < dot w p)
  end.
Proof.
  induction axes as [|a axes IH]; intros best mx B; cbn [nearest_from].
  - destruct best as [b|]; [|split; auto; intros b w []]. destruct B as (w & E & D & L). exists w. rewrite D. repeat apply conj; auto; try lra. intros b' w' [].
  - destruct (constrain_to_axis p a) as [w|] eqn:E.
    + destruct (Rlt_dec mx (dot w p)) as [L|L].
      * assert (M1 : -1 <= mx) by (destruct best; [destruct B as (? & _ & _ & ?); lra|lra]).
        specialize (IH (Some a) (dot w p) ltac:(exists w; repeat apply conj; auto; lra)). destruct (nearest_from p (Some a) (dot w p) axes) as [c|]; [|destruct IH; discriminate].
        destruct IH as (u & EU & U1 & U2 & U3 & U4). exists u. split; [auto|]. split; [auto|]. split; [lra|]. split. { intros b w' [->|I] E'; [rewrite E in E'; apply some_inj in E'; subst; lra|eauto]. }
        right. destruct U4 as [(C & D)|(l1 & l2 & -> & D & FI)].
        -- apply some_inj in C. subst c. exists [], axes. split; [auto|]. split; [lra|]. intros b w' [].
        -- exists (a :: l1), l2. split; [auto|]. split; [lra|]. intros b w' [->|I] E'; [rewrite E in E'; apply some_inj in E'; subst; lra|eauto].
      * specialize (IH best mx B). destruct (nearest_from p best mx axes) as [c|].
        -- destruct IH as (u & EU & U1 & U2 & U3 & U4). exists u. split; [auto|]. split; [auto|]. split; [auto|]. split. { intros b w' [->|I] E'; [rewrite E in E'; apply some_inj in E'; subst; lra|eauto]. }
           destruct U4 as [U4|(l1 & l2 & -> & D & FI)]; [left; auto|right]. exists (a :: l1), l2. split; [auto|]. split; [auto|]. intros b w' [->|I] E'; [rewrite E in E'; apply some_inj in E'; subst; lra|eauto].
        -- destruct IH as (-> & N). split; [auto|]. intros b w' [->|I] E'; [rewrite E in E'; apply some_inj in E'; subst; lra|eauto].
    + specialize (IH best mx B). destruct (nearest_from p best mx axes) as [c|].
      -- destruct IH as (u & EU & U1 & U2 & U3 & U4). exists u. split; [auto|]. split; [auto|]. split; [auto|]. split. { intros b w' [->|I] E'; [congruence|eauto]. }
         destruct U4 as [U4|(l1 & l2 & -> & D & FI)]; [left; auto|right]. exists (a :: l1), l2. split; [auto|]. split; [auto|]. intros b w' [->|I] E'; [congruence|eauto].
      -- destruct IH as (-> & N). split; [auto|]. intros b w' [->|I] E'; [congruence|eauto].
Qed.
Lemma constrain_above p a w : dot p p = 1 -> 0 <= vz p -> dot a a = 1 -> constrain_to_axis p a = Some w -> -1 < dot w p.
Proof.
  intros P Z A H. assert (EP := EPS_pos). destruct (C74_constrain p a w A H) as (W & WA & WZ & S). set (n := norm (vsub3 p (vmul3 (dot a p) a))) in *.
  assert (X : dot (vadd3 w p) (vadd3 w p) = 2 + 2 * dot w p) by (transitivity (dot w w + dot p p + 2 * dot w p); [vec_ring|lra]).
  pose proof (dot_nonneg (vadd3 w p)) as NN. destruct (Rlt_dec (-1) (dot w p)) as [|C]; [auto|exfalso]. assert (D0 : dot (vadd3 w p) (vadd3 w p) = 0) by lra. apply dot_zero in D0.
  assert (PW : p = vmul3 (-1) w). { injection D0 as D1 D2 D3. apply vec_eq; cbn; lra. }
  assert (PZ : vz p = 0) by (rewrite PW in Z |- *; cbn in *; lra). assert (AP : dot a p = 0) by (rewrite PW, dot_scale_r, dot_comm, WA; ring).
  assert (N1 : n = 1). { unfold n. rewrite AP. apply norm_unit. rewrite <- P at 1. vec_ring. }
  destruct (S ltac:(rewrite N1; unfold EPS; lra)) as (s & PS & S0 & _). specialize (S0 ltac:(rewrite PZ, AP; lra)). rewrite AP in PS.
  assert (dot w p = s) by (rewrite PS, dot_add_r, !dot_scale_r, W; ring). lra.
Qed.
Theorem C74_nearest p axes : dot p p = 1 -> 0 <= vz p -> Forall (fun a => dot a a = 1) axes ->
  match nearest_axis p axes with
  | None => forall a, In a axes -> constrain_to_axis p a = None
  | Some a => exists w l1 l2, axes = l1 ++ a :: l2 /\ constrain_to_axis p a = Some w /\
      (forall b w', In b axes -> constrain_to_axis p b = Some w' -> dot w' p <= dot w p) /\ (forall b w', In b l1 -> constrain_to_axis p b = Some w' -> dot w' p < dot w p)
  end.
Proof.
  intros P Z F. unfold nearest_axis. pose proof (nearest_from_spec p axes None (-1) eq_refl) as N. destruct (nearest_from p None (-1) axes) as [a|].
  - destruct N as (w & E & _ & _ & M & [(C & _)|(l1 & l2 & -> & _ & FI)]); [discriminate|]. exists w, l1, l2. auto.
  - destruct N as (_ & N). intros a I. destruct (constrain_to_axis p a) as [w|] eqn:E; [|auto]. rewrite Forall_forall in F. pose proof (constrain_above p a w P Z (F a I) E). specialize (N a w I E). lra.
Qed.
Example C74_nearest_example : dot (V 0 (3 / 5) (4 / 5)) (V 0 (3 / 5) (4 / 5)) = 1 /\ 0 <= 4 / 5 /\ Forall (fun a => dot a a = 1) [V 1 0 0; V 0 1 0] /\ nearest_axis (V 0 (3 / 5) (4 / 5)) [V 0 1 0] = Some (V 0 1 0).
Proof.
  split; [unfold dot; cbn; field|]. split; [lra|]. split; [repeat (apply Forall_cons; [unfold dot; cbn; ring|]); apply Forall_nil|].
  unfold nearest_axis, nearest_from. rewrite (proj1 C74_constrain_example). destruct (Rlt_dec (-1) _) as [_|C]; [reflexivity|exfalso; apply C; unfold dot; cbn; lra].
Qed.

(** spec: the half turn about a unit vector *)
Definition half_turn (u : vec) : mat := let '(V x y z) := u in M (V (2 * x * x - 1) (2 * x * y) (2 * x * z)) (V (2 * y * x) (2 * y * y - 1) (2 * y * z)) (V (2 * z * x) (2 * z * y) (2 * z * z - 1)).
Theorem C74_half_turn u v : dot u u = 1 -> mv (half_turn u) v = vsub3 (vmul3 (2 * dot u v) u) v /\ rotation (half_turn u) /\ mv (half_turn u) u = u /\ mm (half_turn u) (half_turn u) = eye.
Proof.
  intros U. assert (Q0 : half_turn u = quaternion_matrix (Q 0 (vx u) (vy u) (vz u))).
  { rewrite unit_qN by (rewrite <- U; unfold qdot, dot; cbn; ring). destruct u as [x y z]. unfold dot in U. cbn in U. unfold half_turn, qN. apply mat_eq; apply vec_eq; cbn; lra. }
  assert (MV : forall v, mv (half_turn u) v = vsub3 (vmul3 (2 * dot u v) u) v) by (clear; intros [a b c]; destruct u; unfold mv, half_turn, vsub3, vmul3, dot; apply vec_eq; cbn; ring). split; [apply MV|]. split; [rewrite Q0; apply quaternion_matrix_rotation|]. split.
  - rewrite MV, U. vec_ring.
  - assert (QQ : qdot (Q 0 (vx u) (vy u) (vz u)) (Q 0 (vx u) (vy u) (vz u)) = 1) by (rewrite <- U; unfold qdot, dot; cbn; ring).
    rewrite Q0, <- quaternion_matrix_mul by (rewrite QQ; unfold EPS; lra). destruct (quaternion_matrix_rotation (Q 1 0 0 0)) as (R1 & _).
    replace (quaternion_multiply _ _) with (Q (- dot u u) 0 0 0) by (clear; destruct u; unfold dot; apply q_eq; cbn; ring). rewrite U, unit_qN by (unfold qdot; cbn; ring). cbn. unfold eye. apply mat_eq; apply vec_eq; cbn; ring.
Qed.
Example C74_half_turn_example : half_turn (V 0 0 1) = M (V (-1) 0 0) (V 0 (-1) 0) (V 0 0 1).
Proof. cbn. apply mat_eq; apply vec_eq; cbn; ring. Qed.
Lemma drag_quat a b : dot a a = 1 -> dot b b = 1 -> let t := cross a b in let q := Q (dot a b) (vx t) (vy t) (vz t) in
  qdot q q = 1 /\ quaternion_matrix q = mm (half_turn b) (half_turn a).
Proof.
  intros A B t q. assert (U : qdot q q = 1) by (transitivity (dot a a * dot b b); [unfold q, t, qdot, dot, cross; cbn; ring|rewrite A, B; ring]). split; [auto|]. rewrite unit_qN by auto.
  unfold q, t. assert (E : qN (Q (dot a b) (vx (cross a b)) (vy (cross a b)) (vz (cross a b))) = qN (quaternion_multiply (Q 0 (vx b) (vy b) (vz b)) (Q 0 (vx a) (vy a) (vz a)))).
  { replace (quaternion_multiply _ _) with (qscale (-1) (Q (dot a b) (vx (cross a b)) (vy (cross a b)) (vz (cross a b)))) by (clear; destruct a, b; unfold dot, cross; apply q_eq; cbn; ring). cbn. apply mat_eq; apply vec_eq; cbn; ring. }
  rewrite E, qN_mul. f_equal.
  - destruct b as [x y z]. unfold dot in B. cbn in B. cbn. apply mat_eq; apply vec_eq; cbn; lra.
  - destruct a as [x y z]. unfold dot in A. cbn in A. cbn. apply mat_eq; apply vec_eq; cbn; lra.
Qed.
(** what holds for every trackball *)
Definition unit_v (v : vec) : Prop := dot v v = 1.
Definition ball_ok (b : ball) : Prop := qdot (b_qdown b) (b_qdown b) = 1 /\ qdot (b_qnow b) (b_qnow b) = 1 /\ qdot (b_qpre b) (b_qpre b) = 1 /\ unit_v (b_vdown b) /\
  (forall l, b_axes b = Some l -> Forall unit_v l) /\ (forall a, b_axis b = Some a -> unit_v a /\ dot (b_vdown b) a = 0).
Lemma sphere_unit p c r v : map_to_sphere p c r = Some v -> dot v v = 1 /\ 0 <= vz v.
Proof.
  destruct p as [px py], c as [cx cy]. intros H. destruct (C74_sphere px py cx cy r) as (Z & S). destruct (Req_EM_T r 0) as [E|E]; [rewrite (Z E) in H; discriminate|].
  destruct (S E) as (u & U & A & B & _). rewrite H in U. apply some_inj in U. subst. auto.
Qed.
(** a drag turns the orientation at the last click by the half turn about the clicked point followed by the half turn about the current one
    (about their common normal by twice the angle between them); with a constraint axis it turns about that axis; a drag of almost no angle does not turn *)
Theorem C74_drag b p b' : ball_ok b -> drag b p = Some b' ->
  exists u v, map_to_sphere p (b_center b) (b_radius b) = Some u /\ match b_axis b with None => v = u | Some a => constrain_to_axis u a = Some v end /\
  dot v v = 1 /\ let r := mm (half_turn v) (half_turn (b_vdown b)) in
  rotation r /\ mv r (b_vdown b) = vsub3 (vmul3 (2 * dot (b_vdown b) v) v) (b_vdown b) /\ mv r (cross (b_vdown b) v) = cross (b_vdown b) v /\
  (forall a, b_axis b = Some a -> mv r a = a) /\
  (EPS <= dot (cross (b_vdown b) v) (cross (b_vdown b) v) -> ball_matrix b' = mm r (quaternion_matrix (b_qdown b))) /\
  (dot (cross (b_vdown b) v) (cross (b_vdown b) v) < EPS -> b_qnow b' = b_qdown b) /\
  b_qpre b' = b_qnow b /\ b_qdown b' = b_qdown b /\ b_vdown b' = b_vdown b /\ b_axis b' = b_axis b.
Proof.
  intros (QD & QN & QP & VD & _ & AX) H. unfold drag in H. destruct (map_to_sphere p (b_center b) (b_radius b)) as [u|] eqn:MU; [|discriminate]. cbn [obind] in H. destruct (sphere_unit _ _ _ _ MU) as (UU & _).
  assert (X : exists v, match b_axis b with None => v = u | Some a => constrain_to_axis u a = Some v end /\ match b_axis b with None => Some u | Some a => constrain_to_axis u a end = Some v).
  { destruct (b_axis b) as [a|]; [|exists u; auto]. destruct (constrain_to_axis u a) as [v|]; [exists v; auto|discriminate]. }
  destruct X as (v & XV & XE). rewrite XE in H. cbn [obind] in H. cbv zeta in H.
  assert (VV : dot v v = 1). { destruct (b_axis b) as [a|]; [|subst; auto]. destruct (AX a eq_refl) as (AU & _). apply (C74_constrain u a v AU XV). }
  assert (VA : forall a, b_axis b = Some a -> dot v a = 0). { intros a A. rewrite A in XV. destruct (AX a A) as (AU & _). apply (C74_constrain u a v AU XV). }
  exists u, v. split; [auto|]. split; [auto|]. split; [auto|]. cbv zeta. unfold unit_v in VD. set (d := b_vdown b) in *.
  destruct (C74_half_turn v d VV) as (HV & RV & _). destruct (C74_half_turn d d VD) as (_ & RD & HD & _). assert (HV' : forall y, mv (half_turn v) y = vsub3 (vmul3 (2 * dot v y) v) y) by (intros y; apply C74_half_turn; auto).
  assert (HD' : forall y, mv (half_turn d) y = vsub3 (vmul3 (2 * dot d y) d) y) by (intros y; apply C74_half_turn; auto).
  assert (MM : forall y, mv (mm (half_turn v) (half_turn d)) y = mv (half_turn v) (mv (half_turn d) y)) by (intros y; generalize (half_turn v) (half_turn d); intros; vec_ring).
  split; [apply rotation_mm; auto|]. split. { rewrite MM, HD, HV'. rewrite (dot_comm d v). reflexivity. }
  split. { rewrite MM, HD'. replace (dot d (cross d v)) with 0 by vec_ring. rewrite HV'. replace (dot v _) with 0 by vec_ring. vec_ring. }
  split. { intros a A. rewrite MM, HD', HV'. destruct (AX a A) as (_ & DA). rewrite DA. assert (VA' := VA a A). replace (dot v _) with (2 * 0 * dot v d - dot v a) by vec_ring. rewrite VA'. vec_ring. }
  apply some_inj in H. subst b'. cbn [b_qpre b_qdown b_vdown b_axis]. unfold ball_matrix. cbn [b_qnow]. destruct (Rlt_dec (dot (cross d v) (cross d v)) EPS) as [L|L].
  - split; [intros; lra|]. auto.
  - split; [|split; [intros; lra|auto]]. intros _. destruct (drag_quat d v VD VV) as (DQ & DM). cbv zeta in DQ, DM. rewrite <- DM. apply quaternion_matrix_mul; rewrite ?qdot_mul, ?DQ, ?QD; unfold EPS; lra.
Qed.
(** only the end of a drag counts, not the way *)
Theorem C74_drag_path b p1 p2 b1 b2 : drag b p1 = Some b1 -> drag b1 p2 = Some b2 -> exists b2', drag b p2 = Some b2' /\ b_qnow b2' = b_qnow b2.
Proof.
  unfold drag. intros H1 H2. destruct (map_to_sphere p1 (b_center b) (b_radius b)) as [u1|]; [|discriminate]. cbn [obind] in H1.
  destruct (match b_axis b with None => Some u1 | Some a => constrain_to_axis u1 a end) as [v1|]; [|discriminate]. cbn [obind] in H1. apply some_inj in H1. subst b1. cbn [b_axis b_axes b_radius b_center b_vdown b_constrain b_qdown b_qnow] in H2.
  destruct (map_to_sphere p2 (b_center b) (b_radius b)) as [u2|]; [|discriminate]. cbn [obind] in H2 |- *.
  destruct (match b_axis b with None => Some u2 | Some a => constrain_to_axis u2 a end) as [v2|]; [|discriminate]. cbn [obind] in H2 |- *. apply some_inj in H2. subst b2. eexists. split; reflexivity.
Qed.
(** letting go and clicking again during a drag makes no difference: no hysteresis (without constraint) *)
Theorem C74_drag_compose b a c d va vc vd b1 b2 : b_constrain b = false -> ball_ok b ->
  map_to_sphere a (b_center b) (b_radius b) = Some va -> map_to_sphere c (b_center b) (b_radius b) = Some vc -> map_to_sphere d (b_center b) (b_radius b) = Some vd ->
  EPS <= dot (cross va vc) (cross va vc) -> EPS <= dot (cross vc vd) (cross vc vd) -> EPS <= dot (cross va vd) (cross va vd) ->
  brun b [BDown a; BDrag c; BDown c; BDrag d] = Some b1 -> brun b [BDown a; BDrag d] = Some b2 -> ball_matrix b1 = ball_matrix b2.
Proof.
  intros CO (QD & QN & QP & _) MA MC MD AC CD AD H1 H2. cbn [brun bstep] in H1, H2. unfold down in H1, H2. rewrite MA, CO in H1, H2. cbn [obind b_axes b_axis] in H1, H2.
  unfold drag in H1, H2. cbn [b_axis b_axes b_radius b_center b_vdown b_constrain b_qdown b_qnow b_qpre obind] in H1, H2. rewrite MC in H1. rewrite MD in H2. cbn [obind b_constrain b_center b_radius b_axes b_axis b_vdown b_qdown b_qnow b_qpre] in H1, H2.
  rewrite MC in H1. cbn [obind b_constrain b_center b_radius b_axes b_axis b_vdown b_qdown b_qnow b_qpre] in H1. rewrite MD in H1. cbn [obind b_constrain b_center b_radius b_axes b_axis b_vdown b_qdown b_qnow b_qpre] in H1.
  apply some_inj in H1, H2. subst b1 b2. unfold ball_matrix. cbn [b_qnow].
  destruct (Rlt_dec (dot (cross va vc) (cross va vc)) EPS); [lra|]. destruct (Rlt_dec (dot (cross vc vd) (cross vc vd)) EPS); [lra|]. destruct (Rlt_dec (dot (cross va vd) (cross va vd)) EPS); [lra|].
  destruct (sphere_unit _ _ _ _ MA) as (UA & _). destruct (sphere_unit _ _ _ _ MC) as (UC & _). destruct (sphere_unit _ _ _ _ MD) as (UD & _).
  destruct (drag_quat va vc UA UC) as (N1 & M1). destruct (drag_quat vc vd UC UD) as (N2 & M2). destruct (drag_quat va vd UA UD) as (N3 & M3). cbv zeta in *.
  assert (EE : EPS <= 1) by (unfold EPS; lra). rewrite !quaternion_matrix_mul by (rewrite ?qdot_mul, ?N1, ?N2, ?N3, ?QN, ?Rmult_1_l; auto). rewrite M1, M2, M3, !mm_assoc. f_equal. rewrite <- (mm_assoc (half_turn vd)).
  destruct (C74_half_turn vc vc UC) as (_ & _ & _ & HH). rewrite HH, mm_eye_r. reflexivity.
Qed.
(** [next] goes on turning about the same axis as the last step, by (1 + acceleration) times its angle (the smaller way round) *)
Lemma even0 : 0 = 2 * IZR 0. Proof. ring. Qed.
Theorem C74_next b acceleration : ball_ok b -> exists b', next b acceleration = Some b' /\ b_qpre b' = b_qnow b /\ qdot (b_qnow b') (b_qnow b') = 1 /\
  (EPS <= Rabs (Rabs (qdot (b_qpre b) (b_qnow b)) - 1) -> exists n t r s, dot n n = 1 /\ 0 < t <= PI / 2 /\
     rotation_matrix (2 * t) n = Some r /\ ball_matrix b = mm r (quaternion_matrix (b_qpre b)) /\
     rotation_matrix (2 * (1 + acceleration) * t) n = Some s /\ ball_matrix b' = mm s (ball_matrix b) /\
     (acceleration = 0 -> s = r /\ Rabs (qdot (b_qpre b') (b_qnow b')) = Rabs (qdot (b_qpre b) (b_qnow b)))) /\
  (Rabs (Rabs (qdot (b_qpre b) (b_qnow b)) - 1) < EPS -> b_qnow b' = if Req_EM_T acceleration (-1) then b_qnow b else b_qpre b) /\
  b_axis b' = b_axis b /\ b_axes b' = b_axes b /\ b_radius b' = b_radius b /\ b_center b' = b_center b /\ b_vdown b' = b_vdown b /\ b_constrain b' = b_constrain b /\ b_qdown b' = b_qdown b.
Proof.
  intros (QD & QN & QP & _). unfold next, ball_matrix. destruct (Rlt_dec (Rabs (Rabs (qdot (b_qpre b) (b_qnow b)) - 1)) EPS) as [C|C].
  - rewrite C74_slerp_close by auto. cbn [obind]. eexists. split; [reflexivity|]. cbn [b_qpre b_qnow b_axis b_axes b_radius b_center b_vdown b_constrain b_qdown].
    split; [auto|]. split; [destruct (Req_EM_T (2 + acceleration) 1); auto|]. split; [intros; lra|]. split; [|repeat apply conj; auto].
    intros _. destruct (Req_EM_T (2 + acceleration) 1), (Req_EM_T acceleration (-1)); auto; lra.
  - destruct (C74_slerp (b_qpre b) (b_qnow b) 0 true QP QN ltac:(lra)) as (n & t & sg & N & T & SG & _ & TS & CT & REL & F). specialize (TS eq_refl).
    pose proof (F (2 + acceleration)) as (q & r2 & E & QU & _ & Q1 & Q2 & R2 & M2). pose proof (F 1) as (q1' & r1 & E1 & _ & _ & E1' & _ & R1 & M1). rewrite (E1' eq_refl) in M1.
    rewrite <- even0 in E. rewrite E. cbn [obind]. eexists. split; [reflexivity|]. cbn [b_qpre b_qnow b_axis b_axes b_radius b_center b_vdown b_constrain b_qdown].
    split; [auto|]. split; [auto|]. split; [|split; [intros; lra|repeat apply conj; auto]]. intros _. replace (t + 2 * IZR 0 * PI) with t in * by ring. replace (2 * 1 * t) with (2 * t) in R1 by ring.
    assert (SM : forall y, rotation_matrix (2 * y) n = Some (quaternion_matrix (turn n y))) by (intros; apply turn_matrix; auto).
    exists n, t, r1, (quaternion_matrix (turn n ((1 + acceleration) * t))). split; [auto|]. split; [lra|]. split; [auto|]. split; [auto|]. split; [rewrite <- SM; f_equal; ring|].
    replace (2 * (2 + acceleration) * t) with (2 * ((2 + acceleration) * t)) in R2 by ring. rewrite SM in R1, R2. apply some_inj in R1, R2. subst r1 r2. assert (EE : EPS <= 1) by (unfold EPS; lra). split.
    + rewrite M1, M2, mm_assoc. f_equal. rewrite <- quaternion_matrix_mul by (rewrite ?qdot_mul, ?turn_unit by auto; lra). f_equal.
      replace ((2 + acceleration) * t) with ((1 + acceleration) * t + t) by ring. unfold turn. rewrite cos_plus, sin_plus. unfold dot in N. destruct n as [n0 n1 n2]. cbn [vx vy vz] in *. set (y := (1 + acceleration) * t). apply q_eq; cbn [qw qx qy qz quaternion_multiply]; try ring.
      transitivity (cos y * cos t - sin y * sin t * (n0 * n0 + n1 * n1 + n2 * n2)); [rewrite N; ring|ring].
    + intros ->. split; [f_equal; f_equal; ring|]. rewrite (Q2 ltac:(lra)). replace ((2 + 0) * t) with (t + t) by ring.
      assert (D2 : quaternion_multiply (turn n (t + t)) (b_qpre b) = quaternion_multiply (turn n t) (qscale sg (b_qnow b))).
      { rewrite REL, qmul_assoc. f_equal. unfold turn. rewrite cos_plus, sin_plus. unfold dot in N. destruct n as [n0 n1 n2]. cbn [vx vy vz] in *. apply q_eq; cbn [qw qx qy qz quaternion_multiply]; try ring.
        transitivity (cos t * cos t - sin t * sin t * (n0 * n0 + n1 * n1 + n2 * n2)); [rewrite N; ring|ring]. }
      rewrite D2. assert (W : qdot (b_qnow b) (quaternion_multiply (turn n t) (qscale sg (b_qnow b))) = sg * cos t * qdot (b_qnow b) (b_qnow b)) by (destruct (b_qnow b), n; unfold qdot, turn; cbn; ring).
      rewrite W, CT, QN. destruct SG as [-> | ->]; f_equal; ring.
Qed.
(** left to itself after a drag it turns on by the last step each time, for any number of times *)
Fixpoint mpow (r : mat) (k : nat) : mat := match k with O => eye | S k => mm r (mpow r k) end.
Theorem C74_next_iterate b r k : ball_ok b -> EPS <= Rabs (Rabs (qdot (b_qpre b) (b_qnow b)) - 1) -> ball_matrix b = mm r (quaternion_matrix (b_qpre b)) ->
  exists b', brun b (repeat (BNext 0) k) = Some b' /\ ball_matrix b' = mm (mpow r k) (ball_matrix b).
Proof.
  revert b. induction k as [|k IH]; intros b OK D R; cbn [repeat brun].
  - exists b. split; [auto|]. cbn. rewrite mm_eye_l. auto.
  - destruct (C74_next b 0 OK) as (b1 & E & PRE & NU & F & _ & A1 & A2 & A3 & A4 & A5 & A6 & A7). destruct (F D) as (n & t & r' & s & N & T & R1 & M1 & S1 & S2 & Z). destruct (Z eq_refl) as (-> & DD).
    assert (RR : r' = r).
    { pose proof (quaternion_matrix_rotation (b_qpre b)) as (Q1 & _). rewrite R in M1. apply (f_equal (fun m => mm m (mT (quaternion_matrix (b_qpre b))))) in M1. rewrite <- !mm_assoc, Q1, !mm_eye_r in M1. auto. }
    subst r'. cbn [bstep]. rewrite E. cbn [obind]. destruct OK as (QD & QN & QP & VD & AX & AA).
    destruct (IH b1) as (b' & E' & M'); [|rewrite DD; exact D|rewrite PRE; exact S2|].
    + repeat apply conj; rewrite ?A7, ?PRE, ?A5, ?A1, ?A2; auto.
    + exists b'. split; [exact E'|]. rewrite M', S2, mm_assoc. f_equal. clear. cbn [mpow]. induction k as [|k IH]; cbn [mpow]; [rewrite mm_eye_l, mm_eye_r; auto|]. rewrite <- mm_assoc, IH. auto.
Qed.
(** the invariant holds from the start and through any use *)
Theorem C74_ball :
  (forall q b, ball_new q = Some b -> ball_ok b /\ match q with None => ball_matrix b = eye | Some q => ball_matrix b = quaternion_matrix (qscale (/ sqrt (qdot q q)) q) end) /\
  (forall es b b', ball_ok b -> brun b es = Some b' -> ball_ok b' /\ rotation (ball_matrix b')).
Proof.
  split.
  - intros q b H. unfold ball_new in H. destruct q as [q|].
    + destruct (unit_quat_spec q) as [(_ & N)|(u & E & U & QU & P)]; [rewrite N in H; discriminate|]. rewrite E in H. cbn [obind] in H. apply some_inj in H. subst b. split.
      * repeat apply conj; cbn; auto; try discriminate. unfold unit_v, dot. cbn. ring.
      * unfold ball_matrix. cbn [b_qnow]. f_equal. set (s := sqrt (qdot q q)) in *. rewrite QU. apply q_eq; cbn; field; lra.
    + cbn [obind] in H. apply some_inj in H. subst b. split.
      * repeat apply conj; cbn; auto; try discriminate; unfold unit_v, dot, qdot; cbn; ring.
      * unfold ball_matrix. cbn [b_qnow]. rewrite unit_qN by (unfold qdot; cbn; ring). cbn. unfold eye. apply mat_eq; apply vec_eq; cbn; ring.
  - induction es as [|e es IH]; intros b b' OK H; cbn [brun] in H.
    + apply some_inj in H. subst b'. split; [auto|apply quaternion_matrix_rotation].
    + destruct (bstep b e) as [b1|] eqn:E; [|discriminate]. cbn [obind] in H. apply (IH b1 b'); auto. clear IH H b' es. pose proof OK as (QD & QN & QP & VD & AX & AA).
      destruct e as [c r|l|v|p|p|a]; cbn [bstep] in E.
      * apply some_inj in E. subst b1. exact OK.
      * unfold setaxes in E. destruct (mapo unit_vector l) as [l'|] eqn:ML; [|discriminate]. cbn [obind] in E. apply some_inj in E. subst b1. repeat apply conj; cbn; auto. intros l0 L0. apply some_inj in L0. subst l0.
        eapply (mapo_Forall unit_vector (fun _ => True) unit_v); [|rewrite Forall_forall; auto|exact ML]. intros v n _ NV. destruct (unit_vector_some v) as (n' & N1 & N2 & _); [intros Z; rewrite (proj2 (unit_vector_none v) Z) in NV; discriminate|]. rewrite NV in N1. apply some_inj in N1. subst. exact N2.
      * apply some_inj in E. subst b1. exact OK.
      * unfold down in E. destruct (map_to_sphere p (b_center b) (b_radius b)) as [u|] eqn:MU; [|discriminate]. cbn [obind] in E. destruct (sphere_unit _ _ _ _ MU) as (UU & UZ).
        destruct (b_constrain b), (b_axes b) as [l|] eqn:BA; try (apply some_inj in E; subst b1; repeat apply conj; cbn; auto; discriminate).
        pose proof (C74_nearest u l UU UZ (AX l eq_refl)) as NX. destruct (nearest_axis u l) as [a|]; [|discriminate]. cbn [obind] in E. destruct NX as (w & l1 & l2 & LL & CW & _). rewrite CW in E. cbn [obind] in E. apply some_inj in E. subst b1.
        assert (AU : unit_v a) by (pose proof (AX l eq_refl) as FA; rewrite LL in FA; apply Forall_elt in FA; auto). destruct (C74_constrain u a w AU CW) as (W1 & W2 & _).
        repeat apply conj; cbn; auto. intros a' A'. apply some_inj in A'. subst a'. auto.
      * destruct (C74_drag b p b1 OK E) as (u & v & _ & _ & VV & _). clear u. unfold drag in E. destruct (map_to_sphere p (b_center b) (b_radius b)) as [u|] eqn:MU; [|discriminate]. cbn [obind] in E. destruct (sphere_unit _ _ _ _ MU) as (UU & UZ).
        destruct (match b_axis b with None => Some u | Some a => constrain_to_axis u a end) as [v'|] eqn:CV; [|discriminate]. cbn [obind] in E. apply some_inj in E. subst b1.
        assert (V1 : dot v' v' = 1). { destruct (b_axis b) as [a|]; [|apply some_inj in CV; subst; auto]. destruct (AA a eq_refl) as (AU & _). apply (C74_constrain u a v' AU CV). }
        repeat apply conj; cbn [b_qdown b_qnow b_qpre b_vdown b_axes b_axis]; auto. destruct (Rlt_dec _ EPS); [auto|]. destruct (drag_quat _ _ VD V1) as (DQ & _). cbv zeta in DQ. rewrite qdot_mul, DQ, QD. ring.
      * destruct (C74_next b a OK) as (b2 & E2 & PRE & NU & _ & _ & A1 & A2 & A3 & A4 & A5 & A6 & A7). cbn in E. rewrite E in E2. apply some_inj in E2. subst b2. repeat apply conj; rewrite ?A7, ?PRE, ?A5, ?A1, ?A2; auto.
Qed.
(** a trackball that is used: half a turn about the vertical axis by a drag from the centre to the rim *)
Definition fresh : ball := Ball None None 1 (0, 0) (V 0 0 1) false (Q 1 0 0 0) (Q 1 0 0 0) (Q 1 0 0 0).
Example C74_ball_example : ball_new None = Some fresh /\ brun fresh [BDown (0, 0); BDrag (1, 0)] = Some (Ball None None 1 (0, 0) (V 0 0 1) false (Q 1 0 0 0) (Q 0 0 1 0) (Q 1 0 0 0)) /\
  quaternion_matrix (Q 0 0 1 0) = half_turn (V 0 1 0).
Proof.
  split; [reflexivity|]. split.
  - cbn [brun bstep]. unfold fresh, down. cbn [b_center b_radius b_constrain b_axes].
    assert (M0 : map_to_sphere (0, 0) (0, 0) 1 = Some (V 0 0 1)). { unfold map_to_sphere. cbn [fst snd]. rewrite !fdiv_some by lra. cbn [obind]. replace ((0 - 0) / 1) with 0 by field. destruct (Rlt_dec 1 (0 * 0 + 0 * 0)); [lra|]. rewrite fsqrt_some by lra. cbn [obind]. replace (1 - (0 * 0 + 0 * 0)) with 1 by ring. rewrite sqrt_1. auto. }
    assert (M1 : map_to_sphere (1, 0) (0, 0) 1 = Some (V 1 0 0)). { unfold map_to_sphere. cbn [fst snd]. rewrite !fdiv_some by lra. cbn [obind]. replace ((0 - 0) / 1) with 0 by field. replace ((1 - 0) / 1) with 1 by field. destruct (Rlt_dec 1 (1 * 1 + 0 * 0)); [lra|]. rewrite fsqrt_some by lra. cbn [obind]. replace (1 - (1 * 1 + 0 * 0)) with 0 by ring. rewrite sqrt_0. auto. }
    rewrite M0. cbn [obind]. unfold drag. cbn [b_center b_radius b_constrain b_axes b_axis b_vdown b_qdown b_qnow b_qpre]. rewrite M1. cbn [obind b_qnow].
    destruct (Rlt_dec _ EPS) as [C|_]; [exfalso; unfold dot, cross, EPS in C; cbn in C; lra|]. f_equal. f_equal. unfold dot, cross. cbn. apply q_eq; cbn; ring.
  - rewrite unit_qN by (unfold qdot; cbn; ring). cbn. apply mat_eq; apply vec_eq; cbn; ring.
Qed.
Example C74_next_case : let b := Ball None None 1 (0, 0) (V 0 0 1) false (Q 1 0 0 0) (Q 0 0 1 0) (Q 1 0 0 0) in
  ball_ok b /\ EPS <= Rabs (Rabs (qdot (b_qpre b) (b_qnow b)) - 1) /\ ball_matrix b = mm (half_turn (V 0 1 0)) (quaternion_matrix (b_qpre b)).
Proof.
  cbv zeta. split; [|split].
  - repeat apply conj; cbn; auto; try discriminate; unfold unit_v, dot, qdot; cbn; ring.
  - replace (qdot _ _) with 0 by (unfold qdot; cbn; ring). rewrite Rabs_R0, Rabs_left by lra. unfold EPS. lra.
  - unfold ball_matrix. cbn [b_qnow b_qpre]. rewrite !unit_qN by (unfold qdot; cbn; ring). unfold half_turn, qN, mm, vm, col0, col1, col2, dot. apply mat_eq; apply vec_eq; cbn; ring.
Qed.
Example C74_drag_compose_case : exists va vc vd, map_to_sphere (-1, 0) (0, 0) 1 = Some va /\ map_to_sphere (0, 0) (0, 0) 1 = Some vc /\ map_to_sphere (0, 1) (0, 0) 1 = Some vd /\
  EPS <= dot (cross va vc) (cross va vc) /\ EPS <= dot (cross vc vd) (cross vc vd) /\ EPS <= dot (cross va vd) (cross va vd).
Proof.
  assert (M : forall x y, x * x + y * y = 1 -> map_to_sphere (x, y) (0, 0) 1 = Some (V x (- y) 0)).
  { intros x y H. unfold map_to_sphere. cbn [fst snd]. rewrite !fdiv_some by lra. cbn [obind]. replace ((x - 0) / 1) with x by field. replace ((0 - y) / 1) with (- y) by field. cbv zeta. replace (x * x + - y * - y) with 1 by lra.
    destruct (Rlt_dec 1 1); [lra|]. rewrite fsqrt_some by lra. cbn [obind]. rewrite Rminus_eq_0, sqrt_0. auto. }
  exists (V (-1) (- 0) 0), (V 0 0 1), (V 0 (- (1)) 0). split; [apply M; ring|]. split.
  { unfold map_to_sphere. cbn [fst snd]. rewrite !fdiv_some by lra. cbn [obind]. replace ((0 - 0) / 1) with 0 by field. destruct (Rlt_dec 1 (0 * 0 + 0 * 0)); [lra|]. rewrite fsqrt_some by lra. cbn [obind]. replace (1 - (0 * 0 + 0 * 0)) with 1 by ring. rewrite sqrt_1. auto. }
  split; [apply M; ring|]. unfold dot, cross, EPS. cbn. repeat apply conj; lra.
Qed.
(** refuted: "no axes means no constraint" (the test for it looks at a tuple that is never None): a constrained click then raises *)
Theorem C74_setaxes_refuted : setaxes fresh [] = Some (Ball None (Some []) 1 (0, 0) (V 0 0 1) false (Q 1 0 0 0) (Q 1 0 0 0) (Q 1 0 0 0)) /\
  forall p, brun fresh [BAxes []; BConstrain true; BDown p] = None.
Proof.
  split; [reflexivity|]. intros p. cbn [brun bstep setaxes mapo obind]. unfold down. cbn. destruct (map_to_sphere p (0, 0) 1); reflexivity.
Qed.
(** with axes that do not point straight away from the viewer and a ball of some size every use works *)
Definition ahead (e : bevent) : Prop := match e with BPlace _ r => r <> 0 | BAxes l => l <> [] /\ Forall (fun a => a <> v0 /\ (vx a = 0 -> vy a = 0 -> 0 < vz a)) l | _ => True end.
Definition ball_live (b : ball) : Prop := ball_ok b /\ b_radius b <> 0 /\ (forall l, b_axes b = Some l -> l <> [] /\ Forall (fun a => a <> V 0 0 (-1)) l) /\ (forall a, b_axis b = Some a -> a <> V 0 0 (-1)).
Lemma constrain_live p a : dot a a = 1 -> a <> V 0 0 (-1) -> exists w, constrain_to_axis p a = Some w.
Proof. intros A N. destruct (constrain_to_axis p a) as [w|] eqn:E; [exists w; auto|]. apply C74_constrain_none in E; [|auto]. destruct E. contradiction. Qed.
Lemma sphere_live p c r : r <> 0 -> exists v, map_to_sphere p c r = Some v.
Proof. destruct p as [px py], c as [cx cy]. intros N. destruct (proj2 (C74_sphere px py cx cy r) N) as (v & E & _). exists v. auto. Qed.
Theorem C74_ball_total es : forall b, ball_live b -> Forall ahead es -> exists b', brun b es = Some b' /\ ball_live b'.
Proof.
  induction es as [|e es IH]; intros b L F; cbn [brun]; [exists b; auto|]. inversion F as [|e' es' FE FS]; subst.
  enough (X : exists b1, bstep b e = Some b1 /\ ball_live b1). { destruct X as (b1 & -> & L1). cbn [obind]. apply IH; auto. }
  clear IH F FS. pose proof L as (OK & RN & AXL & AAL). pose proof OK as (QD & QN & QP & VD & AX & AA).
  enough (X : exists b1, bstep b e = Some b1 /\ b_radius b1 <> 0 /\ (forall l, b_axes b1 = Some l -> l <> [] /\ Forall (fun a => a <> V 0 0 (-1)) l) /\ (forall a, b_axis b1 = Some a -> a <> V 0 0 (-1))).
  { destruct X as (b1 & E & R1). exists b1. split; [auto|]. split; [|exact R1]. apply (proj2 C74_ball [e] b b1 OK). cbn [brun]. rewrite E. reflexivity. }
  destruct e as [c r|l|v|p|p|a]; cbn [bstep].
  - eexists. split; [reflexivity|]. cbn. auto.
  - destruct FE as (LN & FE). unfold setaxes. assert (X : exists l', mapo unit_vector l = Some l' /\ length l' = length l /\ Forall (fun a => a <> V 0 0 (-1)) l').
    { clear LN. induction FE as [|a l (A0 & A1) FE IH]; [exists []; auto|]. destruct IH as (l' & E & LL & FL). destruct (unit_vector_some a A0) as (n & EN & NU & NA & AN). cbn [mapo]. rewrite EN, E. cbn [obind]. exists (n :: l'). split; [auto|]. split; [cbn; congruence|].
      apply Forall_cons; [|auto]. intros C. rewrite C in NA. assert (norm a <> 0) by (intros Z; apply A0; apply norm_zero; auto). pose proof (norm_nonneg a).
      assert (vx a = 0) by (rewrite NA; cbn; ring). assert (vy a = 0) by (rewrite NA; cbn; ring). specialize (A1 H1 H2). assert (vz a = - norm a) by (rewrite NA at 1; cbn; ring). lra. }
    destruct X as (l' & -> & LL & FL). cbn [obind]. eexists. split; [reflexivity|]. cbn. split; [auto|]. split; [|auto]. intros l0 L0. apply some_inj in L0. subst l0. split; [|auto]. destruct l, l'; cbn in LL; congruence.
  - eexists. split; [reflexivity|]. cbn. auto.
  - unfold down. destruct (sphere_live p (b_center b) (b_radius b) RN) as (u & MU). rewrite MU. cbn [obind]. destruct (sphere_unit _ _ _ _ MU) as (UU & UZ).
    destruct (b_constrain b), (b_axes b) as [l|] eqn:BA; try (eexists; split; [reflexivity|]; cbn; split; [auto|]; split; [intros; try discriminate; auto|discriminate]).
    + pose proof (C74_nearest u l UU UZ (AX l eq_refl)) as NX. destruct (AXL l eq_refl) as (LN & FL). pose proof (AX l eq_refl) as FU. destruct (nearest_axis u l) as [a|].
      * destruct NX as (w & l1 & l2 & LL & CW & _). cbn [obind]. rewrite CW. cbn [obind]. eexists. split; [reflexivity|]. cbn. split; [auto|]. split; [auto|]. intros a' A'. apply some_inj in A'. subst a'. rewrite LL in FL. apply Forall_elt in FL. auto.
      * exfalso. destruct l as [|a l]; [contradiction|]. inversion FL; subst. inversion FU; subst. destruct (constrain_live u a) as (w & CW); auto. rewrite (NX a (or_introl eq_refl)) in CW. discriminate.
  - unfold drag. destruct (sphere_live p (b_center b) (b_radius b) RN) as (u & MU). rewrite MU. cbn [obind]. destruct (b_axis b) as [a|] eqn:BA.
    + destruct (AA a eq_refl) as (AU & _). destruct (constrain_live u a AU (AAL a eq_refl)) as (w & ->). cbn [obind]. eexists. split; [reflexivity|]. cbn. split; [auto|]. split; [exact AXL|auto].
    + cbn [obind]. eexists. split; [reflexivity|]. cbn. split; [auto|]. split; [exact AXL|discriminate].
  - destruct (C74_next b a OK) as (b2 & E2 & _ & _ & _ & _ & A1 & A2 & A3 & _). exists b2. split; [exact E2|]. rewrite A1, A2, A3. auto.
Qed.
Example C74_ball_total_example : ball_live fresh /\ Forall ahead [BPlace (320, 240) 320; BAxes [V 1 0 0; V 0 (-1) 0]; BConstrain true; BDown (500, 250); BDrag (475, 275); BNext 0].
Proof.
  split.
  - repeat apply conj; cbn; auto; try discriminate; try lra; unfold unit_v, dot, qdot; cbn; ring.
  - repeat (apply Forall_cons; [|]); try apply Forall_nil; cbn; auto; try lra. split; [discriminate|]. repeat (apply Forall_cons; [|]); try apply Forall_nil; cbn; (split; [intros C; injection C; intros; lra|intros; lra]).
Qed.

Print Assumptions C74_slerp.
Print Assumptions C74_slerp_close.
Print Assumptions C74_slerp_scale.
Print Assumptions C74_slerp_zero.
Print Assumptions C74_slerp_odd_refuted.
Print Assumptions C74_random.
Print Assumptions C74_parts.
Print Assumptions C74_euler_quaternion.
Print Assumptions C74_from_matrix.
Print Assumptions C74_sphere.
Print Assumptions C74_constrain.
Print Assumptions C74_constrain_none.
Print Assumptions C74_constrain_refuted.
Print Assumptions C74_constrain_nearest.
Print Assumptions C74_constrain_nearest_refuted.
Print Assumptions C74_nearest.
Print Assumptions C74_half_turn.
Print Assumptions C74_drag.
Print Assumptions C74_drag_path.
Print Assumptions C74_drag_compose.
Print Assumptions C74_next.
Print Assumptions C74_next_iterate.
Print Assumptions C74_ball.
Print Assumptions C74_setaxes_refuted.
Print Assumptions C74_ball_total.
