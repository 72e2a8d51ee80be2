(** Property C75, continued: the parts of a composed matrix come back. *)
From Coq Require Import Reals List Bool Lra Lia Psatz.
From Verif Require Import Base Vec RotModel RotProofs RotEuler PropsPlacement PropsSums AffineModel PropsAffine DecomposeModel PropsDecompose PropsDecompose2.
Import ListNotations.
Open Scope R_scope.

Lemma angle_unique a b : - PI < a <= PI -> - PI < b <= PI -> cos a = cos b -> sin a = sin b -> a = b.
Proof.
  intros A B C S. set (x := (a - b) / 2). assert (X : - PI < x < PI) by (unfold x; lra). assert (Z : sin x * sin x = 0).
  { assert (E : cos (a - b) = 1) by (rewrite cos_minus, C, S; pose proof (sin2_cos2 b) as T; unfold Rsqr in T; lra). replace (a - b) with (2 * x) in E by (unfold x; field). rewrite cos_2a_sin in E. lra. }
  apply Rmult_integral in Z. assert (ZZ : sin x = 0) by tauto. destruct (Rlt_dec 0 x) as [P|P]; [pose proof (sin_gt_0 x P); lra|]. destruct (Rlt_dec x 0) as [N|N]; [|unfold x in *; lra].
  pose proof (sin_gt_0 (- x)) as SN. rewrite sin_neg in SN. lra.
Qed.
Lemma atan2_polar k a : 0 < k -> - PI < a <= PI -> atan2 (k * sin a) (k * cos a) = a.
Proof.
  intros K A. assert (Q : k * cos a * (k * cos a) + k * sin a * (k * sin a) = k * k) by (pose proof (sc1 a) as T; replace (k * cos a * (k * cos a) + k * sin a * (k * sin a)) with (k * k * (sin a * sin a + cos a * cos a)) by ring; rewrite T; ring).
  destruct (atan2_cs (k * sin a) (k * cos a)) as (C & S); [rewrite Q; nra|]. rewrite Q, sqrt_square in C, S by lra. apply angle_unique; [apply atan2_range|auto| |]; [rewrite C|rewrite S]; field; lra.
Qed.
Lemma norm_scaled s r : 0 < s -> dot r r = 1 -> norm (vmul3 s r) = s.
Proof. intros S D. unfold norm. rewrite dot_scale_l, dot_scale_r, D. replace (s * (s * 1)) with (s * s) by ring. apply sqrt_square. lra. Qed.
Lemma divide_scaled s r : 0 < s -> divide (vmul3 s r) s = Some r.
Proof. intros S. rewrite divide_some by lra. f_equal. apply vec_eq; cbn; field; lra. Qed.
(** the steps for a matrix given by its parts *)
Lemma gram_parts e s0 s1 s2 z0 z1 z2 r0 r1 r2 l : e * e = 1 -> 0 < s0 -> 0 < s1 -> 0 < s2 ->
  dot r0 r0 = 1 -> dot r1 r1 = 1 -> dot r2 r2 = 1 -> dot r0 r1 = 0 -> dot r0 r2 = 0 -> dot r1 r2 = 0 ->
  col0 l = vmul3 s0 (vmul3 e r0) -> col1 l = vmul3 s1 (vadd3 (vmul3 z0 (vmul3 e r0)) (vmul3 e r1)) ->
  col2 l = vmul3 s2 (vadd3 (vadd3 (vmul3 z1 (vmul3 e r0)) (vmul3 z2 (vmul3 e r1))) (vmul3 e r2)) ->
  forall B (k : R -> vec -> R -> vec -> R -> R -> R -> R -> vec -> option B),
   (let '(r0, r1, r2) := (col0 l, col1 l, col2 l) in
    let scale0 := norm r0 in
    do r0 <- divide r0 scale0;
    let shear0 := dot r0 r1 in
    let r1 := vsub3 r1 (vmul3 shear0 r0) in
    let scale1 := norm r1 in
    do r1 <- divide r1 scale1;
    do shear0 <- fdiv shear0 scale1;
    let shear1 := dot r0 r2 in
    let r2 := vsub3 r2 (vmul3 shear1 r0) in
    let shear2 := dot r1 r2 in
    let r2 := vsub3 r2 (vmul3 shear2 r1) in
    let scale2 := norm r2 in
    do r2 <- divide r2 scale2;
    do shear1 <- fdiv shear1 scale2;
    do shear2 <- fdiv shear2 scale2;
    k scale0 r0 scale1 r1 shear0 scale2 shear1 shear2 r2) = k s0 (vmul3 e r0) s1 (vmul3 e r1) z0 s2 z1 z2 (vmul3 e r2).
Proof.
  intros E S0 S1 S2 U0 U1 U2 O01 O02 O12 -> -> -> B k. assert (DE : forall a b, dot (vmul3 e a) (vmul3 e b) = dot a b) by (intros a b; rewrite dot_scale_l, dot_scale_r; transitivity (e * e * dot a b); [ring|rewrite E; ring]).
  rewrite <- DE in U0, U1, U2, O01, O02, O12. set (q0 := vmul3 e r0) in *. set (q1 := vmul3 e r1) in *. set (q2 := vmul3 e r2) in *. clearbody q0 q1 q2. clear r0 r1 r2 DE. cbv zeta.
  rewrite (norm_scaled s0 q0), (divide_scaled s0 q0) by auto. cbn [obind]. assert (H0 : dot q0 (vmul3 s1 (vadd3 (vmul3 z0 q0) q1)) = s1 * z0) by (rewrite dot_scale_r, dot_add_r, dot_scale_r, U0, O01; ring). rewrite H0.
  replace (vsub3 (vmul3 s1 (vadd3 (vmul3 z0 q0) q1)) (vmul3 (s1 * z0) q0)) with (vmul3 s1 q1) by (clear; vec_ring). rewrite (norm_scaled s1 q1), (divide_scaled s1 q1), fdiv_some by (auto; lra). cbn [obind].
  assert (H1 : dot q0 (vmul3 s2 (vadd3 (vadd3 (vmul3 z1 q0) (vmul3 z2 q1)) q2)) = s2 * z1) by (rewrite dot_scale_r, !dot_add_r, !dot_scale_r, U0, O01, O02; ring). rewrite H1.
  replace (vsub3 (vmul3 s2 (vadd3 (vadd3 (vmul3 z1 q0) (vmul3 z2 q1)) q2)) (vmul3 (s2 * z1) q0)) with (vmul3 s2 (vadd3 (vmul3 z2 q1) q2)) by (clear; vec_ring).
  assert (H2 : dot q1 (vmul3 s2 (vadd3 (vmul3 z2 q1) q2)) = s2 * z2) by (rewrite dot_scale_r, dot_add_r, dot_scale_r, U1, O12; ring). rewrite H2.
  replace (vsub3 (vmul3 s2 (vadd3 (vmul3 z2 q1) q2)) (vmul3 (s2 * z2) q1)) with (vmul3 s2 q2) by (clear; vec_ring). rewrite (norm_scaled s2 q2), (divide_scaled s2 q2), !fdiv_some by (auto; lra). cbn [obind].
  replace (s1 * z0 / s1) with z0 by (field; lra). replace (s2 * z1 / s2) with z1 by (field; lra). replace (s2 * z2 / s2) with z2 by (field; lra). reflexivity.
Qed.
(** the angles of a composed rotation *)
Lemma angles_back a b c : - PI < a <= PI -> - (PI / 2) < b < PI / 2 -> - PI < c <= PI ->
  let m := euler_matrix a b c sxyz in angles_of (col0 m) (col1 m) (col2 m) = V a b c /\ - 1 <= - vz (col0 m) <= 1.
Proof.
  intros A B C m. assert (CB : 0 < cos b) by (apply cos_gt_0; lra). unfold m. rewrite sxyz_matrix. unfold angles_of, col0, col1, col2. cbn [row0 row1 row2 vx vy vz]. rewrite Ropp_involutive, asin_sin by lra.
  split; [|pose proof (SIN_bound b); lra]. destruct (Req_EM_T (cos b) 0); [lra|]. rewrite !atan2_polar; auto.
Qed.
(** the parts of a composed matrix come back: scales of one sign, angles in range, away from gimbal lock, the last row zero or larger than the
    tolerance *)
Theorem C75_decompose_compose inv scale shear angles translate p m :
  (0 < vx scale /\ 0 < vy scale /\ 0 < vz scale) \/ (vx scale < 0 /\ vy scale < 0 /\ vz scale < 0) ->
  - PI < vx angles <= PI -> - (PI / 2) < vy angles < PI / 2 -> - PI < vz angles <= PI ->
  dot (hv p) translate + h4 p = 1 -> compose_matrix (Some scale) (Some shear) (Some angles) (Some translate) (Some p) = Some m ->
  (exists i, inv (HM (hl m) (ht m) v0 1) = Some i /\ hmm (HM (hl m) (ht m) v0 1) i = identity_matrix) ->
  p = HV v0 1 \/ large (hp m) ->
  decompose_matrix inv m = Some (scale, shear, angles, translate, p).
Proof.
  intros SC A B C W E (i & I & IA) PP. rewrite compose_parts in E. rewrite W in E. set (r := euler_matrix (vx angles) (vy angles) (vz angles) sxyz) in *. set (l := mm _ _) in E.
  assert (HD : forall l t p, hdiv (HM l t p 1) 1 = Some (HM l t p 1)). { clear. intros l t p. unfold hdiv. destruct (Req_EM_T 1 0); [lra|]. cbn [hl ht hp hw]. rewrite Rinv_1. replace (1 / 1) with 1 by field. f_equal. f_equal; mat_ring. }
  rewrite HD in E. apply some_inj in E. subst m. cbn [hl ht hp hw] in *.
  destruct (angles_back (vx angles) (vy angles) (vz angles) A B C) as (AB & RB). fold r in AB, RB. assert (RR : rotation r) by (apply euler_rotation; unfold axes_ok, sxyz; cbn; lia). destruct RR as (T1 & T2 & T3).
  assert (DR : dot (col0 r) (cross (col1 r) (col2 r)) = 1) by (rewrite <- T3, <- det_mT; reflexivity).
  set (r0 := col0 r) in *. set (r1 := col1 r) in *. set (r2 := col2 r) in *.
  assert (OO : dot r0 r0 = 1 /\ dot r1 r1 = 1 /\ dot r2 r2 = 1 /\ dot r0 r1 = 0 /\ dot r0 r2 = 0 /\ dot r1 r2 = 0).
  { assert (Q : mm (mT r) r = M (V (dot r0 r0) (dot r0 r1) (dot r0 r2)) (V (dot r0 r1) (dot r1 r1) (dot r1 r2)) (V (dot r0 r2) (dot r1 r2) (dot r2 r2))) by (unfold r0, r1, r2; clear; clearbody r; clear; mat_ring).
    first [rewrite Q in T1; injection T1 as Q1 Q2 Q3 Q4 Q5 Q6 Q7 Q8 Q9|rewrite Q in T2; injection T2 as Q1 Q2 Q3 Q4 Q5 Q6 Q7 Q8 Q9]; repeat split; assumption. }
  destruct OO as (U0 & U1 & U2 & O01 & O02 & O12).
  assert (X : exists e s0 s1 s2, e * e = 1 /\ (e = 1 \/ e = - 1) /\ 0 < s0 /\ 0 < s1 /\ 0 < s2 /\ scale = vmul3 e (V s0 s1 s2)).
  { destruct SC as [(X & Y & Z)|(X & Y & Z)]; [exists 1, (vx scale), (vy scale), (vz scale)|exists (- 1), (- vx scale), (- vy scale), (- vz scale)]; (split; [lra|]); (split; [lra|]); (split; [lra|]); (split; [lra|]); (split; [lra|]); apply vec_eq; cbn; lra. }
  destruct X as (e & s0 & s1 & s2 & EE & E1 & S0 & S1 & S2 & SE).
  assert (C0 : col0 l = vmul3 s0 (vmul3 e r0)) by (unfold l, r0; rewrite SE; clear; clearbody r; clear; mat_ring).
  assert (C1 : col1 l = vmul3 s1 (vadd3 (vmul3 (vx shear) (vmul3 e r0)) (vmul3 e r1))) by (unfold l, r0, r1; rewrite SE; clear; clearbody r; clear; mat_ring).
  assert (C2 : col2 l = vmul3 s2 (vadd3 (vadd3 (vmul3 (vy shear) (vmul3 e r0)) (vmul3 (vz shear) (vmul3 e r1))) (vmul3 e r2))) by (unfold l, r0, r1, r2; rewrite SE; clear; clearbody r; clear; mat_ring).
  assert (DL : det l <> 0).
  { rewrite <- det_mT. change (mT l) with (M (col0 l) (col1 l) (col2 l)). rewrite C0, C1, C2. replace (det _) with (e * e * (e * (s0 * s1 * s2)) * dot r0 (cross r1 r2)) by (clear; clearbody r0 r1 r2; clear; mat_ring). rewrite DR, EE.
    assert (0 < s0 * s1 * s2) by (repeat apply Rmult_lt_0_compat; auto). destruct E1; subst e; lra. }
  assert (PE : (if any_eps (vm (hv p) l) then do i <- inv (HM l translate v0 1); Some (hvm (HV (vm (hv p) l) 1) i) else Some (HV v0 1)) = Some p).
  { destruct (any_eps_spec (vm (hv p) l)) as (A1 & A2). destruct PP as [->|L].
    - rewrite A2; [reflexivity|]. replace (vm (hv (HV v0 1)) l) with v0 by (cbn [hv]; clear; clearbody l; clear; mat_ring). unfold large. cbn. rewrite Rabs_R0. unfold EPS. lra.
    - rewrite A1 by auto. rewrite I. cbn [obind]. f_equal. transitivity (hvm p identity_matrix); [|apply hvm_one]. rewrite <- IA, <- hvm_assoc. f_equal. unfold hvm. cbn [hl ht hp hw]. rewrite Rmult_1_r, W. f_equal. clear. generalize (vm (hv p) l) (h4 p). clear. intros u k. vec_ring. }
  assert (SE' : forall x, e * (e * x) = x) by (intros x; transitivity (e * e * x); [ring|rewrite EE; ring]). assert (VE : forall v, vmul3 e (vmul3 e v) = v) by (intros v; apply vec_eq; cbn; apply SE').
  unfold decompose_matrix. cbn [hw]. rewrite Rabs_R1. destruct (Rlt_dec 1 EPS) as [L|_]; [unfold EPS in L; lra|]. rewrite HD. cbn [obind hl ht hp hw]. destruct (Req_EM_T (det l) 0); [contradiction|]. rewrite PE. cbn [obind].
  refine (eq_trans (gram_parts e s0 s1 s2 (vx shear) (vy shear) (vz shear) r0 r1 r2 l EE S0 S1 S2 U0 U1 U2 O01 O02 O12 C0 C1 C2 _ (fun scale0 r0 scale1 r1 shear0 scale2 shear1 shear2 r2 =>
          let '(scale, r0, r1, r2) := if Rlt_dec (dot r0 (cross r1 r2)) 0 then (vneg (V scale0 scale1 scale2), vneg r0, vneg r1, vneg r2) else (V scale0 scale1 scale2, r0, r1, r2) in
          if Rle_dec (- (1)) (- vz r0) then if Rle_dec (- vz r0) 1 then
            let a1 := asin (- vz r0) in
            let '(a0, a2) := if Req_EM_T (cos a1) 0 then (atan2 (- vy r2) (vy r1), 0) else (atan2 (vz r1) (vz r2), atan2 (vy r0) (vx r0)) in
            Some (scale, V shear0 shear1 shear2, V a0 a1 a2, translate, p)
          else None else None)) _). cbv beta zeta.
  assert (FIN : (if Rle_dec (- (1)) (- vz r0) then if Rle_dec (- vz r0) 1 then
            let a1 := asin (- vz r0) in
            let '(a0, a2) := if Req_EM_T (cos a1) 0 then (atan2 (- vy r2) (vy r1), 0) else (atan2 (vz r1) (vz r2), atan2 (vy r0) (vx r0)) in
            Some (scale, V (vx shear) (vy shear) (vz shear), V a0 a1 a2, translate, p)
          else None else None) = Some (scale, shear, angles, translate, p)).
  { destruct (Rle_dec (- (1)) (- vz r0)); [|lra]. destruct (Rle_dec (- vz r0) 1); [|lra]. unfold angles_of in AB. cbv zeta in *. destruct (Req_EM_T (cos (asin (- vz r0))) 0); rewrite AB; f_equal; destruct shear, angles; reflexivity. }
  destruct E1 as [->| ->].
  - assert (V1 : forall v, vmul3 1 v = v) by (clear; intros v; vec_ring). rewrite !V1, DR. destruct (Rlt_dec 1 0); [lra|]. cbv zeta in FIN. rewrite SE, V1 in FIN. rewrite SE, V1. exact FIN.
  - assert (V1 : forall v, vneg (vmul3 (- 1) v) = v) by (clear; intros v; vec_ring). replace (dot (vmul3 (- 1) r0) (cross (vmul3 (- 1) r1) (vmul3 (- 1) r2))) with (- dot r0 (cross r1 r2)) by (clear; clearbody r0 r1 r2; clear; vec_ring). rewrite DR.
    destruct (Rlt_dec (- (1)) 0); [|lra]. rewrite !V1. cbv zeta in FIN. replace (vneg (V s0 s1 s2)) with scale by (rewrite SE; clear; vec_ring). exact FIN.
Qed.
(** a last row below the tolerance is lost *)
Theorem C75_decompose_refuted : exists inv m, (exists i, inv (HM (hl m) (ht m) v0 1) = Some i /\ hmm i (HM (hl m) (ht m) v0 1) = identity_matrix) /\ hw m = 1 /\ det (hl m) = 1 /\
  forall scale shear angles translate perspective, decompose_matrix inv m = Some (scale, shear, angles, translate, perspective) ->
    compose_matrix (Some scale) (Some shear) (Some angles) (Some translate) (Some perspective) <> Some m.
Proof.
  exists (fun _ => Some identity_matrix), (HM eye v0 (V EPS 0 0) 1). cbn [hl ht hp hw]. assert (EP : 0 < EPS) by (unfold EPS; lra).
  assert (I : hmm identity_matrix (HM eye v0 v0 1) = identity_matrix) by (unfold hmm, identity_matrix; cbn [hl ht hp hw]; f_equal; mat_ring).
  split; [eexists; split; [reflexivity|exact I]|]. split; [reflexivity|]. split; [apply det_eye|]. intros scale shear angles translate perspective E.
  destruct (C75_decompose (fun _ => Some identity_matrix) (HM eye v0 (V EPS 0 0) 1)) as (_ & X).
  { cbn [hl ht hp hw]. eexists. split; [reflexivity|]. rewrite Rinv_1. transitivity (hmm identity_matrix (HM eye v0 v0 1)); [|exact I]. f_equal. f_equal; mat_ring. }
  destruct X as (sc & sh & an & tr & pe & E' & _ & _ & _ & _ & SM); [cbn; rewrite Rabs_R1; unfold EPS; lra|cbn [hl]; rewrite det_eye; lra|]. rewrite E in E'. injection E' as <- <- <- <- <-. destruct SM as (_ & SM).
  { cbn [hp hw]. rewrite Rinv_1. unfold large. cbn. rewrite !Rmult_0_r, Rmult_1_l, Rabs_R0, (Rabs_pos_eq EPS) by lra. lra. }
  rewrite SM. intros F. apply some_inj in F. injection F. intros. cbn in *. lra.
Qed.
(** concrete cases *)
Ltac mat_lra := cbv [mm mv vm mT col0 col1 col2 det dot cross vadd3 vsub3 vmul3 vneg eye ex ey ez v0 madd mscale outer vx vy vz row0 row1 row2];
  repeat (apply mat_eq || apply vec_eq); cbn [vx vy vz row0 row1 row2]; lra.
Example C75_example_parts : let inv := fun _ => Some (HM (M (V (1/2) 0 (-1/2)) (V 0 0 (1/4)) (V 0 (-1/8) 0)) (V 1 (-3/4) (1/4)) v0 1) in
  let l := M (V 2 4 0) (V 0 0 (-8)) (V 0 4 0) in let m := HM l (V 1 2 3) (V 2 4 0) 1 in
  compose_matrix (Some (V 2 4 8)) (Some (V 1 0 0)) (Some (V (PI / 2) 0 0)) (Some (V 1 2 3)) (Some (HV (V 1 0 0) 0)) = Some m /\
  decompose_matrix inv m = Some (V 2 4 8, V 1 0 0, V (PI / 2) 0 0, V 1 2 3, HV (V 1 0 0) 0).
Proof.
  intros inv l m. pose proof PI_RGT_0 as PI0.
  assert (E : compose_matrix (Some (V 2 4 8)) (Some (V 1 0 0)) (Some (V (PI / 2) 0 0)) (Some (V 1 2 3)) (Some (HV (V 1 0 0) 0)) = Some m).
  { rewrite compose_parts. cbn [vx vy vz]. rewrite sxyz_matrix, cos_PI2, sin_PI2, cos_0, sin_0. unfold hdiv. replace (dot (hv (HV (V 1 0 0) 0)) (V 1 2 3) + h4 (HV (V 1 0 0) 0)) with 1 by (unfold dot; cbn; lra). destruct (Req_EM_T 1 0); [lra|]. cbn [hl ht hp hw hv]. rewrite Rinv_1. unfold m, l. f_equal. f_equal; [mat_ring|mat_ring|mat_ring|field]. }
  split; [exact E|]. apply C75_decompose_compose; cbn [vx vy vz]; try lra; [unfold dot; cbn; lra|exact E| |right; unfold large, EPS; cbn; left; rewrite Rabs_pos_eq; lra].
  eexists. split; [reflexivity|]. unfold m, l, hmm, identity_matrix. cbn [hl ht hp hw]. f_equal; mat_lra.
Qed.
Example C75_example_decompose : let inv := fun _ => Some (HM (M (V (1/2) 0 0) (V 0 (-1/4) 0) (V 0 0 (1/8))) (V (-1/2) (1/2) (-3/8)) v0 1) in
  let m := HM (M (V 6 0 0) (V 0 (-12) 0) (V 0 0 24)) (V 3 6 9) (V 3 0 0) 3 in
  exists scale shear angles translate perspective, decompose_matrix inv m = Some (scale, shear, angles, translate, perspective) /\ vx scale < 0 /\
    compose_matrix (Some scale) (Some shear) (Some angles) (Some translate) (Some perspective) = Some (HM (M (V 2 0 0) (V 0 (-4) 0) (V 0 0 8)) (V 1 2 3) (V 1 0 0) 1).
Proof.
  intros inv m. assert (L : mscale (/ 3) (M (V 6 0 0) (V 0 (-12) 0) (V 0 0 24)) = M (V 2 0 0) (V 0 (-4) 0) (V 0 0 8)) by (apply mat_eq; apply vec_eq; cbn; lra).
  assert (T : vmul3 (/ 3) (V 3 6 9) = V 1 2 3) by (apply vec_eq; cbn; lra). assert (P : vmul3 (/ 3) (V 3 0 0) = V 1 0 0) by (apply vec_eq; cbn; lra).
  destruct (C75_decompose inv m) as (_ & X); unfold m in *; cbn [hl ht hp hw] in *; rewrite ?L, ?T in *.
  { eexists. split; [reflexivity|]. unfold hmm, identity_matrix. cbn [hl ht hp hw]. f_equal; mat_lra. }
  destruct X as (scale & shear & angles & translate & persp & D & _ & SN & _ & CO & _); [rewrite Rabs_pos_eq; unfold EPS; lra|mat_lra|].
  exists scale, shear, angles, translate, persp. split; [exact D|]. split; [apply SN; mat_lra|]. rewrite P in CO. apply CO. left. unfold large, EPS. cbn. left. rewrite Rabs_pos_eq; lra.
Qed.
