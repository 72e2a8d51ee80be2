(** Property C75, continued: a composed matrix taken apart again. *)
From Coq Require Import Reals List Bool Lra Lia Psatz.
From Verif Require Import Base Vec RotModel RotProofs RotEuler PropsPlacement PropsSums AffineModel PropsAffine DecomposeModel PropsDecompose.
Import ListNotations.
Open Scope R_scope.

(** Gram and Schmidt on the columns *)
Lemma gram l : det l <> 0 -> exists s0 s1 s2 z0 z1 z2 r0 r1 r2, 0 < s0 /\ 0 < s1 /\ 0 < s2 /\
  dot r0 r0 = 1 /\ dot r1 r1 = 1 /\ dot r2 r2 = 1 /\ dot r0 r1 = 0 /\ dot r0 r2 = 0 /\ dot r1 r2 = 0 /\
  col0 l = vmul3 s0 r0 /\ col1 l = vmul3 s1 (vadd3 (vmul3 z0 r0) r1) /\ col2 l = vmul3 s2 (vadd3 (vadd3 (vmul3 z1 r0) (vmul3 z2 r1)) r2) /\
  det l = s0 * s1 * s2 * dot r0 (cross r1 r2) /\
  forall B (k : R -> vec -> R -> vec -> R -> R -> R -> R -> vec -> option B),
   (let '(r0, r1, r2) := (col0 l, col1 l, col2 l) in
    let scale0 := norm r0 in
    do r0 <- divide r0 scale0;
    let shear0 := dot r0 r1 in
    let r1 := vsub3 r1 (vmul3 shear0 r0) in
    let scale1 := norm r1 in
    do r1 <- divide r1 scale1;
    do shear0 <- fdiv shear0 scale1;
    let shear1 := dot r0 r2 in
    let r2 := vsub3 r2 (vmul3 shear1 r0) in
    let shear2 := dot r1 r2 in
    let r2 := vsub3 r2 (vmul3 shear2 r1) in
    let scale2 := norm r2 in
    do r2 <- divide r2 scale2;
    do shear1 <- fdiv shear1 scale2;
    do shear2 <- fdiv shear2 scale2;
    k scale0 r0 scale1 r1 shear0 scale2 shear1 shear2 r2) = k s0 r0 s1 r1 z0 s2 z1 z2 r2.
Proof.
  intros D. assert (DC : det l = dot (col0 l) (cross (col1 l) (col2 l))) by (rewrite <- det_mT; reflexivity). set (c0 := col0 l) in *. set (c1 := col1 l) in *. set (c2 := col2 l) in *. clearbody c0 c1 c2.
  assert (N0 : c0 <> v0) by (intros ->; apply D; rewrite DC; clear; vec_ring). destruct (unit_of c0 N0) as (S0 & P0 & U0 & E0). remember (norm c0) as s0 eqn:QS0. remember (vmul3 (/ s0) c0) as r0 eqn:QR0.
  remember (dot r0 c1) as h0 eqn:QH0. remember (vsub3 c1 (vmul3 h0 r0)) as d1 eqn:QD1. assert (E1 : c1 = vadd3 (vmul3 h0 r0) d1) by (rewrite QD1; clear; vec_ring). assert (O1 : dot r0 d1 = 0) by (rewrite QD1, sub_dot_r, dot_scale_r, U0, <- QH0; ring).
  assert (N1 : d1 <> v0) by (intros Z; apply D; rewrite DC, E0, E1, Z; clear; vec_ring). destruct (unit_of d1 N1) as (S1 & P1 & U1 & F1). remember (norm d1) as s1 eqn:QS1. remember (vmul3 (/ s1) d1) as r1 eqn:QR1.
  assert (O01 : dot r0 r1 = 0) by (rewrite QR1, dot_scale_r, O1; ring).
  remember (dot r0 c2) as h1 eqn:QH1. remember (vsub3 c2 (vmul3 h1 r0)) as d2 eqn:QD2. remember (dot r1 d2) as h2 eqn:QH2. remember (vsub3 d2 (vmul3 h2 r1)) as d3 eqn:QD3.
  assert (E2 : c2 = vadd3 (vadd3 (vmul3 h1 r0) (vmul3 h2 r1)) d3) by (rewrite QD3, QD2; clear; vec_ring).
  assert (O2 : dot r0 d3 = 0) by (rewrite QD3, QD2, !sub_dot_r, !dot_scale_r, U0, O01, <- QH1; ring). assert (O3 : dot r1 d3 = 0) by (rewrite QD3, sub_dot_r, dot_scale_r, U1, <- QH2; ring).
  assert (N2 : d3 <> v0) by (intros Z; apply D; rewrite DC, E0, E1, E2, Z, F1; clear; vec_ring). destruct (unit_of d3 N2) as (S2 & P2 & U2 & F2). remember (norm d3) as s2 eqn:QS2. remember (vmul3 (/ s2) d3) as r2 eqn:QR2.
  assert (O02 : dot r0 r2 = 0) by (rewrite QR2, dot_scale_r, O2; ring). assert (O12 : dot r1 r2 = 0) by (rewrite QR2, dot_scale_r, O3; ring).
  exists s0, s1, s2, (h0 / s1), (h1 / s2), (h2 / s2), r0, r1, r2. repeat (split; [assumption|]).
  assert (G1 : c1 = vmul3 s1 (vadd3 (vmul3 (h0 / s1) r0) r1)) by (rewrite E1, F1; clear - S1; apply vec_eq; cbn; field; auto).
  assert (G2 : c2 = vmul3 s2 (vadd3 (vadd3 (vmul3 (h1 / s2) r0) (vmul3 (h2 / s2) r1)) r2)) by (rewrite E2, F2; clear - S2; apply vec_eq; cbn; field; auto).
  split; [exact G1|]. split; [exact G2|]. split.
  { rewrite DC, E0, G1, G2. generalize (h0 / s1) (h1 / s2) (h2 / s2). clear. intros a b c. vec_ring. }
  intros B k. cbv zeta. rewrite (divide_some c0 s0), <- QR0 by auto. cbn [obind]. rewrite <- QH0, <- QD1, <- QS1, (divide_some d1 s1), <- QR1, fdiv_some by auto. cbn [obind].
  rewrite <- QH1, <- QD2, <- QH2, <- QD3, <- QS2, (divide_some d3 s2), <- QR2, !fdiv_some by auto. cbn [obind]. reflexivity.
Qed.
Lemma compose_parts scale shear angles translate p :
  let l := mm (mm (euler_matrix (vx angles) (vy angles) (vz angles) sxyz) (M (V 1 (vx shear) (vy shear)) (V 0 1 (vz shear)) (V 0 0 1))) (M (V (vx scale) 0 0) (V 0 (vy scale) 0) (V 0 0 (vz scale))) in
  let w := dot (hv p) translate + h4 p in
  compose_matrix (Some scale) (Some shear) (Some angles) (Some translate) (Some p) = hdiv (HM l translate (vm (hv p) l) w) w.
Proof.
  cbv zeta. unfold compose_matrix. set (r := euler_matrix _ _ _ _). set (z := M (V 1 (vx shear) _) _ _). set (s := M (V (vx scale) _ _) _ _).
  assert (HMM : hmm (hmm (hmm (hmm (hmm identity_matrix (perspective_part p)) (HM eye translate v0 1)) (HM r v0 v0 1)) (HM z v0 v0 1)) (HM s v0 v0 1) = HM (mm (mm r z) s) translate (vm (hv p) (mm (mm r z) s)) (dot (hv p) translate + h4 p)).
  { clearbody r z s. destruct p as [p w]. unfold hmm, perspective_part, identity_matrix. cbn [hl ht hp hw hv h4]. f_equal; try mat_ring. }
  rewrite HMM. reflexivity.
Qed.
Lemma hvm_assoc p a b : hvm (hvm p a) b = hvm p (hmm a b).
Proof. destruct p as [p q], a as [la ta pa wa], b as [lb tb pb wb]. unfold hvm, hmm. cbn [hl ht hp hw hv h4]. f_equal; mat_ring. Qed.
Lemma hvm_one p : hvm p identity_matrix = p.
Proof. destruct p as [p q]. unfold hvm, identity_matrix. cbn [hl ht hp hw hv h4]. f_equal; mat_ring. Qed.
(** some entry of the last row is larger than the tolerance *)
Definition large (p : vec) : Prop := EPS < Rabs (vx p) \/ EPS < Rabs (vy p) \/ EPS < Rabs (vz p).
Lemma any_eps_spec p : (large p -> any_eps p = true) /\ (~ large p -> any_eps p = false).
Proof. unfold large, any_eps. destruct (Rlt_dec EPS (Rabs (vx p))), (Rlt_dec EPS (Rabs (vy p))), (Rlt_dec EPS (Rabs (vz p))); cbn; split; auto; tauto. Qed.
(** the parts found compose to the given matrix, up to its last entry, provided the last row is zero or larger than the tolerance; smaller
    last rows are dropped.  Matrices whose last entry is too small and singular matrices are refused *)
Theorem C75_decompose inv m :
  let w := hw m in let a := HM (mscale (/ w) (hl m)) (vmul3 (/ w) (ht m)) v0 1 in
  (exists i, inv a = Some i /\ hmm i a = identity_matrix) ->
  (Rabs w < EPS \/ det (hl m) = 0 -> decompose_matrix inv m = None) /\
  (EPS <= Rabs w -> det (hl m) <> 0 ->
   exists scale shear angles translate perspective, decompose_matrix inv m = Some (scale, shear, angles, translate, perspective) /\
     (0 < det (hl a) -> 0 < vx scale /\ 0 < vy scale /\ 0 < vz scale) /\ (det (hl a) < 0 -> vx scale < 0 /\ vy scale < 0 /\ vz scale < 0) /\
     (- PI < vx angles <= PI /\ - (PI / 2) <= vy angles <= PI / 2 /\ - PI < vz angles <= PI) /\
     (large (vmul3 (/ w) (hp m)) \/ hp m = v0 ->
       compose_matrix (Some scale) (Some shear) (Some angles) (Some translate) (Some perspective) = Some (HM (hl a) (ht a) (vmul3 (/ w) (hp m)) 1)) /\
     (~ large (vmul3 (/ w) (hp m)) -> perspective = HV v0 1 /\ compose_matrix (Some scale) (Some shear) (Some angles) (Some translate) (Some perspective) = Some a)).
Proof.
  intros w a (i & I & IA). assert (DS : forall s k, det (mscale s k) = s * s * s * det k) by (intros s k; clear; mat_ring). split.
  - intros H. unfold decompose_matrix. destruct (Rlt_dec (Rabs (hw m)) EPS) as [S|S]; [reflexivity|]. destruct H as [H|H]; [contradiction|]. unfold hdiv. destruct (Req_EM_T (hw m) 0); [reflexivity|]. cbn [obind hl]. rewrite DS, H, Rmult_0_r.
    destruct (Req_EM_T 0 0); [reflexivity|lra].
  - intros W D. assert (EP : 0 < EPS) by (unfold EPS; lra). assert (W0 : w <> 0) by (intros Z; rewrite Z, Rabs_R0 in W; lra). assert (WI : / w <> 0) by (apply Rinv_neq_0_compat; auto).
    set (l := mscale (/ w) (hl m)) in *. set (t := vmul3 (/ w) (ht m)) in *. set (p := vmul3 (/ w) (hp m)) in *.
    assert (DL : det l <> 0). { unfold l. rewrite DS. repeat (apply Rmult_integral_contrapositive; split; auto). }
    set (persp := if any_eps p then hvm (HV p 1) i else HV v0 1).
    destruct (gram l DL) as (s0 & s1 & s2 & z0 & z1 & z2 & r0 & r1 & r2 & S0 & S1 & S2 & U0 & U1 & U2 & O01 & O02 & O12 & E0 & E1 & E2 & DD & K).
    assert (SP : 0 < s0 * s1 * s2) by (repeat apply Rmult_lt_0_compat; auto).
    assert (X : exists sc q0 q1 q2, decompose_matrix inv m = Some (sc, V z0 z1 z2, angles_of q0 q1 q2, t, persp) /\
      rotation (mT (M q0 q1 q2)) /\ (0 < det l -> 0 < vx sc /\ 0 < vy sc /\ 0 < vz sc) /\ (det l < 0 -> vx sc < 0 /\ vy sc < 0 /\ vz sc < 0) /\
      col0 l = vmul3 (vx sc) q0 /\ col1 l = vmul3 (vy sc) (vadd3 (vmul3 z0 q0) q1) /\ col2 l = vmul3 (vz sc) (vadd3 (vadd3 (vmul3 z1 q0) (vmul3 z2 q1)) q2)).
    { exists (if Rlt_dec (dot r0 (cross r1 r2)) 0 then vneg (V s0 s1 s2) else V s0 s1 s2), (if Rlt_dec (dot r0 (cross r1 r2)) 0 then vneg r0 else r0),
        (if Rlt_dec (dot r0 (cross r1 r2)) 0 then vneg r1 else r1), (if Rlt_dec (dot r0 (cross r1 r2)) 0 then vneg r2 else r2).
      assert (F : forall q0 q1 q2, rotation (mT (M q0 q1 q2)) -> - (1) <= - vz q0 <= 1).
      { intros q0 q1 q2 R. apply angles_matrix in R. destruct R as (_ & R). exact R. }
      assert (Y : decompose_matrix inv m = (let '(scale, q0, q1, q2) := if Rlt_dec (dot r0 (cross r1 r2)) 0 then (vneg (V s0 s1 s2), vneg r0, vneg r1, vneg r2) else (V s0 s1 s2, r0, r1, r2) in
        if Rle_dec (- (1)) (- vz q0) then if Rle_dec (- vz q0) 1 then Some (scale, V z0 z1 z2, angles_of q0 q1 q2, t, persp) else None else None)).
      { unfold decompose_matrix. destruct (Rlt_dec (Rabs (hw m)) EPS); [unfold w in W; lra|]. unfold hdiv. fold w. destruct (Req_EM_T w 0); [contradiction|]. cbn [obind hl ht hp hw]. fold l t p.
        destruct (Req_EM_T (det l) 0); [contradiction|]. replace (w / w) with 1 by (field; auto).
        assert (PE : (if any_eps p then do i <- inv (HM l t v0 1); Some (hvm (HV p 1) i) else Some (HV v0 1)) = Some persp) by (unfold persp; destruct (any_eps p); [|reflexivity]; change (HM l t v0 1) with a; rewrite I; reflexivity).
        rewrite PE. cbn [obind]. refine (eq_trans (K _ (fun scale0 r0 scale1 r1 shear0 scale2 shear1 shear2 r2 =>
          let '(scale, r0, r1, r2) := if Rlt_dec (dot r0 (cross r1 r2)) 0 then (vneg (V scale0 scale1 scale2), vneg r0, vneg r1, vneg r2) else (V scale0 scale1 scale2, r0, r1, r2) in
          if Rle_dec (- (1)) (- vz r0) then if Rle_dec (- vz r0) 1 then
            let a1 := asin (- vz r0) in
            let '(a0, a2) := if Req_EM_T (cos a1) 0 then (atan2 (- vy r2) (vy r1), 0) else (atan2 (vz r1) (vz r2), atan2 (vy r0) (vx r0)) in
            Some (scale, V shear0 shear1 shear2, V a0 a1 a2, t, persp)
          else None else None)) _). cbv beta zeta. destruct (Rlt_dec (dot r0 (cross r1 r2)) 0).
        + destruct (Rle_dec (- (1)) (- vz (vneg r0))); [|reflexivity]. destruct (Rle_dec (- vz (vneg r0)) 1); [|reflexivity]. unfold angles_of. destruct (Req_EM_T (cos (asin (- vz (vneg r0)))) 0); reflexivity.
        + destruct (Rle_dec (- (1)) (- vz r0)); [|reflexivity]. destruct (Rle_dec (- vz r0) 1); [|reflexivity]. unfold angles_of. destruct (Req_EM_T (cos (asin (- vz r0))) 0); reflexivity. }
      rewrite Y. destruct (Rlt_dec (dot r0 (cross r1 r2)) 0) as [N|N].
      + assert (T : dot (vneg r0) (cross (vneg r1) (vneg r2)) = - dot r0 (cross r1 r2)) by (clear; vec_ring).
        assert (DN : forall a b, dot (vneg a) (vneg b) = dot a b) by (clear; intros; vec_ring).
        destruct (cols_rotation (vneg r0) (vneg r1) (vneg r2)) as (R & _); rewrite ?DN; auto; [lra|]. destruct (F _ _ _ R) as (F1 & F2).
        destruct (Rle_dec (- (1)) (- vz (vneg r0))); [|contradiction]. destruct (Rle_dec (- vz (vneg r0)) 1); [|contradiction].
        split; [reflexivity|]. split; [exact R|]. split; [intros P; rewrite DD in P; nra|]. split; [intros _; cbn; lra|]. rewrite E0, E1, E2. clear. split; [|split]; vec_ring.
      + destruct (cols_rotation r0 r1 r2) as (R & _); auto; [lra|]. destruct (F _ _ _ R) as (F1 & F2). destruct (Rle_dec (- (1)) (- vz r0)); [|contradiction]. destruct (Rle_dec (- vz r0) 1); [|contradiction].
        split; [reflexivity|]. split; [exact R|]. split; [intros _; cbn; lra|]. split; [intros P; rewrite DD in P; nra|]. cbn [vx vy vz]. auto. }
    clear K. destruct X as (sc & q0 & q1 & q2 & E & R & SG & SG' & C0 & C1 & C2). exists sc, (V z0 z1 z2), (angles_of q0 q1 q2), t, persp. split; [exact E|]. split; [exact SG|]. split; [exact SG'|]. split.
    { unfold angles_of. pose proof PI_RGT_0. destruct (Req_EM_T _ _); cbn [vx vy vz]; (split; [apply atan2_range|split; [apply asin_bound|]]); [lra|apply atan2_range]. }
    assert (AM := proj1 (angles_matrix _ R)). cbv zeta in AM. change (col0 (mT (M q0 q1 q2))) with (V (vx q0) (vy q0) (vz q0)) in AM. change (col1 (mT (M q0 q1 q2))) with (V (vx q1) (vy q1) (vz q1)) in AM. change (col2 (mT (M q0 q1 q2))) with (V (vx q2) (vy q2) (vz q2)) in AM.
    assert (ET : forall v, V (vx v) (vy v) (vz v) = v) by (intros []; reflexivity). rewrite !ET in AM.
    pose proof (compose_parts sc (V z0 z1 z2) (angles_of q0 q1 q2) t persp) as CP. cbv zeta in CP. rewrite AM in CP.
    assert (LE : mm (mm (mT (M q0 q1 q2)) (M (V 1 (vx (V z0 z1 z2)) (vy (V z0 z1 z2))) (V 0 1 (vz (V z0 z1 z2))) (V 0 0 1))) (M (V (vx sc) 0 0) (V 0 (vy sc) 0) (V 0 0 (vz sc))) = l).
    { rewrite <- (mT_mT l). change (mT l) with (M (col0 l) (col1 l) (col2 l)). rewrite C0, C1, C2. clear. mat_ring. }
    rewrite LE in CP. rewrite CP. destruct (any_eps_spec p) as (A1 & A2).
    assert (HD : forall l t p, hdiv (HM l t p 1) 1 = Some (HM l t p 1)). { clear. intros l t p. unfold hdiv. destruct (Req_EM_T 1 0); [lra|]. cbn [hl ht hp hw]. rewrite Rinv_1. replace (1 / 1) with 1 by field. f_equal. f_equal; mat_ring. }
    assert (SMALL : any_eps p = false -> persp = HV v0 1 /\ hdiv (HM l t (vm (hv persp) l) (dot (hv persp) t + h4 persp)) (dot (hv persp) t + h4 persp) = Some a).
    { intros B. unfold persp. rewrite B. split; [reflexivity|]. cbn [hv h4]. replace (dot v0 t + 1) with 1 by (clear; generalize t; intros; vec_ring). replace (vm v0 l) with v0 by (clear; generalize l; intros; mat_ring). apply HD. }
    split; [|intros L; apply SMALL; auto]. intros [L|Z].
    + assert (B := A1 L). assert (HI : hvm persp a = HV p 1) by (unfold persp; rewrite B, hvm_assoc, IA; apply hvm_one).
      unfold a, hvm in HI. cbn [hl ht hp hw] in HI. injection HI as HX HY HZ HW.
      assert (W1 : dot (hv persp) t + h4 persp = 1) by lra. rewrite W1. replace (vm (hv persp) l) with p; [apply HD|]. assert (EV : vadd3 (vm (hv persp) l) (vmul3 (h4 persp) v0) = p) by (apply vec_eq; cbn [vadd3 vmul3 v0 vx vy vz] in *; assumption). rewrite <- EV. clear. generalize (vm (hv persp) l) (h4 persp). intros u k. clear. vec_ring.
    + assert (P0 : p = v0) by (unfold p; rewrite Z; clear; vec_ring). rewrite P0 in *. assert (B : any_eps v0 = false) by (apply A2; unfold large; cbn; rewrite Rabs_R0; lra). apply SMALL in B. destruct B as (B1 & B2). rewrite B2. reflexivity.
Qed.
