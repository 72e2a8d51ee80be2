(** Property C87: a prism.  Every ray through two inclined plane surfaces, in the principal section or skew to it, is
    deviated by at least the angle that follows from sin((A + D)/2) = n sin(A/2); only the ray that crosses the glass
    symmetrically is deviated by that angle. *)
From Coq Require Import Reals List Lra Lia Psatz.
From Verif Require Import Base Vec RotModel RotProofs RotEuler PlacementModel PlacementProofs ElementModel ElementProofs TraceProofs PropsElement PropsTrace PropsPlane PropsPlane2.
Import ListNotations.
Open Scope R_scope.

(** ** Auxiliary: scalars *)
Lemma sq_le a b : 0 <= b -> a * a <= b * b -> a <= b.
Proof. intros. apply Rnot_lt_le. intros L. nra. Qed.
Lemma core_sum r c1 c2 C w1 w2 : 1 <= r -> 0 <= w1 -> 0 <= w2 -> c1 * c1 <= 1 -> c2 * c2 <= 1 ->
  w1 * w1 = 1 - r * r + r * r * (c1 * c1) -> w2 * w2 = 1 - r * r + r * r * (c2 * c2) ->
  (C - c1 * c2) * (C - c1 * c2) <= (1 - c1 * c1) * (1 - c2 * c2) ->
  r * r * (c1 * c2) + w1 * w2 <= 1 + r * r * C /\
  (r * r * (c1 * c2) + w1 * w2 = 1 + r * r * C -> c1 = c2 -> C = 2 * (c1 * c1) - 1).
Proof.
  intros R1 W1 W2 L1 L2 S1 S2 G. set (p := sqrt (1 - c1 * c1)). set (q := sqrt (1 - c2 * c2)).
  assert (PP : p * p = 1 - c1 * c1) by (apply sqrt_sqrt; lra). assert (QQ : q * q = 1 - c2 * c2) by (apply sqrt_sqrt; lra).
  assert (P0 : 0 <= p) by apply sqrt_pos. assert (Q0 : 0 <= q) by apply sqrt_pos. clearbody p q.
  assert (CB : c1 * c2 - C <= p * q) by (apply sq_le; [nra|]; replace (p * q * (p * q)) with ((p * p) * (q * q)) by ring; rewrite PP, QQ; replace ((c1 * c2 - C) * (c1 * c2 - C)) with ((C - c1 * c2) * (C - c1 * c2)) by ring; exact G).
  set (a := r * p). set (b := r * q).
  assert (A0 : 0 <= a) by (unfold a; nra). assert (B0 : 0 <= b) by (unfold b; nra).
  assert (WA : w1 * w1 = 1 - a * a) by (replace (a * a) with (r * r * (p * p)) by (unfold a; ring); rewrite PP, S1; ring).
  assert (WB : w2 * w2 = 1 - b * b) by (replace (b * b) with (r * r * (q * q)) by (unfold b; ring); rewrite QQ, S2; ring).
  assert (A1 : a <= 1) by (apply sq_le; nra). assert (B1 : b <= 1) by (apply sq_le; nra).
  assert (AB : a * b <= 1) by nra.
  assert (WW : w1 * w2 <= 1 - a * b).
  { apply sq_le; [lra|]. replace (w1 * w2 * (w1 * w2)) with ((w1 * w1) * (w2 * w2)) by ring. rewrite WA, WB. assert (Q := Rle_0_sqr (a - b)). unfold Rsqr in Q. clear - Q. nra. }
  assert (AE : a * b = r * r * (p * q)) by (unfold a, b; ring). rewrite AE in WW.
  assert (RR : 1 <= r * r) by nra. split.
  - assert (r * r * (c1 * c2 - C) <= r * r * (p * q)) by (apply Rmult_le_compat_l; lra). lra.
  - intros E EC. assert (X : r * r * (p * q) <= r * r * (c1 * c2 - C)) by lra.
    assert (Y : p * q <= c1 * c2 - C) by (apply (Rmult_le_reg_l (r * r)); lra). subst c2.
    assert (p = q) by (apply Rsqr_inj; unfold Rsqr; auto; lra). subst q. nra.
Qed.
Lemma core_product k x1 x2 w1 w2 x w : 0 <= x1 -> 0 <= x2 -> 0 <= w1 -> 0 <= w2 -> 0 <= w -> 0 < k -> w <= x ->
  x1 * x1 - w1 * w1 = k -> x2 * x2 - w2 * w2 = k -> x * x - w * w = k -> x1 * x2 + w1 * w2 <= x * x + w * w ->
  0 <= (x - w) * (x - w) <= (x1 - w1) * (x2 - w2) /\ ((x1 - w1) * (x2 - w2) = (x - w) * (x - w) -> x1 * x2 + w1 * w2 = x * x + w * w).
Proof.
  intros X1 X2 W1 W2 W K WX K1 K2 KX L. set (c := x1 * x2 + w1 * w2) in *. set (s := x1 * w2 + x2 * w1). set (c' := x * x + w * w) in *. set (s' := 2 * (x * w)).
  assert (E : (c - s) * (c + s) = k * k) by (transitivity ((x1 * x1 - w1 * w1) * (x2 * x2 - w2 * w2)); [unfold c, s; ring|rewrite K1, K2; ring]).
  assert (E' : (c' - s') * (c' + s') = k * k) by (transitivity ((x * x - w * w) * (x * x - w * w)); [unfold c', s'; ring|rewrite KX; ring]).
  assert (S0 : 0 <= s) by (unfold s; nra). assert (S0' : 0 <= s') by (unfold s'; nra). assert (C0 : 0 <= c) by (unfold c; nra).
  assert (SS : s <= s') by (apply sq_le; [auto|]; nra).
  replace ((x1 - w1) * (x2 - w2)) with (c - s) by (unfold c, s; ring). replace ((x - w) * (x - w)) with (c' - s') by (unfold c', s'; ring).
  clearbody c s c' s'. assert (KK : 0 < k * k) by nra. assert (CS : 0 < c + s) by nra. assert (CD : 0 < c - s) by nra. assert (CS' : 0 < c' + s') by lra. assert (CD' : 0 < c' - s') by nra.
  split; [split; [lra|]|].
  - apply Rnot_lt_le. intros LT. nra.
  - intros EQ. nra.
Qed.
(** ** Auxiliary: vectors and angles *)
Lemma dot_bound a b : dot a b * dot a b <= dot a a * dot b b.
Proof.
  assert (E : dot a a * dot b b - dot a b * dot a b = dot (cross a b) (cross a b)) by vec_ring.
  assert (0 <= dot (cross a b) (cross a b)) by (unfold dot; nra). lra.
Qed.
Lemma unit_bound a b : dot a a = 1 -> dot b b = 1 -> -1 <= dot a b <= 1.
Proof. intros A B. pose proof (dot_bound a b) as X. rewrite A, B in X. split; nra. Qed.
Lemma gram u a b : dot u u = 1 -> dot a a = 1 -> dot b b = 1 ->
  (dot a b - dot u a * dot u b) * (dot a b - dot u a * dot u b) <= (1 - dot u a * dot u a) * (1 - dot u b * dot u b).
Proof.
  intros U A B.
  assert (X : forall s t, dot (vsub3 a (vmul3 s u)) (vsub3 b (vmul3 t u)) = dot a b - t * dot u a - s * dot u b + s * t * dot u u) by (intros; vec_ring).
  assert (Y : forall s, dot (vsub3 a (vmul3 s u)) (vsub3 a (vmul3 s u)) = dot a a - 2 * s * dot u a + s * s * dot u u) by (intros; vec_ring).
  assert (Z : forall s, dot (vsub3 b (vmul3 s u)) (vsub3 b (vmul3 s u)) = dot b b - 2 * s * dot u b + s * s * dot u u) by (intros; vec_ring).
  pose proof (dot_bound (vsub3 a (vmul3 (dot u a) u)) (vsub3 b (vmul3 (dot u b) u))) as Q. rewrite X, Y, Z, U, A, B in Q.
  replace (dot a b - dot u b * dot u a - dot u a * dot u b + dot u a * dot u b * 1) with (dot a b - dot u a * dot u b) in Q by ring.
  replace (1 - 2 * dot u a * dot u a + dot u a * dot u a * 1) with (1 - dot u a * dot u a) in Q by ring.
  replace (1 - 2 * dot u b * dot u b + dot u b * dot u b * 1) with (1 - dot u b * dot u b) in Q by ring. exact Q.
Qed.
Lemma half_angle C : -1 <= C <= 1 -> let A := acos C in 0 <= A <= PI /\ 0 <= sin (A / 2) /\ 0 <= cos (A / 2) /\
  sin (A / 2) * sin (A / 2) = (1 - C) / 2 /\ cos (A / 2) * cos (A / 2) = (1 + C) / 2.
Proof.
  intros B A. pose proof (acos_bound C) as AB. fold A in AB. pose proof PI_RGT_0. split; [exact AB|].
  split; [apply sin_ge_0; lra|]. split; [apply cos_ge_0; lra|].
  assert (E : cos A = C) by (apply cos_acos; exact B).
  pose proof (cos_2a_sin (A / 2)) as X. pose proof (cos_2a_cos (A / 2)) as Y. replace (2 * (A / 2)) with A in X, Y by field. rewrite E in X, Y. lra.
Qed.

Lemma prism_core N1 N2 U0 U1 U2 r w1 w2 : 1 <= r -> dot N1 N1 = 1 -> dot N2 N2 = 1 -> dot U1 U1 = 1 -> 0 <= dot U1 N1 -> 0 < dot U1 N2 -> 0 <= w1 -> 0 <= w2 ->
  w1 * w1 = 1 - r * r + r * r * (dot U1 N1 * dot U1 N1) -> w2 * w2 = 1 - r * r + r * r * (dot U1 N2 * dot U1 N2) ->
  U0 = vsub3 (vmul3 r U1) (vmul3 (r * dot U1 N1 - w1) N1) -> U2 = vsub3 (vmul3 r U1) (vmul3 (r * dot U1 N2 - w2) N2) ->
  let A := acos (dot N1 N2) in let D := acos (dot U0 U2) in let least := 2 * asin (r * sin (A / 2)) - A in
  r * sin (A / 2) <= 1 /\ 0 <= least <= D /\
  (D = least <-> A = 0 \/ r = 1 \/ vadd3 N1 N2 = vmul3 (dot U1 N1 + dot U1 N2) U1).
Proof.
  intros R1 E1 E2 EU P1 P2 W1 W2 S1 S2 F0 F2 A D least.
  set (C := dot N1 N2) in *. set (c1 := dot U1 N1) in *. set (c2 := dot U1 N2) in *.
  assert (CC := unit_bound N1 N2 E1 E2). fold C in CC.
  assert (G := gram U1 N1 N2 EU E1 E2). fold C c1 c2 in G.
  assert (L1 : c1 * c1 <= 1) by (pose proof (dot_bound U1 N1) as X; rewrite EU, E1 in X; fold c1 in X; lra).
  assert (L2 : c2 * c2 <= 1) by (pose proof (dot_bound U1 N2) as X; rewrite EU, E2 in X; fold c2 in X; lra).
  destruct (core_sum r c1 c2 C w1 w2 R1 W1 W2 L1 L2 S1 S2 G) as (SUM & SUMEQ).
  set (g1 := r * c1 - w1) in *. set (g2 := r * c2 - w2) in *.
  assert (U00 : dot U0 U0 = 1).
  { transitivity (r * r * dot U1 U1 - 2 * r * g1 * dot U1 N1 + g1 * g1 * dot N1 N1); [rewrite F0; clear; clearbody g1; vec_ring|]. rewrite EU, E1. fold c1. unfold g1. replace (r * r * 1 - 2 * r * (r * c1 - w1) * c1 + (r * c1 - w1) * (r * c1 - w1) * 1) with (r * r - r * r * (c1 * c1) + w1 * w1) by ring. rewrite S1. ring. }
  assert (U22 : dot U2 U2 = 1).
  { transitivity (r * r * dot U1 U1 - 2 * r * g2 * dot U1 N2 + g2 * g2 * dot N2 N2); [rewrite F2; clear; clearbody g2; vec_ring|]. rewrite EU, E2. fold c2. unfold g2. replace (r * r * 1 - 2 * r * (r * c2 - w2) * c2 + (r * c2 - w2) * (r * c2 - w2) * 1) with (r * r - r * r * (c2 * c2) + w2 * w2) by ring. rewrite S2. ring. }
  assert (DEV : 2 - 2 * dot U0 U2 = (g1 - g2) * (g1 - g2) + 2 * (g1 * g2) * (1 - C)).
  { transitivity (dot U0 U0 + dot U2 U2 - 2 * dot U0 U2); [lra|]. transitivity (dot (vsub3 U2 U0) (vsub3 U2 U0)); [clear; vec_ring|].
    transitivity (g1 * g1 * dot N1 N1 + g2 * g2 * dot N2 N2 - 2 * (g1 * g2) * dot N1 N2); [rewrite F0, F2; clear; clearbody g1 g2; vec_ring|]. rewrite E1, E2. fold C. ring. }
  destruct (half_angle C CC) as (AB & SG & KA & SS & KK). fold A in AB, SG, KA, SS, KK.
  destruct (half_angle (dot U0 U2) (unit_bound U0 U2 U00 U22)) as (DB & SD & _ & SDD & _). fold D in DB, SD, SDD.
  set (sg := sin (A / 2)) in *. set (ka := cos (A / 2)) in *. set (sd := sin (D / 2)) in *.
  assert (RR : 1 <= r * r) by nra.
  assert (XI1 : (r * c1) * (r * c1) - w1 * w1 = r * r - 1) by (rewrite S1; ring). assert (XI2 : (r * c2) * (r * c2) - w2 * w2 = r * r - 1) by (rewrite S2; ring).
  assert (RS2 : r * r * (sg * sg) <= 1).
  { rewrite SS. assert (0 <= w1 * w2) by nra. assert (XX : r * r - 1 <= r * r * (c1 * c2)).
    { apply sq_le; [nra|]. replace (r * r * (c1 * c2) * (r * r * (c1 * c2))) with ((r * c1) * (r * c1) * ((r * c2) * (r * c2))) by ring.
      assert (r * r - 1 <= r * c1 * (r * c1)) by nra. assert (r * r - 1 <= r * c2 * (r * c2)) by nra. apply Rmult_le_compat; lra. }
    lra. }
  assert (RS : r * sg <= 1) by (apply sq_le; nra).
  set (be := asin (r * sg)). assert (SB : sin be = r * sg) by (apply sin_asin; nra). pose proof (asin_bound (r * sg)) as BB. fold be in BB.
  pose proof PI_RGT_0 as PI0.
  set (w := cos be). assert (W0 : 0 <= w) by (apply cos_ge_0; lra).
  assert (WW : w * w = 1 - r * r * (sg * sg)) by (pose proof (sin2_cos2 be) as X; unfold Rsqr in X; rewrite SB in X; unfold w; nra).
  set (x := r * ka). assert (X0 : 0 <= x) by (unfold x; nra).
  assert (XW : x * x - w * w = r * r - 1) by (unfold x; rewrite WW; replace (r * ka * (r * ka)) with (r * r * (ka * ka)) by ring; rewrite KK, SS; field).
  assert (WX : w <= x) by (apply sq_le; nra).
  assert (XS : x * x + w * w = 1 + r * r * C) by (unfold x; rewrite WW; replace (r * ka * (r * ka)) with (r * r * (ka * ka)) by ring; rewrite KK, SS; field).
  assert (LS : sin (be - A / 2) = sg * (x - w)) by (rewrite sin_minus, SB; fold sg ka w; unfold x; ring).
  assert (SUM' : (r * c1) * (r * c2) + w1 * w2 <= x * x + w * w) by (rewrite XS; replace (r * c1 * (r * c2)) with (r * r * (c1 * c2)) by ring; exact SUM).
  assert (AH : A / 2 <= be).
  { apply sin_incr_0; try lra. rewrite SB. fold sg. nra. }
  assert (PROD : 0 <= (x - w) * (x - w) <= g1 * g2 /\ (1 < r -> g1 * g2 = (x - w) * (x - w) -> r * c1 * (r * c2) + w1 * w2 = x * x + w * w)).
  { destruct (Req_dec r 1) as [Q|Q].
    - split; [|intros; lra]. subst r. assert (x = w) by (apply Rsqr_inj; unfold Rsqr; auto; lra). assert (1 * c1 = w1) by (apply Rsqr_inj; unfold Rsqr; auto; lra).
      unfold g1. rewrite H, H0. split; [nra|]. nra.
    - destruct (core_product (r * r - 1) (r * c1) (r * c2) w1 w2 x w) as (Y & Z); auto; try nra. }
  destruct PROD as ((Q0 & Q1) & QE).
  assert (SD4 : 4 * (sd * sd) = (g1 - g2) * (g1 - g2) + 4 * (sg * sg) * (g1 * g2)) by (rewrite SDD, SS; lra).
  assert (GG : 0 <= (g1 - g2) * (g1 - g2)) by (apply Rle_0_sqr).
  assert (SL0 : 0 <= sg * (x - w)) by nra.
  assert (SL : sg * (x - w) <= sd).
  { apply sq_le; [auto|]. assert (sg * sg * ((x - w) * (x - w)) <= sg * sg * (g1 * g2)) by (apply Rmult_le_compat_l; nra). nra. }
  assert (HD : be - A / 2 <= D / 2) by (apply sin_incr_0; try lra; rewrite LS; exact SL).
  unfold least. fold sg. fold be. split; [exact RS|]. split; [lra|]. split.
  - intros EQ. assert (ED : D / 2 = be - A / 2) by lra. assert (ES : sd = sg * (x - w)) by (unfold sd; rewrite ED; exact LS).
    destruct (Req_dec A 0) as [AZ|AZ]; [left; exact AZ|right]. destruct (Req_dec r 1) as [RZ|RZ]; [left; exact RZ|right].
    assert (SP : 0 < sg) by (unfold sg; apply sin_gt_0; lra). assert (SP2 : 0 < sg * sg) by nra.
    assert (T : (g1 - g2) * (g1 - g2) + 4 * (sg * sg) * (g1 * g2 - (x - w) * (x - w)) = 0) by (rewrite ES in SD4; nra).
    assert (T1 : 0 <= 4 * (sg * sg) * (g1 * g2 - (x - w) * (x - w))) by nra.
    assert (T2 : g1 - g2 = 0) by nra. assert (T3 : g1 * g2 = (x - w) * (x - w)) by nra.
    assert (RG : 1 < r) by lra. specialize (QE RG T3). rewrite XS in QE.
    assert (CE : c1 = c2).
    { assert (RP : 0 < r * r - 1) by nra.
      assert (M1 : g1 * (r * c1 + w1) = r * r - 1) by (unfold g1; lra). assert (M2 : g2 * (r * c2 + w2) = r * r - 1) by (unfold g2; lra).
      assert (g1 = g2) by lra. assert (g1 <> 0) by nra. assert (r * c1 + w1 = r * c2 + w2) by (apply (Rmult_eq_reg_l g1); [rewrite M1, H, M2; ring|auto]).
      assert (r * c1 - w1 = r * c2 - w2) by (unfold g1, g2 in H; exact H). nra. }
    assert (CV : C = 2 * (c1 * c1) - 1) by (apply SUMEQ; [replace (r * r * (c1 * c2)) with (r * c1 * (r * c2)) by ring; exact QE|exact CE]).
    set (V := vsub3 (vadd3 N1 N2) (vmul3 (c1 + c2) U1)).
    assert (VV : dot V V = 0).
    { transitivity (dot N1 N1 + dot N2 N2 + 2 * dot N1 N2 - 2 * (c1 + c2) * (dot U1 N1 + dot U1 N2) + (c1 + c2) * (c1 + c2) * dot U1 U1); [unfold V; clear; clearbody c1 c2; vec_ring|].
      rewrite E1, E2, EU. fold C c1 c2. rewrite CV, <- CE. ring. }
    assert (VZ : V = v0) by (clearbody V; destruct V as [a b d]; unfold dot in VV; cbn in VV; unfold v0; f_equal; nra).
    transitivity (vadd3 V (vmul3 (c1 + c2) U1)); [unfold V; clear; clearbody c1 c2; vec_ring|]. rewrite VZ. clear. clearbody c1 c2. vec_ring.
  - intros H. assert (ES : sd = sg * (x - w)).
    { apply Rsqr_inj; auto. unfold Rsqr. destruct H as [AZ|[RZ|BI]].
      - assert (SZ : sg = 0) by (unfold sg; rewrite AZ; replace (0 / 2) with 0 by field; apply sin_0).
        assert (C1 : C = 1) by (rewrite SZ in SS; lra). rewrite C1 in G. assert (c1 = c2) by nra. assert (w1 = w2) by (apply Rsqr_inj; unfold Rsqr; auto; rewrite S1, S2, H; reflexivity).
        assert (g1 = g2) by (unfold g1, g2; rewrite H, H0; reflexivity). rewrite SZ, H1 in SD4. rewrite SZ. lra.
      - subst r. assert (x = w) by (apply Rsqr_inj; unfold Rsqr; auto; lra). assert (1 * c1 = w1) by (apply Rsqr_inj; unfold Rsqr; auto; lra). assert (1 * c2 = w2) by (apply Rsqr_inj; unfold Rsqr; auto; lra).
        assert (GA : g1 = 0) by (unfold g1; lra). assert (GB : g2 = 0) by (unfold g2; lra). rewrite GA, GB in SD4. rewrite H. lra.
      - assert (B1 : 1 + C = (c1 + c2) * c1).
        { transitivity (dot (vadd3 N1 N2) N1); [transitivity (dot N1 N1 + dot N1 N2); [rewrite E1; reflexivity|clear; vec_ring]|]. rewrite BI. clear. unfold c1. generalize (dot U1 N1 + c2). intros k. vec_ring. }
        assert (B2 : 1 + C = (c1 + c2) * c2).
        { transitivity (dot (vadd3 N1 N2) N2); [transitivity (dot N2 N2 + dot N1 N2); [rewrite E2; reflexivity|clear; vec_ring]|]. rewrite BI. clear. unfold c2. generalize (c1 + dot U1 N2). intros k. vec_ring. }
        assert (CE : c1 = c2) by (apply (Rmult_eq_reg_l (c1 + c2)); [lra|]; lra). assert (w1 = w2) by (apply Rsqr_inj; unfold Rsqr; auto; rewrite S1, S2, CE; reflexivity).
        assert (GE : g1 = g2) by (unfold g1, g2; rewrite CE, H; reflexivity).
        assert (KC : ka = c1) by (apply Rsqr_inj; unfold Rsqr; auto; rewrite KK, B1, <- CE; field).
        assert (WE : w = w1) by (apply Rsqr_inj; unfold Rsqr; auto; rewrite S1, <- KC, WW, KK, SS; field).
        assert (GX : g1 = x - w) by (unfold g1, x; rewrite KC, WE; reflexivity). rewrite <- GE, GX in SD4. rewrite <- GX. rewrite <- GX in SD4. lra. }
    assert (D / 2 = be - A / 2); [|lra]. apply sin_inj; try lra. rewrite LS. fold sd. exact ES.
Qed.

(** * C87 *)
Section Prism.
Variable newton : (R -> option R) -> (R -> option R) -> option R -> option R.
Notation trace := (geo_trace newton).

(** [A]: angle between the surface normals, [D]: angle between the directions of the ray before and behind the prism,
    [r]: relative index.  The ray is in the glass between surfaces 1 and 2 and leaves into the medium it came from. *)
Theorem C87_minimum_deviation e0 e1 e2 y u n l c s1 s2 v1 v2 U0 U1 U2 N1 N2 : physical l [e0; e1; e2] -> 0 < n -> dot u u = 1 ->
  layer N1 e1 -> layer N2 e2 ->
  nth_error (trace [e0; e1; e2] y u n l c) 1 = Some s1 -> nth_error (trace [e0; e1; e2] y u n l c) 2 = Some s2 ->
  st_u s1 = Some v1 -> st_u s2 = Some v2 -> st_n s2 = n -> n <= st_n s1 ->
  from_normal (e_place e0) u = Some U0 -> from_normal (e_place e1) v1 = Some U1 -> from_normal (e_place e2) v2 = Some U2 ->
  0 < dot U0 N1 -> 0 < dot U1 N2 ->
  let A := acos (dot N1 N2) in let D := acos (dot U0 U2) in let r := st_n s1 / n in let least := 2 * asin (r * sin (A / 2)) - A in
  r * sin (A / 2) <= 1 /\ 0 <= least <= D /\
  (D = least <-> A = 0 \/ r = 1 \/ vadd3 N1 N2 = vmul3 (dot U1 N1 + dot U1 N2) U1).
Proof.
  intros G NP UU L1 L2 H1 H2 V1 V2 SN NL FU F1 F2 D1 D2.
  assert (G0 : good_element l e0) by (inversion G; auto). assert (GS : Forall (good_element l) [e1; e2]) by (inversion G; auto).
  assert (G1 : good_element l e1) by (inversion GS; auto). assert (G2 : good_element l e2) by (inversion GS; subst; inversion H4; auto).
  assert (E1 : dot N1 N1 = 1) by (destruct L1 as (<- & _); eapply normal_unit; eauto). assert (E2 : dot N2 N2 = 1) by (destruct L2 as (<- & _); eapply normal_unit; eauto).
  destruct (normal_maps _ (proj1 G0)) as (r0 & RR0 & M0 & _).
  assert (UU0 : dot U0 U0 = 1) by (rewrite M0 in FU; injection FU as <-; rewrite rotation_dot; auto).
  assert (K1 : nth_error (trace [e0; e1; e2] y u n l false) 1 = Some s1) by (destruct c; [apply (C15_clip_conservative newton); congruence|exact H1]).
  assert (K2 : nth_error (trace [e0; e1; e2] y u n l false) 2 = Some s2) by (destruct c; [apply (C15_clip_conservative newton); congruence|exact H2]).
  clear H1 H2 c. destruct (normal_maps _ (proj1 G1)) as (r1 & RR1 & M1 & _).
  assert (UU1 : dot U1 U1 = 1).
  { destruct (C16_unit_directions newton [e0; e1; e2] y u n l false 1 e1 s1 G NP UU eq_refl K1) as (X & _). rewrite M1 in F1. injection F1 as <-. rewrite rotation_dot; auto. }
  cbn [geo_trace nth_error] in K1, K2. rewrite FU, (M0 y) in K1, K2. set (P0 := vm y r0) in *. cbn [sys_propagate] in K1, K2.
  destruct (propagate newton e1 _ _ n l false) as [[[y1 u1] n1] t1] eqn:P1. cbn [nth_error] in K1, K2.
  injection K1 as <-. cbn [st_u st_n] in *. subst u1.
  destruct (layer_step newton _ _ _ _ _ _ _ _ _ _ G1 L1 NP UU0 (Rlt_le _ _ D1) P1) as (NP1 & _ & GO). destruct (GO D1) as (p1 & k1 & -> & _ & FP1 & TIR & REF). clear GO.
  destruct (Rle_dec (n * n * dot (along N1 U0) (along N1 U0)) (n1 * n1)) as [LE|GT]; [|assert (X : Some v1 = None) by (apply TIR; lra); discriminate].
  destruct (REF LE) as (v & EV & FV). injection EV as <-. rewrite F1 in FV. injection FV as FV. clear TIR REF.
  cbn [onormal obind] in K2. rewrite F1, FP1 in K2. set (Q1 := vadd3 (vsub3 P0 (p_offset (e_place e1))) (vmul3 k1 U0)) in *.
  destruct (propagate newton e2 _ _ n1 l false) as [[[y2 u2] n2] t2] eqn:P2. injection K2 as <-. cbn [st_u st_n] in *. subst n2 u2.
  destruct (layer_step newton _ _ _ _ _ _ _ _ _ _ G2 L2 NP1 UU1 (Rlt_le _ _ D2) P2) as (_ & _ & GO). destruct (GO D2) as (p2 & k2 & -> & _ & _ & TIR & REF). clear GO.
  destruct (Rle_dec (n1 * n1 * dot (along N2 U1) (along N2 U1)) (n * n)) as [LE2|GT]; [|assert (X : Some v2 = None) by (apply TIR; lra); discriminate].
  destruct (REF LE2) as (v & EV & FV2). injection EV as <-. rewrite F2 in FV2. injection FV2 as FV2. clear TIR REF.
  rewrite (split_dir N1 U0 E1 UU0) in *. rewrite (split_dir N2 U1 E2 UU1) in *.
  set (r := n1 / n). assert (RI : n / n1 = / r) by (unfold r; field; lra). assert (R0 : 0 < r) by (apply Rdiv_lt_0_compat; auto).
  assert (R1 : 1 <= r). { unfold r. apply (Rmult_le_reg_r n); [auto|]. replace (n1 / n * n) with n1 by (field; lra). lra. }
  rewrite RI in FV. fold r in FV2.
  set (q := 1 - / r * / r * (1 - dot U0 N1 * dot U0 N1)) in *.
  assert (Q0 : 0 <= q).
  { unfold q. assert (/ r * / r <= 1). { rewrite <- Rinv_mult. rewrite <- Rinv_1. apply Rinv_le_contravar; nra. } assert (0 <= / r * / r) by (apply Rle_0_sqr).
    pose proof (unit_bound U0 N1 UU0 E1). assert (0 <= 1 - dot U0 N1 * dot U0 N1 <= 1) by nra. nra. }
  assert (C1 : dot U1 N1 = sqrt q).
  { rewrite FV. transitivity (/ r * dot (along N1 U0) N1 + sqrt q * dot N1 N1); [generalize (along N1 U0) (sqrt q); clear; intros; vec_ring|]. rewrite along_normal, E1 by auto. ring. }
  apply (prism_core N1 N2 U0 U1 U2 r (dot U0 N1) (sqrt (1 - r * r * (1 - dot U1 N2 * dot U1 N2)))); auto; try lra.
  - rewrite C1. apply sqrt_pos.
  - apply sqrt_pos.
  - rewrite C1, sqrt_sqrt by auto. unfold q. field. lra.
  - rewrite sqrt_sqrt; [ring|]. unfold r. replace (1 - n1 / n * (n1 / n) * (1 - dot U1 N2 * dot U1 N2)) with ((n * n - n1 * n1 * (1 - dot U1 N2 * dot U1 N2)) / (n * n)) by (field; lra).
    apply Rmult_le_pos; [lra|]. apply Rlt_le, Rinv_0_lt_compat. nra.
  - rewrite C1. rewrite FV. generalize (sqrt q). unfold along. generalize (dot U0 N1). clear - R0. intros a z. destruct U0 as [x1 x2 x3], N1 as [z1 z2 z3]. apply vec_eq; cbn; field; lra.
  - rewrite FV2 at 1. unfold along. generalize (sqrt (1 - r * r * (1 - dot U1 N2 * dot U1 N2))) (dot U1 N2). clear. intros. clearbody r. vec_ring.
Qed.

(** the index from the measured least deviation *)
Theorem C87_index e0 e1 e2 y u n l c s1 s2 v1 v2 U0 U1 U2 N1 N2 : physical l [e0; e1; e2] -> 0 < n -> dot u u = 1 ->
  layer N1 e1 -> layer N2 e2 ->
  nth_error (trace [e0; e1; e2] y u n l c) 1 = Some s1 -> nth_error (trace [e0; e1; e2] y u n l c) 2 = Some s2 ->
  st_u s1 = Some v1 -> st_u s2 = Some v2 -> st_n s2 = n -> n <= st_n s1 ->
  from_normal (e_place e0) u = Some U0 -> from_normal (e_place e1) v1 = Some U1 -> from_normal (e_place e2) v2 = Some U2 ->
  0 < dot U0 N1 -> 0 < dot U1 N2 -> N1 <> N2 -> vadd3 N1 N2 = vmul3 (dot U1 N1 + dot U1 N2) U1 ->
  let A := acos (dot N1 N2) in let D := acos (dot U0 U2) in
  st_n s1 = n * (sin ((A + D) / 2) / sin (A / 2)).
Proof.
  intros G NP UU L1 L2 H1 H2 V1 V2 SN NL FU F1 F2 D1 D2 NE SY A D.
  destruct (C87_minimum_deviation e0 e1 e2 y u n l c s1 s2 v1 v2 U0 U1 U2 N1 N2 G NP UU L1 L2 H1 H2 V1 V2 SN NL FU F1 F2 D1 D2) as (R1 & _ & (_ & E)).
  specialize (E (or_intror (or_intror SY))). fold A in R1, E. fold D in E.
  assert (G1 : good_element l e1) by (exact (Forall_inv (Forall_inv_tail G))). assert (G2 : good_element l e2) by (exact (Forall_inv (Forall_inv_tail (Forall_inv_tail G)))).
  assert (E1 : dot N1 N1 = 1) by (destruct L1 as (<- & _); eapply normal_unit; eauto). assert (E2 : dot N2 N2 = 1) by (destruct L2 as (<- & _); eapply normal_unit; eauto).
  destruct (half_angle _ (unit_bound N1 N2 E1 E2)) as (AB & S0 & _ & SS & _). fold A in AB, S0, SS.
  assert (SZ : sin (A / 2) <> 0).
  { intros Z. apply NE. rewrite Z in SS. assert (CE : dot N1 N2 = 1) by lra.
    assert (VV : dot (vsub3 N1 N2) (vsub3 N1 N2) = 0) by (transitivity (dot N1 N1 + dot N2 N2 - 2 * dot N1 N2); [clear; vec_ring|lra]).
    clear - VV. destruct N1 as [a b d], N2 as [a' b' d']. unfold dot in VV. cbn in VV.
    pose proof (Rle_0_sqr (a - a')) as X. pose proof (Rle_0_sqr (b - b')) as Y. pose proof (Rle_0_sqr (d - d')) as Z. unfold Rsqr in X, Y, Z.
    f_equal; apply Rminus_diag_uniq; apply Rsqr_0_uniq; unfold Rsqr; lra. }
  rewrite E. replace ((A + (2 * asin (st_n s1 / n * sin (A / 2)) - A)) / 2) with (asin (st_n s1 / n * sin (A / 2))) by field.
  assert (RP : 0 <= st_n s1 / n) by (apply Rmult_le_pos; [lra|]; apply Rlt_le, Rinv_0_lt_compat; auto).
  rewrite sin_asin by (split; [nra|exact R1]). field. split; first [exact SZ|lra].
Qed.
End Prism.

(** a prism of index 4/3 whose faces are inclined by 2 asin(3/5), traversed symmetrically *)
Example C87_example newton : exists e0 e1 e2 s1 s2 v1 v2 U0 U1 U2 N1 N2, physical 1 [e0; e1; e2] /\ dot U0 U0 = 1 /\ layer N1 e1 /\ layer N2 e2 /\
  nth_error (geo_trace newton [e0; e1; e2] v0 U0 1 1 false) 1 = Some s1 /\ nth_error (geo_trace newton [e0; e1; e2] v0 U0 1 1 false) 2 = Some s2 /\
  st_u s1 = Some v1 /\ st_u s2 = Some v2 /\ st_n s2 = 1 /\ st_n s1 = 4/3 /\
  from_normal (e_place e0) U0 = Some U0 /\ from_normal (e_place e1) v1 = Some U1 /\ from_normal (e_place e2) v2 = Some U2 /\
  0 < dot U0 N1 /\ 0 < dot U1 N2 /\ N1 <> N2 /\ U0 = V 0 (-7/25) (24/25) /\ U1 = ez /\ U2 = V 0 (7/25) (24/25) /\
  vadd3 N1 N2 = vmul3 (dot U1 N1 + dot U1 N2) U1.
Proof.
  set (N1 := V 0 (3/5) (4/5)). set (N2 := V 0 (-3/5) (4/5)).
  assert (E1 : dot N1 N1 = 1) by (unfold dot, N1; cbn; field). assert (E2 : dot N2 N2 = 1) by (unfold dot, N2; cbn; field).
  assert (NS1 : (/ 100000000 < Rabs (vx N1) \/ / 100000000 < Rabs (vy N1)) \/ N1 = ez) by (left; right; unfold N1; cbn; rewrite Rabs_pos_eq; lra).
  assert (NS2 : (/ 100000000 < Rabs (vx N2) \/ / 100000000 < Rabs (vy N2)) \/ N2 = ez) by (left; right; unfold N2; cbn; rewrite Rabs_left; lra).
  destruct launch_frame as (p0 & _ & G0 & O0 & F0).
  destruct (placed 5 N1 ltac:(lra) E1 NS1) as (p1 & _ & G1 & O1 & F1). destruct (placed 2 N2 ltac:(lra) E2 NS2) as (p2 & _ & G2 & O2 & F2).
  set (e0 := El p0 None Plain). set (e1 := El p1 None (Sph (Some (glassy (4/3))) level)). set (e2 := El p2 None (Sph (Some (glassy 1)) level)).
  assert (G : physical 1 [e0; e1; e2]) by (unfold physical; repeat apply Forall_cons; [..|apply Forall_nil]; split; cbn; auto; intros; lra).
  assert (L1 : layer N1 e1) by (split; [unfold normal_of; cbn [e_place e1]; rewrite F1; reflexivity|repeat split]).
  assert (L2 : layer N2 e2) by (split; [unfold normal_of; cbn [e_place e2]; rewrite F2; reflexivity|repeat split]).
  set (U0 := V 0 (-7/25) (24/25)). assert (UU : dot U0 U0 = 1) by (unfold dot, U0; cbn; field).
  assert (D1 : dot U0 N1 = 3/5) by (unfold dot, U0, N1; cbn; field). assert (D2 : dot ez N2 = 4/5) by (unfold dot, ez, N2; cbn; field).
  assert (UZ : dot ez ez = 1) by (unfold dot, ez; cbn; ring).
  assert (G1' : good_element 1 e1) by (exact (Forall_inv (Forall_inv_tail G))). assert (G2' : good_element 1 e2) by (exact (Forall_inv (Forall_inv_tail (Forall_inv_tail G)))).
  destruct (propagate newton e1 (do y <- Some v0; to_normal (e_place e1) (vsub3 y (p_offset (e_place e1)))) (onormal (to_normal (e_place e1)) (Some U0)) 1 1 false) as [[[y1 u1] n1] t1] eqn:P1.
  destruct (layer_step newton e1 N1 v0 U0 1 1 _ _ _ _ G1' L1 Rlt_0_1 UU ltac:(lra) P1) as (NP1 & _ & GO). destruct (GO ltac:(lra)) as (q1 & k1 & -> & _ & FP1 & _ & REF). clear GO.
  assert (I1 : n1 = 4/3) by (unfold propagate in P1; cbn [e1 e_kind get_n_mu glassy m_mirror m_index] in P1; congruence). subst n1.
  rewrite (split_dir N1 U0 E1 UU), D1 in REF. destruct (REF ltac:(lra)) as (v1 & -> & FV1). clear REF.
  replace (1 - 1 / (4 / 3) * (1 / (4 / 3)) * (1 - 3 / 5 * (3 / 5))) with ((4/5) * (4/5)) in FV1 by field. rewrite sqrt_square in FV1 by lra.
  assert (X : vadd3 (vmul3 (1 / (4 / 3)) (along N1 U0)) (vmul3 (4 / 5) N1) = ez) by (unfold along; rewrite D1; unfold N1, U0, ez; apply vec_eq; cbn; field). rewrite X in FV1. clear X.
  set (Q1 := vadd3 (vsub3 v0 (p_offset (e_place e1))) (vmul3 k1 U0)) in *.
  destruct (propagate newton e2 (do y <- Some Q1; to_normal (e_place e2) (vsub3 y (p_offset (e_place e2)))) (onormal (to_normal (e_place e2)) (Some ez)) (4/3) 1 false) as [[[y2 u2] n2] t2] eqn:P2.
  destruct (layer_step newton e2 N2 Q1 ez (4/3) 1 _ _ _ _ G2' L2 NP1 UZ ltac:(lra) P2) as (_ & _ & GO). destruct (GO ltac:(lra)) as (q2 & k2 & -> & _ & _ & _ & REF). clear GO.
  assert (I2 : n2 = 1) by (unfold propagate in P2; cbn [e2 e_kind get_n_mu glassy m_mirror m_index] in P2; congruence). subst n2.
  rewrite (split_dir N2 ez E2 UZ), D2 in REF. destruct (REF ltac:(lra)) as (v2 & -> & FV2). clear REF.
  replace (1 - 4 / 3 / 1 * (4 / 3 / 1) * (1 - 4 / 5 * (4 / 5))) with ((3/5) * (3/5)) in FV2 by field. rewrite sqrt_square in FV2 by lra.
  assert (X : vadd3 (vmul3 (4 / 3 / 1) (along N2 ez)) (vmul3 (3 / 5) N2) = V 0 (7/25) (24/25)) by (unfold along; rewrite D2; unfold N2, ez; apply vec_eq; cbn; field). rewrite X in FV2. clear X.
  eexists e0, e1, e2, _, _, v1, v2, U0, ez, (V 0 (7/25) (24/25)), N1, N2.
  assert (T : geo_trace newton [e0; e1; e2] v0 U0 1 1 false = [Step (Some v0) (Some U0) 1 (Some U0) (Some 0); Step (Some q1) (Some v1) (4/3) (onormal (to_normal (e_place e1)) (Some U0)) t1;
    Step (Some q2) (Some v2) 1 (onormal (to_normal (e_place e2)) (Some ez)) t2]).
  { cbn [geo_trace]. replace (from_normal (e_place e0) v0) with (Some v0) by (symmetry; apply F0). replace (from_normal (e_place e0) U0) with (Some U0) by (symmetry; apply F0).
    cbn [sys_propagate]. rewrite P1. cbn [onormal obind]. rewrite FP1, FV1. cbn [onormal obind] in P2 |- *. rewrite P2. reflexivity. }
  split; [exact G|]. split; [exact UU|]. split; [exact L1|]. split; [exact L2|]. rewrite T. split; [reflexivity|]. split; [reflexivity|].
  cbn [st_u st_n]. split; [reflexivity|]. split; [reflexivity|]. split; [reflexivity|]. split; [reflexivity|]. split; [apply F0|]. split; [exact FV1|]. split; [exact FV2|].
  split; [lra|]. split; [lra|]. split; [unfold N1, N2; intros X; injection X; lra|]. split; [reflexivity|]. split; [reflexivity|]. split; [reflexivity|].
  rewrite D2. replace (dot ez N1) with (4/5) by (unfold dot, ez, N1; cbn; field). unfold N1, N2, ez. apply vec_eq; cbn; field.
Qed.

Print Assumptions C87_minimum_deviation.
Print Assumptions C87_index.
