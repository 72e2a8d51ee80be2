(** Property C72: conic surfaces image their foci without any aberration; exact ray trace. *)
From Coq Require Import Reals List Lra Lia Psatz.
From Verif Require Import Base Vec RotModel RotProofs PlacementModel ElementModel ElementProofs TraceProofs PropsElement.
Import ListNotations.
Open Scope R_scope.

(** ** Specification *)
(** going the (signed) distance [d] from [p] along [u] ends in [X] *)
Definition reaches (p u : vec) (d : R) (X : vec) : Prop := vadd3 p (vmul3 d u) = X.
(** point at height [z] on the axis *)
Definition axial (z : R) : vec := V 0 0 z.
(** the ray [y, u] meets the vertex sheet of the conic after [t], coming from the side the normal points away from *)
Definition meets (c k : R) (y u : vec) (t : R) : Prop :=
  sheet c k (at_ray y u t) /\ 0 < 1 - (1 + k) * c ^ 2 * r2_of (at_ray y u t) /\ 0 < dot u (sheet_normal c k (at_ray y u t)) /\ lead k u <> 0.

Ltac vec_field := repeat match goal with v : vec |- _ => destruct v end; vec_simpl; repeat (apply mat_eq || apply vec_eq); cbn [vx vy vz row0 row1 row2]; field; auto.
(** ** refraction known from its result *)
Lemma refr_known u0 N mu W h : dot u0 u0 = 1 -> N <> v0 -> 0 < mu -> dot W W = 1 -> W = vadd3 (vmul3 mu u0) (vmul3 h N) -> 0 <= dot W N -> refract_normal u0 N mu = Some W.
Proof.
  intros U NZ M D E P. assert (R2 : dot N N <> 0) by (intros Z; apply dot_zero in Z; contradiction).
  assert (R2p : 0 < dot N N) by (rewrite <- norm_sqr in *; pose proof (norm_nonneg N); nra).
  unfold refract_normal. rewrite !fdiv_some by auto. cbn [obind]. rewrite (Rabs_right mu) by lra. destruct (Req_EM_T mu (-1)) as [C|_]; [lra|].
  set (a := mu * dot u0 N / dot N N). assert (A : a * dot N N = mu * dot u0 N) by (unfold a; field; exact R2).
  assert (WN : dot W N = (a + h) * dot N N) by (rewrite E, dot_add_l, !dot_scale_l; nra).
  assert (S : 0 <= a + h) by (rewrite WN in P; apply (Rmult_le_reg_r (dot N N)); lra).
  assert (Q : a * a - (mu ^ 2 - 1) / dot N N = (a + h) * (a + h)).
  { apply (Rmult_eq_reg_r (dot N N)); [|exact R2]. replace ((a * a - (mu ^ 2 - 1) / dot N N) * dot N N) with (a * (a * dot N N) - mu ^ 2 + 1) by (field; exact R2).
    assert (X : dot W W = mu ^ 2 * dot u0 u0 + 2 * h * (mu * dot u0 N) + h * h * dot N N) by (rewrite E; vec_ring). rewrite D, U, <- A in X. nra. }
  unfold fsqrt. rewrite Q. destruct (Rle_dec 0 ((a + h) * (a + h))) as [_|C]; [|nra]. cbn [obind]. rewrite sqrt_square by exact S. unfold sign. destruct (Rlt_dec 0 mu) as [_|C]; [|lra].
  f_equal. rewrite E. f_equal. f_equal. ring.
Qed.
(** geometry of the sheet: w is the third component of the scaled normal *)
Lemma sheet_facts c k p : sheet c k p -> 0 < 1 - (1 + k) * c ^ 2 * r2_of p ->
  exists w, 0 < w /\ w = 1 - c * (1 + k) * vz p /\ c * (vx p * vx p + vy p * vy p) = vz p * (1 + w) /\ vmul3 w (sheet_normal c k p) = V (- c * vx p) (- c * vy p) w.
Proof.
  intros (_ & Z) P. unfold r2_of in P. unfold sheet_normal. set (r2 := vx p * vx p + vy p * vy p) in *. pose proof (sqrt_lt_R0 _ P) as W. pose proof (sqrt_def (1 - (1 + k) * c ^ 2 * r2)) as D.
  set (w := sqrt (1 - (1 + k) * c ^ 2 * r2)) in *. exists w. split; [exact W|]. assert (D' : w * w = 1 - (1 + k) * c ^ 2 * r2) by (apply D; lra). clear D. clearbody w.
  assert (Z' : vz p * (1 + w) = c * r2) by (rewrite Z; field; lra). split; [|split; [lra|]].
  - apply (Rmult_eq_reg_r (1 + w)); [|lra]. transitivity (w + w * w); [ring|]. transitivity (1 + w - c * (1 + k) * (vz p * (1 + w))); [rewrite Z', D'; ring|ring].
  - apply vec_eq; cbn [vmul3 vx vy vz]; field; lra.
Qed.
Section Step.
Variable newton : (R -> option R) -> (R -> option R) -> option R -> option R.
Lemma sheet_normal_nz c k p : sheet_normal c k p <> v0.
Proof. intros H. apply (f_equal vz) in H. cbn in H. lra. Qed.
Lemma conic_normal s p : s_asph s = None -> 0 < 1 - (1 + s_k s) * s_c s ^ 2 * r2_of p -> surface_normal s p = Some (sheet_normal (s_c s) (s_k s) p).
Proof.
  intros A P. rewrite surface_normal_spec by exact P. rewrite A. cbv zeta. f_equal. unfold sheet_normal. pose proof (sqrt_lt_R0 _ P). unfold r2_of in *.
  apply vec_eq; cbn [vx vy vz]; unfold Rdiv; ring.
Qed.
Lemma meets_step pl rad m s y u0 n0 l t W : s_asph s = None -> s_c s <> 0 -> s_alt s = false -> dot u0 u0 = 1 -> meets (s_c s) (s_k s) y u0 t ->
  (if m_mirror m then refract_normal u0 (sheet_normal (s_c s) (s_k s) (at_ray y u0 t)) (-1) = Some W
   else 0 < n0 /\ 0 < m_index m l /\ n0 <> m_index m l /\ refract_normal u0 (sheet_normal (s_c s) (s_k s) (at_ray y u0 t)) (n0 / m_index m l) = Some W) ->
  propagate newton (El pl rad (Sph (Some m) s)) (Some y) (Some u0) n0 l false = (Some (at_ray y u0 t), Some W, (if m_mirror m then n0 else m_index m l), Some (t * n0)).
Proof.
  intros A C AL U (S & P & D & L) R. unfold propagate. cbn [e_kind e_radius obind]. unfold intercept. rewrite A.
  rewrite (C13_found s y u0 t A C U L S P) by (rewrite AL; lra). cbn [obind]. unfold get_n_mu. pose proof (conic_normal s _ A P) as N. destruct (m_mirror m).
  - destruct (Req_EM_T (-1) 0) as [Q|_]; [lra|]. unfold refract. destruct (Req_EM_T (-1) 1) as [Q|_]; [lra|]. cbn [obind]. rewrite N. cbn [obind]. rewrite R. reflexivity.
  - destruct R as (R1 & R2 & R3 & R). rewrite fdiv_some by lra. destruct (Req_EM_T (n0 / m_index m l) 0) as [Q|_].
    + exfalso. assert (0 < n0 / m_index m l) by (apply Rdiv_lt_0_compat; assumption). lra.
    + unfold refract. destruct (Req_EM_T (n0 / m_index m l) 1) as [Q|_].
      * exfalso. apply R3. apply (Rmult_eq_reg_r (/ m_index m l)); [|apply Rinv_neq_0_compat; lra]. rewrite Rinv_r by lra. exact Q.
      * cbn [obind]. rewrite N. cbn [obind]. rewrite R. reflexivity.
Qed.

(** ** C72: light parallel to the axis *)
(** the surface with conic constant minus the squared index ratio brings every parallel ray to one point, with equal
    optical paths; the whole aperture up to the rim of the conic *)
Theorem C72_collimated pl rad m s y n0 l : let n := m_index m l in let f := n / (s_c s * (n - n0)) in
  m_mirror m = false -> 0 < n0 -> 0 < n -> n0 <> n -> s_asph s = None -> s_alt s = false -> s_c s <> 0 -> s_k s = - (n0 / n) ^ 2 ->
  (1 - (n0 / n) ^ 2) * s_c s ^ 2 * (vx y * vx y + vy y * vy y) < 1 ->
  exists t u d, propagate newton (El pl rad (Sph (Some m) s)) (Some y) (Some ez) n0 l false = (Some (at_ray y ez t), Some u, n, Some (t * n0)) /\
    sheet (s_c s) (s_k s) (at_ray y ez t) /\ reaches (at_ray y ez t) u d (axial f) /\ 0 < d * f /\
    n0 * (vz y + t) + n * d = n * f.
Proof.
  intros n f M N0 N ND A AL C K H. set (mu := n0 / n) in *. assert (MU : 0 < mu) by (apply Rdiv_lt_0_compat; assumption).
  assert (M1 : mu <> 1) by (intros E; apply ND; unfold mu in E; apply (Rmult_eq_reg_r (/ n)); [|apply Rinv_neq_0_compat; lra]; rewrite Rinv_r by lra; exact E).
  set (c := s_c s) in *. assert (F : c * f * (1 - mu) = 1) by (unfold f, mu; field; split; [lra|]; split; [lra|exact C]).
  set (r2 := vx y * vx y + vy y * vy y) in *. set (z := c * r2 / (1 + sqrt (1 - (1 + s_k s) * c ^ 2 * r2))). exists (z - vz y).
  assert (E : at_ray y ez (z - vz y) = V (vx y) (vy y) z) by (unfold at_ray; vec_ring).
  assert (W0 : 0 < 1 - (1 + s_k s) * c ^ 2 * r2) by (rewrite K; lra).
  assert (SH : sheet c (s_k s) (V (vx y) (vy y) z)) by (split; [cbn [vx vy]; fold r2; lra|reflexivity]).
  assert (P : 0 < 1 - (1 + s_k s) * c ^ 2 * r2_of (V (vx y) (vy y) z)) by (unfold r2_of; cbn [vx vy]; exact W0).
  destruct (sheet_facts c (s_k s) _ SH P) as (w & W & WZ & CR & SN). cbn [vx vy vz] in WZ, CR, SN. fold r2 in CR.
  set (d := f - mu * z). assert (D : c * d * (1 - mu ^ 2) = 1 + mu * w) by (rewrite WZ, K; unfold d; nra).
  assert (M2 : 1 - mu ^ 2 <> 0) by nra. assert (DW : 0 < 1 + mu * w) by nra. assert (D0 : d <> 0) by (intros Z0; rewrite Z0 in D; lra).
  set (N1 := sheet_normal c (s_k s) (V (vx y) (vy y) z)) in *. clearbody z.
  set (u := vmul3 (/ d) (vsub3 (axial f) (V (vx y) (vy y) z))). exists u, d.
  assert (UE : u = vadd3 (vmul3 mu ez) (vmul3 (w / (c * d)) N1)).
  { assert (X : vsub3 (axial f) (V (vx y) (vy y) z) = vadd3 (vmul3 (mu * d) ez) (vmul3 (/ c) (vmul3 w N1))).
    { rewrite SN. unfold axial. vec_simpl. apply vec_eq; cbn [vx vy vz]; [field; auto|field; auto|]. rewrite WZ, K. unfold d. apply (Rmult_eq_reg_l c); [|exact C]. replace (c * (mu * (f - mu * z) * 1 + / c * (1 - c * (1 + - mu ^ 2) * z))) with (c * mu * f - c * mu ^ 2 * z + 1 - c * (1 - mu ^ 2) * z) by (field; exact C). nra. }
    unfold u. rewrite X. clear - C D0. clearbody N1 d. vec_field. }
  assert (UU : dot u u = 1).
  { unfold u. rewrite dot_scale_l, dot_scale_r. replace (dot (vsub3 (axial f) (V (vx y) (vy y) z)) (vsub3 (axial f) (V (vx y) (vy y) z))) with (d * d); [field; exact D0|].
    transitivity (r2 + (f - z) * (f - z)); [|unfold axial, r2; vec_ring]. apply (Rmult_eq_reg_l c); [|exact C]. rewrite Rmult_plus_distr_l, CR, WZ, K. unfold d. apply Rminus_diag_uniq. transitivity (2 * z * (c * f * (1 - mu) - 1)); [ring|rewrite F; ring]. }
  assert (UN : 0 < dot u N1).
  { assert (X : dot u (vmul3 w N1) = 1).
    { rewrite SN. unfold u. rewrite dot_scale_l. apply (Rmult_eq_reg_l d); [|exact D0]. rewrite <- Rmult_assoc, Rinv_r, Rmult_1_l, Rmult_1_r by exact D0. transitivity (c * r2 + (f - z) * w); [unfold axial, r2; vec_ring|]. rewrite CR. unfold d.
      transitivity (z + f * w); [ring|]. rewrite WZ, K. transitivity (z + f - (c * f * (1 - mu)) * (1 + mu) * z); [ring|]. rewrite F. ring. }
    rewrite dot_scale_r in X. nra. }
  split; [|split; [rewrite E; exact SH|split; [|split]]].
  - rewrite (meets_step pl rad m s y ez n0 l (z - vz y) u A C AL).
    + rewrite M, E. reflexivity.
    + vec_ring.
    + split; [fold c; rewrite E; exact SH|]. split; [fold c; rewrite E; exact P|]. split.
      * fold c. rewrite E. fold N1. unfold N1, sheet_normal. vec_simpl. lra.
      * unfold lead. vec_simpl. rewrite K. intros Q. apply M2. lra.
    + rewrite M. split; [exact N0|]. split; [exact N|]. split; [exact ND|]. fold n c mu. rewrite E. fold N1. apply (refr_known ez N1 mu u (w / (c * d))); [vec_ring|apply sheet_normal_nz|exact MU|exact UU|exact UE|lra].
  - unfold reaches. rewrite E. unfold u. generalize (axial f) as Q, (V (vx y) (vy y) z) as Q'. clear - D0. clearbody d. intros. vec_field.
  - assert (0 < (c * d * (1 - mu ^ 2)) * (c * f * (1 - mu))) by (rewrite D, F; lra).
    assert (X : (c * d * (1 - mu ^ 2)) * (c * f * (1 - mu)) = (c * (1 - mu)) * (c * (1 - mu)) * (1 + mu) * (d * f)) by ring. rewrite X in H0.
    assert (Q : c * (1 - mu) <> 0) by (apply Rmult_integral_contrapositive_currified; lra). pose proof (Rsqr_pos_lt _ Q) as Q2. unfold Rsqr in Q2.
    assert (Q3 : 0 < c * (1 - mu) * (c * (1 - mu)) * (1 + mu)) by (apply Rmult_lt_0_compat; lra). apply (Rmult_lt_reg_l _ _ _ Q3). lra.
  - replace (vz y + (z - vz y)) with z by ring. unfold d, mu. field. lra.
Qed.

Lemma ez_unit : dot ez ez = 1. Proof. vec_ring. Qed.
(** and only that conic does: one single ray off the axis through the paraxial focus decides *)
Lemma refr_form u0 N mu W : N <> v0 -> 0 < mu -> refract_normal u0 N mu = Some W -> exists h, W = vadd3 (vmul3 mu u0) (vmul3 h N) /\ 0 <= dot W N.
Proof.
  intros NZ M H. assert (R2 : dot N N <> 0) by (intros Z; apply dot_zero in Z; contradiction).
  assert (R2p : 0 < dot N N) by (rewrite <- norm_sqr in *; pose proof (norm_nonneg N); nra).
  unfold refract_normal in H. rewrite !fdiv_some in H by auto. cbn [obind] in H. rewrite (Rabs_right mu) in H by lra. destruct (Req_EM_T mu (-1)) as [C|_]; [lra|].
  set (a := mu * dot u0 N / dot N N) in *. assert (A : a * dot N N = mu * dot u0 N) by (unfold a; field; exact R2). unfold fsqrt in H.
  destruct (Rle_dec 0 (a * a - (mu ^ 2 - 1) / dot N N)) as [L|]; [|discriminate]. cbn [obind] in H. pose proof (sqrt_pos (a * a - (mu ^ 2 - 1) / dot N N)) as Q. set (q := sqrt (a * a - (mu ^ 2 - 1) / dot N N)) in *. clearbody q.
  unfold sign in H. destruct (Rlt_dec 0 mu) as [_|C]; [|lra]. exists (- a + 1 * q). injection H as <-. split; [reflexivity|].
  rewrite dot_add_l, !dot_scale_l, <- A. nra.
Qed.
Lemma meets_inv pl rad m s y u0 n0 l t p W n tn : s_asph s = None -> s_c s <> 0 -> s_alt s = false -> dot u0 u0 = 1 -> meets (s_c s) (s_k s) y u0 t ->
  m_mirror m = false -> 0 < n0 -> 0 < m_index m l -> n0 <> m_index m l ->
  propagate newton (El pl rad (Sph (Some m) s)) (Some y) (Some u0) n0 l false = (p, Some W, n, tn) ->
  p = Some (at_ray y u0 t) /\ refract_normal u0 (sheet_normal (s_c s) (s_k s) (at_ray y u0 t)) (n0 / m_index m l) = Some W.
Proof.
  intros A C AL U (S & P & D & L) M N0 N ND. unfold propagate. cbn [e_kind e_radius obind]. unfold intercept. rewrite A.
  rewrite (C13_found s y u0 t A C U L S P) by (rewrite AL; lra). cbn [obind]. unfold get_n_mu. rewrite M. rewrite fdiv_some by lra. destruct (Req_EM_T (n0 / m_index m l) 0) as [Q|_].
  - exfalso. assert (0 < n0 / m_index m l) by (apply Rdiv_lt_0_compat; assumption). lra.
  - unfold refract. destruct (Req_EM_T (n0 / m_index m l) 1) as [Q|_].
    + exfalso. apply ND. apply (Rmult_eq_reg_r (/ m_index m l)); [|apply Rinv_neq_0_compat; lra]. rewrite Rinv_r by lra. exact Q.
    + cbn [obind]. rewrite (conic_normal s _ A P). cbn [obind]. intros H. split; congruence.
Qed.
Theorem C72_only_conic pl rad m s y n0 l t p u tn d : let n := m_index m l in let f := n / (s_c s * (n - n0)) in
  m_mirror m = false -> 0 < n0 -> 0 < n -> n0 <> n -> s_asph s = None -> s_alt s = false -> s_c s <> 0 ->
  meets (s_c s) (s_k s) y ez t -> vx y * vx y + vy y * vy y <> 0 ->
  propagate newton (El pl rad (Sph (Some m) s)) (Some y) (Some ez) n0 l false = (Some p, Some u, n, tn) ->
  reaches p u d (axial f) -> s_k s = - (n0 / n) ^ 2.
Proof.
  intros n f M N0 N ND A AL C MT R0 PR RE. pose proof MT as (SH & P & D0 & L).
  destruct (meets_inv _ _ _ _ _ _ _ _ _ _ _ _ _ A C AL ez_unit MT M N0 N ND PR) as (EP & RF). injection EP as ->. fold n in RF.
  set (mu := n0 / n) in *. assert (MU : 0 < mu) by (apply Rdiv_lt_0_compat; assumption).
  assert (M1 : mu <> 1) by (intros E; apply ND; unfold mu in E; apply (Rmult_eq_reg_r (/ n)); [|apply Rinv_neq_0_compat; lra]; rewrite Rinv_r by lra; exact E).
  set (c := s_c s) in *. set (k := s_k s) in *. assert (F : c * f * (1 - mu) = 1) by (unfold f, mu; field; split; [lra|]; split; [lra|exact C]).
  destruct (refr_form ez _ mu u (sheet_normal_nz c k _) MU RF) as (h & UE & UN).
  assert (UU : dot u u = 1).
  { pose proof ez_unit as E0. destruct (C10_snell n0 n ez _ N0 N E0 (sheet_normal_nz c k (at_ray y ez t))) as (_ & Q). apply (Q u). exact RF. }
  assert (E : at_ray y ez t = V (vx y) (vy y) (vz y + t)) by (unfold at_ray; vec_ring). rewrite E in *. set (z := vz y + t) in *. clearbody z.
  destruct (sheet_facts c k _ SH P) as (w & W & WZ & CR & SN). cbn [vx vy vz] in WZ, CR, SN. set (N1 := sheet_normal c k (V (vx y) (vy y) z)) in *. clearbody N1. clearbody mu. clearbody f.
  set (g := h / w). assert (UE' : u = vadd3 (vmul3 mu ez) (vmul3 g (V (- c * vx y) (- c * vy y) w))) by (rewrite <- SN, UE; unfold g; clear - W; assert (w <> 0) by lra; vec_field).
  unfold reaches, axial in RE. pose proof (f_equal vx RE) as X. pose proof (f_equal vy RE) as Y. pose proof (f_equal vz RE) as Z. cbn [vadd3 vmul3 vx vy vz] in X, Y, Z.
  pose proof (f_equal vx UE') as UX. pose proof (f_equal vy UE') as UY. pose proof (f_equal vz UE') as UZ. unfold ez in UX, UY, UZ. cbn [vadd3 vmul3 vx vy vz] in UX, UY, UZ.
  set (x := vx y) in *. set (yy := vy y) in *.
  assert (DG : d * g * c = 1).
  { assert (X1 : x * (1 - d * g * c) = 0) by (rewrite UX in X; lra). assert (Y1 : yy * (1 - d * g * c) = 0) by (rewrite UY in Y; lra).
    apply Rmult_integral in X1. apply Rmult_integral in Y1. destruct X1 as [X1|X1]; [|lra]. destruct Y1 as [Y1|Y1]; [|lra]. exfalso. apply R0. rewrite X1, Y1. ring. }
  assert (DM : d * mu = mu * f + k * z).
  { rewrite UZ in Z. assert (Q : c * (d * mu) + w = c * (f - z)) by nra. apply (Rmult_eq_reg_l c); [|exact C]. rewrite WZ in Q. nra. }
  assert (DD : c * (d * d) = z * (1 + w) + c * ((f - z) * (f - z))).
  { assert (Q : d * d * dot u u = x * x + yy * yy + (f - z) * (f - z)).
    { replace (f - z) with (d * vz u) by lra. assert (QX : d * vx u = - x) by lra. assert (QY : d * vy u = - yy) by lra. transitivity ((d * vx u) * (d * vx u) + (d * vy u) * (d * vy u) + (d * vz u) * (d * vz u)); [unfold dot; ring|]. rewrite QX, QY. ring. }
    rewrite UU in Q. rewrite <- CR. nra. }
  assert (Z0 : z <> 0) by (intros Q; rewrite Q in CR; apply R0; apply (Rmult_eq_reg_l c); [lra|exact C]).
  assert (K : (mu ^ 2 + k) * (2 * f * mu + k * z) = 0).
  { apply (Rmult_eq_reg_l (c * z)); [|apply Rmult_integral_contrapositive_currified; assumption].
    assert (Q : c * ((d * mu) * (d * mu)) = mu * mu * (z * (1 + w) + c * ((f - z) * (f - z)))) by (rewrite <- DD; ring). rewrite DM, WZ in Q.
    assert (Q2 : c * z * ((mu ^ 2 + k) * (2 * f * mu + k * z)) = (c * ((mu * f + k * z) * (mu * f + k * z)) - mu * mu * (z * (1 + (1 - c * (1 + k) * z)) + c * ((f - z) * (f - z)))) - 2 * mu ^ 2 * z * (c * f * (1 - mu) - 1)) by ring.
    rewrite Q2, Q, F. ring. }
  apply Rmult_integral in K. destruct K as [K|K]; [lra|]. exfalso.
  assert (D1 : d = - f) by (apply (Rmult_eq_reg_r mu); lra).
  assert (FW : z + f * w = d * (w * dot u N1)).
  { rewrite <- dot_scale_r, SN. transitivity (c * (x * x + yy * yy) + (f - z) * w); [rewrite CR; ring|]. unfold dot. cbn [vx vy vz]. rewrite <- Z. assert (QX : d * vx u = - x) by lra. assert (QY : d * vy u = - yy) by lra.
    transitivity ((d * vx u) * (- c * x) + (d * vy u) * (- c * yy) + d * vz u * w); [rewrite QX, QY; ring|ring]. }
  set (q := dot u N1) in *. clearbody q. clear - K D1 FW F MU M1 WZ W UN Z0. rewrite D1 in FW.
  assert (CF : c * f <> 0) by (intros Q; rewrite Q in F; lra). assert (F0 : f <> 0) by (intros Q; apply CF; rewrite Q; ring).
  assert (ZW : z = - f * (w * (1 + q))) by lra. assert (V0 : 0 < w * (1 + q)) by nra. set (v := w * (1 + q)) in *. assert (WV : w <= v) by (unfold v; nra). clearbody v.
  assert (KV : k * v = 2 * mu) by (apply (Rmult_eq_reg_l f); [|exact F0]; rewrite ZW in K; lra). assert (KP : 0 < k) by nra.
  assert (WE : w = 1 + (c * f) * ((1 + k) * v)) by (rewrite WZ, ZW; ring).
  destruct (Rlt_le_dec mu 1) as [LT|GE].
  - assert (1 < c * f) by nra. assert (0 < (1 + k) * v) by nra. nra.
  - assert (GT : 1 < mu) by lra. assert (CN : c * f * (mu - 1) = -1) by lra. set (b := c * f) in *. clearbody b. assert (b < 0) by nra.
    assert (w * (mu - 1) = (mu - 1) - ((1 + k) * v)) by (rewrite WE; nra). assert (0 < w * (mu - 1)) by nra. nra.
Qed.

(** ** C72: a point source in the focus gives parallel light *)
Theorem C72_point_source pl rad m s y u0 n0 l t d : let n := m_index m l in let f := n0 / (s_c s * (n0 - n)) in
  m_mirror m = false -> 0 < n0 -> 0 < n -> n0 <> n -> s_asph s = None -> s_alt s = false -> s_c s <> 0 -> s_k s = - (n / n0) ^ 2 ->
  dot u0 u0 = 1 -> meets (s_c s) (s_k s) y u0 t -> reaches (at_ray y u0 t) u0 d (axial f) ->
  propagate newton (El pl rad (Sph (Some m) s)) (Some y) (Some u0) n0 l false = (Some (at_ray y u0 t), Some ez, n, Some (t * n0)) /\
  n0 * d + n * vz (at_ray y u0 t) = n0 * f.
Proof.
  intros n f M N0 N ND A AL C K U MT RE. pose proof MT as (SH & P & D0 & L). set (p := at_ray y u0 t) in *.
  set (nu := n / n0) in *. assert (NU : 0 < nu) by (apply Rdiv_lt_0_compat; assumption).
  assert (MN : n0 / n = / nu) by (unfold nu; field; lra).
  assert (M1 : nu <> 1) by (intros E; apply ND; unfold nu in E; apply (Rmult_eq_reg_r (/ n0)); [|apply Rinv_neq_0_compat; lra]; rewrite Rinv_r by lra; symmetry; exact E).
  set (c := s_c s) in *. assert (F : c * f * (1 - nu) = 1) by (unfold f, nu; field; split; [lra|]; split; [lra|exact C]).
  destruct (sheet_facts c (s_k s) p SH P) as (w & W & WZ & CR & SN). set (N1 := sheet_normal c (s_k s) p) in *.
  set (z := vz p) in *. set (d' := f - nu * z). assert (D' : c * d' * (1 - nu ^ 2) = 1 + nu * w) by (rewrite WZ, K; unfold d'; nra).
  assert (DW : 0 < 1 + nu * w) by nra. assert (D0' : d' <> 0) by (intros Q; rewrite Q in D'; lra).
  assert (X : vsub3 (axial f) p = vadd3 (vmul3 (nu * d') ez) (vmul3 (/ c) (vmul3 w N1))).
  { rewrite SN. unfold axial. destruct p as [px py pz] eqn:EP. unfold z in *. cbn [vx vy vz] in *. vec_simpl. apply vec_eq; cbn [vx vy vz]; [field; auto|field; auto|]. rewrite WZ, K. unfold d'. apply (Rmult_eq_reg_l c); [|exact C].
    replace (c * (nu * (f - nu * pz) * 1 + / c * (1 - c * (1 + - nu ^ 2) * pz))) with (c * nu * f - c * nu ^ 2 * pz + 1 - c * (1 - nu ^ 2) * pz) by (field; exact C). nra. }
  assert (XD : vsub3 (axial f) p = vmul3 d u0) by (rewrite <- RE; vec_ring).
  assert (DM : d * dot u0 (vmul3 w N1) = d').
  { rewrite <- dot_scale_l, <- XD, SN. transitivity (c * (vx p * vx p + vy p * vy p) + (f - z) * w); [unfold axial, z; clear; vec_ring|]. rewrite CR. unfold d'.
    transitivity (z + f * w); [unfold z; ring|]. rewrite WZ, K. transitivity (z + f - (c * f * (1 - nu)) * (1 + nu) * z); [ring|]. rewrite F. ring. }
  assert (DD : d * d = d' * d').
  { transitivity (d * d * dot u0 u0); [rewrite U; ring|]. transitivity (dot (vsub3 (axial f) p) (vsub3 (axial f) p)); [rewrite XD, dot_scale_l, dot_scale_r; ring|].
    transitivity (vx p * vx p + vy p * vy p + (f - z) * (f - z)); [unfold axial, z; clear; vec_ring|]. apply (Rmult_eq_reg_l c); [|exact C]. rewrite Rmult_plus_distr_l, CR. fold z. rewrite WZ, K. unfold d'.
    apply Rminus_diag_uniq. transitivity (2 * z * (1 - c * f * (1 - nu))); [ring|rewrite F; ring]. }
  assert (DE : d = d').
  { assert (Q : (d - d') * (d + d') = 0) by lra. apply Rmult_integral in Q. destruct Q as [Q|Q]; [lra|]. exfalso. rewrite dot_scale_r in DM. assert (0 < w * dot u0 N1) by (apply Rmult_lt_0_compat; assumption).
    assert (d' * (1 + w * dot u0 N1) = 0) by (replace d with (- d') in DM by lra; lra). apply Rmult_integral in H0. destruct H0; lra. }
  split.
  - rewrite (meets_step pl rad m s y u0 n0 l t ez A C AL U MT); [rewrite M; reflexivity|]. rewrite M. split; [exact N0|]. split; [exact N|]. split; [exact ND|]. fold n p c N1.
    apply (refr_known u0 N1 (n0 / n) ez (- (w / (nu * c * d')))).
    + exact U.
    + apply sheet_normal_nz.
    + rewrite MN. apply Rinv_0_lt_compat. exact NU.
    + vec_ring.
    + rewrite MN. rewrite XD, DE in X. assert (NZ : nu <> 0) by lra.
      transitivity (vmul3 (/ (nu * d')) (vsub3 (vmul3 d' u0) (vmul3 (/ c) (vmul3 w N1)))); [rewrite X|]; clear - NZ D0' C; clearbody d' N1; generalize ez as e; intros; vec_field.
    + unfold N1, sheet_normal, ez. vec_simpl. lra.
  - fold z. rewrite DE. unfold d', nu. field. lra.
Qed.

(** ** C72: mirrors: light through one focus goes through the other; all paths are equal.  Ellipsoids, hyperboloids and
       (both foci in the centre) spheres; [e] may be negative, which exchanges the foci *)
Theorem C72_mirror_foci pl rad m s y u0 n0 l t d e : let f := / (s_c s * (1 + e)) in let f' := / (s_c s * (1 - e)) in
  m_mirror m = true -> s_asph s = None -> s_alt s = false -> s_c s <> 0 -> e ^ 2 <> 1 -> s_k s = - e ^ 2 ->
  dot u0 u0 = 1 -> meets (s_c s) (s_k s) y u0 t -> reaches (at_ray y u0 t) u0 d (axial f) ->
  exists u d', propagate newton (El pl rad (Sph (Some m) s)) (Some y) (Some u0) n0 l false = (Some (at_ray y u0 t), Some u, n0, Some (t * n0)) /\
    reaches (at_ray y u0 t) u d' (axial f') /\ d - d' = f + f'.
Proof.
  intros f f' M A AL C E1 K U MT RE. pose proof MT as (SH & P & D0 & L). set (p := at_ray y u0 t) in *. set (c := s_c s) in *.
  assert (EP : 1 + e <> 0) by nra. assert (EM : 1 - e <> 0) by nra. assert (E2 : 1 - e ^ 2 <> 0) by lra.
  assert (F : c * f * (1 + e) = 1) by (unfold f; field; auto). assert (F' : c * f' * (1 - e) = 1) by (unfold f'; field; auto).
  destruct (sheet_facts c (s_k s) p SH P) as (w & W & WZ & CR & SN). set (N1 := sheet_normal c (s_k s) p) in *. set (z := vz p) in *. rewrite K in WZ.
  set (r2 := vx p * vx p + vy p * vy p) in *. assert (R0 : 0 <= r2) by (unfold r2; nra).
  assert (WW : w * w = 1 - (1 - e ^ 2) * (c * c * r2)) by (transitivity (1 - (1 - e ^ 2) * (c * (c * r2))); [rewrite CR|ring]; nra).
  assert (WE : 1 - e * e * (w * w) <> 0).
  { rewrite WW. intros Q. assert (Q2 : (1 - e ^ 2) * (1 + e * e * (c * c * r2)) = 0) by lra. apply Rmult_integral in Q2. destruct Q2 as [Q2|Q2]; [contradiction|]. assert (0 <= e * e * (c * c * r2)) by (repeat apply Rmult_le_pos; try assumption; nra). lra. }
  set (d1 := f + e * z). set (d2 := f' - e * z).
  assert (D1 : c * d1 * (1 - e ^ 2) = 1 - e * w) by (rewrite WZ; unfold d1; replace (c * (f + e * z) * (1 - e ^ 2)) with ((c * f * (1 + e)) * (1 - e) + c * e * z * (1 - e ^ 2)) by ring; rewrite F; ring).
  assert (D2 : c * d2 * (1 - e ^ 2) = 1 + e * w) by (rewrite WZ; unfold d2; replace (c * (f' - e * z) * (1 - e ^ 2)) with ((c * f' * (1 - e)) * (1 + e) - c * e * z * (1 - e ^ 2)) by ring; rewrite F'; ring).
  assert (Z1 : d1 <> 0) by (intros Q; rewrite Q in D1; apply WE; replace (1 - e * e * (w * w)) with ((1 - e * w) * (1 + e * w)) by ring; rewrite <- D1; ring).
  assert (Z2 : d2 <> 0) by (intros Q; rewrite Q in D2; apply WE; replace (1 - e * e * (w * w)) with ((1 + e * w) * (1 - e * w)) by ring; rewrite <- D2; ring).
  assert (XD : vsub3 (axial f) p = vmul3 d u0) by (rewrite <- RE; vec_ring).
  assert (DM : d * dot u0 (vmul3 w N1) = d1).
  { rewrite <- dot_scale_l, <- XD, SN. transitivity (c * r2 + (f - z) * w); [unfold axial, r2, z; clear; vec_ring|]. rewrite CR. unfold d1.
    transitivity (z + f * w); [ring|]. rewrite WZ. transitivity (z + f - (c * f * (1 + e)) * (1 - e) * z); [ring|]. rewrite F. ring. }
  assert (DD : d * d = d1 * d1).
  { transitivity (d * d * dot u0 u0); [rewrite U; ring|]. transitivity (dot (vsub3 (axial f) p) (vsub3 (axial f) p)); [rewrite XD, dot_scale_l, dot_scale_r; ring|].
    transitivity (r2 + (f - z) * (f - z)); [unfold axial, r2, z; clear; vec_ring|]. apply (Rmult_eq_reg_l c); [|exact C]. rewrite Rmult_plus_distr_l, CR, WZ. unfold d1.
    apply Rminus_diag_uniq. transitivity (2 * z * (1 - c * f * (1 + e))); [ring|rewrite F; ring]. }
  assert (DE : d = d1).
  { assert (Q : (d - d1) * (d + d1) = 0) by lra. apply Rmult_integral in Q. destruct Q as [Q|Q]; [lra|]. exfalso. rewrite dot_scale_r in DM. assert (0 < w * dot u0 N1) by (apply Rmult_lt_0_compat; assumption).
    assert (Q3 : d1 * (1 + w * dot u0 N1) = 0) by (replace d with (- d1) in DM by lra; lra). apply Rmult_integral in Q3. destruct Q3; lra. }
  assert (UM : dot u0 (vmul3 w N1) = 1) by (rewrite DE in DM; apply (Rmult_eq_reg_l d1); [lra|exact Z1]).
  set (MM := vmul3 w N1) in *.
  assert (MQ : dot MM MM * (1 - e ^ 2) = 1 - e * e * (w * w)) by (rewrite SN; transitivity ((c * c * r2) * (1 - e ^ 2) + w * w * (1 - e ^ 2)); [unfold r2; clear; vec_ring|]; rewrite WW; ring).
  assert (MZ : dot MM MM <> 0) by (intros Q; rewrite Q in MQ; lra).
  exists (vsub3 u0 (vmul3 (2 / dot MM MM) MM)), (- d2).
  split; [|split].
  - rewrite (meets_step pl rad m s y u0 n0 l t (vsub3 u0 (vmul3 (2 / dot MM MM) MM)) A C AL U MT); [rewrite M; reflexivity|]. rewrite M. fold p c N1. rewrite reflect_normal by apply sheet_normal_nz. f_equal. f_equal.
    unfold MM in UM |- *. rewrite dot_scale_r in UM. assert (W0 : w <> 0) by lra. assert (NN : dot N1 N1 <> 0) by (intros Q; apply MZ; unfold MM; rewrite dot_scale_l, dot_scale_r, Q; ring).
    assert (UN : dot u0 N1 = / w) by (apply (Rmult_eq_reg_l w); [rewrite UM; field; exact W0|exact W0]). rewrite UN, dot_scale_l, dot_scale_r. set (q := dot N1 N1) in *. clearbody q N1. clear - W0 NN. vec_field.
  - unfold reaches. assert (UE : u0 = vmul3 (/ d1) (vsub3 (axial f) p)) by (rewrite XD, DE; clear - Z1; clearbody d1; vec_field).
    assert (SS : d1 + d2 = 2 / (c * (1 - e ^ 2))) by (apply (Rmult_eq_reg_r (c * (1 - e ^ 2))); [|apply Rmult_integral_contrapositive_currified; assumption]; replace ((d1 + d2) * (c * (1 - e ^ 2))) with (c * d1 * (1 - e ^ 2) + c * d2 * (1 - e ^ 2)) by ring; rewrite D1, D2; field; auto).
    assert (PP : d1 * d2 = dot MM MM / (c * c * (1 - e ^ 2))).
    { apply (Rmult_eq_reg_r (c * c * (1 - e ^ 2) * (1 - e ^ 2))); [|repeat apply Rmult_integral_contrapositive_currified; assumption].
      replace (d1 * d2 * (c * c * (1 - e ^ 2) * (1 - e ^ 2))) with ((c * d1 * (1 - e ^ 2)) * (c * d2 * (1 - e ^ 2))) by ring. rewrite D1, D2. replace (dot MM MM / (c * c * (1 - e ^ 2)) * (c * c * (1 - e ^ 2) * (1 - e ^ 2))) with (dot MM MM * (1 - e ^ 2)) by (field; auto). rewrite MQ. ring. }
    (* d2 (u0 + V2) = d2 u0 + F' - p = 2 d2 / MM * M *)
    assert (GOAL : vadd3 (vmul3 d2 u0) (vsub3 (axial f') p) = vmul3 (2 * d2 / dot MM MM) MM).
    { assert (S1 : vmul3 d1 (vadd3 (vmul3 d2 u0) (vsub3 (axial f') p)) = vmul3 (2 / (c * (c * (1 - e ^ 2)))) MM).
      { rewrite UE. transitivity (vadd3 (vmul3 d2 (vsub3 (axial f) p)) (vmul3 d1 (vsub3 (axial f') p))); [clear - Z1; clearbody d1; generalize (axial f) as a, (axial f') as b; intros; vec_field|].
        rewrite SN. replace (2 / (c * (c * (1 - e ^ 2)))) with ((d1 + d2) / c) by (rewrite SS; field; auto).
        destruct p as [px py pz] eqn:EP'. unfold z in *. cbn [vx vy vz] in *. unfold axial. vec_simpl. apply vec_eq; cbn [vx vy vz]; [field; auto|field; auto|].
        apply (Rmult_eq_reg_l c); [|exact C]. replace (c * ((d1 + d2) / c * w)) with ((d1 + d2) * w) by (field; exact C).
        unfold d1, d2. rewrite WZ. unfold f, f'. field. auto. }
      assert (S2 : 2 / (c * (c * (1 - e ^ 2))) = d1 * (2 * d2 / dot MM MM)).
      { replace (d1 * (2 * d2 / dot MM MM)) with (2 * (d1 * d2) / dot MM MM) by (field; exact MZ). rewrite PP. field. auto. }
      rewrite S2 in S1. transitivity (vmul3 (/ d1) (vmul3 d1 (vadd3 (vmul3 d2 u0) (vsub3 (axial f') p)))); [clear - Z1; clearbody d1; generalize (axial f') as b; intros; vec_field|]. rewrite S1. set (g := 2 * d2 / dot MM MM). clearbody g MM. clear - Z1. clearbody d1. vec_field. }
    transitivity (vadd3 (vsub3 p (vmul3 d2 u0)) (vmul3 (2 * d2 / dot MM MM) MM)); [clearbody MM; clear - MZ; clearbody d2; set (q := dot MM MM) in *; clearbody q; vec_field|]. rewrite <- GOAL. clear. vec_ring.
  - rewrite DE. unfold d1, d2. ring.
Qed.
(** paraboloid: light from the focus leaves parallel to the axis *)
Theorem C72_paraboloid pl rad m s y u0 n0 l t d : let f := / (2 * s_c s) in
  m_mirror m = true -> s_asph s = None -> s_alt s = false -> s_c s <> 0 -> s_k s = -1 ->
  dot u0 u0 = 1 -> meets (s_c s) (s_k s) y u0 t -> reaches (at_ray y u0 t) u0 d (axial f) ->
  propagate newton (El pl rad (Sph (Some m) s)) (Some y) (Some u0) n0 l false = (Some (at_ray y u0 t), Some (vneg ez), n0, Some (t * n0)) /\
  d - vz (at_ray y u0 t) = f.
Proof.
  intros f M A AL C K U MT RE. pose proof MT as (SH & P & D0 & L). set (p := at_ray y u0 t) in *. set (c := s_c s) in *.
  assert (F : 2 * c * f = 1) by (unfold f; field; auto).
  destruct (sheet_facts c (s_k s) p SH P) as (w & W & WZ & CR & SN). set (N1 := sheet_normal c (s_k s) p) in *. set (z := vz p) in *. rewrite K in WZ. assert (W1 : w = 1) by lra. clear WZ. subst w.
  set (r2 := vx p * vx p + vy p * vy p) in *. assert (R0 : 0 <= r2) by (unfold r2; nra).
  assert (CZ : 0 <= c * z) by (assert (c * (c * r2) = 2 * (c * z)) by (rewrite CR; ring); assert (0 <= c * c * r2) by (apply Rmult_le_pos; [nra|assumption]); lra).
  set (d1 := f + z). assert (Z1 : d1 <> 0) by (intros Q; assert (c * d1 = 0) by (rewrite Q; ring); unfold d1 in *; lra).
  assert (XD : vsub3 (axial f) p = vmul3 d u0) by (rewrite <- RE; vec_ring).
  assert (N1E : N1 = V (- c * vx p) (- c * vy p) 1) by (rewrite <- SN; vec_ring).
  assert (DM : d * dot u0 N1 = d1).
  { rewrite <- dot_scale_l, <- XD, N1E. transitivity (c * r2 + (f - z)); [unfold axial, r2, z; clear; vec_ring|]. rewrite CR. unfold d1. ring. }
  assert (DD : d * d = d1 * d1).
  { transitivity (d * d * dot u0 u0); [rewrite U; ring|]. transitivity (dot (vsub3 (axial f) p) (vsub3 (axial f) p)); [rewrite XD, dot_scale_l, dot_scale_r; ring|].
    transitivity (r2 + (f - z) * (f - z)); [unfold axial, r2, z; clear; vec_ring|]. apply (Rmult_eq_reg_l c); [|exact C]. rewrite Rmult_plus_distr_l, CR. unfold d1.
    apply Rminus_diag_uniq. transitivity (2 * z * (1 - 2 * c * f)); [ring|rewrite F; ring]. }
  assert (DE : d = d1).
  { assert (Q : (d - d1) * (d + d1) = 0) by lra. apply Rmult_integral in Q. destruct Q as [Q|Q]; [lra|]. exfalso.
    assert (Q3 : d1 * (1 + dot u0 N1) = 0) by (replace d with (- d1) in DM by lra; lra). apply Rmult_integral in Q3. destruct Q3; lra. }
  assert (UM : dot u0 N1 = 1) by (rewrite DE in DM; apply (Rmult_eq_reg_l d1); [lra|exact Z1]).
  assert (MQ : dot N1 N1 = 2 * c * d1) by (rewrite N1E; transitivity (c * (c * r2) + 1); [unfold r2; clear; vec_ring|]; rewrite CR; unfold d1; lra).
  assert (MZ : dot N1 N1 <> 0) by (rewrite MQ; repeat apply Rmult_integral_contrapositive_currified; try assumption; lra).
  split.
  - rewrite (meets_step pl rad m s y u0 n0 l t (vneg ez) A C AL U MT); [rewrite M; reflexivity|]. rewrite M. fold p c N1. rewrite reflect_normal by apply sheet_normal_nz. f_equal.
    rewrite UM, MQ. assert (UE : u0 = vmul3 (/ d1) (vsub3 (axial f) p)) by (rewrite XD, DE; clear - Z1; clearbody d1; vec_field). rewrite UE, N1E.
    destruct p as [px py pz] eqn:EP'. unfold z in *. cbn [vx vy vz] in *. unfold axial, vneg. vec_simpl. apply vec_eq; cbn [vx vy vz]; [field; auto|field; auto|]. replace (/ d1 * (f - pz) - 2 * (1 / (2 * c * d1)) * 1) with ((c * f - c * pz - 1) / (c * d1)) by (field; auto). replace (c * f - c * pz - 1) with (- (c * d1)) by (unfold d1; lra). field. auto.
  - fold z. rewrite DE. unfold d1. ring.
Qed.

(** ** C72: the refracting sphere: aplanatic points and centre *)
Theorem C72_aplanatic pl rad m s y u0 n0 l t d : let n := m_index m l in let o := (n0 + n) / (n0 * s_c s) in let i := (n0 + n) / (n * s_c s) in
  m_mirror m = false -> 0 < n0 -> 0 < n -> n0 <> n -> s_asph s = None -> s_alt s = false -> s_c s <> 0 -> s_k s = 0 ->
  dot u0 u0 = 1 -> meets (s_c s) (s_k s) y u0 t -> reaches (at_ray y u0 t) u0 d (axial o) ->
  exists u d', propagate newton (El pl rad (Sph (Some m) s)) (Some y) (Some u0) n0 l false = (Some (at_ray y u0 t), Some u, n, Some (t * n0)) /\
    reaches (at_ray y u0 t) u d' (axial i) /\ n0 * d = n * d' /\ n * vx u0 = n0 * vx u /\ n * vy u0 = n0 * vy u.
Proof.
  intros n o i M N0 N ND A AL C K U MT RE. pose proof MT as (SH & P & D0 & L). set (p := at_ray y u0 t) in *. set (c := s_c s) in *.
  set (mu := n0 / n) in *. assert (MU : 0 < mu) by (apply Rdiv_lt_0_compat; assumption). assert (MZ : mu <> 0) by lra.
  assert (O : o = / c + / (c * mu)) by (unfold o, mu; field; repeat split; try exact C; lra).
  assert (I : i = / c + mu / c) by (unfold i, mu; field; repeat split; try exact C; lra).
  destruct (sheet_facts c (s_k s) p SH P) as (w & W & WZ & CR & SN). set (N1 := sheet_normal c (s_k s) p) in *. set (z := vz p) in *. rewrite K in WZ. set (MM := vmul3 w N1) in *.
  set (r2 := vx p * vx p + vy p * vy p) in *.
  assert (M1 : dot MM MM = 1) by (rewrite SN; transitivity (c * (c * r2) + w * w); [unfold r2; clear; vec_ring|]; rewrite CR; replace w with (1 - c * z) by lra; ring).
  assert (Mz : vz MM = w) by (rewrite SN; reflexivity).
  assert (XO : vsub3 (axial o) p = vmul3 (/ c) (vadd3 MM (vmul3 (/ mu) ez))).
  { rewrite SN, O. destruct p as [px py pz] eqn:EP'. unfold z in *. cbn [vx vy vz] in *. unfold axial. vec_simpl. apply vec_eq; cbn [vx vy vz]; [field; auto|field; auto|]. rewrite WZ. field. auto. }
  assert (XI : vsub3 (axial i) p = vmul3 (/ c) (vadd3 MM (vmul3 mu ez))).
  { rewrite SN, I. destruct p as [px py pz] eqn:EP'. unfold z in *. cbn [vx vy vz] in *. unfold axial. vec_simpl. apply vec_eq; cbn [vx vy vz]; [field; auto|field; auto|]. rewrite WZ. field. auto. }
  assert (XD : vsub3 (axial o) p = vmul3 d u0) by (rewrite <- RE; clear; vec_ring).
  assert (UM : 0 < dot u0 MM) by (unfold MM; rewrite dot_scale_r; apply Rmult_lt_0_compat; assumption).
  assert (DM : c * d * dot u0 MM = 1 + w / mu).
  { transitivity (c * dot (vsub3 (axial o) p) MM); [rewrite XD, dot_scale_l; ring|]. rewrite XO, dot_scale_l, dot_add_l, M1, dot_scale_l. replace (dot ez MM) with (vz MM) by (clear; vec_ring). rewrite Mz. field. auto. }
  assert (WM : 0 < w / mu) by (apply Rdiv_lt_0_compat; assumption).
  assert (CD : 0 < c * d) by nra. assert (DZ : d <> 0) by (intros Q; rewrite Q in CD; lra).
  set (u := vmul3 (/ (mu * d)) (vsub3 (axial i) p)). exists u, (mu * d).
  assert (UE : u = vadd3 (vmul3 mu u0) (vmul3 ((/ mu - mu) / (c * d) * w) N1)).
  { assert (UE0 : u0 = vmul3 (/ d) (vsub3 (axial o) p)) by (rewrite XD; clear - DZ; vec_field). rewrite UE0. unfold u. rewrite XO, XI. transitivity (vadd3 (vmul3 mu (vmul3 (/ d) (vmul3 (/ c) (vadd3 MM (vmul3 (/ mu) ez))))) (vmul3 ((/ mu - mu) / (c * d)) MM)); [|unfold MM; clear; vec_ring].
    generalize ez as e. clearbody MM mu. clear - MZ DZ C. clearbody c. intros. vec_field. }
  assert (UU : dot u u = 1).
  { unfold u. rewrite dot_scale_l, dot_scale_r. replace (dot (vsub3 (axial i) p) (vsub3 (axial i) p)) with (mu * mu * (d * d)); [field; auto|]. transitivity (mu * mu * dot (vsub3 (axial o) p) (vsub3 (axial o) p)); [rewrite XD, dot_scale_l, dot_scale_r, U; ring|].
    rewrite XO, XI. assert (Q : forall g, dot (vmul3 (/ c) (vadd3 MM (vmul3 g ez))) (vmul3 (/ c) (vadd3 MM (vmul3 g ez))) = / c * / c * (dot MM MM + 2 * g * vz MM + g * g)) by (intros; clearbody MM; clear; vec_ring). rewrite !Q, M1. field. auto. }
  assert (UN : 0 <= dot u N1).
  { apply (Rmult_le_reg_l w); [exact W|]. rewrite Rmult_0_r, <- dot_scale_r. fold MM. unfold u. rewrite dot_scale_l, XI, dot_scale_l, dot_add_l, M1, dot_scale_l. replace (dot ez MM) with (vz MM) by (clear; vec_ring). rewrite Mz.
    replace (/ (mu * d) * (/ c * (1 + mu * w))) with ((1 + mu * w) / (mu * (c * d))) by (field; auto). apply Rlt_le, Rdiv_lt_0_compat; nra. }
  split; [|split; [|split]].
  - rewrite (meets_step pl rad m s y u0 n0 l t u A C AL U MT); [rewrite M; reflexivity|]. rewrite M. split; [exact N0|]. split; [exact N|]. split; [exact ND|]. fold n p c N1 mu.
    apply (refr_known u0 N1 mu u ((/ mu - mu) / (c * d) * w)); try assumption. apply sheet_normal_nz.
  - unfold reaches, u. generalize (axial i) as a. clearbody mu. clear - MZ DZ. clearbody p. intros. vec_field.
  - unfold mu. field. lra.
  - assert (UE0 : u0 = vmul3 (/ d) (vsub3 (axial o) p)) by (rewrite XD; clear - DZ; vec_field). rewrite UE0. unfold u, axial, mu. clearbody p. destruct p as [px py pz]. vec_simpl. split; field; lra.
Qed.
Theorem C72_centre pl rad m s y u0 n0 l t d : m_mirror m = false -> 0 < n0 -> 0 < m_index m l -> n0 <> m_index m l ->
  s_asph s = None -> s_alt s = false -> s_c s <> 0 -> s_k s = 0 -> dot u0 u0 = 1 -> meets (s_c s) (s_k s) y u0 t ->
  reaches (at_ray y u0 t) u0 d (axial (/ s_c s)) ->
  propagate newton (El pl rad (Sph (Some m) s)) (Some y) (Some u0) n0 l false = (Some (at_ray y u0 t), Some u0, m_index m l, Some (t * n0)) /\ s_c s * d = 1.
Proof.
  intros M N0 N ND A AL C K U MT RE. pose proof MT as (SH & P & D0 & L). set (p := at_ray y u0 t) in *. set (c := s_c s) in *. set (n := m_index m l) in *.
  assert (MU : 0 < n0 / n) by (apply Rdiv_lt_0_compat; assumption).
  destruct (sheet_facts c (s_k s) p SH P) as (w & W & WZ & CR & SN). set (N1 := sheet_normal c (s_k s) p) in *. set (z := vz p) in *. rewrite K in WZ. set (MM := vmul3 w N1) in *.
  set (r2 := vx p * vx p + vy p * vy p) in *.
  assert (M1 : dot MM MM = 1) by (rewrite SN; transitivity (c * (c * r2) + w * w); [unfold r2; clear; vec_ring|]; rewrite CR; replace w with (1 - c * z) by lra; ring).
  assert (XD : vsub3 (axial (/ c)) p = vmul3 d u0) by (rewrite <- RE; clear; vec_ring).
  assert (XO : MM = vmul3 (c * d) u0).
  { transitivity (vmul3 c (vmul3 d u0)); [|clear; vec_ring]. rewrite <- XD, SN. destruct p as [px py pz] eqn:EP'. unfold z in *. cbn [vx vy vz] in *. unfold axial. vec_simpl. apply vec_eq; cbn [vx vy vz]; [ring|ring|]. rewrite WZ. field. auto. }
  assert (UM : 0 < dot u0 MM) by (unfold MM; rewrite dot_scale_r; apply Rmult_lt_0_compat; assumption).
  assert (CD : c * d = 1). { rewrite XO in M1, UM. rewrite ?dot_scale_l, ?dot_scale_r, U in M1. rewrite dot_scale_r, U in UM. nra. }
  split; [|exact CD]. assert (ME : MM = u0) by (rewrite XO, CD; clear; vec_ring).
  rewrite (meets_step pl rad m s y u0 n0 l t u0 A C AL U MT); [rewrite M; reflexivity|]. rewrite M. split; [exact N0|]. split; [exact N|]. split; [exact ND|]. fold n p c N1.
  apply (refr_known u0 N1 (n0 / n) u0 ((1 - n0 / n) * w)); try assumption; [apply sheet_normal_nz| |lra].
  transitivity (vadd3 (vmul3 (n0 / n) u0) (vmul3 (1 - n0 / n) MM)); [rewrite ME|unfold MM]; clear; vec_ring.
Qed.

(** ** C72: the whole trace of the singlet surface: one image point, one optical path *)
(** an unrotated element at the distance [d] behind the previous one *)
Definition at_place (d : R) : placement := Placement d ez (V 0 0 d) v0 true true None None.
Theorem C72_spot rad m s d1 y n0 l : let n := m_index m l in let f := n / (s_c s * (n - n0)) in
  m_mirror m = false -> 0 < n0 -> 0 < n -> n0 <> n -> s_asph s = None -> s_alt s = false -> s_c s <> 0 -> s_k s = - (n0 / n) ^ 2 ->
  (1 - (n0 / n) ^ 2) * s_c s ^ 2 * (vx y * vx y + vy y * vy y) < 1 -> 0 <= d1 -> 0 < f ->
  exists hit t1 t2, map st_y (geo_trace newton [El (at_place 0) None Plain; El (at_place d1) rad (Sph (Some m) s); El (at_place f) None Plain] y ez n0 l false) = [Some y; Some hit; Some v0] /\
    vx hit = vx y /\ vy hit = vy y /\ sheet (s_c s) (s_k s) hit /\
    map st_t (geo_trace newton [El (at_place 0) None Plain; El (at_place d1) rad (Sph (Some m) s); El (at_place f) None Plain] y ez n0 l false) = [Some 0; Some t1; Some t2] /\
    t1 + t2 = n0 * (d1 - vz y) + n * f.
Proof.
  intros n f M N0 N ND A AL C K H D1 F0. destruct (C72_collimated (at_place d1) rad m s (vsub3 y (V 0 0 d1)) n0 l M N0 N ND A AL C K) as (t & u & d & PR & SH & RE & DF & OP).
  { replace (vx (vsub3 y (V 0 0 d1))) with (vx y) by (clear; vec_simpl; ring). replace (vy (vsub3 y (V 0 0 d1))) with (vy y) by (clear; vec_simpl; ring). exact H. }
  fold n f in PR, RE, DF, OP. set (hit := at_ray (vsub3 y (V 0 0 d1)) ez t) in *.
  assert (HX : vx hit = vx y) by (unfold hit, at_ray; clear; vec_simpl; ring). assert (HY : vy hit = vy y) by (unfold hit, at_ray; clear; vec_simpl; ring).
  assert (UZ : vz u <> 0).
  { pose proof (f_equal vz RE) as Z. unfold axial in Z. cbn [vadd3 vmul3 vz] in Z. intros Q. rewrite Q in Z.
    assert (P : 0 < 1 - (1 + s_k s) * s_c s ^ 2 * r2_of hit) by (unfold r2_of; rewrite HX, HY, K; lra).
    destruct (sheet_facts (s_c s) (s_k s) hit SH P) as (w & W & WZ & _ & _). replace (vz hit) with f in WZ by lra. rewrite K in WZ. set (mu := n0 / n) in *. assert (MU : 0 < mu) by (apply Rdiv_lt_0_compat; assumption).
    assert (M1 : mu <> 1) by (intros E; apply ND; unfold mu in E; apply (Rmult_eq_reg_r (/ n)); [|apply Rinv_neq_0_compat; lra]; rewrite Rinv_r by lra; exact E).
    assert (F : s_c s * f * (1 - mu) = 1) by (unfold f, mu; field; split; [lra|]; split; [lra|exact C]). assert (w = 1 - (s_c s * f * (1 - mu)) * (1 + mu)) by (rewrite WZ; ring). rewrite F in *. lra. }
  exists hit, (t * n0), (d * n).
  assert (T : geo_trace newton [El (at_place 0) None Plain; El (at_place d1) rad (Sph (Some m) s); El (at_place f) None Plain] y ez n0 l false =
    [Step (Some y) (Some ez) n0 (Some ez) (Some 0); Step (Some hit) (Some u) n (Some ez) (Some (t * n0)); Step (Some v0) (Some u) n (Some u) (Some (d * n))]).
  { cbn [geo_trace e_place]. change (from_normal (at_place 0) ?y) with (Some y). cbn [sys_propagate onormal obind e_place]. change (to_normal (at_place ?a) ?y) with (Some y). change (p_offset (at_place ?a)) with (V 0 0 a). cbv beta iota. rewrite PR.
    change (onormal (from_normal (at_place d1)) (Some hit)) with (Some hit). change (onormal (from_normal (at_place d1)) (Some u)) with (Some u). cbn [obind]. change (to_normal (at_place f) (vsub3 hit (V 0 0 f))) with (Some (vsub3 hit (V 0 0 f))). change (onormal (to_normal (at_place f)) (Some u)) with (Some u).
    unfold propagate. cbn [e_kind obind]. unfold plane_intercept. rewrite fdiv_some by exact UZ. cbn [obind].
    match goal with |- context [at_ray _ u ?a] => replace a with d end.
    - replace (at_ray (vsub3 hit (V 0 0 f)) u d) with v0; [reflexivity|]. unfold reaches in RE. unfold at_ray. transitivity (vsub3 (vadd3 hit (vmul3 d u)) (V 0 0 f)); [rewrite RE; unfold axial|]; clear; vec_ring.
    - pose proof (f_equal vz RE) as Z. unfold axial in Z. cbn [vadd3 vmul3 vz] in Z. cbn [vsub3 vz]. apply (Rmult_eq_reg_r (vz u)); [|exact UZ]. unfold Rdiv. rewrite Rmult_assoc, Rinv_l by exact UZ. lra. }
  rewrite T. cbn [map st_y st_t]. repeat (split; [reflexivity || assumption|]). cbn [vsub3 vz] in OP. lra.
Qed.
End Step.

(** ** Examples *)
Lemma sqrt_eq x r : 0 <= r -> x = r * r -> sqrt x = r.
Proof. intros P ->. apply sqrt_square. exact P. Qed.
Ltac meets_tac r := unfold meets, sheet, lead, sheet_normal, at_ray, r2_of; vec_simpl; rewrite ?(sqrt_eq _ r) by lra; repeat split; lra.
Definition glass (n : R) : material := Material (fun _ => n) false true.
Example C72_collimated_example : let s := Surf (1/3) (- (4/9)) None false in
  s_k s = - (1 / m_index (glass (3/2)) 1) ^ 2 /\ (1 - (1 / m_index (glass (3/2)) 1) ^ 2) * s_c s ^ 2 * (1 * 1 + 2 * 2) < 1 /\ 0 < m_index (glass (3/2)) 1 / (s_c s * (m_index (glass (3/2)) 1 - 1)).
Proof. cbn. repeat split; lra. Qed.
Example C72_only_conic_example newton : let s := Surf (1/3) (- (4/9)) None false in let y := V 1 2 0 in
  exists t p u tn d, meets (s_c s) (s_k s) y ez t /\ vx y * vx y + vy y * vy y <> 0 /\
    propagate newton (El (at_place 1) None (Sph (Some (glass (3/2))) s)) (Some y) (Some ez) 1 1 false = (Some p, Some u, 3/2, tn) /\ reaches p u d (axial ((3/2) / (s_c s * (3/2 - 1)))).
Proof.
  intros s y. destruct (C72_collimated newton (at_place 1) None (glass (3/2)) s y 1 1) as (t & u & d & PR & SH & RE & _); cbn; try lra; try reflexivity.
  exists t, (at_ray y ez t), u, (Some (t * 1)), d. split; [|split; [cbn; lra|split; [exact PR|exact RE]]]. split; [exact SH|]. unfold y, at_ray, r2_of, lead, sheet_normal. vec_simpl. cbn [s_c s_k s]. repeat split; lra.
Qed.
Example C72_point_source_example : let u := V (- (5/13)) 0 (12/13) in let y := V 8 0 (- (51/5)) in dot u u = 1 /\ meets (1/3) (- (1 / (3/2)) ^ 2) y u 13 /\
  reaches (at_ray y u 13) u (39/5) (axial (3/2 / (1/3 * (3/2 - 1)))).
Proof. intros u y. split; [unfold u, dot; cbn; lra|]. split; [unfold u, y; meets_tac (2/3)|]. unfold reaches, at_ray, u, y, axial. vec_simpl. apply vec_eq; cbn; (lra || field). Qed.
Example C72_mirror_foci_example : let u := V (12/13) 0 (5/13) in let y := V 0 0 (- (5/2)) in dot u u = 1 /\ meets (- (1/4)) (- (3/5) ^ 2) y u (13/4) /\
  reaches (at_ray y u (13/4)) u (- (13/4)) (axial (/ (- (1/4) * (1 + 3/5)))).
Proof. intros u y. split; [unfold u, dot; cbn; lra|]. split; [unfold u, y; meets_tac (4/5)|]. unfold reaches, at_ray, u, y, axial. vec_simpl. apply vec_eq; cbn; (lra || field). Qed.
Example C72_paraboloid_example : let u := V (24/25) 0 (7/25) in let y := V 0 0 (- 2) in dot u u = 1 /\ meets (- (1/4)) (-1) y u (25/8) /\
  reaches (at_ray y u (25/8)) u (- (25/8)) (axial (/ (2 * - (1/4)))).
Proof. intros u y. split; [unfold u, dot; cbn; lra|]. split; [unfold u, y; meets_tac 1|]. unfold reaches, at_ray, u, y, axial. vec_simpl. apply vec_eq; cbn; (lra || field). Qed.
Example C72_aplanatic_example : let u := V (- (5/13)) 0 (12/13) in let y := V 8 0 (- 11) in dot u u = 1 /\ meets (1/5) 0 y u 13 /\
  reaches (at_ray y u 13) u (39/5) (axial ((25/16 + 1) / (25/16 * (1/5)))).
Proof. intros u y. split; [unfold u, dot; cbn; lra|]. split; [unfold u, y; meets_tac (4/5)|]. unfold reaches, at_ray, u, y, axial. vec_simpl. apply vec_eq; cbn; (lra || field). Qed.
Example C72_centre_example : let u := V (- (3/5)) 0 (4/5) in let y := V 6 0 (- 3) in dot u u = 1 /\ meets (1/5) 0 y u 5 /\
  reaches (at_ray y u 5) u 5 (axial (/ (1/5))).
Proof. intros u y. split; [unfold u, dot; cbn; lra|]. split; [unfold u, y; meets_tac (4/5)|]. unfold reaches, at_ray, u, y, axial. vec_simpl. apply vec_eq; cbn; (lra || field). Qed.
Print Assumptions C72_spot.
