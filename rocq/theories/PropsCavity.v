(** Property C102: the mode of a resonator of two mirrors has the textbook spots, waist and wave fronts. *)
From Coq Require Import Reals List Lra Lia Psatz.
From Verif Require Import Base Cx Vec RotModel RotProofs PlacementModel PlacementProofs ElementModel
  ParaxialModel ParaxialProofs PropsParaxial LimitProofs PropsLimit ParaxTraceModel PropsConjugates PropsSolve PropsDesign PropsFolded GaussianModel PropsGaussian PropsBeams PropsResonator.
Import ListNotations.
Open Scope R_scope.

(** ** Specification *)
(** the beam behind the second mirror, in one section: spot on the mirror, waist and wave front of a cavity of length [d] *)
Definition cavity_mode (axis : bool) (l scale d g1 g2 : R) (q : cm) : Prop :=
  let g := g1 * g2 in let k := l * d / (PI * scale) in
  (exists w, spot_radius l scale axis q = Some w /\ 0 < w /\ w ^ 4 = k ^ 2 * (g1 / (g2 * (1 - g)))) /\
  (exists w0, waist_radius l 1 scale axis q = Some w0 /\ 0 < w0 /\ w0 ^ 4 = k ^ 2 * (g * (1 - g) / (g1 + g2 - 2 * g) ^ 2)) /\
  waist_position 1 axis q = Some (d * (g1 * (1 - g2) / (g1 + g2 - 2 * g))) /\
  (g2 <> 1 -> curvature_radius 1 axis q = Some (d / (g2 - 1))) /\ (g2 = 1 -> curvature_radius 1 axis q = None).
(** a beam whose two sections do not mix *)
Definition unmixed (q : cm) : Prop := c01 q = c0 /\ c10 q = c0.

(** ** Auxiliary *)
Lemma given_back axis m q a b c d : decoupled m -> unmixed q -> beam_act m q = Some q -> block axis m = (a, b, c, d) ->
  let x := diag axis q in cmul x (cadd (rc a) (cmul (rc b) x)) = cadd (rc c) (cmul (rc d) x).
Proof.
  intros DC (U1 & U2) A B. apply act_inv in A. destruct A as (_ & A). unfold den, num, blk_a, blk_b, blk_c, blk_d, cma, cmm in A.
  destruct m as [[m00 m01 m02 m03] [m10 m11 m12 m13] [m20 m21 m22 m23] [m30 m31 m32 m33]]. unfold decoupled, block in *. cbn [q0 q1 q2 q3 w0 w1 w2 w3] in *.
  destruct DC as (Z1 & Z2 & Z3 & Z4 & Z5 & Z6 & Z7 & Z8). subst. destruct q as [x y z w]. cbn [c00 c01 c10 c11 diag] in *. subst y z. injection A as A1 A2 A3 A4 A5 A6 A7 A8.
  destruct x as [x x'], w as [w w'], axis; injection B as <- <- <- <-; cbn [re im cmul cadd c0 rc] in *; unfold diag; apply cx_eq; cbn [re im cmul cadd rc c00 c11]; lra.
Qed.
(** the curvature that the round trip gives back *)
Lemma mode_parts d p1 p2 u v : 0 < d -> let g1 := 1 + d * p1 in let g2 := 1 + d * p2 in let g := g1 * g2 in 0 < g < 1 -> v <> 0 ->
  let a := 1 * 1 + d * (2 * p1) in let b := 1 * d + d * (2 * p1 * d + 1) in let c := 2 * p2 * 1 + (2 * p2 * d + 1) * (2 * p1) in let D := 2 * p2 * d + (2 * p2 * d + 1) * (2 * p1 * d + 1) in
  cmul (Cx u v) (cadd (rc a) (cmul (rc b) (Cx u v))) = cadd (rc c) (cmul (rc D) (Cx u v)) ->
  u = p2 /\ v ^ 2 = g * (1 - g) / (d * g1) ^ 2 /\ u ^ 2 + v ^ 2 = (g1 + g2 - 2 * g) / (d ^ 2 * g1) /\ g1 <> 0 /\ g2 <> 0 /\ g1 + g2 - 2 * g <> 0.
Proof.
  intros DP g1 g2 g G V a b c D E. injection E as E1 E2. cbn [re im cmul cadd rc] in E1, E2.
  assert (G1 : g1 <> 0) by (intros Z; unfold g in G; rewrite Z in G; lra). assert (G2 : g2 <> 0) by (intros Z; unfold g in G; rewrite Z in G; lra).
  assert (P1 : p1 = (g1 - 1) / d) by (unfold g1; field; lra). assert (P2 : p2 = (g2 - 1) / d) by (unfold g2; field; lra).
  assert (Hb : b = 2 * d * g1) by (unfold b, g1; ring). assert (HD : D - a = 4 * d * p2 * g1) by (unfold D, a, g1; ring).
  assert (Hc : c = 2 * (2 * g - g1 - g2) / d) by (unfold c, g; rewrite P1, P2; field; lra). clearbody a b c D g1 g2. clear p1 P1.
  assert (U : u = p2).
  { assert (K : v * (2 * b * u - (D - a)) = 0) by lra. apply Rmult_integral in K. destruct K as [K|K]; [contradiction|].
    rewrite Hb, HD in K. assert (K' : (d * g1) * (u - p2) = 0) by lra. apply Rmult_integral in K'. destruct K' as [K'|K']; [|lra]. apply Rmult_integral in K'. lra. }
  subst u. assert (Q : p2 ^ 2 + v ^ 2 = (g1 + g2 - 2 * g) / (d ^ 2 * g1)).
  { apply Rmult_eq_reg_l with b; [|rewrite Hb; apply Rmult_integral_contrapositive_currified; lra]. transitivity (- c); [|rewrite Hb, Hc; field; lra].
    assert (K : b * v ^ 2 = b * p2 ^ 2 - (D - a) * p2 - c) by lra. rewrite Rmult_plus_distr_l, K, HD, Hb. ring. }
  assert (V2 : v ^ 2 = g * (1 - g) / (d * g1) ^ 2).
  { replace (v ^ 2) with (p2 ^ 2 + v ^ 2 - p2 ^ 2) by ring. rewrite Q, P2. unfold g. field. lra. }
  split; [reflexivity|]. split; [exact V2|]. split; [exact Q|]. split; [exact G1|]. split; [exact G2|]. intros Z. rewrite Z in Q.
  assert (0 < v ^ 2) by (cbn [pow]; nra). assert (0 <= p2 ^ 2) by (cbn [pow]; nra). unfold Rdiv in Q. rewrite Rmult_0_l in Q. lra.
Qed.

(** * C102 *)
(** Two mirrors, perhaps tilted or aspheric, stable in a section: whatever beam without mixed sections the round trip gives
    back and is confined in that section, it is the textbook mode, and its wave front has the radius of the mirror. *)
Theorem C102_mode e0 e1 e2 s1 s2 l d axis scale m q : 0 < d -> 0 < l -> 0 < scale -> upright e0 -> refractive_index [e0; e1; e2] l 0 = 1 -> cavity_mirror l d e1 s1 -> cavity_mirror l d e2 s2 ->
  let g1 := g_factor axis d e1 s1 in let g2 := g_factor axis d e2 s2 in
  sys_matrix [e0; e1; e2] l 1 None = (1, Some m) -> 0 < g1 * g2 < 1 -> unmixed q -> beam_act m q = Some q -> im (diag axis q) < 0 ->
  cavity_mode axis l scale d g1 g2 q.
Proof.
  intros D L SC U0 I C1 C2 g1 g2 SM G UM BA IM. destruct (mirror_block axis l d e1 s1 C1) as (m1 & P1 & B1). destruct (mirror_block axis l d e2 s2 C2) as (m2 & P2 & B2). cbv zeta in B1, B2.
  assert (U1 : upright e1) by (destruct C1 as (mt & K & _ & _ & _ & _ & A & _); unfold upright; rewrite K; exact A).
  assert (U2 : upright e2) by (destruct C2 as (mt & K & _ & _ & _ & _ & A & _); unfold upright; rewrite K; exact A).
  assert (S : sys_matrix [e0; e1; e2] l 1 None = (1, Some (mm4 m2 m1))).
  { unfold sys_matrix, paraxial_matrices. rewrite I. cbn [slice skipn matrices]. rewrite P1. cbn [matrices]. rewrite P2. cbn [fold_left obind]. rewrite mm4_eye_r. reflexivity. }
  rewrite S in SM. injection SM as <-.
  assert (D1 := upright_decoupled _ _ _ _ _ U1 P1). assert (D2 := upright_decoupled _ _ _ _ _ U2 P2).
  set (p1 := bend s1 * (if axis then / cos (vx (p_angles (e_place e1))) else cos (vx (p_angles (e_place e1))))) in *.
  set (p2 := bend s2 * (if axis then / cos (vx (p_angles (e_place e2))) else cos (vx (p_angles (e_place e2))))) in *.
  assert (G1 : g1 = 1 + d * p1) by (unfold g1, g_factor, p1; ring). assert (G2 : g2 = 1 + d * p2) by (unfold g2, g_factor, p2; ring). clearbody g1 g2 p1 p2.
  assert (B : block axis (mm4 m2 m1) = (1 * 1 + d * (2 * p1), 1 * d + d * (2 * p1 * d + 1), 2 * p2 * 1 + (2 * p2 * d + 1) * (2 * p1), 2 * p2 * d + (2 * p2 * d + 1) * (2 * p1 * d + 1))) by (rewrite block_mm, B1, B2 by auto; reflexivity).
  pose proof (given_back axis _ q _ _ _ _ (decoupled_mm _ _ D2 D1) UM BA B) as E. cbv zeta in E. unfold cavity_mode, spot_radius, waist_radius, waist_position, rayleigh_range, curvature_radius.
  set (x := diag axis q) in *. destruct x as [u v] eqn:XE. cbn [im] in IM. rewrite G1, G2 in G. destruct (mode_parts d p1 p2 u v D G ltac:(lra) E) as (-> & V & Q & NZ1 & NZ2 & NZ). rewrite <- G1, <- G2 in *.
  set (g := g1 * g2) in *. assert (PP := PI_RGT_0). assert (VP : 0 < - v) by lra. assert (NR : Cx p2 v <> c0) by (apply im_nz; lra).
  assert (N2 : 0 < p2 ^ 2 + v ^ 2) by (cbn [pow]; nra). assert (INV : cdiv c1 (Cx p2 v) = Cx (p2 / (p2 ^ 2 + v ^ 2)) (- v / (p2 ^ 2 + v ^ 2))).
  { apply cx_eq; unfold cdiv, cinv, cabs2, c1; cbn [re im cmul]; field; repeat split; try lra; cbn [pow] in N2; lra. }
  assert (IP : 0 < - v / (p2 ^ 2 + v ^ 2)) by (apply Rdiv_lt_0_compat; lra). assert (SP : 0 < scale * PI) by (apply Rmult_lt_0_compat; auto).
  split; [|split; [|split; [|split]]].
  - rewrite fdiv_some by lra. cbn [obind im]. rewrite fdiv_some by lra. cbn [obind]. assert (K : 0 < l / (scale * PI) / - v) by (apply Rdiv_lt_0_compat; [apply Rdiv_lt_0_compat; auto|auto]).
    rewrite fsqrt_some by lra. eexists. split; [reflexivity|]. split; [apply sqrt_lt_R0; auto|].
    replace (sqrt (l / (scale * PI) / - v) ^ 4) with ((sqrt (l / (scale * PI) / - v) ^ 2) ^ 2) by ring. rewrite pow2_sqrt by lra.
    transitivity ((l / (scale * PI)) ^ 2 / v ^ 2); [field; repeat split; lra|]. rewrite V. unfold g. field. repeat split; try lra. fold g. lra.
  - rewrite fcdiv_some by auto. cbn [obind]. rewrite INV. cbn [obind im]. rewrite fdiv_some by lra. cbn [obind]. rewrite fdiv_some by lra. cbn [obind].
    replace (- v / (p2 ^ 2 + v ^ 2) * 1 / PI / 1 * l / scale) with (l / (scale * PI) * (- v / (p2 ^ 2 + v ^ 2))) by (field; repeat split; lra).
    set (r := - v / (p2 ^ 2 + v ^ 2)) in *. assert (K : 0 < l / (scale * PI) * r) by (apply Rmult_lt_0_compat; [apply Rdiv_lt_0_compat; auto|auto]).
    rewrite fsqrt_some by lra. eexists. split; [reflexivity|]. split; [apply sqrt_lt_R0; auto|].
    replace (sqrt (l / (scale * PI) * r) ^ 4) with ((sqrt (l / (scale * PI) * r) ^ 2) ^ 2) by ring. rewrite pow2_sqrt by lra.
    assert (R2 : r ^ 2 = v ^ 2 / (p2 ^ 2 + v ^ 2) ^ 2) by (unfold r; field; lra). rewrite Q, V in R2. rewrite Rpow_mult_distr, R2. field. repeat split; lra.
  - rewrite fcdiv_some by auto. cbn [obind]. rewrite INV. cbn [obind re]. f_equal. rewrite Q. assert (P2' : p2 = (g2 - 1) / d) by (rewrite G2; field; lra). rewrite P2'. field. repeat split; lra.
  - intros NE. cbn [re]. assert (PZ : p2 <> 0) by (intros Z; apply NE; rewrite G2, Z; ring). rewrite fdiv_some by auto. f_equal. replace (g2 - 1) with (d * p2) by (rewrite G2; ring). field. split; lra.
  - intros EQ. cbn [re]. assert (p2 = 0) by (assert (Z : d * p2 = 0) by lra; apply Rmult_integral in Z; lra). subst p2. apply fdiv_zero.
Qed.

(** [np.roots] of a quadratic without real roots: first the root above the real axis, then the other *)
Definition root_pair (roots : R -> R -> R -> list cx) : Prop := forall a b c, a <> 0 -> b ^ 2 - 4 * a * c < 0 ->
  exists r, roots a b c = [r; Cx (re r) (- im r)] /\ 0 < im r /\ cadd (cadd (cmul (rc a) (cmul r r)) (cmul (rc b) r)) (rc c) = c0.
(** The first of the two modes that the trace reports of a cavity stable in both sections is the textbook mode in both. *)
Theorem C102_reported roots e0 e1 e2 s1 s2 l d scale m : root_pair roots -> 0 < d -> 0 < l -> 0 < scale -> upright e0 -> refractive_index [e0; e1; e2] l 0 = 1 -> cavity_mirror l d e1 s1 -> cavity_mirror l d e2 s2 ->
  sys_matrix [e0; e1; e2] l 1 None = (1, Some m) -> stable m false = true -> stable m true = true ->
  exists q q', eigenmodes roots m = Some [q; q'] /\ (forall axis, cavity_mode axis l scale d (g_factor axis d e1 s1) (g_factor axis d e2 s2) q) /\
    forall axis, diag axis q' = Cx (re (diag axis q)) (- im (diag axis q)).
Proof.
  intros RP D L SC U0 I C1 C2 SM SF ST.
  assert (U1 : upright e1) by (destruct C1 as (mt & K & _ & _ & _ & _ & A & _); unfold upright; rewrite K; exact A).
  assert (U2 : upright e2) by (destruct C2 as (mt & K & _ & _ & _ & _ & A & _); unfold upright; rewrite K; exact A).
  assert (UU : Forall upright [e0; e1; e2]) by (repeat apply Forall_cons; auto).
  assert (DC : decoupled m) by (eapply sys_decoupled; [exact UU|]; rewrite SM; reflexivity).
  assert (CV : conserves m) by (eapply C17_system_symplectic; [|exact SM]; eapply Forall_impl; [|exact UU]; intros; apply upright_aligned; auto).
  assert (GS : forall axis, 0 < g_factor axis d e1 s1 * g_factor axis d e2 s2 < 1).
  { intros axis. destruct (C88_two_mirrors e0 e1 e2 s1 s2 l d axis D U0 I C1 C2) as (m' & S' & _ & SB & _). rewrite SM in S'. injection S' as <-. apply SB. destruct axis; auto. }
  assert (SA : is_simple_astigmatic m = true).
  { unfold is_simple_astigmatic. destruct DC as (-> & -> & -> & -> & -> & -> & -> & ->). cbn [forallb]. assert (Z : isclose 0 0 = true) by (apply isclose_within; unfold within_tol; rewrite Rminus_0_r, Rabs_R0; lra). rewrite Z. reflexivity. }
  assert (RT : forall axis, exists r, axis_roots roots m axis = [r; Cx (re r) (- im r)] /\ 0 < im r).
  { intros axis. unfold axis_roots. assert (SX : stable m axis = true) by (destruct axis; auto). unfold stable, half_trace in SX. destruct (block axis m) as [[[a b] c] dd] eqn:B. pose proof (block_det _ _ _ _ _ _ DC CV B) as DT.
    destruct (Rlt_dec (((a + dd) / 2) ^ 2) 1) as [H|H]; [|discriminate]. cbn [pow] in H. destruct (RP c (dd - a) (- b)) as (r & R1 & R2 & _); [intros ->; pose proof (pow2_ge_0 (a - dd)) as PW; cbn [pow] in PW; lra|cbn [pow]; lra|]. exists r. auto. }
  assert (RC : forall axis r, In r (axis_roots roots m axis) -> let '(a, b, c, dd) := block axis m in cadd (cadd (cmul (rc c) (cmul r r)) (cmul (rc (dd - a)) r)) (rc (- b)) = c0).
  { intros axis r IN. unfold axis_roots in IN. assert (SX : stable m axis = true) by (destruct axis; auto). unfold stable, half_trace in SX. destruct (block axis m) as [[[a b] c] dd] eqn:B. pose proof (block_det _ _ _ _ _ _ DC CV B) as DT.
    destruct (Rlt_dec (((a + dd) / 2) ^ 2) 1) as [H|H]; [|discriminate]. cbn [pow] in H. destruct (RP c (dd - a) (- b)) as (r' & R1 & R2 & R3); [intros ->; pose proof (pow2_ge_0 (a - dd)) as PW; cbn [pow] in PW; lra|cbn [pow]; lra|].
    rewrite R1 in IN. destruct IN as [<-|[<-|[]]]; [exact R3|]. injection R3 as E1 E2. destruct r' as [x y]. cbn [re im] in *. apply cx_eq; cbn [re im cmul cadd rc c0]; lra. }
  destruct (RT false) as (x & X1 & X2). destruct (RT true) as (y & Y1 & Y2).
  assert (IX : In x (axis_roots roots m false)) by (rewrite X1; left; reflexivity). assert (IY : In y (axis_roots roots m true)) by (rewrite Y1; left; reflexivity).
  assert (NX : x <> c0) by (intros ->; cbn in X2; lra). assert (NY : y <> c0) by (intros ->; cbn in Y2; lra).
  assert (NX' : Cx (re x) (- im x) <> c0) by (apply im_nz; lra). assert (NY' : Cx (re y) (- im y) <> c0) by (apply im_nz; lra).
  exists (CM (cdiv c1 x) c0 c0 (cdiv c1 y)), (CM (cdiv c1 (Cx (re x) (- im x))) c0 c0 (cdiv c1 (Cx (re y) (- im y)))).
  assert (EM : eigenmodes roots m = Some [CM (cdiv c1 x) c0 c0 (cdiv c1 y); CM (cdiv c1 (Cx (re x) (- im x))) c0 c0 (cdiv c1 (Cx (re y) (- im y)))]).
  { unfold eigenmodes. rewrite SA, X1, Y1. cbn [pair_modes]. rewrite (fcdiv_some _ _ NX), (fcdiv_some _ _ NY), (fcdiv_some _ _ NX'), (fcdiv_some _ _ NY'). reflexivity. }
  split; [exact EM|]. split.
  - intros axis. apply (C102_mode e0 e1 e2 s1 s2 l d axis scale m); auto; [split; reflexivity| |].
    + pose (rr := fun a b c : R => filter (fun r => ceqb (cadd (cadd (cmul (rc a) (cmul r r)) (cmul (rc b) r)) (rc c)) c0) (roots a b c)).
      assert (KEEP : forall ax, axis_roots rr m ax = axis_roots roots m ax).
      { intros ax. specialize (RC ax). unfold axis_roots, rr in *. destruct (block ax m) as [[[a b] c] dd]. revert RC. generalize (roots c (dd - a) (- b)). intros rs H.
        induction rs as [|r rs IH]; [reflexivity|]. cbn [filter]. rewrite (proj2 (ceqb_true _ _) (H r (or_introl eq_refl))), IH; [reflexivity|]. intros r' IN. apply H. right. exact IN. }
      apply (C38_eigenmodes rr m [CM (cdiv c1 x) c0 c0 (cdiv c1 y); CM (cdiv c1 (Cx (re x) (- im x))) c0 c0 (cdiv c1 (Cx (re y) (- im y)))]); auto.
      * intros a b c r IN. unfold rr in IN. apply filter_In in IN. apply ceqb_true, IN.
      * unfold eigenmodes in EM |- *. rewrite !KEEP. exact EM.
      * left. reflexivity.
    + assert (NEG : forall z, 0 < im z -> im (cdiv c1 z) < 0).
      { intros [a b] H. cbn in H. destruct (inv_parts a b ltac:(lra)) as (_ & E). rewrite E. pose proof (sq_pos a b ltac:(lra)). assert (0 < b / (a * a + b * b)) by (apply Rdiv_lt_0_compat; auto). replace (- b / (a * a + b * b)) with (- (b / (a * a + b * b))) by (unfold Rdiv; ring). lra. }
      unfold diag. destruct axis; apply NEG; auto.
  - assert (CJ : forall z, 0 < im z -> cdiv c1 (Cx (re z) (- im z)) = Cx (re (cdiv c1 z)) (- im (cdiv c1 z))).
    { intros [a b] H. cbn [re im] in *. pose proof (sq_pos a b ltac:(lra)). apply cx_eq; unfold cdiv, cinv, cabs2, c1; cbn [re im cmul]; field; lra. }
    intros axis. unfold diag. destruct axis; cbn [c00 c11]; apply CJ; auto.
Qed.

(** ** Example *)
(** such a pair of roots exists for every quadratic *)
Definition textbook_roots (a b c : R) : list cx := let r := Cx (- b / (2 * a)) (sqrt (4 * a * c - b ^ 2) / (2 * Rabs a)) in [r; Cx (re r) (- im r)].
Lemma textbook_root_pair : root_pair textbook_roots.
Proof.
  intros a b c A D. unfold textbook_roots. set (r := Cx (- b / (2 * a)) (sqrt (4 * a * c - b ^ 2) / (2 * Rabs a))). exists r. split; [reflexivity|].
  assert (AP : 0 < Rabs a) by (apply Rabs_pos_lt; auto). split; [unfold r; cbn [im]; apply Rdiv_lt_0_compat; [apply sqrt_lt_R0; lra|lra]|].
  assert (SQ : im r ^ 2 = (4 * a * c - b ^ 2) / (4 * a ^ 2)).
  { unfold r. cbn [im]. transitivity (sqrt (4 * a * c - b ^ 2) ^ 2 / (4 * Rabs a ^ 2)); [field; lra|]. rewrite pow2_sqrt by lra. rewrite RPow_abs, Rabs_pos_eq by (cbn [pow]; nra). reflexivity. }
  assert (RE : re r = - b / (2 * a)) by reflexivity. destruct r as [x y]. cbn [re im] in SQ, RE. apply cx_eq; cbn [re im cmul cadd rc c0].
  - transitivity (a * (x ^ 2 - y ^ 2) + b * x + c); [ring|]. rewrite SQ, RE. field. auto.
  - rewrite RE. field. auto.
Qed.
(** mirrors of radius two at a distance of one: the waist is in the middle *)
Example C102_example : exists e0 e1 e2 s m q q', root_pair textbook_roots /\ upright e0 /\ refractive_index [e0; e1; e2] 1 0 = 1 /\ cavity_mirror 1 1 e1 s /\ cavity_mirror 1 1 e2 s /\
  sys_matrix [e0; e1; e2] 1 1 None = (1, Some m) /\ stable m false = true /\ stable m true = true /\ eigenmodes textbook_roots m = Some [q; q'] /\
  forall axis, waist_position 1 axis q = Some (1/2) /\ exists w, spot_radius 1 (/ PI) axis q = Some w /\ w ^ 4 = 4/3.
Proof.
  destruct (cavity (-1/2)) as (e0 & e1 & e2 & s & U & I & C1 & C2 & _ & _ & G).
  assert (ST : exists m, sys_matrix [e0; e1; e2] 1 1 None = (1, Some m) /\ stable m false = true /\ stable m true = true).
  { destruct (C88_two_mirrors e0 e1 e2 s s 1 1 false ltac:(lra) U I C1 C2) as (m & S & _ & F & _). destruct (C88_two_mirrors e0 e1 e2 s s 1 1 true ltac:(lra) U I C1 C2) as (m' & S' & _ & T & _).
    rewrite S in S'. injection S' as <-. destruct (G false) as (A & B). destruct (G true) as (A' & B'). rewrite A, B in F. rewrite A', B' in T. exists m. split; [exact S|]. split; [apply F; lra|apply T; lra]. }
  destruct ST as (m & S & F & T). assert (PP := PI_RGT_0).
  destruct (C102_reported textbook_roots e0 e1 e2 s s 1 1 (/ PI) m textbook_root_pair ltac:(lra) ltac:(lra) ltac:(apply Rinv_0_lt_compat; lra) U I C1 C2 S F T) as (q & q' & E & M & _).
  exists e0, e1, e2, s, m, q, q'. split; [apply textbook_root_pair|]. repeat (split; [assumption|]). intros axis. destruct (M axis) as ((w & W1 & W2 & W3) & _ & WP & _). destruct (G axis) as (A & B). rewrite A, B in *.
  split; [rewrite WP; f_equal; field|]. exists w. split; [exact W1|]. rewrite W3. replace (1 * 1 / (PI * / PI)) with 1 by (field; lra). field.
Qed.
