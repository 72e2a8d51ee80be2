(** Property C96: third order aberrations of the thin lens.  What the listed coefficients of a lens of two conic surfaces
    without thickness add up to in terms of power, shape and conjugates; the best shape, the shape without coma, what no shape
    can change, and what one aspheric surface can. *)
From Coq Require Import Reals List Lra Lia Psatz.
From Verif Require Import Base Vec RotModel RotProofs PlacementModel PlacementProofs ElementModel PropsRescale
  ParaxialModel ParaxialProofs LimitProofs PropsLimit PupilModel ParaxTraceModel PropsConjugates SeidelModel PropsSeidel PropsStopShift PropsDesign.
Import ListNotations.
Open Scope R_scope.

(** ** Specification *)
(** sums of the columns *)
Definition sums (xs : list coefs) : coefs :=
  Coefs (column tsc xs) (column cc xs) (column tac xs) (column tpc xs) (column dc xs) (column tachc xs) (column tchc xs).
(** a lens without thickness in vacuum: index [n] and its change [dn] over the spectrum, curvatures and conic constants *)
Record thin := Thin { t_n : R; t_dn : R; t_c1 : R; t_k1 : R; t_c2 : R; t_k2 : R }.
Definition t_power (t : thin) : R := (t_n t - 1) * (t_c1 t - t_c2 t).
(** shape: -1, 0, 1 for plano-convex, equiconvex and convex-plano lenses *)
Definition t_shape (t : thin) : R := (t_c1 t + t_c2 t) / (t_c1 t - t_c2 t).
(** departure of the two conics from spheres *)
Definition t_asphere (t : thin) : R := (t_n t - 1) * (t_k1 t * t_c1 t ^ 3 - t_k2 t * t_c2 t ^ 3).
(** conjugates: 1 for an object in the front focus, -1 for an object at infinity, 0 for equal distances; [u] and [u'] are the
    slopes of the marginal ray *)
Definition conjugates (u u' : R) : R := (u + u') / (u - u').
(** the textbook sums for a stop at the lens; [h] height of the marginal ray, [H] Lagrange invariant *)
Definition spherical (n q p : R) : R :=
  (n / (n - 1)) ^ 2 + (n + 2) / (n * (n - 1) ^ 2) * (q + 2 * (n ^ 2 - 1) / (n + 2) * p) ^ 2 - n / (n + 2) * p ^ 2.
Definition coma (n q p : R) : R := (n + 1) / (n * (n - 1)) * q + (2 * n + 1) / n * p.
Definition thin_sums (t : thin) (h H p : R) : coefs :=
  let n := t_n t in let f := t_power t in let q := t_shape t in
  Coefs (h ^ 4 / (2 * H) * (f ^ 3 / 4 * spherical n q p + t_asphere t)) (- (h ^ 2 * f ^ 2 / 4) * coma n q p) (H * f / 2) (H * f / (2 * n)) 0
        (h ^ 2 / H * (f * t_dn t / (n - 1))) 0.
(** the lens as a system: object, two surfaces, image *)
Definition is_thin (t : thin) (l l1 l2 : R) (es : list element) : Prop :=
  exists e0 e1 e2 img m1 m2 b1 b2, es = [e0; e1; e2; img] /\ Forall (fun e => p_angles (e_place e) = v0) [e1; e2; img] /\ p_distance (e_place e2) = 0 /\
    e_kind e1 = Sph (Some m1) (Surf (t_c1 t) (t_k1 t) None b1) /\ e_kind e2 = Sph (Some m2) (Surf (t_c2 t) (t_k2 t) None b2) /\
    m_mirror m1 = false /\ m_mirror m2 = false /\ m_index m1 l = t_n t /\ m_index m1 l1 - m_index m1 l2 = t_dn t /\ (forall w, m_index m2 w = 1) /\
    match e_kind img with Sph (Some _) _ => False | Sph None s => s_asph s = None | Plain => True end.

(** ** Two surfaces *)
Definition plus (x y : coefs) : coefs :=
  Coefs (tsc x + tsc y) (cc x + cc y) (tac x + tac y) (tpc x + tpc y) (dc x + dc y) (tachc x + tachc y) (tchc x + tchc y).
Lemma shifted_plus q x y : stop_shifted q (plus x y) = plus (stop_shifted q x) (stop_shifted q y).
Proof. unfold stop_shifted, plus. apply coefs_eq; cbn [tsc cc tac tpc dc tachc tchc]; ring. Qed.
Lemma two_surfaces n dn c1 k1 c2 k2 h u H : 0 < n -> n <> 1 -> c1 <> c2 -> h <> 0 -> H <> 0 ->
  let uc := - H / h in let u1 := u + (1 - n) * c1 * h in let u2 := u1 + (n - 1) * c2 * h in
  plus (sev (k1 * c1 ^ 3 / 8) c1 n 1 0 dn h 0 u uc u1 uc) (sev (k2 * c2 ^ 3 / 8) c2 1 n dn 0 h 0 u1 uc u2 uc) =
  thin_sums (Thin n dn c1 k1 c2 k2) h H (conjugates u u2).
Proof.
  intros N N1 C Hh HH uc u1 u2. assert (E : forall x, x * 0 - uc * h = H) by (intros x; unfold uc; field; exact Hh).
  assert (N0 : n <> 0) by lra. assert (D : n - 1 <> 0) by lra. assert (D2 : n + 2 <> 0) by lra. assert (DC : c1 - c2 <> 0) by lra.
  assert (P : u - u2 = h * ((n - 1) * (c1 - c2))) by (unfold u2, u1; ring).
  unfold plus, sev, thin_sums, spherical, coma, conjugates, t_power, t_shape, t_asphere. cbn [t_n t_dn t_c1 t_k1 t_c2 t_k2 tsc cc tac tpc dc tachc tchc]. rewrite !E, P.
  apply coefs_eq; cbn [tsc cc tac tpc dc tachc tchc]; unfold u2, u1, uc; field; repeat split; auto.
Qed.

(** ** The theorem for the listed coefficients *)
Theorem C96_thin_lens t axis l l1 l2 es y u rs xs r1 r2 : is_thin t l l1 l2 es -> 0 < t_n t -> t_n t <> 1 -> t_c1 t <> t_c2 t ->
  ptrace axis l es y u 1 = Some rs -> aberrations l1 l2 es rs = Some xs -> nth_error rs 1 = Some r1 -> nth_error rs 2 = Some r2 -> fst (ry r1) <> 0 ->
  let h := fst (ry r1) in let H := fst u * snd y - snd u * fst y in
  H <> 0 /\ ry r2 = ry r1 /\ fst (ru r2) = fst u - h * t_power t /\
  sums xs = stop_shifted (snd (ry r1) / h) (thin_sums t h H (conjugates (fst u) (fst (ru r2)))).
Proof.
  intros (e0 & e1 & e2 & img & m1 & m2 & b1 & b2 & -> & AN & T & K1 & K2 & M1 & M2 & N & DN & AIR & IM) NP N1 CC P A R1 R2 HN h H.
  inversion AN as [|? ? A1 AN']; subst. inversion AN' as [|? ? A2 AN'']; subst. inversion AN'' as [|? ? A3 _]; subst. clear AN AN' AN''.
  cbn [ptrace] in P. set (vm := V4 (fst y) (fst y) (fst u) (fst u)) in *. set (vc := V4 (snd y) (snd y) (snd u) (snd u)) in *.
  cbn [ptrace_from] in P. unfold propagate_paraxial in P.
  destruct (paraxial_matrix e1 1 l) as [n1 [X1|]] eqn:P1; cbn [obind] in P; [|discriminate].
  destruct (element_rows e1 1 l n1 X1 ltac:(lra) A1 ltac:(rewrite K1, M1; lra) P1) as (I1 & Q1 & W1). rewrite K1 in W1. unfold index_after in I1. rewrite K1, N in I1.
  destruct (paraxial_matrix e2 n1 l) as [n2 [X2|]] eqn:P2; cbn [obind] in P; [|discriminate].
  destruct (element_rows e2 n1 l n2 X2 Q1 A2 ltac:(rewrite K2, M2, AIR; lra) P2) as (I2 & Q2 & W2). rewrite K2 in W2. unfold index_after in I2. rewrite K2, AIR in I2.
  destruct (paraxial_matrix img n2 l) as [n3 [X3|]] eqn:P3; cbn [obind] in P; [|discriminate].
  assert (IK : match e_kind img with Sph (Some m) _ => if m_mirror m then n2 = 1 /\ m_index m l = 1 else 0 < m_index m l | _ => True end) by (destruct (e_kind img) as [|[|]]; tauto).
  destruct (element_rows img n2 l n3 X3 Q2 A3 IK P3) as (I3 & Q3 & W3). assert (I3' : n3 = n2) by (rewrite I3; unfold index_after; destruct (e_kind img) as [|[|]]; tauto). clear I3.
  injection P as <-. cbn [nth_error] in R1, R2. injection R1 as <-. injection R2 as <-. cbn [ry ru fst snd] in *.
  set (ym := row_y axis (mv4 X1 vm)) in *. set (yc := row_y axis (mv4 X1 vc)) in *.
  destruct (W1 axis vm) as (Y1m & c & E & U1m). unfold vertex_curvature in E. cbn in E. injection E as <-. destruct (W1 axis vc) as (Y1c & c & E & U1c). cbn in E. injection E as <-.
  destruct (W2 axis (mv4 X1 vm)) as (Y2m & c & E & U2m). cbn in E. injection E as <-. destruct (W2 axis (mv4 X1 vc)) as (Y2c & c & E & U2c). cbn in E. injection E as <-.
  fold ym in Y1m, U1m, Y2m. fold yc in Y1c, U1c, Y2c. rewrite T in Y2m, Y2c. unfold Rdiv in Y2m, Y2c. rewrite !Rmult_0_l, Rplus_0_r in Y2m, Y2c.
  unfold signed in U1m, U1c, U2m, U2c. rewrite M1 in U1m, U1c. rewrite M2 in U2m, U2c. rewrite Y2m in U2m. rewrite Y2c in U2c. rewrite I2 in U2m, U2c. rewrite I1 in U1m, U1c, U2m, U2c.
  assert (VM : row_u axis vm = fst u) by (unfold row_u, vm; destruct axis; reflexivity). assert (VC : row_u axis vc = snd u) by (unfold row_u, vc; destruct axis; reflexivity).
  assert (VYM : row_y axis vm = fst y) by (unfold row_y, vm; destruct axis; reflexivity). assert (VYC : row_y axis vc = snd y) by (unfold row_y, vc; destruct axis; reflexivity).
  rewrite VM, VYM in *. rewrite VC, VYC in *.
  assert (HE : fst u * yc - snd u * ym = H) by (unfold H; rewrite Y1m, Y1c; field).
  cbn [aberrations aberrations_from] in A. unfold element_aberration, element_dispersion in A. rewrite K1, K2 in A. cbn [ry ru rn] in A.
  destruct (aberration (Some m1) _ _ _ _ _ _ _ _) as [x1|] eqn:S1; cbn [obind] in A; [|discriminate].
  destruct (aberration (Some m2) _ _ _ _ _ _ _ _) as [x2|] eqn:S2; cbn [obind] in A; [|discriminate].
  destruct (match e_kind img with Plain => _ | Sph _ _ => _ end) as [x3|] eqn:S3; cbn [obind] in A; [|discriminate]. injection A as <-.
  rewrite DN in S1. rewrite !AIR, DN in S2. rewrite !AIR in S3. replace (1 - 1) with 0 in S2, S3 by ring.
  rewrite <- (surjective_pairing u) in S1 || rewrite (surjective_pairing u) in S1.
  apply aberration_sev in S1. destruct S1 as (k & c & E & _ & _ & LZ & ->). unfold departure in E. cbn [s_c s_k s_asph] in E. assert (k = t_k1 t * t_c1 t ^ 3 / 8) as -> by congruence. assert (c = t_c1 t) as -> by congruence. clear E.
  apply aberration_sev in S2. destruct S2 as (k & c & E & _ & _ & _ & ->). unfold departure in E. cbn [s_c s_k s_asph] in E. assert (k = t_k2 t * t_c2 t ^ 3 / 8) as -> by congruence. assert (c = t_c2 t) as -> by congruence. clear E.
  unfold signed in *. rewrite M1, M2 in *.
  assert (X3E : x3 = no_coefs).
  { destruct (e_kind img) as [|[mi|] si]; [injection S3 as <-; reflexivity|contradiction|]. apply aberration_sev in S3. destruct S3 as (k & c & _ & G1 & G2 & G3 & ->).
    unfold signed in *. subst n3 n2. destruct (W3 axis (mv4 X2 (mv4 X1 vm))) as (_ & cc0 & _ & EM). destruct (W3 axis (mv4 X2 (mv4 X1 vc))) as (_ & cc1 & _ & EC).
    replace (1 - 1) with 0 in EM, EC by ring. rewrite Rmult_0_l, Rmult_0_l, Rplus_0_r in EM, EC.
    rewrite EC in *. apply coefs_eq; unfold sev, no_coefs; cbn [tsc cc tac tpc dc tachc tchc]; field; auto. }
  subst x3. subst n1 n2. rewrite Y2m, Y2c.
  assert (HNZ : H <> 0).
  { intros Z. apply LZ. rewrite U1m, U1c. rewrite <- HE in Z. lra. }
  split; [exact HNZ|]. split; [reflexivity|].
  split; [rewrite U2m, U1m; unfold t_power, h; ring|].
  set (Q := yc / ym). assert (YC : yc = 0 + Q * ym) by (unfold Q; field; exact HN).
  assert (UC : snd u = - H / h + Q * fst u) by (unfold Q, h; rewrite <- HE; field; exact HN).
  assert (U1 : row_u axis (mv4 X1 vc) = - H / h + Q * row_u axis (mv4 X1 vm)) by (rewrite U1c, U1m, UC, YC; ring).
  assert (U2 : row_u axis (mv4 X2 (mv4 X1 vc)) = - H / h + Q * row_u axis (mv4 X2 (mv4 X1 vm))) by (rewrite U2c, U2m, U1, YC; ring).
  assert (FIX : forall g c x, - H / h = - H / h + g * c * (0 * x)) by (intros; ring).
  transitivity (plus (sev (t_k1 t * t_c1 t ^ 3 / 8) (t_c1 t) (t_n t) 1 0 (t_dn t) ym yc (fst u) (snd u) (row_u axis (mv4 X1 vm)) (row_u axis (mv4 X1 vc)))
    (sev (t_k2 t * t_c2 t ^ 3 / 8) (t_c2 t) 1 (t_n t) (t_dn t) 0 ym yc (row_u axis (mv4 X1 vm)) (row_u axis (mv4 X1 vc)) (row_u axis (mv4 X2 (mv4 X1 vm))) (row_u axis (mv4 X2 (mv4 X1 vc))))).
  { unfold sums, column, plus, no_coefs. cbn [fold_right tsc cc tac tpc dc tachc tchc]. apply coefs_eq; cbn [tsc cc tac tpc dc tachc tchc]; ring. }
  fold Q. pose proof (two_surfaces (t_n t) (t_dn t) (t_c1 t) (t_k1 t) (t_c2 t) (t_k2 t) h (fst u) H NP N1 CC HN HNZ) as TS. cbv zeta in TS.
  replace (Thin (t_n t) (t_dn t) (t_c1 t) (t_k1 t) (t_c2 t) (t_k2 t)) with t in TS by (destruct t; reflexivity).
  rewrite U2m, U1m at 1. change ym with h in TS |- *. change (yc / h) with Q. clearbody Q.
  replace (conjugates (fst u) (row_u axis (mv4 X2 (mv4 X1 vm)))) with (conjugates (fst u) (fst u + (1 - t_n t) * t_c1 t * h + (t_n t - 1) * t_c2 t * h)) by (rewrite U2m, U1m; reflexivity).
  rewrite <- TS, shifted_plus. rewrite YC, U1, U2, UC, U2m, U1m.
  pose proof (sev_shift (t_k1 t * t_c1 t ^ 3 / 8) (t_c1 t) (t_n t) 1 0 (t_dn t) h 0 (fst u) (- H / h) Q ltac:(lra) ltac:(lra)) as G1. cbv zeta in G1.
  pose proof (sev_shift (t_k2 t * t_c2 t ^ 3 / 8) (t_c2 t) 1 (t_n t) (t_dn t) 0 h 0 (fst u + (1 - t_n t) * t_c1 t * h) (- H / h) Q ltac:(lra) ltac:(lra)) as G2. cbv zeta in G2.
  rewrite !Rmult_0_r, !Rplus_0_r in G1, G2.
  assert (NZ : 0 - - H / h * h <> 0) by (intros Z; apply HNZ; unfold Rdiv in Z; rewrite Rmult_assoc, Rinv_l in Z by exact HN; lra).
  specialize (G1 NZ). specialize (G2 NZ). change ym with h. apply (f_equal2 plus); [exact G1|exact G2].
Qed.

(** ** Bending: what the shape changes and what it does not *)
(** two lenses of the same glass and power, met by the same rays *)
Definition bent (t t' : thin) : Prop := t_n t' = t_n t /\ t_dn t' = t_dn t /\ t_power t' = t_power t.
Lemma bent_shape t t' : bent t t' -> t_n t <> 1 -> t_c1 t <> t_c2 t -> t_shape t' = t_shape t -> t_c1 t' = t_c1 t /\ t_c2 t' = t_c2 t.
Proof.
  intros (N & _ & P) N1 C S. unfold t_power in P. rewrite N in P. assert (D : t_c1 t' - t_c2 t' = t_c1 t - t_c2 t) by (apply (Rmult_eq_reg_l (t_n t - 1)); [exact P|lra]).
  unfold t_shape in S. rewrite D in S. assert (E : t_c1 t' + t_c2 t' = t_c1 t + t_c2 t) by (apply (Rmult_eq_reg_r (/ (t_c1 t - t_c2 t))); [exact S|apply Rinv_neq_0_compat; lra]). lra.
Qed.
(** for light between real object and real image, p^2 <= 1, no shape is free of spherical aberration *)
Lemma spherical_positive n q p : 1 < n -> p ^ 2 <= 1 -> 0 < spherical n q p.
Proof.
  intros N P. unfold spherical. assert (A : 0 < n * (n - 1) ^ 2) by (apply Rmult_lt_0_compat; [lra|apply pow_lt; lra]).
  assert (B : 0 <= (n + 2) / (n * (n - 1) ^ 2) * (q + 2 * (n ^ 2 - 1) / (n + 2) * p) ^ 2).
  { apply Rmult_le_pos; [|apply pow2_ge_0]. left. apply Rdiv_lt_0_compat; [lra|exact A]. }
  assert (C : n / (n + 2) * p ^ 2 <= n / (n + 2)) by (assert (0 < n / (n + 2)) by (apply Rdiv_lt_0_compat; lra); nra).
  assert (D : n / (n + 2) < (n / (n - 1)) ^ 2).
  { apply Rlt_trans with 1; [apply (Rmult_lt_reg_r (n + 2)); [lra|]; unfold Rdiv; rewrite Rmult_assoc, Rinv_l by lra; lra|].
    assert (1 < n / (n - 1)) by (apply (Rmult_lt_reg_r (n - 1)); [lra|]; unfold Rdiv; rewrite Rmult_assoc, Rinv_l by lra; lra). nra. }
  lra.
Qed.
(** least spherical aberration *)
Definition best_shape (n p : R) : R := - (2 * (n ^ 2 - 1) / (n + 2) * p).
Lemma spherical_best n q p : 1 < n -> q <> best_shape n p -> spherical n (best_shape n p) p < spherical n q p.
Proof.
  intros N Q. unfold spherical. set (k := 2 * (n ^ 2 - 1) / (n + 2) * p). assert (BE : best_shape n p = - k) by reflexivity. rewrite BE in *.
  assert (A : 0 < (n + 2) / (n * (n - 1) ^ 2)) by (apply Rdiv_lt_0_compat; [lra|apply Rmult_lt_0_compat; [lra|apply pow_lt; lra]]).
  assert (B : 0 < (q + k) ^ 2) by (assert (q + k <> 0) by lra; nra). replace (- k + k) with 0 by ring. nra.
Qed.
Theorem C96_best_form t t' axis l l1 l2 es es' y u rs rs' xs xs' r1 r2 r1' r2' : is_thin t l l1 l2 es -> is_thin t' l l1 l2 es' -> bent t t' -> 1 < t_n t -> t_c1 t <> t_c2 t ->
  t_asphere t = 0 -> t_asphere t' = 0 ->
  ptrace axis l es y u 1 = Some rs -> aberrations l1 l2 es rs = Some xs -> nth_error rs 1 = Some r1 -> nth_error rs 2 = Some r2 -> fst (ry r1) <> 0 ->
  ptrace axis l es' y u 1 = Some rs' -> aberrations l1 l2 es' rs' = Some xs' -> nth_error rs' 1 = Some r1' -> nth_error rs' 2 = Some r2' -> ry r1' = ry r1 ->
  let p := conjugates (fst u) (fst (ru r2)) in p ^ 2 <= 1 ->
  column tsc xs <> 0 /\ (t_shape t = best_shape (t_n t) p -> Rabs (column tsc xs) <= Rabs (column tsc xs') /\
    (Rabs (column tsc xs) = Rabs (column tsc xs') -> t_c1 t' = t_c1 t /\ t_c2 t' = t_c2 t)).
Proof.
  intros TH TH' B N C K K' P A R1 R2 HN P' A' R1' R2' SAME p PP. pose proof B as (BN & BD & BP).
  destruct (C96_thin_lens t axis l l1 l2 es y u rs xs r1 r2 TH ltac:(lra) ltac:(lra) C P A R1 R2 HN) as (HZ & _ & U & S).
  assert (C' : t_c1 t' <> t_c2 t').
  { intros E. unfold t_power in BP. rewrite E, BN in BP. replace (t_c2 t' - t_c2 t') with 0 in BP by ring. rewrite Rmult_0_r in BP. symmetry in BP. apply Rmult_integral in BP. lra. }
  destruct (C96_thin_lens t' axis l l1 l2 es' y u rs' xs' r1' r2' TH' ltac:(rewrite BN; lra) ltac:(rewrite BN; lra) C' P' A' R1' R2' ltac:(rewrite SAME; exact HN)) as (_ & _ & U' & S').
  rewrite SAME in U', S'. rewrite BP, <- U in U'. rewrite U' in S'. fold p in S, S'. set (h := fst (ry r1)) in *. set (H := fst u * snd y - snd u * fst y) in *. clearbody p.
  assert (E : column tsc xs = h ^ 4 / (2 * H) * (t_power t ^ 3 / 4) * spherical (t_n t) (t_shape t) p).
  { change (column tsc xs) with (tsc (sums xs)). rewrite S. unfold stop_shifted, thin_sums. cbn [tsc]. rewrite K. ring. }
  assert (E' : column tsc xs' = h ^ 4 / (2 * H) * (t_power t ^ 3 / 4) * spherical (t_n t) (t_shape t') p).
  { change (column tsc xs') with (tsc (sums xs')). rewrite S'. unfold stop_shifted, thin_sums. cbn [tsc]. rewrite K', BN, BP. ring. }
  set (F := h ^ 4 / (2 * H) * (t_power t ^ 3 / 4)) in *.
  assert (FN : F <> 0).
  { assert (PN : t_power t <> 0) by (unfold t_power; apply Rmult_integral_contrapositive_currified; lra).
    unfold F. apply Rmult_integral_contrapositive_currified; apply Rmult_integral_contrapositive_currified; [apply pow_nonzero; exact HN|apply Rinv_neq_0_compat; lra|apply pow_nonzero; exact PN|lra]. }
  clearbody F. pose proof (spherical_positive (t_n t) (t_shape t) p N PP) as SP. pose proof (spherical_positive (t_n t) (t_shape t') p N PP) as SP'.
  rewrite E, E', !Rabs_mult, (Rabs_pos_eq (spherical (t_n t) (t_shape t) p)), (Rabs_pos_eq (spherical (t_n t) (t_shape t') p)) by lra. pose proof (Rabs_pos_lt F FN) as FP.
  split; [apply Rmult_integral_contrapositive_currified; lra|]. intros BS. rewrite BS.
  destruct (Req_dec (t_shape t') (best_shape (t_n t) p)) as [Q|Q].
  - rewrite Q. split; [lra|]. intros _. apply (bent_shape t t' B); [lra|exact C|congruence].
  - pose proof (spherical_best (t_n t) (t_shape t') p N Q) as L. split; [nra|]. intros Z. exfalso. nra.
Qed.
Lemma aberration_some m s ym yc um0 uc0 um uc n0 n v w kc : departure s = Some kc -> n0 <> 0 -> signed m n <> 0 -> um * yc - uc * ym <> 0 ->
  exists x, aberration m s (ym, yc) (um0, uc0) (um, uc) n0 n v w = Some x.
Proof. destruct kc as [k c]. intros D A B C. eexists. apply aberration_sev. exists k, c. repeat split; auto. Qed.
(** the trace of a thin lens and its coefficients exist; [d] is the distance from the object to the lens *)
Lemma thin_trace t axis l l1 l2 es y u : is_thin t l l1 l2 es -> 0 < t_n t -> fst u * snd y - snd u * fst y <> 0 ->
  exists rs xs r1 r2, ptrace axis l es y u 1 = Some rs /\ aberrations l1 l2 es rs = Some xs /\ nth_error rs 1 = Some r1 /\ nth_error rs 2 = Some r2 /\
    forall e1, nth_error es 1 = Some e1 -> let d := p_distance (e_place e1) in ry r1 = (fst y + d * fst u, snd y + d * snd u).
Proof.
  intros (e0 & e1 & e2 & img & m1 & m2 & b1 & b2 & -> & AN & T & K1 & K2 & M1 & M2 & N & DN & AIR & IM) NP HZ.
  inversion AN as [|? ? A1 AN']; subst. inversion AN' as [|? ? A2 AN'']; subst. inversion AN'' as [|? ? A3 _]; subst. clear AN AN' AN''.
  assert (L1 : lens_surface l e1) by (split; [exact A1|]; intros mt s0 E; rewrite K1 in E; injection E as <- <-; split; [discriminate|]; intros m E; injection E as <-; rewrite N; auto).
  assert (L2 : lens_surface l e2) by (split; [exact A2|]; intros mt s0 E; rewrite K2 in E; injection E as <- <-; split; [discriminate|]; intros m E; injection E as <-; rewrite AIR; split; [exact M2|lra]).
  assert (L3 : lens_surface l img).
  { split; [exact A3|]. intros mt s0 E. rewrite E in IM. destruct mt; [contradiction|]. split; [|discriminate]. rewrite IM. discriminate. }
  destruct (lens_block axis l e1 1 L1 ltac:(lra)) as (X1 & P1 & _). unfold index_after in P1. rewrite K1, N in P1.
  destruct (lens_block axis l e2 (t_n t) L2 NP) as (X2 & P2 & _). unfold index_after in P2. rewrite K2, AIR in P2.
  destruct (lens_block axis l img 1 L3 ltac:(lra)) as (X3 & P3 & _).
  assert (I3 : index_after img 1 l = 1) by (unfold index_after; destruct (e_kind img) as [|[|]]; tauto). rewrite I3 in P3.
  destruct (element_rows e1 1 l (t_n t) X1 ltac:(lra) A1 ltac:(rewrite K1, M1; lra) P1) as (_ & _ & W1). rewrite K1 in W1.
  destruct (element_rows e2 (t_n t) l 1 X2 NP A2 ltac:(rewrite K2, M2, AIR; lra) P2) as (_ & _ & W2). rewrite K2 in W2.
  assert (IK : match e_kind img with Sph (Some m) _ => if m_mirror m then 1 = 1 /\ m_index m l = 1 else 0 < m_index m l | _ => True end) by (destruct (e_kind img) as [|[|]]; tauto).
  destruct (element_rows img 1 l 1 X3 ltac:(lra) A3 IK P3) as (_ & _ & W3).
  cbn [ptrace]. set (vm := V4 (fst y) (fst y) (fst u) (fst u)) in *. set (vc := V4 (snd y) (snd y) (snd u) (snd u)) in *.
  cbn [ptrace_from]. unfold propagate_paraxial. rewrite P1. cbn [obind]. rewrite P2. cbn [obind]. rewrite P3. cbn [obind].
  destruct (W1 axis vm) as (Y1m & c & E & U1m). unfold vertex_curvature in E. cbn in E. injection E as <-. destruct (W1 axis vc) as (Y1c & c & E & U1c). cbn in E. injection E as <-.
  destruct (W2 axis (mv4 X1 vm)) as (Y2m & c & E & U2m). cbn in E. injection E as <-. destruct (W2 axis (mv4 X1 vc)) as (Y2c & c & E & U2c). cbn in E. injection E as <-.
  destruct (W3 axis (mv4 X2 (mv4 X1 vm))) as (Y3m & U3m). destruct (W3 axis (mv4 X2 (mv4 X1 vc))) as (Y3c & U3c).
  unfold signed in U1m, U1c, U2m, U2c. rewrite M1 in U1m, U1c. rewrite M2 in U2m, U2c.
  assert (VM : row_u axis vm = fst u) by (unfold row_u, vm; destruct axis; reflexivity). assert (VC : row_u axis vc = snd u) by (unfold row_u, vc; destruct axis; reflexivity).
  assert (VYM : row_y axis vm = fst y) by (unfold row_y, vm; destruct axis; reflexivity). assert (VYC : row_y axis vc = snd y) by (unfold row_y, vc; destruct axis; reflexivity).
  rewrite VM, VYM in *. rewrite VC, VYC in *.
  set (ym := row_y axis (mv4 X1 vm)) in *. set (yc := row_y axis (mv4 X1 vc)) in *. set (um := row_u axis (mv4 X1 vm)) in *. set (uc := row_u axis (mv4 X1 vc)) in *.
  set (ym2 := row_y axis (mv4 X2 (mv4 X1 vm))) in *. set (yc2 := row_y axis (mv4 X2 (mv4 X1 vc))) in *. set (um2 := row_u axis (mv4 X2 (mv4 X1 vm))) in *. set (uc2 := row_u axis (mv4 X2 (mv4 X1 vc))) in *.
  set (ym3 := row_y axis (mv4 X3 (mv4 X2 (mv4 X1 vm)))) in *. set (yc3 := row_y axis (mv4 X3 (mv4 X2 (mv4 X1 vc)))) in *. set (um3 := row_u axis (mv4 X3 (mv4 X2 (mv4 X1 vm)))) in *. set (uc3 := row_u axis (mv4 X3 (mv4 X2 (mv4 X1 vc)))) in *.
  set (d := p_distance (e_place e1)) in *.
  assert (H1 : um * yc - uc * ym = fst u * snd y - snd u * fst y) by (rewrite U1m, U1c, Y1m, Y1c; field).
  assert (H2 : um2 * yc2 - uc2 * ym2 = fst u * snd y - snd u * fst y) by (rewrite <- H1, U2m, U2c, Y2m, Y2c, T; field; lra).
  destruct (aberration_some (Some m1) (Surf (t_c1 t) (t_k1 t) None b1) ym yc (fst u) (snd u) um uc 1 (t_n t) 0 (m_index m1 l1 - m_index m1 l2) _ eq_refl) as (x1 & S1); [lra|unfold signed; rewrite M1; lra|rewrite H1; exact HZ|].
  destruct (aberration_some (Some m2) (Surf (t_c2 t) (t_k2 t) None b2) ym2 yc2 um uc um2 uc2 (t_n t) 1 (m_index m1 l1 - m_index m1 l2) (m_index m2 l1 - m_index m2 l2) _ eq_refl) as (x2 & S2); [lra|unfold signed; rewrite M2; lra|rewrite H2; exact HZ|].
  assert (S3 : exists x3, element_aberration img (ym3, yc3) (um2, uc2) (um3, uc3) 1 1 (m_index m2 l1 - m_index m2 l2) (element_dispersion img l1 l2) = Some x3).
  { unfold element_aberration. destruct (e_kind img) as [|[mi|] si]; [eauto|contradiction|]. assert (D : departure si = Some (s_k si * s_c si ^ 3 / 8, s_c si)) by (unfold departure; rewrite IM; reflexivity).
    apply (aberration_some None si ym3 yc3 um2 uc2 um3 uc3 1 1 _ _ _ D); [lra|unfold signed; lra|].
    destruct U3m as (c3 & _ & U3m). destruct U3c as (c4 & _ & U3c). unfold signed in U3m, U3c. replace (1 - 1) with 0 in U3m, U3c by ring.
    assert (H3 : um3 * yc3 - uc3 * ym3 = fst u * snd y - snd u * fst y) by (rewrite <- H2, U3m, U3c, Y3m, Y3c; field). rewrite H3. exact HZ. }
  destruct S3 as (x3 & S3).
  exists [PRow y u 1; PRow (ym, yc) (um, uc) (t_n t); PRow (ym2, yc2) (um2, uc2) 1; PRow (ym3, yc3) (um3, uc3) 1], [no_coefs; x1; x2; x3], (PRow (ym, yc) (um, uc) (t_n t)), (PRow (ym2, yc2) (um2, uc2) 1).
  split; [reflexivity|]. split.
  { assert (D1 : element_dispersion e1 l1 l2 = m_index m1 l1 - m_index m1 l2) by (unfold element_dispersion; rewrite K1; reflexivity).
    assert (D2 : element_dispersion e2 l1 l2 = m_index m2 l1 - m_index m2 l2) by (unfold element_dispersion; rewrite K2; reflexivity).
    assert (F1 : element_aberration e1 (ym, yc) u (um, uc) 1 (t_n t) 0 (element_dispersion e1 l1 l2) = Some x1) by (rewrite D1; unfold element_aberration; rewrite K1, (surjective_pairing u); exact S1).
    assert (F2 : element_aberration e2 (ym2, yc2) (um, uc) (um2, uc2) (t_n t) 1 (element_dispersion e1 l1 l2) (element_dispersion e2 l1 l2) = Some x2) by (rewrite D1, D2; unfold element_aberration; rewrite K2; exact S2).
    cbn [aberrations aberrations_from ry ru rn]. rewrite F1. cbn [obind]. rewrite F2. cbn [obind]. rewrite D2, S3. reflexivity. }
  split; [reflexivity|]. split; [reflexivity|]. intros e E. cbn in E. injection E as <-. cbn [ry]. fold d. rewrite Y1m, Y1c. f_equal; field.
Qed.
(** the same glass in the same place with other surfaces *)
Definition reshaped (es : list element) (c1 k1 c2 k2 : R) : list element :=
  match es with
  | [e0; El p1 r1 (Sph m1 _); El p2 r2 (Sph m2 _); img] => [e0; El p1 r1 (Sph m1 (Surf c1 k1 None false)); El p2 r2 (Sph m2 (Surf c2 k2 None false)); img]
  | _ => es
  end.
Lemma reshaped_thin t l l1 l2 es c1 k1 c2 k2 : is_thin t l l1 l2 es -> is_thin (Thin (t_n t) (t_dn t) c1 k1 c2 k2) l l1 l2 (reshaped es c1 k1 c2 k2).
Proof.
  intros (e0 & e1 & e2 & img & m1 & m2 & b1 & b2 & -> & AN & T & K1 & K2 & M1 & M2 & N & DN & AIR & IM). destruct e1 as [p1 r1 kd1], e2 as [p2 r2 kd2]. cbn [e_kind e_place] in *. subst kd1 kd2.
  cbn [reshaped]. exists e0, (El p1 r1 (Sph (Some m1) (Surf c1 k1 None false))), (El p2 r2 (Sph (Some m2) (Surf c2 k2 None false))), img, m1, m2, false, false.
  split; [reflexivity|]. split; [|cbn; repeat split; auto]. inversion AN as [|? ? A1 AN']; subst. inversion AN' as [|? ? A2 AN'']; subst. repeat constructor; auto. inversion AN''; auto.
Qed.
(** tracing the reshaped lens; same rays at the lens, same conjugates for the same power *)
Lemma reshaped_trace t axis l l1 l2 es y u rs r1 c1 k1 c2 k2 : is_thin t l l1 l2 es -> 0 < t_n t -> ptrace axis l es y u 1 = Some rs -> nth_error rs 1 = Some r1 ->
  fst u * snd y - snd u * fst y <> 0 ->
  exists rs' xs' r1' r2', ptrace axis l (reshaped es c1 k1 c2 k2) y u 1 = Some rs' /\ aberrations l1 l2 (reshaped es c1 k1 c2 k2) rs' = Some xs' /\
    nth_error rs' 1 = Some r1' /\ nth_error rs' 2 = Some r2' /\ ry r1' = ry r1.
Proof.
  intros TH N P R1 H. destruct (thin_trace t axis l l1 l2 es y u TH N H) as (rs0 & xs0 & s1 & s2 & P0 & _ & S1 & _ & Y0). rewrite P in P0. injection P0 as <-. rewrite R1 in S1. injection S1 as <-.
  destruct (thin_trace _ axis l l1 l2 _ y u (reshaped_thin t l l1 l2 es c1 k1 c2 k2 TH) N H) as (rs' & xs' & r1' & r2' & P' & A' & R1' & R2' & Y').
  exists rs', xs', r1', r2'. repeat (split; [assumption|]).
  destruct TH as (e0 & e1 & e2 & img & m1 & m2 & b1 & b2 & -> & _ & _ & K1 & K2 & _). destruct e1 as [p1 q1 kd1], e2 as [p2 q2 kd2]. cbn [e_kind] in K1, K2. subst kd1 kd2.
  rewrite (Y' _ eq_refl), (Y0 _ eq_refl). reflexivity.
Qed.
Lemma bendable n p : 1 < n -> (exists q, spherical n q p = 0) <-> n * (n + 2) / (n - 1) ^ 2 <= p ^ 2.
Proof.
  intros N. set (k := 2 * (n ^ 2 - 1) / (n + 2) * p). set (a := (n + 2) / (n * (n - 1) ^ 2)).
  assert (D : 0 < (n - 1) ^ 2) by (apply pow_lt; lra). assert (A : 0 < a) by (apply Rdiv_lt_0_compat; [lra|apply Rmult_lt_0_compat; lra]).
  assert (E : forall q, spherical n q p = a * (q + k) ^ 2 + n / (n + 2) * (n * (n + 2) / (n - 1) ^ 2 - p ^ 2)) by (intros q; unfold spherical, a, k; field; lra).
  assert (B : 0 < n / (n + 2)) by (apply Rdiv_lt_0_compat; lra). set (d := n * (n + 2) / (n - 1) ^ 2 - p ^ 2) in *. split.
  - intros (q & Z). rewrite E in Z. assert (0 <= (q + k) ^ 2) by apply pow2_ge_0. assert (d <= 0); [|unfold d in *; lra]. clearbody d k a. set (b := n / (n + 2)) in *. clearbody b. nra.
  - intros Q. exists (sqrt (n / (n + 2) * - d / a) - k). rewrite E. replace (sqrt (n / (n + 2) * - d / a) - k + k) with (sqrt (n / (n + 2) * - d / a)) by ring.
    rewrite <- Rsqr_pow2, Rsqr_sqrt; [field; split; lra|]. apply Rmult_le_pos; [apply Rmult_le_pos; [lra|unfold d; lra]|left; apply Rinv_0_lt_compat; exact A].
Qed.
(** spherical aberration can be bent away exactly for conjugates far enough beyond those of real objects and images *)
Theorem C96_bendable t axis l l1 l2 es y u rs xs r1 r2 : is_thin t l l1 l2 es -> 1 < t_n t -> t_c1 t <> t_c2 t ->
  ptrace axis l es y u 1 = Some rs -> aberrations l1 l2 es rs = Some xs -> nth_error rs 1 = Some r1 -> nth_error rs 2 = Some r2 -> fst (ry r1) <> 0 ->
  let n := t_n t in
  (exists c1 c2 rs' xs', (n - 1) * (c1 - c2) = t_power t /\ ptrace axis l (reshaped es c1 0 c2 0) y u 1 = Some rs' /\
     aberrations l1 l2 (reshaped es c1 0 c2 0) rs' = Some xs' /\ column tsc xs' = 0) <->
  n * (n + 2) / (n - 1) ^ 2 <= conjugates (fst u) (fst (ru r2)) ^ 2.
Proof.
  intros TH N C P A R1 R2 HN n. assert (NN : 1 < n) by exact N.
  destruct (C96_thin_lens t axis l l1 l2 es y u rs xs r1 r2 TH ltac:(lra) ltac:(lra) C P A R1 R2 HN) as (HZ & _ & U & _).
  set (p := conjugates (fst u) (fst (ru r2))) in *. set (h := fst (ry r1)) in *. set (H := fst u * snd y - snd u * fst y) in *.
  assert (PN : t_power t <> 0) by (unfold t_power; apply Rmult_integral_contrapositive_currified; lra).
  assert (G : forall c1 c2 rs' xs', (n - 1) * (c1 - c2) = t_power t -> ptrace axis l (reshaped es c1 0 c2 0) y u 1 = Some rs' ->
    aberrations l1 l2 (reshaped es c1 0 c2 0) rs' = Some xs' -> column tsc xs' = h ^ 4 / (2 * H) * (t_power t ^ 3 / 4) * spherical n ((c1 + c2) / (c1 - c2)) p).
  { intros c1 c2 rs' xs' PW P' A'. destruct (reshaped_trace t axis l l1 l2 es y u rs r1 c1 0 c2 0 TH ltac:(lra) P R1 HZ) as (rs0 & xs0 & r1' & r2' & P0 & A0 & R1' & R2' & SAME).
    rewrite P' in P0. injection P0 as <-. rewrite A' in A0. injection A0 as <-.
    assert (C' : c1 <> c2) by (intros E; rewrite E in PW; replace (c2 - c2) with 0 in PW by ring; rewrite Rmult_0_r in PW; apply PN; symmetry; exact PW).
    destruct (C96_thin_lens _ axis l l1 l2 _ y u rs' xs' r1' r2' (reshaped_thin t l l1 l2 es c1 0 c2 0 TH) ltac:(cbn [t_n]; lra) ltac:(cbn [t_n]; lra) C' P' A' R1' R2' ltac:(rewrite SAME; exact HN)) as (_ & _ & U' & S').
    assert (PW' : t_power (Thin (t_n t) (t_dn t) c1 0 c2 0) = t_power t) by exact PW. rewrite SAME in U', S'. rewrite PW' in U'. fold h in U', S'. rewrite <- U in U'. rewrite U' in S'. fold p H in S'.
    change (column tsc xs') with (tsc (sums xs')). rewrite S'. unfold stop_shifted, thin_sums. cbn [tsc]. rewrite PW'. unfold t_asphere, t_shape. cbn [t_n t_dn t_c1 t_k1 t_c2 t_k2]. fold n. ring. }
  assert (FN : h ^ 4 / (2 * H) * (t_power t ^ 3 / 4) <> 0).
  { apply Rmult_integral_contrapositive_currified; apply Rmult_integral_contrapositive_currified; [apply pow_nonzero; exact HN|apply Rinv_neq_0_compat; lra|apply pow_nonzero; exact PN|lra]. }
  rewrite <- (bendable n p NN). split.
  - intros (c1 & c2 & rs' & xs' & PW & P' & A' & Z). rewrite (G _ _ _ _ PW P' A') in Z. apply Rmult_integral in Z. destruct Z as [Z|Z]; [contradiction|]. eauto.
  - intros (q & Z). set (w := t_power t / (n - 1)). assert (WN : w <> 0) by (apply Rmult_integral_contrapositive_currified; [exact PN|apply Rinv_neq_0_compat; lra]).
    assert (PW : (n - 1) * (w * (q + 1) / 2 - w * (q - 1) / 2) = t_power t) by (unfold w; field; lra).
    destruct (reshaped_trace t axis l l1 l2 es y u rs r1 (w * (q + 1) / 2) 0 (w * (q - 1) / 2) 0 TH ltac:(lra) P R1 HZ) as (rs' & xs' & _ & _ & P' & A' & _).
    exists (w * (q + 1) / 2), (w * (q - 1) / 2), rs', xs'. repeat (split; [assumption|]). rewrite (G _ _ _ _ PW P' A').
    replace ((w * (q + 1) / 2 + w * (q - 1) / 2) / (w * (q + 1) / 2 - w * (q - 1) / 2)) with q by (field; lra). rewrite Z. ring.
Qed.
(** stop at the lens: one shape without coma; astigmatism, field curvature, distortion and colour do not depend on the shape, and
    neither astigmatism nor field curvature vanish *)
Theorem C96_stop_at_lens t axis l l1 l2 es y u rs xs r1 r2 : is_thin t l l1 l2 es -> 1 < t_n t -> t_c1 t <> t_c2 t ->
  ptrace axis l es y u 1 = Some rs -> aberrations l1 l2 es rs = Some xs -> nth_error rs 1 = Some r1 -> nth_error rs 2 = Some r2 -> fst (ry r1) <> 0 -> snd (ry r1) = 0 ->
  let h := fst (ry r1) in let H := fst u * snd y - snd u * fst y in let n := t_n t in
  (column cc xs = 0 <-> t_shape t = - ((2 * n + 1) * (n - 1) / (n + 1)) * conjugates (fst u) (fst (ru r2))) /\
  column tac xs = H * t_power t / 2 /\ column tpc xs = H * t_power t / (2 * n) /\ column tac xs <> 0 /\ column tpc xs <> 0 /\ column tac xs + column tpc xs <> 0 /\
  column dc xs = 0 /\ column tachc xs = h ^ 2 / H * (t_power t * t_dn t / (n - 1)) /\ column tchc xs = 0.
Proof.
  intros TH N C P A R1 R2 HN SZ h H n.
  destruct (C96_thin_lens t axis l l1 l2 es y u rs xs r1 r2 TH ltac:(lra) ltac:(lra) C P A R1 R2 HN) as (HZ & _ & U & S).
  fold h H in HZ, U, S. rewrite SZ in S. unfold Rdiv in S at 1. rewrite Rmult_0_l in S. set (p := conjugates (fst u) (fst (ru r2))) in *.
  assert (PN : t_power t <> 0) by (unfold t_power; apply Rmult_integral_contrapositive_currified; lra).
  assert (W : forall f : coefs -> R, f (sums xs) = f (stop_shifted 0 (thin_sums t h H p))) by (intros f; rewrite S; reflexivity).
  assert (E2 : column cc xs = - (h ^ 2 * t_power t ^ 2 / 4) * coma n (t_shape t) p) by (rewrite (W cc : column cc xs = _); unfold stop_shifted, thin_sums; cbn [cc]; fold n; ring).
  assert (E3 : column tac xs = H * t_power t / 2) by (rewrite (W tac : column tac xs = _); unfold stop_shifted, thin_sums; cbn [tac]; ring).
  assert (E4 : column tpc xs = H * t_power t / (2 * n)) by (rewrite (W tpc : column tpc xs = _); unfold stop_shifted, thin_sums; cbn [tpc]; reflexivity).
  assert (E5 : column dc xs = 0) by (rewrite (W dc : column dc xs = _); unfold stop_shifted, thin_sums; cbn [dc]; ring).
  assert (E6 : column tachc xs = h ^ 2 / H * (t_power t * t_dn t / (n - 1))) by (rewrite (W tachc : column tachc xs = _); reflexivity).
  assert (E7 : column tchc xs = 0) by (rewrite (W tchc : column tchc xs = _); unfold stop_shifted, thin_sums; cbn [tchc]; ring).
  assert (HP : H * t_power t <> 0) by (apply Rmult_integral_contrapositive_currified; assumption).
  assert (NN : 1 < n) by exact N. split; [|split; [exact E3|]; split; [exact E4|]; rewrite E3, E4; repeat split; auto].
  - rewrite E2. unfold coma. assert (HH : h ^ 2 * t_power t ^ 2 / 4 <> 0) by (apply Rmult_integral_contrapositive_currified; [apply Rmult_integral_contrapositive_currified; apply pow_nonzero; auto|lra]).
    split.
    + intros Z. apply Rmult_integral in Z. destruct Z as [Z|Z]; [lra|]. apply (Rmult_eq_reg_l ((n + 1) / (n * (n - 1)))); [|apply Rmult_integral_contrapositive_currified; [lra|apply Rinv_neq_0_compat; apply Rmult_integral_contrapositive_currified; lra]].
      replace ((n + 1) / (n * (n - 1)) * (- ((2 * n + 1) * (n - 1) / (n + 1)) * p)) with (- ((2 * n + 1) / n * p)) by (field; lra). lra.
    + intros ->. field. lra.
  - lra.
  - apply Rmult_integral_contrapositive_currified; [exact HP|apply Rinv_neq_0_compat; lra].
  - replace (H * t_power t / 2 + H * t_power t / (2 * n)) with (H * t_power t * ((n + 1) / (2 * n))) by (field; lra).
    apply Rmult_integral_contrapositive_currified; [exact HP|]. apply Rmult_integral_contrapositive_currified; [lra|apply Rinv_neq_0_compat; lra].
Qed.
(** one conic constant of the first surface removes spherical aberration; with the stop at the lens no other sum depends on it *)
Theorem C96_asphere t axis l l1 l2 es y u rs xs r1 r2 : is_thin t l l1 l2 es -> 0 < t_n t -> t_n t <> 1 -> t_c1 t <> t_c2 t -> t_c1 t <> 0 ->
  ptrace axis l es y u 1 = Some rs -> aberrations l1 l2 es rs = Some xs -> nth_error rs 1 = Some r1 -> nth_error rs 2 = Some r2 -> fst (ry r1) <> 0 ->
  exists xs', (forall k, exists rs', ptrace axis l (reshaped es (t_c1 t) k (t_c2 t) (t_k2 t)) y u 1 = Some rs' /\
      aberrations l1 l2 (reshaped es (t_c1 t) k (t_c2 t) (t_k2 t)) rs' = Some (xs' k)) /\
    (exists k, column tsc (xs' k) = 0 /\ forall k', column tsc (xs' k') = 0 -> k' = k) /\
    (snd (ry r1) = 0 -> forall k, column cc (xs' k) = column cc xs /\ column tac (xs' k) = column tac xs /\ column tpc (xs' k) = column tpc xs /\
      column dc (xs' k) = column dc xs /\ column tachc (xs' k) = column tachc xs /\ column tchc (xs' k) = column tchc xs).
Proof.
  intros TH N N1 C C1 P A R1 R2 HN. destruct (C96_thin_lens t axis l l1 l2 es y u rs xs r1 r2 TH N N1 C P A R1 R2 HN) as (HZ & _ & U & S).
  set (p := conjugates (fst u) (fst (ru r2))) in *. set (h := fst (ry r1)) in *. set (H := fst u * snd y - snd u * fst y) in *. set (Q := snd (ry r1) / h) in *.
  set (tk := fun k => Thin (t_n t) (t_dn t) (t_c1 t) k (t_c2 t) (t_k2 t)).
  assert (G : forall k, exists rs' xs', ptrace axis l (reshaped es (t_c1 t) k (t_c2 t) (t_k2 t)) y u 1 = Some rs' /\ aberrations l1 l2 (reshaped es (t_c1 t) k (t_c2 t) (t_k2 t)) rs' = Some xs' /\
    sums xs' = stop_shifted Q (thin_sums (tk k) h H p)).
  { intros k. destruct (reshaped_trace t axis l l1 l2 es y u rs r1 (t_c1 t) k (t_c2 t) (t_k2 t) TH N P R1 HZ) as (rs' & xs' & r1' & r2' & P' & A' & R1' & R2' & SAME).
    exists rs', xs'. split; [exact P'|]. split; [exact A'|].
    destruct (C96_thin_lens (tk k) axis l l1 l2 _ y u rs' xs' r1' r2' (reshaped_thin t l l1 l2 es (t_c1 t) k (t_c2 t) (t_k2 t) TH) N N1 C P' A' R1' R2' ltac:(rewrite SAME; exact HN)) as (_ & _ & U' & S').
    rewrite SAME in U', S'. change (t_power (tk k)) with (t_power t) in U'. fold h in U', S'. rewrite <- U in U'. rewrite U' in S'. exact S'. }
  set (xk := fun k => match ptrace axis l (reshaped es (t_c1 t) k (t_c2 t) (t_k2 t)) y u 1 with Some r => match aberrations l1 l2 (reshaped es (t_c1 t) k (t_c2 t) (t_k2 t)) r with Some x => x | None => [] end | None => [] end).
  assert (SK : forall k, sums (xk k) = stop_shifted Q (thin_sums (tk k) h H p)) by (intros k; destruct (G k) as (rs' & xs' & P' & A' & E); unfold xk; rewrite P', A'; exact E).
  exists xk. split; [intros k; destruct (G k) as (rs' & xs' & P' & A' & _); exists rs'; split; [exact P'|]; unfold xk; rewrite P', A'; reflexivity|]. split.
  - set (a := t_power t ^ 3 / 4 * spherical (t_n t) (t_shape t) p - (t_n t - 1) * (t_k2 t * t_c2 t ^ 3)). set (b := (t_n t - 1) * t_c1 t ^ 3).
    assert (BN : b <> 0) by (apply Rmult_integral_contrapositive_currified; [lra|apply pow_nonzero; exact C1]).
    assert (GN : h ^ 4 / (2 * H) <> 0) by (apply Rmult_integral_contrapositive_currified; [apply pow_nonzero; exact HN|apply Rinv_neq_0_compat; lra]).
    assert (E : forall k, column tsc (xk k) = h ^ 4 / (2 * H) * (a + b * k)).
    { intros k. change (column tsc (xk k)) with (tsc (sums (xk k))). rewrite SK. unfold stop_shifted, thin_sums, t_asphere, a, b. cbn [tsc]. change (t_power (tk k)) with (t_power t). change (t_shape (tk k)) with (t_shape t). unfold tk. cbn [t_n t_c1 t_k1 t_c2 t_k2]. ring. }
    exists (- a / b). split; [rewrite E; field; split; assumption|]. intros k Z. rewrite E in Z. apply Rmult_integral in Z. destruct Z as [Z|Z]; [contradiction|].
    apply (Rmult_eq_reg_l b); [|exact BN]. replace (b * (- a / b)) with (- a) by (field; exact BN). lra.
  - intros Z k. assert (QZ : Q = 0) by (unfold Q; rewrite Z; unfold Rdiv; ring).
    assert (V : forall f : coefs -> R, f (sums (xk k)) = f (stop_shifted 0 (thin_sums (tk k) h H p))) by (intros f; rewrite SK, QZ; reflexivity).
    assert (W : forall f : coefs -> R, f (sums xs) = f (stop_shifted 0 (thin_sums t h H p))) by (intros f; rewrite S, QZ; reflexivity).
    repeat split; [rewrite (V cc : column cc (xk k) = _), (W cc : column cc xs = _)|rewrite (V tac : column tac (xk k) = _), (W tac : column tac xs = _)|rewrite (V tpc : column tpc (xk k) = _), (W tpc : column tpc xs = _)|
      rewrite (V dc : column dc (xk k) = _), (W dc : column dc xs = _)|rewrite (V tachc : column tachc (xk k) = _), (W tachc : column tachc xs = _)|rewrite (V tchc : column tchc (xk k) = _), (W tchc : column tchc xs = _)];
      unfold stop_shifted, thin_sums; cbn [tsc cc tac tpc dc tachc tchc]; change (t_power (tk k)) with (t_power t); change (t_shape (tk k)) with (t_shape t); change (t_n (tk k)) with (t_n t); change (t_dn (tk k)) with (t_dn t); ring.
Qed.

(** ** Examples: a lens of index 3/2 and power 1, one unit behind the object plane, stop at the lens; light of a distant object
    and light converging strongly; best form, shape without coma, equiconvex *)
Definition crown : material := Material (fun l => 3/2 - l) false true.
Definition vacuum : material := Material (fun _ => 1) false false.
Definition thin_crown (p0 p1 : placement) (c1 c2 : R) : list element :=
  [El p1 None (Sph (Some vacuum) (Surf 0 0 None false)); El p1 (Some 1) (Sph (Some crown) (Surf c1 0 None false));
   El p0 (Some 1) (Sph (Some vacuum) (Surf c2 0 None false)); El p1 None (Sph None (Surf 0 0 None false))].
Lemma thin_crown_is p0 p1 c1 c2 : p_angles p0 = v0 -> p_angles p1 = v0 -> p_distance p0 = 0 -> is_thin (Thin (3/2) (1/100) c1 0 c2 0) 0 0 (1/100) (thin_crown p0 p1 c1 c2).
Proof.
  intros A0 A1 D0. do 8 eexists. split; [reflexivity|]. split; [repeat constructor; cbn; assumption|]. split; [exact D0|].
  split; [reflexivity|]. split; [reflexivity|]. cbn. repeat split; lra.
Qed.
Example C96_example : exists p0 p1, forall c1 c2, let es := thin_crown p0 p1 c1 c2 in let t := Thin (3/2) (1/100) c1 0 c2 0 in
  is_thin t 0 0 (1/100) es /\ exists rs xs r1 r2, ptrace true 0 es (1, -1/10) (0, 1/10) 1 = Some rs /\ aberrations 0 (1/100) es rs = Some xs /\
    nth_error rs 1 = Some r1 /\ nth_error rs 2 = Some r2 /\ ry r1 = (1, 0) /\ t_asphere t = 0 /\
    (c1 - c2 = 2 -> t_power t = 1 /\ conjugates 0 (fst (ru r2)) = -1 /\ column tsc xs <> 0 /\ column tac xs = - (1/20) /\ column tpc xs = - (1/30) /\
      (column cc xs = 0 <-> c1 = 9/5) /\ (t_shape t = best_shape (3/2) (-1) <-> c1 = 12/7)).
Proof.
  destruct (centred_axis 0) as (p0 & _ & _ & D0 & _ & A0); [lra|]. destruct (centred_axis 1) as (p1 & _ & _ & D1 & _ & A1); [lra|]. exists p0, p1. intros c1 c2 es t.
  pose proof (thin_crown_is p0 p1 c1 c2 A0 A1 D0) as TH. fold es t in TH. split; [exact TH|].
  destruct (thin_trace t true 0 0 (1/100) es (1, -1/10) (0, 1/10) TH ltac:(cbn; lra) ltac:(cbn; lra)) as (rs & xs & r1 & r2 & P & A & R1 & R2 & Y).
  assert (Y1 : ry r1 = (1, 0)) by (rewrite (Y _ eq_refl); cbn [e_place fst snd]; rewrite D1; f_equal; field).
  exists rs, xs, r1, r2. repeat (split; [assumption|]). split; [unfold t_asphere, t; cbn [t_n t_k1 t_k2]; ring|]. intros C.
  assert (PW : t_power t = 1) by (unfold t_power, t; cbn [t_n t_c1 t_c2]; rewrite C; field). assert (HN : fst (ry r1) <> 0) by (rewrite Y1; cbn; lra).
  assert (CN : t_c1 t <> t_c2 t) by (unfold t; cbn; lra).
  destruct (C96_thin_lens t true 0 0 (1/100) es _ _ rs xs r1 r2 TH ltac:(cbn; lra) ltac:(cbn; lra) CN P A R1 R2 HN) as (_ & _ & U & S). rewrite Y1, PW in U. cbn [fst snd] in U.
  assert (PC : conjugates 0 (fst (ru r2)) = -1) by (rewrite U; unfold conjugates; field; lra).
  destruct (C96_stop_at_lens t true 0 0 (1/100) es _ _ rs xs r1 r2 TH ltac:(cbn; lra) CN P A R1 R2 HN ltac:(rewrite Y1; reflexivity)) as (EC & EA & EP & _). cbn [fst snd] in EC, EA, EP. rewrite PC in EC.
  assert (SH : t_shape t = c1 - 1) by (unfold t_shape, t; cbn [t_c1 t_c2]; rewrite C; lra).
  split; [exact PW|]. split; [exact PC|]. split.
  - apply (C96_best_form t t true 0 0 (1/100) es es (1, -1/10) (0, 1/10) rs rs xs xs r1 r2 r1 r2 TH TH ltac:(repeat split) ltac:(cbn; lra) CN); auto; try (unfold t_asphere, t; cbn [t_n t_k1 t_k2]; ring). cbn [fst]. rewrite PC. lra.
  - split; [rewrite EA, PW; lra|]. split; [rewrite EP, PW; unfold t; cbn [t_n]; field|]. split.
    + rewrite EC, SH. unfold t. cbn [t_n]. replace (- ((2 * (3 / 2) + 1) * (3 / 2 - 1) / (3 / 2 + 1)) * -1) with (4/5) by field. lra.
    + rewrite SH. unfold best_shape. replace (- (2 * ((3 / 2) ^ 2 - 1) / (3 / 2 + 2) * -1)) with (5/7) by field. lra.
Qed.
(** the same lens in light that converges to a point two thirds of its focal length behind it can be bent free of spherical
    aberration, and made so by a conic first surface *)
Example C96_bendable_example : exists p0 p1, let es := thin_crown p0 p1 1 (-1) in
  (exists c1 c2 rs' xs', c1 - c2 = 2 /\ ptrace true 0 (reshaped es c1 0 c2 0) (4, -1/10) (-3, 1/10) 1 = Some rs' /\ aberrations 0 (1/100) (reshaped es c1 0 c2 0) rs' = Some xs' /\ column tsc xs' = 0) /\
  exists k rs' xs', ptrace true 0 (reshaped es 1 k (-1) 0) (4, -1/10) (-3, 1/10) 1 = Some rs' /\ aberrations 0 (1/100) (reshaped es 1 k (-1) 0) rs' = Some xs' /\ column tsc xs' = 0.
Proof.
  destruct (centred_axis 0) as (p0 & _ & _ & D0 & _ & A0); [lra|]. destruct (centred_axis 1) as (p1 & _ & _ & D1 & _ & A1); [lra|]. exists p0, p1. intros es.
  set (t := Thin (3/2) (1/100) 1 0 (-1) 0). pose proof (thin_crown_is p0 p1 1 (-1) A0 A1 D0) as TH. fold es t in TH.
  destruct (thin_trace t true 0 0 (1/100) es (4, -1/10) (-3, 1/10) TH ltac:(cbn; lra) ltac:(cbn; lra)) as (rs & xs & r1 & r2 & P & A & R1 & R2 & Y).
  assert (Y1 : ry r1 = (1, 0)) by (rewrite (Y _ eq_refl); cbn [e_place fst snd]; rewrite D1; f_equal; field).
  assert (HN : fst (ry r1) <> 0) by (rewrite Y1; cbn; lra). assert (CN : t_c1 t <> t_c2 t) by (cbn; lra).
  assert (PW : t_power t = 1) by (unfold t_power, t; cbn [t_n t_c1 t_c2]; field).
  destruct (C96_thin_lens t true 0 0 (1/100) es _ _ rs xs r1 r2 TH ltac:(cbn; lra) ltac:(cbn; lra) CN P A R1 R2 HN) as (_ & _ & U & _). rewrite Y1, PW in U. cbn [fst snd] in U.
  split.
  - destruct (C96_bendable t true 0 0 (1/100) es _ _ rs xs r1 r2 TH ltac:(cbn; lra) CN P A R1 R2 HN) as (_ & B). cbn [fst] in B. rewrite U, PW in B. cbn [t t_n] in B.
    destruct B as (c1 & c2 & rs' & xs' & E & B); [unfold conjugates; lra|]. exists c1, c2, rs', xs'. split; [lra|exact B].
  - destruct (C96_asphere t true 0 0 (1/100) es _ _ rs xs r1 r2 TH ltac:(cbn; lra) ltac:(cbn; lra) CN ltac:(cbn; lra) P A R1 R2 HN) as (xk & G & (k & Z & _) & _).
    destruct (G k) as (rs' & P' & A'). exists k, rs', (xk k). split; [exact P'|]. split; [exact A'|exact Z].
Qed.
