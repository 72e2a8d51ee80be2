(** C84: narrow pencils around a ray of finite slope and height (Coddington's equations). *)
From Coq Require Import Reals ZArith Lra Lia Psatz List.
From Verif Require Import Base Vec RotModel RotProofs PlacementModel PlacementProofs ElementModel ElementProofs TraceProofs
  PropsElement PropsTrace PropsOpd FirstOrder Hamilton Smooth LimitProofs PropsLimit PropsStigmatic.
Import ListNotations.
Open Scope R_scope.

(** ** the surface: gradient, its length, unit normal, and the two principal curvatures of a conic of revolution *)
Definition gradient (c k : R) (p : vec) : vec := V (- c * vx p) (- c * vy p) (1 - c * (1 + k) * vz p).
Definition steepness (c k : R) (p : vec) : R := sqrt (1 - k * c ^ 2 * (vx p * vx p + vy p * vy p)).
Definition unit_normal (c k : R) (p : vec) : vec := vmul3 (/ steepness c k p) (gradient c k p).
Definition sagittal_curvature (c k : R) (p : vec) : R := c / steepness c k p.
Definition tangential_curvature (c k : R) (p : vec) : R := c / steepness c k p ^ 3.
(** a pencil whose rays change by [dp], [du] at the point [p] has, to first order, the vergence [L]: its rays meet the
    central one, of direction [u], at the distance 1/L, or are parallel to it if L = 0 *)
Definition converges (u dp du : vec) (L : R) : Prop := exists a, vadd3 du (vmul3 L dp) = vmul3 a u.

Lemma gradient_normal s p N : s_asph s = None -> surface_sag s p = Some 0 -> surface_normal s p = Some N ->
  0 < 1 - s_c s * (1 + s_k s) * vz p /\ gradient (s_c s) (s_k s) p = vmul3 (1 - s_c s * (1 + s_k s) * vz p) N.
Proof.
  intros A SG SN. destruct (conic_normal_cases s p N A SG SN) as (W & G). split; auto.
  pose proof (G (V 1 0 0)) as G1. pose proof (G (V 0 1 0)) as G2. pose proof (G (V 0 0 1)) as G3. unfold dot in G1, G2, G3. cbn in G1, G2, G3.
  unfold gradient. apply vec_eq; cbn; nra.
Qed.
Lemma gradient_length s p N : s_asph s = None -> surface_sag s p = Some 0 -> surface_normal s p = Some N ->
  0 < 1 - s_k s * s_c s ^ 2 * (vx p * vx p + vy p * vy p) /\
  dot (gradient (s_c s) (s_k s) p) (gradient (s_c s) (s_k s) p) = 1 - s_k s * s_c s ^ 2 * (vx p * vx p + vy p * vy p).
Proof.
  intros A SG SN. destruct (gradient_normal s p N A SG SN) as (W & G).
  pose proof (normal_domain _ _ _ SN) as D. rewrite surface_sag_spec in SG by lra. unfold sag_spec in SG. rewrite A in SG.
  pose proof (sqrt_lt_R0 _ D) as Q. pose proof (sqrt_sqrt _ (Rlt_le _ _ D)) as QQ. unfold r2_of in *. set (r2 := vx p * vx p + vy p * vy p) in *.
  set (q := sqrt (1 - (1 + s_k s) * s_c s ^ 2 * r2)) in *.
  assert (Z : vz p * (1 + q) = s_c s * r2).
  { assert (E : vz p = s_c s * r2 / (1 + q)) by (injection SG; lra). rewrite E. field. lra. }
  assert (WQ : 1 - s_c s * (1 + s_k s) * vz p = q).
  { apply (Rmult_eq_reg_r (1 + q)); [|lra]. transitivity (1 + q - s_c s * (1 + s_k s) * (vz p * (1 + q))); [ring|]. rewrite Z. nra. }
  assert (E : dot (gradient (s_c s) (s_k s) p) (gradient (s_c s) (s_k s) p) = s_c s ^ 2 * r2 + q * q) by (unfold gradient, dot; cbn; rewrite WQ; unfold r2; ring).
  rewrite E. assert (0 <= s_c s ^ 2 * r2) by (unfold r2; apply Rmult_le_pos; [apply pow2_ge_0|nra]). rewrite QQ. split; [nra|ring].
Qed.

(** ** the law of refraction and reflection in the plane of both directions and the normal *)
Lemma surface_law newton e m s y u n0 l c p v n t N : good_element l e -> 0 < n0 -> e_kind e = Sph m s -> dot u u = 1 ->
  propagate newton e (Some y) (Some u) n0 l c = (Some p, Some v, n, t) -> surface_normal s p = Some N ->
  dot v v = 1 /\ 0 < n /\ exists h, vmul3 n v = vadd3 (vmul3 n0 u) (vmul3 h N).
Proof.
  intros G N0 K U PR SN. destruct (propagate_spec newton e (Some y) (Some u) n0 l c _ _ _ _ G N0 ltac:(intros w E; injection E as <-; exact U) PR) as (UV & NP & _).
  split; [apply UV; reflexivity|]. split; [exact NP|]. destruct G as (_ & GM). rewrite K in GM. destruct (good_n_mu m n0 l N0 GM) as (n' & mu & NM & N' & MC & M1 & M2).
  unfold propagate in PR. rewrite K, NM in PR. cbn [obind] in PR.
  destruct (intercept newton s y u) as [tt|]; [|discriminate]. cbn [obind] in PR.
  assert (EP : at_ray y u tt = p) by congruence. rewrite EP in PR. assert (EN : n' = n) by congruence. subst n'.
  set (uu := if c then clip (e_radius e) (Some p) (Some u) else Some u) in *.
  assert (UU : uu = None \/ uu = Some u) by (unfold uu, clip; destruct c; auto; destruct (e_radius e); auto; destruct (Rle_dec _ _); auto).
  assert (MZ : mu <> 0) by (destruct MC as [->|[->|]]; lra). destruct (Req_EM_T mu 0); [contradiction|].
  assert (RF : refract s (Some p) uu mu = Some v) by congruence. clear PR. unfold refract in RF.
  destruct UU as [UU|UU]; rewrite UU in RF; [destruct (Req_EM_T mu 1); discriminate|].
  assert (MN : mu * n = n0 \/ mu = -1 /\ n = n0).
  { destruct m as [m|]; [|destruct (M1 eq_refl) as (-> & ->); left; ring]. specialize (M2 m eq_refl). destruct (m_mirror m); [right; tauto|left; tauto]. }
  destruct (Req_EM_T mu 1) as [E1|E1].
  - exists 0. assert (v = u) by congruence. subst v. destruct MN as [MN|(MN & _)]; [|lra]. rewrite <- MN, E1. apply vec_eq; cbn; ring.
  - cbn [obind] in RF. rewrite SN in RF. cbn [obind] in RF. pose proof (surface_normal_nz _ _ _ SN) as NZ.
    destruct MC as [->|[->|MC]]; [lra| |].
    + rewrite reflect_normal in RF by auto. destruct MN as [MN|(_ & ->)]; [nra|]. injection RF as <-. exists (- (n0 * (2 * (dot u N / dot N N)))).
      generalize (2 * (dot u N / dot N N)). intros a. apply vec_eq; cbn; ring.
    + destruct (refr_form u N mu v NZ MC RF) as (h & E & _). exists (n * h). destruct MN as [MN|(MN & _)]; [|lra]. rewrite <- MN, E. apply vec_eq; cbn; ring.
Qed.

Lemma vlin_cross A B a b a' b' : vlin A a a' -> vlin B b b' -> vlin (fun h => cross (A h) (B h)) (cross a b) (vadd3 (cross a' b) (cross a b')).
Proof.
  intros (A1 & A2 & A3) (B1 & B2 & B3). unfold cross, vlin. cbn [vx vy vz vadd3].
  split; [|split]; (eapply lin_eq; [apply lin_minus; apply lin_mult; eassumption|reflexivity|ring]).
Qed.
Lemma vlin_const_scale k A a a' : vlin A a a' -> vlin (fun h => vmul3 k (A h)) (vmul3 k a) (vmul3 k a').
Proof.
  intros (A1 & A2 & A3). unfold vlin, vmul3. cbn [vx vy vz].
  split; [|split]; (eapply lin_eq; [apply lin_mult; [apply lin_const|eassumption]|reflexivity|ring]).
Qed.
Lemma gradient_lin c k P p dp : vlin P p dp -> vlin (fun h => gradient c k (P h)) (gradient c k p) (V (- c * vx dp) (- c * vy dp) (- (c * (1 + k)) * vz dp)).
Proof.
  intros (A1 & A2 & A3). unfold vlin, gradient. cbn [vx vy vz].
  split; [|split].
  - eapply lin_eq; [apply lin_mult; [apply lin_const|exact A1]|reflexivity|ring].
  - eapply lin_eq; [apply lin_mult; [apply lin_const|exact A2]|reflexivity|ring].
  - eapply lin_eq; [apply lin_minus; [apply lin_const|apply lin_mult; [apply lin_const|exact A3]]|reflexivity|ring].
Qed.

Lemma pencil newton e m s Y U y dy u du n0 l c p v n tn : good_element l e -> 0 < n0 -> e_kind e = Sph m s ->
  vlin Y y dy -> vlin U u du -> near (fun h => dot (U h) (U h) = 1) ->
  propagate newton e (Some y) (Some u) n0 l c = (Some p, Some v, n, tn) -> clean_hit e u p v -> (c = true -> well_inside e p) ->
  exists P V dp dv t t' g, near (fun h => exists tn, propagate newton e (Some (Y h)) (Some (U h)) n0 l c = (Some (P h), Some (V h), n, tn)) /\
    vlin P p dp /\ vlin V v dv /\ dot u u = 1 /\ dot v v = 1 /\ dot u du = 0 /\ dot v dv = 0 /\ 0 < n /\
    p = at_ray y u t /\ dp = vadd3 dy (vadd3 (vmul3 t' u) (vmul3 t du)) /\
    let G := gradient (s_c s) (s_k s) p in let q := steepness (s_c s) (s_k s) p in
    0 < q /\ q * q = 1 - s_k s * s_c s ^ 2 * (vx p * vx p + vy p * vy p) /\ dot G G = q * q /\ 0 < vz G /\ dot G dp = 0 /\ dot G u <> 0 /\ dot G v <> 0 /\
    vsub3 (vmul3 n v) (vmul3 n0 u) = vmul3 g G /\
    vadd3 (cross (vsub3 (vmul3 n dv) (vmul3 n0 du)) G) (cross (vmul3 g G) (Vec.V (- s_c s * vx dp) (- s_c s * vy dp) (- (s_c s * (1 + s_k s)) * vz dp))) = v0.
Proof.
  intros GE N0 K LY LU UN PR CL IN. pose proof (near_0 _ UN) as UU. cbn beta in UU. rewrite (vlin_at0 _ _ _ LU) in UU.
  destruct (propagate_smooth newton e n0 l c Y U y dy u du p v n tn GE N0 LY LU UN PR CL IN) as (P & W & FT & dp & dv & NP & LP & LV & ON). specialize (ON m s K).
  unfold clean_hit in CL. rewrite K in CL. destruct CL as (A & SG & N & SN & NU & NV).
  destruct (normal_smooth s P p dp N LP A SN) as (dN & FN & LN & NN).
  assert (LAW : near (fun h => dot (W h) (W h) = 1 /\ cross (vsub3 (vmul3 n (W h)) (vmul3 n0 (U h))) (gradient (s_c s) (s_k s) (P h)) = v0 /\ P h = vadd3 (Y h) (vmul3 (dot (vsub3 (P h) (Y h)) (U h)) (U h)))).
  { eapply near_impl; [|exact (near_and _ _ (near_and _ _ NP UN) (near_and _ _ ON NN))]. intros h ((PH & UH) & OH & NH). cbn beta in *.
    destruct (surface_law newton e m s (Y h) (U h) n0 l c (P h) (W h) n _ (FN h) GE N0 K UH PH NH) as (VV & _ & g & EQ).
    destruct (gradient_normal s (P h) (FN h) A OH NH) as (_ & EG). split; [exact VV|]. split.
    - rewrite EG, EQ. generalize (1 - s_c s * (1 + s_k s) * vz (P h)). intros w. generalize (U h) (FN h). intros a b. vec_ring.
    - destruct (propagate_spec newton e (Some (Y h)) (Some (U h)) n0 l c _ _ _ _ GE N0 ltac:(intros q E; injection E as <-; exact UH) PH) as (_ & _ & PT).
      destruct (PT (P h) eq_refl) as (a & b & tt & EA & EB & _ & EP & _). injection EA as <-. injection EB as <-. rewrite EP at 1. unfold at_ray. f_equal. f_equal.
      assert (X : dot (vsub3 (P h) (Y h)) (U h) = tt * dot (U h) (U h)) by (rewrite EP; unfold at_ray; generalize (Y h) (U h); intros a b; vec_ring). rewrite X, UH. ring. }
  destruct (surface_law newton e m s y u n0 l c p v n tn N GE N0 K UU PR SN) as (VV & NP' & h & EQ).
  destruct (gradient_normal s p N A SG SN) as (W0 & EG). destruct (gradient_length s p N A SG SN) as (Q0 & GG).
  pose proof (vlin_dot _ _ _ _ _ _ (vlin_sub _ _ _ _ _ _ LP LY) LU) as LT. set (t := dot (vsub3 p y) u) in LT. set (t' := dot (vsub3 dp dy) u + dot (vsub3 p y) du) in LT.
  exists P, W, dp, dv, t, t', (h / (1 - s_c s * (1 + s_k s) * vz p)).
  split; [eapply near_impl; [|exact NP]; intros x X; cbn beta in *; eauto|]. split; [exact LP|]. split; [exact LV|]. split; [exact UU|]. split; [exact VV|].
  split; [exact (unit_turn U u du LU UN)|]. split; [apply (unit_turn W v dv LV); eapply near_impl; [|exact LAW]; intros x (X & _); exact X|]. split; [exact NP'|].
  pose proof (vlin_near (fun h => vadd3 (Y h) (vmul3 (dot (vsub3 (P h) (Y h)) (U h)) (U h))) P _ _ ltac:(eapply near_impl; [|exact LAW]; intros x (_ & _ & X); symmetry; exact X) (vlin_add _ _ _ _ _ _ LY (vlin_scale _ _ _ _ _ _ LT LU))) as LP2.
  destruct (vlin_unique _ _ _ _ _ LP LP2) as (EP & EDP). split; [exact EP|]. split; [exact EDP|].
  set (q := steepness (s_c s) (s_k s) p). cbv zeta.
  assert (QP : 0 < q) by (apply sqrt_lt_R0; exact Q0). assert (QQ : q * q = 1 - s_k s * s_c s ^ 2 * (vx p * vx p + vy p * vy p)) by (apply sqrt_sqrt; lra).
  assert (SC : forall w, dot (gradient (s_c s) (s_k s) p) w = (1 - s_c s * (1 + s_k s) * vz p) * dot N w) by (intros w; rewrite EG; generalize (1 - s_c s * (1 + s_k s) * vz p); intros a; vec_ring).
  split; [exact QP|]. split; [exact QQ|]. split; [rewrite QQ; exact GG|]. split; [exact W0|].
  split; [rewrite SC, (tangent s P p dp N LP SN ON); ring|]. split; [rewrite SC; apply Rmult_integral_contrapositive; split; [lra|exact NU]|]. split; [rewrite SC; apply Rmult_integral_contrapositive; split; [lra|exact NV]|].
  assert (EH : vsub3 (vmul3 n v) (vmul3 n0 u) = vmul3 (h / (1 - s_c s * (1 + s_k s) * vz p)) (gradient (s_c s) (s_k s) p)).
  { rewrite EQ, EG. set (w := 1 - s_c s * (1 + s_k s) * vz p) in *. clearbody w. apply vec_eq; cbn; field; lra. }
  split; [exact EH|]. rewrite <- EH.
  pose proof (vlin_cross _ _ _ _ _ _ (vlin_sub _ _ _ _ _ _ (vlin_const_scale n _ _ _ LV) (vlin_const_scale n0 _ _ _ LU)) (gradient_lin (s_c s) (s_k s) _ _ _ LP)) as LC.
  destruct (vlin_unique _ _ _ _ _ (vlin_near _ (fun _ => v0) _ _ ltac:(eapply near_impl; [|exact LAW]; intros x (_ & X & _); exact X) LC) (vlin_const v0)) as (_ & E). exact E.
Qed.

(** ** a pencil of rays changing out of the plane of incidence *)
Theorem C84_sagittal newton e m s Y U y dy u du n0 l c p v n tn L L' : good_element l e -> 0 < n0 -> e_kind e = Sph m s ->
  vlin Y y dy -> vlin U u du -> near (fun h => dot (U h) (U h) = 1) ->
  propagate newton e (Some y) (Some u) n0 l c = (Some p, Some v, n, tn) -> clean_hit e u p v -> (c = true -> well_inside e p) ->
  vx y = 0 -> vx u = 0 -> vy dy = 0 -> vz dy = 0 -> vy du = 0 -> vz du = 0 ->
  let M := unit_normal (s_c s) (s_k s) p in
  n * L' = n0 * L + sagittal_curvature (s_c s) (s_k s) p * (n * dot v M - n0 * dot u M) ->
  exists P V dp dv, near (fun h => exists tn, propagate newton e (Some (Y h)) (Some (U h)) n0 l c = (Some (P h), Some (V h), n, tn)) /\
    vlin P p dp /\ vlin V v dv /\ (converges u dp du L -> vadd3 dv (vmul3 L' dp) = v0).
Proof.
  intros GE N0 K LY LU UN PR CL IN Y0 U0 D1 D2 D3 D4 M HL.
  destruct (pencil newton e m s Y U y dy u du n0 l c p v n tn GE N0 K LY LU UN PR CL IN) as (P & W & dp & dv & t & t' & g & NP & LP & LV & UU & VV & UD & VD & NN & EP & EDP & H). cbv zeta in H.
  destruct H as (QP & QQ & GG & GZ & GD & GU & GV & LAW & DLAW).
  exists P, W, dp, dv. split; [exact NP|]. split; [exact LP|]. split; [exact LV|]. intros (a & CV).
  unfold M, unit_normal, sagittal_curvature in HL. set (q := steepness (s_c s) (s_k s) p) in *.
  assert (P0 : vx p = 0) by (rewrite EP; unfold at_ray; cbn; rewrite Y0, U0; ring).
  assert (DM : forall w, dot w (vmul3 (/ q) (gradient (s_c s) (s_k s) p)) = dot (gradient (s_c s) (s_k s) p) w / q) by (intros w; unfold Rdiv; generalize (gradient (s_c s) (s_k s) p) (/ q); intros G r; vec_ring).
  rewrite !DM in HL. set (G := gradient (s_c s) (s_k s) p) in *.
  assert (G0 : vx G = 0) by (unfold G, gradient; cbn; rewrite P0; ring). clearbody G.
  assert (GL : n * dot G v - n0 * dot G u = g * (q * q)).
  { rewrite <- GG. transitivity (dot G (vsub3 (vmul3 n v) (vmul3 n0 u))); [generalize G; intros G1; vec_ring|]. rewrite LAW. generalize G. intros G1. vec_ring. }
  assert (T0 : t' = 0).
  { rewrite EDP in GD. unfold dot in GD, GU. cbn in GD. rewrite G0, D1, D2, D3, D4 in GD. rewrite G0, U0 in GU. apply (Rmult_eq_reg_r (0 * 0 + vy G * vy u + vz G * vz u)); [|exact GU]. lra. }
  rewrite T0 in EDP. assert (E1 : vy dp = 0) by (rewrite EDP; cbn; rewrite D1, D3; ring). assert (E2 : vz dp = 0) by (rewrite EDP; cbn; rewrite D2, D4; ring).
  assert (CX : vx du + L * vx dp = 0) by (apply (f_equal vx) in CV; cbn in CV; rewrite U0 in CV; lra).
  assert (V0 : vx v = 0) by (apply (f_equal vx) in LAW; cbn in LAW; rewrite G0, U0 in LAW; nra).
  pose proof (f_equal vx DLAW) as X1. pose proof (f_equal vy DLAW) as X2. cbn in X1, X2. rewrite E1, E2, D3, D4 in X1. rewrite E2, G0 in X2. unfold dot in VD, GV. rewrite V0 in VD. rewrite G0, V0 in GV.
  assert (DX : n * vx dv = n0 * vx du - g * s_c s * vx dp).
  { apply (Rmult_eq_reg_r (vz G)); [|lra]. lra. }
  assert (DY : vy dv = 0 /\ vz dv = 0).
  { assert (XA : vy dv * vz G - vz dv * vy G = 0) by (apply (Rmult_eq_reg_l n); [|lra]; lra). assert (XB : vy v * vy dv + vz v * vz dv = 0) by lra.
    split; apply (Rmult_eq_reg_r (0 * 0 + vy G * vy v + vz G * vz v)); try exact GV.
    - transitivity (vz v * (vy dv * vz G - vz dv * vy G) + vy G * (vy v * vy dv + vz v * vz dv)); [ring|rewrite XA, XB; ring].
    - transitivity (vz G * (vy v * vy dv + vz v * vz dv) - vy v * (vy dv * vz G - vz dv * vy G)); [ring|rewrite XA, XB; ring]. }
  destruct DY as (Y1 & Z1).
  assert (HL' : n * L' = n0 * L + s_c s * g).
  { rewrite HL. f_equal. transitivity (s_c s * (n * dot G v - n0 * dot G u) / (q * q)); [field; lra|]. rewrite GL. field; lra. }
  apply vec_eq; cbn; rewrite ?Y1, ?Z1, ?E1, ?E2; [|ring|ring].
  apply (Rmult_eq_reg_l n); [|lra]. transitivity (n * vx dv + (n * L') * vx dp); [ring|]. rewrite DX, HL'. transitivity (n0 * (vx du + L * vx dp)); [ring|rewrite CX; ring].
Qed.
Print Assumptions C84_sagittal.

(** ** a pencil of rays in the plane of incidence *)
Lemma plane_turn a b x y : a * a + b * b = 1 -> a * x + b * y = 0 -> x = (x * b - y * a) * b /\ y = - (x * b - y * a) * a.
Proof.
  intros A B. split.
  - transitivity (x * (a * a + b * b) - a * (a * x + b * y)); [rewrite A, B; ring|ring].
  - transitivity (y * (a * a + b * b) - b * (a * x + b * y)); [rewrite A, B; ring|ring].
Qed.
Theorem C84_tangential newton e m s Y U y dy u du n0 l c p v n tn L L' : good_element l e -> 0 < n0 -> e_kind e = Sph m s ->
  vlin Y y dy -> vlin U u du -> near (fun h => dot (U h) (U h) = 1) ->
  propagate newton e (Some y) (Some u) n0 l c = (Some p, Some v, n, tn) -> clean_hit e u p v -> (c = true -> well_inside e p) ->
  vx y = 0 -> vx u = 0 -> vx dy = 0 -> vx du = 0 ->
  let M := unit_normal (s_c s) (s_k s) p in
  n * dot v M ^ 2 * L' = n0 * dot u M ^ 2 * L + tangential_curvature (s_c s) (s_k s) p * (n * dot v M - n0 * dot u M) ->
  exists P V dp dv, near (fun h => exists tn, propagate newton e (Some (Y h)) (Some (U h)) n0 l c = (Some (P h), Some (V h), n, tn)) /\
    vlin P p dp /\ vlin V v dv /\ (converges u dp du L -> converges v dp dv L').
Proof.
  intros GE N0 K LY LU UN PR CL IN Y0 U0 D1 D2 M HL.
  destruct (pencil newton e m s Y U y dy u du n0 l c p v n tn GE N0 K LY LU UN PR CL IN) as (P & W & dp & dv & t & t' & g & NP & LP & LV & UU & VV & UD & VD & NN & EP & EDP & H). cbv zeta in H.
  destruct H as (QP & QQ & GG & GZ & GD & GU & GV & LAW & DLAW).
  exists P, W, dp, dv. split; [exact NP|]. split; [exact LP|]. split; [exact LV|]. intros (a & CV).
  unfold M, unit_normal, tangential_curvature in HL. set (q := steepness (s_c s) (s_k s) p) in *.
  assert (P0 : vx p = 0) by (rewrite EP; unfold at_ray; cbn; rewrite Y0, U0; ring).
  assert (DM : forall w, dot w (vmul3 (/ q) (gradient (s_c s) (s_k s) p)) = dot (gradient (s_c s) (s_k s) p) w / q) by (intros w; unfold Rdiv; generalize (gradient (s_c s) (s_k s) p) (/ q); intros G r; vec_ring).
  rewrite !DM in HL. 
  assert (GY : vy (gradient (s_c s) (s_k s) p) = - s_c s * vy p) by reflexivity. set (G := gradient (s_c s) (s_k s) p) in *.
  assert (G0 : vx G = 0) by (unfold G, gradient; cbn; rewrite P0; ring). clearbody G.
  assert (GL : n * dot G v - n0 * dot G u = g * (q * q)).
  { rewrite <- GG. transitivity (dot G (vsub3 (vmul3 n v) (vmul3 n0 u))); [generalize G; intros G1; vec_ring|]. rewrite LAW. generalize G. intros G1. vec_ring. }
  assert (E0 : vx dp = 0) by (rewrite EDP; cbn; rewrite D1, D2, U0; ring).
  assert (V0 : vx v = 0) by (apply (f_equal vx) in LAW; cbn in LAW; rewrite G0, U0 in LAW; nra).
  pose proof (f_equal vx DLAW) as X1. pose proof (f_equal vy DLAW) as X2. cbn in X1, X2.
  assert (DV0 : vx dv = 0) by (rewrite E0, G0, D2 in X2; apply (Rmult_eq_reg_l (n * vz G)); [lra|apply Rmult_integral_contrapositive; split; lra]).
  unfold dot in UU, VV, UD, VD, GG, GD, GU, GV, GL, HL. repeat match goal with H : context [vx ?a], E : vx ?a = 0 |- _ => lazymatch H with E => fail | _ => rewrite E in H end end.
  (* angles *)
  set (w := vy du * vz u - vz du * vy u). set (w' := vy dv * vz v - vz dv * vy v). set (r := (vy dp * vz G - vz dp * vy G) / (q * q)).
  destruct (plane_turn (vy u) (vz u) (vy du) (vz du) ltac:(lra) ltac:(lra)) as (A1 & A2). fold w in A1, A2.
  destruct (plane_turn (vy v) (vz v) (vy dv) (vz dv) ltac:(lra) ltac:(lra)) as (B1 & B2). fold w' in B1, B2.
  assert (GGp : vy G * vy G + vz G * vz G = q * q) by lra. assert (GDp : vy G * vy dp + vz G * vz dp = 0) by lra. assert (Q2 : q * q <> 0) by nra.
  assert (C1 : vy dp = r * vz G).
  { unfold r. apply (Rmult_eq_reg_l (q * q)); [|exact Q2]. transitivity ((vy dp * vz G - vz dp * vy G) * vz G); [|field; lra]. rewrite <- GGp. transitivity (vy G * (vy G * vy dp + vz G * vz dp) + (vy dp * vz G - vz dp * vy G) * vz G); [ring|rewrite GDp; ring]. }
  assert (C2 : vz dp = - r * vy G).
  { unfold r. apply (Rmult_eq_reg_l (q * q)); [|exact Q2]. transitivity (- (vy dp * vz G - vz dp * vy G) * vy G); [|field; lra]. rewrite <- GGp. transitivity (vz G * (vy G * vy dp + vz G * vz dp) - (vy dp * vz G - vz dp * vy G) * vy G); [ring|rewrite GDp; ring]. }
  clearbody w w' r. set (gu := vy G * vy u + vz G * vz u) in *. set (gv := vy G * vy v + vz G * vz v) in *.
  assert (GU' : gu <> 0) by (intros E; apply GU; transitivity gu; [unfold gu; ring|exact E]). assert (GV' : gv <> 0) by (intros E; apply GV; transitivity gv; [unfold gv; ring|exact E]).
  (* the derivative of the sines *)
  assert (KQ : q * q + s_k s * (vy G * vy G) = 1) by (rewrite GY, QQ; ring).
  assert (S1 : n * gv * w' - n0 * gu * w + g * s_c s * r = 0).
  { transitivity (n * gv * w' - n0 * gu * w + g * s_c s * r * (q * q + s_k s * (vy G * vy G))); [rewrite KQ; ring|]. rewrite <- GGp. rewrite A1, A2, B1, B2, C1, C2 in X1. unfold gu, gv. lra. }
  assert (S2 : w + L * r * gu = 0).
  { pose proof (f_equal vy CV) as Y1. pose proof (f_equal vz CV) as Z1. cbn in Y1, Z1. rewrite A1, C1 in Y1. rewrite A2, C2 in Z1.
    transitivity ((w * vz u + L * (r * vz G)) * vz u - (- w * vy u + L * (- r * vy G)) * vy u).
    - unfold gu. transitivity (w * (0 * 0 + vy u * vy u + vz u * vz u) + L * r * (vy G * vy u + vz G * vz u)); [rewrite UU; ring|ring].
    - rewrite Y1, Z1. ring. }
  assert (HL' : n * (gv * gv) * L' = n0 * (gu * gu) * L + s_c s * g).
  { assert (GLp : n * gv - n0 * gu = g * (q * q)) by (unfold gu, gv; lra).
    replace (0 * 0 + vy G * vy v + vz G * vz v) with gv in HL by (unfold gv; ring). replace (0 * 0 + vy G * vy u + vz G * vz u) with gu in HL by (unfold gu; ring).
    transitivity (q * q * (n * (gv / q) ^ 2 * L')); [field; lra|]. rewrite HL. transitivity (n0 * (gu * gu) * L + s_c s * (n * gv - n0 * gu) / (q * q)); [field; lra|]. rewrite GLp. field; lra. }
  assert (S3 : w' + L' * r * gv = 0).
  { apply (Rmult_eq_reg_l (n * gv)); [|apply Rmult_integral_contrapositive; split; lra]. transitivity (n * gv * w' + (n * (gv * gv) * L') * r); [ring|]. rewrite HL'.
    transitivity ((n * gv * w' - n0 * gu * w + g * s_c s * r) + n0 * gu * (w + L * r * gu)); [ring|rewrite S1, S2; ring]. }
  exists (L' * r * (vz G * vy v - vy G * vz v)).
  assert (W3 : w' = - L' * r * gv) by lra. apply vec_eq; cbn; rewrite ?DV0, ?E0, ?V0; [ring| |].
  - rewrite B1, C1, W3. unfold gv. transitivity (L' * r * (vz G * (vy v * vy v + vz v * vz v) - (vy G * vy v + vz G * vz v) * vz v)); [replace (vy v * vy v + vz v * vz v) with 1 by lra; ring|ring].
  - rewrite B2, C2, W3. unfold gv. transitivity (L' * r * ((vy G * vy v + vz G * vz v) * vy v - vy G * (vy v * vy v + vz v * vz v))); [replace (vy v * vy v + vz v * vz v) with 1 by lra; ring|ring].
Qed.
Print Assumptions C84_tangential.

(** ** what the vergence means *)
Lemma triple u w : dot u u = 1 -> w = vadd3 (vmul3 (dot u w) u) (cross (cross u w) u).
Proof.
  intros U. transitivity (vmul3 (dot u u) w); [rewrite U; apply vec_eq; cbn; ring|]. unfold dot, cross. apply vec_eq; cbn; ring.
Qed.
(** rays that all pass through the same point of the central ray, at the signed distance s, have the vergence 1/s *)
Theorem C84_vergence P U p dp u du s O : vlin P p dp -> vlin U u du -> near (fun h => dot (U h) (U h) = 1) ->
  near (fun h => exists t, at_ray (P h) (U h) t = O) -> at_ray p u s = O -> s <> 0 -> converges u dp du (1 / s).
Proof.
  intros LP LU UN ON EO SZ. pose proof (near_0 _ UN) as UU. cbn beta in UU. rewrite (vlin_at0 _ _ _ LU) in UU.
  pose proof (vlin_dot _ _ _ _ _ _ (vlin_sub _ _ _ _ _ _ (vlin_const O) LP) LU) as LT.
  assert (TS : dot (vsub3 O p) u = s) by (rewrite <- EO; unfold at_ray; transitivity (s * dot u u); [vec_ring|rewrite UU; ring]). rewrite TS in LT.
  set (t' := dot (vsub3 v0 dp) u + dot (vsub3 O p) du) in LT. clearbody t'.
  pose proof (vlin_add _ _ _ _ _ _ LP (vlin_scale _ _ _ _ _ _ LT LU)) as L1.
  assert (L2 : vlin (fun _ : R => O) (vadd3 p (vmul3 s u)) (vadd3 dp (vadd3 (vmul3 t' u) (vmul3 s du)))).
  { refine (vlin_near _ _ _ _ _ L1). eapply near_impl; [|exact (near_and _ _ UN ON)]. intros h (UH & t & E). cbn beta in *.
    assert (X : dot (vsub3 O (P h)) (U h) = t) by (rewrite <- E; unfold at_ray; transitivity (t * dot (U h) (U h)); [generalize (P h) (U h); intros; vec_ring|rewrite UH; ring]).
    rewrite X. exact E. }
  destruct (vlin_unique _ _ _ _ _ L2 (vlin_const O)) as (_ & E). exists (- (t' / s)).
  pose proof (f_equal vx E) as X. pose proof (f_equal vy E) as X1. pose proof (f_equal vz E) as X2. cbn in X, X1, X2.
  apply vec_eq; cbn; (apply (Rmult_eq_reg_l s); [|exact SZ]);
    [transitivity (vx dp + s * vx du)|transitivity (vy dp + s * vy du)|transitivity (vz dp + s * vz du)]; try (field; exact SZ);
    [transitivity (- t' * vx u)|transitivity (- t' * vy u)|transitivity (- t' * vz u)]; solve [lra|field; exact SZ].
Qed.
(** parallel rays have the vergence 0, and only they *)
Theorem C84_parallel U u dp du : vlin U u du -> near (fun h => dot (U h) (U h) = 1) -> (converges u dp du 0 <-> du = v0).
Proof.
  intros LU UN. pose proof (near_0 _ UN) as UU. cbn beta in UU. rewrite (vlin_at0 _ _ _ LU) in UU. pose proof (unit_turn U u du LU UN) as UD. split.
  - intros (a & E). assert (E1 : du = vmul3 a u) by (rewrite <- E; apply vec_eq; cbn; ring).
    assert (A : a = 0) by (rewrite E1 in UD; transitivity (dot u (vmul3 a u)); [transitivity (a * dot u u); [rewrite UU; ring|vec_ring]|exact UD]). rewrite E1, A. apply vec_eq; cbn; ring.
  - intros ->. exists 0. apply vec_eq; cbn; ring.
Qed.
(** a pencil has the vergence L exactly if its rays pass the point at the distance 1/L on the central ray at a distance of higher
    than first order: the product below, of the step from the ray to that point with the ray's unit direction, has that distance for its length *)
Theorem C84_focus P U p dp u du L : vlin P p dp -> vlin U u du -> dot u u = 1 -> L <> 0 ->
  (converges u dp du L <-> vlin (fun h => cross (vsub3 (at_ray p u (1 / L)) (P h)) (U h)) v0 v0).
Proof.
  intros LP LU UU LZ. pose proof (vlin_cross _ _ _ _ _ _ (vlin_sub _ _ _ _ _ _ (vlin_const (at_ray p u (1 / L))) LP) LU) as LC.
  assert (E0 : cross (vsub3 (at_ray p u (1 / L)) p) u = v0) by (unfold at_ray; generalize (1 / L); intros x; vec_ring).
  assert (E1 : vadd3 (cross (vsub3 v0 dp) u) (cross (vsub3 (at_ray p u (1 / L)) p) du) = vmul3 (1 / L) (cross u (vadd3 du (vmul3 L dp)))).
  { unfold at_ray, cross. apply vec_eq; cbn; field; exact LZ. }
  rewrite E0, E1 in LC. set (w := vadd3 du (vmul3 L dp)) in *. unfold converges. fold w. clearbody w. split.
  - intros (a & W). assert (Z : vmul3 (1 / L) (cross u w) = v0) by (rewrite W; generalize (1 / L); intros x; vec_ring). rewrite Z in LC. exact LC.
  - intros LD. destruct (vlin_unique _ _ _ _ _ LC LD) as (_ & Z). exists (dot u w).
    assert (C : cross u w = v0).
    { transitivity (vmul3 L (vmul3 (1 / L) (cross u w))); [generalize (cross u w); intros x; apply vec_eq; cbn; field; exact LZ|]. rewrite Z. apply vec_eq; cbn; ring. }
    rewrite (triple u w UU) at 1. rewrite C. unfold cross. apply vec_eq; cbn; ring.
Qed.
(** on the way to the next surface *)
Theorem C84_transfer P U p dp u du L d : vlin P p dp -> vlin U u du -> converges u dp du L -> 1 - d * L <> 0 ->
  exists dp', vlin (fun h => at_ray (P h) (U h) d) (at_ray p u d) dp' /\ converges u dp' du (L / (1 - d * L)).
Proof.
  intros LP LU (a & C) Z. exists (vadd3 dp (vmul3 d du)). split.
  - unfold at_ray. exact (vlin_add _ _ _ _ _ _ LP (vlin_const_scale d _ _ _ LU)).
  - exists (a / (1 - d * L)). pose proof (f_equal vx C) as X. pose proof (f_equal vy C) as X1. pose proof (f_equal vz C) as X2. cbn in X, X1, X2.
    apply vec_eq; cbn;
    [transitivity ((vx du + L * vx dp) / (1 - d * L))|transitivity ((vy du + L * vy dp) / (1 - d * L))|transitivity ((vz du + L * vz dp) / (1 - d * L))];
    try (field; exact Z); rewrite ?X, ?X1, ?X2; field; exact Z.
Qed.

Lemma shift_lim f x a : derivable_pt_lim (fun h => f (x + h)) 0 a -> derivable_pt_lim f x a.
Proof.
  intros H e E. destruct (H e E) as (d & D). exists d. intros h H0 H1. specialize (D h H0 H1). rewrite Rplus_0_l, Rplus_0_r in D. exact D.
Qed.
(** ** the two curvatures are those of the surface the code intersects: of its profile, and of its normal's way to the axis *)
Definition profile (c k y : R) : R := c * (y * y) / (1 + sqrt (1 - (1 + k) * c ^ 2 * (y * y))).
Theorem C84_curvatures s y : s_asph s = None -> 0 < 1 - (1 + s_k s) * s_c s ^ 2 * (y * y) ->
  let p := V 0 y (profile (s_c s) (s_k s) y) in surface_sag s p = Some 0 /\
  exists slope bend, (forall x, 0 < 1 - (1 + s_k s) * s_c s ^ 2 * (x * x) -> derivable_pt_lim (profile (s_c s) (s_k s)) x (slope x)) /\
    derivable_pt_lim slope y bend /\
    tangential_curvature (s_c s) (s_k s) p = bend / sqrt (1 + slope y ^ 2) ^ 3 /\
    y * sagittal_curvature (s_c s) (s_k s) p = slope y / sqrt (1 + slope y ^ 2).
Proof.
  intros A D p. set (c := s_c s) in *. set (k := s_k s) in *.
  pose proof (sqrt_lt_R0 _ D) as Q. pose proof (sqrt_sqrt _ (Rlt_le _ _ D)) as QQ.
  split.
  { rewrite surface_sag_spec; [unfold sag_spec; rewrite A|]; fold c k; unfold r2_of, p; cbn [vx vy vz]; replace (0 * 0 + y * y) with (y * y) by ring; [|lra]. unfold profile. f_equal. ring. }
  set (slope := fun x => c * x / sqrt (1 - (1 + k) * c ^ 2 * (x * x))).
  set (w := sqrt (1 - (1 + k) * c ^ 2 * (y * y))) in *.
  exists slope, (c / w ^ 3). split; [|split; [|]].
  - intros x X. replace (slope x) with (c / sqrt (1 - (1 + k) * c ^ 2 * (x * x)) / 2 * (x * 1 + 1 * x)).
    + apply (derivable_pt_lim_comp (fun x => x * x) (fun x => c * x / (1 + sqrt (1 - (1 + k) * c ^ 2 * x)))).
      * replace (x * 1 + 1 * x) with (1 * x + x * 1) by ring. apply (derivable_pt_lim_mult (fun x => x) (fun x => x)); apply derivable_pt_lim_id.
      * apply deriv_conic. exact X.
    + unfold slope. pose proof (sqrt_lt_R0 _ X). field. lra.
  - assert (LI : lin (fun h => y + h) y 1) by (eapply lin_eq; [apply lin_plus; [apply lin_const|apply lin_id]|ring|ring]).
    assert (LQ : lin (fun h => 1 - (1 + k) * c ^ 2 * ((y + h) * (y + h))) (1 - (1 + k) * c ^ 2 * (y * y)) (- ((1 + k) * c ^ 2) * (2 * y))).
    { eapply lin_eq; [apply lin_minus; [apply lin_const|apply lin_mult; [apply lin_const|apply lin_mult; exact LI]]|reflexivity|ring]. }
    assert (LS : lin (fun h => slope (y + h)) (slope y) (c / w ^ 3)).
    { unfold slope. eapply lin_eq; [apply lin_div; [apply lin_mult; [apply (lin_const c)|exact LI]|apply lin_sqrt; [exact LQ|exact D]|fold w; lra]|reflexivity|]. fold w.
      apply (Rmult_eq_reg_r (w ^ 3)); [|apply pow_nonzero; lra]. transitivity (c * (w * w + (1 + k) * c ^ 2 * (y * y))); [field; lra|]. rewrite QQ. field. lra. }
    apply shift_lim. apply LS.
  - assert (SL : slope y = c * y / w) by reflexivity.
    assert (EQ : 1 - k * c ^ 2 * (0 * 0 + y * y) = w * w * (1 + slope y ^ 2)).
    { rewrite SL. transitivity (w * w + c ^ 2 * (y * y)); [rewrite QQ; ring|field; lra]. }
    assert (ST : steepness c k p = w * sqrt (1 + slope y ^ 2)).
    { unfold steepness, p. cbn [vx vy]. rewrite EQ, sqrt_mult, sqrt_square; [reflexivity|lra|nra|nra]. }
    assert (SP : 0 < sqrt (1 + slope y ^ 2)) by (apply sqrt_lt_R0; nra).
    unfold tangential_curvature, sagittal_curvature. rewrite ST. set (r := sqrt (1 + slope y ^ 2)) in *. clearbody r. rewrite SL. split; field; lra.
Qed.

(** ** a ball of glass of index 4/3 and radius 1, met at its vertex under the sine 4/5 by a ray from a point at the distance 1 *)
Definition ball : surf := Surf 1 0 None false.
Definition ball_element : element := El (at_place 1) (Some 1) (Sph (Some (glass (4/3))) ball).
Definition source : vec := V 0 (- (4/5)) (- (3/5)).
Definition chief : vec := V 0 (4/5) (3/5).
Definition fan_sagittal (h : R) : vec := V (sin h) (4/5 * cos h) (3/5 * cos h).
Definition fan_tangential (h : R) : vec := V 0 (4/5 * cos h + 3/5 * sin h) (3/5 * cos h - 4/5 * sin h).
Lemma lin_sin : lin sin 0 1. Proof. split; [apply sin_0|]. rewrite <- cos_0. apply derivable_pt_lim_sin. Qed.
Lemma lin_cos : lin cos 1 0. Proof. split; [apply cos_0|]. replace 0 with (- sin 0) at 2 by (rewrite sin_0; ring). apply derivable_pt_lim_cos. Qed.
Lemma fan_sagittal_lin : vlin fan_sagittal chief (V 1 0 0).
Proof.
  unfold vlin, fan_sagittal, chief. cbn [vx vy vz]. split; [exact lin_sin|].
  split; (eapply lin_eq; [apply lin_mult; [apply lin_const|exact lin_cos]|ring|ring]).
Qed.
Lemma fan_tangential_lin : vlin fan_tangential chief (V 0 (3/5) (- (4/5))).
Proof.
  unfold vlin, fan_tangential, chief. cbn [vx vy vz]. split; [apply lin_const|].
  assert (A : forall a b, lin (fun h => a * cos h + b * sin h) a b) by (intros a b; eapply lin_eq; [apply lin_plus; (apply lin_mult; [apply lin_const|(exact lin_cos || exact lin_sin)])|ring|ring]).
  split; [apply A|]. eapply lin_ext; [|apply (A (3/5) (- (4/5)))]. intros h. cbn beta. ring.
Qed.
Lemma circle h : sin h * sin h + cos h * cos h = 1.
Proof. pose proof (sin2_cos2 h) as H. unfold Rsqr in H. exact H. Qed.
Lemma ball_hit newton : propagate newton ball_element (Some source) (Some chief) 1 1 false = (Some v0, Some (V 0 (3/5) (4/5)), 4/3, Some (1 * 1)).
Proof.
  assert (E : at_ray source chief 1 = v0) by (unfold at_ray, source, chief; apply vec_eq; cbn; lra).
  assert (SQ : sqrt (1 - (1 + 0) * 1 ^ 2 * (0 * 0 + 0 * 0)) = 1) by (replace (1 - (1 + 0) * 1 ^ 2 * (0 * 0 + 0 * 0)) with 1 by ring; apply sqrt_1).
  assert (SN : sheet_normal 1 0 v0 = ez) by (unfold sheet_normal, ez; cbn [vx vy vz v0]; rewrite SQ; apply vec_eq; cbn [vx vy vz]; field).
  rewrite <- E. apply meets_step; cbn [s_asph s_c s_alt ball]; try reflexivity; try lra.
  - unfold chief, dot; cbn; lra.
  - unfold meets. cbn [s_c s_k ball]. rewrite E, SN. unfold sheet, lead, r2_of, chief, dot. cbn. split; [split; [lra|]|split; [lra|split; lra]]. unfold Rdiv. ring.
  - cbn [m_mirror glass m_index s_c s_k ball]. rewrite E, SN. repeat apply conj; try lra.
    apply (refr_known chief ez (1 / (4/3)) _ (7/20)); unfold chief, ez, dot; cbn; try lra; [intros X; injection X; lra|apply vec_eq; cbn; lra].
Qed.
Lemma ball_clean : clean_hit ball_element chief v0 (V 0 (3/5) (4/5)).
Proof.
  unfold clean_hit, ball_element. cbn [e_kind]. split; [reflexivity|]. split.
  - rewrite surface_sag_spec; unfold sag_spec, r2_of, ball; cbn; [|lra]. f_equal. unfold Rdiv. ring.
  - exists ez. assert (SQ : sqrt (1 - (1 + 0) * 1 ^ 2 * (0 * 0 + 0 * 0)) = 1) by (replace (1 - (1 + 0) * 1 ^ 2 * (0 * 0 + 0 * 0)) with 1 by ring; apply sqrt_1).
    split; [|unfold ez, chief, dot; cbn; lra]. rewrite conic_normal; [|reflexivity|unfold r2_of, ball; cbn; lra]. f_equal. cbn [s_c s_k ball]. unfold sheet_normal, ez. cbn [vx vy vz v0]. rewrite SQ. apply vec_eq; cbn [vx vy vz]; field.
Qed.
Lemma at_place_good d : 0 <= d -> good_place (at_place d).
Proof. exact (flat_good d). Qed.
Lemma ball_good : good_element 1 ball_element.
Proof. split; [apply at_place_good; lra|]. cbn. lra. Qed.
Lemma ball_shape : unit_normal 1 0 v0 = ez /\ sagittal_curvature 1 0 v0 = 1 /\ tangential_curvature 1 0 v0 = 1.
Proof.
  assert (S : steepness 1 0 v0 = 1) by (unfold steepness; cbn; replace (1 - 0 * (1 * (1 * 1)) * (0 * 0 + 0 * 0)) with 1 by ring; apply sqrt_1).
  unfold unit_normal, sagittal_curvature, tangential_curvature, gradient. rewrite S. split; [apply vec_eq; cbn; lra|split; lra].
Qed.
(** seen across the plane of incidence the pencil still diverges behind the surface, from the distance 5/2 *)
Example C84_sagittal_example newton : good_element 1 ball_element /\ vlin (fun _ => source) source v0 /\ vlin fan_sagittal chief (V 1 0 0) /\
  near (fun h => dot (fan_sagittal h) (fan_sagittal h) = 1) /\
  propagate newton ball_element (Some source) (Some chief) 1 1 false = (Some v0, Some (V 0 (3/5) (4/5)), 4/3, Some (1 * 1)) /\ clean_hit ball_element chief v0 (V 0 (3/5) (4/5)) /\
  vx source = 0 /\ vx chief = 0 /\ near (fun h => exists t, at_ray (at_ray source (fan_sagittal h) 1) (fan_sagittal h) t = source) /\ at_ray v0 chief (-1) = source /\
  4/3 * - (2/5) = 1 * (1 / -1) + sagittal_curvature 1 0 v0 * (4/3 * dot (V 0 (3/5) (4/5)) (unit_normal 1 0 v0) - 1 * dot chief (unit_normal 1 0 v0)).
Proof.
  destruct ball_shape as (E1 & E2 & _). rewrite E1, E2.
  split; [apply ball_good|]. split; [apply vlin_const|]. split; [apply fan_sagittal_lin|]. split; [|split; [apply ball_hit|split; [apply ball_clean|split; [reflexivity|split; [reflexivity|split; [|split]]]]]].
  - apply near_true. intros h. unfold fan_sagittal, dot. cbn. pose proof (circle h). lra.
  - apply near_true. intros h. exists (-1). unfold at_ray. apply vec_eq; cbn; ring.
  - unfold at_ray, source, chief. apply vec_eq; cbn; lra.
  - unfold chief, ez, dot. cbn. lra.
Qed.
(** in the plane of incidence it already converges, to the distance 8 *)
Example C84_tangential_example newton : good_element 1 ball_element /\ vlin (fun _ => source) source v0 /\ vlin fan_tangential chief (V 0 (3/5) (- (4/5))) /\
  near (fun h => dot (fan_tangential h) (fan_tangential h) = 1) /\
  propagate newton ball_element (Some source) (Some chief) 1 1 false = (Some v0, Some (V 0 (3/5) (4/5)), 4/3, Some (1 * 1)) /\ clean_hit ball_element chief v0 (V 0 (3/5) (4/5)) /\
  vx source = 0 /\ vx chief = 0 /\
  4/3 * dot (V 0 (3/5) (4/5)) (unit_normal 1 0 v0) ^ 2 * (1/8) = 1 * dot chief (unit_normal 1 0 v0) ^ 2 * (1 / -1) + tangential_curvature 1 0 v0 * (4/3 * dot (V 0 (3/5) (4/5)) (unit_normal 1 0 v0) - 1 * dot chief (unit_normal 1 0 v0)).
Proof.
  destruct ball_shape as (E1 & _ & E2). rewrite E1, E2.
  split; [apply ball_good|]. split; [apply vlin_const|]. split; [apply fan_tangential_lin|]. split; [|split; [apply ball_hit|split; [apply ball_clean|split; [reflexivity|split; [reflexivity|]]]]].
  - apply near_true. intros h. unfold fan_tangential, dot. cbn. pose proof (circle h). lra.
  - unfold chief, ez, dot. cbn. lra.
Qed.
(** both pencils come from the source: vergence -1 before the surface; parallel after, if it were 0; moved on by 3 *)
Example C84_focus_example : converges chief (V 1 0 0) (V 1 0 0) (1 / -1) /\ ~ converges chief (V 1 0 0) (V 1 0 0) 0 /\ dot chief chief = 1 /\ 1 / -1 <> 0 /\ 1 - 3 * (1 / -1) <> 0.
Proof.
  split; [exists 0; apply vec_eq; cbn; lra|]. split; [|unfold chief, dot; cbn; repeat split; lra].
  intros (a & E). pose proof (f_equal vx E) as X. cbn in X. lra.
Qed.
Example C84_curvatures_example : let s := Surf (1/5) 2 None false in s_asph s = None /\ 0 < 1 - (1 + s_k s) * s_c s ^ 2 * (2 * 2).
Proof. cbn. split; [reflexivity|lra]. Qed.
