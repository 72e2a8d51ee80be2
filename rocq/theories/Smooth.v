(** Rays through surfaces of closed form depend smoothly on the launched ray unless they graze a surface. *)
From Coq Require Import Reals ZArith List Lra Lia Psatz.
From Verif Require Import Base Vec RotModel RotProofs PlacementModel PlacementProofs ElementModel ElementProofs TraceProofs
  PropsElement PropsTrace FirstOrder Hamilton.
Import ListNotations.
Open Scope R_scope.

(** the ray with directions [w] before and [v] behind does not graze the element at [p]; the surface has a closed form and is
    hit on the sheet of its vertex *)
Definition clean_hit (e : element) (w p v : vec) : Prop :=
  match e_kind e with
  | Plain => True
  | Sph _ s => s_asph s = None /\ surface_sag s p = Some 0 /\ exists N, surface_normal s p = Some N /\ dot N w <> 0 /\ dot N v <> 0
  end.
(** strictly inside the aperture *)
Definition well_inside (e : element) (p : vec) : Prop := forall r, e_radius e = Some r -> r2_of p < r * r.

(** ** pieces *)
Lemma lin_at0 f a b : lin f a b -> f 0 = a. Proof. intros (A & _). exact A. Qed.
Lemma conic_normal_cases s p N : s_asph s = None -> surface_sag s p = Some 0 -> surface_normal s p = Some N ->
  0 < 1 - s_c s * (1 + s_k s) * vz p /\ forall u, dot N u * (1 - s_c s * (1 + s_k s) * vz p) = - (s_c s * (vx p * vx u + vy p * vy u + (1 + s_k s) * vz p * vz u) - vz u).
Proof.
  intros A SG SN. pose proof (normal_domain _ _ _ SN) as W. rewrite (surface_normal_spec s p W) in SN. rewrite (surface_sag_spec s p ltac:(lra)) in SG. rewrite A in SN. cbv zeta in SN.
  unfold sag_spec in SG. rewrite A in SG. pose proof (sqrt_lt_R0 _ W) as WP. pose proof (sqrt_sqrt _ (Rlt_le _ _ W)) as WW.
  match type of SN with Some ?n = Some _ => assert (EN : N = n) by congruence end. clear SN. assert (SG' : forall a, Some a = Some 0 -> a = 0) by (intros a E; congruence). apply SG' in SG. clear SG'.
  set (w := sqrt (1 - (1 + s_k s) * s_c s ^ 2 * r2_of p)) in *. set (c := s_c s) in *. set (k := s_k s) in *.
  assert (Z : vz p * (1 + w) = c * r2_of p). { apply (f_equal (fun x => x * (1 + w))) in SG. replace ((vz p - c * r2_of p / (1 + w) - 0) * (1 + w)) with (vz p * (1 + w) - c * r2_of p) in SG by (field; lra). lra. }
  assert (E : 1 - c * (1 + k) * vz p = w).
  { apply Rmult_eq_reg_r with (1 + w); [|lra]. replace ((1 - c * (1 + k) * vz p) * (1 + w)) with (1 + w - c * (1 + k) * (vz p * (1 + w))) by ring. rewrite Z.
    replace (c * (1 + k) * (c * r2_of p)) with ((1 + k) * c ^ 2 * r2_of p) by ring. lra. }
  rewrite E. split; [auto|]. intros u. rewrite EN. unfold dot. cbn [vx vy vz].
  replace (c * (vx p * vx u + vy p * vy u + (1 + k) * vz p * vz u) - vz u) with (c * (vx p * vx u + vy p * vy u) - (1 - c * (1 + k) * vz p) * vz u) by ring. rewrite E. field. lra.
Qed.
Lemma conic_smooth s Y U y dy u du t N : vlin Y y dy -> vlin U u du -> dot u u = 1 -> s_asph s = None -> conic_intercept s y u = Some t ->
  surface_sag s (at_ray y u t) = Some 0 -> surface_normal s (at_ray y u t) = Some N -> dot N u <> 0 ->
  exists t', olin (fun h => conic_intercept s (Y h) (U h)) t t'.
Proof.
  intros LY LU UU A CI SG SN GR. destruct (conic_normal_cases s _ N A SG SN) as (WP & GN). specialize (GN u).
  pose proof (vlin_at0 _ _ _ LY) as Y0. pose proof (vlin_at0 _ _ _ LU) as U0. destruct LY as (Yx & Yy & Yz). destruct LU as (Ux & Uy & Uz).
  unfold conic_intercept in CI |- *. destruct (Req_EM_T (s_c s) 0) as [C|C].
  - apply fdiv_inv in CI. destruct CI as (UZ & ->). eexists. eapply olin_eq; [eapply olin_fdiv; [eapply lin_opp; exact Yz|exact Uz|auto]|reflexivity|reflexivity].
  - assert (GU : forall uy uu yy, uy = vx u * vx y + vy u * vy y + (1 + s_k s) * (vz u * vz y) -> uu = vx u * vx u + vy u * vy u + (1 + s_k s) * (vz u * vz u) ->
      forall g, s_c s * uu <> 0 -> t = - (s_c s * uy - vz u + g) / (s_c s * uu) -> g * g = (s_c s * uy - vz u) * (s_c s * uy - vz u) - s_c s * uu * yy -> 0 < (s_c s * uy - vz u) * (s_c s * uy - vz u) - s_c s * uu * yy).
    { intros uy uu yy EY EU g EN ET GG. assert (GZ : g <> 0).
      { intros ->. assert (Q : s_c s * uu * t + (s_c s * uy - vz u) = 0) by (rewrite ET; field; auto; split; [|auto]; intros Z; apply EN; rewrite Z; ring).
        assert (Q2 : dot N u * (1 - s_c s * (1 + s_k s) * vz (at_ray y u t)) = 0).
        { rewrite GN. unfold at_ray, vadd3, vmul3. cbn [vx vy vz]. rewrite <- Ropp_0. f_equal. rewrite <- Q, EY, EU. ring. }
        apply Rmult_integral in Q2. destruct Q2; [auto|lra]. }
      rewrite <- GG. apply Rsqr_pos_lt in GZ. exact GZ. }
    destruct (Req_EM_T (s_k s) 0) as [Z|Z].
    + cbv zeta in CI |- *. set (D := (s_c s * dot u y - vz u) * (s_c s * dot u y - vz u) - s_c s * 1 * (s_c s * dot y y - 2 * vz y)) in *.
      destruct (Rlt_dec D 0) as [L|L]; [rewrite fsqrt_none in CI by auto; discriminate|]. rewrite fsqrt_some in CI by lra. cbn [obind] in CI. apply fdiv_inv in CI. destruct CI as (EN & ET).
      assert (DP : 0 < D).
      { unfold D. apply (GU (dot u y) 1 (s_c s * dot y y - 2 * vz y)) with (g := if s_alt s then sqrt D * -1 else sqrt D); [unfold dot; rewrite Z; ring|unfold dot in UU; rewrite Z; lra|lra|auto|].
        assert (SS : sqrt D * sqrt D = D) by (apply sqrt_sqrt; lra). destruct (s_alt s); [replace (sqrt D * -1 * (sqrt D * -1)) with (sqrt D * sqrt D) by ring|]; exact SS. }
      unfold dot in *. destruct (s_alt s).
      * eexists. eapply olin_eq; [eapply olin_bind|..].
        { eapply olin_eq; [eapply olin_fsqrt; [eapply lin_eq; [solve [lin_auto]|reflexivity|reflexivity]|]|reflexivity|reflexivity]. exact DP. }
        { intros g LG. eapply olin_fdiv; [solve [lin_auto]|apply lin_const|exact EN]. }
        { rewrite ET. reflexivity. }
        { reflexivity. }
      * eexists. eapply olin_eq; [eapply olin_bind|..].
        { eapply olin_eq; [eapply olin_fsqrt; [eapply lin_eq; [solve [lin_auto]|reflexivity|reflexivity]|]|reflexivity|reflexivity]. exact DP. }
        { intros g LG. eapply olin_fdiv; [solve [lin_auto]|apply lin_const|exact EN]. }
        { rewrite ET. reflexivity. }
        { reflexivity. }
    + cbv zeta in CI |- *.
      match type of CI with context [fsqrt ?d] => set (D := d) in * end.
      destruct (Rlt_dec D 0) as [L|L]; [rewrite fsqrt_none in CI by auto; discriminate|]. rewrite fsqrt_some in CI by lra. cbn [obind] in CI. apply fdiv_inv in CI. destruct CI as (EN & ET).
      assert (DP : 0 < D).
      { unfold D. eapply GU with (g := if s_alt s then sqrt D * -1 else sqrt D); [ring|ring|exact EN|exact ET|].
        assert (SS : sqrt D * sqrt D = D) by (apply sqrt_sqrt; lra). destruct (s_alt s); [replace (sqrt D * -1 * (sqrt D * -1)) with (sqrt D * sqrt D) by ring|]; exact SS. }
      destruct (s_alt s).
      * eexists. eapply olin_eq; [eapply olin_bind|..].
        { eapply olin_eq; [eapply olin_fsqrt; [eapply lin_eq; [solve [lin_auto]|reflexivity|reflexivity]|]|reflexivity|reflexivity]. exact DP. }
        { intros g LG. eapply olin_fdiv; [solve [lin_auto]|solve [lin_auto]|exact EN]. }
        { rewrite ET. reflexivity. }
        { reflexivity. }
      * eexists. eapply olin_eq; [eapply olin_bind|..].
        { eapply olin_eq; [eapply olin_fsqrt; [eapply lin_eq; [solve [lin_auto]|reflexivity|reflexivity]|]|reflexivity|reflexivity]. exact DP. }
        { intros g LG. eapply olin_fdiv; [solve [lin_auto]|solve [lin_auto]|exact EN]. }
        { rewrite ET. reflexivity. }
        { reflexivity. }
Qed.
Lemma normal_smooth s Y y dy N : vlin Y y dy -> s_asph s = None -> surface_normal s y = Some N -> exists dN, ovlin (fun h => surface_normal s (Y h)) N dN.
Proof.
  intros LY A SN. pose proof (normal_domain _ _ _ SN) as W. rewrite (surface_normal_spec s y W), A in SN. cbv zeta in SN.
  match type of SN with Some ?n = Some _ => assert (EN : N = n) by congruence end. clear SN. destruct LY as (X & Y1 & Z).
  assert (LW : exists b, lin (fun h => 1 - (1 + s_k s) * s_c s ^ 2 * r2_of (Y h)) (1 - (1 + s_k s) * s_c s ^ 2 * r2_of y) b).
  { eexists. unfold r2_of. eapply lin_eq; [solve [lin_auto]|reflexivity|reflexivity]. }
  destruct LW as (b & LW). pose proof (lin_pos _ _ _ LW W) as NW. pose proof (lin_sqrt _ _ _ LW W) as LS. pose proof (sqrt_lt_R0 _ W) as SP.
  set (w := sqrt (1 - (1 + s_k s) * s_c s ^ 2 * r2_of y)) in *.
  assert (LE : exists q, lin (fun h => - s_c s / sqrt (1 - (1 + s_k s) * s_c s ^ 2 * r2_of (Y h)) - 0) (- s_c s / w - 0) q).
  { eexists. apply lin_minus; [apply lin_div; [apply lin_const|exact LS|lra]|apply lin_const]. }
  destruct LE as (q & LE). rewrite EN.
  eexists (V _ _ _). exists (fun h => V (vx (Y h) * (- s_c s / sqrt (1 - (1 + s_k s) * s_c s ^ 2 * r2_of (Y h)) - 0)) (vy (Y h) * (- s_c s / sqrt (1 - (1 + s_k s) * s_c s ^ 2 * r2_of (Y h)) - 0)) 1). split.
  - split; [|split]; cbn [vx vy vz]; [apply lin_mult; [exact X|exact LE]|apply lin_mult; [exact Y1|exact LE]|apply lin_const].
  - eapply near_impl; [|exact NW]. intros h P. cbn beta in *. rewrite (surface_normal_spec s (Y h) P), A. reflexivity.
Qed.
Lemma refract_smooth U N u du n dn mu v : vlin U u du -> vlin N n dn -> n <> v0 -> mu = -1 \/ 0 < mu -> refract_normal u n mu = Some v -> dot n v <> 0 ->
  exists dv, ovlin (fun h => refract_normal (U h) (N h) mu) v dv.
Proof.
  intros LU LN NZ M RF GR. assert (R2 : dot n n <> 0) by (intros Z; apply dot_zero in Z; contradiction).
  pose proof (vlin_dot _ _ _ _ _ _ LU LN) as L1. pose proof (vlin_dot _ _ _ _ _ _ LN LN) as L2.
  assert (LA : exists b, lin (fun h => Rabs mu * dot (U h) (N h)) (Rabs mu * dot u n) b) by (eexists; apply lin_mult; [apply lin_const|exact L1]). destruct LA as (b1 & LA).
  unfold refract_normal in RF |- *. rewrite fdiv_some in RF by auto. cbn [obind] in RF. destruct (Req_EM_T mu (-1)) as [E|E].
  - match type of RF with Some ?x = Some _ => assert (EV : v = x) by congruence end. rewrite EV. eexists. eapply ovlin_olin_bind; [eapply olin_fdiv; [exact LA|exact L2|auto]|].
    intros a LF. apply ovlin_some. apply vlin_sub; [exact LU|]. eapply vlin_scale; [apply lin_mult; [apply lin_const|exact LF]|exact LN].
  - destruct M as [|M]; [contradiction|]. rewrite fdiv_some in RF by auto. cbn [obind] in RF. set (a0 := Rabs mu * dot u n / dot n n) in *. set (b0 := (mu ^ 2 - 1) / dot n n) in *.
    destruct (Rlt_dec (a0 * a0 - b0) 0) as [L|L]; [rewrite fsqrt_none in RF by auto; discriminate|]. rewrite fsqrt_some in RF by lra. cbn [obind] in RF.
    assert (S : sign mu = 1) by (unfold sign; destruct (Rlt_dec 0 mu); lra). rewrite S in RF |- *.
    match type of RF with Some ?x = Some _ => assert (EV : v = x) by congruence end.
    assert (QP : 0 < a0 * a0 - b0).
    { destruct (Req_dec (a0 * a0 - b0) 0) as [Z|Z]; [|lra]. exfalso. apply GR. rewrite EV, Z, sqrt_0.
      transitivity (Rabs mu * dot u n - a0 * dot n n); [clear; clearbody a0; vec_ring|]. unfold a0. field. auto. }
    rewrite EV. eexists. eapply ovlin_olin_bind; [eapply olin_fdiv; [exact LA|exact L2|auto]|]. fold a0. intros a LF.
    eapply ovlin_olin_bind; [eapply olin_fdiv; [apply lin_const|exact L2|auto]|]. fold b0. intros b LB.
    eapply ovlin_olin_bind; [eapply olin_fsqrt; [apply lin_minus; [apply lin_mult; exact LF|exact LB]|exact QP]|]. intros q LQ.
    apply ovlin_some. apply vlin_add; [eapply vlin_scale; [apply lin_const|exact LU]|]. eapply vlin_scale; [apply lin_plus; [apply lin_opp; exact LF|apply lin_mult; [apply lin_const|exact LQ]]|exact LN].
Qed.
(** hits near a hit on the sheet of the vertex are on this sheet *)
Lemma sheet_near s Y y dy N : s_asph s = None -> vlin Y y dy -> surface_sag s y = Some 0 -> surface_normal s y = Some N ->
  near (fun h => conic_set (s_c s) (s_k s) (Y h)) -> near (fun h => surface_sag s (Y h) = Some 0).
Proof.
  intros A LY SG SN CS. destruct (conic_normal_cases s y N A SG SN) as (WP & _). destruct LY as (X & Y1 & Z).
  assert (LW : exists b, lin (fun h => 1 - s_c s * (1 + s_k s) * vz (Y h)) (1 - s_c s * (1 + s_k s) * vz y) b).
  { eexists. eapply lin_eq; [solve [lin_auto]|reflexivity|reflexivity]. }
  destruct LW as (b & LW). eapply near_impl; [|exact (near_and _ _ CS (lin_pos _ _ _ LW WP))]. intros h (C & P). cbn beta in *. apply sheet_sag; [auto|].
  set (p := Y h) in *. clearbody p. unfold conic_set in C. unfold sheet. set (c := s_c s) in *. set (k := s_k s) in *. set (r2 := vx p * vx p + vy p * vy p) in *.
  assert (E : 1 - (1 + k) * c ^ 2 * r2 = (1 - c * (1 + k) * vz p) * (1 - c * (1 + k) * vz p)).
  { replace (c * (vx p * vx p + vy p * vy p + (1 + k) * (vz p * vz p))) with (c * r2 + c * (1 + k) * (vz p * vz p)) in C by (unfold r2; ring).
    replace ((1 + k) * c ^ 2 * r2) with ((1 + k) * c * (c * r2)) by ring. replace (c * r2) with (2 * vz p - c * (1 + k) * (vz p * vz p)) by lra. ring. }
  rewrite E. set (w := 1 - c * (1 + k) * vz p) in *. rewrite (sqrt_square w) by lra. split; [nra|].
  apply Rmult_eq_reg_r with (1 + w); [|lra]. replace (c * r2 / (1 + w) * (1 + w)) with (c * r2) by (field; lra).
  replace (c * (vx p * vx p + vy p * vy p + (1 + k) * (vz p * vz p))) with (c * r2 + c * (1 + k) * (vz p * vz p)) in C by (unfold r2; ring). unfold w. nra.
Qed.

Section Smooth.
Variable newton : (R -> option R) -> (R -> option R) -> option R -> option R.
Notation trace := (geo_trace newton).
(** one element *)
Lemma propagate_smooth e n0 l c Y U y dy u du y' v' n' t' : good_element l e -> 0 < n0 -> vlin Y y dy -> vlin U u du -> near (fun h => dot (U h) (U h) = 1) ->
  propagate newton e (Some y) (Some u) n0 l c = (Some y', Some v', n', t') -> clean_hit e u y' v' -> (c = true -> well_inside e y') ->
  exists FY FV FT dy' dv', near (fun h => propagate newton e (Some (Y h)) (Some (U h)) n0 l c = (Some (FY h), Some (FV h), n', Some (FT h))) /\
    vlin FY y' dy' /\ vlin FV v' dv' /\ (forall m s, e_kind e = Sph m s -> near (fun h => surface_sag s (FY h) = Some 0)).
Proof.
  intros (GP & GM) NP LY LU UN PR CL IN. pose proof (near_0 _ UN) as UU. cbn beta in UU. rewrite (vlin_at0 _ _ _ LU) in UU.
  (* the hit *)
  assert (HIT : forall t, (match e_kind e with Plain => plane_intercept y u | Sph _ s => intercept newton s y u end) = Some t -> at_ray y u t = y' -> 
     exists t', olin (fun h => match e_kind e with Plain => plane_intercept (Y h) (U h) | Sph _ s => intercept newton s (Y h) (U h) end) t t').
  { intros t HT AT. unfold clean_hit in CL. destruct (e_kind e) as [|m s].
    - unfold plane_intercept in HT |- *. apply fdiv_inv in HT. destruct HT as (UZ & ->). destruct LY as (_ & _ & Yz). destruct LU as (_ & _ & Uz).
      eexists. eapply olin_fdiv; [eapply lin_opp; exact Yz|exact Uz|auto].
    - destruct CL as (A & SG & N & SN & G1 & G2). unfold intercept in HT |- *. rewrite A in *. rewrite <- AT in SG, SN. eapply conic_smooth; eauto. }
  unfold propagate in PR. cbn [obind] in PR.
  set (tt := match e_kind e with Plain => plane_intercept y u | Sph _ s => intercept newton s y u end) in *.
  destruct tt as [t|] eqn:TT.
  2:{ cbn [obind] in PR. destruct (e_kind e); [discriminate|]. destruct (get_n_mu mat n0 l) as [n2 mu]. discriminate. }
  cbn [obind] in PR.
  assert (AT : at_ray y u t = y') by (destruct (e_kind e); [|destruct (get_n_mu mat n0 l) as [n2 mu]]; congruence).
  destruct (HIT t eq_refl AT) as (dt & FT & LT & NT).
  set (FY := fun h => at_ray (Y h) (U h) (FT h)).
  assert (LFY : exists dy', vlin FY y' dy').
  { eexists. rewrite <- AT. unfold FY, at_ray. apply vlin_add; [exact LY|]. eapply vlin_scale; [exact LT|exact LU]. }
  destruct LFY as (dy' & LFY).
  assert (CLIP : near (fun h => (if c then clip (e_radius e) (Some (FY h)) (Some (U h)) else Some (U h)) = Some (U h))).
  { destruct c; [|apply near_true; auto]. unfold clip. destruct (e_radius e) as [r|] eqn:ER; [|apply near_true; auto]. specialize (IN eq_refl r ER).
    assert (LR : exists b, lin (fun h => r2_of (FY h)) (r2_of y') b) by (destruct LFY as (X & Y1 & Z); eexists; unfold r2_of; eapply lin_eq; [solve [lin_auto]|reflexivity|reflexivity]).
    destruct LR as (b & LR). eapply near_impl; [|exact (lin_bound _ _ _ _ LR IN)]. intros h L. cbn beta in L. destruct (Rle_dec _ _); [reflexivity|lra]. }
  assert (ONS : forall m s, e_kind e = Sph m s -> near (fun h => surface_sag s (FY h) = Some 0)).
  { intros m s K. unfold clean_hit in CL. rewrite K in CL. destruct CL as (A & SG & N & SN & _). apply (sheet_near s FY y' dy' N A LFY SG SN).
    eapply near_impl; [|exact (near_and _ _ NT UN)]. intros h (HT & UH). cbn beta in *. rewrite K in HT. unfold intercept in HT. rewrite A in HT. unfold FY. apply C13_on_surface; auto. }
  rewrite AT in PR.
  destruct (e_kind e) as [|m s] eqn:K.
  - exists FY, U, (fun h => FT h * n0), dy', du. pose proof (near_0 _ CLIP) as C0. cbn beta in C0. unfold FY in C0. rewrite (vlin_at0 _ _ _ LY), (vlin_at0 _ _ _ LU), (lin_at0 _ _ _ LT), AT in C0.
    rewrite C0 in PR. injection PR as <- <- <-. split; [|split; [exact LFY|split; [exact LU|intros; discriminate]]].
    eapply near_impl; [|exact (near_and _ _ NT CLIP)]. intros h (HT & HC). cbn beta in *. unfold propagate. rewrite K. cbn [obind]. rewrite HT. cbn [obind]. fold (FY h). rewrite HC. reflexivity.
  - pose proof (near_0 _ CLIP) as C0. cbn beta in C0. unfold FY in C0. rewrite (vlin_at0 _ _ _ LY), (vlin_at0 _ _ _ LU), (lin_at0 _ _ _ LT), AT in C0. rewrite C0 in PR.
    destruct (good_n_mu m n0 l NP GM) as (n2 & mu & NM & N2 & MC & _). rewrite NM in PR.
    assert (MZ : mu <> 0) by (destruct MC as [->|[->|]]; lra). destruct (Req_EM_T mu 0); [contradiction|].
    assert (RV : refract s (Some y') (Some u) mu = Some v') by congruence. assert (NN : n' = n2) by congruence. clear PR. subst n'.
    unfold clean_hit in CL. rewrite K in CL. destruct CL as (A & SG & N & SN & G1 & G2).
    assert (RS : exists FV dv', vlin FV v' dv' /\ near (fun h => refract s (Some (FY h)) (Some (U h)) mu = Some (FV h))).
    { unfold refract in RV |- *. destruct (Req_EM_T mu 1) as [E1|E1].
      - injection RV as <-. exists U, du. split; [exact LU|apply near_true; auto].
      - cbn [obind] in RV. rewrite SN in RV. cbn [obind] in RV. destruct (normal_smooth s FY y' dy' N LFY A SN) as (dN & FN & LN & NN).
        assert (M' : mu = -1 \/ 0 < mu) by tauto.
        destruct (refract_smooth U FN u du N dN mu v' LU LN (surface_normal_nz _ _ _ SN) M' RV G2) as (dv & FV & LV & NV). exists FV, dv. split; [exact LV|].
        eapply near_impl; [|exact (near_and _ _ NN NV)]. intros h (A1 & A2). cbn beta in *. cbn [obind]. rewrite A1. cbn [obind]. exact A2. }
    destruct RS as (FV & dv' & LFV & NFV). exists FY, FV, (fun h => FT h * n0), dy', dv'. split; [|split; [exact LFY|split; [exact LFV|exact ONS]]].
    eapply near_impl; [|exact (near_and _ _ NT (near_and _ _ CLIP NFV))]. intros h (HT & HC & HV). cbn beta in *. unfold propagate. rewrite K. cbn [obind]. rewrite HT. cbn [obind]. fold (FY h). rewrite HC, NM.
    destruct (Req_EM_T mu 0); [contradiction|]. rewrite HV. reflexivity.
Qed.
(** what the trace does from one element to the next *)
Lemma sys_next es : forall y u n l c i e e' s, nth_error es i = Some e -> nth_error es (S i) = Some e' -> nth_error (sys_propagate newton es y u n l c) i = Some s ->
  exists s', nth_error (sys_propagate newton es y u n l c) (S i) = Some s' /\
    propagate newton e' (do y <- onormal (from_normal (e_place e)) (st_y s); to_normal (e_place e') (vsub3 y (p_offset (e_place e')))) (st_i s') (st_n s) l c
      = (st_y s', st_u s', st_n s', st_t s') /\ st_i s' = onormal (to_normal (e_place e')) (onormal (from_normal (e_place e)) (st_u s)).
Proof.
  induction es as [|e0 es IH]; intros y u n l c i e e' s E E' S; [destruct i; discriminate|]. cbn [sys_propagate] in S |- *.
  destruct (propagate newton e0 _ _ n l c) as [[[y1 u1] n1] t1]. destruct i as [|i]; cbn [nth_error] in *.
  - injection E as <-. injection S as <-. cbn [st_y st_u st_n]. destruct es as [|e1 es]; [discriminate|]. cbn [sys_propagate nth_error] in *. injection E' as <-.
    destruct (propagate newton e1 _ _ n1 l c) as [[[y2 u2] n2] t2] eqn:P. eexists. split; [reflexivity|]. cbn [st_i st_y st_u st_n st_t]. split; [exact P|reflexivity].
  - eapply IH; eauto.
Qed.
Lemma trace_next es y u n l c i e e' s : nth_error es i = Some e -> nth_error es (S i) = Some e' -> nth_error (trace es y u n l c) i = Some s ->
  exists s', nth_error (trace es y u n l c) (S i) = Some s' /\
    propagate newton e' (do y <- onormal (from_normal (e_place e)) (st_y s); to_normal (e_place e') (vsub3 y (p_offset (e_place e')))) (st_i s') (st_n s) l c
      = (st_y s', st_u s', st_n s', st_t s') /\ st_i s' = onormal (to_normal (e_place e')) (onormal (from_normal (e_place e)) (st_u s)).
Proof.
  destruct es as [|e0 es]; [destruct i; discriminate|]. cbn [geo_trace]. destruct i as [|i]; cbn [nth_error].
  - intros E E' S. injection E as <-. injection S as <-. cbn [st_y st_u st_n onormal obind]. destruct es as [|e1 es]; [discriminate|]. cbn [sys_propagate nth_error] in *. injection E' as <-.
    destruct (propagate newton e1 _ _ n l c) as [[[y2 u2] n2] t2] eqn:P. eexists. split; [reflexivity|]. cbn [st_i st_y st_u st_n st_t]. split; [exact P|reflexivity].
  - intros E E' S. eapply sys_next; eauto.
Qed.
(** all elements *)
Lemma trace_smooth es Y U y dy u du n l c : physical l es -> 0 < n -> vlin Y y dy -> vlin U u du -> near (fun h => dot (U h) (U h) = 1) ->
  let ray h := trace es (Y h) (U h) n l c in
  forall k, (forall i, (i <= k)%nat -> exists e s p v, nth_error es i = Some e /\ nth_error (trace es y u n l c) i = Some s /\ st_y s = Some p /\ st_u s = Some v /\
      ((0 < i)%nat -> (exists w, st_i s = Some w /\ clean_hit e w p v) /\ (c = true -> well_inside e p))) ->
  forall i, (i <= k)%nat -> exists p dp v dv, ovlin (fun h => position_at i (ray h)) p dp /\ ovlin (fun h => direction_at i (ray h)) v dv /\
    near (fun h => forall w, direction_at i (ray h) = Some w -> dot w w = 1) /\
    (forall e m s, (0 < i)%nat -> nth_error es i = Some e -> e_kind e = Sph m s -> near (fun h => exists p, position_at i (ray h) = Some p /\ surface_sag s p = Some 0)).
Proof.
  intros G NP LY LU UN ray k H. induction i as [|i IH]; intros IK.
  - destruct (H 0%nat IK) as (e & s & p & v & E & S & _). destruct es as [|e0 es]; [discriminate|]. exists y, dy, u, du. unfold ray, position_at, direction_at. cbn [geo_trace nth_error obind st_y st_u].
    split; [apply ovlin_some; exact LY|]. split; [apply ovlin_some; exact LU|]. split; [eapply near_impl; [|exact UN]; intros h D w W; congruence|intros; lia].
  - destruct (IH ltac:(lia)) as (p & dp & v & dv & (FY & LFY & NFY) & (FV & LFV & NFV) & UV & _).
    destruct (H i ltac:(lia)) as (e & s & p1 & v1 & E & S & SP & SV & _). destruct (H (Datatypes.S i) IK) as (e' & s' & p' & v' & E' & S' & SP' & SV' & CC).
    destruct (CC ltac:(lia)) as ((w' & SI' & CL) & IN). clear CC.
    assert (GE : good_element l e) by (unfold physical in G; rewrite Forall_forall in G; apply G; eapply nth_error_In; eauto).
    assert (GE' : good_element l e') by (unfold physical in G; rewrite Forall_forall in G; apply G; eapply nth_error_In; eauto).
    destruct (normal_maps _ (proj1 GE)) as (r & RR & F & T). destruct (normal_maps _ (proj1 GE')) as (r' & RR' & F' & T').
    (* the ray at zero *)
    assert (R0 : ray 0 = trace es y u n l c) by (unfold ray; rewrite (vlin_at0 _ _ _ LY), (vlin_at0 _ _ _ LU); reflexivity).
    pose proof (near_0 _ NFY) as Y0. pose proof (near_0 _ NFV) as V0. cbn beta in Y0, V0. rewrite R0 in Y0, V0. unfold position_at, direction_at in Y0, V0. rewrite S in Y0, V0. cbn [obind] in Y0, V0.
    rewrite SP in Y0. rewrite SV in V0. injection Y0 as Y0. injection V0 as V0. rewrite (vlin_at0 _ _ _ LFY) in Y0. rewrite (vlin_at0 _ _ _ LFV) in V0. subst p1 v1.
    destruct (trace_next es y u n l c i e e' s E E' S) as (s2 & S2 & PR & PI). rewrite S' in S2. injection S2 as <-.
    unfold onormal in PR, PI. rewrite SP in PR. rewrite SV in PI. cbn [obind] in PR, PI. rewrite F in PR. rewrite F in PI. cbn [obind] in PR, PI. rewrite T' in PR. rewrite T' in PI.
    rewrite PI in SI'. injection SI' as <-. rewrite PI, SP', SV' in PR.
    set (LYl := fun h => vm (vsub3 (vm (FY h) r) (p_offset (e_place e'))) (mT r')). set (LUl := fun h => vm (vm (FV h) r) (mT r')).
    assert (L1 : vlin LYl (vm (vsub3 (vm p r) (p_offset (e_place e'))) (mT r')) (vm (vsub3 (vm dp r) v0) (mT r'))).
    { apply vlin_vm, vlin_sub; [apply vlin_vm; exact LFY|apply vlin_const]. }
    assert (L2 : vlin LUl (vm (vm v r) (mT r')) (vm (vm dv r) (mT r'))) by (apply vlin_vm, vlin_vm; exact LFV).
    assert (U2 : near (fun h => dot (LUl h) (LUl h) = 1)).
    { eapply near_impl; [|exact (near_and _ _ NFV UV)]. intros h (A & B). cbn beta in *. unfold LUl. rewrite rotation_dot by (apply rotation_mT; auto). rewrite rotation_dot by auto. apply B; exact A. }
    assert (NPI : 0 < st_n s).
    { apply (trace_good newton es y u n l c i e s G NP); auto. rewrite <- (vlin_at0 _ _ _ LU). exact (near_0 _ UN). }
    destruct (propagate_smooth e' (st_n s) l c LYl LUl _ _ _ _ p' v' (st_n s') (st_t s') GE' NPI L1 L2 U2 PR CL IN) as (GY & GV & GT & dy' & dv' & NPR & LGY & LGV & ONS).
    assert (STEP : near (fun h => position_at (Datatypes.S i) (ray h) = Some (GY h) /\ direction_at (Datatypes.S i) (ray h) = Some (GV h))).
    { eapply near_impl; [|exact (near_and _ _ NPR (near_and _ _ NFY NFV))]. intros h (A & B & C). cbn beta in *. unfold position_at, direction_at in *.
      destruct (nth_error (ray h) i) as [q|] eqn:Q; cbn [obind] in B, C; [|discriminate].
      destruct (trace_next es (Y h) (U h) n l c i e e' q E E' Q) as (q' & Q' & PQ & IQ). unfold ray. rewrite Q'. cbn [obind].
      unfold onormal in PQ, IQ. rewrite B in PQ. rewrite C in IQ. cbn [obind] in PQ, IQ. rewrite F in PQ. rewrite F in IQ. cbn [obind] in PQ, IQ. rewrite T' in PQ. rewrite T' in IQ. rewrite IQ in PQ.
      fold (LYl h) in PQ. fold (LUl h) in PQ. assert (NI : st_n q = st_n s) by (eapply (trace_index newton es (Y h) (U h) y u n l c i); eauto).
      rewrite NI, A in PQ. injection PQ as <- <- _ _. auto. }
    exists p', dy', v', dv'. split; [exists GY; split; [exact LGY|eapply near_impl; [|exact STEP]; intros h (A & B); exact A]|].
    split; [exists GV; split; [exact LGV|eapply near_impl; [|exact STEP]; intros h (A & B); exact B]|]. split.
    + eapply near_impl; [|exact UN]. intros h D w W. cbn beta in *. unfold direction_at in W. destruct (nth_error (ray h) (Datatypes.S i)) as [q|] eqn:Q; cbn [obind] in W; [|discriminate].
      exact (proj1 (trace_good newton es (Y h) (U h) n l c (Datatypes.S i) e' q G NP D E' Q) w W).
    + intros e2 m s2 _ E2 K2. rewrite E' in E2. injection E2 as <-. eapply near_impl; [|exact (near_and _ _ STEP (ONS m s2 K2))]. intros h ((A & _) & B). exists (GY h). auto.
Qed.
End Smooth.
