(** Property C81: surfaces with one common centre: the moment about the centre, spherical symmetry, the ball lens. *)
From Coq Require Import Reals ZArith List Lra Lia Psatz.
From Verif Require Import Base Vec RotModel RotProofs PlacementModel PlacementProofs ElementModel ElementProofs TraceProofs
  PropsElement PropsTrace OpdModel PropsOpd Hamilton PropsPlane.
Import ListNotations.
Open Scope R_scope.

(** * specification *)
Definition spherical (s : surf) : Prop := s_c s <> 0 /\ s_k s = 0 /\ s_asph s = None.
(** the centre of curvature of element [k] is at [C] in the lab *)
Definition centred_at (es : list element) (k : nat) (s : surf) (C : vec) : Prop :=
  exists e o q, nth_error es k = Some e /\ nth_error (origins es) k = Some o /\ from_normal (e_place e) (V 0 0 (/ s_c s)) = Some q /\ C = vadd3 o q.
(** element [k] acts on rays only by a sphere about [C] *)
Definition about (es : list element) (C : vec) (k : nat) : Prop := forall e, nth_error es k = Some e ->
  match e_kind e with Plain | Sph None _ => True | Sph (Some _) s => spherical s /\ centred_at es k s C end.
(** [P] lies on the half of that sphere that holds the vertex *)
Definition near (es : list element) (C : vec) (k : nat) (P : vec) : Prop := forall e, nth_error es k = Some e ->
  match e_kind e with Plain | Sph None _ => True | Sph (Some _) s => 0 < s_c s * dot (vsub3 C P) (normal_of e) end.

(** * proofs *)
Lemma sphere_normal s p N : spherical s -> quadric (s_c s) (s_k s) p = 0 -> 0 < 1 - s_c s * vz p -> surface_normal s p = Some N ->
  vsub3 (V 0 0 (/ s_c s)) p = vmul3 ((1 - s_c s * vz p) / s_c s) N.
Proof.
  intros (C & K & A) Q H SN. destruct (conic_normal s p C A N SN) as (W & ->). unfold quadric in Q. rewrite K in *.
  set (w := sqrt _) in *. assert (WW : w = 1 - s_c s * vz p).
  { unfold w. replace (1 - (1 + 0) * s_c s ^ 2 * r2_of p) with ((1 - s_c s * vz p) * (1 - s_c s * vz p)); [apply sqrt_square; lra|]. unfold r2_of in *.
    assert (E : s_c s * ((vx p * vx p + vy p * vy p) + vz p * vz p) = 2 * vz p) by lra.
    transitivity (1 - 2 * vz p * s_c s + s_c s * s_c s * (vz p * vz p)); [ring|]. rewrite <- E. ring. }
  rewrite <- WW. apply vec_eq; unfold vsub3, vmul3; cbn [vx vy vz]; [field; split; lra|field; split; lra|rewrite WW; field; exact C].
Qed.
Lemma sphere_normal_some s p : spherical s -> quadric (s_c s) (s_k s) p = 0 -> 0 < 1 - s_c s * vz p -> exists N, surface_normal s p = Some N.
Proof.
  intros (C & K & A) Q H. unfold surface_normal. destruct (Req_EM_T (s_c s) 0); [contradiction|]. unfold quadric in Q. rewrite K in *.
  assert (E : s_c s * ((vx p * vx p + vy p * vy p) + vz p * vz p) = 2 * vz p) by (unfold r2_of in *; lra).
  assert (W : 1 - (1 + 0) * s_c s ^ 2 * r2_of p = (1 - s_c s * vz p) * (1 - s_c s * vz p)).
  { unfold r2_of. transitivity (1 - 2 * vz p * s_c s + s_c s * s_c s * (vz p * vz p)); [rewrite <- E|]; ring. }
  cbv zeta. rewrite W, fsqrt_some by nra. cbn [obind]. rewrite sqrt_square by lra. rewrite fdiv_some by lra. cbn [obind]. eauto.
Qed.
Lemma normal_local e r p c : (forall y, from_normal (e_place e) y = Some (vm y r)) -> rotation r ->
  dot (vm (vsub3 (V 0 0 (/ c)) p) r) (normal_of e) = / c - vz p.
Proof. intros F R. unfold normal_of. rewrite F, rotation_dot by auto. unfold dot, vsub3, ez; cbn [vx vy vz]. ring. Qed.
Lemma vm_sub a b r : vm (vsub3 a b) r = vsub3 (vm a r) (vm b r). Proof. vec_ring. Qed.

Section Concentric.
Variable newton : (R -> option R) -> (R -> option R) -> option R -> option R.
Notation trace := (geo_trace newton).

(** ** index times the moment of the ray about the centre *)
Theorem C81_moment es y u n l c C k P U s P0 U0 : physical l es -> 0 < n -> dot u u = 1 ->
  let ray := trace es y u n l c in
  (forall j, (1 <= j <= k)%nat -> about es C j /\ forall Q, lab_point es j ray Q -> near es C j Q) ->
  lab_point es 0 ray P0 -> lab_direction es 0 ray U0 -> lab_point es k ray P -> lab_direction es k ray U -> nth_error ray k = Some s ->
  vmul3 (st_n s) (cross (vsub3 P C) U) = vmul3 n (cross (vsub3 P0 C) U0).
Proof.
  intros G N U1 ray. revert P U s. induction k as [|k IH]; intros P U s H L0 D0 LP LD S.
  - destruct L0 as (e & o & s0 & p & q & E & O & S0 & SY & FY & ->). destruct LP as (e1 & o1 & s1 & p1 & q1 & E1 & O1 & S1 & SY1 & FY1 & ->).
    destruct D0 as (e2 & s2 & v & E2 & S2 & SU & FU). destruct LD as (e3 & s3 & v3 & E3 & S3 & SU3 & FU3).
    assert (NS : st_n s = n). { unfold ray in S. destruct es as [|e0 es']; [discriminate|]. cbn [geo_trace nth_error] in S. injection S as <-. reflexivity. }
    rewrite NS. congruence.
  - destruct LP as (e' & o' & s1 & p' & q' & E' & O' & S1 & SY & FY & ->). destruct LD as (e2 & s2 & v' & E2 & S2 & SU & FU). rewrite S in S1, S2. injection S1 as <-. injection S2 as <-. rewrite E' in E2. injection E2 as <-.
    destruct (nth_error es k) as [e|] eqn:E. 2: { apply nth_error_None in E. assert (X : (Datatypes.S k < length es)%nat) by (apply nth_error_Some; congruence). lia. }
    destruct (nth_error ray k) as [s0|] eqn:S0. 2: { apply nth_error_None in S0. assert (X : (Datatypes.S k < length ray)%nat) by (apply nth_error_Some; congruence). lia. }
    destruct (origins_some _ _ _ E) as (o & O).
    assert (GE : good_element l e) by (unfold physical in G; rewrite Forall_forall in G; apply G; eapply nth_error_In; eauto).
    assert (GE' : good_element l e') by (unfold physical in G; rewrite Forall_forall in G; apply G; eapply nth_error_In; eauto).
    destruct (normal_maps _ (proj1 GE)) as (r & RR & F & T). destruct (normal_maps _ (proj1 GE')) as (r' & RR' & F' & T').
    destruct (C16_straight_lines newton es y u n l c k e e' s0 s o o' G N U1 E E' S0 S O O' p' SY) as (p & v & A & A' & B & t & SP & SV & FA & FB & FA' & UU & _ & LN).
    rewrite F in FA, FB. injection FA as <-. injection FB as <-. rewrite FA' in FY. injection FY as <-.
    rewrite <- (IH (vadd3 o (vm p r)) (vm v r) s0); auto.
    2: { intros j J. apply H. lia. }
    2: { exists e, o, s0, p, (vm p r). auto 10. }
    2: { exists e, s0, v. auto. }
    rewrite F' in FA'. injection FA' as <-. rewrite F' in FU. injection FU as <-.
    assert (M1 : cross (vsub3 (vadd3 o (vm p r)) C) (vm v r) = cross (vsub3 (vadd3 o' (vm p' r')) C) (vm v r)).
    { replace (vadd3 o' (vm p' r')) with (vadd3 (vadd3 o (vm p r)) (vmul3 t (vm v r))) by (rewrite <- LN; generalize (vm p r) (vm p' r'); intros; vec_ring).
      generalize (vm p r) (vm v r). intros. vec_ring. }
    rewrite M1. clear M1 IH.
    set (w := vm (vm v r) (mT r')). assert (WW : vm v r = vm w r') by (unfold w; rewrite <- vm_mm; destruct RR' as (_ & RR' & _); rewrite RR'; symmetry; apply vm_eye).
    assert (II : st_i s = Some w).
    { rewrite (link newton es y u n l c k e e' s0 s E E' S0 S), SV. unfold onormal. cbn [obind]. rewrite F. cbn [obind]. apply T'. }
    destruct (C16_surface_laws newton es y u n l c k e e' s0 s v' G N U1 E E' S0 S ltac:(rewrite SY; discriminate) SU) as (w1 & p1 & IW & YP & LAW).
    rewrite II in IW. injection IW as <-. rewrite SY in YP. injection YP as <-. rewrite WW. clearbody w.
    destruct (H (Datatypes.S k)) as (AB & NE); [lia|]. specialize (AB e' E').
    assert (LP : lab_point es (Datatypes.S k) ray (vadd3 o' (vm p' r'))) by (exists e', o', s, p', (vm p' r'); repeat (split; [auto|]); reflexivity).
    specialize (NE _ LP e' E').
    pose proof (C16_on_surface newton es y u n l c k e e' s0 s G N U1 E E' S0 S) as ON.
    destruct (e_kind e') as [|[m|] sf] eqn:EK; [destruct LAW as (-> & ->); reflexivity| |destruct LAW as (-> & ->); reflexivity].
    destruct AB as (SP' & (e1 & o1 & q1 & E1 & O1 & F1 & ->)). rewrite E' in E1. injection E1 as <-. rewrite O' in O1. injection O1 as <-. rewrite F' in F1. injection F1 as <-.
    replace (vsub3 (vadd3 o' (vm (V 0 0 (/ s_c sf)) r')) (vadd3 o' (vm p' r'))) with (vm (vsub3 (V 0 0 (/ s_c sf)) p') r') in NE by (rewrite vm_sub; generalize (vm p' r') (vm (V 0 0 (/ s_c sf)) r'); intros; vec_ring).
    rewrite (normal_local e' r' p' (s_c sf) F' RR') in NE.
    pose proof SP' as (CN & KN & AN).
    assert (NE' : 0 < 1 - s_c sf * vz p') by (replace (1 - s_c sf * vz p') with (s_c sf * (/ s_c sf - vz p')) by (field; exact CN); exact NE).
    assert (QZ : quadric (s_c sf) (s_k sf) p' = 0).
    { assert (Q : on_surface e' p') by (apply ON; [unfold analytic; rewrite EK; exact AN|exact SY]). unfold on_surface in Q. rewrite EK in Q. unfold quadric, r2_of in *. lra. }
    assert (JUMP : forall M, surface_normal sf p' = Some M -> vmul3 (st_n s) (cross v' M) = vmul3 (st_n s0) (cross w M) ->
      vmul3 (st_n s) (cross (vsub3 (vadd3 o' (vm p' r')) (vadd3 o' (vm (V 0 0 (/ s_c sf)) r'))) (vm v' r')) =
      vmul3 (st_n s0) (cross (vsub3 (vadd3 o' (vm p' r')) (vadd3 o' (vm (V 0 0 (/ s_c sf)) r'))) (vm w r'))).
    { intros M SM CR. pose proof (sphere_normal sf p' M SP' QZ NE' SM) as EQ. set (a := (1 - s_c sf * vz p') / s_c sf) in EQ. clearbody a.
      assert (D : vsub3 (vadd3 o' (vm p' r')) (vadd3 o' (vm (V 0 0 (/ s_c sf)) r')) = vm (vmul3 (- a) M) r').
      { replace (vmul3 (- a) M) with (vsub3 p' (V 0 0 (/ s_c sf))). 2:{ transitivity (vmul3 (-1) (vsub3 (V 0 0 (/ s_c sf)) p')); [generalize (V 0 0 (/ s_c sf)); intros; vec_ring|rewrite EQ; vec_ring]. }
        rewrite vm_sub. generalize (vm p' r') (vm (V 0 0 (/ s_c sf)) r'); intros; vec_ring. }
      rewrite D, !rotation_cross by auto.
      replace (cross (vmul3 (- a) M) v') with (vmul3 a (cross v' M)) by vec_ring. replace (cross (vmul3 (- a) M) w) with (vmul3 a (cross w M)) by vec_ring.
      rewrite !vm_scale. transitivity (vmul3 a (vm (vmul3 (st_n s) (cross v' M)) r')); [rewrite vm_scale; generalize (vm (cross v' M) r'); intros; vec_ring|]. rewrite CR, vm_scale. generalize (vm (cross w M) r'); intros; vec_ring. }
    destruct (m_mirror m).
    + destruct LAW as (M & SM & (_ & _ & CR & _) & NN). apply (JUMP M SM). rewrite NN, CR. reflexivity.
    + destruct LAW as (NI & LAW). destruct (Req_EM_T (st_n s) (st_n s0)) as [Q|Q]; [rewrite LAW, Q; reflexivity|].
      destruct LAW as (M & SM & (_ & CR & _)). apply (JUMP M SM CR).
Qed.

(** ** distance of the ray from the centre *)
Definition distance_to (C P U : vec) (d : R) : Prop :=
  0 <= d /\ (forall t, d * d <= dot (vsub3 (at_ray P U t) C) (vsub3 (at_ray P U t) C)) /\ exists t, dot (vsub3 (at_ray P U t) C) (vsub3 (at_ray P U t) C) = d * d.
Lemma distance_cross C P U d : dot U U = 1 -> distance_to C P U d -> d * d = dot (cross (vsub3 P C) U) (cross (vsub3 P C) U).
Proof.
  intros U1 (D & LE & t & EQ). set (t0 := - dot (vsub3 P C) U).
  assert (K : forall t, dot (vsub3 (at_ray P U t) C) (vsub3 (at_ray P U t) C) = dot (cross (vsub3 P C) U) (cross (vsub3 P C) U) + (t - t0) * (t - t0)).
  { intros t'. unfold t0. transitivity (dot (vsub3 P C) (vsub3 P C) + 2 * t' * dot (vsub3 P C) U + t' * t' * dot U U); [unfold at_ray; vec_ring|].
    assert (L : dot (cross (vsub3 P C) U) (cross (vsub3 P C) U) = dot (vsub3 P C) (vsub3 P C) * dot U U - dot (vsub3 P C) U * dot (vsub3 P C) U) by (generalize (vsub3 P C); intros; vec_ring).
    rewrite L, U1. ring. }
  pose proof (LE t0) as L0. rewrite K in L0. rewrite K in EQ. replace (t0 - t0) with 0 in L0 by ring. pose proof (Rle_0_sqr (t - t0)) as S. unfold Rsqr in S. lra.
Qed.
Lemma cross_distance C P U d : dot U U = 1 -> 0 <= d -> d * d = dot (cross (vsub3 P C) U) (cross (vsub3 P C) U) -> distance_to C P U d.
Proof.
  intros U1 D E. set (t0 := - dot (vsub3 P C) U).
  assert (K : forall t, dot (vsub3 (at_ray P U t) C) (vsub3 (at_ray P U t) C) = d * d + (t - t0) * (t - t0)).
  { intros t'. rewrite E. unfold t0. transitivity (dot (vsub3 P C) (vsub3 P C) + 2 * t' * dot (vsub3 P C) U + t' * t' * dot U U); [unfold at_ray; vec_ring|].
    assert (L : dot (cross (vsub3 P C) U) (cross (vsub3 P C) U) = dot (vsub3 P C) (vsub3 P C) * dot U U - dot (vsub3 P C) U * dot (vsub3 P C) U) by (generalize (vsub3 P C); intros; vec_ring).
    rewrite L, U1. ring. }
  split; [exact D|]. split; [|exists t0; rewrite K; ring]. intros t. rewrite K. pose proof (Rle_0_sqr (t - t0)) as S. unfold Rsqr in S. lra.
Qed.
Lemma direction_unit es y u n l c k U : physical l es -> 0 < n -> dot u u = 1 -> lab_direction es k (trace es y u n l c) U -> dot U U = 1.
Proof.
  intros G N U1 (e & s & v & E & S & SU & FU). destruct (C16_unit_directions newton es y u n l c k e s G N U1 E S) as (A & _). specialize (A v SU).
  assert (GE : good_element l e) by (unfold physical in G; rewrite Forall_forall in G; apply G; eapply nth_error_In; eauto).
  destruct (normal_maps _ (proj1 GE)) as (r & RR & F & T). rewrite F in FU. injection FU as <-. rewrite rotation_dot; auto.
Qed.
(** the ray stays in one plane through the centre, and index times its distance from the centre does not change *)
Theorem C81_distance es y u n l c C k P U s P0 U0 d0 d : physical l es -> 0 < n -> dot u u = 1 ->
  let ray := trace es y u n l c in
  (forall j, (1 <= j <= k)%nat -> about es C j /\ forall Q, lab_point es j ray Q -> near es C j Q) ->
  lab_point es 0 ray P0 -> lab_direction es 0 ray U0 -> lab_point es k ray P -> lab_direction es k ray U -> nth_error ray k = Some s ->
  distance_to C P0 U0 d0 -> distance_to C P U d ->
  st_n s * d = n * d0 /\ dot (cross (vsub3 P0 C) U0) (vsub3 P C) = 0 /\ dot (cross (vsub3 P0 C) U0) U = 0.
Proof.
  intros G N U1 ray H L0 D0 LP LD S DI0 DI. pose proof (C81_moment es y u n l c C k P U s P0 U0 G N U1 H L0 D0 LP LD S) as M.
  pose proof (direction_unit _ _ _ _ _ _ _ _ G N U1 D0) as V0. pose proof (direction_unit _ _ _ _ _ _ _ _ G N U1 LD) as V1.
  pose proof (distance_cross _ _ _ _ V0 DI0) as X0. pose proof (distance_cross _ _ _ _ V1 DI) as X1.
  assert (E : exists e, nth_error es k = Some e) by (destruct LD as (e & _ & _ & E & _); eauto). destruct E as (e & E).
  destruct (C16_unit_directions newton es y u n l c k e s G N U1 E S) as (_ & _ & SN).
  assert (PP : forall a b, a * dot b b = dot (vmul3 a b) b) by (intros; vec_ring).
  split; [|split].
  - assert (SQ : (st_n s * d) * (st_n s * d) = (n * d0) * (n * d0)).
    { transitivity (st_n s * st_n s * (d * d)); [ring|]. rewrite X1. transitivity (dot (vmul3 (st_n s) (cross (vsub3 P C) U)) (vmul3 (st_n s) (cross (vsub3 P C) U))); [generalize (cross (vsub3 P C) U); intros; vec_ring|].
      rewrite M. transitivity (n * n * dot (cross (vsub3 P0 C) U0) (cross (vsub3 P0 C) U0)); [generalize (cross (vsub3 P0 C) U0); intros; vec_ring|]. rewrite <- X0. ring. }
    destruct DI0 as (D & _), DI as (D' & _). assert (0 <= st_n s * d) by (apply Rmult_le_pos; lra). assert (0 <= n * d0) by (apply Rmult_le_pos; lra). nra.
  - apply Rmult_eq_reg_l with n; [|lra]. transitivity (dot (vmul3 n (cross (vsub3 P0 C) U0)) (vsub3 P C)); [generalize (cross (vsub3 P0 C) U0) (vsub3 P C); intros; vec_ring|].
    rewrite <- M. generalize (vsub3 P C); intros; vec_ring.
  - apply Rmult_eq_reg_l with n; [|lra]. transitivity (dot (vmul3 n (cross (vsub3 P0 C) U0)) U); [generalize (cross (vsub3 P0 C) U0); intros; vec_ring|].
    rewrite <- M. generalize (vsub3 P C); intros; vec_ring.
Qed.

(** ** spherical symmetry *)
Definition isometry (T : vec -> vec) : Prop :=
  (forall a b, T (vadd3 a b) = vadd3 (T a) (T b)) /\ (forall k a, T (vmul3 k a) = vmul3 k (T a)) /\ (forall a b, dot (T a) (T b) = dot a b).
Definition turn_about (C : vec) (T : vec -> vec) (P : vec) : vec := vadd3 C (T (vsub3 P C)).
(** element [k] is a sphere about [C] *)
Definition sphere_at (es : list element) (C : vec) (k : nat) : Prop := exists e m s, nth_error es k = Some e /\ e_kind e = Sph m s /\ spherical s /\ centred_at es k s C.
Lemma iso_sub T a b : isometry T -> T (vsub3 a b) = vsub3 (T a) (T b).
Proof. intros (A & S & _). assert (K : forall a b, vsub3 a b = vadd3 a (vmul3 (-1) b)) by (intros; vec_ring). rewrite !K, A, S. reflexivity. Qed.
Lemma iso_refract T a N mu : isometry T -> refract_normal (T a) (T N) mu = do v <- refract_normal a N mu; Some (T v).
Proof.
  intros I. pose proof I as (A & S & D). unfold refract_normal. rewrite !D. destruct (fdiv _ _); cbn [obind]; [|reflexivity]. destruct (Req_EM_T mu (-1)).
  - cbn [obind]. rewrite (iso_sub T _ _ I), S. reflexivity.
  - destruct (fdiv _ _); cbn [obind]; [|reflexivity]. destruct (fsqrt _); cbn [obind]; [|reflexivity]. rewrite A, !S. reflexivity.
Qed.
(** only the line of the normal and its sense matter *)
Lemma scaled_refract u N mu a : 0 < a -> N <> v0 -> refract_normal u (vmul3 a N) mu = refract_normal u N mu.
Proof.
  intros A NZ. assert (R2 : dot N N <> 0) by (intros Z; apply dot_zero in Z; contradiction). unfold refract_normal.
  replace (dot (vmul3 a N) (vmul3 a N)) with (a * a * dot N N) by vec_ring. replace (dot u (vmul3 a N)) with (a * dot u N) by vec_ring.
  assert (AA : a * a * dot N N <> 0) by (apply Rmult_integral_contrapositive_currified; [nra|exact R2]). rewrite !fdiv_some by auto. cbn [obind].
  destruct (Req_EM_T mu (-1)).
  - f_equal. f_equal. apply vec_eq; unfold vmul3; cbn [vx vy vz]; field; split; auto; lra.
  - cbn [obind]. set (d := dot u N). set (q := dot N N) in *.
    replace (Rabs mu * (a * d) / (a * a * q) * (Rabs mu * (a * d) / (a * a * q)) - (mu ^ 2 - 1) / (a * a * q)) with
      ((Rabs mu * d / q * (Rabs mu * d / q) - (mu ^ 2 - 1) / q) * (/ a * / a)) by (field; split; auto; lra).
    set (z := Rabs mu * d / q * (Rabs mu * d / q) - (mu ^ 2 - 1) / q). assert (IA : 0 < / a) by (apply Rinv_0_lt_compat; exact A).
    unfold fsqrt. destruct (Rle_dec 0 z) as [Z|Z].
    + destruct (Rle_dec 0 (z * (/ a * / a))) as [_|X]; [|exfalso; apply X; apply Rmult_le_pos; [exact Z|nra]].
      rewrite sqrt_mult by (auto; nra). rewrite sqrt_square by lra. cbn [obind]. f_equal. f_equal. apply vec_eq; unfold vmul3; cbn [vx vy vz]; field; split; auto; lra.
    + destruct (Rle_dec 0 (z * (/ a * / a))) as [X|_]; [exfalso; assert (0 < / a * / a) by nra; nra|]. reflexivity.
Qed.
(** the path to a sphere in terms of the position relative to its centre *)
Definition path_to (s : surf) (b q : R) : option R :=
  do g <- fsqrt (s_c s * b * (s_c s * b) - s_c s * (s_c s * q - / s_c s)); fdiv (- (s_c s * b + (if s_alt s then g * -1 else g))) (s_c s).
Lemma sphere_path s y u : spherical s -> dot u u = 1 -> let a := vsub3 y (V 0 0 (/ s_c s)) in
  intercept newton s y u = path_to s (dot a u) (dot a a).
Proof.
  intros (C & K & A) U a. unfold intercept. rewrite A, conic_intercept_eq by auto. unfold path_to.
  assert (D : qd (s_c s) (s_k s) y u = s_c s * dot a u) by (unfold qd, a, dot, vsub3; rewrite K; cbn [vx vy vz]; field; exact C).
  assert (E : qe (s_c s) (s_k s) u = s_c s) by (transitivity (s_c s * dot u u); [unfold qe, dot, r2_of; rewrite K; ring|rewrite U; ring]).
  assert (Q : quadric (s_c s) (s_k s) y = s_c s * dot a a - / s_c s) by (unfold quadric, a, dot, vsub3, r2_of; rewrite K; cbn [vx vy vz]; field; exact C).
  rewrite D, E, Q. reflexivity.
Qed.

(** what [System.propagate] hands from element to element *)
Lemma trace_next es y u n l c i e e' s s' : nth_error es i = Some e -> nth_error es (S i) = Some e' ->
  nth_error (trace es y u n l c) i = Some s -> nth_error (trace es y u n l c) (S i) = Some s' ->
  propagate newton e' (do y <- onormal (from_normal (e_place e)) (st_y s); to_normal (e_place e') (vsub3 y (p_offset (e_place e'))))
    (onormal (to_normal (e_place e')) (onormal (from_normal (e_place e)) (st_u s))) (st_n s) l c = (st_y s', st_u s', st_n s', st_t s').
Proof.
  assert (K : forall es i y u n e s e' s', nth_error es i = Some e -> nth_error es (S i) = Some e' ->
    nth_error (sys_propagate newton es y u n l c) i = Some s -> nth_error (sys_propagate newton es y u n l c) (S i) = Some s' ->
    propagate newton e' (do y <- onormal (from_normal (e_place e)) (st_y s); to_normal (e_place e') (vsub3 y (p_offset (e_place e'))))
    (onormal (to_normal (e_place e')) (onormal (from_normal (e_place e)) (st_u s))) (st_n s) l c = (st_y s', st_u s', st_n s', st_t s')).
  { clear. intros es. induction es as [|a es IH]; intros i y u n e s e' s' E E' S S'; [destruct i; discriminate|]. cbn [sys_propagate] in S, S'.
    destruct (propagate newton a _ _ n l c) as [[[y1 u1] n1] t1]. destruct i as [|i].
    - cbn [nth_error] in *. injection E as <-. injection S as <-. destruct es as [|b es]; [discriminate|]. cbn [nth_error] in E'. injection E' as <-. cbn [sys_propagate] in S'. cbn [st_y st_u st_n].
      destruct (propagate newton b _ _ n1 l c) as [[[y2 u2] n2] t2]. cbn [nth_error] in S'. injection S' as <-. reflexivity.
    - cbn [nth_error] in E, S. change (nth_error es (Datatypes.S i) = Some e') in E'. change (nth_error (sys_propagate newton es (onormal (from_normal (e_place a)) y1) (onormal (from_normal (e_place a)) u1) n1 l c) (Datatypes.S i) = Some s') in S'. eapply IH; eauto. }
  intros E E' S S'. destruct es as [|a es]; [destruct i; discriminate|]. cbn [geo_trace] in S, S'. destruct i as [|i].
  - cbn [nth_error] in *. injection E as <-. injection S as <-. destruct es as [|b es]; [discriminate|]. cbn [nth_error] in E'. injection E' as <-. cbn [sys_propagate] in S'. cbn [st_y st_u st_n onormal obind].
    destruct (propagate newton b _ _ n l c) as [[[y2 u2] n2] t2]. cbn [nth_error] in S'. injection S' as <-. reflexivity.
  - cbn [nth_error] in E, S. change (nth_error es (Datatypes.S i) = Some e') in E'. change (nth_error (sys_propagate newton es (from_normal (e_place a) y) (from_normal (e_place a) u) n l c) (Datatypes.S i) = Some s') in S'. eapply K; eauto.
Qed.

Definition local (r : mat) (T : vec -> vec) (v : vec) : vec := vm (T (vm v r)) (mT r).
Lemma local_iso r T : rotation r -> isometry T -> isometry (local r T).
Proof.
  intros R (A & S & D). unfold local. split; [|split].
  - intros a b. rewrite vm_add, A, vm_add. reflexivity.
  - intros k a. rewrite vm_scale, S, vm_scale. reflexivity.
  - intros a b. rewrite rotation_dot by (apply rotation_mT; auto). rewrite D. apply rotation_dot. auto.
Qed.
Lemma local_lab r T v : rotation r -> vm (local r T v) r = T (vm v r).
Proof. intros R. unfold local. apply rotation_inv_l. exact R. Qed.
Lemma sphere_normal_refract s p N u mu : spherical s -> quadric (s_c s) (s_k s) p = 0 -> 0 < 1 - s_c s * vz p -> surface_normal s p = Some N ->
  refract_normal u N mu = refract_normal u (vmul3 (s_c s) (vsub3 (V 0 0 (/ s_c s)) p)) mu.
Proof.
  intros SP Q H SN. rewrite (sphere_normal s p N SP Q H SN). destruct SP as (C & _).
  replace (vmul3 (s_c s) (vmul3 ((1 - s_c s * vz p) / s_c s) N)) with (vmul3 (1 - s_c s * vz p) N) by (apply vec_eq; unfold vmul3; cbn [vx vy vz]; field; exact C).
  symmetry. apply scaled_refract; [exact H|]. eapply surface_normal_nz; eauto.
Qed.
Lemma sphere_turn T e m s r y u y' u' n l y1 u1 n1 t1 y2 u2 n2 t2 : isometry T -> e_kind e = Sph m s -> spherical s -> dot u u = 1 ->
  vsub3 y' (V 0 0 (/ s_c s)) = local r T (vsub3 y (V 0 0 (/ s_c s))) -> u' = local r T u -> rotation r ->
  propagate newton e (Some y) (Some u) n l false = (y1, u1, n1, t1) -> propagate newton e (Some y') (Some u') n l false = (y2, u2, n2, t2) ->
  n2 = n1 /\ t2 = t1 /\ forall p, y1 = Some p -> exists p', y2 = Some p' /\ vsub3 p' (V 0 0 (/ s_c s)) = local r T (vsub3 p (V 0 0 (/ s_c s))) /\
    ((m <> None -> 0 < 1 - s_c s * vz p /\ 0 < 1 - s_c s * vz p') -> u2 = do v <- u1; Some (local r T v)).
Proof.
  intros I EK SP UU EY -> R P1 P2. pose proof (local_iso r T R I) as I'. set (L := local r T) in *. clearbody L. pose proof I' as (LA & LS & LD).
  set (Z := V 0 0 (/ s_c s)) in *.
  unfold propagate in P1, P2. rewrite EK in P1, P2. cbn [obind] in P1, P2.
  assert (UU' : dot (L u) (L u) = 1) by (rewrite LD; exact UU).
  pose proof (sphere_path s y u SP UU) as I1. pose proof (sphere_path s y' (L u) SP UU') as I2. cbv zeta in I1, I2. fold Z in I1, I2.
  rewrite EY, !LD in I2. rewrite <- I1 in I2. rewrite I2 in P2. clear I1 I2.
  destruct (get_n_mu m n l) as [n' mu] eqn:NM. injection P1 as <- <- <- <-. injection P2 as <- <- <- <-.
  split; [reflexivity|]. split; [reflexivity|]. destruct (intercept newton s y u) as [t|] eqn:IT; cbn [obind]; [|discriminate].
  intros p E. injection E as <-. exists (at_ray y' (L u) t). split; [reflexivity|].
  assert (EP : vsub3 (at_ray y' (L u) t) Z = L (vsub3 (at_ray y u t) Z)).
  { transitivity (vadd3 (vsub3 y' Z) (vmul3 t (L u))); [unfold at_ray; generalize (L u); intros; vec_ring|]. rewrite EY, <- LS, <- LA. f_equal. unfold at_ray. vec_ring. }
  split; [exact EP|]. intros NE. destruct mu as [mu|]; [|reflexivity]. destruct (Req_EM_T mu 0); [reflexivity|]. unfold refract. destruct (Req_EM_T mu 1); [reflexivity|]. cbn [obind].
  destruct m as [m|]; [|cbn in NM; injection NM as _ <-; contradiction]. destruct NE as (N1 & N2); [discriminate|].
  assert (C0 : s_c s <> 0) by apply SP.
  assert (Q1 : quadric (s_c s) (s_k s) (at_ray y u t) = 0).
  { unfold intercept in IT. destruct SP as (C & K & A). rewrite A in IT. apply conic_on_quadric; auto. }
  assert (QE : forall p, quadric (s_c s) (s_k s) p = s_c s * dot (vsub3 p Z) (vsub3 p Z) - / s_c s).
  { intros p. destruct SP as (C & K & A). unfold quadric, Z, dot, vsub3, r2_of; rewrite K; cbn [vx vy vz]; field; exact C. }
  assert (Q2 : quadric (s_c s) (s_k s) (at_ray y' (L u) t) = 0) by (rewrite QE, EP, LD, <- QE; exact Q1).
  destruct (sphere_normal_some s _ SP Q1 N1) as (M1 & SM1). destruct (sphere_normal_some s _ SP Q2 N2) as (M2 & SM2). rewrite SM1, SM2. cbn [obind].
  rewrite (sphere_normal_refract s _ M1 u mu SP Q1 N1 SM1), (sphere_normal_refract s _ M2 (L u) mu SP Q2 N2 SM2). fold Z.
  replace (vmul3 (s_c s) (vsub3 Z (at_ray y' (L u) t))) with (L (vmul3 (s_c s) (vsub3 Z (at_ray y u t)))); [apply iso_refract; exact I'|].
  rewrite LS. f_equal. rewrite (iso_sub L _ _ I'). rewrite (iso_sub L _ _ I') in EP. revert EP. generalize (L Z) (L (at_ray y u t)) (at_ray y' (L u) t). clear. intros a b c E.
  transitivity (vmul3 (-1) (vsub3 b a)); [vec_ring|]. rewrite <- E. vec_ring.
Qed.
Lemma length_trace es y u n l c : length (trace es y u n l c) = length es.
Proof. destruct es as [|e es]; [reflexivity|]. cbn [geo_trace length]. rewrite length_sys. reflexivity. Qed.

(** a ray turned or mirrored about the centre is traced to the turned or mirrored points and directions, after the same path *)
Theorem C81_turned T C es y u y' u' n l k P0 U0 : isometry T -> physical l es -> 0 < n -> dot u u = 1 ->
  let ray := trace es y u n l false in let yar := trace es y' u' n l false in
  (forall j, (1 <= j <= k)%nat -> sphere_at es C j /\ forall Q, lab_point es j ray Q -> near es C j Q /\ near es C j (turn_about C T Q)) ->
  lab_point es 0 ray P0 -> lab_direction es 0 ray U0 -> lab_point es 0 yar (turn_about C T P0) -> lab_direction es 0 yar (T U0) ->
  (forall P, lab_point es k ray P -> lab_point es k yar (turn_about C T P)) /\
  (forall P U, lab_point es k ray P -> lab_direction es k ray U -> lab_direction es k yar (T U)) /\
  (forall p, optical_path k ray = Some p -> optical_path k yar = Some p).
Proof.
  intros I G N U1 ray yar H L0 D0 L0' D0'.
  assert (MAIN : (forall e o s s', nth_error es k = Some e -> nth_error (origins es) k = Some o -> nth_error ray k = Some s -> nth_error yar k = Some s' -> forall p, st_y s = Some p ->
    exists p' q q', st_y s' = Some p' /\ st_n s' = st_n s /\ st_t s' = st_t s /\ from_normal (e_place e) p = Some q /\ from_normal (e_place e) p' = Some q' /\ vadd3 o q' = turn_about C T (vadd3 o q) /\
      forall v, st_u s = Some v -> exists v' w, st_u s' = Some v' /\ from_normal (e_place e) v = Some w /\ from_normal (e_place e) v' = Some (T w)) /\
    forall p, optical_path k ray = Some p -> optical_path k yar = Some p).
  { induction k as [|k IH].
    - split.
      2: { intros p. unfold ray, yar. destruct es as [|e0 es']; [discriminate|]. cbn. auto. }
      intros e o s s' E O S S' p SY. destruct L0 as (e1 & o1 & s1 & p1 & q1 & E1 & O1 & S1 & SY1 & FY1 & ->). destruct D0 as (e2 & s2 & v2 & E2 & S2 & SU2 & FU2).
      destruct L0' as (e3 & o3 & s3 & p3 & q3 & E3 & O3 & S3 & SY3 & FY3 & EQ). destruct D0' as (e4 & s4 & v4 & E4 & S4 & SU4 & FU4).
      rewrite E in E1, E2, E3, E4. injection E1 as <-. injection E2 as <-. injection E3 as <-. injection E4 as <-. rewrite O in O1, O3. injection O1 as <-. injection O3 as <-. rewrite S in S1, S2. injection S1 as <-. injection S2 as <-. rewrite S' in S3, S4. injection S3 as <-. injection S4 as <-.
      rewrite SY in SY1. injection SY1 as <-.
      assert (NN : st_n s' = st_n s /\ st_t s' = st_t s). { unfold ray, yar in *. destruct es as [|e0 es']; [discriminate|]. cbn [geo_trace nth_error] in S, S'. injection S as <-. injection S' as <-. auto. }
      destruct NN as (NN & NT). exists p3, q1, q3. repeat (split; [assumption|]). split; [congruence|]. intros v SU. rewrite SU in SU2. injection SU2 as <-. exists v4, U0. auto.
    - specialize (IH ltac:(intros j J; apply H; lia)). destruct IH as (IH & IHT). match goal with |- ?A /\ _ => assert (ST : A) end.
      2: { split; [exact ST|]. intros p. rewrite !optical_path_next. destruct (optical_path k ray) as [pk|]; cbn [obind]; [|discriminate]. rewrite (IHT pk eq_refl). cbn [obind].
        destruct (nth_error ray (S k)) as [s1|] eqn:S1; cbn [obind]; [|discriminate]. destruct (st_t s1) as [t1|] eqn:ST1; cbn [obind]; [|discriminate].
        assert (LK : (S k < length es)%nat) by (rewrite <- (length_trace es y u n l false); apply nth_error_Some; unfold ray in S1; congruence).
        destruct (nth_error es (S k)) as [e'|] eqn:E'; [|apply nth_error_None in E'; lia]. destruct (nth_error es k) as [e|] eqn:E; [|apply nth_error_None in E; lia].
        destruct (nth_error ray k) as [s|] eqn:S0; [|apply nth_error_None in S0; unfold ray in S0; rewrite length_trace in S0; lia].
        destruct (nth_error yar (S k)) as [s1'|] eqn:S1'; [|apply nth_error_None in S1'; unfold yar in S1'; rewrite length_trace in S1'; lia].
        destruct (origins_some _ _ _ E') as (o' & O').
        pose proof (trace_next es y u n l false k e e' s s1 E E' S0 S1) as X.
        assert (SY : st_y s1 <> None).
        { rewrite ST1 in X. unfold propagate in X. destruct (do y <- onormal (from_normal (e_place e)) (st_y s); to_normal (e_place e') (vsub3 y (p_offset (e_place e')))) as [yy|]; [|cbn [obind] in X; destruct (e_kind e') as [|m sf]; [discriminate X|destruct (get_n_mu m (st_n s) l); discriminate X]].
          destruct (onormal (to_normal (e_place e')) (onormal (from_normal (e_place e)) (st_u s))) as [uu|]; [|cbn [obind] in X; destruct (e_kind e') as [|m sf]; [discriminate X|destruct (get_n_mu m (st_n s) l); discriminate X]].
          cbn [obind] in X. destruct (match e_kind e' with Plain => plane_intercept yy uu | Sph _ s => intercept newton s yy uu end) as [t|]; cbn [obind] in X; [|destruct (e_kind e') as [|m sf]; [discriminate X|destruct (get_n_mu m (st_n s) l); discriminate X]].
          destruct (e_kind e') as [|m sf]; [injection X as X _ _ _|destruct (get_n_mu m (st_n s) l); injection X as X _ _ _]; rewrite <- X; discriminate. }
        destruct (st_y s1) as [p1|] eqn:SY1; [|contradiction]. destruct (ST e' o' s1 s1' eq_refl O' eq_refl eq_refl p1 SY1) as (_ & _ & _ & _ & _ & TT & _). cbn [obind]. rewrite TT, ST1. cbn [obind]. auto. }
      intros e' o' s1 s1' E' O' S1 S1' p1 SY1.
      destruct (nth_error es k) as [e|] eqn:E. 2: { apply nth_error_None in E. assert (X : (S k < length es)%nat) by (apply nth_error_Some; congruence). lia. }
      destruct (nth_error ray k) as [s|] eqn:S0. 2: { apply nth_error_None in S0. assert (X : (S k < length ray)%nat) by (apply nth_error_Some; congruence). lia. }
      destruct (nth_error yar k) as [s'|] eqn:S0'. 2: { apply nth_error_None in S0'. assert (X : (S k < length yar)%nat) by (apply nth_error_Some; congruence). lia. }
      destruct (origins_some _ _ _ E) as (o & O).
      assert (GE : good_element l e) by (unfold physical in G; rewrite Forall_forall in G; apply G; eapply nth_error_In; eauto).
      assert (GE' : good_element l e') by (unfold physical in G; rewrite Forall_forall in G; apply G; eapply nth_error_In; eauto).
      destruct (normal_maps _ (proj1 GE)) as (r & RR & F & TT). destruct (normal_maps _ (proj1 GE')) as (r' & RR' & F' & TT').
      pose proof (trace_next es y u n l false k e e' s s1 E E' S0 S1) as X. pose proof (trace_next es y' u' n l false k e e' s' s1' E E' S0' S1') as X'.
      destruct (C16_straight_lines newton es y u n l false k e e' s s1 o o' G N U1 E E' S0 S1 O O' p1 SY1) as (p & v & A & A' & B & t & SP & SV & FA & FB & FA' & UU & _ & LN).
      destruct (IH e o s s' eq_refl O eq_refl eq_refl p SP) as (p' & q & q' & SP' & SN' & _ & FQ & FQ' & EQ & FV). destruct (FV v SV) as (v' & w & SV' & FW & FV').
      rewrite FA in FQ. injection FQ as <-. rewrite FB in FW. injection FW as <-.
      rewrite SP, SV in X. rewrite SP', SV', SN' in X'. cbn [onormal obind] in X, X'. rewrite FA, FB in X. rewrite FQ', FV' in X'. cbn [onormal obind] in X, X'. rewrite !TT' in X, X'.
      destruct (H (S k)) as (SA & NE); [lia|]. destruct SA as (e1 & m & sf & E1 & EK & SPH & (e2 & o2 & q2 & E2 & O2 & F2 & EC)).
      rewrite E' in E1, E2. injection E1 as <-. injection E2 as <-. rewrite O' in O2. injection O2 as <-. rewrite F' in F2. injection F2 as <-.
      set (Z := V 0 0 (/ s_c sf)) in *.
      pose proof (cumsum_step _ _ _ _ _ (p_offset (e_place e')) O O' ltac:(rewrite nth_error_map, E'; reflexivity)) as OO.
      assert (UL : dot (vm B (mT r')) (vm B (mT r')) = 1) by (rewrite rotation_dot; [exact UU|apply rotation_mT; exact RR']).
      assert (BK : forall x, vm (vm x (mT r')) r' = x) by (intros x; apply rotation_inv_l; exact RR').
      assert (FW : forall x, vm (vm x r') (mT r') = x) by (intros x; rewrite <- vm_mm; destruct RR' as (RR1 & _); rewrite RR1; apply vm_eye).
      assert (ZL : forall x, vsub3 (vm x (mT r')) Z = vm (vsub3 x (vm Z r')) (mT r')) by (intros x; rewrite vm_sub, FW; reflexivity).
      assert (EY : vsub3 (vm (vsub3 q' (p_offset (e_place e'))) (mT r')) Z = local r' T (vsub3 (vm (vsub3 A (p_offset (e_place e'))) (mT r')) Z)).
      { rewrite !ZL. unfold local. rewrite BK. f_equal. unfold turn_about in EQ. subst C o'.
        transitivity (vsub3 (vadd3 o q') (vadd3 (vadd3 o (p_offset (e_place e'))) (vm Z r'))); [generalize (vm Z r') (p_offset (e_place e')); intros; vec_ring|]. rewrite EQ.
        replace (vsub3 (vadd3 o A) (vadd3 (vadd3 o (p_offset (e_place e'))) (vm Z r'))) with (vsub3 (vsub3 A (p_offset (e_place e'))) (vm Z r')) by (generalize (vm Z r') (p_offset (e_place e')); intros; vec_ring).
        generalize (T (vsub3 (vsub3 A (p_offset (e_place e'))) (vm Z r'))) (vm Z r') (p_offset (e_place e')). intros; vec_ring. }
      assert (EU : vm (T B) (mT r') = local r' T (vm B (mT r'))) by (unfold local; rewrite BK; reflexivity).
      destruct (sphere_turn T e' m sf r' _ _ _ _ _ _ _ _ _ _ _ _ _ _ I EK SPH UL EY EU RR' X X') as (Q1 & Q2 & Q3).
      destruct (Q3 p1 SY1) as (p1' & SY1' & EP & DIR). fold Z in EP.
      assert (EL : vadd3 o' (vm p1' r') = turn_about C T (vadd3 o' (vm p1 r'))).
      { unfold turn_about. rewrite EC. replace (vsub3 (vadd3 o' (vm p1 r')) (vadd3 o' (vm Z r'))) with (vm (vsub3 p1 Z) r') by (rewrite vm_sub; generalize (vm p1 r') (vm Z r'); intros; vec_ring).
        rewrite <- (local_lab r' T (vsub3 p1 Z) RR'), <- EP, vm_sub. generalize (vm p1' r') (vm Z r'); intros; vec_ring. }
      assert (LP : lab_point es (S k) ray (vadd3 o' (vm p1 r'))) by (exists e', o', s1, p1, (vm p1 r'); repeat (split; [auto|]); reflexivity).
      destruct (NE _ LP) as (NE1 & NE2). specialize (NE1 e' E'). specialize (NE2 e' E'). rewrite EK in NE1, NE2. rewrite <- EL, EC in NE2. rewrite EC in NE1.
      assert (NB : m <> None -> 0 < 1 - s_c sf * vz p1 /\ 0 < 1 - s_c sf * vz p1').
      { intros MN. destruct m as [m|]; [|contradiction]. assert (C0 : s_c sf <> 0) by apply SPH.
        assert (KK : forall x, vsub3 (vadd3 o' (vm Z r')) (vadd3 o' (vm x r')) = vm (vsub3 Z x) r') by (intros x; rewrite vm_sub; generalize (vm x r') (vm Z r'); intros; vec_ring).
        rewrite KK, (normal_local e' r' _ (s_c sf) F' RR') in NE1. rewrite KK, (normal_local e' r' _ (s_c sf) F' RR') in NE2.
        split; [replace (1 - s_c sf * vz p1) with (s_c sf * (/ s_c sf - vz p1)) by (field; exact C0); exact NE1|replace (1 - s_c sf * vz p1') with (s_c sf * (/ s_c sf - vz p1')) by (field; exact C0); exact NE2]. }
      specialize (DIR NB). exists p1', (vm p1 r'), (vm p1' r'). rewrite !F'. repeat (split; [auto|]). intros v1 SU1. rewrite SU1 in DIR. cbn [obind] in DIR.
      exists (local r' T v1), (vm v1 r'). rewrite !F', (local_lab r' T v1 RR'). auto. }
  split; [|split].
  - intros P (e & o & s & p & q & E & O & S & SY & FY & ->). destruct (nth_error yar k) as [s'|] eqn:S'.
    2: { apply nth_error_None in S'. unfold yar in S'. rewrite length_trace in S'. assert (X : (k < length es)%nat) by (apply nth_error_Some; congruence). lia. }
    destruct (proj1 MAIN e o s s' E O S eq_refl p SY) as (p' & q0 & q' & SY' & _ & _ & FQ & FQ' & EQ & _). rewrite FY in FQ. injection FQ as <-. exists e, o, s', p', q'. repeat (split; [assumption|]). symmetry. exact EQ.
  - intros P U (e & o & s & p & q & E & O & S & SY & FY & ->) (e' & s0 & v & E' & S0 & SU & FU). rewrite E in E'. injection E' as <-. rewrite S in S0. injection S0 as <-.
    destruct (nth_error yar k) as [s'|] eqn:S'.
    2: { apply nth_error_None in S'. unfold yar in S'. rewrite length_trace in S'. assert (X : (k < length es)%nat) by (apply nth_error_Some; congruence). lia. }
    destruct (proj1 MAIN e o s s' E O S eq_refl p SY) as (p' & q0 & q' & SY' & _ & _ & _ & _ & _ & FV). destruct (FV v SU) as (v' & w & SU' & FW & FW'). rewrite FU in FW. injection FW as <-. exists e, s', v'. auto.
  - apply MAIN.
Qed.

(** ** the ball lens *)
(** refraction at a sphere in terms of the unit vector [a] from the point of incidence to the centre (away from it if the vertex lies behind) *)
Lemma sphere_refract e m s y u n l c p v n' t : e_kind e = Sph (Some m) s -> spherical s -> s_alt s = false -> m_mirror m = false -> 0 < n -> 0 < m_index m l -> m_index m l <> n -> dot u u = 1 ->
  propagate newton e (Some y) (Some u) n l c = (Some p, Some v, n', t) -> 0 < 1 - s_c s * vz p ->
  let a := vmul3 (s_c s) (vsub3 (V 0 0 (/ s_c s)) p) in let mu := n / m_index m l in
  dot a a = 1 /\ 0 <= dot u a /\ exists k q, p = at_ray y u k /\ 0 <= q /\ q * q = 1 - mu * mu * (1 - dot u a * dot u a) /\ v = vadd3 (vmul3 mu u) (vmul3 (q - mu * dot u a) a).
Proof.
  intros EK SP AL MI N NI NE UU PR NH a mu. pose proof SP as (C0 & K0 & A0). unfold propagate in PR. rewrite EK in PR. cbn [obind] in PR.
  unfold get_n_mu in PR. rewrite MI, fdiv_some in PR by lra. fold mu in PR. injection PR as PY PU _ _.
  assert (MP : 0 < mu) by (apply Rdiv_lt_0_compat; auto).
  assert (M1 : mu <> 1). { intros E. apply NE. unfold mu in E. apply (f_equal (fun x => x * m_index m l)) in E. unfold Rdiv in E. rewrite Rmult_assoc, Rinv_l in E by lra. lra. }
  destruct (Req_EM_T mu 0); [lra|].
  rewrite (sphere_path s y u SP UU) in PY, PU. set (b := vsub3 y (V 0 0 (/ s_c s))) in *.
  destruct (path_to s (dot b u) (dot b b)) as [k|] eqn:PT; cbn [obind] in PY, PU; [|discriminate]. injection PY as PY. rewrite PY in PU.
  assert (UC : (if c then clip (e_radius e) (Some p) (Some u) else Some u) = Some u).
  { unfold refract in PU. destruct (Req_EM_T mu 1); [contradiction|]. destruct (if c then clip (e_radius e) (Some p) (Some u) else Some u) as [w|] eqn:W; [|discriminate]. destruct c; [|congruence]. unfold clip in W. destruct (e_radius e); [destruct (Rle_dec _ _); congruence|congruence]. }
  rewrite UC in PU. unfold refract in PU. destruct (Req_EM_T mu 1); [contradiction|]. cbn [obind] in PU.
  assert (QE : forall x, quadric (s_c s) (s_k s) x = s_c s * dot (vsub3 x (V 0 0 (/ s_c s))) (vsub3 x (V 0 0 (/ s_c s))) - / s_c s).
  { intros x. unfold quadric, dot, vsub3, r2_of; rewrite K0; cbn [vx vy vz]; field; exact C0. }
  assert (IT : conic_intercept s y u = Some k). { pose proof (sphere_path s y u SP UU) as X. cbv zeta in X. fold b in X. rewrite PT in X. unfold intercept in X. rewrite A0 in X. exact X. }
  assert (Q1 : quadric (s_c s) (s_k s) p = 0) by (rewrite <- PY; apply conic_on_quadric; auto).
  destruct (surface_normal s p) as [M|] eqn:SM; cbn [obind] in PU; [|discriminate]. rewrite (sphere_normal_refract s p M u mu SP Q1 NH SM) in PU. fold a in PU.
  assert (AA : dot a a = 1).
  { transitivity (s_c s * (s_c s * dot (vsub3 p (V 0 0 (/ s_c s))) (vsub3 p (V 0 0 (/ s_c s))) - / s_c s) + 1).
    - unfold a, dot, vmul3, vsub3. cbn [vx vy vz]. field. exact C0.
    - rewrite <- QE, Q1. ring. }
  assert (AU : 0 <= dot u a).
  { unfold path_to in PT. rewrite AL in PT. destruct (fsqrt _) as [g|] eqn:GG; cbn [obind] in PT; [|discriminate]. apply fsqrt_inv in GG. destruct GG as (_ & G0 & _). rewrite fdiv_some in PT by exact C0. injection PT as PT.
    assert (E : dot u a = - (s_c s * (dot b u + k))).
    { unfold a. rewrite <- PY. transitivity (- s_c s * (dot b u + k * dot u u)); [unfold b, at_ray; generalize (V 0 0 (/ s_c s)); intros; vec_ring|]. rewrite UU. ring. }
    rewrite E, <- PT. replace (- (s_c s * (dot b u + - (s_c s * dot b u + g) / s_c s))) with g by (field; exact C0). exact G0. }
  split; [exact AA|]. split; [exact AU|].
  assert (AZ : a <> v0) by (intros Z; rewrite Z in AA; unfold dot, v0 in AA; cbn in AA; lra).
  destruct (refract_normal_pos u a mu UU AZ MP) as (H1 & H2).
  destruct (Rle_dec (mu ^ 2 * dot (cross u a) (cross u a)) (dot a a)) as [L|L]; [|rewrite H2 in PU by lra; discriminate].
  destruct (H1 L) as (q & Q0 & Q & E). rewrite E in PU. injection PU as PU. exists k, q. split; [auto|]. split; [exact Q0|].
  assert (CR : dot (cross u a) (cross u a) = dot u u * dot a a - dot u a * dot u a) by vec_ring. rewrite CR, AA, UU in Q.
  split; [rewrite Q; field|]. rewrite <- PU, AA. f_equal. f_equal. field.
Qed.
Lemma sphere_refract_lab es y u n l c k e' s m sf C P U P' U' : physical l es -> 0 < n -> dot u u = 1 -> let ray := trace es y u n l c in
  nth_error ray k = Some s -> nth_error es (S k) = Some e' -> e_kind e' = Sph (Some m) sf -> spherical sf -> s_alt sf = false -> m_mirror m = false -> m_index m l <> st_n s ->
  centred_at es (S k) sf C -> near es C (S k) P' -> lab_point es k ray P -> lab_direction es k ray U -> lab_point es (S k) ray P' -> lab_direction es (S k) ray U' ->
  let A := vmul3 (s_c sf) (vsub3 C P') in let mu := st_n s / m_index m l in
  dot A A = 1 /\ 0 <= dot U A /\ exists t q, P' = at_ray P U t /\ 0 <= q /\ q * q = 1 - mu * mu * (1 - dot U A * dot U A) /\ U' = vadd3 (vmul3 mu U) (vmul3 (q - mu * dot U A) A).
Proof.
  intros G N U1 ray S0 E' EK SP AL MI NI (e1 & o1 & z & E1 & O1 & FZ & EC) NE LP LD LP' LD' A mu.
  destruct LP as (e & o & s9 & p & q & E & O & S9 & SY & FY & ->). rewrite S0 in S9. injection S9 as <-. destruct LD as (e9 & s9 & v & E9 & S9 & SU & FU). rewrite S0 in S9. injection S9 as <-. rewrite E in E9. injection E9 as <-.
  destruct LP' as (e9 & o' & s' & p' & q' & E9 & O' & S' & SY' & FY' & EP). rewrite E' in E9, E1. injection E9 as <-. injection E1 as <-. rewrite O' in O1. injection O1 as <-. destruct LD' as (e9 & s9 & v' & E9 & S9 & SU' & FU'). rewrite S' in S9. injection S9 as <-. rewrite E' in E9. injection E9 as <-.
  assert (GE : good_element l e) by (unfold physical in G; rewrite Forall_forall in G; apply G; eapply nth_error_In; eauto).
  assert (GE' : good_element l e') by (unfold physical in G; rewrite Forall_forall in G; apply G; eapply nth_error_In; eauto).
  destruct (normal_maps _ (proj1 GE')) as (r' & RR' & F' & TT').
  destruct (C16_unit_directions newton es y u n l c k e s G N U1 E S0) as (_ & _ & SN).
  pose proof (direction_unit es y u n l c k U G N U1 ltac:(exists e, s, v; auto)) as UU.
  pose proof (trace_next es y u n l c k e e' s s' E E' S0 S') as X. rewrite SY, SU, SY', SU' in X. cbn [onormal obind] in X. rewrite FY, FU in X. cbn [onormal obind] in X. rewrite !TT' in X.
  rewrite F' in FZ, FY', FU'. injection FZ as <-. injection FY' as <-. injection FU' as <-.
  assert (MP : 0 < m_index m l). { destruct GE' as (_ & GM). rewrite EK in GM. unfold pos_material in GM. rewrite MI in GM. auto. }
  assert (C0 : s_c sf <> 0) by apply SP. set (Z := V 0 0 (/ s_c sf)) in *.
  assert (KK : vsub3 C P' = vm (vsub3 Z p') r') by (rewrite EC, EP, vm_sub; generalize (vm p' r') (vm Z r'); intros; vec_ring).
  specialize (NE e' E'). rewrite EK, KK in NE. unfold Z in NE. rewrite (normal_local e' r' p' (s_c sf) F' RR') in NE.
  assert (NH : 0 < 1 - s_c sf * vz p') by (replace (1 - s_c sf * vz p') with (s_c sf * (/ s_c sf - vz p')) by (field; exact C0); exact NE).
  assert (UL : dot (vm U (mT r')) (vm U (mT r')) = 1) by (rewrite rotation_dot; [exact UU|apply rotation_mT; exact RR']).
  assert (BK : forall x, vm (vm x (mT r')) r' = x) by (intros x; apply rotation_inv_l; exact RR').
  destruct (sphere_refract e' m sf _ _ _ _ _ _ _ _ _ EK SP AL MI SN MP NI UL X NH) as (AA & AU & t & g & PT & G0 & GG & VV). fold Z in AA, AU, GG, VV. fold mu in GG, VV.
  assert (EA : A = vm (vmul3 (s_c sf) (vsub3 Z p')) r') by (unfold A; rewrite KK, vm_scale; reflexivity).
  assert (UA : dot U A = dot (vm U (mT r')) (vmul3 (s_c sf) (vsub3 Z p'))) by (rewrite EA; rewrite <- (BK U) at 1; apply rotation_dot; exact RR').
  split; [rewrite EA, rotation_dot; auto|]. split; [rewrite UA; exact AU|]. exists t, g. split; [|split; [exact G0|split; [rewrite UA; exact GG|]]].
  - pose proof (cumsum_step _ _ _ _ _ (p_offset (e_place e')) O O' ltac:(rewrite nth_error_map, E'; reflexivity)) as OO.
    rewrite EP, PT, OO. unfold at_ray. rewrite vm_add, vm_scale, !BK. generalize (p_offset (e_place e')). intros; vec_ring.
  - rewrite VV, UA, EA, vm_add, !vm_scale, BK. reflexivity.
Qed.
(** two half spheres about one centre, the same medium on both sides: the ray leaves at the distance at which it came, deviated by twice the
    difference of the angles of incidence and refraction *)
Theorem C81_ball es y u n l c C Rb nb e1 e2 m1 m2 s1 s2 P0 U0 P2 U2 h : physical l es -> 0 < n -> dot u u = 1 -> 0 < Rb ->
  nth_error es 1 = Some e1 -> e_kind e1 = Sph (Some m1) s1 -> spherical s1 -> s_alt s1 = false -> s_c s1 = / Rb -> m_mirror m1 = false -> m_index m1 l = nb -> centred_at es 1 s1 C ->
  nth_error es 2 = Some e2 -> e_kind e2 = Sph (Some m2) s2 -> spherical s2 -> s_alt s2 = false -> s_c s2 = - / Rb -> m_mirror m2 = false -> m_index m2 l = n -> centred_at es 2 s2 C ->
  nb <> n -> let ray := trace es y u n l c in
  (forall j Q, lab_point es j ray Q -> near es C j Q) ->
  lab_point es 0 ray P0 -> lab_direction es 0 ray U0 -> lab_point es 2 ray P2 -> lab_direction es 2 ray U2 ->
  distance_to C P0 U0 h -> let d := 2 * (asin (h / Rb) - asin (n * h / (nb * Rb))) in
  dot U0 U2 = cos d /\ vmul3 h (cross U0 U2) = vmul3 (sin d) (cross (vsub3 P0 C) U0) /\ distance_to C P2 U2 h.
Proof.
  intros G N U1 RP E1 K1 SP1 AL1 CC1 MI1 NB CE1 E2 K2 SP2 AL2 CC2 MI2 N2 CE2 NN ray NE L0 D0 L2 D2 DI d.
  pose proof L2 as (e2' & o2 & st2 & p2 & z2 & E2' & O2 & S2 & SY2 & FY2 & EP2). rewrite E2 in E2'. injection E2' as <-.
  destruct (nth_error es 0) as [e0|] eqn:E0; [|destruct es; discriminate].
  assert (LE : length ray = length es) by apply length_trace.
  destruct (nth_error ray 0) as [st0|] eqn:S0; [|apply nth_error_None in S0; assert (X : (2 < length es)%nat) by (apply nth_error_Some; congruence); lia].
  destruct (nth_error ray 1) as [st1|] eqn:S1; [|apply nth_error_None in S1; assert (X : (2 < length es)%nat) by (apply nth_error_Some; congruence); lia].
  destruct (origins_some _ _ _ E1) as (o1 & O1).
  destruct (C16_straight_lines newton es y u n l c 1 e1 e2 st1 st2 o1 o2 G N U1 E1 E2 S1 S2 O1 O2 p2 SY2) as (p1 & v1 & A1 & A2 & B1 & t & SP & SV & FA & FB & FA' & UU & _ & LN).
  assert (L1 : lab_point es 1 ray (vadd3 o1 A1)) by (exists e1, o1, st1, p1, A1; auto 10).
  assert (D1 : lab_direction es 1 ray B1) by (exists e1, st1, v1; auto). clear LN FA FB FA' t A2. set (P1 := vadd3 o1 A1) in *. clearbody P1.
  assert (NS0 : st_n st0 = n). { unfold ray in S0. destruct es as [|x es']; [discriminate|]. cbn [geo_trace nth_error] in S0. injection S0 as <-. reflexivity. }
  assert (NS : forall k e e' s s' m sf, nth_error es k = Some e -> nth_error es (S k) = Some e' -> nth_error ray k = Some s -> nth_error ray (S k) = Some s' -> e_kind e' = Sph (Some m) sf -> m_mirror m = false -> st_n s' = m_index m l).
  { intros k e e' s s' m sf Ea Eb Sa Sb EK MI. pose proof (trace_next es y u n l c k e e' s s' Ea Eb Sa Sb) as X. unfold propagate in X. rewrite EK in X. unfold get_n_mu in X. rewrite MI in X. injection X. auto. }
  pose proof (NS 0%nat e0 e1 st0 st1 m1 s1 E0 E1 S0 S1 K1 MI1) as NS1. pose proof (NS 1%nat e1 e2 st1 st2 m2 s2 E1 E2 S1 S2 K2 MI2) as NS2. rewrite NB in NS1. rewrite N2 in NS2. clear NS.
  destruct (sphere_refract_lab es y u n l c 0 e1 st0 m1 s1 C P0 U0 P1 B1 G N U1 S0 E1 K1 SP1 AL1 MI1 ltac:(rewrite NB, NS0; exact NN) CE1 (NE 1%nat P1 L1) L0 D0 L1 D1) as (AA1 & CI & t1 & cr & EP1 & CR & CR2 & EU1).
  destruct (sphere_refract_lab es y u n l c 1 e2 st1 m2 s2 C P1 B1 P2 U2 G N U1 S1 E2 K2 SP2 AL2 MI2 ltac:(rewrite N2, NS1; auto) CE2 (NE 2%nat P2 L2) L1 D1 L2 D2) as (AA2 & X0 & t2 & q & EP3 & Q0 & Q2 & EU2).
  rewrite NS0, NB, CC1 in *. rewrite NS1, N2, CC2 in *.
  assert (NBP : 0 < nb). { rewrite <- NS1. apply (C16_unit_directions newton es y u n l c 1 e1 st1 G N U1 E1 S1). }
  set (mu := n / nb) in *. assert (MP : 0 < mu) by (apply Rdiv_lt_0_compat; auto). replace (nb / n) with (/ mu) in * by (unfold mu; field; lra).
  pose proof (direction_unit es y u n l c 0 U0 G N U1 D0) as UU0.
  assert (MO : vmul3 n (cross (vsub3 P2 C) U2) = vmul3 n (cross (vsub3 P0 C) U0)).
  { rewrite <- NS2 at 1. apply (C81_moment es y u n l c C 2 P2 U2 st2 P0 U0 G N U1); auto. intros j J. assert (JJ : j = 1%nat \/ j = 2%nat) by lia. destruct JJ as [-> | ->]; (split; [|intros; apply NE; auto]).
    - intros e' E'. rewrite E1 in E'. injection E' as <-. rewrite K1. auto.
    - intros e' E'. rewrite E2 in E'. injection E' as <-. rewrite K2. auto. }
  assert (M2 : cross (vsub3 P2 C) U2 = cross (vsub3 P0 C) U0).
  { revert MO. generalize (cross (vsub3 P2 C) U2) (cross (vsub3 P0 C) U0). clear - N. intros [a b x] [a' b' x'] E. injection E as X Y Z. f_equal; eapply Rmult_eq_reg_l; eauto; lra. }
  pose proof (distance_cross _ _ _ _ UU0 DI) as HH. pose proof DI as (H0 & _).
  pose proof (direction_unit es y u n l c 2 U2 G N U1 D2) as UU2.
  set (a1 := vmul3 (/ Rb) (vsub3 C P1)) in *. set (a2 := vmul3 (- / Rb) (vsub3 C P2)) in *. set (ci := dot U0 a1) in *.
  assert (EM : cross (vsub3 P0 C) U0 = vmul3 Rb (cross U0 a1)).
  { transitivity (cross (vsub3 P1 C) U0); [rewrite EP1; unfold at_ray; vec_ring|]. unfold a1. apply vec_eq; unfold cross, vmul3, vsub3; cbn [vx vy vz]; field; lra. }
  assert (EA2 : a2 = vadd3 (vmul3 (-1) a1) (vmul3 (t2 / Rb) B1)).
  { unfold a2, a1. rewrite EP3. apply vec_eq; unfold at_ray, vadd3, vmul3, vsub3; cbn [vx vy vz]; field; lra. }
  assert (B1A : dot B1 a1 = cr). { rewrite EU1. transitivity (mu * dot U0 a1 + (cr - mu * ci) * dot a1 a1); [generalize a1; intros; vec_ring|]. rewrite AA1. fold ci. ring. }
  set (tau := t2 / Rb) in *.
  assert (XE : dot B1 a2 = tau - cr). { rewrite EA2. transitivity (- dot B1 a1 + tau * dot B1 B1); [generalize a1; intros; vec_ring|]. rewrite B1A, UU. ring. }
  assert (T2 : tau * tau = 2 * tau * cr).
  { rewrite EA2 in AA2. replace (dot (vadd3 (vmul3 (-1) a1) (vmul3 tau B1)) (vadd3 (vmul3 (-1) a1) (vmul3 tau B1))) with (dot a1 a1 - 2 * tau * dot B1 a1 + tau * tau * dot B1 B1) in AA2 by (generalize a1; intros; vec_ring). rewrite AA1, B1A, UU in AA2. lra. }
  rewrite XE in *. assert (TE : tau = 2 * cr) by nra. rewrite TE in *. clear T2 XE tau TE. replace (2 * cr - cr) with cr in * by ring.
  assert (QC : q = ci).
  { assert (SQ : q * q = ci * ci). { rewrite Q2, CR2. field. lra. } nra. }
  subst q. clear Q2 Q0 X0 AA2.
  set (si := h / Rb). assert (SI : 0 <= si) by (unfold si; apply Rmult_le_pos; [lra|left; apply Rinv_0_lt_compat; lra]).
  assert (SI2 : si * si = 1 - ci * ci).
  { unfold si. replace (h / Rb * (h / Rb)) with (h * h * (/ Rb * / Rb)) by (field; lra). rewrite HH, EM.
    replace (dot (vmul3 Rb (cross U0 a1)) (vmul3 Rb (cross U0 a1))) with (Rb * Rb * (dot U0 U0 * dot a1 a1 - dot U0 a1 * dot U0 a1)) by (generalize a1; intros; vec_ring). rewrite UU0, AA1. fold ci. field. lra. }
  set (sr := mu * si). assert (ESR : n * h / (nb * Rb) = sr) by (unfold sr, mu, si; field; lra).
  assert (SR : 0 <= sr) by (unfold sr; apply Rmult_le_pos; lra). assert (SR2 : sr * sr = 1 - cr * cr) by (unfold sr; rewrite CR2; transitivity (mu * mu * (si * si)); [ring|rewrite SI2; ring]).
  assert (BI : -1 <= si <= 1) by nra. assert (BR : -1 <= sr <= 1) by nra.
  assert (CSI : cos (asin si) = ci). { rewrite cos_asin by auto. unfold Rsqr. rewrite SI2. replace (1 - (1 - ci * ci)) with (ci * ci) by ring. apply sqrt_square. exact CI. }
  assert (CSR : cos (asin sr) = cr). { rewrite cos_asin by auto. unfold Rsqr. rewrite SR2. replace (1 - (1 - cr * cr)) with (cr * cr) by ring. apply sqrt_square. exact CR. }
  assert (SSI : sin (asin si) = si) by (apply sin_asin; auto). assert (SSR : sin (asin sr) = sr) by (apply sin_asin; auto).
  set (be := (/ mu + 2 * cr * (ci - / mu * cr)) * (cr - mu * ci) - (ci - / mu * cr)).
  assert (EU : U2 = vadd3 (vmul3 ((/ mu + 2 * cr * (ci - / mu * cr)) * mu) U0) (vmul3 be a1)).
  { rewrite EU2, EA2, EU1. unfold be. generalize a1. intros a. clear. generalize (/ mu). intros im. vec_ring. }
  assert (CC : cr * cr = 1 - mu * mu * (si * si)) by (rewrite SI2; exact CR2). assert (CI2 : ci * ci = 1 - si * si) by lra.
  assert (BE : be = 2 * mu * cr * (si * si) - 2 * ci + 4 * (cr * cr) * ci - 2 * mu * cr * (ci * ci)).
  { transitivity (2 * / mu * cr * (1 - cr * cr) - 2 * ci + 4 * (cr * cr) * ci - 2 * mu * cr * (ci * ci)); [unfold be; field; lra|]. rewrite CC. field. lra. }
  assert (KD : dot U0 U2 = 2 * (ci * cr + si * sr) * (ci * cr + si * sr) - 1).
  { rewrite EU. transitivity ((/ mu + 2 * cr * (ci - / mu * cr)) * mu * dot U0 U0 + be * dot U0 a1); [generalize a1; intros; vec_ring|]. rewrite UU0. fold ci. rewrite BE. unfold sr.
    replace ((/ mu + 2 * cr * (ci - / mu * cr)) * mu * 1) with (1 + 2 * cr * ci * mu - 2 * (cr * cr)) by (field; lra). clear - CC CI2.
    transitivity (1 + 2 * cr * ci * mu - 2 * (cr * cr) + 2 * mu * cr * ci * (si * si) - 2 * (ci * ci) + 4 * (cr * cr) * (ci * ci) - 2 * mu * cr * ci * (ci * ci)); [ring|].
    transitivity (2 * (ci * ci) * (cr * cr) + 4 * ci * cr * mu * (si * si) + 2 * mu * mu * (si * si) * (si * si) - 1); [|ring]. rewrite CC, CI2. ring. }
  assert (KS : si * be = 2 * (si * cr - ci * sr) * (ci * cr + si * sr)).
  { rewrite BE. unfold sr. clear - CC CI2.
    transitivity (si * (2 * mu * cr * (si * si) - 2 * ci + 4 * (cr * cr) * ci - 2 * mu * cr * (ci * ci))); [ring|].
    transitivity (2 * si * (cr * cr) * ci + 2 * si * si * si * cr * mu - 2 * (ci * ci) * cr * mu * si - 2 * ci * mu * mu * (si * si) * si); [|ring]. rewrite CC, CI2. ring. }
  assert (ED : d = 2 * (asin si - asin sr)) by (unfold d; rewrite ESR; reflexivity). rewrite ED. split; [|split].
  - rewrite cos_2a_cos, cos_minus, CSI, CSR, SSI, SSR. exact KD.
  - rewrite sin_2a, sin_minus, cos_minus, CSI, CSR, SSI, SSR. rewrite <- KS, EM, EU. replace h with (si * Rb) by (unfold si; field; lra).
    generalize a1. clear. intros a. vec_ring.
  - apply cross_distance; auto. rewrite M2. exact HH.
Qed.
End Concentric.

(** ** a ray 4 from the centre of a ball of radius 5 and index 4/3 *)
Definition sphere_el (d c n : R) : element := El (e_place (PropsOpd.flat d)) None (Sph (Some (Material (fun _ => n) false true)) (Surf c 0 None false)).
Definition ball : list element := [PropsOpd.flat 0; sphere_el 5 (/ 5) (4/3); sphere_el 10 (- / 5) 1].
Definition ball_trace : list step :=
  [Step (Some (V 0 4 0)) (Some ez) 1 (Some ez) (Some 0);
   Step (Some (V 0 4 2)) (Some (V 0 (-7/25) (24/25))) (4/3) (Some ez) (Some 7);
   Step (Some (V 0 (44/25) (-8/25))) (Some (V 0 (-336/625) (527/625))) 1 (Some (V 0 (-7/25) (24/25))) (Some (32/3))].
Lemma half_root x y : 0 <= y -> x = y * y -> fsqrt x = Some y.
Proof. intros Y ->. rewrite fsqrt_some by nra. rewrite sqrt_square by auto. reflexivity. Qed.
(** one step at a sphere, from the numbers it meets *)
Lemma sphere_step newton d c n n0 y u t g yn cs rt un : c <> 0 -> 0 < n -> 0 < n0 -> n0 <> n ->
  0 <= g -> (c * dot u y - vz u) * (c * dot u y - vz u) - c * 1 * (c * dot y y - 2 * vz y) = g * g -> - (c * dot u y - vz u + g) / (c * 1) = t ->
  at_ray y u t = yn -> 0 < cs -> 1 - (1 + 0) * c ^ 2 * r2_of yn = cs * cs ->
  let rn := V (vx yn * (0 - c / cs)) (vy yn * (0 - c / cs)) 1 in let a := n0 / n * dot u rn / dot rn rn in
  0 < dot rn rn -> 0 <= rt -> a * a - ((n0 / n) ^ 2 - 1) / dot rn rn = rt * rt -> vadd3 (vmul3 (n0 / n) u) (vmul3 (- a + 1 * rt) rn) = un ->
  propagate newton (sphere_el d c n) (Some y) (Some u) n0 1 false = (Some yn, Some un, n, Some (t * n0)).
Proof.
  intros C N N0 NE G GE TE YE CS CE rn a RN RT RE UE. unfold propagate. cbn [obind sphere_el e_kind intercept s_asph]. unfold conic_intercept. cbn [s_c s_k s_alt].
  destruct (Req_EM_T c 0); [contradiction|]. destruct (Req_EM_T 0 0); [|lra]. rewrite (half_root _ g) by assumption. cbn [obind]. rewrite fdiv_some by lra. rewrite TE. cbn [obind]. rewrite YE.
  cbn [get_n_mu m_mirror m_index]. rewrite fdiv_some by lra. assert (M : 0 < n0 / n) by (apply Rdiv_lt_0_compat; lra). destruct (Req_EM_T (n0 / n) 0); [lra|].
  unfold refract. destruct (Req_EM_T (n0 / n) 1) as [B|_]; [exfalso; apply NE; apply (Rmult_eq_reg_r (/ n)); [rewrite Rinv_r by lra; exact B|apply Rinv_neq_0_compat; lra]|]. cbn [obind].
  unfold surface_normal. cbn [s_c s_k s_asph]. destruct (Req_EM_T c 0); [contradiction|]. rewrite (half_root _ cs) by (assumption || lra). cbn [obind]. rewrite fdiv_some by lra. cbn [obind].
  fold rn. unfold refract_normal. rewrite (Rabs_pos_eq (n0 / n)) by lra. rewrite fdiv_some by lra. fold a. cbn [obind]. destruct (Req_EM_T (n0 / n) (-1)); [lra|]. rewrite fdiv_some by lra. cbn [obind].
  rewrite (half_root _ rt) by assumption. cbn [obind]. unfold sign. destruct (Rlt_dec 0 (n0 / n)); [|lra]. rewrite UE. reflexivity.
Qed.
Lemma ball_traced newton : geo_trace newton ball (V 0 4 0) ez 1 1 false = ball_trace.
Proof.
  unfold ball, ball_trace. cbn [geo_trace]. change (from_normal (e_place (PropsOpd.flat 0)) ?y) with (Some y). cbn [sys_propagate onormal obind].
  change (to_normal (e_place (sphere_el ?d ?c ?n)) ?y) with (Some y). change (p_offset (e_place (sphere_el ?d ?c ?n))) with (V 0 0 d).
  replace (vsub3 (V 0 4 0) (V 0 0 5)) with (V 0 4 (-5)) by (apply vec_eq; cbn; ring).
  rewrite (sphere_step newton 5 (/ 5) (4/3) 1 (V 0 4 (-5)) ez 7 (3/5) (V 0 4 2) (3/5) (12/25) (V 0 (-7/25) (24/25)));
    try (unfold dot, ez, r2_of; cbn [vx vy vz]; lra); try (unfold dot, ez, r2_of; cbn [vx vy vz]; field); try (apply vec_eq; unfold at_ray, dot, ez; cbn; field).
  cbn [obind onormal]. change (from_normal (e_place (sphere_el 5 (/ 5) (4/3)))) with (fun y : vec => Some y). change (to_normal (e_place (sphere_el 10 (- / 5) 1))) with (fun y : vec => Some y). cbn [obind onormal]. change (p_offset (e_place (sphere_el ?d ?c ?n))) with (V 0 0 d).
  replace (vsub3 (V 0 4 2) (V 0 0 10)) with (V 0 4 (-8)) by (apply vec_eq; cbn; ring).
  rewrite (sphere_step newton 10 (- / 5) 1 (4/3) (V 0 4 (-8)) (V 0 (-7/25) (24/25)) 8 (4/5) (V 0 (44/25) (-8/25)) (117/125) (351/625) (V 0 (-336/625) (527/625)));
    try (unfold dot, ez, r2_of; cbn [vx vy vz]; lra); try (unfold dot, ez, r2_of; cbn [vx vy vz]; field); try (apply vec_eq; unfold at_ray, dot, ez; cbn; field).
  replace (7 * 1) with 7 by ring. replace (8 * (4 / 3)) with (32 / 3) by field. reflexivity.
Qed.
Lemma ball_good : physical 1 ball.
Proof.
  assert (G : forall d c n, 0 <= d -> 0 < n -> good_element 1 (sphere_el d c n)) by (intros d c n D N; split; [exact (flat_good d D)|cbn; auto]).
  apply Forall_cons; [split; [apply flat_good; lra|exact I]|]. apply Forall_cons; [apply G; lra|]. apply Forall_cons; [apply G; lra|apply Forall_nil].
Qed.
Lemma ball_centred : centred_at ball 1 (Surf (/ 5) 0 None false) (V 0 0 10) /\ centred_at ball 2 (Surf (- / 5) 0 None false) (V 0 0 10).
Proof. split; (do 3 eexists; repeat apply conj; [reflexivity|reflexivity|reflexivity|apply vec_eq; cbn; field]). Qed.
Lemma ball_points k P : lab_point ball k ball_trace P ->
  k = 0%nat /\ P = V 0 4 0 \/ k = 1%nat /\ P = V 0 4 7 \/ k = 2%nat /\ P = V 0 (44/25) (367/25).
Proof.
  intros (e & o & s & v & q & E & O & S & Y & F & ->). destruct k as [|[|[|k]]]; cbn in E, O, S; [| | |destruct k; discriminate];
    injection E as <-; injection O as <-; injection S as <-; cbn [st_y] in Y; injection Y as <-.
  - left. split; auto. change (Some (V 0 4 0) = Some q) in F. injection F as <-. apply vec_eq; cbn; ring.
  - right; left. split; auto. change (Some (V 0 4 2) = Some q) in F. injection F as <-. apply vec_eq; cbn; ring.
  - right; right. split; auto. change (Some (V 0 (44/25) (-8/25)) = Some q) in F. injection F as <-. apply vec_eq; cbn; field.
Qed.
Lemma normal_ball d c n : normal_of (sphere_el d c n) = ez.
Proof. reflexivity. Qed.
Lemma ball_ends : lab_point ball 0 ball_trace (V 0 4 0) /\ lab_direction ball 0 ball_trace ez /\
  lab_point ball 2 ball_trace (V 0 (44/25) (367/25)) /\ lab_direction ball 2 ball_trace (V 0 (-336/625) (527/625)).
Proof.
  split; [|split; [|split]].
  - do 5 eexists. repeat split; try reflexivity. apply vec_eq; cbn; ring.
  - do 3 eexists. repeat split; reflexivity.
  - do 5 eexists. repeat split; try reflexivity. apply vec_eq; cbn; field.
  - do 3 eexists. repeat split; reflexivity.
Qed.
Lemma ball_near j Q : lab_point ball j ball_trace Q -> near ball (V 0 0 10) j Q.
Proof.
  intros H e E. destruct (ball_points _ _ H) as [(-> & ->)|[(-> & ->)|(-> & ->)]]; injection E as <-; cbn [e_kind sphere_el PropsOpd.flat]; auto;
    rewrite normal_ball; unfold dot, vsub3, ez; cbn; lra.
Qed.
Lemma ball_spherical : spherical (Surf (/ 5) 0 None false) /\ spherical (Surf (- / 5) 0 None false).
Proof. repeat split; cbn; lra. Qed.
Lemma ball_about j : (1 <= j <= 2)%nat -> about ball (V 0 0 10) j.
Proof.
  intros J e E. destruct ball_centred as (C1 & C2), ball_spherical as (S1 & S2). destruct j as [|[|[|j]]]; try lia; injection E as <-; cbn [e_kind sphere_el]; auto.
Qed.
Lemma ball_distance : distance_to (V 0 0 10) (V 0 4 0) ez 4.
Proof.
  split; [lra|]. split.
  - intros t. unfold dot, vsub3, at_ray, vadd3, vmul3, ez. cbn [vx vy vz]. pose proof (Rle_0_sqr (t - 10)) as Z. unfold Rsqr in Z. match goal with |- _ <= ?r => replace r with (4 * 4 + (t - 10) * (t - 10)) by ring end. lra.
  - exists 10. unfold dot, vsub3, at_ray, vadd3, vmul3, ez. cbn [vx vy vz]. ring.
Qed.
Example C81_moment_example newton : let ray := geo_trace newton ball (V 0 4 0) ez 1 1 false in let C := V 0 0 10 in
  physical 1 ball /\ dot ez ez = 1 /\
  (forall j, (1 <= j <= 2)%nat -> about ball C j /\ forall Q, lab_point ball j ray Q -> near ball C j Q) /\
  lab_point ball 0 ray (V 0 4 0) /\ lab_direction ball 0 ray ez /\
  lab_point ball 2 ray (V 0 (44/25) (367/25)) /\ lab_direction ball 2 ray (V 0 (-336/625) (527/625)) /\
  distance_to C (V 0 4 0) ez 4.
Proof.
  cbv zeta. rewrite ball_traced. destruct ball_ends as (A & B & D & E).
  split; [exact ball_good|]. split; [unfold dot, ez; cbn; ring|]. split; [|repeat (split; [assumption|]); exact ball_distance].
  intros j J. split; [apply ball_about, J|intros Q; apply ball_near].
Qed.
(** a turn that mixes the axis with the meridian *)
Definition tilt (v : vec) : vec := V (vx v) (24/25 * vy v + 7/25 * vz v) (24/25 * vz v - 7/25 * vy v).
Example C81_turned_example newton : let C := V 0 0 10 in let y' := turn_about C tilt (V 0 4 0) in
  let ray := geo_trace newton ball (V 0 4 0) ez 1 1 false in let yar := geo_trace newton ball y' (tilt ez) 1 1 false in
  isometry tilt /\ physical 1 ball /\
  (forall j, (1 <= j <= 2)%nat -> sphere_at ball C j /\ forall Q, lab_point ball j ray Q -> near ball C j Q /\ near ball C j (turn_about C tilt Q)) /\
  lab_point ball 0 ray (V 0 4 0) /\ lab_direction ball 0 ray ez /\ lab_point ball 0 yar y' /\ lab_direction ball 0 yar (tilt ez) /\ tilt ez <> ez.
Proof.
  cbv zeta. rewrite ball_traced. destruct ball_ends as (A & B & D & E), ball_centred as (C1 & C2), ball_spherical as (S1 & S2).
  repeat apply conj; auto; try exact ball_good.
  - intros a b. apply vec_eq; cbn; ring.
  - intros k a. apply vec_eq; cbn; ring.
  - intros a b. unfold dot, tilt. cbn [vx vy vz]. field.
  - intros j J. split.
    + destruct j as [|[|[|j]]]; try lia; do 3 eexists; repeat apply conj; try reflexivity; try apply S1; try apply S2; auto.
    + intros Q H. split; [apply ball_near, H|]. intros e EE. destruct (ball_points _ _ H) as [(-> & ->)|[(-> & ->)|(-> & ->)]]; injection EE as <-; cbn [e_kind sphere_el PropsOpd.flat]; auto;
        rewrite normal_ball; unfold dot, vsub3, turn_about, tilt, vadd3, ez; cbn; lra.
  - do 5 eexists. repeat split; try reflexivity. apply vec_eq; cbn; ring.
  - do 3 eexists. repeat split; reflexivity.
  - intros Z. assert (vy (tilt ez) = 0) by (rewrite Z; reflexivity). unfold tilt, ez in H. cbn in H. lra.
Qed.
(** the ball turns this ray by 2 (asin 4/5 - asin 3/5), whose cosine is 527/625 *)
Example C81_ball_example newton : let ray := geo_trace newton ball (V 0 4 0) ez 1 1 false in let C := V 0 0 10 in
  (forall j Q, lab_point ball j ray Q -> near ball C j Q) /\ centred_at ball 1 (Surf (/ 5) 0 None false) C /\ centred_at ball 2 (Surf (- / 5) 0 None false) C /\
  lab_direction ball 2 ray (V 0 (-336/625) (527/625)) /\ cos (2 * (asin (4 / 5) - asin (1 * 4 / (4/3 * 5)))) = 527/625.
Proof.
  cbv zeta. rewrite ball_traced. destruct ball_ends as (A & B & D & E), ball_centred as (C1 & C2), ball_spherical as (S1 & S2).
  repeat apply conj; auto; [apply ball_near|].
  rewrite <- (ball_traced newton) in A, B, D, E.
  destruct (C81_ball newton ball (V 0 4 0) ez 1 1 false (V 0 0 10) 5 (4/3) (sphere_el 5 (/ 5) (4/3)) (sphere_el 10 (- / 5) 1)
    (Material (fun _ => 4/3) false true) (Material (fun _ => 1) false true) (Surf (/ 5) 0 None false) (Surf (- / 5) 0 None false)
    (V 0 4 0) ez (V 0 (44/25) (367/25)) (V 0 (-336/625) (527/625)) 4) as (K & _ & _); try reflexivity; auto; try lra; try exact ball_good; try exact ball_distance.
  - unfold dot, ez. cbn. ring.
  - rewrite ball_traced. apply ball_near.
  - rewrite <- K. unfold dot, ez. cbn. ring.
Qed.

(** * On the far half of the sphere the normal is wrong
    The normal is found from [x^2 + y^2] alone; a forward ray that first meets the sphere
    behind its centre is refracted by the normal of the mirror point on the near half, and
    neither the choice of the root nor the clipping radius prevents this. *)
Theorem C81_far_half_refuted newton : ~ (forall e m s y u n l p v n' t, e_kind e = Sph (Some m) s -> spherical s -> s_alt s = false ->
  m_mirror m = false -> 0 < n -> 0 < m_index m l -> dot u u = 1 -> 0 < vz u -> 0 <= t ->
  propagate newton e (Some y) (Some u) n l true = (Some p, Some v, n', Some t) ->
  let N := vsub3 (V 0 0 (/ s_c s)) p in vmul3 n' (cross v N) = vmul3 n (cross u N)).
Proof.
  intros H. set (e := El (e_place (PropsOpd.flat 5)) (Some (9/10)) (Sph (Some (Material (fun _ => 3/2) false true)) (Surf 1 0 None false))).
  set (u := V (-12/13) 0 (5/13)). set (p := V (4/5) 0 (8/5)). set (rn := V (4/5 * (0 - 1 / (3/5))) (0 * (0 - 1 / (3/5))) 1).
  set (a := 1 / (3/2) * dot u rn / dot rn rn). set (q := sqrt (a * a - ((1 / (3/2)) ^ 2 - 1) / dot rn rn)).
  assert (RR : dot rn rn = 25/9) by (unfold rn, dot; cbn [vx vy vz]; field). assert (Q0 : 0 <= a * a - ((1 / (3/2)) ^ 2 - 1) / dot rn rn) by (rewrite RR; pose proof (Rle_0_sqr a) as Z; unfold Rsqr in Z; lra).
  assert (QQ : q * q = a * a + 1/5) by (unfold q; rewrite sqrt_sqrt by exact Q0; rewrite RR; field).
  assert (AV : a = 378/975) by (unfold a; rewrite RR; unfold rn, u, dot; cbn [vx vy vz]; field).
  set (v := vadd3 (vmul3 (1 / (3/2)) u) (vmul3 (- a + 1 * q) rn)).
  assert (P : propagate newton e (Some (V (116/25) 0 0)) (Some u) 1 1 true = (Some p, Some v, 3/2, Some (104/25))).
  { assert (IT : conic_intercept (Surf 1 0 None false) (V (116/25) 0 0) u = Some (104/25)).
    { unfold conic_intercept. cbn [s_c s_k s_alt]. destruct (Req_EM_T 1 0); [lra|]. destruct (Req_EM_T 0 0); [|lra]. unfold u, dot. cbn [vx vy vz].
      rewrite (half_root _ (33/65)) by lra. cbn [obind]. rewrite fdiv_some by lra. f_equal. field. }
    unfold propagate. cbn [obind e e_kind intercept s_asph e_radius]. rewrite IT. cbn [obind].
    replace (at_ray (V (116/25) 0 0) u (104/25)) with p by (apply vec_eq; unfold p, u; cbn; field).
    cbn [clip]. destruct (Rle_dec (r2_of p) (9/10 * (9/10))) as [_|B]; [|exfalso; apply B; unfold p, r2_of; cbn [vx vy]; lra].
    cbn [get_n_mu m_mirror m_index]. rewrite fdiv_some by lra. destruct (Req_EM_T (1 / (3/2)) 0); [lra|]. unfold refract. destruct (Req_EM_T (1 / (3/2)) 1); [lra|]. cbn [obind].
    unfold surface_normal. cbn [s_c s_k s_asph]. destruct (Req_EM_T 1 0); [lra|]. rewrite (half_root _ (3/5)) by (unfold p, r2_of; cbn [vx vy]; lra). cbn [obind]. rewrite fdiv_some by lra. cbn [obind].
    change (V (vx p * (0 - 1 / (3/5))) (vy p * (0 - 1 / (3/5))) 1) with rn. unfold refract_normal. rewrite (Rabs_pos_eq (1 / (3/2))) by lra. rewrite fdiv_some by lra. fold a. cbn [obind].
    destruct (Req_EM_T (1 / (3/2)) (-1)); [lra|]. rewrite fdiv_some by lra. cbn [obind]. rewrite fsqrt_some by exact Q0. fold q. cbn [obind]. unfold sign. destruct (Rlt_dec 0 (1 / (3/2))); [|lra].
    fold v. replace (104/25 * 1) with (104/25) by ring. reflexivity. }
  assert (K := H e (Material (fun _ => 3/2) false true) (Surf 1 0 None false) (V (116/25) 0 0) u 1 1 p v (3/2) (104/25) eq_refl (conj R1_neq_R0 (conj eq_refl eq_refl)) eq_refl eq_refl ltac:(lra) ltac:(cbn; lra) ltac:(unfold u, dot; cbn [vx vy vz]; field) ltac:(unfold u; cbn [vz]; lra) ltac:(lra) P).
  cbv zeta in K. apply (f_equal vy) in K. unfold v, rn, u, p, cross, vsub3, vadd3, vmul3 in K. cbn [vx vy vz s_c] in K. rewrite AV in *. nra.
Qed.
Example C81_far_half_refuted_example : let s := Surf 1 0 None false in spherical s /\ quadric 1 0 (V (4/5) 0 (8/5)) = 0 /\
  surface_normal s (V (4/5) 0 (8/5)) = surface_normal s (V (4/5) 0 (2/5)).
Proof. cbv zeta. split; [repeat split; cbn; lra|]. split; [unfold quadric; cbn; field|reflexivity]. Qed.
Print Assumptions C81_moment.
Print Assumptions C81_distance.
Print Assumptions C81_turned.
Print Assumptions C81_ball.
Print Assumptions C81_far_half_refuted.
