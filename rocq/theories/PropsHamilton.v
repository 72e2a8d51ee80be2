(** Property C68: the optical path of a family of exact rays changes with its ends only; wave front and ray errors *)
From Coq Require Import Reals ZArith List Lra Lia Psatz.
From Verif Require Import Base Vec RotModel RotProofs PlacementModel PlacementProofs ElementModel ElementProofs TraceProofs
  PropsElement PropsTrace OpdModel PropsOpd FirstOrder Hamilton Smooth.
Import ListNotations.
Open Scope R_scope.

Section Hamilton.
Variable newton : (R -> option R) -> (R -> option R) -> option R -> option R.
Notation trace := (geo_trace newton).

(** * specification *)
(** the ray launched at [y] along [u] arrives at element [k], on the way it grazes no surface, meets no aspheric term and stays
    inside the apertures if they count *)
Definition regular (es : list element) (c : bool) (k : nat) (ray : list step) : Prop :=
  forall i, (i <= k)%nat -> exists e s p v, nth_error es i = Some e /\ nth_error ray i = Some s /\ st_y s = Some p /\ st_u s = Some v /\
    ((0 < i)%nat -> (exists w, st_i s = Some w /\ clean_hit e w p v) /\ (c = true -> well_inside e p)).
(** a point on the straight line behind element [k] *)
Definition on_ray (es : list element) (k : nat) (ray : list step) (X : vec) : Prop :=
  exists P U s, lab_point es k ray P /\ lab_direction es k ray U /\ X = vadd3 P (vmul3 s U).

(** * theorems *)
(** the rate of change of the optical path of any family of rays, aspheres included *)
Theorem C68_hamilton es Y U n l c (yy dyy uu duu : nat -> vec) k : physical l es -> 0 < n -> near (fun h => dot (U h) (U h) = 1) -> (k < length es)%nat ->
  let ray h := trace es (Y h) (U h) n l c in
  (forall i, (i <= k)%nat -> ovlin (fun h => position_at i (ray h)) (yy i) (dyy i) /\ ovlin (fun h => direction_at i (ray h)) (uu i) (duu i)) ->
  (forall i e m s, (i < k)%nat -> nth_error es (S i) = Some e -> e_kind e = Sph (Some m) s ->
     near (fun h => exists p, position_at (S i) (ray h) = Some p /\ surface_sag s p = Some 0)) ->
  exists p nk, (forall h s, nth_error (ray h) k = Some s -> st_n s = nk) /\
    olin (fun h => optical_path k (ray h)) p (nk * dot (uu k) (dyy k) - n * dot (uu 0%nat) (dyy 0%nat)).
Proof.
  intros G N UN LK ray. revert LK. induction k as [|k IH]; intros LK FAM ON.
  - destruct es as [|e0 es]; [cbn in LK; lia|]. exists 0, n. split; [intros h s E; unfold ray in E; cbn in E; injection E as <-; reflexivity|].
    replace (n * dot (uu 0%nat) (dyy 0%nat) - n * dot (uu 0%nat) (dyy 0%nat)) with 0 by ring. unfold ray. cbn [geo_trace optical_path st_t]. apply olin_some, lin_const.
  - destruct IH as (p & n1 & N1 & LP); [lia|intros; apply FAM; lia|intros; eapply ON; eauto; lia|].
    destruct (nth_error es k) as [e|] eqn:E; [|apply nth_error_None in E; lia]. destruct (nth_error es (S k)) as [e'|] eqn:E'; [|apply nth_error_None in E'; lia].
    destruct (FAM k ltac:(lia)) as (A & B). destruct (FAM (S k) ltac:(lia)) as (A' & B').
    destruct (path_step newton es Y U n l c k _ _ _ _ _ _ _ _ e e' G N UN E E' A B A' B') as (n1' & n2 & t & I1 & I2 & LT).
    { intros m sf K. eapply ON; eauto. }
    assert (n1' = n1).
    { destruct A as (FY & _ & NY). pose proof (near_0 _ NY) as Q. cbn beta in Q. fold ray in Q. unfold position_at in Q. destruct (nth_error (ray 0) k) as [s|] eqn:S; cbn [obind] in Q; [|discriminate].
      rewrite <- (I1 0 s S). apply (N1 0 s S). }
    subst n1'. exists (p + t), n2. split; [exact I2|]. destruct LP as (fp & LP & NP). destruct LT as (ft & LT & NT). exists (fun h => fp h + ft h). split.
    + eapply lin_eq; [apply lin_plus; eauto|reflexivity|ring].
    + eapply near_impl; [|exact (near_and _ _ NP NT)]. intros h (P1 & P2). cbn beta in *. rewrite optical_path_next, P1. cbn [obind]. change (trace es (Y h) (U h) n l c) with (ray h) in P2.
      destruct (nth_error (ray h) (S k)) as [s|]; cbn [obind] in *; [|discriminate]. rewrite P2. reflexivity.
Qed.

(** for closed form surfaces one regular ray suffices: all its neighbours arrive too, where and in which direction depends
    differentiably on the launch, and so does the optical path *)
Theorem C68_regular es Y U y dy u du n l c k : physical l es -> 0 < n -> vlin Y y dy -> vlin U u du -> near (fun h => dot (U h) (U h) = 1) ->
  let ray h := trace es (Y h) (U h) n l c in regular es c k (trace es y u n l c) ->
  exists p dp v dv w nk, ovlin (fun h => position_at k (ray h)) p dp /\ ovlin (fun h => direction_at k (ray h)) v dv /\ 0 < nk /\
    (forall h s, nth_error (ray h) k = Some s -> st_n s = nk) /\ olin (fun h => optical_path k (ray h)) w (nk * dot v dp - n * dot u dy).
Proof.
  intros G N LY LU UN ray RG. pose proof (trace_smooth newton es Y U y dy u du n l c G N LY LU UN k RG) as SM. cbv zeta in SM. fold ray in SM.
  destruct (RG k ltac:(lia)) as (e & s & _ & _ & E & S & _).
  assert (CH : forall j, (j <= k)%nat -> exists yy dyy uu duu, forall i, (i <= j)%nat -> ovlin (fun h => position_at i (ray h)) (yy i) (dyy i) /\ ovlin (fun h => direction_at i (ray h)) (uu i) (duu i)).
  { induction j as [|j IH]; intros JK.
    - destruct (SM 0%nat ltac:(lia)) as (p & dp & v & dv & A & B & _). exists (fun _ => p), (fun _ => dp), (fun _ => v), (fun _ => dv). intros i I. assert (i = 0)%nat by lia. subst i. auto.
    - destruct (IH ltac:(lia)) as (yy & dyy & uu & duu & H). destruct (SM (Datatypes.S j) JK) as (p & dp & v & dv & A & B & _).
      exists (fun i => if Nat.eqb i (Datatypes.S j) then p else yy i), (fun i => if Nat.eqb i (Datatypes.S j) then dp else dyy i), (fun i => if Nat.eqb i (Datatypes.S j) then v else uu i), (fun i => if Nat.eqb i (Datatypes.S j) then dv else duu i).
      intros i I. destruct (Nat.eqb_spec i (Datatypes.S j)) as [->|NE]; [auto|]. apply H; lia. }
  destruct (CH k ltac:(lia)) as (yy & dyy & uu & duu & FAM).
  destruct (C68_hamilton es Y U n l c yy dyy uu duu k G N UN) as (w & nk & NK & LP); auto.
  { apply nth_error_Some. congruence. }
  { intros i e1 m s1 I E1 K1. destruct (SM (Datatypes.S i) ltac:(lia)) as (_ & _ & _ & _ & _ & _ & _ & ON). eapply ON; eauto; lia. }
  fold ray in LP, NK. destruct (FAM k ltac:(lia)) as (A & B). exists (yy k), (dyy k), (uu k), (duu k), w, nk. split; [exact A|]. split; [exact B|].
  assert (R0 : ray 0 = trace es y u n l c) by (unfold ray; rewrite (vlin_at0 _ _ _ LY), (vlin_at0 _ _ _ LU); reflexivity).
  split. { rewrite <- (NK 0 s) by (change (nth_error (ray 0) k = Some s); rewrite R0; exact S). apply (trace_good newton es y u n l c k e s G N); auto. rewrite <- (vlin_at0 _ _ _ LU). exact (near_0 _ UN). }
  split; [exact NK|]. destruct (FAM 0%nat ltac:(lia)) as (A0 & B0).
  assert (E0 : es <> []) by (destruct es; [destruct k; discriminate|discriminate]).
  assert (Q1 : ovlin (fun h => position_at 0 (ray h)) y dy) by (destruct es; [contradiction|]; unfold ray, position_at; cbn [geo_trace nth_error obind st_y]; apply ovlin_some; exact LY).
  assert (Q2 : ovlin (fun h => direction_at 0 (ray h)) u du) by (destruct es; [contradiction|]; unfold ray, direction_at; cbn [geo_trace nth_error obind st_u]; apply ovlin_some; exact LU).
  destruct (ovlin_unique _ _ _ _ _ A0 Q1) as (_ & ED). destruct (ovlin_unique _ _ _ _ _ B0 Q2) as (EU & _). rewrite <- ED, <- EU. exact LP.
Qed.

(** the points of equal optical path from one object point, or from one incoming wave front, form surfaces perpendicular to the rays *)
Theorem C68_malus es Y U y dy u du n l c k v E e de S w : physical l es -> 0 < n -> vlin Y y dy -> vlin U u du -> near (fun h => dot (U h) (U h) = 1) ->
  let ray h := trace es (Y h) (U h) n l c in regular es c k (trace es y u n l c) -> dot u dy = 0 ->
  direction_at k (ray 0) = Some v -> (exists s ds, lin S s ds) ->
  near (fun h => exists p q t st, position_at k (ray h) = Some p /\ direction_at k (ray h) = Some q /\ optical_path k (ray h) = Some t /\ nth_error (ray h) k = Some st /\
    E h = vadd3 p (vmul3 (S h) q) /\ t + st_n st * S h = w) ->
  vlin E e de -> dot v de = 0.
Proof.
  intros G N LY LU UN ray RG D0 DV (s & ds & LS) FE LE.
  destruct (C68_regular es Y U y dy u du n l c k G N LY LU UN RG) as (p & dp & q & dq & t & nk & (FP & LP & NP) & (FQ & LQ & NQ) & NPOS & NK & (FT & LT & NT)). change (near (fun h => position_at k (ray h) = Some (FP h))) in NP. change (near (fun h => direction_at k (ray h) = Some (FQ h))) in NQ. change (near (fun h => optical_path k (ray h) = Some (FT h))) in NT. change (forall h s, nth_error (ray h) k = Some s -> st_n s = nk) in NK.
  assert (v = q). { pose proof (near_0 _ NQ) as Q. cbn beta in Q. rewrite DV, (vlin_at0 _ _ _ LQ) in Q. congruence. } subst q.
  assert (LE2 : vlin E (vadd3 p (vmul3 s v)) (vadd3 dp (vadd3 (vmul3 ds v) (vmul3 s dq)))).
  { eapply vlin_near; [|apply vlin_add; [exact LP|apply vlin_scale; [exact LS|exact LQ]]].
    eapply near_impl; [|exact (near_and _ _ FE (near_and _ _ NP NQ))]. intros h ((p1 & q1 & t1 & st & A & B & _ & _ & C & _) & A' & B'). cbn beta in *. rewrite A in A'. rewrite B in B'. injection A' as ->. injection B' as ->. auto. }
  destruct (vlin_unique _ _ _ _ _ LE LE2) as (_ & ->).
  assert (LW : lin (fun h => FT h + nk * S h) w 0).
  { eapply lin_near; [|apply lin_const]. eapply near_impl; [|exact (near_and _ _ FE NT)]. intros h ((p1 & q1 & t1 & st & _ & _ & A & B & _ & C) & A'). cbn beta in *.
    rewrite A in A'. injection A' as ->. rewrite (NK h st B) in C. auto. }
  assert (LW2 : lin (fun h => FT h + nk * S h) (t + nk * s) (nk * dot v dp - n * dot u dy + (0 * s + nk * ds))) by (apply lin_plus; [exact LT|apply lin_mult; [apply lin_const|exact LS]]).
  destruct (lin_unique _ _ _ _ _ LW LW2) as (_ & K). rewrite D0 in K.
  assert (TURN : dot v dq = 0).
  { apply (unit_turn FQ); [exact LQ|]. destruct (RG k ltac:(lia)) as (ee & _ & _ & _ & EE & _). eapply near_impl; [|exact (near_and _ _ UN NQ)]. intros h (D & Q). cbn beta in *. unfold direction_at in Q.
    destruct (nth_error (ray h) k) as [sk|] eqn:SK; cbn [obind] in Q; [|discriminate]. exact (proj1 (trace_good newton es (Y h) (U h) n l c k ee sk G N D EE SK) _ Q). }
  assert (UU : dot v v = 1).
  { destruct (RG k ltac:(lia)) as (ee & _ & _ & _ & EE & _). unfold direction_at in DV. destruct (nth_error (ray 0) k) as [sk|] eqn:SK; cbn [obind] in DV; [|discriminate].
    exact (proj1 (trace_good newton es (Y 0) (U 0) n l c k ee sk G N (near_0 _ UN) EE SK) _ DV). }
  replace (dot v (vadd3 dp (vadd3 (vmul3 ds v) (vmul3 s dq)))) with (dot v dp + ds * dot v v + s * dot v dq) by vec_ring. rewrite TURN, UU.
  apply (Rmult_eq_reg_l nk); [|lra]. lra.
Qed.

(** ** the reference sphere *)
Lemma sphere_smooth radius Y U y dy u du t : vlin Y y dy -> vlin U u du -> dot u u = 1 -> sphere_hit radius y u = Some t ->
  dot u (vsub3 (at_ray y u t) (V 0 0 radius)) <> 0 -> exists t', olin (fun h => sphere_hit radius (Y h) (U h)) t t'.
Proof.
  intros (Yx & Yy & Yz) (Ux & Uy & Uz) UU H GR. unfold sphere_hit in *. destruct (fdiv 1 radius) as [c|] eqn:C; cbn [obind] in *; [|discriminate].
  apply fdiv_inv in C. destruct C as (RN & ->). set (c := 1 / radius) in *.
  assert (CN : c <> 0) by (unfold c; apply Rmult_integral_contrapositive_currified; [lra|apply Rinv_neq_0_compat; auto]).
  assert (CR : c * radius = 1) by (unfold c; field; auto). clearbody c. unfold conic_intercept in *. cbn [s_c s_k s_alt] in *.
  destruct (Req_EM_T c 0); [contradiction|]. destruct (Req_EM_T 0 0); [|congruence]. cbv zeta in *.
  match type of H with context [fsqrt ?d] => set (D := d) in * end.
  destruct (Rlt_dec D 0) as [L|L]; [rewrite fsqrt_none in H by auto; discriminate|]. rewrite fsqrt_some in H by lra. cbn [obind] in H. apply fdiv_inv in H. destruct H as (EN & ET).
  assert (DP : 0 < D).
  { destruct (Rlt_dec 0 D) as [P|P]; [auto|]. exfalso. assert (Z : D = 0) by lra. rewrite Z, sqrt_0 in ET. apply GR.
    assert (CT : c * t = - (c * dot u y - vz u)) by (rewrite ET; field; auto).
    apply (Rmult_eq_reg_l c); [|auto]. rewrite Rmult_0_r. transitivity (c * dot u y - vz u * (c * radius) + c * t * dot u u); [unfold dot, at_ray, vsub3, vadd3, vmul3; cbn [vx vy vz]; ring|].
    rewrite CR, UU, CT. ring. }
  unfold dot in *. eexists. eapply olin_eq; [eapply olin_bind|..].
  { eapply olin_eq; [eapply olin_fsqrt; [eapply lin_eq; [solve [lin_auto]|reflexivity|reflexivity]|]|reflexivity|reflexivity]. exact DP. }
  { intros g LG. eapply olin_fdiv; [solve [lin_auto]|apply lin_const|exact EN]. }
  { rewrite ET. reflexivity. }
  { reflexivity. }
Qed.

(** what the wave front error tells about the ray: while the ray moves, the reported error changes with the transverse distance of
    the ray from the reference image along the movement [dX] on the sphere: for any point [X + m V] of the ray
    [m dt (l / scale) = - n (X + m V - Q) . dX] *)
Theorem C68_ray_aberration es (finite : bool) radius after image l scale yr ur Y U y dy u du n c a i r0 Q ei :
  physical l es -> 0 < n -> dot ur ur = 1 -> vlin Y y dy -> vlin U u du -> near (fun h => dot (U h) (U h) = 1) ->
  after <> (-1)%Z -> pyindex (length es) after = Some a -> pyindex (length es) image = Some i -> nth_error es i = Some ei ->
  (if finite then dot u dy = 0 else u = ur) ->
  let ray h := trace es (Y h) (U h) n l c in let ref := trace es yr ur n l c in
  regular es c a (trace es y u n l c) -> opd_ray es finite radius after image l scale ref (trace es y u n l c) = Some r0 -> lab_point es i ref Q ->
  (forall X V, on_ray es a (trace es y u n l c) X -> lab_direction es a (trace es y u n l c) V -> dot (vsub3 X Q) (vsub3 X Q) = radius * radius -> dot V (vsub3 X Q) <> 0) ->
  exists X dX xf yf tf dt dv V nk sa, vlin X (X 0) dX /\
    near (fun h => opd_ray es finite radius after image l scale ref (ray h) = Some (xf h, yf h, tf h)) /\
    near (fun h => on_ray es a (ray h) (X h) /\ dot (vsub3 (X h) Q) (vsub3 (X h) Q) = radius * radius) /\
    to_normal (e_place ei) dX = Some dv /\ lin xf (xf 0) (vx dv) /\ lin yf (yf 0) (vy dv) /\ lin tf (tf 0) dt /\
    lab_direction es a (ray 0) V /\ nth_error ref a = Some sa /\ st_n sa = nk /\ 0 < nk /\
    forall m, m * dt * (l / scale) = - nk * dot (vsub3 (vadd3 (X 0) (vmul3 m V)) Q) dX.
Proof.
  intros G N UR LY LU UN NA IA II EI LAUNCH ray ref RG H0 HQ NT.
  destruct (C68_regular es Y U y dy u du n l c a G N LY LU UN RG) as (p & dp & v & dv & w & nk & (FP & LP & NP) & (FV & LV & NV) & NPOS & NK & (FT & LT & NTT)).
  change (near (fun h => position_at a (ray h) = Some (FP h))) in NP. change (near (fun h => direction_at a (ray h) = Some (FV h))) in NV.
  change (near (fun h => optical_path a (ray h) = Some (FT h))) in NTT. change (forall h s, nth_error (ray h) a = Some s -> st_n s = nk) in NK.
  assert (R0 : ray 0 = trace es y u n l c) by (unfold ray; rewrite (vlin_at0 _ _ _ LY), (vlin_at0 _ _ _ LU); reflexivity). rewrite <- R0 in H0, NT.
  assert (E0 : exists e0 es', es = e0 :: es') by (destruct es as [|e0 es']; [destruct i; discriminate|eauto]). destruct E0 as (e0 & es' & E0).
  assert (RAY0 : forall h, exists t0, nth_error (ray h) 0 = Some t0 /\ st_y t0 = Some (Y h) /\ st_u t0 = Some (U h)) by (intros h; unfold ray; rewrite E0; cbn [geo_trace nth_error]; eexists; split; [reflexivity|split; reflexivity]).
  assert (REF0 : exists t0, nth_error ref 0 = Some t0 /\ st_y t0 = Some yr /\ st_u t0 = Some ur /\ st_n t0 = n) by (unfold ref; rewrite E0; cbn [geo_trace nth_error]; eexists; repeat (split; [reflexivity|]); reflexivity).
  clear E0 e0 es'. destruct REF0 as (s0 & RS0 & Y0R & U0R & N0R).
  (* the reported numbers of a live ray *)
  unfold opd_ray in H0. rewrite (pyend_spec _ _ _ IA NA) in H0. unfold launched in H0. rewrite RS0 in H0. cbn [obind] in H0. rewrite Y0R, U0R in H0. cbn [obind fst snd] in H0.
  destruct (path_diff _ _) as [d|] eqn:PD in H0; cbn [obind] in H0; [|discriminate].
  destruct (RAY0 0) as (t0 & T0 & TY0 & TU0). rewrite T0 in H0. cbn [obind] in H0. rewrite TY0, TU0 in H0. cbn [obind fst snd] in H0. rewrite IA, II in H0. cbn [obind] in H0. rewrite EI in H0.
  destruct (nth_error es a) as [ea|] eqn:EA; cbn [obind] in H0; [|discriminate].
  destruct (nth_error (origins es) a) as [oa|] eqn:OA; cbn [obind] in H0; [|discriminate]. destruct (nth_error (origins es) i) as [oi|] eqn:OI; cbn [obind] in H0; [|discriminate].
  destruct (nth_error ref a) as [sr|] eqn:SR; cbn [obind] in H0; [|discriminate]. destruct (nth_error (ray 0) a) as [s|] eqn:SS; cbn [obind] in H0; [|discriminate].
  destruct (nth_error ref i) as [si|] eqn:SI; cbn [obind] in H0; [|discriminate]. destruct (st_y si) as [yref|] eqn:YR; cbn [obind] in H0; [|discriminate].
  destruct (sphere_point _ _ _ _ _ _ (st_y sr) (st_u sr)) as [[tr vr]|] eqn:PR; cbn [obind] in H0; [|discriminate].
  destruct (st_y s) as [yy|] eqn:YB; [|discriminate]. destruct (st_u s) as [uu|] eqn:UB; [|discriminate].
  destruct (sphere_point _ _ _ _ _ _ (Some yy) (Some uu)) as [[tt vv]|] eqn:PP; cbn [obind fst snd] in H0; [|discriminate].
  destruct (fdiv l scale) as [q|] eqn:Q1; cbn [obind] in H0; [|discriminate]. apply fdiv_inv in Q1. destruct Q1 as (SN & Q1).
  destruct (fdiv _ q) as [wv|] eqn:W in H0; cbn [obind] in H0; [|discriminate]. apply fdiv_inv in W. destruct W as (LN & _). clear H0.
  assert (LA : (a < length ref)%nat) by (apply nth_error_Some; congruence).
  assert (GA : good_place (e_place ea)) by (unfold physical in G; rewrite Forall_forall in G; exact (proj1 (G ea (nth_error_In _ _ EA)))).
  assert (GI : good_place (e_place ei)) by (unfold physical in G; rewrite Forall_forall in G; exact (proj1 (G ei (nth_error_In _ _ EI)))).
  destruct (normal_maps _ GA) as (ra & RA & FA & TA). destruct (normal_maps _ GI) as (ri & RI & FI & TI).
  assert (NREF : st_n sr = nk) by (rewrite <- (NK 0 s SS); eapply trace_index; eauto).
  assert (YYP : yy = p). { pose proof (near_0 _ NP) as A. cbn beta in A. unfold position_at in A. rewrite SS in A. cbn [obind] in A. rewrite YB, (vlin_at0 _ _ _ LP) in A. congruence. }
  assert (UUV : uu = v). { pose proof (near_0 _ NV) as A. cbn beta in A. unfold direction_at in A. rewrite SS in A. cbn [obind] in A. rewrite UB, (vlin_at0 _ _ _ LV) in A. congruence. } subst yy uu.
  assert (HQ' : Q = vadd3 oi (vm yref ri)).
  { destruct HQ as (e1 & o1 & s1 & y1 & p1 & A1 & A2 & A3 & A4 & A5 & A6). rewrite EI in A1. injection A1 as <-. rewrite OI in A2. injection A2 as <-. rewrite SI in A3. injection A3 as <-. rewrite YR in A4. injection A4 as <-. rewrite FI in A5. injection A5 as <-. exact A6. }
  assert (UNV : near (fun h => dot (FV h) (FV h) = 1)).
  { eapply near_impl; [|exact (near_and _ _ UN NV)]. intros h (D & Q2). cbn beta in *. unfold direction_at in Q2. destruct (nth_error (ray h) a) as [sk|] eqn:SK; cbn [obind] in Q2; [|discriminate].
    exact (proj1 (trace_good newton es (Y h) (U h) n l c a ea sk G N D EA SK) _ Q2). }
  assert (UV : dot v v = 1) by (rewrite <- (vlin_at0 _ _ _ LV); exact (near_0 _ UNV)).
  (* the families in the image frame *)
  set (sy := fun y : vec => let z := vsub3 (vm (vadd3 (vm y ra) (vsub3 oa oi)) (mT ri)) yref in V (vx z) (vy z) (vz z + radius)). set (su := fun u : vec => vm (vm u ra) (mT ri)).
  assert (SP : forall y u, sphere_point ea ei oa oi yref radius (Some y) (Some u) = do t <- sphere_hit radius (sy y) (su u); Some (t, V (vx (at_ray (sy y) (su u) t)) (vy (at_ray (sy y) (su u) t)) (vz (at_ray (sy y) (su u) t) - radius))).
  { intros y1 u1. unfold sphere_point, to_sphere. cbn [obind]. rewrite !FA. cbn [obind]. rewrite !TI. cbn [obind]. reflexivity. }
  assert (LSY : exists d, vlin (fun h => sy (FP h)) (sy p) d).
  { pose proof (vlin_sub _ _ _ _ _ _ (vlin_vm _ _ _ (mT ri) (vlin_add _ _ _ _ _ _ (vlin_vm _ _ _ ra LP) (vlin_const (vsub3 oa oi)))) (vlin_const yref)) as K. match type of K with vlin _ _ ?D => exists (V (vx D) (vy D) (vz D + 0)) end. destruct K as (K1 & K2 & K3).
    unfold sy. unfold vlin. cbn [vx vy vz]. split; [exact K1|]. split; [exact K2|]. apply lin_plus; [exact K3|apply lin_const]. }
  destruct LSY as (dsy & LSY).
  pose proof (vlin_vm _ _ _ (mT ri) (vlin_vm _ _ _ ra LV)) as LSU. change (vlin (fun h => su (FV h)) (su v) (su dv)) in LSU.
  rewrite SP in PP. destruct (sphere_hit radius (sy p) (su v)) as [t1|] eqn:SH; cbn [obind] in PP; [|discriminate]. injection PP as <- _.
  assert (U1 : dot (su v) (su v) = 1) by (unfold su; rewrite rotation_dot by (apply rotation_mT; auto); rewrite rotation_dot; auto).
  (* points of the sphere in the laboratory *)
  set (XX := fun (y u : vec) t => vadd3 (vadd3 oa (vm y ra)) (vmul3 t (vm u ra))).
  assert (XS : forall y u t, vm (vsub3 (XX y u t) Q) (mT ri) = V (vx (at_ray (sy y) (su u) t)) (vy (at_ray (sy y) (su u) t)) (vz (at_ray (sy y) (su u) t) - radius)).
  { intros y1 u1 t2. rewrite HQ'. unfold XX, sy, su. rewrite ?vm_sub, ?vm_add, ?vm_sub, ?vm_scale, (vm_back yref ri RI).
    generalize (vm (vm y1 ra) (mT ri)) (vm (vm u1 ra) (mT ri)) (vm oa (mT ri)) (vm oi (mT ri)). intros. unfold at_ray. apply vec_eq; unfold vadd3, vsub3, vmul3; cbn [vx vy vz]; ring. }
  assert (XD : forall y u t, dot u u = 1 -> sphere_hit radius (sy y) (su u) = Some t -> dot (vsub3 (XX y u t) Q) (vsub3 (XX y u t) Q) = radius * radius).
  { intros y1 u1 t2 D1 S1. rewrite <- (rotation_dot (mT ri) _ _ (rotation_mT _ RI)), XS. apply sphere_on in S1; [apply S1|]. unfold su. rewrite rotation_dot by (apply rotation_mT; auto). rewrite rotation_dot; auto. }
  assert (PL : forall h s y1, nth_error (ray h) a = Some s -> st_y s = Some y1 -> lab_point es a (ray h) (vadd3 oa (vm y1 ra))) by (intros h s1 y1 A B; exists ea, oa, s1, y1, (vm y1 ra); auto 10).
  assert (DL : forall h s u1, nth_error (ray h) a = Some s -> st_u s = Some u1 -> lab_direction es a (ray h) (vm u1 ra)) by (intros h s1 u1 A B; exists ea, s1, u1; auto 10).
  assert (GR : dot (vm v ra) (vsub3 (XX p v t1) Q) <> 0).
  { apply NT; [|eapply DL; eauto|apply XD; auto]. exists (vadd3 oa (vm p ra)), (vm v ra), t1. split; [eapply PL; eauto|]. split; [eapply DL; eauto|reflexivity]. }
  destruct (sphere_smooth radius _ _ _ _ _ _ t1 LSY LSU U1 SH) as (dt1 & F1 & LF1 & NF1).
  { rewrite <- (rotation_dot (mT ri) _ _ (rotation_mT _ RI)), XS in GR. fold (su v) in GR. intros Z. apply GR. rewrite <- Z. f_equal. apply vec_eq; unfold vsub3; cbn [vx vy vz]; ring. }
  set (X := fun h => XX (FP h) (FV h) (F1 h)).
  assert (LX : exists dX, vlin X (XX p v t1) dX).
  { eexists. unfold X, XX. apply vlin_add; [apply vlin_add; [apply vlin_const|apply vlin_vm; exact LP]|apply vlin_scale; [exact LF1|apply vlin_vm; exact LV]]. }
  assert (X0 : X 0 = XX p v t1) by (unfold X; rewrite (vlin_at0 _ _ _ LP), (vlin_at0 _ _ _ LV), (lin_at0 _ _ _ LF1); reflexivity).
  destruct LX as (dX & LX).
  assert (LXV : vlin X (XX p v t1) (vadd3 (vadd3 v0 (vm dp ra)) (vadd3 (vmul3 dt1 (vm v ra)) (vmul3 t1 (vm dv ra))))).
  { unfold X, XX. apply vlin_add; [apply vlin_add; [apply vlin_const|apply vlin_vm; exact LP]|apply vlin_scale; [exact LF1|apply vlin_vm; exact LV]]. }
  destruct (vlin_unique _ _ _ _ _ LX LXV) as (_ & DXE).
  pose proof (vlin_vm _ _ _ (mT ri) (vlin_sub _ _ _ _ _ _ LX (vlin_const Q))) as LXI. destruct LXI as (LXx & LXy & LXz).
  (* the path part *)
  set (pt := fun h => if finite then 0 else dot ur (vsub3 yr (Y h)) * n).
  assert (LPT : exists pd, lin pt (pt 0) pd /\ pd = - (if finite then 0 else n * dot u dy)).
  { unfold pt. destruct finite; [exists 0; split; [apply lin_const|ring]|]. subst ur.
    pose proof (vlin_dot _ _ _ _ _ _ (vlin_const u) (vlin_sub _ _ _ _ _ _ (vlin_const yr) LY)) as K. eexists. split.
    - eapply lin_eq; [apply lin_mult; [exact K|apply (lin_const n)]|rewrite (vlin_at0 _ _ _ LY); reflexivity|reflexivity].
    - unfold dot, vsub3, v0. cbn [vx vy vz]. ring. }
  destruct LPT as (pd & LPT & PDE).
  destruct (path_diff_some a (ray 0) ref d) as (p0 & pr & HP0 & HPR); auto; [apply nth_error_Some; congruence|].
  set (tf := fun h => - (FT h - pr - pt h + (F1 h - tr) * nk) / q).
  assert (NEAR : near (fun h => opd_ray es finite radius after image l scale ref (ray h) = Some (vx (vm (vsub3 (X h) Q) (mT ri)) - vx vr, vy (vm (vsub3 (X h) Q) (mT ri)) - vy vr, tf h))).
  { eapply near_impl; [|exact (near_and _ _ NP (near_and _ _ NV (near_and _ _ NTT NF1)))]. intros h (A1 & A2 & A3 & A4). cbn beta in *. unfold position_at, direction_at in A1, A2.
    destruct (nth_error (ray h) a) as [sh|] eqn:SHH; cbn [obind] in A1, A2; [|discriminate].
    unfold opd_ray. rewrite (pyend_spec _ _ _ IA NA). unfold launched. rewrite RS0. cbn [obind]. rewrite Y0R, U0R. cbn [obind fst snd].
    rewrite (path_diff_spec a (ray h) ref _ _ A3 HPR). cbn [obind]. destruct (RAY0 h) as (th & TH & TYH & TUH). rewrite TH. cbn [obind]. rewrite TYH, TUH. cbn [obind fst snd].
    rewrite IA, II. cbn [obind]. rewrite EA, EI. cbn [obind]. rewrite OA, OI. cbn [obind]. rewrite SR, SHH. cbn [obind]. rewrite SI. cbn [obind]. rewrite YR. cbn [obind]. rewrite PR. cbn [obind]. rewrite A1, A2, SP, A4. cbn [obind fst snd].
    rewrite fdiv_some by auto. cbn [obind]. rewrite <- Q1. rewrite fdiv_some by auto. cbn [obind]. unfold X. rewrite XS. cbn [vx vy vz]. unfold tf, launch_path. rewrite N0R, NREF. reflexivity. }
  exists X, dX, (fun h => vx (vm (vsub3 (X h) Q) (mT ri)) - vx vr), (fun h => vy (vm (vsub3 (X h) Q) (mT ri)) - vy vr), tf, (- (nk * dot v dp - n * dot u dy - 0 - pd + (dt1 - 0) * nk) / q), (vm dX (mT ri)), (vm v ra), nk, sr.
  split; [rewrite X0; exact LX|]. split; [exact NEAR|]. split.
  { eapply near_impl; [|exact (near_and _ _ NP (near_and _ _ NV (near_and _ _ UNV NF1)))]. intros h (A1 & A2 & A3 & A4). cbn beta in *. unfold position_at, direction_at in A1, A2.
    destruct (nth_error (ray h) a) as [sh|] eqn:SHH; cbn [obind] in A1, A2; [|discriminate]. split; [|apply XD; auto].
    exists (vadd3 oa (vm (FP h) ra)), (vm (FV h) ra), (F1 h). split; [eapply PL; eauto|]. split; [eapply DL; eauto|reflexivity]. }
  assert (ZD : forall a b, vx (vm (vsub3 a v0) b) = vx (vm a b) /\ vy (vm (vsub3 a v0) b) = vy (vm a b)) by (intros a1 b1; split; unfold vm, vsub3, v0, dot; cbn [vx vy vz]; ring).
  split; [apply TI|]. split.
  { eapply lin_eq; [apply lin_minus; [exact LXx|apply lin_const]|rewrite X0; reflexivity|rewrite (proj1 (ZD _ _)); ring]. }
  split. { eapply lin_eq; [apply lin_minus; [exact LXy|apply lin_const]|rewrite X0; reflexivity|rewrite (proj2 (ZD _ _)); ring]. }
  split.
  { unfold tf. eapply lin_eq; [apply lin_div; [apply lin_opp, lin_plus; [apply lin_minus; [apply lin_minus; [exact LT|apply lin_const]|exact LPT]|apply lin_mult; [apply lin_minus; [exact LF1|apply lin_const]|apply lin_const]]|apply (lin_const q)|auto]| |].
    - rewrite (lin_at0 _ _ _ LT), (lin_at0 _ _ _ LF1). reflexivity.
    - field. auto. }
  split; [eapply DL; eauto|]. split; [reflexivity|]. split; [exact NREF|]. split; [exact NPOS|].
  (* the sphere *)
  assert (LSPH : dot (vsub3 (X 0) Q) dX = 0).
  { pose proof (vlin_sub _ _ _ _ _ _ LX (vlin_const Q)) as LS. pose proof (vlin_dot _ _ _ _ _ _ LS LS) as LD.
    assert (LC : lin (fun h => dot (vsub3 (X h) Q) (vsub3 (X h) Q)) (radius * radius) 0).
    { eapply lin_near; [|apply lin_const]. eapply near_impl; [|exact (near_and _ _ UNV NF1)]. intros h (A1 & A2). cbn beta in *. symmetry. apply XD; auto. }
    destruct (lin_unique _ _ _ _ _ LC LD) as (_ & K). rewrite <- X0 in K. revert K. generalize (X 0) dX. intros x1 x2 K. unfold dot, vsub3, v0 in *. cbn [vx vy vz] in *. lra. }
  assert (TURN : dot v dv = 0) by (apply (unit_turn FV); auto).
  assert (KEY : dot (vm v ra) dX = dot v dp + dt1).
  { rewrite DXE. replace (dot (vm v ra) (vadd3 (vadd3 v0 (vm dp ra)) (vadd3 (vmul3 dt1 (vm v ra)) (vmul3 t1 (vm dv ra))))) with (dot (vm v ra) (vm dp ra) + dt1 * dot (vm v ra) (vm v ra) + t1 * dot (vm v ra) (vm dv ra))
      by (generalize (vm v ra) (vm dp ra) (vm dv ra); intros; vec_ring).
    rewrite !dot_vm by auto. rewrite UV, TURN. ring. }
  intros m. rewrite <- Q1. replace (dot (vsub3 (vadd3 (X 0) (vmul3 m (vm v ra))) Q) dX) with (dot (vsub3 (X 0) Q) dX + m * dot (vm v ra) dX) by (generalize (X 0) (vm v ra); intros; vec_ring).
  rewrite LSPH, KEY, PDE. assert (LZ : n * dot u dy - (if finite then 0 else n * dot u dy) = 0) by (destruct finite; [rewrite LAUNCH|]; ring).
  transitivity (- m * (nk * dot v dp - (n * dot u dy - (if finite then 0 else n * dot u dy)) + dt1 * nk)); [field; auto|]. rewrite LZ. ring.
Qed.
End Hamilton.

(** ** a strongly aberrated ray: parallel light 4 above the axis of a refracting sphere of radius 5 *)
Definition ball : element := El (e_place (flat 5)) None (Sph (Some (Material (fun _ => 4/3) false true)) (Surf (1/5) 0 None false)).
Definition ball_lens : list element := [flat 0; ball; flat 26].
Definition bent : vec := V (-7/25) 0 (24/25).
Definition outer_ray : list step :=
  [Step (Some (V 4 0 0)) (Some ez) 1 (Some ez) (Some 0); Step (Some (V 4 0 2)) (Some bent) (4/3) (Some ez) (Some 7); Step (Some (V (-3) 0 0)) (Some bent) (4/3) (Some bent) (Some (100/3))].
Definition centre_ray : list step :=
  [Step (Some (V 0 0 0)) (Some ez) 1 (Some ez) (Some 0); Step (Some (V 0 0 0)) (Some ez) (4/3) (Some ez) (Some 5); Step (Some (V 0 0 0)) (Some ez) (4/3) (Some ez) (Some (104/3))].
Lemma sqrt_is a b : 0 <= b -> a = b * b -> sqrt a = b.
Proof. intros B ->. apply sqrt_square; auto. Qed.
Lemma ball_normal x z w : 0 < w -> 1 - 1/25 * (x * x) = w * w -> surface_normal (Surf (1/5) 0 None false) (V x 0 z) = Some (V (- x / (5 * w)) 0 1).
Proof.
  intros WP W. unfold surface_normal. cbn [s_c s_k s_asph]. destruct (Req_EM_T (1/5) 0); [lra|]. unfold r2_of. cbn [vx vy vz].
  replace (1 - (1 + 0) * (1 / 5) ^ 2 * (x * x + 0 * 0)) with (w * w) by lra. rewrite fsqrt_some by nra. cbn [obind]. rewrite (sqrt_is _ w) by lra. rewrite fdiv_some by lra. cbn [obind]. f_equal. apply vec_eq; cbn [vx vy vz]; field; lra.
Qed.
Lemma outer_trace newton : geo_trace newton ball_lens (V 4 0 0) ez 1 1 false = outer_ray.
Proof.
  unfold ball_lens, outer_ray. cbn [geo_trace]. change (from_normal (e_place (flat 0)) ?y) with (Some y). cbn [sys_propagate onormal obind].
  change (to_normal (e_place ball) ?y) with (Some y). change (p_offset (e_place ball)) with (V 0 0 5).
  assert (S1 : propagate newton ball (Some (vsub3 (V 4 0 0) (V 0 0 5))) (Some ez) 1 1 false = (Some (V 4 0 2), Some bent, 4/3, Some 7)).
  { unfold propagate. cbn [obind ball e_kind intercept s_asph]. unfold conic_intercept. cbn [s_c s_k s_alt]. destruct (Req_EM_T (1/5) 0); [lra|]. destruct (Req_EM_T 0 0); [|lra].
    cbv zeta. unfold vsub3, dot, ez. cbn [vx vy vz]. rewrite fsqrt_some by lra. rewrite (sqrt_is _ (3/5)) by lra. cbn [obind]. rewrite fdiv_some by lra. cbn [obind].
    cbn [get_n_mu m_mirror m_index]. rewrite fdiv_some by lra. replace (1 / (4 / 3)) with (3/4) by field. destruct (Req_EM_T (3/4) 0); [lra|].
    match goal with |- context [refract _ (Some ?p) _ _] => replace p with (V 4 0 2) by (apply vec_eq; unfold at_ray, vadd3, vmul3; cbn [vx vy vz]; field) end.
    unfold refract. destruct (Req_EM_T (3/4) 1); [lra|]. cbn [obind]. rewrite (ball_normal 4 2 (3/5)) by lra. replace (- (4) / (5 * (3 / 5))) with (-4/3) by field. cbn [obind]. unfold refract_normal.
    replace (dot (V (-4/3) 0 1) (V (-4/3) 0 1)) with (25/9) by (unfold dot; cbn [vx vy vz]; field). replace (dot (V 0 0 1) (V (-4/3) 0 1)) with 1 by (unfold dot; cbn [vx vy vz]; field).
    rewrite (Rabs_pos_eq (3/4)) by lra. rewrite fdiv_some by lra. cbn [obind]. destruct (Req_EM_T (3/4) (-1)); [lra|]. rewrite fdiv_some by lra. cbn [obind].
    match goal with |- context [fsqrt ?x] => replace x with (12/25 * (12/25)) by field end. rewrite fsqrt_some by lra. rewrite (sqrt_is _ (12/25)) by lra. cbn [obind].
    unfold sign. destruct (Rlt_dec 0 (3/4)) as [_|]; [|lra].
    match goal with |- (Some ?a, Some ?b, ?c, Some ?d) = _ => replace b with bent by (apply vec_eq; unfold bent, vadd3, vmul3; cbn [vx vy vz]; field); replace d with 7 by field end. reflexivity. }
  rewrite S1. change (from_normal (e_place ball) ?y) with (Some y). cbn [onormal obind]. change (to_normal (e_place (flat 26)) ?y) with (Some y). change (p_offset (e_place (flat 26))) with (V 0 0 26).
  change (from_normal (e_place ball) ?y) with (Some y). cbn [obind].
  change (onormal (to_normal (e_place (flat 26))) (Some bent)) with (Some bent).
  unfold propagate. cbn [obind flat e_kind]. unfold plane_intercept, bent, ez, vsub3. cbn [vx vy vz]. rewrite fdiv_some by lra. cbn [obind].
  match goal with |- context [at_ray ?a ?b ?t] => replace (at_ray a b t) with (V (-3) 0 0) by (apply vec_eq; unfold at_ray, vadd3, vmul3; cbn [vx vy vz]; field) end.
  match goal with |- context [Some (?t * (4/3))] => replace (t * (4/3)) with (100/3) by field end. reflexivity.
Qed.
Lemma centre_trace newton : geo_trace newton ball_lens (V 0 0 0) ez 1 1 false = centre_ray.
Proof.
  unfold ball_lens, centre_ray. cbn [geo_trace]. change (from_normal (e_place (flat 0)) ?y) with (Some y). cbn [sys_propagate onormal obind].
  change (to_normal (e_place ball) ?y) with (Some y). change (p_offset (e_place ball)) with (V 0 0 5).
  assert (S1 : propagate newton ball (Some (vsub3 (V 0 0 0) (V 0 0 5))) (Some ez) 1 1 false = (Some (V 0 0 0), Some ez, 4/3, Some 5)).
  { unfold propagate. cbn [obind ball e_kind intercept s_asph]. unfold conic_intercept. cbn [s_c s_k s_alt]. destruct (Req_EM_T (1/5) 0); [lra|]. destruct (Req_EM_T 0 0); [|lra].
    cbv zeta. unfold vsub3, dot, ez. cbn [vx vy vz]. rewrite fsqrt_some by lra. rewrite (sqrt_is _ 1) by lra. cbn [obind]. rewrite fdiv_some by lra. cbn [obind].
    cbn [get_n_mu m_mirror m_index]. rewrite fdiv_some by lra. replace (1 / (4 / 3)) with (3/4) by field. destruct (Req_EM_T (3/4) 0); [lra|].
    match goal with |- context [refract _ (Some ?p) _ _] => replace p with (V 0 0 0) by (apply vec_eq; unfold at_ray, vadd3, vmul3; cbn [vx vy vz]; field) end.
    unfold refract. destruct (Req_EM_T (3/4) 1); [lra|]. cbn [obind]. rewrite (ball_normal 0 0 1) by lra. replace (- 0 / (5 * 1)) with 0 by field. cbn [obind]. unfold refract_normal.
    replace (dot (V 0 0 1) (V 0 0 1)) with 1 by (unfold dot; cbn [vx vy vz]; field).
    rewrite (Rabs_pos_eq (3/4)) by lra. rewrite fdiv_some by lra. cbn [obind]. destruct (Req_EM_T (3/4) (-1)); [lra|]. rewrite fdiv_some by lra. cbn [obind].
    match goal with |- context [fsqrt ?x] => replace x with (1 * 1) by field end. rewrite fsqrt_some by lra. rewrite (sqrt_is _ 1) by lra. cbn [obind].
    unfold sign. destruct (Rlt_dec 0 (3/4)) as [_|]; [|lra].
    match goal with |- (Some ?a, Some ?b, ?c, Some ?d) = _ => replace b with (V 0 0 1) by (apply vec_eq; unfold vadd3, vmul3; cbn [vx vy vz]; field); replace d with 5 by field end. reflexivity. }
  rewrite S1. change (from_normal (e_place ball) ?y) with (Some y). cbn [onormal obind]. change (to_normal (e_place (flat 26)) ?y) with (Some y). change (p_offset (e_place (flat 26))) with (V 0 0 26).
  change (from_normal (e_place ball) ?y) with (Some y). cbn [obind].
  change (onormal (to_normal (e_place (flat 26))) (Some ez)) with (Some ez).
  unfold propagate. cbn [obind flat e_kind]. unfold plane_intercept, bent, ez, vsub3. cbn [vx vy vz]. rewrite fdiv_some by lra. cbn [obind].
  match goal with |- context [at_ray ?a ?b ?t] => replace (at_ray a b t) with (V (0) 0 0) by (apply vec_eq; unfold at_ray, vadd3, vmul3; cbn [vx vy vz]; field) end.
  match goal with |- context [Some (?t * (4/3))] => replace (t * (4/3)) with (104/3) by field end. reflexivity.
Qed.

Lemma ball_good : physical 1 ball_lens.
Proof.
  unfold physical, ball_lens. apply Forall_cons; [split; [apply flat_good; lra|exact I]|]. apply Forall_cons.
  - split; [exact (flat_good 5 ltac:(lra))|]. cbn. intros _. lra.
  - apply Forall_cons; [split; [apply flat_good; lra|exact I]|apply Forall_nil].
Qed.
Lemma outer_regular k : (k <= 2)%nat -> regular ball_lens false k outer_ray.
Proof.
  intros K i I. assert (C : (i = 0 \/ i = 1 \/ i = 2)%nat) by lia. destruct C as [->|[->| ->]].
  - exists (flat 0). do 3 eexists. split; [reflexivity|]. split; [reflexivity|]. split; [reflexivity|]. split; [reflexivity|]. lia.
  - exists ball. do 3 eexists. split; [reflexivity|]. split; [reflexivity|]. split; [reflexivity|]. split; [reflexivity|]. intros _. split; [|discriminate].
    exists ez. split; [reflexivity|]. unfold clean_hit, ball. cbn [e_kind]. split; [reflexivity|]. split.
    + unfold surface_sag. cbn [s_c s_k s_asph]. destruct (Req_EM_T (1/5) 0); [lra|]. unfold r2_of. cbn [vx vy vz]. rewrite fsqrt_some by lra. rewrite (sqrt_is _ (3/5)) by lra. cbn [obind]. rewrite fdiv_some by lra. cbn [obind]. f_equal. field.
    + exists (V (- (4) / (5 * (3/5))) 0 1). split; [apply ball_normal; lra|]. replace (- (4) / (5 * (3/5))) with (-4/3) by field. unfold dot, ez, bent. cbn [vx vy vz]. split; lra.
  - exists (flat 26). do 3 eexists. split; [reflexivity|]. split; [reflexivity|]. split; [reflexivity|]. split; [reflexivity|]. intros _. split; [|discriminate].
    exists bent. split; [reflexivity|exact Coq.Init.Logic.I].
Qed.
Lemma parallel_family x dx : vlin (fun h => V (x + h * dx) 0 0) (V x 0 0) (V dx 0 0).
Proof.
  unfold vlin. cbn [vx vy vz]. split; [|split; apply lin_const]. eapply lin_eq; [apply lin_plus; [apply lin_const|apply lin_mult; [apply lin_id|apply lin_const]]|ring|ring].
Qed.
(** hypotheses of C68_regular and C68_hamilton *)
Example C68_regular_example newton : let es := ball_lens in let U := fun _ : R => ez in
  physical 1 es /\ vlin (fun h => V (4 + h * 1) 0 0) (V 4 0 0) (V 1 0 0) /\ vlin U ez v0 /\ near (fun h => dot (U h) (U h) = 1) /\ regular es false 2 (geo_trace newton es (V 4 0 0) ez 1 1 false) /\
  exists p dp v dv w nk, ovlin (fun h => position_at 2 (geo_trace newton es (V (4 + h * 1) 0 0) ez 1 1 false)) p dp /\ ovlin (fun h => direction_at 2 (geo_trace newton es (V (4 + h * 1) 0 0) ez 1 1 false)) v dv /\ 0 < nk /\
    olin (fun h => optical_path 2 (geo_trace newton es (V (4 + h * 1) 0 0) ez 1 1 false)) w (nk * dot v dp).
Proof.
  cbv zeta. assert (UN : near (fun h : R => dot ez ez = 1)) by (apply near_true; intros; unfold dot, ez; cbn [vx vy vz]; ring).
  assert (RG : regular ball_lens false 2 (geo_trace newton ball_lens (V 4 0 0) ez 1 1 false)) by (rewrite outer_trace; apply outer_regular; lia).
  split; [exact ball_good|]. split; [apply parallel_family|]. split; [apply vlin_const|]. split; [exact UN|]. split; [exact RG|].
  destruct (C68_regular newton ball_lens (fun h => V (4 + h * 1) 0 0) (fun _ => ez) _ _ ez v0 1 1 false 2 ball_good ltac:(lra) (parallel_family 4 1) (vlin_const ez) UN RG) as (p & dp & v & dv & w & nk & A & B & C & D & E).
  exists p, dp, v, dv, w, nk. split; [exact A|]. split; [exact B|]. split; [exact C|]. eapply olin_eq; [exact E|reflexivity|]. unfold dot at 2. unfold ez. cbn [vx vy vz]. ring.
Qed.
(** hypotheses of C68_ray_aberration: the sphere of radius 3 about the image of the central ray; the outer ray misses that image by 3 *)
Example C68_ray_aberration_example newton : let es := ball_lens in let ref := geo_trace newton es (V 0 0 0) ez 1 1 false in let ray := geo_trace newton es (V 4 0 0) ez 1 1 false in
  pyindex (length es) (-2) = Some 1%nat /\ pyindex (length es) (-1) = Some 2%nat /\ (exists r0, opd_ray es false 3 (-2) (-1) 1 1 ref ray = Some r0) /\ lab_point es 2 ref (V 0 0 31) /\
  (forall X V', on_ray es 1 ray X -> lab_direction es 1 ray V' -> dot (vsub3 X (V 0 0 31)) (vsub3 X (V 0 0 31)) = 3 * 3 -> dot V' (vsub3 X (V 0 0 31)) <> 0) /\
  lab_point es 2 ray (V (-3) 0 31).
Proof.
  cbv zeta. rewrite centre_trace, outer_trace. split; [reflexivity|]. split; [reflexivity|]. split.
  { assert (SP : forall oa oi x z u t, vx oa = 0 -> vy oa = 0 -> vz oa = 5 -> vx oi = 0 -> vy oi = 0 -> vz oi = 31 -> conic_intercept (Surf (1/3) 0 None false) (V x 0 (z - 23)) u = Some t ->
      exists v, sphere_point ball (flat 26) oa oi (V 0 0 0) 3 (Some (V x 0 z)) (Some u) = Some (t, v)).
    { intros [x1 y1 z1] [x2 y2 z2] x z u t Ha Hb Hc Hd He Hf H. cbn in Ha, Hb, Hc, Hd, He, Hf. subst. unfold sphere_point, to_sphere. cbn [obind]. change (from_normal (e_place ball) ?y) with (Some y). change (to_normal (e_place (flat 26)) ?y) with (Some y). cbn [obind].
      unfold sphere_hit. rewrite fdiv_some by lra. cbn [obind].
      match goal with |- context [conic_intercept _ ?y _] => replace y with (V x 0 (z - 23)) by (apply vec_eq; unfold vsub3, vadd3; cbn [vx vy vz]; ring) end. rewrite H. cbn [obind]. eauto. }
    assert (H1 : conic_intercept (Surf (1/3) 0 None false) (V 0 0 (0 - 23)) ez = Some 23).
    { unfold conic_intercept. cbn [s_c s_k s_alt]. destruct (Req_EM_T (1/3) 0); [lra|]. destruct (Req_EM_T 0 0); [|lra]. cbv zeta. unfold dot, ez. cbn [vx vy vz]. rewrite fsqrt_some by lra. rewrite (sqrt_is _ 1) by lra. cbn [obind]. rewrite fdiv_some by lra. f_equal. field. }
    assert (H2 : conic_intercept (Surf (1/3) 0 None false) (V 4 0 (2 - 23)) bent = Some (583/25)).
    { unfold conic_intercept. cbn [s_c s_k s_alt]. destruct (Req_EM_T (1/3) 0); [lra|]. destruct (Req_EM_T 0 0); [|lra]. cbv zeta. unfold dot, bent. cbn [vx vy vz]. rewrite fsqrt_some by lra. rewrite (sqrt_is _ (7/25)) by lra. cbn [obind]. rewrite fdiv_some by lra. f_equal. field. }
    assert (O1 : nth_error (origins ball_lens) 1 = Some (V 0 0 5)) by (cbn; f_equal; apply vec_eq; cbn; ring). assert (O2 : nth_error (origins ball_lens) 2 = Some (V 0 0 31)) by (cbn; f_equal; apply vec_eq; cbn; ring).
    destruct (SP (V 0 0 5) (V 0 0 31) 0 0 ez 23 eq_refl eq_refl eq_refl eq_refl eq_refl eq_refl H1) as (v1 & E1). destruct (SP (V 0 0 5) (V 0 0 31) 4 2 bent (583/25) eq_refl eq_refl eq_refl eq_refl eq_refl eq_refl H2) as (v2 & E2).
    unfold opd_ray. change (pyend (length ball_lens) (-2 + 1)) with 2%nat. change (pyindex (length ball_lens) (-2)) with (Some 1%nat). change (pyindex (length ball_lens) (-1)) with (Some 2%nat).
    unfold outer_ray, centre_ray. cbn [firstn map path_diff st_t obind nth_error launched st_y st_u fst snd]. change (nth_error ball_lens 1) with (Some ball). change (nth_error ball_lens 2) with (Some (flat 26)). unfold ball_lens at 1 2. cbn [obind]. change (match origins ball_lens with _ :: x :: _ => Some x | _ => None end) with (nth_error (origins ball_lens) 1). change (match origins ball_lens with _ :: _ :: x :: _ => Some x | _ => None end) with (nth_error (origins ball_lens) 2). rewrite O1, O2. cbn [obind st_y st_u]. rewrite E1, E2. cbn [obind fst snd].
    rewrite fdiv_some by lra. cbn [obind]. rewrite fdiv_some by lra. cbn [obind]. eauto. }
  split. { exists (flat 26), (V 0 0 31). do 3 eexists. repeat split; try reflexivity; cbn; [f_equal; apply vec_eq; cbn; ring|apply vec_eq; cbn; ring]. }
  split.
  - intros X V' (P & W & s & (e1 & o1 & s1 & y1 & p1 & A1 & A2 & A3 & A4 & A5 & A6) & (e2 & s2 & u2 & B1 & B2 & B3 & B4) & ->) (e3 & s3 & u3 & C1 & C2 & C3 & C4) D.
    cbn in A1, A2, A3, B1, B2, C1, C2. injection A1 as <-. injection A2 as <-. injection A3 as <-. cbn in A4. injection A4 as <-. cbn in A5. injection A5 as <-. subst P.
    injection B1 as <-. injection B2 as <-. cbn in B3. injection B3 as <-. cbn in B4. injection B4 as <-. injection C1 as <-. injection C2 as <-. cbn in C3. injection C3 as <-. cbn in C4. injection C4 as <-.
    unfold bent, dot, vsub3, vadd3, vmul3, v0 in *. cbn [vx vy vz] in *. intros Z. assert (E : s = 604/25) by lra. subst s. lra.
  - exists (flat 26), (V 0 0 31). do 3 eexists. repeat split; try reflexivity; cbn; [f_equal; apply vec_eq; cbn; ring|apply vec_eq; cbn; ring].
Qed.
(** points of equal path behind the sphere: from the wave front through the launch points to [E] the path is 7 + 4/3 * 25 *)
Example C68_malus_example newton : let ray h := geo_trace newton ball_lens (V (4 + h * 1) 0 0) ez 1 1 false in
  dot ez (V 1 0 0) = 0 /\ direction_at 1 (ray 0) = Some bent /\
  exists S E, (exists s ds, lin S s ds) /\ E 0 = V (-3) 0 26 /\ (exists de, vlin E (E 0) de) /\
  near (fun h => exists p q t st, position_at 1 (ray h) = Some p /\ direction_at 1 (ray h) = Some q /\ optical_path 1 (ray h) = Some t /\ nth_error (ray h) 1 = Some st /\
    E h = vadd3 p (vmul3 (S h) q) /\ t + st_n st * S h = 7 + 4/3 * 25).
Proof.
  cbv beta zeta. replace (4 + 0 * 1) with 4 by ring. rewrite outer_trace. split; [unfold dot, ez; cbn [vx vy vz]; ring|]. split; [reflexivity|].
  assert (UN : near (fun h : R => dot ez ez = 1)) by (apply near_true; intros; unfold dot, ez; cbn [vx vy vz]; ring).
  assert (RG : regular ball_lens false 1 (geo_trace newton ball_lens (V 4 0 0) ez 1 1 false)) by (rewrite outer_trace; apply outer_regular; lia).
  destruct (C68_regular newton ball_lens (fun h => V (4 + h * 1) 0 0) (fun _ => ez) _ _ ez v0 1 1 false 1 ball_good ltac:(lra) (parallel_family 4 1) (vlin_const ez) UN RG) as (p & dp & v & dv & w & nk & (FP & LP & NP) & (FV & LV & NV) & C & NK & (FT & LT & NT)).
  assert (R0 : geo_trace newton ball_lens (V (4 + 0 * 1) 0 0) ez 1 1 false = outer_ray) by (replace (4 + 0 * 1) with 4 by ring; apply outer_trace).
  pose proof (near_0 _ NP) as P0. pose proof (near_0 _ NV) as V0. pose proof (near_0 _ NT) as T0. cbn beta in P0, V0, T0. rewrite R0 in P0, V0, T0. cbn in P0, V0, T0. injection P0 as P0. injection V0 as V0. injection T0 as T0.
  assert (NK0 : nk = 4/3). { symmetry. apply (NK 0 (Step (Some (V 4 0 2)) (Some bent) (4/3) (Some ez) (Some 7))). rewrite R0. reflexivity. }
  subst nk. set (S := fun h => (7 + 4/3 * 25 - FT h) * (3/4)).
  assert (LS : exists s ds, lin S s ds) by (do 2 eexists; unfold S; apply lin_mult; [apply lin_minus; [apply lin_const|exact LT]|apply lin_const]).
  exists S, (fun h => vadd3 (FP h) (vmul3 (S h) (FV h))). split; [exact LS|].
  split. { rewrite <- P0, <- V0. unfold S. rewrite <- T0. apply vec_eq; unfold bent, vadd3, vmul3; cbn [vx vy vz]; field. }
  split. { destruct LS as (s & ds & LS). eexists. assert (L : vlin (fun h => vadd3 (FP h) (vmul3 (S h) (FV h))) (vadd3 p (vmul3 s v)) (vadd3 dp (vadd3 (vmul3 ds v) (vmul3 s dv)))) by (apply vlin_add; [exact LP|apply vlin_scale; [exact LS|exact LV]]).
    rewrite (vlin_at0 _ _ _ L). exact L. }
  eapply near_impl; [|exact (near_and _ _ NP (near_and _ _ NV NT))]. intros h (A1 & A2 & A3). cbn beta in *.
  unfold position_at in A1. destruct (nth_error (geo_trace newton ball_lens (V (4 + h * 1) 0 0) ez 1 1 false) 1) as [st|] eqn:ST; cbn [obind] in A1; [|discriminate].
  exists (FP h), (FV h), (FT h), st. unfold position_at. rewrite ST. cbn [obind]. split; [exact A1|]. split; [exact A2|]. split; [exact A3|]. split; [reflexivity|]. split; [reflexivity|].
  rewrite (NK h st ST). unfold S. field.
Qed.
(** hypotheses of C68_hamilton *)
Example C68_hamilton_example newton : let ray h := geo_trace newton ball_lens (V (4 + h * 1) 0 0) ez 1 1 false in
  (2 < length ball_lens)%nat /\ exists yy dyy uu duu : nat -> vec,
  (forall i, (i <= 2)%nat -> ovlin (fun h => position_at i (ray h)) (yy i) (dyy i) /\ ovlin (fun h => direction_at i (ray h)) (uu i) (duu i)) /\
  (forall i e m s, (i < 2)%nat -> nth_error ball_lens (S i) = Some e -> e_kind e = Sph (Some m) s ->
     near (fun h => exists p, position_at (S i) (ray h) = Some p /\ surface_sag s p = Some 0)).
Proof.
  cbv zeta. split; [cbn; lia|].
  assert (UN : near (fun h : R => dot ez ez = 1)) by (apply near_true; intros; unfold dot, ez; cbn [vx vy vz]; ring).
  assert (RG : regular ball_lens false 2 (geo_trace newton ball_lens (V 4 0 0) ez 1 1 false)) by (rewrite outer_trace; apply outer_regular; lia).
  pose proof (trace_smooth newton ball_lens (fun h => V (4 + h * 1) 0 0) (fun _ => ez) _ _ ez v0 1 1 false ball_good ltac:(lra) (parallel_family 4 1) (vlin_const ez) UN 2 RG) as SM. cbv zeta in SM.
  destruct (SM 0%nat ltac:(lia)) as (p0 & dp0 & w0 & dw0 & A0 & B0 & _ & _). destruct (SM 1%nat ltac:(lia)) as (p1 & dp1 & v1 & dv1 & A1 & B1 & _ & C1). destruct (SM 2%nat ltac:(lia)) as (p2 & dp2 & v2 & dv2 & A2 & B2 & _ & C2).
  exists (fun i => nth i [p0; p1; p2] p0), (fun i => nth i [dp0; dp1; dp2] p0), (fun i => nth i [w0; v1; v2] p0), (fun i => nth i [dw0; dv1; dv2] p0). split.
  - intros [|[|[|i]]] L; [cbn [nth]; auto..|lia].
  - intros [|[|i]] e m s L E K; [eapply C1|eapply C2|lia]; eauto.
Qed.
Print Assumptions C68_hamilton.
Print Assumptions C68_regular.
Print Assumptions C68_malus.
Print Assumptions C68_ray_aberration.
