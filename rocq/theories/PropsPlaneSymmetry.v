(** Property C112: systems folded in a plane, or with any other symmetry that keeps the vertices and the normals of all elements. *)
From Coq Require Import Reals ZArith List Lra Lia Psatz.
From Verif Require Import Base Vec RotModel RotProofs PlacementModel PlacementProofs ElementModel ElementProofs TraceProofs
  PropsElement PropsTrace OpdModel PropsOpd PolyChain FirstOrder Hamilton PropsSymmetry PropsWaveSymmetry.
Import ListNotations.
Open Scope R_scope.

(** * specification *)
(** a rotation or reflection of space *)
Definition isometric (T : vec -> vec) : Prop :=
  (forall a b, T (vadd3 a b) = vadd3 (T a) (T b)) /\ (forall k a, T (vmul3 k a) = vmul3 k (T a)) /\ (forall a b, dot (T a) (T b) = dot a b).
(** it keeps the step to the vertex of the element and the normal there *)
Definition keeps (T : vec -> vec) (e : element) : Prop :=
  T (p_offset (e_place e)) = p_offset (e_place e) /\ exists N, from_normal (e_place e) ez = Some N /\ T N = N.
(** the element is folded in the plane with normal [a] *)
Definition folded (a : vec) (e : element) : Prop :=
  dot a (p_offset (e_place e)) = 0 /\ exists N, from_normal (e_place e) ez = Some N /\ dot a N = 0.

(** * proofs *)
Lemma iso_sub T a b : isometric T -> T (vsub3 a b) = vsub3 (T a) (T b).
Proof. intros (TA & TS & _). rewrite !sub_as, TA, TS. reflexivity. Qed.
(** in the frame of the element it is a map about its own axis *)
Lemma inside_kept r T : rotation r -> T (vm ez r) = vm ez r -> isometric T -> about_axis (inside r T).
Proof.
  intros R Z (TA & TS & TD). unfold inside. split; [|split; [|split]].
  - intros a b. rewrite vm_add, TA, vm_add. reflexivity.
  - intros k a. rewrite vm_scale, TS, vm_scale. reflexivity.
  - intros a b. rewrite rotation_dot by (apply rotation_mT; auto). rewrite TD. apply rotation_dot. auto.
  - rewrite Z. apply vm_back. auto.
Qed.
Lemma kept_frame l T e : good_element l e -> keeps T e -> exists r, rotation r /\ T (vm ez r) = vm ez r /\
  (forall y, from_normal (e_place e) y = Some (vm y r)) /\ (forall y, to_normal (e_place e) y = Some (vm y (mT r))).
Proof.
  intros G (_ & N & FN & TN). destruct (normal_maps _ (proj1 G)) as (r & R & F & B). exists r. split; [exact R|]. split; [|auto].
  rewrite F in FN. injection FN as ->. exact TN.
Qed.

Section Kept.
Variable newton : (R -> option R) -> (R -> option R) -> option R -> option R.
Notation trace := (geo_trace newton).
Variable T : vec -> vec.
Hypothesis A : isometric T.

Lemma sys_kept l : forall es y u n c i e s, physical l es -> Forall (keeps T) es -> nth_error es i = Some e -> nth_error (sys_propagate newton es y u n l c) i = Some s ->
  exists s', nth_error (sys_propagate newton es (omap T y) (omap T u) n l c) i = Some s' /\ st_n s' = st_n s /\ st_t s' = st_t s /\
    onormal (from_normal (e_place e)) (st_y s') = omap T (onormal (from_normal (e_place e)) (st_y s)) /\ onormal (from_normal (e_place e)) (st_u s') = omap T (onormal (from_normal (e_place e)) (st_u s)).
Proof.
  induction es as [|e0 es IH]; intros y u n c i e s G C E S; [destruct i; discriminate|].
  assert (GE : good_element l e0) by (inversion G; auto). assert (CE : keeps T e0) by (inversion C; auto).
  destruct (kept_frame _ _ _ GE CE) as (r & R & Z & F & B). pose proof (inside_kept r T R Z A) as A'. pose proof (proj1 CE) as O.
  assert (F1 : forall v, onormal (from_normal (e_place e0)) (omap (inside r T) v) = omap T (onormal (from_normal (e_place e0)) v)).
  { intros [v|]; [|reflexivity]. unfold onormal, omap. cbn [obind]. rewrite !F. cbn [obind]. unfold inside. f_equal. assert (K : forall w, vm (vm w (mT r)) r = w) by (intros w; rewrite <- vm_mm; destruct R as (_ & R & _); rewrite R; apply vm_eye). apply K. }
  assert (B1 : forall v, onormal (to_normal (e_place e0)) (omap T v) = omap (inside r T) (onormal (to_normal (e_place e0)) v)).
  { intros [v|]; [|reflexivity]. unfold onormal, omap. cbn [obind]. rewrite !B. cbn [obind]. unfold inside. f_equal. f_equal. f_equal. symmetry. rewrite <- vm_mm. destruct R as (_ & R & _). rewrite R. apply vm_eye. }
  assert (Y1 : (do y <- omap T y; to_normal (e_place e0) (vsub3 y (p_offset (e_place e0)))) = omap (inside r T) (do y <- y; to_normal (e_place e0) (vsub3 y (p_offset (e_place e0))))).
  { destruct y as [y|]; [|reflexivity]. cbn [omap obind]. pose proof (B1 (Some (vsub3 y (p_offset (e_place e0))))) as Q. unfold onormal, omap in Q |- *. cbn [obind] in Q |- *. rewrite <- Q. f_equal.
    rewrite iso_sub, O by exact A. reflexivity. }
  cbn [sys_propagate] in S |- *. rewrite Y1, B1, (map_propagate _ A').
  destruct (propagate newton e0 _ _ n l c) as [[[y1 u1] n1] t1]. destruct i as [|i]; cbn [nth_error] in *.
  - injection E as <-. injection S as <-. eexists. split; [reflexivity|]. cbn [st_n st_t st_y st_u]. split; [reflexivity|]. split; [reflexivity|]. split; apply F1.
  - rewrite !F1. apply IH with (s := s); auto; [inversion G; auto|inversion C; auto].
Qed.
Lemma cumsum_kept es : Forall (keeps T) es -> forall a i o, T a = a -> nth_error (cumsum3 a (map (fun e => p_offset (e_place e)) es)) i = Some o -> T o = o.
Proof.
  induction es as [|e es IH]; intros C a i o X E; [destruct i; discriminate|]. cbn [map cumsum3] in E. assert (CE : keeps T e) by (inversion C; auto). destruct CE as (Y & _).
  assert (X' : T (vadd3 a (p_offset (e_place e))) = vadd3 a (p_offset (e_place e))) by (rewrite (proj1 A), X, Y; reflexivity).
  destruct i as [|i]; cbn [nth_error] in E; [injection E as <-; auto|]. eapply IH; eauto. inversion C; auto.
Qed.
Lemma origin_kept es i o : Forall (keeps T) es -> nth_error (origins es) i = Some o -> T o = o.
Proof.
  intros C E. refine (cumsum_kept es C v0 i o _ E). replace v0 with (vmul3 0 v0) at 1 by vec_ring. rewrite (proj1 (proj2 A)). vec_ring.
Qed.
Lemma ray_kept es y u Y W y' u' n l c i e s : physical l es -> Forall (keeps T) es ->
  PropsSymmetry.launched es y u Y W -> PropsSymmetry.launched es y' u' (T Y) (T W) -> nth_error es i = Some e -> nth_error (trace es y u n l c) i = Some s ->
  exists s', nth_error (trace es y' u' n l c) i = Some s' /\ st_n s' = st_n s /\ st_t s' = st_t s /\
    onormal (from_normal (e_place e)) (st_y s') = omap T (onormal (from_normal (e_place e)) (st_y s)) /\
    onormal (from_normal (e_place e)) (st_u s') = omap T (onormal (from_normal (e_place e)) (st_u s)).
Proof.
  intros G C (e0 & E0 & F0 & F1) (e0' & E0' & F0' & F1') E S. destruct es as [|e1 es]; [discriminate|]. injection E0 as <-. injection E0' as <-.
  cbn [geo_trace] in *. destruct i as [|i]; cbn [nth_error] in *.
  - injection E as <-. injection S as <-. eexists. split; [reflexivity|]. cbn [st_t st_y st_u st_n onormal obind]. rewrite F0, F1, F0', F1'. cbn [omap obind]. auto.
  - rewrite F0, F1 in S. rewrite F0', F1'. inversion G; subst. inversion C; subst.
    exact (sys_kept l es (Some Y) (Some W) n c i e s ltac:(assumption) ltac:(assumption) E S).
Qed.
(** in the frame of the element *)
Lemma kept_local r e (v v' : option vec) : rotation r -> (forall y, from_normal (e_place e) y = Some (vm y r)) ->
  onormal (from_normal (e_place e)) v' = omap T (onormal (from_normal (e_place e)) v) -> v' = omap (inside r T) v.
Proof.
  intros R F Q. destruct v as [v|], v' as [v'|]; unfold onormal, omap in *; cbn [obind] in *; rewrite ?F in Q; cbn [obind] in Q; try discriminate; [|reflexivity].
  assert (E : vm v' r = T (vm v r)) by congruence. f_equal. unfold inside. rewrite <- E. symmetry. apply vm_back. exact R.
Qed.
Lemma times_kept es y u Y W y' u' n l c : physical l es -> Forall (keeps T) es ->
  PropsSymmetry.launched es y u Y W -> PropsSymmetry.launched es y' u' (T Y) (T W) ->
  map st_t (trace es y' u' n l c) = map st_t (trace es y u n l c).
Proof.
  intros G C L L'. apply list_ext. intros i. rewrite !nth_error_map.
  assert (LEN : forall a b, length (trace es a b n l c) = length es).
  { intros a b. destruct es; [reflexivity|]. cbn [geo_trace length]. rewrite length_sys. reflexivity. }
  destruct (nth_error (trace es y u n l c) i) as [s|] eqn:S.
  - assert (LI : (i < length es)%nat) by (rewrite <- (LEN y u); apply nth_error_Some; congruence).
    destruct (nth_error es i) as [e|] eqn:E; [|apply nth_error_None in E; lia].
    destruct (ray_kept es y u Y W y' u' n l c i e s G C L L' E S) as (s' & -> & _ & Q & _). cbn [option_map]. rewrite Q. reflexivity.
  - apply nth_error_None in S. rewrite LEN, <- (LEN y' u') in S. apply nth_error_None in S. rewrite S. reflexivity.
Qed.
(** the point on the reference sphere is turned, its distance is not changed *)
Lemma point_kept ea ei ra ri oa oi yr radius y u :
  rotation ra -> (forall v, from_normal (e_place ea) v = Some (vm v ra)) ->
  rotation ri -> T (vm ez ri) = vm ez ri -> (forall v, to_normal (e_place ei) v = Some (vm v (mT ri))) ->
  T oa = oa -> T oi = oi ->
  sphere_point ea ei oa oi (inside ri T yr) radius (omap (inside ra T) y) (omap (inside ra T) u) =
  (do h <- sphere_point ea ei oa oi yr radius y u; Some (fst h, inside ri T (snd h))).
Proof.
  intros RA FA RI ZI BI OA OI. pose proof (inside_kept ri T RI ZI A) as AI. pose proof A as (TA & TS & TD). pose proof AI as (IA & IS & ID & IZ).
  unfold sphere_point, to_sphere. destruct y as [y|]; [|reflexivity]. destruct u as [u|]; [|reflexivity]. cbn [omap obind].
  rewrite !FA. cbn [obind]. rewrite !BI. cbn [obind].
  assert (KA : forall v, vm (inside ra T v) ra = T (vm v ra)).
  { intros v. unfold inside. rewrite <- vm_mm. destruct RA as (_ & RA & _). rewrite RA. apply vm_eye. }
  assert (KI : forall v, vm (T v) (mT ri) = inside ri T (vm v (mT ri))).
  { intros v. unfold inside. f_equal. f_equal. symmetry. rewrite <- vm_mm. destruct RI as (_ & RI & _). rewrite RI. apply vm_eye. }
  rewrite !KA, !KI.
  replace (vadd3 (T (vm y ra)) (vsub3 oa oi)) with (T (vadd3 (vm y ra) (vsub3 oa oi))).
  2:{ rewrite TA, iso_sub, OA, OI by exact A. reflexivity. }
  rewrite KI. set (p := vm (vadd3 (vm y ra) (vsub3 oa oi)) (mT ri)). set (w := vm (vm u ra) (mT ri)). clearbody p w.
  assert (UP : forall v d, V (vx v) (vy v) (vz v + d) = vadd3 v (vmul3 d ez)) by (intros v d; apply vec_eq; unfold vadd3, vmul3, ez; cbn [vx vy vz]; ring).
  assert (DN : forall v d, V (vx v) (vy v) (vz v - d) = vsub3 v (vmul3 d ez)) by (intros v d; apply vec_eq; unfold vsub3, vmul3, ez; cbn [vx vy vz]; ring).
  rewrite !UP. rewrite <- (map_sub _ AI).
  replace (vadd3 (inside ri T (vsub3 p yr)) (vmul3 radius ez)) with (inside ri T (vadd3 (vsub3 p yr) (vmul3 radius ez))).
  2:{ rewrite IA, IS, IZ. reflexivity. }
  set (q := vadd3 (vsub3 p yr) (vmul3 radius ez)).
  unfold sphere_hit. destruct (fdiv 1 radius) as [c|]; [|reflexivity]. cbn [obind]. rewrite (map_conic _ AI).
  destruct (conic_intercept _ q w) as [t|]; [|reflexivity]. cbn [obind fst snd]. rewrite !DN, (map_at _ AI), (map_sub _ AI), IS, IZ. reflexivity.
Qed.

(** * C112 *)
(** light moved by the symmetry arrives at the moved points, in the moved directions, after the same path *)
Theorem C112_symmetric es y u Y W y' u' n l c k : physical l es -> Forall (keeps T) es ->
  PropsSymmetry.launched es y u Y W -> PropsSymmetry.launched es y' u' (T Y) (T W) ->
  let ray := trace es y u n l c in let yar := trace es y' u' n l c in
  (forall P, lab_point es k ray P -> lab_point es k yar (T P)) /\ (forall P', lab_point es k yar P' -> exists P, lab_point es k ray P /\ P' = T P) /\
  (forall D, lab_direction es k ray D -> lab_direction es k yar (T D)) /\ (forall D', lab_direction es k yar D' -> exists D, lab_direction es k ray D /\ D' = T D) /\
  optical_path k yar = optical_path k ray.
Proof.
  intros G C L L' ray yar.
  assert (MAIN : forall i e1 s, nth_error es i = Some e1 -> nth_error ray i = Some s -> exists s', nth_error yar i = Some s' /\ st_t s' = st_t s /\
    onormal (from_normal (e_place e1)) (st_y s') = omap T (onormal (from_normal (e_place e1)) (st_y s)) /\ onormal (from_normal (e_place e1)) (st_u s') = omap T (onormal (from_normal (e_place e1)) (st_u s))).
  { intros i e1 s E S. destruct (ray_kept es y u Y W y' u' n l c i e1 s G C L L' E S) as (s' & S' & _ & Q). exists s'. split; [exact S'|exact Q]. }
  assert (LT : forall a b, length (trace es a b n l c) = length es).
  { intros a b. destruct es; [reflexivity|]. cbn [geo_trace length]. rewrite length_sys. reflexivity. }
  assert (LEN : length yar = length ray) by (unfold yar, ray; rewrite !LT; reflexivity). pose proof (LT y u : length ray = length es) as LR.
  pose proof A as (TA & TS & TD).
  assert (TO : forall o, nth_error (origins es) k = Some o -> T o = o) by (intros o; apply origin_kept; exact C).
  split; [|split; [|split; [|split]]].
  - intros P (e1 & o & s & p & q & E & O & S & SY & FY & ->). destruct (MAIN k e1 s E S) as (s' & S' & _ & QY & _). unfold onormal in QY. rewrite SY in QY. cbn [obind] in QY. rewrite FY in QY. cbn [omap obind] in QY.
    destruct (st_y s') as [p'|] eqn:SY'; cbn [obind] in QY; [|discriminate]. exists e1, o, s', p', (T q). repeat (split; [assumption|]). rewrite TA, (TO o O). reflexivity.
  - intros P (e1 & o & s & p & q & E & O & S & SY & FY & ->). destruct (nth_error ray k) as [s1|] eqn:S1; [|apply nth_error_None in S1; rewrite <- LEN in S1; apply nth_error_None in S1; congruence].
    destruct (MAIN k e1 s1 E S1) as (s' & S' & _ & QY & _). rewrite S in S'. injection S' as <-. unfold onormal in QY. rewrite SY in QY. cbn [obind] in QY. rewrite FY in QY.
    destruct (st_y s1) as [p1|] eqn:SY1; cbn [obind omap] in QY; [|discriminate]. destruct (from_normal (e_place e1) p1) as [q1|] eqn:FY1; cbn [obind omap] in QY; [|discriminate].
    injection QY as ->. exists (vadd3 o q1). split; [exists e1, o, s1, p1, q1; auto 10|]. rewrite TA, (TO o O). reflexivity.
  - intros D (e1 & s & v & E & S & SU & FU). destruct (MAIN k e1 s E S) as (s' & S' & _ & _ & QU). unfold onormal in QU. rewrite SU in QU. cbn [obind] in QU. rewrite FU in QU. cbn [omap obind] in QU.
    destruct (st_u s') as [v'|] eqn:SU'; cbn [obind] in QU; [|discriminate]. exists e1, s', v'. auto.
  - intros D (e1 & s & v & E & S & SU & FU). destruct (nth_error ray k) as [s1|] eqn:S1; [|apply nth_error_None in S1; rewrite <- LEN in S1; apply nth_error_None in S1; congruence].
    destruct (MAIN k e1 s1 E S1) as (s' & S' & _ & _ & QU). rewrite S in S'. injection S' as <-. unfold onormal in QU. rewrite SU in QU. cbn [obind] in QU. rewrite FU in QU.
    destruct (st_u s1) as [v1|] eqn:SU1; cbn [obind omap] in QU; [|discriminate]. destruct (from_normal (e_place e1) v1) as [q1|] eqn:FU1; cbn [obind omap] in QU; [|discriminate].
    injection QU as ->. exists q1. split; [exists e1, s1, v1; auto|reflexivity].
  - assert (TT : forall i, (do s <- nth_error yar i; st_t s) = (do s <- nth_error ray i; st_t s)).
    { intros i. destruct (nth_error ray i) as [s|] eqn:S.
      - assert (LI : (i < length es)%nat). { rewrite <- LR. apply nth_error_Some. congruence. }
        destruct (nth_error es i) as [e1|] eqn:E; [|apply nth_error_None in E; lia]. destruct (MAIN i e1 s E S) as (s' & S' & Q & _). rewrite S'. cbn [obind]. exact Q.
      - apply nth_error_None in S. rewrite <- LEN in S. apply nth_error_None in S. rewrite S. reflexivity. }
    clear MAIN TO. induction k as [|k IH].
    + pose proof (TT 0%nat) as Q. unfold optical_path. destruct yar as [|a b], ray as [|a' b']; cbn [nth_error obind] in Q; auto; discriminate.
    + rewrite !optical_path_next, IH. specialize (TT (S k)). destruct (optical_path k ray); cbn [obind]; [|reflexivity].
      destruct (nth_error yar (S k)) as [s|]; destruct (nth_error ray (S k)) as [s'|]; cbn [obind] in *; [rewrite TT|rewrite TT|rewrite <- TT|]; reflexivity.
Qed.

(** light moved by the symmetry: same error in waves, pupil coordinates moved (in the lab, as directions of the image frame) *)
Theorem C112_wavefront es finite radius after image l scale yr ur Yr Wr yr' ur' y u Y W y' u' n c px py waves : physical l es -> Forall (keeps T) es ->
  PropsSymmetry.launched es yr ur Yr Wr -> PropsSymmetry.launched es yr' ur' (T Yr) (T Wr) ->
  PropsSymmetry.launched es y u Y W -> PropsSymmetry.launched es y' u' (T Y) (T W) ->
  opd_ray es finite radius after image l scale (trace es yr ur n l c) (trace es y u n l c) = Some (px, py, waves) ->
  exists px' py' i ei D, opd_ray es finite radius after image l scale (trace es yr' ur' n l c) (trace es y' u' n l c) = Some (px', py', waves) /\
    pyindex (length es) image = Some i /\ nth_error es i = Some ei /\
    from_normal (e_place ei) (V px py 0) = Some D /\ from_normal (e_place ei) (V px' py' 0) = Some (T D).
Proof.
  intros G C LR LR' L L'. unfold opd_ray. rewrite <- !firstn_map.
  rewrite (times_kept es yr ur Yr Wr yr' ur' n l c G C LR LR'), (times_kept es y u Y W y' u' n l c G C L L').
  destruct (path_diff _ _) as [t|]; [|discriminate]. cbn [obind].
  destruct es as [|e0 es0]; [discriminate|]. set (es := e0 :: es0) in *.
  assert (N0 : forall a b, nth_error (trace es a b n l c) 0 = Some (Step (Some a) (Some b) n (Some b) (Some 0))) by (intros; reflexivity).
  unfold OpdModel.launched. rewrite !N0. cbn [obind st_y st_u st_n fst snd].
  assert (FR : forall j e, nth_error es j = Some e -> exists r, rotation r /\ T (vm ez r) = vm ez r /\
    (forall v, from_normal (e_place e) v = Some (vm v r)) /\ (forall v, to_normal (e_place e) v = Some (vm v (mT r)))).
  { intros j e E. destruct (kept_frame l T e) as (r & R & Z & F & B).
    - exact (proj1 (Forall_forall _ _) G e (nth_error_In _ _ E)).
    - exact (proj1 (Forall_forall _ _) C e (nth_error_In _ _ E)).
    - exists r. auto. }
  assert (LP : launch_path finite n y' yr' ur' = launch_path finite n y yr ur).
  { unfold launch_path. destruct finite; [reflexivity|]. f_equal. destruct (FR 0%nat e0 eq_refl) as (r & R & _ & F & _).
    destruct LR as (e & E & Q1 & Q2), LR' as (e' & E' & Q1' & Q2'), L as (e1 & E1 & Q3 & _), L' as (e1' & E1' & Q3' & _).
    cbn in E, E', E1, E1'. injection E as <-. injection E' as <-. injection E1 as <-. injection E1' as <-. rewrite F in Q1, Q2, Q1', Q2', Q3, Q3'.
    assert (V1 : vm yr' r = T (vm yr r)) by congruence. assert (V2 : vm ur' r = T (vm ur r)) by congruence. assert (V3 : vm y' r = T (vm y r)) by congruence.
    rewrite <- (rotation_dot r ur' _ R), <- (rotation_dot r ur _ R). rewrite !vm_sub, V1, V2, V3. rewrite <- iso_sub by exact A. apply A. }
  rewrite LP. destruct (pyindex (length es) after) as [a|]; [|discriminate]. cbn [obind]. destruct (pyindex (length es) image) as [i|] eqn:PI; [|discriminate]. cbn [obind].
  destruct (nth_error es a) as [ea|] eqn:EA; [|discriminate]. cbn [obind]. destruct (nth_error es i) as [ei|] eqn:EI; [|discriminate]. cbn [obind].
  destruct (nth_error (origins es) a) as [oa|] eqn:OA; [|discriminate]. cbn [obind]. destruct (nth_error (origins es) i) as [oi|] eqn:OI; [|discriminate]. cbn [obind].
  destruct (nth_error (trace es yr ur n l c) a) as [sr|] eqn:SR; [|discriminate]. cbn [obind]. destruct (nth_error (trace es y u n l c) a) as [s|] eqn:SA; [|discriminate]. cbn [obind].
  destruct (nth_error (trace es yr ur n l c) i) as [si|] eqn:SI; [|discriminate]. cbn [obind]. destruct (st_y si) as [yref|] eqn:YR; [|discriminate]. cbn [obind].
  destruct (ray_kept es yr ur Yr Wr yr' ur' n l c a ea sr G C LR LR' EA SR) as (sr' & -> & NR & _ & QY & QU).
  destruct (ray_kept es y u Y W y' u' n l c a ea s G C L L' EA SA) as (s' & -> & _ & _ & PY & PU).
  destruct (ray_kept es yr ur Yr Wr yr' ur' n l c i ei si G C LR LR' EI SI) as (si' & -> & _ & _ & IY & _). cbn [obind].
  destruct (FR a ea EA) as (ra & RA & ZA & FA & BA). destruct (FR i ei EI) as (ri & RI & ZI & FI & BI).
  rewrite (kept_local ra ea _ _ RA FA QY), (kept_local ra ea _ _ RA FA QU), (kept_local ra ea _ _ RA FA PY), (kept_local ra ea _ _ RA FA PU).
  rewrite (kept_local ri ei _ _ RI FI IY), YR, NR. cbn [omap obind].
  pose proof (origin_kept _ _ _ C OA) as XA. pose proof (origin_kept _ _ _ C OI) as XI.
  rewrite !(point_kept ea ei ra ri oa oi yref radius) by assumption.
  destruct (sphere_point ea ei oa oi yref radius (st_y sr) (st_u sr)) as [[tr pr]|]; [|discriminate]. cbn [obind].
  destruct (sphere_point ea ei oa oi yref radius (st_y s) (st_u s)) as [[tp p]|]; [|discriminate]. cbn [obind fst snd].
  destruct (fdiv l scale) as [q|]; [|discriminate]. cbn [obind]. destruct (fdiv _ q) as [w|]; [|discriminate]. cbn [obind].
  intros E. injection E as <- <- <-. do 5 eexists. split; [reflexivity|]. split; [reflexivity|]. split; [exact EI|]. split; [apply FI|]. rewrite FI. f_equal.
  pose proof (inside_kept ri T RI ZI A) as AI. pose proof AI as (IA & IS & ID & IZ).
  set (d := vsub3 p pr). assert (DD : vsub3 (inside ri T p) (inside ri T pr) = inside ri T d) by (unfold d; rewrite (map_sub _ AI); reflexivity).
  replace (V (vx p - vx pr) (vy p - vy pr) 0) with (vsub3 d (vmul3 (vz d) ez)) by (apply vec_eq; unfold d, vsub3, vmul3, ez; cbn [vx vy vz]; ring).
  replace (V _ _ 0) with (vsub3 (inside ri T d) (vmul3 (vz d) ez)).
  2:{ rewrite <- DD. apply vec_eq; cbn [vx vy vz vsub3 vmul3 ez]; try ring. unfold vsub3, vmul3, ez. cbn [vx vy vz].
      replace (vz (inside ri T p)) with (vz p) by (symmetry; apply (map_vz _ AI)). replace (vz (inside ri T pr)) with (vz pr) by (symmetry; apply (map_vz _ AI)).
      unfold d, vsub3. cbn [vz]. ring. }
  replace (vmul3 (vz d) ez) with (inside ri T (vmul3 (vz d) ez)) at 1 by (rewrite IS, IZ; reflexivity). rewrite <- (map_sub _ AI).
  unfold inside. rewrite <- vm_mm. destruct RI as (_ & RI & _). rewrite RI. apply vm_eye.
Qed.
End Kept.

Lemma reflect_iso a : dot a a = 1 -> isometric (reflect a).
Proof.
  intros U. unfold reflect. split; [|split].
  - intros. vec_ring.
  - intros. vec_ring.
  - intros p q. transitivity (dot p q - 4 * dot a p * dot a q + 4 * dot a p * dot a q * dot a a); [vec_ring|]. rewrite U. ring.
Qed.
Lemma folded_keeps a e : dot a a = 1 -> folded a e -> keeps (reflect a) e.
Proof.
  intros U (O & N & F & D). assert (NZ : a <> v0) by (intros ->; unfold dot, v0 in U; cbn in U; lra).
  split; [apply reflect_fixed; assumption|]. exists N. split; [exact F|]. apply reflect_fixed; assumption.
Qed.
Lemma folded_all a es : dot a a = 1 -> Forall (folded a) es -> Forall (keeps (reflect a)) es.
Proof. intros U. apply Forall_impl. intros e. apply folded_keeps. exact U. Qed.

(** a system folded in the plane with normal [a]: mirrored rays meet the mirrored points in the mirrored directions after the same path *)
Theorem C112_mirrored newton a es y u Y W y' u' n l c k : dot a a = 1 -> physical l es -> Forall (folded a) es ->
  PropsSymmetry.launched es y u Y W -> PropsSymmetry.launched es y' u' (vsub3 Y (vmul3 (2 * dot a Y) a)) (vsub3 W (vmul3 (2 * dot a W) a)) ->
  let ray := geo_trace newton es y u n l c in let yar := geo_trace newton es y' u' n l c in
  (forall P, lab_point es k ray P -> lab_point es k yar (vsub3 P (vmul3 (2 * dot a P) a))) /\
  (forall D, lab_direction es k ray D -> lab_direction es k yar (vsub3 D (vmul3 (2 * dot a D) a))) /\
  optical_path k yar = optical_path k ray.
Proof.
  intros U G C L L' ray yar. destruct (C112_symmetric newton (reflect a) (reflect_iso a U) es y u Y W y' u' n l c k G (folded_all a es U C) L L') as (P & _ & D & _ & O). auto.
Qed.
(** rays launched in the plane stay in it *)
Theorem C112_in_plane newton a es y u Y W n l c k : dot a a = 1 -> physical l es -> Forall (folded a) es -> PropsSymmetry.launched es y u Y W ->
  dot a Y = 0 -> dot a W = 0 ->
  (forall P, lab_point es k (geo_trace newton es y u n l c) P -> dot a P = 0) /\ (forall D, lab_direction es k (geo_trace newton es y u n l c) D -> dot a D = 0).
Proof.
  intros U G C L AY AW. assert (NZ : a <> v0) by (intros ->; unfold dot, v0 in U; cbn in U; lra).
  assert (L' : PropsSymmetry.launched es y u (reflect a Y) (reflect a W)).
  { rewrite (proj2 (reflect_fixed a Y NZ) AY), (proj2 (reflect_fixed a W NZ) AW). exact L. }
  destruct (C112_mirrored newton a es y u Y W y u n l c k U G C L L') as (P1 & D1 & _).
  split.
  - intros P HP. apply (reflect_fixed a P NZ). specialize (P1 P HP). destruct HP as (e & o & s & p & q & E & O & S & SY & FY & ->). destruct P1 as (e' & o' & s' & p' & q' & E' & O' & S' & SY' & FY' & Q).
    unfold reflect. congruence.
  - intros D HD. apply (reflect_fixed a D NZ). specialize (D1 D HD). destruct HD as (e & s & p & E & S & SY & FY). destruct D1 as (e' & s' & p' & E' & S' & SY' & FY'). unfold reflect. congruence.
Qed.
(** the wave front error against a reference ray in the plane is even across the plane *)
Theorem C112_even newton es finite radius after image l scale a yr ur Yr Wr y u Y W y' u' n c px py waves : dot a a = 1 -> physical l es -> Forall (folded a) es ->
  PropsSymmetry.launched es yr ur Yr Wr -> dot a Yr = 0 -> dot a Wr = 0 ->
  PropsSymmetry.launched es y u Y W -> PropsSymmetry.launched es y' u' (vsub3 Y (vmul3 (2 * dot a Y) a)) (vsub3 W (vmul3 (2 * dot a W) a)) ->
  let ref := geo_trace newton es yr ur n l c in
  opd_ray es finite radius after image l scale ref (geo_trace newton es y u n l c) = Some (px, py, waves) ->
  exists px' py' i ei D, opd_ray es finite radius after image l scale ref (geo_trace newton es y' u' n l c) = Some (px', py', waves) /\
    pyindex (length es) image = Some i /\ nth_error es i = Some ei /\
    from_normal (e_place ei) (V px py 0) = Some D /\ from_normal (e_place ei) (V px' py' 0) = Some (vsub3 D (vmul3 (2 * dot a D) a)).
Proof.
  intros U G C LR AY AW L L' ref E. assert (NZ : a <> v0) by (intros ->; unfold dot, v0 in U; cbn in U; lra).
  assert (LR' : PropsSymmetry.launched es yr ur (reflect a Yr) (reflect a Wr)).
  { rewrite (proj2 (reflect_fixed a Yr NZ) AY), (proj2 (reflect_fixed a Wr NZ) AW). exact LR. }
  exact (C112_wavefront newton (reflect a) (reflect_iso a U) es finite radius after image l scale yr ur Yr Wr yr ur y u Y W y' u' n c px py waves G (folded_all a es U C) LR LR' L L' E).
Qed.

(** every element placed in the yz plane and tilted about x only is folded in this plane, within the rounding tolerances of [allclose] too *)
Lemma x_rotation t v r : vy v = 0 -> vz v = 0 -> rotation_matrix t v = Some r -> vm ex r = ex.
Proof.
  intros Y Z. unfold rotation_matrix. cbv zeta. destruct (unit_vector v) as [d|] eqn:U; [|discriminate]. cbn [obind]. intros E. injection E as <-.
  assert (V0 : v <> v0).
  { intros ->. unfold unit_vector in U. assert (N : norm v0 = 0) by (apply norm_zero; reflexivity). rewrite N in U. unfold fdiv in U. destruct (Req_EM_T 0 0); [discriminate|lra]. }
  destruct (unit_vector_some v V0) as (n & U' & D & E & En). rewrite U in U'. injection U' as <-.
  assert (D1 : vy d = 0) by (rewrite En; unfold vmul3; cbn [vy]; rewrite Y; ring). assert (D2 : vz d = 0) by (rewrite En; unfold vmul3; cbn [vz]; rewrite Z; ring).
  unfold dot in D. rewrite D1, D2 in D. apply vec_eq; unfold vm, ex, madd, mscale, outer, vmul3, vadd3, dot, col0, col1, col2; cbn [row0 row1 row2 vx vy vz]; rewrite ?D1, ?D2; try ring.
  replace (vx d * vx d) with 1 by lra. ring.
Qed.
Lemma x_euler a : vm ex (euler_matrix a 0 0 rxyz) = ex.
Proof.
  cbv [euler_matrix rxyz ax_frame ax_parity ax_rep ax_i ax_j ax_k ax_first next_axis b2n nth Nat.add Nat.sub].
  rewrite !Ropp_0, sin_0, cos_0. apply vec_eq; cbn; unfold dot, ex; cbn; ring.
Qed.
Lemma x_kept r v : rotation r -> vm ex r = ex -> vx (vm v r) = vx v.
Proof.
  intros R X. transitivity (dot (vm v r) ex); [unfold dot, ex; cbn [vx vy vz]; ring|]. transitivity (dot (vm v r) (vm ex r)); [rewrite X; reflexivity|].
  rewrite rotation_dot by exact R. unfold dot, ex; cbn [vx vy vz]; ring.
Qed.
Lemma placed_in_plane p a : normal_form p -> frame_ok p -> vx (p_direction p) = 0 -> p_angles p = V a 0 0 ->
  vx (p_offset p) = 0 /\ exists N, from_normal p ez = Some N /\ vx N = 0.
Proof.
  intros NF FO X AN. split; [destruct NF as (_ & _ & ->); unfold vmul3; cbn [vx]; rewrite X; ring|].
  destruct FO as (_ & _ & SA & SR). unfold from_normal, do_rotate. destruct (p_rotated p) eqn:RO; [|exists ez; split; reflexivity].
  destruct (SR eq_refl) as (r & -> & R & r1 & r2 & E & E1 & E2). eexists. split; [reflexivity|]. rewrite x_kept; [reflexivity|exact R|].
  rewrite E, vm_mm.
  assert (X1 : vm ex r1 = ex).
  { destruct (p_straight p); [subst r1; apply vm_eye|]. destruct (SA eq_refl) as (r' & E' & Q). rewrite E1 in E'. injection E' as <-. unfold axis_rotation in Q. cbv zeta in Q.
    refine (x_rotation _ _ _ _ _ Q); destruct (allclose _ _); unfold cross, ez, ex; cbn [vx vy vz]; rewrite ?X; ring. }
  rewrite X1, E2. destruct (p_normal p); [apply vm_eye|]. rewrite AN. cbn [vx vy vz]. apply x_euler.
Qed.
Lemma unit_in_plane d u : vx d = 0 -> unit_or_axis d = Some u -> vx u = 0.
Proof.
  intros X U. unfold unit_or_axis in U. destruct (Req_EM_T (norm d) 0) as [Z|Z]; rewrite !fdiv_some in U by (auto; lra); cbn [obind] in U; injection U as <-; unfold ez; cbn [vx]; [|rewrite X]; field; auto.
Qed.
Theorem C112_built distance direction tilt offset p rad kind : vx direction = 0 -> (forall o, offset = Some o -> vx o = 0) ->
  init distance direction (V tilt 0 0) offset = Some p -> good_place p /\ folded ex (El p rad kind).
Proof.
  intros X XO I. assert (UP : forall d u q, vx u = 0 -> update d u (V tilt 0 0) = Some q -> normal_form q /\ frame_ok q /\ vx (p_direction q) = 0 /\ p_angles q = V tilt 0 0).
  { intros d u q XU E. destruct (update_spec d u (V tilt 0 0)) as (q' & E' & NF & FO & AN & _ & w & UW & _ & DW). rewrite E in E'. injection E' as <-.
    split; [exact NF|]. split; [exact FO|]. split; [|exact AN]. pose proof (unit_in_plane u w XU UW) as XW. rewrite DW. destruct (Rlt_dec d 0); [unfold vmul3; cbn [vx]; rewrite XW; ring|exact XW]. }
  assert (K : normal_form p /\ frame_ok p /\ vx (p_direction p) = 0 /\ p_angles p = V tilt 0 0).
  { unfold init in I. destruct (update distance direction (V tilt 0 0)) as [q|] eqn:Q; [|discriminate]. cbn [obind] in I. destruct (UP _ _ _ X Q) as (_ & _ & _ & AQ).
    destruct offset as [o|]; [|injection I as <-; exact (UP _ _ _ X Q)]. specialize (XO o eq_refl). unfold set_offset in I. rewrite AQ in I.
    destruct (Req_EM_T (norm o) 0) as [Z|Z]; [exact (UP (norm o) ez p eq_refl I)|]. rewrite !fdiv_some in I by auto. cbn [obind] in I.
    refine (UP _ _ _ _ I). cbn [vx]. rewrite XO. field. auto. }
  destruct K as (NF & FO & XD & AN). split; [split; assumption|]. destruct (placed_in_plane p tilt NF FO XD AN) as (P1 & N & P2 & P3).
  unfold folded. cbn [e_place]. split; [unfold dot, ex; cbn [vx vy vz]; rewrite P1; ring|]. exists N. split; [exact P2|]. unfold dot, ex; cbn [vx vy vz]. rewrite P3. ring.
Qed.

(** * examples *)
(** a flat mirror at distance 5, tilted by 45 degrees about x, and two rays beside the plane of the fold *)
Definition tilted_mirror (p : placement) : list element := [PropsOpd.flat 0; El p None (Sph (Some (Material (fun _ => 1) true false)) (Surf 0 0 None false))].
Example C112_mirror_example newton : exists p, init 5 ez (V (PI / 4) 0 0) None = Some p /\ physical 1 (tilted_mirror p) /\ Forall (folded ex) (tilted_mirror p) /\
  dot ex ex = 1 /\ PropsSymmetry.launched (tilted_mirror p) (V 1 0 0) ez (V 1 0 0) ez /\
  PropsSymmetry.launched (tilted_mirror p) (V (-1) 0 0) ez (vsub3 (V 1 0 0) (vmul3 (2 * dot ex (V 1 0 0)) ex)) (vsub3 ez (vmul3 (2 * dot ex ez) ex)) /\
  lab_point (tilted_mirror p) 1 (geo_trace newton (tilted_mirror p) (V 1 0 0) ez 1 1 false) (V 1 0 5) /\
  lab_point (tilted_mirror p) 1 (geo_trace newton (tilted_mirror p) (V (-1) 0 0) ez 1 1 false) (V (-1) 0 5).
Proof.
  destruct (update_spec 5 ez (V (PI / 4) 0 0)) as (p & UP & NF & FO & AN & _ & u & UU & OF & DI).
  assert (IN : init 5 ez (V (PI / 4) 0 0) None = Some p) by (unfold init; rewrite UP; reflexivity).
  assert (E0 : u = ez). { destruct (unit_or_axis_spec ez) as (u' & U' & _ & _ & _ & UN). rewrite UU in U'. injection U' as <-. apply UN. vec_ring. }
  subst u. destruct (Rlt_dec 5 0) as [|_]; [lra|].
  destruct (C112_built 5 ez (PI / 4) None p None (Sph (Some (Material (fun _ => 1) true false)) (Surf 0 0 None false)) eq_refl ltac:(discriminate) IN) as (GP & FP).
  exists p. split; [exact IN|].
  assert (G : physical 1 (tilted_mirror p)).
  { apply Forall_cons; [split; [apply flat_good; lra|exact I]|]. apply Forall_cons; [|apply Forall_nil]. split; [exact GP|]. cbn. intros; discriminate. }
  assert (C : Forall (folded ex) (tilted_mirror p)).
  { apply Forall_cons; [|apply Forall_cons; [exact FP|apply Forall_nil]]. split; [unfold dot, ex; cbn; ring|]. exists ez. split; [reflexivity|unfold dot, ex, ez; cbn; ring]. }
  assert (U : dot ex ex = 1) by (unfold dot, ex; cbn [vx vy vz]; ring).
  assert (L : forall y v, PropsSymmetry.launched (tilted_mirror p) y v y v) by (intros y v; exists (PropsOpd.flat 0); repeat split).
  assert (R1 : vsub3 (V 1 0 0) (vmul3 (2 * dot ex (V 1 0 0)) ex) = V (-1) 0 0) by (apply vec_eq; unfold vsub3, vmul3, dot, ex; cbn [vx vy vz]; ring).
  assert (R2 : vsub3 ez (vmul3 (2 * dot ex ez) ex) = ez) by (apply vec_eq; unfold vsub3, vmul3, dot, ex, ez; cbn [vx vy vz]; ring).
  split; [exact G|]. split; [exact C|]. split; [exact U|]. split; [apply L|]. split; [rewrite R1, R2; apply L|].
  assert (HIT : lab_point (tilted_mirror p) 1 (geo_trace newton (tilted_mirror p) (V 1 0 0) ez 1 1 false) (V 1 0 5)).
  { destruct (normal_maps p GP) as (r & R & F & B).
    assert (XR : vm ex r = ex /\ vz (vm ez r) <> 0).
    { destruct FO as (ST & _ & SA & SR). unfold from_normal, do_rotate in F. destruct (p_rotated p) eqn:RO.
      - destruct (SR eq_refl) as (r0 & E & _ & r1 & r2 & Er & E1 & E2). rewrite E in F.
        assert (P1 : p_straight p = true) by (rewrite ST, DI; apply close_ez). rewrite P1 in E1. subst r1.
        assert (Fx : forall v, vm v r = vm v r2) by (intros v; specialize (F v); assert (Fv : vm v r = vm v r0) by congruence; rewrite Fv, Er, vm_mm, vm_eye; reflexivity).
        rewrite !Fx, E2. destruct (p_normal p); [rewrite !vm_eye; split; [reflexivity|unfold ez; cbn; lra]|]. rewrite AN. cbn [vx vy vz]. split; [apply x_euler|].
        replace (vz (vm ez (euler_matrix (PI / 4) 0 0 rxyz))) with (cos (PI / 4)); [apply Rgt_not_eq, cos_gt_0; pose proof PI_RGT_0; lra|].
        cbv [euler_matrix rxyz ax_frame ax_parity ax_rep ax_i ax_j ax_k ax_first next_axis b2n nth Nat.add Nat.sub]. rewrite !Ropp_0, sin_0, cos_0, cos_neg. cbn. unfold dot, ez; cbn. ring.
      - assert (F1 : vm ex r = ex) by (specialize (F ex); congruence). assert (F2 : vm ez r = ez) by (specialize (F ez); congruence). rewrite F1, F2. split; [reflexivity|unfold ez; cbn; lra]. }
    destruct XR as (XR & ZR).
    assert (XM : vm ex (mT r) = ex) by (rewrite <- XR at 1; apply vm_back; exact R).
    assert (ZM : vz (vm ez (mT r)) = vz (vm ez r)).
    { transitivity (dot (vm ez (mT r)) ez); [unfold dot, ez; cbn [vx vy vz]; ring|]. rewrite <- (rotation_dot r _ _ R). rewrite <- vm_mm. pose proof R as (_ & R' & _). rewrite R', vm_eye. unfold dot, ez; cbn [vx vy vz]; ring. }
    set (w := vm ez (mT r)) in *. unfold tilted_mirror. cbn [geo_trace]. change (from_normal (e_place (PropsOpd.flat 0)) ?y) with (Some y). cbn [sys_propagate onormal obind e_place]. rewrite !B. fold w.
    assert (Q : vm (vsub3 (V 1 0 0) (p_offset p)) (mT r) = vsub3 ex (vmul3 5 w)).
    { rewrite OF, vm_sub, vm_scale. fold w. f_equal. exact XM. }
    rewrite Q. unfold propagate. cbn [obind e_kind intercept s_asph]. unfold conic_intercept. cbn [s_c]. destruct (Req_EM_T 0 0); [|lra].
    rewrite fdiv_some by (rewrite ZM; exact ZR). cbn [obind].
    match goal with |- context [at_ray _ _ ?t] => replace t with 5 by (unfold vsub3, vmul3, ex; cbn [vx vy vz]; field; rewrite ZM; exact ZR) end.
    replace (at_ray (vsub3 ex (vmul3 5 w)) w 5) with ex by (unfold at_ray; vec_ring).
    unfold lab_point. cbn [nth_error]. destruct (get_n_mu _ _ _) as [n' mu]. do 5 eexists. split; [reflexivity|]. split; [reflexivity|]. split; [reflexivity|]. cbn [st_y]. split; [reflexivity|]. split; [cbn [e_place]; rewrite F, XR; reflexivity|].
    cbn [e_place]. rewrite OF. apply vec_eq; unfold vadd3, vmul3, v0, ez, ex; cbn; ring. }
  split; [exact HIT|].
  assert (L' : PropsSymmetry.launched (tilted_mirror p) (V (-1) 0 0) ez (vsub3 (V 1 0 0) (vmul3 (2 * dot ex (V 1 0 0)) ex)) (vsub3 ez (vmul3 (2 * dot ex ez) ex))) by (rewrite R1, R2; apply L).
  destruct (C112_mirrored newton ex _ (V 1 0 0) ez _ _ (V (-1) 0 0) ez 1 1 false 1 U G C (L _ _) L') as (M & _). specialize (M _ HIT).
  replace (vsub3 (V 1 0 5) (vmul3 (2 * dot ex (V 1 0 5)) ex)) with (V (-1) 0 5) in M by (apply vec_eq; unfold vsub3, vmul3, dot, ex; cbn [vx vy vz]; ring). exact M.
Qed.
(** the rays of C110_example, mirrored in the yz plane *)
Example C112_even_example newton : let es := [PropsOpd.flat 0; PropsOpd.flat 1] in let ref := geo_trace newton es v0 ez 1 (1/4) false in
  physical (1/4) es /\ Forall (folded ex) es /\ isometric (reflect ex) /\ Forall (keeps (reflect ex)) es /\ dot ex v0 = 0 /\ dot ex ez = 0 /\
  (exists x y, opd_ray es true 2 (-2) (-1) (1/4) 1 ref (geo_trace newton es (V (3/4) 0 0) (V (-3/5) 0 (4/5)) 1 (1/4) false) = Some (x, y, -1)) /\
  exists x y, opd_ray es true 2 (-2) (-1) (1/4) 1 ref (geo_trace newton es (V (-3/4) 0 0) (V (3/5) 0 (4/5)) 1 (1/4) false) = Some (x, y, -1).
Proof.
  cbv zeta. destruct (C110_example newton) as (G & _ & L & _ & _ & (x & y & O) & _). destruct C110_mirrored_example as (U & _ & D1 & D2 & L').
  set (es := [PropsOpd.flat 0; PropsOpd.flat 1]) in *.
  assert (C : Forall (folded ex) es).
  { apply Forall_cons; [|apply Forall_cons; [|apply Forall_nil]]; (split; [unfold dot, ex; cbn; ring|]; exists ez; split; [reflexivity|unfold dot, ex, ez; cbn; ring]). }
  split; [exact G|]. split; [exact C|]. split; [apply reflect_iso; exact U|]. split; [apply folded_all; assumption|]. split; [exact D1|]. split; [exact D2|].
  split; [exists x, y; exact O|].
  assert (LL : PropsSymmetry.launched es (V (3/4) 0 0) (V (-3/5) 0 (4/5)) (V (3/4) 0 0) (V (-3/5) 0 (4/5))) by (exists (PropsOpd.flat 0); repeat split).
  destruct (C112_even newton es true 2 (-2) (-1) (1/4) 1 ex v0 ez v0 ez _ _ _ _ (V (-3/4) 0 0) (V (3/5) 0 (4/5)) 1 false x y (-1) U G C L D1 D2 LL L' O) as (x' & y' & _ & _ & _ & E & _).
  exists x', y'. exact E.
Qed.
(** the mirror of C112_mirror_example set by its offset *)
Example C112_built_example : vx (V 0 3 4) = 0 /\ (forall o, Some (V 0 3 4) = Some o -> vx o = 0) /\ exists p, init 1 ez (V (PI / 4) 0 0) (Some (V 0 3 4)) = Some p /\ p_offset p = V 0 3 4.
Proof.
  split; [reflexivity|]. split; [intros o E; injection E as <-; reflexivity|]. unfold init. destruct (update_spec 1 ez (V (PI / 4) 0 0)) as (q & -> & _). cbn [obind].
  destruct (set_offset_spec q (V 0 3 4)) as (p & E & _ & _ & O & _). exists p. auto.
Qed.
Print Assumptions C112_symmetric.
Print Assumptions C112_mirrored.
Print Assumptions C112_in_plane.
Print Assumptions C112_wavefront.
Print Assumptions C112_even.
Print Assumptions C112_built.
