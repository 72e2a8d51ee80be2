(** Property C110: the wave front error of a coaxial system has the symmetry of the light: turned or mirrored rays have the same error. *)
From Coq Require Import Reals ZArith List Lra Lia Psatz.
From Verif Require Import Base Vec RotModel RotProofs PlacementModel PlacementProofs ElementModel ElementProofs TraceProofs
  PropsElement PropsTrace OpdModel PropsOpd PropsSymmetry.
Import ListNotations.
Open Scope R_scope.

Lemma list_ext {A} (a : list A) : forall b, (forall i, nth_error a i = nth_error b i) -> a = b.
Proof.
  induction a as [|x a IH]; intros [|y b] E; [reflexivity|specialize (E 0%nat); discriminate|specialize (E 0%nat); discriminate|].
  pose proof (E 0%nat) as Q. cbn in Q. injection Q as ->. f_equal. apply IH. intros i. exact (E (S i)).
Qed.

Section Wave.
Variable newton : (R -> option R) -> (R -> option R) -> option R -> option R.
Notation trace := (geo_trace newton).
Variable T : vec -> vec.
Hypothesis A : about_axis T.

Lemma ray_map es y u Y W y' u' n l c i e s : physical l es -> Forall coaxial es ->
  PropsSymmetry.launched es y u Y W -> PropsSymmetry.launched es y' u' (T Y) (T W) -> nth_error es i = Some e -> nth_error (trace es y u n l c) i = Some s ->
  exists s', nth_error (trace es y' u' n l c) i = Some s' /\ st_n s' = st_n s /\ st_t s' = st_t s /\
    onormal (from_normal (e_place e)) (st_y s') = omap T (onormal (from_normal (e_place e)) (st_y s)) /\
    onormal (from_normal (e_place e)) (st_u s') = omap T (onormal (from_normal (e_place e)) (st_u s)).
Proof.
  intros G C (e0 & E0 & F0 & F1) (e0' & E0' & F0' & F1') E S. destruct es as [|e1 es]; [discriminate|]. injection E0 as <-. injection E0' as <-.
  cbn [geo_trace] in *. destruct i as [|i]; cbn [nth_error] in *.
  - injection E as <-. injection S as <-. eexists. split; [reflexivity|]. cbn [st_t st_y st_u st_n onormal obind]. rewrite F0, F1, F0', F1'. cbn [omap obind]. auto.
  - rewrite F0, F1 in S. rewrite F0', F1'. inversion G; subst. inversion C; subst.
    exact (sys_map newton T l A es (Some Y) (Some W) n c i e s ltac:(assumption) ltac:(assumption) E S).
Qed.
(** in the frame of the element *)
Lemma turned_local r e (v v' : option vec) : rotation r -> (forall y, from_normal (e_place e) y = Some (vm y r)) ->
  onormal (from_normal (e_place e)) v' = omap T (onormal (from_normal (e_place e)) v) -> v' = omap (inside r T) v.
Proof.
  intros R F Q. destruct v as [v|], v' as [v'|]; unfold onormal, omap in *; cbn [obind] in *; rewrite ?F in Q; cbn [obind] in Q; try discriminate; [|reflexivity].
  assert (E : vm v' r = T (vm v r)) by congruence. f_equal. unfold inside. rewrite <- E. symmetry. apply vm_back. exact R.
Qed.
Lemma times_map es y u Y W y' u' n l c : physical l es -> Forall coaxial es ->
  PropsSymmetry.launched es y u Y W -> PropsSymmetry.launched es y' u' (T Y) (T W) ->
  map st_t (trace es y' u' n l c) = map st_t (trace es y u n l c).
Proof.
  intros G C L L'. apply list_ext. intros i. rewrite !nth_error_map.
  assert (LEN : forall a b, length (trace es a b n l c) = length es).
  { intros a b. destruct es; [reflexivity|]. cbn [geo_trace length]. rewrite length_sys. reflexivity. }
  destruct (nth_error (trace es y u n l c) i) as [s|] eqn:S.
  - assert (LI : (i < length es)%nat) by (rewrite <- (LEN y u); apply nth_error_Some; congruence).
    destruct (nth_error es i) as [e|] eqn:E; [|apply nth_error_None in E; lia].
    destruct (ray_map es y u Y W y' u' n l c i e s G C L L' E S) as (s' & -> & _ & Q & _). cbn [option_map]. rewrite Q. reflexivity.
  - apply nth_error_None in S. rewrite LEN, <- (LEN y' u') in S. apply nth_error_None in S. rewrite S. reflexivity.
Qed.
Lemma axis_fixed o : o = vmul3 (vz o) ez -> T o = o.
Proof. pose proof A as (_ & TS & _ & TZ). intros E. rewrite E at 1. rewrite TS, TZ. symmetry. exact E. Qed.

(** the point on the reference sphere is turned, its distance is not changed *)
Lemma point_turned ea ei ra ri oa oi yr radius y u :
  rotation ra -> (forall v, from_normal (e_place ea) v = Some (vm v ra)) ->
  rotation ri -> (vm ez ri = ez \/ vm ez ri = vneg ez) -> (forall v, to_normal (e_place ei) v = Some (vm v (mT ri))) ->
  oa = vmul3 (vz oa) ez -> oi = vmul3 (vz oi) ez ->
  sphere_point ea ei oa oi (inside ri T yr) radius (omap (inside ra T) y) (omap (inside ra T) u) =
  (do h <- sphere_point ea ei oa oi yr radius y u; Some (fst h, inside ri T (snd h))).
Proof.
  intros RA FA RI ZI BI OA OI. pose proof (inside_axis ri T RI ZI A) as AI. pose proof A as (TA & TS & TD & TZ). pose proof AI as (IA & IS & ID & IZ).
  unfold sphere_point, to_sphere. destruct y as [y|]; [|reflexivity]. destruct u as [u|]; [|reflexivity]. cbn [omap obind].
  rewrite !FA. cbn [obind]. rewrite !BI. cbn [obind].
  assert (KA : forall v, vm (inside ra T v) ra = T (vm v ra)).
  { intros v. unfold inside. rewrite <- vm_mm. destruct RA as (_ & RA & _). rewrite RA. apply vm_eye. }
  assert (KI : forall v, vm (T v) (mT ri) = inside ri T (vm v (mT ri))).
  { intros v. unfold inside. f_equal. f_equal. symmetry. rewrite <- vm_mm. destruct RI as (_ & RI & _). rewrite RI. apply vm_eye. }
  rewrite !KA, !KI.
  replace (vadd3 (T (vm y ra)) (vsub3 oa oi)) with (T (vadd3 (vm y ra) (vsub3 oa oi))).
  2:{ rewrite TA, (map_sub T A), (axis_fixed oa OA), (axis_fixed oi OI). reflexivity. }
  rewrite KI. set (p := vm (vadd3 (vm y ra) (vsub3 oa oi)) (mT ri)). set (w := vm (vm u ra) (mT ri)). clearbody p w.
  assert (UP : forall v d, V (vx v) (vy v) (vz v + d) = vadd3 v (vmul3 d ez)) by (intros v d; apply vec_eq; unfold vadd3, vmul3, ez; cbn [vx vy vz]; ring).
  assert (DN : forall v d, V (vx v) (vy v) (vz v - d) = vsub3 v (vmul3 d ez)) by (intros v d; apply vec_eq; unfold vsub3, vmul3, ez; cbn [vx vy vz]; ring).
  rewrite !UP. rewrite <- (map_sub _ AI).
  replace (vadd3 (inside ri T (vsub3 p yr)) (vmul3 radius ez)) with (inside ri T (vadd3 (vsub3 p yr) (vmul3 radius ez))).
  2:{ rewrite IA, IS, IZ. reflexivity. }
  set (q := vadd3 (vsub3 p yr) (vmul3 radius ez)).
  unfold sphere_hit. destruct (fdiv 1 radius) as [c|]; [|reflexivity]. cbn [obind]. rewrite (map_conic _ AI).
  destruct (conic_intercept _ q w) as [t|]; [|reflexivity]. cbn [obind fst snd]. rewrite !DN, (map_at _ AI), (map_sub _ AI), IS, IZ. reflexivity.
Qed.

(** * C110 *)
(** turned or mirrored light: same error in waves, pupil coordinates turned or mirrored (in the lab, as directions of the image frame) *)
Theorem C110_symmetric es finite radius after image l scale yr ur Yr Wr yr' ur' y u Y W y' u' n c px py waves : physical l es -> Forall coaxial es ->
  PropsSymmetry.launched es yr ur Yr Wr -> PropsSymmetry.launched es yr' ur' (T Yr) (T Wr) ->
  PropsSymmetry.launched es y u Y W -> PropsSymmetry.launched es y' u' (T Y) (T W) ->
  opd_ray es finite radius after image l scale (trace es yr ur n l c) (trace es y u n l c) = Some (px, py, waves) ->
  exists px' py' i ei D, opd_ray es finite radius after image l scale (trace es yr' ur' n l c) (trace es y' u' n l c) = Some (px', py', waves) /\
    pyindex (length es) image = Some i /\ nth_error es i = Some ei /\
    from_normal (e_place ei) (V px py 0) = Some D /\ from_normal (e_place ei) (V px' py' 0) = Some (T D).
Proof.
  intros G C LR LR' L L'. unfold opd_ray. rewrite <- !firstn_map.
  rewrite (times_map es yr ur Yr Wr yr' ur' n l c G C LR LR'), (times_map es y u Y W y' u' n l c G C L L').
  destruct (path_diff _ _) as [t|]; [|discriminate]. cbn [obind].
  destruct es as [|e0 es0]; [discriminate|]. set (es := e0 :: es0) in *.
  assert (N0 : forall a b, nth_error (trace es a b n l c) 0 = Some (Step (Some a) (Some b) n (Some b) (Some 0))) by (intros; reflexivity).
  unfold OpdModel.launched. rewrite !N0. cbn [obind st_y st_u st_n fst snd].
  assert (FR : forall j e, nth_error es j = Some e -> exists r, rotation r /\ (vm ez r = ez \/ vm ez r = vneg ez) /\
    (forall v, from_normal (e_place e) v = Some (vm v r)) /\ (forall v, to_normal (e_place e) v = Some (vm v (mT r)))).
  { intros j e E. destruct (coaxial_frame l e) as (r & d & R & Z & _ & F & B).
    - exact (proj1 (Forall_forall _ _) G e (nth_error_In _ _ E)).
    - exact (proj1 (Forall_forall _ _) C e (nth_error_In _ _ E)).
    - exists r. auto. }
  assert (LP : launch_path finite n y' yr' ur' = launch_path finite n y yr ur).
  { unfold launch_path. destruct finite; [reflexivity|]. f_equal. destruct (FR 0%nat e0 eq_refl) as (r & R & _ & F & _).
    destruct LR as (e & E & Q1 & Q2), LR' as (e' & E' & Q1' & Q2'), L as (e1 & E1 & Q3 & _), L' as (e1' & E1' & Q3' & _).
    cbn in E, E', E1, E1'. injection E as <-. injection E' as <-. injection E1 as <-. injection E1' as <-. rewrite F in Q1, Q2, Q1', Q2', Q3, Q3'.
    assert (V1 : vm yr' r = T (vm yr r)) by congruence. assert (V2 : vm ur' r = T (vm ur r)) by congruence. assert (V3 : vm y' r = T (vm y r)) by congruence.
    rewrite <- (rotation_dot r ur' _ R), <- (rotation_dot r ur _ R). rewrite !vm_sub, V1, V2, V3. rewrite <- (map_sub T A). apply A. }
  rewrite LP. destruct (pyindex (length es) after) as [a|]; [|discriminate]. cbn [obind]. destruct (pyindex (length es) image) as [i|] eqn:PI; [|discriminate]. cbn [obind].
  destruct (nth_error es a) as [ea|] eqn:EA; [|discriminate]. cbn [obind]. destruct (nth_error es i) as [ei|] eqn:EI; [|discriminate]. cbn [obind].
  destruct (nth_error (origins es) a) as [oa|] eqn:OA; [|discriminate]. cbn [obind]. destruct (nth_error (origins es) i) as [oi|] eqn:OI; [|discriminate]. cbn [obind].
  destruct (nth_error (trace es yr ur n l c) a) as [sr|] eqn:SR; [|discriminate]. cbn [obind]. destruct (nth_error (trace es y u n l c) a) as [s|] eqn:SA; [|discriminate]. cbn [obind].
  destruct (nth_error (trace es yr ur n l c) i) as [si|] eqn:SI; [|discriminate]. cbn [obind]. destruct (st_y si) as [yref|] eqn:YR; [|discriminate]. cbn [obind].
  destruct (ray_map es yr ur Yr Wr yr' ur' n l c a ea sr G C LR LR' EA SR) as (sr' & -> & NR & _ & QY & QU).
  destruct (ray_map es y u Y W y' u' n l c a ea s G C L L' EA SA) as (s' & -> & _ & _ & PY & PU).
  destruct (ray_map es yr ur Yr Wr yr' ur' n l c i ei si G C LR LR' EI SI) as (si' & -> & _ & _ & IY & _). cbn [obind].
  destruct (FR a ea EA) as (ra & RA & ZA & FA & BA). destruct (FR i ei EI) as (ri & RI & ZI & FI & BI).
  rewrite (turned_local ra ea _ _ RA FA QY), (turned_local ra ea _ _ RA FA QU), (turned_local ra ea _ _ RA FA PY), (turned_local ra ea _ _ RA FA PU).
  rewrite (turned_local ri ei _ _ RI FI IY), YR, NR. cbn [omap obind].
  pose proof (origin_axis _ _ _ C OA) as XA. pose proof (origin_axis _ _ _ C OI) as XI.
  rewrite !(point_turned ea ei ra ri oa oi yref radius) by assumption.
  destruct (sphere_point ea ei oa oi yref radius (st_y sr) (st_u sr)) as [[tr pr]|]; [|discriminate]. cbn [obind].
  destruct (sphere_point ea ei oa oi yref radius (st_y s) (st_u s)) as [[tp p]|]; [|discriminate]. cbn [obind fst snd].
  destruct (fdiv l scale) as [q|]; [|discriminate]. cbn [obind]. destruct (fdiv _ q) as [w|]; [|discriminate]. cbn [obind].
  intros E. injection E as <- <- <-. do 5 eexists. split; [reflexivity|]. split; [reflexivity|]. split; [exact EI|]. split; [apply FI|]. rewrite FI. f_equal.
  pose proof (inside_axis ri T RI ZI A) as AI. pose proof AI as (IA & IS & ID & IZ).
  set (d := vsub3 p pr). assert (DD : vsub3 (inside ri T p) (inside ri T pr) = inside ri T d) by (unfold d; rewrite (map_sub _ AI); reflexivity).
  replace (V (vx p - vx pr) (vy p - vy pr) 0) with (vsub3 d (vmul3 (vz d) ez)) by (apply vec_eq; unfold d, vsub3, vmul3, ez; cbn [vx vy vz]; ring).
  replace (V _ _ 0) with (vsub3 (inside ri T d) (vmul3 (vz d) ez)).
  2:{ rewrite <- DD. apply vec_eq; cbn [vx vy vz vsub3 vmul3 ez]; try ring. unfold vsub3, vmul3, ez. cbn [vx vy vz].
      replace (vz (inside ri T p)) with (vz p) by (symmetry; apply (map_vz _ AI)). replace (vz (inside ri T pr)) with (vz pr) by (symmetry; apply (map_vz _ AI)).
      unfold d, vsub3. cbn [vz]. ring. }
  replace (vmul3 (vz d) ez) with (inside ri T (vmul3 (vz d) ez)) at 1 by (rewrite IS, IZ; reflexivity). rewrite <- (map_sub _ AI).
  unfold inside. rewrite <- vm_mm. destruct RI as (_ & RI & _). rewrite RI. apply vm_eye.
Qed.
End Wave.

(** a turn about the axis takes a vector to any other of the same height and distance from the axis *)
Lemma turn_to w w' : r2_of w = r2_of w' -> vz w = vz w' -> exists T, about_axis T /\ T w = w'.
Proof.
  intros Q Z. destruct (Req_EM_T (r2_of w) 0) as [N | N].
  - exists (fun v => v). split; [split; [auto|split; auto]|]. rewrite N in Q.
    assert (ZZ : forall v, r2_of v = 0 -> vx v = 0 /\ vy v = 0).
    { intros v V0. unfold r2_of in V0. split; [apply (Rplus_sqr_eq_0_l (vx v) (vy v))|apply (Rplus_sqr_eq_0_l (vy v) (vx v))]; unfold Rsqr; lra. }
    destruct (ZZ w N) as (X1 & Y1). destruct (ZZ w' (eq_sym Q)) as (X2 & Y2). apply vec_eq; [lra|lra|exact Z].
  - set (r := r2_of w) in *. set (c := (vx w * vx w' + vy w * vy w') / r). set (s := (vx w * vy w' - vy w * vx w') / r).
    assert (CS : c * c + s * s = 1).
    { unfold c, s. transitivity (r2_of w * r2_of w' / (r * r)); [unfold r2_of; field; exact N|]. fold r. rewrite <- Q. field. exact N. }
    exists (fun v => V (c * vx v - s * vy v) (s * vx v + c * vy v) (vz v)). split; [split; [|split; [|split]]|].
    + intros. apply vec_eq; unfold vadd3; cbn [vx vy vz]; ring.
    + intros. apply vec_eq; unfold vmul3; cbn [vx vy vz]; ring.
    + intros p q. unfold dot. cbn [vx vy vz]. transitivity ((c * c + s * s) * (vx p * vx q + vy p * vy q) + vz p * vz q); [ring|]. rewrite CS. ring.
    + apply vec_eq; unfold ez; cbn [vx vy vz]; ring.
    + assert (RR : r = vx w * vx w + vy w * vy w) by (unfold r, r2_of; ring).
      apply vec_eq; cbn [vx vy vz]; [| |exact Z]; unfold c, s; apply Rmult_eq_reg_r with r; auto.
      * transitivity ((vx w * vx w + vy w * vy w) * vx w'); [field; exact N|]. rewrite <- RR. ring.
      * transitivity ((vx w * vx w + vy w * vy w) * vy w'); [field; exact N|]. rewrite <- RR. ring.
Qed.
Definition on_axis (v : vec) : Prop := vx v = 0 /\ vy v = 0.
Lemma fixed_axis T v : about_axis T -> on_axis v -> T v = v.
Proof. intros A (X & Y). apply (axis_fixed T A). apply vec_eq; unfold vmul3, ez; cbn [vx vy vz]; lra. Qed.

(** an object on the axis, near or at infinity, with the reference ray on the axis: the error depends only on the angle to the axis
    (or on the distance from it) at which the ray is launched *)
Theorem C110_axial newton es finite radius after image l scale yr ur Yr Wr y u Y W y' u' Y' W' n c px py waves : physical l es -> Forall coaxial es ->
  PropsSymmetry.launched es yr ur Yr Wr -> on_axis Yr -> on_axis Wr ->
  PropsSymmetry.launched es y u Y W -> PropsSymmetry.launched es y' u' Y' W' ->
  (on_axis Y /\ Y' = Y /\ r2_of W' = r2_of W /\ vz W' = vz W) \/ (on_axis W /\ W' = W /\ r2_of Y' = r2_of Y /\ vz Y' = vz Y) ->
  let ref := geo_trace newton es yr ur n l c in
  opd_ray es finite radius after image l scale ref (geo_trace newton es y u n l c) = Some (px, py, waves) ->
  exists px' py', opd_ray es finite radius after image l scale ref (geo_trace newton es y' u' n l c) = Some (px', py', waves) /\
    px' ^ 2 + py' ^ 2 = px ^ 2 + py ^ 2.
Proof.
  intros G C LR XR ZR L L' H ref E.
  assert (TT : exists T, about_axis T /\ T Y = Y' /\ T W = W').
  { destruct H as [(X & -> & Q & Z)|(X & -> & Q & Z)].
    - destruct (turn_to W W' (eq_sym Q) (eq_sym Z)) as (T & A & TW). exists T. split; [exact A|]. split; [apply fixed_axis; assumption|exact TW].
    - destruct (turn_to Y Y' (eq_sym Q) (eq_sym Z)) as (T & A & TY). exists T. split; [exact A|]. split; [exact TY|apply fixed_axis; assumption]. }
  destruct TT as (T & A & <- & <-).
  assert (LR' : PropsSymmetry.launched es yr ur (T Yr) (T Wr)) by (rewrite !fixed_axis by assumption; exact LR).
  destruct (C110_symmetric newton T A es finite radius after image l scale yr ur Yr Wr yr ur y u Y W y' u' n c px py waves G C LR LR' L L' E)
    as (px' & py' & i & ei & D & E' & _ & EI & F & F').
  exists px', py'. split; [exact E'|].
  destruct (coaxial_frame l ei) as (r & d & R & _ & _ & FR & _).
  { exact (proj1 (Forall_forall _ _) G ei (nth_error_In _ _ EI)). } { exact (proj1 (Forall_forall _ _) C ei (nth_error_In _ _ EI)). }
  rewrite FR in F, F'. injection F as F. injection F' as F'. destruct A as (_ & _ & TD & _). pose proof (TD D D) as Q. rewrite <- F' in Q. rewrite <- F in Q.
  rewrite !(rotation_dot r _ _ R) in Q. unfold dot in Q. cbn [vx vy vz] in Q. lra.
Qed.
(** an object point in a plane with the axis, normal [a], with the reference ray in this plane: rays mirrored in the plane have the same error *)
Theorem C110_mirrored newton es finite radius after image l scale a yr ur Yr Wr y u Y W y' u' n c px py waves : physical l es -> Forall coaxial es ->
  dot a a = 1 -> vz a = 0 -> PropsSymmetry.launched es yr ur Yr Wr -> dot a Yr = 0 -> dot a Wr = 0 ->
  PropsSymmetry.launched es y u Y W -> PropsSymmetry.launched es y' u' (vsub3 Y (vmul3 (2 * dot a Y) a)) (vsub3 W (vmul3 (2 * dot a W) a)) ->
  let ref := geo_trace newton es yr ur n l c in
  opd_ray es finite radius after image l scale ref (geo_trace newton es y u n l c) = Some (px, py, waves) ->
  exists px' py' i ei D, opd_ray es finite radius after image l scale ref (geo_trace newton es y' u' n l c) = Some (px', py', waves) /\
    pyindex (length es) image = Some i /\ nth_error es i = Some ei /\
    from_normal (e_place ei) (V px py 0) = Some D /\ from_normal (e_place ei) (V px' py' 0) = Some (vsub3 D (vmul3 (2 * dot a D) a)).
Proof.
  intros G C U Z LR AY AW L L' ref E. assert (NZ : a <> v0) by (intros ->; unfold dot, v0 in U; cbn in U; lra).
  assert (LR' : PropsSymmetry.launched es yr ur (reflect a Yr) (reflect a Wr)).
  { rewrite (proj2 (reflect_fixed a Yr NZ) AY), (proj2 (reflect_fixed a Wr NZ) AW). exact LR. }
  exact (C110_symmetric newton (reflect a) (reflect_axis a U Z) es finite radius after image l scale yr ur Yr Wr yr ur y u Y W y' u' n c px py waves G C LR LR' L L' E).
Qed.
Example C110_example newton : let es := [PropsOpd.flat 0; PropsOpd.flat 1] in
  physical (1/4) es /\ Forall coaxial es /\ PropsSymmetry.launched es v0 ez v0 ez /\ on_axis v0 /\ on_axis ez /\
  (exists x y, opd_ray es true 2 (-2) (-1) (1/4) 1 (geo_trace newton es v0 ez 1 (1/4) false)
    (geo_trace newton es (V (3/4) 0 0) (V (-3/5) 0 (4/5)) 1 (1/4) false) = Some (x, y, -1)) /\
  exists x' y', opd_ray es true 2 (-2) (-1) (1/4) 1 (geo_trace newton es v0 ez 1 (1/4) false)
    (geo_trace newton es (spin 1 (V (3/4) 0 0)) (spin 1 (V (-3/5) 0 (4/5))) 1 (1/4) false) = Some (x', y', -1).
Proof.
  cbv zeta. set (es := [PropsOpd.flat 0; PropsOpd.flat 1]).
  assert (G : physical (1/4) es) by (apply Forall_cons; [split; [apply flat_good; lra|exact I]|apply Forall_cons; [split; [apply flat_good; lra|exact I]|apply Forall_nil]]).
  assert (C : Forall coaxial es) by (apply Forall_cons; [split; [reflexivity|split; [reflexivity|left; reflexivity]]|apply Forall_cons; [split; [reflexivity|split; [reflexivity|left; reflexivity]]|apply Forall_nil]]).
  assert (L : forall y u, PropsSymmetry.launched es y u y u) by (intros; exists (PropsOpd.flat 0); repeat split).
  destruct C54_stigmatic_example as (_ & _ & _ & _ & _ & _ & _ & x & y & O).
  assert (GA : geo_trace newton es v0 ez 1 (1/4) false = axial_ray).
  { unfold es, axial_ray, geo_trace, sys_propagate. cbn. unfold plane_intercept. cbn. rewrite fdiv_some by lra. cbn. unfold at_ray. repeat (f_equal; try (apply vec_eq; cbn; lra); try lra). }
  assert (GT : geo_trace newton es (V (3/4) 0 0) (V (-3/5) 0 (4/5)) 1 (1/4) false = tilted_ray).
  { unfold es, tilted_ray, geo_trace, sys_propagate. cbn. unfold plane_intercept. cbn. rewrite fdiv_some by lra. cbn. unfold at_ray. repeat (f_equal; try (apply vec_eq; cbn; lra); try lra). }
  assert (O' : opd_ray es true 2 (-2) (-1) (1/4) 1 (geo_trace newton es v0 ez 1 (1/4) false)
    (geo_trace newton es (V (3/4) 0 0) (V (-3/5) 0 (4/5)) 1 (1/4) false) = Some (x, y, -1)) by (rewrite GA, GT; exact O).
  split; [exact G|]. split; [exact C|]. split; [apply L|]. split; [split; reflexivity|]. split; [split; reflexivity|]. split; [exists x, y; exact O'|].
  destruct (C110_symmetric newton (spin 1) (spin_axis 1) es true 2 (-2) (-1) (1/4) 1 v0 ez v0 ez v0 ez (V (3/4) 0 0) (V (-3/5) 0 (4/5)) (V (3/4) 0 0) (V (-3/5) 0 (4/5))
    (spin 1 (V (3/4) 0 0)) (spin 1 (V (-3/5) 0 (4/5))) 1 false x y (-1) G C (L _ _)) as (x' & y' & _ & _ & _ & E & _); auto.
  - rewrite !(fixed_axis (spin 1)) by (try apply spin_axis; split; reflexivity). apply L.
  - exists x', y'. exact E.
Qed.
(** light from infinity along the axis, sphere of radius one around the point one unit behind: the ray at height 3/5 meets it 1/5 later *)
Example C110_axial_example newton : let es := [PropsOpd.flat 0; PropsOpd.flat 1] in let ref := geo_trace newton es v0 ez 1 (1/4) false in
  physical (1/4) es /\ Forall coaxial es /\ PropsSymmetry.launched es v0 ez v0 ez /\ on_axis ez /\
  PropsSymmetry.launched es (V (3/5) 0 0) ez (V (3/5) 0 0) ez /\ PropsSymmetry.launched es (V 0 (3/5) 0) ez (V 0 (3/5) 0) ez /\
  r2_of (V 0 (3/5) 0) = r2_of (V (3/5) 0 0) /\
  opd_ray es false 1 (-2) (-1) (1/4) 1 ref (geo_trace newton es (V (3/5) 0 0) ez 1 (1/4) false) = Some (3/5, 0, -4/5) /\
  exists x y, opd_ray es false 1 (-2) (-1) (1/4) 1 ref (geo_trace newton es (V 0 (3/5) 0) ez 1 (1/4) false) = Some (x, y, -4/5).
Proof.
  cbv zeta. set (es := [PropsOpd.flat 0; PropsOpd.flat 1]).
  assert (G : physical (1/4) es) by (apply Forall_cons; [split; [apply flat_good; lra|exact I]|apply Forall_cons; [split; [apply flat_good; lra|exact I]|apply Forall_nil]]).
  assert (C : Forall coaxial es) by (apply Forall_cons; [split; [reflexivity|split; [reflexivity|left; reflexivity]]|apply Forall_cons; [split; [reflexivity|split; [reflexivity|left; reflexivity]]|apply Forall_nil]]).
  assert (L : forall y u, PropsSymmetry.launched es y u y u) by (intros; exists (PropsOpd.flat 0); repeat split).
  assert (RR : r2_of (V 0 (3/5) 0) = r2_of (V (3/5) 0 0)) by (unfold r2_of; cbn [vx vy]; ring).
  assert (AX : forall v, geo_trace newton es (V v 0 0) ez 1 (1/4) false = [Step (Some (V v 0 0)) (Some ez) 1 (Some ez) (Some 0); Step (Some (V v 0 0)) (Some ez) 1 (Some ez) (Some 1)]).
  { intros v. unfold es, geo_trace, sys_propagate. cbn. unfold plane_intercept. cbn. rewrite fdiv_some by lra. cbn. unfold at_ray. repeat (f_equal; try (apply vec_eq; cbn; lra); try lra). }
  assert (HIT : forall v g t, 0 <= g -> 1 - v * v = g * g -> t = 1 - g ->
    sphere_point (PropsOpd.flat 0) (PropsOpd.flat 1) (vadd3 v0 (V 0 0 0)) (vadd3 (vadd3 v0 (V 0 0 0)) (V 0 0 1)) (V 0 0 0) 1 (Some (V v 0 0)) (Some ez) = Some (t, V v 0 (t - 1))).
  { intros v g t P Q ->. unfold sphere_point, to_sphere. cbn [obind]. change (from_normal (e_place (PropsOpd.flat 0)) ?y) with (Some y). cbn [obind]. change (to_normal (e_place (PropsOpd.flat 1)) ?y) with (Some y). cbn [obind].
    unfold sphere_hit. rewrite fdiv_some by lra. cbn [obind]. unfold conic_intercept. cbn [s_c s_k s_alt]. destruct (Req_EM_T (1 / 1) 0); [lra|]. destruct (Req_EM_T 0 0); [|lra].
    match goal with |- context [fsqrt ?x] => replace x with (g * g) by (rewrite <- Q; unfold dot, ez, vadd3, vsub3, v0; cbn [vx vy vz]; field) end.
    rewrite fsqrt_some by nra. rewrite sqrt_square by assumption. cbn [obind]. rewrite fdiv_some by lra. cbn [obind]. unfold dot, ez, vadd3, vsub3, v0, at_ray, vmul3. cbn [vx vy vz].
    f_equal. f_equal; [field|]. unfold vadd3, vmul3. cbn [vx vy vz]. f_equal; field. }
  assert (O : opd_ray es false 1 (-2) (-1) (1/4) 1 (geo_trace newton es v0 ez 1 (1/4) false) (geo_trace newton es (V (3/5) 0 0) ez 1 (1/4) false) = Some (3/5, 0, -4/5)).
  { unfold v0 at 1. rewrite !AX. unfold opd_ray. change (pyend (length es) (-2 + 1)) with 1%nat. change (length es) with 2%nat. unfold es.
    cbn [firstn map path_diff st_t obind nth_error OpdModel.launched st_y st_u st_n fst snd].
    change (pyindex 2 (-2)) with (Some 0%nat). change (pyindex 2 (-1)) with (Some 1%nat). cbn [obind nth_error]. cbn [origins map cumsum3 nth_error obind st_y st_u st_n].
    change (p_offset (e_place (PropsOpd.flat 0))) with (V 0 0 0). change (p_offset (e_place (PropsOpd.flat 1))) with (V 0 0 1).
    rewrite (HIT 0 1 0) by lra. cbn [obind]. rewrite (HIT (3/5) (4/5) (1/5)) by lra. cbn [obind fst snd]. rewrite fdiv_some by lra. cbn [obind]. rewrite fdiv_some by lra. cbn [obind].
    unfold launch_path, dot, vsub3, ez. cbn [vx vy vz]. f_equal. f_equal; [f_equal; ring|field]. }
  split; [exact G|]. split; [exact C|]. split; [apply L|]. split; [split; reflexivity|]. split; [apply L|]. split; [apply L|]. split; [exact RR|]. split; [exact O|].
  destruct (C110_axial newton es false 1 (-2) (-1) (1/4) 1 v0 ez v0 ez (V (3/5) 0 0) ez (V (3/5) 0 0) ez (V 0 (3/5) 0) ez (V 0 (3/5) 0) ez 1 false (3/5) 0 (-4/5) G C (L _ _)) as (x & y & E & _); auto.
  - split; reflexivity.
  - split; reflexivity.
  - right. split; [split; reflexivity|]. auto.
  - exists x, y. exact E.
Qed.
(** the mirrored ray of C110_example: normal of the plane along x *)
Example C110_mirrored_example : let es := [PropsOpd.flat 0; PropsOpd.flat 1] in dot ex ex = 1 /\ vz ex = 0 /\ dot ex v0 = 0 /\ dot ex ez = 0 /\
  PropsSymmetry.launched es (V (-3/4) 0 0) (V (3/5) 0 (4/5)) (vsub3 (V (3/4) 0 0) (vmul3 (2 * dot ex (V (3/4) 0 0)) ex))
    (vsub3 (V (-3/5) 0 (4/5)) (vmul3 (2 * dot ex (V (-3/5) 0 (4/5))) ex)).
Proof.
  cbv zeta. repeat (split; [unfold dot, ex, ez, v0; cbn [vx vy vz]; ring|]). exists (PropsOpd.flat 0). split; [reflexivity|].
  change (from_normal (e_place (PropsOpd.flat 0)) ?y) with (Some y). split; f_equal; apply vec_eq; unfold vsub3, vmul3, dot, ex; cbn [vx vy vz]; field.
Qed.
Print Assumptions C110_symmetric.
Print Assumptions C110_axial.
Print Assumptions C110_mirrored.
