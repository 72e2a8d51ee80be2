(** Property C70: systems of revolution: turning or mirroring the light about the axis turns or mirrors everything that is traced,
    the skew invariant, rays in a plane with the axis. *)
From Coq Require Import Reals ZArith List Lra Lia Psatz FunctionalExtensionality.
From Verif Require Import Base Vec RotModel RotProofs PlacementModel PlacementProofs ElementModel ElementProofs TraceProofs
  PropsElement PropsTrace OpdModel PropsOpd PolyChain FirstOrder Hamilton Smooth PropsHamilton Bracket PropsBracket.
Import ListNotations.
Open Scope R_scope.

(** * specification *)
(** a rotation about the z axis or a reflection in a plane with the z axis *)
Definition about_axis (T : vec -> vec) : Prop :=
  (forall a b, T (vadd3 a b) = vadd3 (T a) (T b)) /\ (forall k a, T (vmul3 k a) = vmul3 k (T a)) /\ (forall a b, dot (T a) (T b) = dot a b) /\ T ez = ez.
(** the element stands on the z axis, facing either way *)
Definition coaxial (e : element) : Prop :=
  vx (p_offset (e_place e)) = 0 /\ vy (p_offset (e_place e)) = 0 /\ (from_normal (e_place e) ez = Some ez \/ from_normal (e_place e) ez = Some (vneg ez)).
(** the ray is launched at [y] along [u], given in the frame of the first element; in the lab this is [Y] and [W] *)
Definition launched (es : list element) (y u Y W : vec) : Prop := exists e, nth_error es 0 = Some e /\ from_normal (e_place e) y = Some Y /\ from_normal (e_place e) u = Some W.

(** * proofs *)
Section Map.
Variable T : vec -> vec.
Hypothesis H : about_axis T.
Let TA : forall a b, T (vadd3 a b) = vadd3 (T a) (T b) := proj1 H.
Let TS : forall k a, T (vmul3 k a) = vmul3 k (T a) := proj1 (proj2 H).
Let TD : forall a b, dot (T a) (T b) = dot a b := proj1 (proj2 (proj2 H)).
Let TZ : T ez = ez := proj2 (proj2 (proj2 H)).
Lemma sub_as a b : vsub3 a b = vadd3 a (vmul3 (-1) b). Proof. vec_ring. Qed.
Lemma map_sub a b : T (vsub3 a b) = vsub3 (T a) (T b).
Proof. rewrite !sub_as, TA, TS. reflexivity. Qed.
Lemma map_vz a : vz (T a) = vz a.
Proof.
  transitivity (dot (T a) ez); [unfold dot, ez; cbn [vx vy vz]; ring|]. transitivity (dot (T a) (T ez)); [rewrite TZ; reflexivity|]. rewrite TD. unfold dot, ez; cbn [vx vy vz]; ring.
Qed.
Lemma r2_dot a : r2_of a = dot a a - vz a * vz a. Proof. unfold r2_of, dot. ring. Qed.
Lemma map_r2 a : r2_of (T a) = r2_of a. Proof. rewrite !r2_dot, TD, map_vz. reflexivity. Qed.
Lemma map_at y u t : at_ray (T y) (T u) t = T (at_ray y u t).
Proof. unfold at_ray. rewrite TA, TS. reflexivity. Qed.
Lemma map_sag s p : surface_sag s (T p) = surface_sag s p.
Proof. unfold surface_sag. rewrite map_r2, map_vz. reflexivity. Qed.
Lemma radial p e : V (vx p * e) (vy p * e) 1 = vadd3 (vmul3 e (vsub3 p (vmul3 (vz p) ez))) ez.
Proof. apply vec_eq; unfold vadd3, vmul3, vsub3, ez; cbn [vx vy vz]; ring. Qed.
Lemma map_radial p e : V (vx (T p) * e) (vy (T p) * e) 1 = T (V (vx p * e) (vy p * e) 1).
Proof. rewrite !radial, map_vz, TA, TS, map_sub, TS, TZ. reflexivity. Qed.
Lemma map_normal s p : surface_normal s (T p) = (do N <- surface_normal s p; Some (T N)).
Proof.
  unfold surface_normal. rewrite map_r2. destruct (Req_EM_T (s_c s) 0).
  - destruct (s_asph s); cbn [obind]; [cbv zeta; rewrite map_radial; reflexivity|]. fold ez. rewrite TZ. reflexivity.
  - cbv zeta. destruct (fsqrt _); cbn [obind]; [|reflexivity]. destruct (fdiv _ _); cbn [obind]; [|reflexivity]. rewrite map_radial. reflexivity.
Qed.
Lemma map_conic s y u : conic_intercept s (T y) (T u) = conic_intercept s y u.
Proof.
  unfold conic_intercept. rewrite !map_vz. destruct (Req_EM_T (s_c s) 0); [reflexivity|]. destruct (Req_EM_T (s_k s) 0); [rewrite !TD; reflexivity|].
  assert (K : forall a b k, vx (T a) * vx (T b) * 1 + vy (T a) * vy (T b) * 1 + vz a * vz b * k = vx a * vx b * 1 + vy a * vy b * 1 + vz a * vz b * k).
  { intros a b k. pose proof (TD a b) as D. unfold dot in D. rewrite !map_vz in D. lra. }
  rewrite !K. reflexivity.
Qed.
Variable newton : (R -> option R) -> (R -> option R) -> option R -> option R.
Lemma map_intercept s y u : intercept newton s (T y) (T u) = intercept newton s y u.
Proof.
  unfold intercept. destruct (s_asph s); [|apply map_conic]. unfold newton_intercept. f_equal.
  - apply functional_extensionality. intros t. rewrite map_at. apply map_sag.
  - apply functional_extensionality. intros t. rewrite map_at, map_normal. destruct (surface_normal s (at_ray y u t)); cbn [obind]; [rewrite TD|]; reflexivity.
  - unfold plane_intercept. rewrite !map_vz. reflexivity.
Qed.
Definition omap (v : option vec) : option vec := do v <- v; Some (T v).
Lemma map_refract_normal u N mu : refract_normal (T u) (T N) mu = omap (refract_normal u N mu).
Proof.
  unfold refract_normal. rewrite !TD. destruct (fdiv _ _); cbn [obind omap]; [|reflexivity]. destruct (Req_EM_T mu (-1)).
  - cbn [obind omap]. unfold omap. cbn [obind]. rewrite map_sub, TS. reflexivity.
  - destruct (fdiv _ _); unfold omap; cbn [obind]; [|reflexivity]. destruct (fsqrt _); cbn [obind]; [|reflexivity]. rewrite TA, !TS. reflexivity.
Qed.
Lemma map_refract s y u mu : refract s (omap y) (omap u) mu = omap (refract s y u mu).
Proof.
  unfold refract. destruct (Req_EM_T mu 1); [reflexivity|]. destruct y as [y|]; cbn [omap obind]; [|reflexivity]. destruct u as [u|]; cbn [omap obind]; [|reflexivity].
  rewrite map_normal. destruct (surface_normal s y); cbn [obind]; [|reflexivity]. apply map_refract_normal.
Qed.
Lemma map_clip r y u : clip r (omap y) (omap u) = omap (clip r y u).
Proof. destruct y as [y|]; cbn [omap obind clip]; [|reflexivity]. destruct r as [r|]; [|reflexivity]. rewrite map_r2. destruct (Rle_dec _ _); reflexivity. Qed.
Lemma map_propagate e y u n l c : propagate newton e (omap y) (omap u) n l c =
  let '(y', u', n', t') := propagate newton e y u n l c in (omap y', omap u', n', t').
Proof.
  assert (TT : (do y0 <- omap y; do u0 <- omap u; match e_kind e with Plain => plane_intercept y0 u0 | Sph _ s => intercept newton s y0 u0 end) =
    (do y0 <- y; do u0 <- u; match e_kind e with Plain => plane_intercept y0 u0 | Sph _ s => intercept newton s y0 u0 end)).
  { destruct y as [y|]; [|reflexivity]. destruct u as [u|]; [|reflexivity]. cbn [omap obind]. destruct (e_kind e); [unfold plane_intercept; rewrite !map_vz; reflexivity|apply map_intercept]. }
  unfold propagate. rewrite TT. set (t := do y0 <- y; do u0 <- u; _). clearbody t.
  assert (YY : (do y0 <- omap y; do u0 <- omap u; do t0 <- t; Some (at_ray y0 u0 t0)) = omap (do y0 <- y; do u0 <- u; do t0 <- t; Some (at_ray y0 u0 t0))).
  { destruct y as [y|]; [|reflexivity]. destruct u as [u|]; [|reflexivity]. cbn [omap obind]. destruct t; [|reflexivity]. cbn [obind]. rewrite map_at. reflexivity. }
  rewrite YY. set (y' := do y0 <- y; do u0 <- u; _). clearbody y'.
  assert (UU : (if c then clip (e_radius e) (omap y') (omap u) else omap u) = omap (if c then clip (e_radius e) y' u else u)) by (destruct c; [apply map_clip|reflexivity]).
  rewrite UU. set (u' := if c then _ else u). clearbody u'. destruct (e_kind e) as [|m s]; [reflexivity|]. destruct (get_n_mu m n l) as [n' mu].
  destruct mu as [mu|]; [|reflexivity]. destruct (Req_EM_T mu 0); [reflexivity|]. rewrite map_refract. reflexivity.
Qed.
End Map.

(** the same map in the frame of a coaxial element *)
Definition inside (r : mat) (T : vec -> vec) (v : vec) : vec := vm (T (vm v r)) (mT r).
Lemma inside_axis r T : rotation r -> (vm ez r = ez \/ vm ez r = vneg ez) -> about_axis T -> about_axis (inside r T).
Proof.
  intros R Z (TA & TS & TD & TZ). unfold inside. split; [|split; [|split]].
  - intros a b. rewrite vm_add, TA, vm_add. reflexivity.
  - intros k a. rewrite vm_scale, TS, vm_scale. reflexivity.
  - intros a b. rewrite rotation_dot by (apply rotation_mT; auto). rewrite TD. apply rotation_dot. auto.
  - destruct Z as [Z|Z]; rewrite Z.
    + rewrite TZ. rewrite <- Z at 1. apply vm_back. auto.
    + replace (vneg ez) with (vmul3 (-1) ez) in * by (unfold vneg, vmul3, ez; cbn; f_equal; ring). rewrite TS, TZ. rewrite <- Z. apply vm_back. auto.
Qed.
Lemma coaxial_frame l e : good_element l e -> coaxial e -> exists r d, rotation r /\ (vm ez r = ez \/ vm ez r = vneg ez) /\ p_offset (e_place e) = vmul3 d ez /\
  (forall y, from_normal (e_place e) y = Some (vm y r)) /\ (forall y, to_normal (e_place e) y = Some (vm y (mT r))).
Proof.
  intros G (X & Y & Z). destruct (normal_maps _ (proj1 G)) as (r & R & F & T). exists r, (vz (p_offset (e_place e))). split; [exact R|]. split.
  - rewrite F in Z. destruct Z as [Z|Z]; [left|right]; congruence.
  - split; [|auto]. apply vec_eq; unfold vmul3, ez; cbn [vx vy vz]; rewrite ?X, ?Y; ring.
Qed.

Section Symmetry.
Variable newton : (R -> option R) -> (R -> option R) -> option R -> option R.
Notation trace := (geo_trace newton).

Lemma sys_map T l : about_axis T -> forall es y u n c i e s, physical l es -> Forall coaxial es -> nth_error es i = Some e -> nth_error (sys_propagate newton es y u n l c) i = Some s ->
  exists s', nth_error (sys_propagate newton es (omap T y) (omap T u) n l c) i = Some s' /\ st_n s' = st_n s /\ st_t s' = st_t s /\
    onormal (from_normal (e_place e)) (st_y s') = omap T (onormal (from_normal (e_place e)) (st_y s)) /\ onormal (from_normal (e_place e)) (st_u s') = omap T (onormal (from_normal (e_place e)) (st_u s)).
Proof.
  intros A. induction es as [|e0 es IH]; intros y u n c i e s G C E S; [destruct i; discriminate|].
  assert (GE : good_element l e0) by (inversion G; auto). assert (CE : coaxial e0) by (inversion C; auto).
  destruct (coaxial_frame _ _ GE CE) as (r & d & R & Z & O & F & B). pose proof (inside_axis r T R Z A) as A'. pose proof A as (TA & TS & TD & TZ).
  assert (F1 : forall v, onormal (from_normal (e_place e0)) (omap (inside r T) v) = omap T (onormal (from_normal (e_place e0)) v)).
  { intros [v|]; [|reflexivity]. unfold onormal, omap. cbn [obind]. rewrite !F. cbn [obind]. unfold inside. f_equal. assert (K : forall w, vm (vm w (mT r)) r = w) by (intros w; rewrite <- vm_mm; destruct R as (_ & R & _); rewrite R; apply vm_eye). apply K. }
  assert (B1 : forall v, onormal (to_normal (e_place e0)) (omap T v) = omap (inside r T) (onormal (to_normal (e_place e0)) v)).
  { intros [v|]; [|reflexivity]. unfold onormal, omap. cbn [obind]. rewrite !B. cbn [obind]. unfold inside. f_equal. f_equal. f_equal. symmetry. rewrite <- vm_mm. destruct R as (_ & R & _). rewrite R. apply vm_eye. }
  assert (Y1 : (do y <- omap T y; to_normal (e_place e0) (vsub3 y (p_offset (e_place e0)))) = omap (inside r T) (do y <- y; to_normal (e_place e0) (vsub3 y (p_offset (e_place e0))))).
  { destruct y as [y|]; [|reflexivity]. cbn [omap obind]. pose proof (B1 (Some (vsub3 y (p_offset (e_place e0))))) as Q. unfold onormal, omap in Q |- *. cbn [obind] in Q |- *. rewrite <- Q. f_equal.
    rewrite O, (map_sub T A), TS, TZ. reflexivity. }
  cbn [sys_propagate] in S |- *. rewrite Y1, B1, (map_propagate _ A').
  destruct (propagate newton e0 _ _ n l c) as [[[y1 u1] n1] t1]. destruct i as [|i]; cbn [nth_error] in *.
  - injection E as <-. injection S as <-. eexists. split; [reflexivity|]. cbn [st_n st_t st_y st_u]. split; [reflexivity|]. split; [reflexivity|]. split; apply F1.
  - rewrite !F1. apply IH with (s := s); auto; [inversion G; auto|inversion C; auto].
Qed.
Lemma cumsum_axis es : Forall coaxial es -> forall a i o, vx a = 0 -> vy a = 0 -> nth_error (cumsum3 a (map (fun e => p_offset (e_place e)) es)) i = Some o -> vx o = 0 /\ vy o = 0.
Proof.
  induction es as [|e es IH]; intros C a i o X Y E; [destruct i; discriminate|]. cbn [map cumsum3] in E. assert (CE : coaxial e) by (inversion C; auto). destruct CE as (A & B & _).
  assert (X' : vx (vadd3 a (p_offset (e_place e))) = 0) by (unfold vadd3; cbn [vx]; lra). assert (Y' : vy (vadd3 a (p_offset (e_place e))) = 0) by (unfold vadd3; cbn [vy]; lra).
  destruct i as [|i]; cbn [nth_error] in E; [injection E as <-; auto|]. eapply IH; eauto. inversion C; auto.
Qed.
Lemma origin_axis es i o : Forall coaxial es -> nth_error (origins es) i = Some o -> o = vmul3 (vz o) ez.
Proof. intros C E. destruct (cumsum_axis es C v0 i o eq_refl eq_refl E) as (X & Y). apply vec_eq; unfold vmul3, ez; cbn [vx vy vz]; lra. Qed.

(** * theorems *)
(** turned or mirrored light arrives at the turned or mirrored points, in the turned or mirrored directions, after the same path *)
Theorem C70_symmetric T es y u Y W y' u' n l c k : about_axis T -> physical l es -> Forall coaxial es ->
  launched es y u Y W -> launched es y' u' (T Y) (T W) ->
  let ray := trace es y u n l c in let yar := trace es y' u' n l c in
  (forall P, lab_point es k ray P -> lab_point es k yar (T P)) /\ (forall P', lab_point es k yar P' -> exists P, lab_point es k ray P /\ P' = T P) /\
  (forall D, lab_direction es k ray D -> lab_direction es k yar (T D)) /\ (forall D', lab_direction es k yar D' -> exists D, lab_direction es k ray D /\ D' = T D) /\
  optical_path k yar = optical_path k ray.
Proof.
  intros A G C (e0 & E0 & F0 & F1) (e0' & E0' & F0' & F1') ray yar. destruct es as [|e es]; [discriminate|]. injection E0 as <-. injection E0' as <-.
  assert (MAIN : forall i e1 s, nth_error (e :: es) i = Some e1 -> nth_error ray i = Some s -> exists s', nth_error yar i = Some s' /\ st_t s' = st_t s /\
    onormal (from_normal (e_place e1)) (st_y s') = omap T (onormal (from_normal (e_place e1)) (st_y s)) /\ onormal (from_normal (e_place e1)) (st_u s') = omap T (onormal (from_normal (e_place e1)) (st_u s))).
  { intros i e1 s E S. unfold ray, yar in *. cbn [geo_trace] in *. destruct i as [|i]; cbn [nth_error] in *.
    - injection E as <-. injection S as <-. eexists. split; [reflexivity|]. cbn [st_t st_y st_u onormal obind]. rewrite F0, F1, F0', F1'. cbn [omap obind]. auto.
    - rewrite F0, F1 in S. rewrite F0', F1'. destruct (sys_map T l A es (Some Y) (Some W) n c i e1 s) as (s' & S' & _ & Q); auto; [inversion G; auto|inversion C; auto|].
      exists s'. split; [exact S'|exact Q]. }
  assert (LEN : length yar = length ray).
  { unfold ray, yar. cbn [geo_trace length]. f_equal. rewrite F0, F1, F0', F1'. clear. generalize (Some (T Y)) (Some (T W)) (Some Y) (Some W) n. induction es as [|e2 es IH]; intros a b a' b' m; [reflexivity|]. cbn [sys_propagate].
    assert (N : forall y u, snd (fst (propagate newton e2 y u m l c)) = match e_kind e2 with Plain => m | Sph mt _ => fst (get_n_mu mt m l) end) by (intros p q; unfold propagate; destruct (e_kind e2); [reflexivity|]; destruct (get_n_mu mat m l) as [n' mu]; reflexivity).
    pose proof (N (do y <- a; to_normal (e_place e2) (vsub3 y (p_offset (e_place e2)))) (onormal (to_normal (e_place e2)) b)) as N1. pose proof (N (do y <- a'; to_normal (e_place e2) (vsub3 y (p_offset (e_place e2)))) (onormal (to_normal (e_place e2)) b')) as N2.
    destruct (propagate newton e2 _ (onormal _ b) m l c) as [[[y1 u1] n1] t1]. destruct (propagate newton e2 _ (onormal _ b') m l c) as [[[y2 u2] n2] t2]. cbn [fst snd] in *. rewrite <- N2 in N1. subst n2. cbn [length]. f_equal. apply IH. }
  assert (LR : length ray = length (e :: es)).
  { unfold ray. cbn [geo_trace length]. f_equal. clear. generalize (from_normal (e_place e) y) (from_normal (e_place e) u) n. induction es as [|e2 es IH]; intros a b m; [reflexivity|]. cbn [sys_propagate]. destruct (propagate newton e2 _ _ m l c) as [[[y1 u1] n1] t1]. cbn [length]. f_equal. apply IH. }
  pose proof A as (TA & TS & TD & TZ).
  assert (TO : forall o, nth_error (origins (e :: es)) k = Some o -> T o = o).
  { intros o O. rewrite (origin_axis _ _ _ C O) at 1. rewrite TS, TZ. symmetry. apply (origin_axis _ _ _ C O). }
  split; [|split; [|split; [|split]]].
  - intros P (e1 & o & s & p & q & E & O & S & SY & FY & ->). destruct (MAIN k e1 s E S) as (s' & S' & _ & QY & _). unfold onormal in QY. rewrite SY in QY. cbn [obind] in QY. rewrite FY in QY. cbn [omap obind] in QY.
    destruct (st_y s') as [p'|] eqn:SY'; cbn [obind] in QY; [|discriminate]. exists e1, o, s', p', (T q). repeat (split; [assumption|]). rewrite TA, (TO o O). reflexivity.
  - intros P (e1 & o & s & p & q & E & O & S & SY & FY & ->). destruct (nth_error ray k) as [s1|] eqn:S1; [|apply nth_error_None in S1; rewrite <- LEN in S1; apply nth_error_None in S1; congruence].
    destruct (MAIN k e1 s1 E S1) as (s' & S' & _ & QY & _). rewrite S in S'. injection S' as <-. unfold onormal in QY. rewrite SY in QY. cbn [obind] in QY. rewrite FY in QY.
    destruct (st_y s1) as [p1|] eqn:SY1; cbn [obind omap] in QY; [|discriminate]. destruct (from_normal (e_place e1) p1) as [q1|] eqn:FY1; cbn [obind omap] in QY; [|discriminate].
    injection QY as ->. exists (vadd3 o q1). split; [exists e1, o, s1, p1, q1; auto 10|]. rewrite TA, (TO o O). reflexivity.
  - intros D (e1 & s & v & E & S & SU & FU). destruct (MAIN k e1 s E S) as (s' & S' & _ & _ & QU). unfold onormal in QU. rewrite SU in QU. cbn [obind] in QU. rewrite FU in QU. cbn [omap obind] in QU.
    destruct (st_u s') as [v'|] eqn:SU'; cbn [obind] in QU; [|discriminate]. exists e1, s', v'. auto.
  - intros D (e1 & s & v & E & S & SU & FU). destruct (nth_error ray k) as [s1|] eqn:S1; [|apply nth_error_None in S1; rewrite <- LEN in S1; apply nth_error_None in S1; congruence].
    destruct (MAIN k e1 s1 E S1) as (s' & S' & _ & _ & QU). rewrite S in S'. injection S' as <-. unfold onormal in QU. rewrite SU in QU. cbn [obind] in QU. rewrite FU in QU.
    destruct (st_u s1) as [v1|] eqn:SU1; cbn [obind omap] in QU; [|discriminate]. destruct (from_normal (e_place e1) v1) as [q1|] eqn:FU1; cbn [obind omap] in QU; [|discriminate].
    injection QU as ->. exists q1. split; [exists e1, s1, v1; auto|reflexivity].
  - assert (TT : forall i, (do s <- nth_error yar i; st_t s) = (do s <- nth_error ray i; st_t s)).
    { intros i. destruct (nth_error ray i) as [s|] eqn:S.
      - assert (LI : (i < length (e :: es))%nat). { rewrite <- LR. apply nth_error_Some. congruence. }
        destruct (nth_error (e :: es) i) as [e1|] eqn:E; [|apply nth_error_None in E; lia]. destruct (MAIN i e1 s E S) as (s' & S' & Q & _). rewrite S'. cbn [obind]. exact Q.
      - apply nth_error_None in S. rewrite <- LEN in S. apply nth_error_None in S. rewrite S. reflexivity. }
    clear MAIN TO. induction k as [|k IH].
    + pose proof (TT 0%nat) as Q. unfold optical_path. destruct yar as [|a b], ray as [|a' b']; cbn [nth_error obind] in Q; auto; discriminate.
    + rewrite !optical_path_next, IH. specialize (TT (S k)). destruct (optical_path k ray); cbn [obind]; [|reflexivity].
      destruct (nth_error yar (S k)) as [s|]; destruct (nth_error ray (S k)) as [s'|]; cbn [obind] in *; [rewrite TT|rewrite TT|rewrite <- TT|]; reflexivity.
Qed.

(** a ray launched in a plane with the axis stays in this plane; [a] is a unit vector perpendicular to the plane *)
Definition reflect (a v : vec) : vec := vsub3 v (vmul3 (2 * dot a v) a).
Lemma reflect_axis a : dot a a = 1 -> vz a = 0 -> about_axis (reflect a).
Proof.
  intros U Z. unfold reflect. split; [|split; [|split]].
  - intros. vec_ring.
  - intros. vec_ring.
  - intros p q. transitivity (dot p q - 4 * dot a p * dot a q + 4 * dot a p * dot a q * dot a a); [vec_ring|]. rewrite U. ring.
  - apply vec_eq; unfold dot, ez, vsub3, vmul3; cbn [vx vy vz]; rewrite Z; ring.
Qed.
Lemma reflect_fixed a v : a <> v0 -> reflect a v = v <-> dot a v = 0.
Proof.
  intros NZ. split.
  - intros E. assert (D : dot a a <> 0) by (intros Q; apply dot_zero in Q; contradiction). apply (f_equal (dot a)) in E. unfold reflect in E.
    replace (dot a (vsub3 v (vmul3 (2 * dot a v) a))) with (dot a v - 2 * dot a v * dot a a) in E by vec_ring. assert (dot a v * dot a a = 0) by lra. apply Rmult_integral in H. tauto.
  - intros E. unfold reflect. rewrite E. vec_ring.
Qed.
Theorem C70_meridional es y u Y W a n l c k : physical l es -> Forall coaxial es -> launched es y u Y W ->
  dot a a = 1 -> vz a = 0 -> dot a Y = 0 -> dot a W = 0 ->
  (forall P, lab_point es k (trace es y u n l c) P -> dot a P = 0) /\ (forall D, lab_direction es k (trace es y u n l c) D -> dot a D = 0).
Proof.
  intros G C L U Z AY AW. assert (NZ : a <> v0) by (intros ->; unfold dot, v0 in U; cbn in U; lra).
  assert (L' : launched es y u (reflect a Y) (reflect a W)).
  { rewrite (proj2 (reflect_fixed a Y NZ) AY), (proj2 (reflect_fixed a W NZ) AW). exact L. }
  destruct (C70_symmetric (reflect a) es y u Y W y u n l c k (reflect_axis a U Z) G C L L') as (P1 & _ & D1 & _).
  split.
  - intros P HP. apply (reflect_fixed a P NZ). specialize (P1 P HP). destruct HP as (e & o & s & p & q & E & O & S & SY & FY & ->). destruct P1 as (e' & o' & s' & p' & q' & E' & O' & S' & SY' & FY' & ->).
    congruence.
  - intros D HD. apply (reflect_fixed a D NZ). specialize (D1 D HD). destruct HD as (e & s & p & E & S & SY & FY). destruct D1 as (e' & s' & p' & E' & S' & SY' & FY'). congruence.
Qed.

(** a ray on the axis stays on the axis *)
Theorem C70_axial es y u Y W n l c k : physical l es -> Forall coaxial es -> launched es y u Y W ->
  vx Y = 0 -> vy Y = 0 -> vx W = 0 -> vy W = 0 ->
  (forall P, lab_point es k (trace es y u n l c) P -> vx P = 0 /\ vy P = 0) /\ (forall D, lab_direction es k (trace es y u n l c) D -> vx D = 0 /\ vy D = 0).
Proof.
  intros G C L YX YY WX WY.
  destruct (C70_meridional es y u Y W ex n l c k G C L) as (A & B); try (unfold dot, ex; cbn [vx vy vz]; lra).
  destruct (C70_meridional es y u Y W ey n l c k G C L) as (A' & B'); try (unfold dot, ey; cbn [vx vy vz]; lra).
  split; intros p HP; [specialize (A p HP); specialize (A' p HP)|specialize (B p HP); specialize (B' p HP)]; unfold dot, ex, ey in *; cbn [vx vy vz] in *; lra.
Qed.

(** index times the moment of the ray about the axis is the same behind every element, aspheres and mirrors included *)
Definition moment (P U : vec) : R := vx P * vy U - vy P * vx U.
Lemma moment_cross P U : moment P U = dot (cross P U) ez. Proof. unfold moment, dot, cross, ez. cbn [vx vy vz]. ring. Qed.
Lemma moment_frame r P U s : rotation r -> vm ez r = vmul3 s ez -> moment (vm P r) (vm U r) = s * moment P U.
Proof.
  intros R Z. rewrite !moment_cross, rotation_cross by auto.
  assert (E : ez = vmul3 s (vm ez r)).
  { assert (S2 : s * s = 1).
    { pose proof (rotation_dot r ez ez R) as D. rewrite Z in D. unfold dot, vmul3, ez in D. cbn [vx vy vz] in D. lra. }
    rewrite Z. apply vec_eq; unfold vmul3, ez; cbn [vx vy vz]; lra. }
  rewrite E at 1. assert (K : forall a b, dot a (vmul3 s b) = s * dot a b) by (intros; vec_ring). rewrite K, rotation_dot by auto. reflexivity.
Qed.
Lemma moment_jump s p N w v n1 n2 : surface_normal s p = Some N -> cross (vsub3 (vmul3 n2 v) (vmul3 n1 w)) N = v0 -> n2 * moment p v = n1 * moment p w.
Proof.
  intros SN C. pose proof (along_up _ _ (normal_up _ _ _ SN) C) as E. rewrite (surface_normal_spec s p (normal_domain _ _ _ SN)) in SN. cbv zeta in SN.
  match type of SN with Some (V (_ * ?x) _ _) = _ => set (f := x) in SN end. clearbody f. injection SN as <-. set (g := vz _) in E.
  assert (X : n2 * vx v - n1 * vx w = g * (vx p * f)) by (apply (f_equal vx) in E; exact E). assert (Y : n2 * vy v - n1 * vy w = g * (vy p * f)) by (apply (f_equal vy) in E; exact E).
  unfold moment. replace (n2 * (vx p * vy v - vy p * vx v)) with (vx p * (n2 * vy v - n1 * vy w) - vy p * (n2 * vx v - n1 * vx w) + n1 * (vx p * vy w - vy p * vx w)) by ring. rewrite X, Y. ring.
Qed.
Theorem C70_skew es y u n l c k P U s : physical l es -> Forall coaxial es -> 0 < n -> dot u u = 1 ->
  let ray := trace es y u n l c in lab_point es k ray P -> lab_direction es k ray U -> nth_error ray k = Some s ->
  forall Y W, launched es y u Y W -> st_n s * moment P U = n * moment Y W.
Proof.
  intros G C N U1 ray. revert P U s. induction k as [|k IH]; intros P U s LP LD S Y W LA.
  - destruct LA as (e & E & F & F'). destruct LP as (e1 & o & s1 & p & q & E1 & O & S1 & SY & FY & ->). destruct LD as (e2 & s2 & v & E2 & S2 & SU & FU).
    destruct es as [|e0 es]; [discriminate|]. cbn in E, E1, E2. injection E as <-. injection E1 as <-. injection E2 as <-. unfold ray in *. cbn [geo_trace nth_error] in *. injection S as <-. injection S1 as <-. injection S2 as <-. cbn [st_y st_u st_n] in *.
    injection SY as <-. injection SU as <-. rewrite F in FY. injection FY as <-. rewrite F' in FU. injection FU as <-. f_equal.
    rewrite (origin_axis _ 0 o C O). unfold moment, vadd3, vmul3, ez. cbn [vx vy vz]. ring.
  - destruct LP as (e' & o' & s1 & p' & q' & E' & O' & S1 & SY & FY & ->). destruct LD as (e2 & s2 & v' & E2 & S2 & SU & FU). rewrite S in S1, S2. injection S1 as <-. injection S2 as <-. rewrite E' in E2. injection E2 as <-.
    destruct (nth_error es k) as [e|] eqn:E. 2: { apply nth_error_None in E. assert (H : (Datatypes.S k < length es)%nat) by (apply nth_error_Some; congruence). lia. }
    destruct (nth_error ray k) as [s0|] eqn:S0. 2: { apply nth_error_None in S0. assert (H : (Datatypes.S k < length ray)%nat) by (apply nth_error_Some; congruence). lia. }
    destruct (origins_some _ _ _ E) as (o & O).
    assert (GE : good_element l e) by (unfold physical in G; rewrite Forall_forall in G; apply G; eapply nth_error_In; eauto).
    assert (GE' : good_element l e') by (unfold physical in G; rewrite Forall_forall in G; apply G; eapply nth_error_In; eauto).
    assert (CE' : coaxial e') by (rewrite Forall_forall in C; apply C; eapply nth_error_In; eauto).
    destruct (normal_maps _ (proj1 GE)) as (r & RR & F & T). destruct (coaxial_frame _ _ GE' CE') as (r' & d & RR' & Z & _ & F' & T').
    destruct (C16_straight_lines newton es y u n l c k e e' s0 s o o' G N U1 E E' S0 S O O' p' SY) as (p & v & A & A' & B & t & SP & SV & FA & FB & FA' & UU & _ & LN).
    rewrite F in FA, FB. injection FA as <-. injection FB as <-. rewrite FA' in FY. injection FY as <-.
    rewrite <- (IH (vadd3 o (vm p r)) (vm v r) s0) with (Y := Y) (W := W); auto.
    2: { exists e, o, s0, p, (vm p r). auto 10. }
    2: { exists e, s0, v. auto. }
    rewrite F' in FA'. injection FA' as <-. rewrite F' in FU. injection FU as <-.
    (* the straight line *)
    assert (M1 : moment (vadd3 o (vm p r)) (vm v r) = moment (vadd3 o' (vm p' r')) (vm v r)).
    { replace (vadd3 o' (vm p' r')) with (vadd3 (vadd3 o (vm p r)) (vmul3 t (vm v r))) by (rewrite <- LN; generalize (vm p r) (vm p' r'); intros; vec_ring).
      generalize (vm p r) (vm v r). intros. unfold moment, vadd3, vmul3. cbn [vx vy vz]. ring. }
    rewrite M1. clear M1.
    assert (ZZ : exists sg, vm ez r' = vmul3 sg ez) by (destruct Z as [Z|Z]; [exists 1|exists (-1)]; rewrite Z; unfold vmul3, vneg, ez; cbn [vx vy vz]; f_equal; ring). destruct ZZ as (sg & ZZ).
    assert (OM : forall a b, moment (vadd3 o' a) b = moment a b) by (intros a b; rewrite (origin_axis _ _ _ C O'); unfold moment, vadd3, vmul3, ez; cbn [vx vy vz]; ring). rewrite !OM.
    set (w := vm (vm v r) (mT r')). assert (WW : vm v r = vm w r') by (unfold w; rewrite <- vm_mm; destruct RR' as (_ & RR' & _); rewrite RR'; symmetry; apply vm_eye).
    rewrite WW, !(moment_frame r' _ _ sg RR' ZZ).
    assert (II : st_i s = Some w).
    { rewrite (link newton es y u n l c k e e' s0 s E E' S0 S), SV. unfold onormal. cbn [obind]. rewrite F. cbn [obind]. apply T'. }
    destruct (C16_surface_laws newton es y u n l c k e e' s0 s v' G N U1 E E' S0 S ltac:(rewrite SY; discriminate) SU) as (w1 & p1 & IW & YP & LAW).
    rewrite II in IW. injection IW as <-. rewrite SY in YP. injection YP as <-. clearbody w.
    assert (JUMP : st_n s * moment p' v' = st_n s0 * moment p' w).
    { destruct (e_kind e') as [|[m|] sf]; [destruct LAW as (-> & ->); reflexivity| |destruct LAW as (-> & ->); reflexivity].
      destruct (m_mirror m).
      - destruct LAW as (M & SM & (_ & _ & CR & _) & NN). apply (moment_jump sf p' M w v'); [exact SM|]. rewrite NN.
        replace (cross (vsub3 (vmul3 (st_n s0) v') (vmul3 (st_n s0) w)) M) with (vmul3 (st_n s0) (vsub3 (cross v' M) (cross w M))) by vec_ring. rewrite CR. vec_ring.
      - destruct LAW as (NI & LAW). destruct (Req_EM_T (st_n s) (st_n s0)) as [Q|Q]; [rewrite LAW, Q; reflexivity|].
        destruct LAW as (M & SM & (_ & CR & _)). apply (moment_jump sf p' M w v'); [exact SM|].
        replace (cross (vsub3 (vmul3 (st_n s) v') (vmul3 (st_n s0) w)) M) with (vsub3 (vmul3 (st_n s) (cross v' M)) (vmul3 (st_n s0) (cross w M))) by vec_ring. rewrite CR. vec_ring. }
    transitivity (sg * (st_n s * moment p' v')); [ring|]. rewrite JUMP. ring.
Qed.
End Symmetry.

(** ** turning by any angle, and the concave mirror of C69 *)
Definition spin (a : R) (v : vec) : vec := V (cos a * vx v - sin a * vy v) (sin a * vx v + cos a * vy v) (vz v).
Lemma spin_axis a : about_axis (spin a).
Proof.
  pose proof (sin2_cos2 a) as S. unfold Rsqr in S. unfold spin. split; [|split; [|split]].
  - intros. apply vec_eq; unfold vadd3; cbn [vx vy vz]; ring.
  - intros. apply vec_eq; unfold vmul3; cbn [vx vy vz]; ring.
  - intros p q. unfold dot. cbn [vx vy vz]. transitivity ((sin a * sin a + cos a * cos a) * (vx p * vx q + vy p * vy q) + vz p * vz q); [ring|]. rewrite S. ring.
  - apply vec_eq; unfold ez; cbn [vx vy vz]; ring.
Qed.
Example C70_mirror a u : about_axis (spin a) /\ about_axis (reflect ex) /\ physical 1 mirror_box /\ Forall coaxial mirror_box /\
  launched mirror_box v0 u v0 u /\ launched mirror_box v0 (spin a u) (spin a v0) (spin a u) /\
  (dot u u = 1 -> 0 < vz u -> lab_point mirror_box 1 (returning u) (vmul3 5 u) /\ lab_direction mirror_box 2 (returning u) (vneg u)).
Proof.
  split; [apply spin_axis|]. split; [apply reflect_axis; unfold dot, ex; cbn; lra|]. split; [exact box_good|]. split.
  { apply Forall_cons; [split; [reflexivity|split; [reflexivity|left; reflexivity]]|]. apply Forall_cons; [split; [reflexivity|split; [reflexivity|left; reflexivity]]|]. apply Forall_cons; [|apply Forall_nil].
    split; [reflexivity|split; [reflexivity|right]]. rewrite (proj2 (back5_maps ez)). f_equal. unfold flip, vneg, ez; cbn [vx vy vz]; f_equal; ring. }
  split; [exists (flat 0); auto|]. split.
  { exists (flat 0). split; [reflexivity|]. split; [|reflexivity]. change (from_normal (e_place (flat 0)) v0) with (Some v0). f_equal. apply vec_eq; unfold spin, v0; cbn [vx vy vz]; ring. }
  intros U Z. split.
  - exists mirror5, (vadd3 (vadd3 v0 (V 0 0 0)) (V 0 0 5)). do 3 eexists. repeat (split; [reflexivity|]). apply vec_eq; unfold vadd3, vmul3, v0; cbn [vx vy vz]; ring.
  - exists back5. do 2 eexists. repeat (split; [reflexivity|]). rewrite (proj2 (back5_maps _)). f_equal. unfold flip, vneg; cbn [vx vy vz]; f_equal; ring.
Qed.
(** a skew ray through a plane glass surface *)
Definition block : element := El (e_place (flat 4)) None (Sph (Some (Material (fun _ => 39/25) false true)) (Surf 0 0 None false)).
Example C70_skew_ray newton : physical 1 [flat 0; block] /\ Forall coaxial [flat 0; block] /\
  geo_trace newton [flat 0; block] (V 2 0 0) (V 0 (3/5) (4/5)) 1 1 false =
    [Step (Some (V 2 0 0)) (Some (V 0 (3/5) (4/5))) 1 (Some (V 0 (3/5) (4/5))) (Some 0); Step (Some (V 2 3 0)) (Some (V 0 (5/13) (12/13))) (39/25) (Some (V 0 (3/5) (4/5))) (Some 5)] /\
  (39/25) * moment (V 2 3 4) (V 0 (5/13) (12/13)) = 1 * moment (V 2 0 0) (V 0 (3/5) (4/5)).
Proof.
  split. { unfold physical. apply Forall_cons; [split; [apply flat_good; lra|exact I]|]. apply Forall_cons; [|apply Forall_nil]. split; [exact (flat_good 4 ltac:(lra))|]. cbn. intros _. lra. }
  split. { apply Forall_cons; [split; [reflexivity|split; [reflexivity|left; reflexivity]]|]. apply Forall_cons; [split; [reflexivity|split; [reflexivity|left; reflexivity]]|apply Forall_nil]. }
  split; [|unfold moment; cbn [vx vy vz]; lra].
  cbn [geo_trace]. change (from_normal (e_place (flat 0)) ?y) with (Some y). cbn [sys_propagate onormal obind]. change (to_normal (e_place block) ?y) with (Some y). change (p_offset (e_place block)) with (V 0 0 4).
  unfold propagate. cbn [obind block e_kind intercept s_asph]. unfold conic_intercept. cbn [s_c s_k s_alt]. destruct (Req_EM_T 0 0); [|lra]. unfold vsub3. cbn [vx vy vz]. rewrite fdiv_some by lra. cbn [obind].
  replace (- (0 - 4) / (4 / 5)) with 5 by field. replace (at_ray (V (2 - 0) (0 - 0) (0 - 4)) (V 0 (3 / 5) (4 / 5)) 5) with (V 2 3 0) by (apply vec_eq; unfold at_ray, vadd3, vmul3; cbn [vx vy vz]; field).
  cbn [get_n_mu m_mirror m_index]. rewrite fdiv_some by lra. replace (1 / (39 / 25)) with (25/39) by field. destruct (Req_EM_T (25/39) 0); [lra|]. unfold refract. destruct (Req_EM_T (25/39) 1); [lra|]. cbn [obind].
  unfold surface_normal. cbn [s_c s_k s_asph]. destruct (Req_EM_T 0 0); [|lra]. cbn [obind]. unfold refract_normal, dot. cbn [vx vy vz]. rewrite (Rabs_pos_eq (25/39)) by lra. rewrite fdiv_some by lra. cbn [obind].
  destruct (Req_EM_T (25/39) (-1)); [lra|]. rewrite fdiv_some by lra. cbn [obind]. match goal with |- context [fsqrt ?x] => replace x with (12/13 * (12/13)) by field end. rewrite fsqrt_some by lra. rewrite (sqrt_is _ (12/13)) by lra. cbn [obind].
  unfold sign. destruct (Rlt_dec 0 (25/39)); [|lra]. replace (5 * 1) with 5 by ring.
  match goal with |- [_; Step _ (Some ?v) _ _ _] = _ => replace v with (V 0 (5/13) (12/13)) by (apply vec_eq; unfold vadd3, vmul3; cbn [vx vy vz]; field) end. reflexivity.
Qed.
