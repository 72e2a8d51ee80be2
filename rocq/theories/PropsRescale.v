(** Property C20: rescaling. *)
From Coq Require Import Reals List Lra Lia Psatz.
From Verif Require Import Base Vec RotModel RotProofs RotEuler PlacementModel PlacementProofs ElementModel ElementProofs TraceProofs PropsElement PropsTrace.
Import ListNotations.
Open Scope R_scope.

Lemma fsqrt_scale k x : 0 < k -> fsqrt (k * k * x) = (do r <- fsqrt x; Some (k * r)).
Proof.
  intros K. destruct (Rle_dec 0 x) as [L|L].
  - rewrite (fsqrt_some x) by auto. assert (KK : 0 <= k * k) by nra.
    rewrite fsqrt_some by (apply Rmult_le_pos; auto). cbn [obind]. f_equal.
    rewrite sqrt_mult by auto. rewrite sqrt_square; lra.
  - rewrite (fsqrt_none x) by lra. rewrite fsqrt_none; [reflexivity|].
    assert (X : x < 0) by lra. assert (KK : 0 < k * k) by nra. nra.
Qed.
Lemma fdiv_scale_l k a b : fdiv (k * a) b = (do r <- fdiv a b; Some (k * r)).
Proof.
  destruct (Req_EM_T b 0) as [-> | B].
  - rewrite !fdiv_zero. reflexivity.
  - rewrite !fdiv_some by auto. cbn [obind]. f_equal. field. auto.
Qed.
Lemma fdiv_scale_r k a b : k <> 0 -> fdiv a (b / k) = (do r <- fdiv a b; Some (k * r)).
Proof.
  intros K. destruct (Req_EM_T b 0) as [-> | B].
  - replace (0 / k) with 0 by (field; auto). rewrite !fdiv_zero. reflexivity.
  - rewrite !fdiv_some; auto.
    + cbn [obind]. f_equal. field. auto.
    + intros Z. apply B. apply (f_equal (fun z => z * k)) in Z. replace (b / k * k) with b in Z by (field; auto). lra.
Qed.

Section Scale.
Variable k : R.
Hypothesis K : 0 < k.
Notation sc := (vmul3 k).
Notation osc := (option_map (vmul3 k)).

Lemma r2_sc p : r2_of (sc p) = k * k * r2_of p.
Proof. unfold r2_of. cbn. ring. Qed.

Lemma even_poly_rescale a : forall j x,
  even_poly j (map (fun '(i, ai) => ai / k ^ (2 * i + 1)) (combine (seq j (length a)) a)) (k * k * x)
  = k * even_poly j a x.
Proof.
  induction a as [|b a IH]; intros j x; cbn [length seq combine map even_poly]; [ring|].
  rewrite IH. rewrite Rpow_mult_distr.
  assert (E : (k * k) ^ (j + 1) = k ^ (2 * j + 1) * k).
  { replace (k * k) with (k ^ 2) by ring. rewrite <- pow_mult.
    replace (2 * (j + 1))%nat with ((2 * j + 1) + 1)%nat by lia. rewrite pow_add. ring. }
  rewrite E. field. apply pow_nonzero. lra.
Qed.
Lemma asph_sag_rescale a x :
  asph_sag (map (fun '(i, ai) => ai / k ^ (2 * i + 1)) (combine (seq 0 (length a)) a)) (k * k * x)
  = k * asph_sag a x.
Proof. rewrite !asph_sag_spec. apply even_poly_rescale. Qed.
Lemma even_slope_rescale a : forall j x,
  even_slope j (map (fun '(i, ai) => ai / k ^ (2 * i + 1)) (combine (seq j (length a)) a)) (k * k * x)
  = even_slope j a x / k.
Proof.
  induction a as [|b a IH]; intros j x; cbn [length seq combine map even_slope]; [field; lra|].
  rewrite IH. rewrite Rpow_mult_distr.
  assert (E : (k * k) ^ j * k = k ^ (2 * j + 1)).
  { replace (k * k) with (k ^ 2) by ring. rewrite <- pow_mult, pow_add. ring. }
  rewrite <- E. field. split; [lra|]. apply pow_nonzero. nra.
Qed.
Lemma asph_slope_rescale a x :
  asph_slope (map (fun '(i, ai) => ai / k ^ (2 * i + 1)) (combine (seq 0 (length a)) a)) (k * k * x)
  = asph_slope a x / k.
Proof. rewrite !asph_slope_spec. apply even_slope_rescale. Qed.

Lemma cz s : s_c s / k = 0 <-> s_c s = 0.
Proof.
  split; intros H; [|rewrite H; field; lra].
  apply (f_equal (fun z => z * k)) in H. replace (s_c s / k * k) with (s_c s) in H by (field; lra). lra.
Qed.

Lemma sag_rescale s p : surface_sag (rescale_surf k s) (sc p) = option_map (Rmult k) (surface_sag s p).
Proof.
  unfold surface_sag. cbn [s_c s_k s_asph rescale_surf]. rewrite r2_sc.
  replace (1 - (1 + s_k s) * (s_c s / k) ^ 2 * (k * k * r2_of p)) with (1 - (1 + s_k s) * s_c s ^ 2 * r2_of p) by (field; lra).
  destruct (Req_EM_T (s_c s) 0) as [Z|Z]; destruct (Req_EM_T (s_c s / k) 0) as [Z'|Z'];
    try (exfalso; rewrite cz in Z'; contradiction); try (exfalso; apply Z', cz; assumption).
  - destruct (s_asph s) as [a|]; cbn [option_map]; [rewrite asph_sag_rescale|]; f_equal; cbn; ring.
  - destruct (fsqrt _) as [w|]; cbn [obind option_map]; [|reflexivity].
    replace (s_c s / k * (k * k * r2_of p)) with (k * (s_c s * r2_of p)) by (field; lra).
    rewrite fdiv_scale_l. destruct (fdiv _ _) as [q|]; cbn [obind option_map]; [|reflexivity].
    destruct (s_asph s) as [a|]; cbn [option_map]; [rewrite asph_sag_rescale|]; f_equal; cbn; ring.
Qed.

Lemma normal_rescale s p : surface_normal (rescale_surf k s) (sc p) = surface_normal s p.
Proof.
  unfold surface_normal. cbn [s_c s_k s_asph rescale_surf]. rewrite r2_sc.
  replace (1 - (1 + s_k s) * (s_c s / k) ^ 2 * (k * k * r2_of p)) with (1 - (1 + s_k s) * s_c s ^ 2 * r2_of p) by (field; lra).
  destruct (Req_EM_T (s_c s) 0) as [Z|Z]; destruct (Req_EM_T (s_c s / k) 0) as [Z'|Z'];
    try (exfalso; rewrite cz in Z'; contradiction); try (exfalso; apply Z', cz; assumption).
  - destruct (s_asph s) as [a|]; [|reflexivity]. rewrite asph_slope_rescale. f_equal.
    apply vec_eq; cbn; field; lra.
  - destruct (fsqrt _) as [w|]; cbn [obind]; [|reflexivity].
    replace (s_c s / k) with (/ k * s_c s) by (field; lra).
    rewrite fdiv_scale_l. destruct (fdiv _ _) as [q|]; cbn [obind]; [|reflexivity].
    f_equal. destruct (s_asph s) as [a|]; [rewrite asph_slope_rescale|]; apply vec_eq; cbn; field; lra.
Qed.

Lemma plane_rescale y u : plane_intercept (sc y) u = option_map (Rmult k) (plane_intercept y u).
Proof.
  unfold plane_intercept. cbn [vz vmul3]. replace (- (k * vz y)) with (k * - vz y) by ring.
  rewrite fdiv_scale_l. destruct (fdiv _ _); reflexivity.
Qed.

Lemma conic_rescale s y u : conic_intercept (rescale_surf k s) (sc y) u = option_map (Rmult k) (conic_intercept s y u).
Proof.
  unfold conic_intercept. cbn [s_c s_k s_alt rescale_surf].
  destruct (Req_EM_T (s_c s) 0) as [Z|Z]; destruct (Req_EM_T (s_c s / k) 0) as [Z'|Z'];
    try (exfalso; rewrite cz in Z'; contradiction); try (exfalso; apply Z', cz; assumption).
  { apply (plane_rescale y u). }
  assert (G : forall uy uu yy,
    (do g <- fsqrt ((s_c s / k * (k * uy) - vz u) * (s_c s / k * (k * uy) - vz u) - s_c s / k * uu * (s_c s / k * (k * k * yy) - 2 * vz (sc y)));
     let g := if s_alt s then g * -1 else g in fdiv (- (s_c s / k * (k * uy) - vz u + g)) (s_c s / k * uu)) =
    option_map (Rmult k)
    (do g <- fsqrt ((s_c s * uy - vz u) * (s_c s * uy - vz u) - s_c s * uu * (s_c s * yy - 2 * vz y));
     let g := if s_alt s then g * -1 else g in fdiv (- (s_c s * uy - vz u + g)) (s_c s * uu))).
  { intros uy uu yy. cbn [vz vmul3].
    replace ((s_c s / k * (k * uy) - vz u) * (s_c s / k * (k * uy) - vz u) - s_c s / k * uu * (s_c s / k * (k * k * yy) - 2 * (k * vz y)))
      with ((s_c s * uy - vz u) * (s_c s * uy - vz u) - s_c s * uu * (s_c s * yy - 2 * vz y)) by (field; lra).
    destruct (fsqrt _) as [g|]; cbn [obind option_map]; [|reflexivity].
    replace (s_c s / k * (k * uy)) with (s_c s * uy) by (field; lra).
    replace (s_c s / k * uu) with (s_c s * uu / k) by (field; lra).
    cbv zeta. rewrite fdiv_scale_r by lra. destruct (fdiv _ _); reflexivity. }
  destruct (Req_EM_T (s_k s) 0).
  - specialize (G (dot u y) 1 (dot y y)).
    replace (dot u (sc y)) with (k * dot u y) by vec_ring.
    replace (dot (sc y) (sc y)) with (k * k * dot y y) by vec_ring. exact G.
  - set (uy := vx u * vx y * 1 + vy u * vy y * 1 + vz u * vz y * (1 + s_k s)).
    set (uu := vx u * vx u * 1 + vy u * vy u * 1 + vz u * vz u * (1 + s_k s)).
    set (yy := vx y * vx y * 1 + vy y * vy y * 1 + vz y * vz y * (1 + s_k s)).
    specialize (G uy uu yy).
    replace (vx u * vx (sc y) * 1 + vy u * vy (sc y) * 1 + vz u * vz (sc y) * (1 + s_k s)) with (k * uy) by (unfold uy; cbn; ring).
    replace (vx (sc y) * vx (sc y) * 1 + vy (sc y) * vy (sc y) * 1 + vz (sc y) * vz (sc y) * (1 + s_k s)) with (k * k * yy) by (unfold yy; cbn; ring).
    exact G.
Qed.

(** the root finder is used only through function values; a rescaled problem has
    the rescaled root *)
Definition scale_free (newton : (R -> option R) -> (R -> option R) -> option R -> option R) : Prop :=
  forall f f' g g' x0, (forall t, g (k * t) = option_map (Rmult k) (f t)) ->
    (forall t, g' (k * t) = f' t) ->
    newton g g' (option_map (Rmult k) x0) = option_map (Rmult k) (newton f f' x0).

Variable newton : (R -> option R) -> (R -> option R) -> option R -> option R.
Definition tractable (e : element) : Prop :=
  match e_kind e with Plain => True | Sph _ s => s_asph s = None \/ scale_free newton end.

Lemma at_ray_sc y u t : at_ray (sc y) u (k * t) = sc (at_ray y u t).
Proof. unfold at_ray. vec_ring. Qed.

Lemma intercept_rescale s y u : s_asph s = None \/ scale_free newton ->
  intercept newton (rescale_surf k s) (sc y) u = option_map (Rmult k) (intercept newton s y u).
Proof.
  intros T. unfold intercept. cbn [s_asph rescale_surf]. destruct (s_asph s) as [a|] eqn:A.
  - destruct T as [T|T]; [discriminate|]. unfold newton_intercept. rewrite plane_rescale. apply T.
    + intros t. rewrite at_ray_sc. apply sag_rescale.
    + intros t. rewrite at_ray_sc, normal_rescale. reflexivity.
  - apply conic_rescale.
Qed.

(** rescaled element: same rotations, scaled offset *)
Lemma rescale_place p : normal_form p -> frame_ok p -> update (p_distance p) (p_direction p) (p_angles p) = Some p ->
  exists q, set_distance p (p_distance p * k) = Some q /\ p_distance q = p_distance p * k /\
    p_direction q = p_direction p /\ p_angles q = p_angles p /\
    p_offset q = sc (p_offset p) /\ p_rot_axis q = p_rot_axis p /\ p_rot_normal q = p_rot_normal p /\
    p_straight q = p_straight p /\ p_normal q = p_normal p /\
    update (p_distance q) (p_direction q) (p_angles q) = Some q.
Proof.
  intros (D & U & O) _ C. unfold set_distance.
  destruct (unit_or_axis_spec (p_direction p)) as (u & HU & _ & _ & _ & UN). rewrite (UN U) in HU. clear UN u.
  assert (DK : 0 <= p_distance p * k) by nra.
  unfold update in *. rewrite HU in *. cbn [obind] in *.
  destruct (Rlt_dec (p_distance p) 0); [lra|]. destruct (Rlt_dec (p_distance p * k) 0); [lra|].
  assert (OS : vmul3 (p_distance p * k) (p_direction p) = sc (p_offset p)).
  { rewrite O. vec_ring. }
  assert (FIN : forall st no ra rn, Some (Placement (p_distance p) (p_direction p) (vmul3 (p_distance p) (p_direction p)) (p_angles p) st no ra rn) = Some p ->
    p_straight p = st /\ p_normal p = no /\ p_rot_axis p = ra /\ p_rot_normal p = rn).
  { intros st no ra rn E. injection E as E. rewrite <- E. auto. }
  destruct (allclose (p_angles p) v0) eqn:AN; destruct (allclose (p_direction p) ez) eqn:AS; cbn [andb] in *;
    try (destruct (axis_rotation (p_direction p)) as [r1|] eqn:AR; [|discriminate]; cbn [obind] in * );
    apply FIN in C; destruct C as (C1 & C2 & C3 & C4);
    (eexists; split; [reflexivity|]);
    cbn [p_distance p_direction p_offset p_angles p_straight p_normal p_rot_axis p_rot_normal];
    rewrite C1, C2, C3, C4; repeat (split; [solve [auto]|]);
    rewrite HU; cbn [obind]; destruct (Rlt_dec (p_distance p * k) 0); try lra;
    rewrite AN, AS; cbn [andb]; try rewrite AR; reflexivity.
Qed.
End Scale.

(** placements produced by [update] (hence by every setter) *)
Definition updated (p : placement) : Prop := exists d u a, update d u a = Some p.

Lemma updated_fix p : updated p -> normal_form p /\ frame_ok p /\ update (p_distance p) (p_direction p) (p_angles p) = Some p.
Proof.
  intros (d & u & a & E). destruct (update_spec d u a) as (q & E' & NF & FO & A & DI & w & HU & OF & DR).
  rewrite E in E'. injection E' as <-. split; [auto|]. split; [auto|].
  rewrite DI, DR, A. unfold update in *. rewrite HU in E. cbn [obind] in E.
  assert (W : dot w w = 1).
  { destruct (unit_or_axis_spec u) as (w' & HU' & W & _). rewrite HU in HU'. injection HU' as <-. auto. }
  set (w' := if Rlt_dec d 0 then vmul3 (-1) w else w) in *.
  assert (W' : dot w' w' = 1).
  { unfold w'. destruct (Rlt_dec d 0); [|auto]. rewrite dot_scale_l, dot_scale_r. lra. }
  destruct (unit_or_axis_spec w') as (z & HZ & _ & _ & _ & UN). rewrite (UN W') in HZ. rewrite HZ. cbn [obind].
  destruct (Rlt_dec (Rabs d) 0) as [L|L]; [pose proof (Rabs_pos d); lra|].
  unfold w' in *. unfold Rabs. destruct (Rlt_dec d 0) as [L'|L'].
  - destruct (Rcase_abs d); [|lra]. replace (- d) with (d * -1) by ring. exact E.
  - destruct (Rcase_abs d); [lra|]. exact E.
Qed.

Lemma setters_updated s p q : apply_setter s p = Some q -> updated q.
Proof.
  destruct s; cbn [apply_setter]; unfold set_distance, set_direction, set_angles, set_offset, updated; eauto.
  destruct (Req_EM_T _ 0); [eauto|].
  intros H. destruct (fdiv (vx o) _) as [x|]; [|discriminate]. destruct (fdiv (vy o) _) as [y|]; [|discriminate].
  destruct (fdiv (vz o) _) as [z|]; [|discriminate]. cbn [obind] in H. eauto.
Qed.

Section Trace.
Variable k : R.
Hypothesis K : 0 < k.
Variable newton : (R -> option R) -> (R -> option R) -> option R -> option R.
Notation sc := (vmul3 k).
Notation osc := (option_map (vmul3 k)).
Notation tractable := (tractable k newton).

Definition scaled_step (s : step) : step :=
  Step (osc (st_y s)) (st_u s) (st_n s) (st_i s) (option_map (Rmult k) (st_t s)).

Lemma clip_rescale r y u :
  clip (match r with None => None | Some r => Some (r * k) end) (osc y) u = clip r y u.
Proof.
  unfold clip. destruct y as [y|]; cbn [option_map]; [|reflexivity]. destruct r as [r|]; [|reflexivity].
  rewrite r2_sc. destruct (Rle_dec (r2_of y) (r * r)), (Rle_dec (k * k * r2_of y) (r * k * (r * k))); auto; exfalso.
  - apply n. replace (r * k * (r * k)) with (k * k * (r * r)) by ring. apply Rmult_le_compat_l; nra.
  - apply n. apply Rmult_le_reg_l with (k * k); [nra|]. lra.
Qed.

Lemma propagate_rescale e e' y u n l c y1 u1 n1 t1 : tractable e -> rescale_element k e = Some e' ->
  propagate newton e y u n l c = (y1, u1, n1, t1) ->
  propagate newton e' (osc y) u n l c = (osc y1, u1, n1, option_map (Rmult k) t1).
Proof.
  intros T RE. unfold rescale_element in RE.
  destruct (set_distance _ _) as [q|]; [|discriminate]. cbn [obind] in RE. injection RE as <-.
  unfold tractable in T. unfold propagate. cbn [e_kind e_radius].
  set (tt := do y0 <- y; do u0 <- u; match e_kind e with Plain => plane_intercept y0 u0 | Sph _ s => intercept newton s y0 u0 end).
  set (yy := do y0 <- y; do u0 <- u; do t <- tt; Some (at_ray y0 u0 t)).
  set (tt' := do y0 <- osc y; do u0 <- u; match (match e_kind e with Plain => Plain | Sph m s => Sph m (rescale_surf k s) end) with Plain => plane_intercept y0 u0 | Sph _ s => intercept newton s y0 u0 end).
  assert (T' : tt' = option_map (Rmult k) tt).
  { unfold tt', tt. destruct y as [y|], u as [u|]; try reflexivity. cbn [obind option_map].
    destruct (e_kind e) as [|m s]; [apply plane_rescale; auto|apply intercept_rescale; auto]. }
  rewrite T'.
  assert (Y' : (do y0 <- osc y; do u0 <- u; do t <- option_map (Rmult k) tt; Some (at_ray y0 u0 t)) = osc yy).
  { unfold yy. destruct y as [y|], u as [u|]; try reflexivity. cbn [obind option_map].
    destruct tt as [t|]; cbn [obind option_map]; [|reflexivity]. rewrite at_ray_sc. reflexivity. }
  rewrite Y'. rewrite clip_rescale.
  assert (TN : (do t <- option_map (Rmult k) tt; Some (t * n)) = option_map (Rmult k) (do t <- tt; Some (t * n))).
  { destruct tt; cbn; [f_equal; ring|reflexivity]. }
  rewrite TN.
  destruct (e_kind e) as [|m s].
  - intros E. injection E as <- <- <- <-. reflexivity.
  - destruct (get_n_mu m n l) as [n' om]. intros E. injection E as <- <- <- <-.
    f_equal. f_equal. f_equal. destruct om as [mu|]; [|reflexivity].
    destruct (Req_EM_T mu 0); [reflexivity|]. unfold refract. destruct (Req_EM_T mu 1); [reflexivity|].
    destruct yy as [p|]; cbn [option_map obind]; [|reflexivity].
    destruct (if c then clip (e_radius e) (Some p) u else u) as [u2|]; cbn [obind]; [|reflexivity].
    rewrite normal_rescale; auto.
Qed.

Lemma do_rotate_sc r b f y : do_rotate r b f (sc y) = osc (do_rotate r b f y).
Proof.
  unfold do_rotate. destruct f; [|reflexivity]. destruct r as [r|]; cbn [option_map]; [|reflexivity].
  f_equal. apply vm_scale.
Qed.

Lemma trace_rescale es : forall es' y u n l c, Forall tractable es ->
  Forall (fun e => updated (e_place e)) es -> rescale_elements k es = Some es' ->
  sys_propagate newton es' (osc y) u n l c = map scaled_step (sys_propagate newton es y u n l c).
Proof.
  induction es as [|e es IH]; intros es' y u n l c T G; cbn [rescale_elements].
  { intros E. injection E as <-. reflexivity. }
  inversion T as [|? ? T0 TS]; subst. inversion G as [|? ? G0 GS]; subst.
  destruct (rescale_element k e) as [e'|] eqn:RE; [|discriminate]. cbn [obind].
  destruct (rescale_elements k es) as [es1|] eqn:RS; [|discriminate]. cbn [obind].
  intros E. injection E as <-.
  destruct (updated_fix _ G0) as (NF & FO & FX).
  destruct (rescale_place k K _ NF FO FX) as (q & Q & _ & _ & _ & QO & _ & QN & QS & QM & _).
  assert (EP : e_place e' = q).
  { unfold rescale_element in RE. rewrite Q in RE. cbn [obind] in RE. injection RE as <-. reflexivity. }
  cbn [sys_propagate]. rewrite EP, QO.
  assert (TNE : forall v, to_normal q v = to_normal (e_place e) v).
  { intros v. unfold to_normal, p_rotated. rewrite QN, QS, QM. reflexivity. }
  assert (FNE : forall v, from_normal q v = from_normal (e_place e) v).
  { intros v. unfold from_normal, p_rotated. rewrite QN, QS, QM. reflexivity. }
  replace (onormal (to_normal q) u) with (onormal (to_normal (e_place e)) u)
    by (unfold onormal; destruct u; cbn [obind]; auto).
  replace (do y0 <- osc y; to_normal q (vsub3 y0 (sc (p_offset (e_place e)))))
    with (osc (do y0 <- y; to_normal (e_place e) (vsub3 y0 (p_offset (e_place e))))).
  2:{ destruct y as [y|]; cbn [obind option_map]; [|reflexivity]. rewrite TNE.
      replace (vsub3 (sc y) (sc (p_offset (e_place e)))) with (sc (vsub3 y (p_offset (e_place e)))) by vec_ring.
      unfold to_normal. rewrite do_rotate_sc. reflexivity. }
  destruct (propagate newton e _ _ n l c) as [[[y1 u1] n1] t1] eqn:P.
  rewrite (propagate_rescale _ _ _ _ _ _ _ _ _ _ _ T0 RE P).
  cbn [map]. f_equal.
  replace (onormal (from_normal q) (osc y1)) with (osc (onormal (from_normal (e_place e)) y1)).
  2:{ destruct y1 as [y1|]; cbn [onormal obind option_map]; [|reflexivity]. rewrite FNE.
      unfold from_normal. rewrite do_rotate_sc. reflexivity. }
  replace (onormal (from_normal q) u1) with (onormal (from_normal (e_place e)) u1)
    by (unfold onormal; destruct u1; cbn [obind]; auto).
  apply IH; auto.
Qed.

(** * C20 *)
(** every element keeps its surface type; analytic ones need nothing, aspheric ones
    need a root finder that is itself scale free.  The rescaled system traces the
    scaled ray to the scaled points, with the same directions and indices and
    scaled optical path *)
Theorem C20_trace_scales es es' y u n l c : Forall tractable es ->
  Forall (fun e => updated (e_place e)) es -> rescale_elements k es = Some es' ->
  geo_trace newton es' (sc y) u n l c = map scaled_step (geo_trace newton es y u n l c).
Proof.
  intros T G RS. destruct es as [|e es]; cbn [rescale_elements] in RS.
  { injection RS as <-. reflexivity. }
  inversion T as [|? ? T0 TS]; subst. inversion G as [|? ? G0 GS]; subst.
  destruct (rescale_element k e) as [e'|] eqn:RE; [|discriminate]. cbn [obind] in RS.
  destruct (rescale_elements k es) as [es1|] eqn:R1; [|discriminate]. cbn [obind] in RS.
  injection RS as <-.
  destruct (updated_fix _ G0) as (NF & FO & FX).
  destruct (rescale_place k K _ NF FO FX) as (q & Q & _ & _ & _ & QO & _ & QN & QS & QM & _).
  assert (EP : e_place e' = q).
  { unfold rescale_element in RE. rewrite Q in RE. cbn [obind] in RE. injection RE as <-. reflexivity. }
  cbn [geo_trace map]. rewrite EP. f_equal.
  - unfold scaled_step. cbn. rewrite Rmult_0_r. reflexivity.
  - replace (from_normal q (sc y)) with (osc (from_normal (e_place e) y)).
    2:{ unfold from_normal, p_rotated. rewrite QN, QS, QM, do_rotate_sc. reflexivity. }
    replace (from_normal q u) with (from_normal (e_place e) u)
      by (unfold from_normal, p_rotated; rewrite QN, QS, QM; reflexivity).
    apply trace_rescale; auto.
Qed.
End Trace.

(** sag, normal and clear aperture of a rescaled surface, any aspheric terms *)
Theorem C20_surface_scales k s p : 0 < k ->
  surface_sag (rescale_surf k s) (vmul3 k p) = option_map (Rmult k) (surface_sag s p) /\
  surface_normal (rescale_surf k s) (vmul3 k p) = surface_normal s p /\
  forall u t, surface_sag (rescale_surf k s) (at_ray (vmul3 k p) u (k * t)) = Some 0 <->
              surface_sag s (at_ray p u t) = Some 0.
Proof.
  intros K. split; [apply sag_rescale; auto|]. split; [apply normal_rescale; auto|].
  intros u t. rewrite at_ray_sc, sag_rescale by auto. destruct (surface_sag s (at_ray p u t)) as [x|]; cbn; split; intros H;
    try discriminate; injection H as H; f_equal; nra.
Qed.

(** rescaling always succeeds and is undone by rescaling with the inverse factor *)
Lemma asph_inverse k a : 0 < k -> forall j,
  map (fun '(i, ai) => ai / (/ k) ^ (2 * i + 1)) (combine (seq j (length a))
    (map (fun '(i, ai) => ai / k ^ (2 * i + 1)) (combine (seq j (length a)) a))) = a.
Proof.
  intros K. induction a as [|b a IH]; intros j; cbn [length seq combine map]; [reflexivity|].
  rewrite IH. f_equal. rewrite pow_inv. field. apply pow_nonzero. lra.
Qed.

Theorem C20_rescale_inverse k es : 0 < k -> Forall (fun e => updated (e_place e)) es ->
  exists es', rescale_elements k es = Some es' /\ Forall (fun e => updated (e_place e)) es' /\
    rescale_elements (/ k) es' = Some es.
Proof.
  intros K. assert (KI : 0 < / k) by (apply Rinv_0_lt_compat; auto).
  induction es as [|e es IH]; intros G; cbn [rescale_elements].
  { exists []. auto. }
  inversion G as [|? ? G0 GS]; subst. destruct (IH GS) as (es1 & -> & U1 & B1).
  destruct (updated_fix _ G0) as (NF & FO & FX).
  destruct (rescale_place k K _ NF FO FX) as (q & Q & QD & QU & QA & QO & QR & QN & QS & QM & QX).
  assert (UQ : updated q) by (exists (p_distance q), (p_direction q), (p_angles q); auto).
  destruct (updated_fix _ UQ) as (NFq & FOq & FXq).
  destruct (rescale_place (/ k) KI _ NFq FOq FXq) as (r & Qr & RD & RU & RA & RO & RR & RN & RS & RM & RX).
  assert (ER : r = e_place e).
  { assert (X : update (p_distance r) (p_direction r) (p_angles r) = Some (e_place e)).
    { rewrite RD, RU, RA, QD, QU, QA. replace (p_distance (e_place e) * k * / k) with (p_distance (e_place e)) by (field; lra). exact FX. }
    rewrite RX in X. injection X; auto. }
  unfold rescale_element at 1. rewrite Q. cbn [obind]. eexists; split; [reflexivity|].
  split; [constructor; auto|].
  cbn [rescale_elements]. unfold rescale_element. cbn [e_place e_radius e_kind]. rewrite Qr. cbn [obind].
  rewrite B1. cbn [obind]. rewrite ER. f_equal. f_equal. destruct e as [p r0 kd]. cbn [e_place e_radius e_kind].
  f_equal.
  - destruct r0 as [r0|]; [|reflexivity]. f_equal. field. lra.
  - destruct kd as [|m s]; [reflexivity|]. destruct s as [c kk a al]. unfold rescale_surf. cbn [s_c s_k s_asph s_alt].
    f_equal. f_equal; [field; lra|]. destruct a as [a|]; [|reflexivity]. f_equal.
    rewrite map_length, combine_length, seq_length, Nat.min_id. apply asph_inverse; auto.
Qed.

(** every element made by the constructor (and any later assignment) qualifies *)
Theorem C20_applies d u a o p : init d u a o = Some p -> updated p /\
  forall s q, apply_setter s p = Some q -> updated q.
Proof.
  intros H. split; [|intros; eapply setters_updated; eauto].
  unfold init in H. destruct (update d u a) as [p0|] eqn:E; [|discriminate]. cbn [obind] in H.
  destruct o as [o|].
  - apply (setters_updated (SetOffset o) p0). exact H.
  - injection H as <-. exists d, u, a. auto.
Qed.

(** plain Newton iteration with a fixed number of steps is scale free, so the
    hypotheses are met by systems with both kinds of surfaces.  (scipy's version
    stops at an absolute tolerance of 1e-7 and is scale free only up to it.) *)
Fixpoint newton_steps (n : nat) (f f' : R -> option R) (x0 : option R) : option R :=
  match n with
  | O => x0
  | S n => do x <- x0; do a <- f x; do b <- f' x; do q <- fdiv a b; newton_steps n f f' (Some (x - q))
  end.
Lemma newton_steps_scale_free k n : scale_free k (newton_steps n).
Proof.
  induction n as [|n IH]; intros f f' g g' x0 G G'; [reflexivity|].
  cbn [newton_steps]. destruct x0 as [x|]; cbn [obind option_map]; [|reflexivity].
  rewrite G, G'. destruct (f x) as [a|]; cbn [obind option_map]; [|reflexivity].
  destruct (f' x) as [b|]; cbn [obind option_map]; [|reflexivity].
  rewrite fdiv_scale_l. destruct (fdiv a b) as [q|]; cbn [obind option_map]; [|reflexivity].
  rewrite <- (IH f f' g g' (Some (x - q)) G G'). cbn [option_map]. f_equal. f_equal. ring.
Qed.
Example C20_example : exists p, init 5 ez v0 None = Some p /\ updated p /\
  Forall (tractable 2 (newton_steps 5))
    [El p (Some 3) (Sph None (Surf (1/20) (1/2) None false)); El p None (Sph None (Surf (1/20) 0 (Some [1/100]) false))].
Proof.
  destruct (init_spec 5 ez v0 None) as (p & E & _). exists p. split; [auto|].
  split; [apply (C20_applies _ _ _ _ _ E)|].
  apply Forall_cons; [left; reflexivity|]. apply Forall_cons; [|apply Forall_nil].
  right. apply newton_steps_scale_free.
Qed.

Print Assumptions C20_trace_scales.
Print Assumptions C20_surface_scales.
Print Assumptions C20_rescale_inverse.
Print Assumptions C20_applies.
