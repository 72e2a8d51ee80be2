(** Property C109: the unit of length.  Rescaling a system and its unit together changes no figure that has no unit. *)
From Coq Require Import Reals ZArith List Lra Lia Psatz.
From Verif Require Import Base Vec RotModel PlacementModel PlacementProofs ElementModel ElementProofs TraceProofs PropsElement PropsTrace
  PropsRescale ParaxialModel ParaxialProofs LimitProofs PropsCardinal PropsPupils ParaxTraceModel ResolutionModel SeidelModel OpdModel PropsOpd PolyChain PsfModel.
Import ListNotations.
Open Scope R_scope.

Section Units.
Variable k : R.
Hypothesis K : 0 < k.
Notation sc := (vmul3 k).
Notation osc := (option_map (vmul3 k)).
Variable newton : (R -> option R) -> (R -> option R) -> option R -> option R.

(** every system can be rescaled *)
Lemma rescales es : Forall (fun e => updated (e_place e)) es -> exists es', rescale_elements k es = Some es'.
Proof.
  induction 1 as [|e es UE UR (es' & IH)]; [exists []; reflexivity|]. destruct (updated_fix _ UE) as (NF & FO & FX).
  destruct (rescale_place k K _ NF FO FX) as (q & Q & _). cbn [rescale_elements]. unfold rescale_element. rewrite Q, IH. cbn [obind]. eauto.
Qed.
(** elements of the rescaled system *)
Lemma rescaled_nth es : forall es' i e, rescale_elements k es = Some es' -> nth_error es i = Some e ->
  exists e', nth_error es' i = Some e' /\ rescale_element k e = Some e'.
Proof.
  induction es as [|a es IH]; intros es' i e; cbn [rescale_elements]; [destruct i; discriminate|].
  destruct (rescale_element k a) as [a'|] eqn:RA; [|discriminate]. cbn [obind].
  destruct (rescale_elements k es) as [es1|] eqn:RS; [|discriminate]. cbn [obind]. intros E. injection E as <-.
  destruct i as [|i]; cbn [nth_error]; [intros E; injection E as <-; eauto|]. intros N. exact (IH es1 i e eq_refl N).
Qed.
Lemma rescaled_length es : forall es', rescale_elements k es = Some es' -> length es' = length es.
Proof.
  induction es as [|a es IH]; intros es'; cbn [rescale_elements]; [intros E; injection E as <-; reflexivity|].
  destruct (rescale_element k a) as [a'|]; [|discriminate]. cbn [obind].
  destruct (rescale_elements k es) as [es1|]; [|discriminate]. cbn [obind]. intros E. injection E as <-.
  cbn [length]. rewrite (IH es1 eq_refl). reflexivity.
Qed.
Lemma rescaled_place e e' : updated (e_place e) -> rescale_element k e = Some e' ->
  p_offset (e_place e') = sc (p_offset (e_place e)) /\ p_distance (e_place e') = p_distance (e_place e) * k /\
  p_angles (e_place e') = p_angles (e_place e) /\
  (forall v, to_normal (e_place e') v = to_normal (e_place e) v) /\ (forall v, from_normal (e_place e') v = from_normal (e_place e) v).
Proof.
  intros U RE. destruct (updated_fix _ U) as (NF & FO & FX).
  destruct (rescale_place k K _ NF FO FX) as (q & Q & QD & _ & QA & QO & _ & QN & QS & QM & _).
  unfold rescale_element in RE. rewrite Q in RE. cbn [obind] in RE. injection RE as <-. cbn [e_place].
  repeat (split; [assumption|]). split; intros v; unfold to_normal, from_normal, p_rotated; rewrite QN, QS, QM; reflexivity.
Qed.
Lemma rescaled_origins es es' : Forall (fun e => updated (e_place e)) es -> rescale_elements k es = Some es' ->
  origins es' = map sc (origins es).
Proof.
  unfold origins. intros U RS.
  assert (G : forall a, cumsum3 (sc a) (map (fun e => p_offset (e_place e)) es') = map sc (cumsum3 a (map (fun e => p_offset (e_place e)) es))).
  { revert es' RS. induction U as [|e es UE UR IH]; intros es'; cbn [rescale_elements].
    { intros E. injection E as <-. reflexivity. }
    destruct (rescale_element k e) as [e'|] eqn:RE; [|discriminate]. cbn [obind].
    destruct (rescale_elements k es) as [es1|]; [|discriminate]. cbn [obind]. intros E a. injection E as <-.
    destruct (rescaled_place e e' UE RE) as (O & _). cbn [map cumsum3]. rewrite O.
    replace (vadd3 (sc a) (sc (p_offset (e_place e)))) with (sc (vadd3 a (p_offset (e_place e)))) by vec_ring.
    rewrite (IH es1 eq_refl). reflexivity. }
  rewrite <- G. f_equal. vec_ring.
Qed.

(** the reference sphere *)
Lemma hit_scaled r y u : sphere_hit (k * r) (sc y) u = option_map (Rmult k) (sphere_hit r y u).
Proof.
  unfold sphere_hit. destruct (Req_EM_T r 0) as [-> | N].
  { rewrite Rmult_0_r, fdiv_zero. reflexivity. }
  rewrite !fdiv_some by nra. cbn [obind]. rewrite <- (conic_rescale k K). f_equal. unfold rescale_surf. cbn. f_equal. field. lra.
Qed.
Lemma from_normal_sc p y : from_normal p (sc y) = osc (from_normal p y).
Proof. unfold from_normal. apply do_rotate_sc. Qed.
Lemma to_normal_sc p y : to_normal p (sc y) = osc (to_normal p y).
Proof. unfold to_normal. apply do_rotate_sc. Qed.
Definition scaled_hit (h : R * vec) : R * vec := (k * fst h, sc (snd h)).
Lemma point_scaled ea ei ea' ei' oa oi yr r y u :
  (forall v, from_normal (e_place ea') v = from_normal (e_place ea) v) ->
  (forall v, to_normal (e_place ei') v = to_normal (e_place ei) v) ->
  sphere_point ea' ei' (sc oa) (sc oi) (sc yr) (k * r) (osc y) u = option_map scaled_hit (sphere_point ea ei oa oi yr r y u).
Proof.
  intros A I. unfold sphere_point, to_sphere. destruct y as [y|]; [|reflexivity]. destruct u as [u|]; [|reflexivity].
  cbn [obind option_map]. rewrite !A, from_normal_sc. destruct (from_normal (e_place ea) y) as [y1|]; [|reflexivity]. cbn [obind option_map].
  rewrite I. replace (vadd3 (sc y1) (vsub3 (sc oa) (sc oi))) with (sc (vadd3 y1 (vsub3 oa oi))) by vec_ring.
  rewrite to_normal_sc. destruct (to_normal (e_place ei) (vadd3 y1 (vsub3 oa oi))) as [y2|]; [|reflexivity]. cbn [obind option_map].
  destruct (from_normal (e_place ea) u) as [u1|]; [|reflexivity]. cbn [obind]. rewrite I.
  destruct (to_normal (e_place ei) u1) as [u2|]; [|reflexivity]. cbn [obind].
  set (w := V (vx (vsub3 y2 yr)) (vy (vsub3 y2 yr)) (vz (vsub3 y2 yr) + r)).
  replace (V _ _ _) with (sc w) by (unfold w; apply vec_eq; cbn; ring).
  rewrite hit_scaled. destruct (sphere_hit r w u2) as [t|]; [|reflexivity]. cbn [obind option_map].
  f_equal. unfold scaled_hit. cbn [fst snd]. f_equal. rewrite at_ray_sc. apply vec_eq; cbn; ring.
Qed.
Notation scaled := (scaled_step k).
Lemma path_scaled ts : forall rs, path_diff (map (option_map (Rmult k)) ts) (map (option_map (Rmult k)) rs) = option_map (Rmult k) (path_diff ts rs).
Proof.
  induction ts as [|t ts IH]; intros rs; cbn [map path_diff]; [cbn; f_equal; ring|].
  destruct rs as [|r rs]; cbn [map]; [cbn; f_equal; ring|].
  destruct t as [t|]; [|reflexivity]. destruct r as [r|]; [|reflexivity]. cbn [option_map obind]. rewrite IH.
  destruct (path_diff ts rs) as [s|]; [|reflexivity]. cbn. f_equal. ring.
Qed.
Lemma times_scaled n ss : map st_t (firstn n (map scaled ss)) = map (option_map (Rmult k)) (map st_t (firstn n ss)).
Proof. rewrite firstn_map, !map_map. reflexivity. Qed.
Lemma launched_scaled ss : launched (map scaled ss) = option_map (fun '(y, u) => (sc y, u)) (launched ss).
Proof.
  unfold launched. destruct ss as [|s ss]; [reflexivity|]. cbn [map nth_error obind]. cbn [st_y st_u scaled_step].
  destruct (st_y s) as [y|]; [|reflexivity]. cbn [option_map obind]. destruct (st_u s) as [u|]; reflexivity.
Qed.

Lemma opd_scaled es es' finite radius after image l scale ref ray :
  Forall (fun e => updated (e_place e)) es -> rescale_elements k es = Some es' ->
  opd_ray es' finite (k * radius) after image l (scale / k) (map scaled ref) (map scaled ray)
  = option_map (fun '(x, y, w) => (k * x, k * y, w)) (opd_ray es finite radius after image l scale ref ray).
Proof.
  intros U RS. unfold opd_ray. rewrite (rescaled_length es es' RS). rewrite (rescaled_origins es es' U RS).
  rewrite !times_scaled, path_scaled. destruct (path_diff _ _) as [t|]; [|reflexivity]. cbn [obind option_map].
  rewrite !nth_error_map. destruct (nth_error ref 0) as [s0|]; [|reflexivity]. cbn [obind option_map].
  rewrite !launched_scaled. destruct (launched ref) as [[yr ur]|]; [|reflexivity]. cbn [obind option_map].
  destruct (launched ray) as [[y u]|]; [|reflexivity]. cbn [obind option_map fst snd]. cbv zeta.
  destruct (pyindex (length es) after) as [a|]; [|reflexivity]. cbn [obind].
  destruct (pyindex (length es) image) as [i|]; [|reflexivity]. cbn [obind].
  destruct (nth_error es a) as [ea|] eqn:NA.
  2:{ apply nth_error_None in NA. rewrite <- (rescaled_length es es' RS) in NA. apply nth_error_None in NA. rewrite NA. reflexivity. }
  destruct (rescaled_nth es es' a ea RS NA) as (ea' & NA' & RA). rewrite NA'. cbn [obind].
  destruct (nth_error es i) as [ei|] eqn:NI.
  2:{ apply nth_error_None in NI. rewrite <- (rescaled_length es es' RS) in NI. apply nth_error_None in NI. rewrite NI. reflexivity. }
  destruct (rescaled_nth es es' i ei RS NI) as (ei' & NI' & RI). rewrite NI'. cbn [obind].
  rewrite !nth_error_map.
  destruct (nth_error (origins es) a) as [oa|]; [|reflexivity]. cbn [obind option_map].
  destruct (nth_error (origins es) i) as [oi|]; [|reflexivity]. cbn [obind option_map].
  destruct (nth_error ref a) as [sr|]; [|reflexivity]. cbn [obind option_map].
  destruct (nth_error ray a) as [s|]; [|reflexivity]. cbn [obind option_map].
  destruct (nth_error ref i) as [si|]; [|reflexivity]. cbn [obind option_map]. cbn [st_y st_u st_n scaled_step].
  destruct (st_y si) as [yref|]; [|reflexivity]. cbn [obind option_map].
  pose proof (proj1 (Forall_forall _ _) U ea (nth_error_In _ _ NA)) as UA.
  pose proof (proj1 (Forall_forall _ _) U ei (nth_error_In _ _ NI)) as UI.
  destruct (rescaled_place ea ea' UA RA) as (_ & _ & _ & _ & FA). destruct (rescaled_place ei ei' UI RI) as (_ & _ & _ & TI & _).
  rewrite !(point_scaled ea ei ea' ei' oa oi yref radius) by assumption.
  destruct (sphere_point ea ei oa oi yref radius (st_y sr) (st_u sr)) as [[tr pr]|]; [|reflexivity]. cbn [obind option_map].
  destruct (sphere_point ea ei oa oi yref radius (st_y s) (st_u s)) as [[tp p]|]; [|reflexivity]. cbn [obind option_map].
  rewrite fdiv_scale_r by lra. destruct (fdiv l scale) as [q|]; [|reflexivity]. cbn [obind]. cbn [fst snd scaled_hit].
  set (t1 := - (t - launch_path finite (st_n s0) y yr ur + (tp - tr) * st_n sr)).
  replace (- _) with (k * t1).
  2:{ unfold t1, launch_path. destruct finite; [ring|]. replace (vsub3 (sc yr) (sc y)) with (sc (vsub3 yr y)) by vec_ring.
      rewrite dot_scale_r. ring. }
  replace (fdiv (k * t1) (k * q)) with (fdiv t1 q).
  2:{ destruct (Req_EM_T q 0) as [-> | Q]; [rewrite Rmult_0_r, !fdiv_zero; reflexivity|].
      rewrite !fdiv_some by nra. f_equal. field. lra. }
  destruct (fdiv t1 q) as [w|]; [|reflexivity]. cbn. f_equal. f_equal. f_equal; ring.
Qed.

(** * C109 *)
(** the wave front error in waves is the same in every unit, the pupil coordinates scale *)
Theorem C109_wavefront es es' finite radius after image l scale y0 u0 y u n c : Forall (tractable k newton) es ->
  Forall (fun e => updated (e_place e)) es -> rescale_elements k es = Some es' ->
  opd_ray es' finite (k * radius) after image l (scale / k)
    (geo_trace newton es' (vmul3 k y0) u0 n l c) (geo_trace newton es' (vmul3 k y) u n l c)
  = match opd_ray es finite radius after image l scale (geo_trace newton es y0 u0 n l c) (geo_trace newton es y u n l c) with
    | Some (px, py, waves) => Some (k * px, k * py, waves)
    | None => None
    end.
Proof.
  intros T U RS. rewrite !(C20_trace_scales k K newton es es') by assumption. rewrite (opd_scaled es es') by assumption.
  destruct (opd_ray es _ _ _ _ _ _ _ _) as [[[? ?] ?]|]; reflexivity.
Qed.

(** the pixels of the diffraction image scale with the unit *)
Theorem C109_pixels n pad h radius l scale p :
  psf_axis n pad (k * h) (k * radius) l (scale / k) p = option_map (Rmult k) (psf_axis n pad h radius l scale p).
Proof.
  unfold psf_axis, fftfreq. rewrite fdiv_scale_r by lra. destruct (fdiv l scale) as [w|]; [|reflexivity]. cbn [obind].
  destruct (Req_EM_T w 0) as [-> | W]; [rewrite Rmult_0_r, !fdiv_zero; reflexivity|].
  rewrite !fdiv_some by nra. cbn [obind]. destruct (Req_EM_T radius 0) as [-> | N].
  { rewrite Rmult_0_r, !fdiv_zero. reflexivity. }
  rewrite !fdiv_some by nra. cbn [obind].
  set (d := (grid n h 1 - grid n h 0) * (1 / w) / radius).
  replace (_ / (k * radius)) with (d / k) by (unfold d, grid; set (q := 2 / (INR n - 1)); clearbody q; field; repeat split; auto; lra).
  set (v := if (_ <? _)%nat then _ else _). clearbody v d.
  replace (INR (n * pad) * (d / k)) with (INR (n * pad) * d / k) by (field; lra).
  rewrite fdiv_scale_r by lra. destruct (fdiv _ _); reflexivity.
Qed.

(** paraxial rays *)
Definition sc4 (v : v4) : v4 := V4 (k * w0 v) (k * w1 v) (w2 v) (w3 v).
Definition similar (m m' : m4) : Prop := forall v, mv4 m' (sc4 v) = sc4 (mv4 m v).
Lemma v4_eq a b : w0 a = w0 b -> w1 a = w1 b -> w2 a = w2 b -> w3 a = w3 b -> a = b.
Proof. destruct a, b. cbn. intros -> -> -> ->. reflexivity. Qed.
Lemma similar_mm a a' b b' : similar a a' -> similar b b' -> similar (mm4 a b) (mm4 a' b').
Proof. intros A B v. rewrite !mv4_mm4, B, A. reflexivity. Qed.
Ltac open4 v := destruct v as [x0 x1 x2 x3]; apply v4_eq; unfold mv4, mT4, sc4, eye4; cbn [w0 w1 w2 w3 q0 q1 q2 q3]; unfold dot4; cbn [w0 w1 w2 w3].
Lemma similar_azimuth phi : similar (azimuth_matrix phi) (azimuth_matrix phi) /\ similar (mT4 (azimuth_matrix phi)) (mT4 (azimuth_matrix phi)).
Proof.
  unfold azimuth_matrix. cbv zeta. generalize (cos phi), (sin phi). intros a b. split; intros v; open4 v; ring.
Qed.
Definition both (o o' : option m4) : Prop :=
  match o, o' with Some m, Some m' => similar m m' | None, None => True | _, _ => False end.
Lemma similar_transfer d n : both (transfer_matrix d n) (transfer_matrix (d * k) n).
Proof.
  unfold transfer_matrix. rewrite (Rmult_comm d k), fdiv_scale_l. destruct (fdiv d n) as [t|]; cbn [obind both]; [|exact I].
  intros v. open4 v; ring.
Qed.
Lemma similar_refraction m c th n0 n : both (refraction_matrix m c th n0 n) (refraction_matrix m (c / k) th n0 n).
Proof.
  unfold refraction_matrix. destruct m as [m|]; [|cbn [both]; intros v; open4 v; ring].
  destruct (m_mirror m).
  - replace (2 * (c / k)) with (/ k * (2 * c)) by (field; lra). rewrite (fdiv_scale_l (/ k)).
    destruct (fdiv (2 * c) th) as [b|]; cbn [obind both]; [|exact I]. intros v. open4 v; field; lra.
  - destruct (fdiv n n0) as [mu|]; cbn [obind both]; [|exact I].
    destruct (fsqrt _) as [p|]; cbn [obind both]; [|exact I].
    destruct (fdiv p (mu * th)) as [m11|]; cbn [obind both]; [|exact I]. cbv zeta.
    replace (mu * (n0 * (c / k) * (th - p))) with (/ k * (mu * (n0 * c * (th - p)))) by (field; lra). rewrite (fdiv_scale_l (/ k)).
    destruct (fdiv (mu * (n0 * c * (th - p))) (th * p)) as [m31|]; cbn [obind both]; [|exact I].
    destruct (fdiv 1 m11) as [m33|]; cbn [obind both]; [|exact I].
    intros v. open4 v; field; lra.
Qed.
Lemma vertex_scaled s : vertex_curvature (rescale_surf k s) = option_map (fun c => c / k) (vertex_curvature s).
Proof.
  unfold vertex_curvature, rescale_surf. cbn [s_asph s_c]. destruct (s_asph s) as [[|a r]|]; [reflexivity| |reflexivity].
  cbn [length seq combine map option_map]. f_equal. cbn [Nat.mul Nat.add pow]. field. lra.
Qed.
Lemma propagate_scaled e e' v n l : updated (e_place e) -> rescale_element k e = Some e' ->
  propagate_paraxial e' (Some (sc4 v)) n l = (option_map sc4 (fst (propagate_paraxial e (Some v) n l)), snd (propagate_paraxial e (Some v) n l)).
Proof.
  intros U RE. destruct (rescaled_place e e' U RE) as (_ & D & A & _).
  assert (KE : e_kind e' = match e_kind e with Plain => Plain | Sph m s => Sph m (rescale_surf k s) end).
  { unfold rescale_element in RE. destruct (set_distance _ _); [|discriminate]. cbn [obind] in RE. injection RE as <-. reflexivity. }
  unfold propagate_paraxial, paraxial_matrix, index_after. rewrite D, A, KE.
  destruct (e_kind e) as [|m s]; cbn [fst snd].
  - pose proof (similar_transfer (p_distance (e_place e)) n) as S. unfold both in S.
    destruct (transfer_matrix _ n) as [t|], (transfer_matrix _ n) as [t'|]; try contradiction; cbn [obind option_map]; [|reflexivity].
    rewrite (S v). reflexivity.
  - pose proof (similar_transfer (p_distance (e_place e)) n) as S. unfold both in S.
    destruct (transfer_matrix (p_distance (e_place e)) n) as [t|], (transfer_matrix (p_distance (e_place e) * k) n) as [t'|]; try contradiction; cbn [obind option_map]; [|reflexivity].
    rewrite vertex_scaled. destruct (vertex_curvature s) as [c|]; cbn [obind option_map]; [|reflexivity].
    set (n1 := match m with Some m0 => m_index m0 l | None => n end).
    pose proof (similar_refraction m c (cos (vx (p_angles (e_place e)))) n n1) as SR. unfold both in SR.
    destruct (refraction_matrix m c _ n n1) as [r|], (refraction_matrix m (c / k) _ n n1) as [r'|]; try contradiction; cbn [obind option_map]; [|reflexivity].
    set (z := vz (p_angles (e_place e))). destruct (similar_azimuth z) as (Z1 & Z2).
    rewrite (similar_mm _ _ _ _ Z1 (similar_mm _ _ _ _ (similar_mm _ _ _ _ SR S) Z2) v). reflexivity.
Qed.
Definition scaled_row (r : prow) : prow := PRow (k * fst (ry r), k * snd (ry r)) (ru r) (rn r).
Lemma ptrace_from_scaled axis l es : forall es' m c n, Forall (fun e => updated (e_place e)) es -> rescale_elements k es = Some es' ->
  ptrace_from axis l es' (sc4 m) (sc4 c) n = option_map (map scaled_row) (ptrace_from axis l es m c n).
Proof.
  induction es as [|e es IH]; intros es' m c n U; cbn [rescale_elements].
  { intros E. injection E as <-. reflexivity. }
  inversion U as [|? ? UE UR]; subst. destruct (rescale_element k e) as [e'|] eqn:RE; [|discriminate]. cbn [obind].
  destruct (rescale_elements k es) as [es1|]; [|discriminate]. cbn [obind]. intros E. injection E as <-.
  cbn [ptrace_from]. rewrite !(propagate_scaled e e') by assumption.
  destruct (propagate_paraxial e (Some m) n l) as [om n1]. destruct (propagate_paraxial e (Some c) n l) as [oc n2]. cbn [fst snd].
  destruct om as [m1|]; [|reflexivity]. destruct oc as [c1|]; [|reflexivity]. cbn [obind option_map].
  rewrite (IH es1 m1 c1 n1 UR eq_refl). destruct (ptrace_from axis l es m1 c1 n1) as [rs|]; [|reflexivity]. cbn [obind option_map map].
  f_equal. f_equal. unfold scaled_row, row_y, row_u. cbn. destruct axis; reflexivity.
Qed.

Lemma ptrace_scaled axis l es es' y u n : Forall (fun e => updated (e_place e)) es -> rescale_elements k es = Some es' ->
  ptrace axis l es' (k * fst y, k * snd y) u n = option_map (map scaled_row) (ptrace axis l es y u n).
Proof.
  intros U RS. destruct es as [|e es]; [cbn in RS; injection RS as <-; reflexivity|]. inversion U as [|? ? UE UR]; subst. cbn [rescale_elements] in RS.
  destruct (rescale_element k e) as [e'|]; [|discriminate]. cbn [obind] in RS.
  destruct (rescale_elements k es) as [es1|] eqn:R1; [|discriminate]. cbn [obind] in RS. injection RS as <-.
  cbn [ptrace] in *. cbn [fst snd].
  change (V4 (k * fst y) (k * fst y) (fst u) (fst u)) with (sc4 (V4 (fst y) (fst y) (fst u) (fst u))).
  change (V4 (k * snd y) (k * snd y) (snd u) (snd u)) with (sc4 (V4 (snd y) (snd y) (snd u) (snd u))).
  rewrite (ptrace_from_scaled axis l es es1) by assumption. destruct (ptrace_from axis l es _ _ n) as [r1|]; reflexivity.
Qed.
(** a paraxial trace of the rescaled system: heights scale, slopes and indices do not *)
Theorem C109_paraxial axis l es es' y u n rs : Forall (fun e => updated (e_place e)) es -> rescale_elements k es = Some es' ->
  ptrace axis l es y u n = Some rs ->
  exists rs', ptrace axis l es' (k * fst y, k * snd y) u n = Some rs' /\ length rs' = length rs /\
    forall i r, nth_error rs i = Some r -> exists r', nth_error rs' i = Some r' /\
      fst (ry r') = k * fst (ry r) /\ snd (ry r') = k * snd (ry r) /\ ru r' = ru r /\ rn r' = rn r.
Proof.
  intros U RS E. exists (map scaled_row rs). split; [|split; [apply map_length|]].
  2:{ intros i r N. exists (scaled_row r). split; [apply map_nth_error; assumption|]. repeat split. }
  rewrite (ptrace_scaled axis l es es') by assumption. rewrite E. reflexivity.
Qed.

Lemma back_map rs i : back (map scaled_row rs) i = option_map scaled_row (back rs i).
Proof. unfold back. rewrite map_length. destruct (Nat.leb i (length rs)); [apply nth_error_map|reflexivity]. Qed.
Lemma fdiv_same a b : fdiv (k * a) (k * b) = fdiv a b.
Proof.
  destruct (Req_EM_T b 0) as [-> | B]; [rewrite Rmult_0_r, !fdiv_zero; reflexivity|].
  rewrite !fdiv_some by nra. f_equal. field. split; lra.
Qed.
Notation pair_scaled := (option_map (fun p : R * R => (k * fst p, k * snd p))).
Lemma lagrange_scaled rs : lagrange (map scaled_row rs) = option_map (Rmult k) (lagrange rs).
Proof. unfold lagrange. destruct rs as [|r rs]; [reflexivity|]. cbn. f_equal. ring. Qed.
Lemma focal_scaled rs : focal_length (map scaled_row rs) = pair_scaled (focal_length rs).
Proof.
  unfold focal_length. rewrite lagrange_scaled, back_map, nth_error_map. destruct (lagrange rs) as [L|]; [|reflexivity]. cbn [obind option_map].
  destruct (nth_error rs 0) as [r0|]; [|reflexivity]. cbn [obind option_map]. destruct (back rs 2) as [r2|]; [|reflexivity]. cbn [obind option_map].
  cbn [ru rn scaled_row]. rewrite fdiv_scale_l. destruct (fdiv L _) as [f|]; [|reflexivity]. cbn. f_equal. f_equal; ring.
Qed.
Lemma focal_distance_scaled rs : focal_distance (map scaled_row rs) = pair_scaled (focal_distance rs).
Proof.
  unfold focal_distance. rewrite focal_scaled, lagrange_scaled, back_map, !nth_error_map. destruct (focal_length rs) as [[f0 f1]|]; [|reflexivity]. cbn [obind option_map fst snd].
  destruct (lagrange rs) as [L|]; [|reflexivity]. cbn [obind option_map].
  destruct (nth_error rs 0) as [r0|]; [|reflexivity]. cbn [obind option_map]. destruct (nth_error rs 1) as [r1|]; [|reflexivity]. cbn [obind option_map].
  destruct (back rs 2) as [r2|]; [|reflexivity]. cbn [obind option_map]. cbn [ru rn ry scaled_row fst snd]. rewrite !fdiv_same.
  destruct (fdiv f0 L) as [a|]; [|reflexivity]. cbn [obind]. destruct (fdiv a _) as [a1|]; [|reflexivity]. cbn [obind].
  destruct (fdiv f1 L) as [b|]; [|reflexivity]. cbn [obind]. destruct (fdiv b _) as [b1|]; [|reflexivity]. cbn. f_equal. f_equal; ring.
Qed.
Lemma pupil_distance_scaled rs : ppupil_distance (map scaled_row rs) = pair_scaled (ppupil_distance rs).
Proof.
  unfold ppupil_distance. rewrite back_map, !nth_error_map.
  destruct (nth_error rs 0) as [r0|]; [|reflexivity]. cbn [obind option_map]. destruct (nth_error rs 1) as [r1|]; [|reflexivity]. cbn [obind option_map].
  destruct (back rs 2) as [r2|]; [|reflexivity]. cbn [obind option_map]. cbn [ru rn ry scaled_row fst snd].
  rewrite <- !Ropp_mult_distr_r_reverse, !fdiv_scale_l. destruct (fdiv _ (snd (ru r0))) as [a|]; [|reflexivity]. cbn [obind].
  destruct (fdiv _ (snd (ru r2))) as [b|]; [|reflexivity]. cbn. f_equal. f_equal; ring.
Qed.
Lemma abs_scaled x : Rabs (k * x) = k * Rabs x.
Proof. rewrite Rabs_mult, (Rabs_pos_eq k) by lra. reflexivity. Qed.
Lemma pupil_height_scaled rs : ppupil_height (map scaled_row rs) = pair_scaled (ppupil_height rs).
Proof.
  unfold ppupil_height. rewrite pupil_distance_scaled, back_map, !nth_error_map. destruct (ppupil_distance rs) as [[p0 p1]|]; [|reflexivity]. cbn [obind option_map fst snd].
  destruct (nth_error rs 0) as [r0|]; [|reflexivity]. cbn [obind option_map]. destruct (nth_error rs 1) as [r1|]; [|reflexivity]. cbn [obind option_map].
  destruct (back rs 2) as [r2|]; [|reflexivity]. cbn [obind option_map]. cbn [ru rn ry scaled_row fst snd].
  rewrite !Rmult_assoc, !(fdiv_scale_l k). destruct (fdiv _ (rn r0)) as [a|]; [|reflexivity]. cbn [obind].
  destruct (fdiv _ (rn r2)) as [b|]; [|reflexivity]. cbn [obind option_map fst snd]. f_equal. rewrite <- !Rmult_plus_distr_l, !abs_scaled. reflexivity.
Qed.

(** what the trace reports as a length scales with the unit; what it reports as a ratio stays *)
Theorem C109_figures axis l es es' y u n rs rs' fin : Forall (fun e => updated (e_place e)) es -> rescale_elements k es = Some es' ->
  ptrace axis l es y u n = Some rs -> ptrace axis l es' (k * fst y, k * snd y) u n = Some rs' ->
  focal_length rs' = option_map (fun p => (k * fst p, k * snd p)) (focal_length rs) /\
  focal_distance rs' = option_map (fun p => (k * fst p, k * snd p)) (focal_distance rs) /\
  ppupil_distance rs' = option_map (fun p => (k * fst p, k * snd p)) (ppupil_distance rs) /\
  ppupil_height rs' = option_map (fun p => (k * fst p, k * snd p)) (ppupil_height rs) /\
  magnification rs' = magnification rs /\ na_object rs' = na_object rs /\ na_image fin rs' = na_image fin rs /\
  f_number_object rs' = f_number_object rs /\ f_number_image rs' = f_number_image rs.
Proof.
  intros U RS E E'. rewrite (ptrace_scaled axis l es es') in E' by assumption. rewrite E in E'. cbn in E'. assert (rs' = map scaled_row rs) by congruence. subst rs'.
  split; [apply focal_scaled|]. split; [apply focal_distance_scaled|]. split; [apply pupil_distance_scaled|]. split; [apply pupil_height_scaled|].
  unfold magnification, na_object, na_image, f_number_object, f_number_image. rewrite focal_scaled, pupil_height_scaled, back_map, !nth_error_map.
  assert (F : forall a b, fdiv (k * a) (2 * (k * b)) = fdiv a (2 * b)).
  { intros a b. replace (2 * (k * b)) with (k * (2 * b)) by ring. apply fdiv_same. }
  split; [|split; [|split; [|split]]].
  - destruct (nth_error rs 0) as [r0|]; [|reflexivity]. destruct (back rs 2) as [r2|]; reflexivity.
  - destruct (nth_error rs 0) as [r0|]; reflexivity.
  - destruct (nth_error rs 0) as [r0|]; [|reflexivity]. destruct (back rs 2) as [r2|]; reflexivity.
  - destruct (focal_length rs) as [[f0 f1]|]; [|reflexivity]. cbn [obind option_map]. destruct (ppupil_height rs) as [[h0 h1]|]; [|reflexivity].
    cbn [obind option_map fst snd]. rewrite F. reflexivity.
  - destruct (focal_length rs) as [[f0 f1]|]; [|reflexivity]. cbn [obind option_map]. destruct (ppupil_height rs) as [[h0 h1]|]; [|reflexivity].
    cbn [obind option_map fst snd]. rewrite F. reflexivity.
Qed.
(** the spot radius and the depth of focus scale with the unit *)
Theorem C109_spot l scale na :
  airy_radius l (scale / k) na = option_map (Rmult k) (airy_radius l scale na) /\
  rayleigh_range l (scale / k) na = option_map (Rmult k) (rayleigh_range l scale na).
Proof.
  assert (A : airy_radius l (scale / k) na = option_map (Rmult k) (airy_radius l scale na)).
  { unfold airy_radius. destruct (fdiv _ (2 * na)) as [x|]; [|reflexivity]. cbn [obind]. rewrite fdiv_scale_r by lra. destruct (fdiv x scale); reflexivity. }
  split; [exact A|]. unfold rayleigh_range. rewrite A. destruct (airy_radius l scale na) as [r|]; [|reflexivity]. cbn [obind option_map].
  replace (PI * (k * r) ^ 2) with (k * (k * (PI * r ^ 2))) by ring. rewrite !(fdiv_scale_l k). destruct (fdiv _ l) as [x|]; [|reflexivity].
  cbn. f_equal. field. lra.
Qed.

(** third order coefficients *)
Lemma departure_scaled s : departure (rescale_surf k s) = option_map (fun '(d, c) => (d / k ^ 3, c / k)) (departure s).
Proof.
  unfold departure, rescale_surf. cbn [s_asph s_c s_k]. destruct (s_asph s) as [[|a2 [|a4 r]]|]; cbn [length seq combine map option_map]; try reflexivity.
  - f_equal. f_equal. field. lra.
  - change (2 * 0 + 1)%nat with 1%nat. change (2 * 1 + 1)%nat with 3%nat. f_equal. f_equal; field; lra.
  - f_equal. f_equal. field. lra.
Qed.
Lemma aberration_scaled m s y u0 u n0 n va vb :
  aberration m (rescale_surf k s) (k * fst y, k * snd y) u0 u n0 n va vb = aberration m s y u0 u n0 n va vb.
Proof.
  unfold aberration. rewrite departure_scaled. destruct (departure s) as [[d c]|]; [|reflexivity]. cbn [obind option_map fst snd].
  set (n1 := match m with Some m0 => if m_mirror m0 then - n else n | None => n end). cbv zeta.
  destruct (fdiv n0 n1) as [mu|]; [|reflexivity]. cbn [obind].
  destruct (fdiv (fst u0) n0) as [a0|]; [|reflexivity]. cbn [obind]. destruct (fdiv (snd u0) n0) as [a1|]; [|reflexivity]. cbn [obind].
  destruct (fdiv (fst u) n1) as [b0|]; [|reflexivity]. cbn [obind]. destruct (fdiv (snd u) n1) as [b1|]; [|reflexivity]. cbn [obind].
  set (L := fst u * snd y - snd u * fst y). replace (fst u * (k * snd y) - snd u * (k * fst y)) with (k * L) by (unfold L; ring).
  replace (c / k * (k * fst y)) with (c * fst y) by (field; lra). replace (c / k * (k * snd y)) with (c * snd y) by (field; lra).
  destruct (Req_EM_T L 0) as [Z | Z]; [rewrite Z, Rmult_0_r, !fdiv_zero; reflexivity|].
  rewrite !(fdiv_some _ L), !(fdiv_some _ (k * L)) by nra. cbn [obind].
  destruct (fdiv _ n0) as [p|]; [|reflexivity]. cbn [obind]. destruct (fdiv _ (n1 ^ 2)) as [q0|]; [|reflexivity]. cbn [obind].
  destruct (fdiv _ (n0 ^ 2)) as [q1|]; [|reflexivity]. cbn [obind]. f_equal. f_equal; field; lra.
Qed.
Lemma aberrations_from_scaled l1 l2 es : forall es' r0 rs v, rescale_elements k es = Some es' ->
  aberrations_from l1 l2 es' (scaled_row r0) (map scaled_row rs) v = aberrations_from l1 l2 es r0 rs v.
Proof.
  induction es as [|e es IH]; intros es' r0 rs v; cbn [rescale_elements]; [intros E; injection E as <-; reflexivity|].
  destruct (rescale_element k e) as [e'|] eqn:RE; [|discriminate]. cbn [obind].
  destruct (rescale_elements k es) as [es1|]; [|discriminate]. cbn [obind]. intros E. injection E as <-.
  destruct rs as [|r rs]; [reflexivity|]. cbn [map aberrations_from].
  assert (KE : e_kind e' = match e_kind e with Plain => Plain | Sph m s => Sph m (rescale_surf k s) end).
  { unfold rescale_element in RE. destruct (set_distance _ _); [|discriminate]. cbn [obind] in RE. injection RE as <-. reflexivity. }
  unfold element_aberration, element_dispersion. rewrite KE. cbn [scaled_row ry ru rn].
  destruct (e_kind e) as [|m s]; cbv zeta; [|rewrite aberration_scaled]; rewrite (IH es1) by reflexivity; reflexivity.
Qed.
(** the third order coefficients of every surface are the same in every unit; the aberrations of the image scale *)
Theorem C109_seidel axis l l1 l2 es es' y u n rs rs' xs : Forall (fun e => updated (e_place e)) es -> rescale_elements k es = Some es' ->
  ptrace axis l es y u n = Some rs -> ptrace axis l es' (k * fst y, k * snd y) u n = Some rs' ->
  aberrations l1 l2 es' rs' = aberrations l1 l2 es rs /\
  transverse3 rs' xs = option_map (map (scale_coefs k)) (transverse3 rs xs).
Proof.
  intros U RS E E'. rewrite (ptrace_scaled axis l es es') in E' by assumption. rewrite E in E'. cbn in E'. assert (rs' = map scaled_row rs) by congruence. subst rs'. split.
  - destruct es as [|e es]; [cbn in RS; injection RS as <-; reflexivity|]. cbn [rescale_elements] in RS.
    destruct (rescale_element k e) as [e'|]; [|discriminate]. cbn [obind] in RS.
    destruct (rescale_elements k es) as [es1|] eqn:R1; [|discriminate]. cbn [obind] in RS. injection RS as <-.
    destruct rs as [|r0 rs]; [reflexivity|]. cbn [map aberrations]. rewrite (aberrations_from_scaled l1 l2 es es1) by assumption. reflexivity.
  - unfold transverse3. rewrite back_map. destruct (back rs 1) as [r|]; [|reflexivity]. cbn [obind option_map]. f_equal. rewrite map_map. apply map_ext.
    intros x. cbn [scaled_row ry snd]. rewrite abs_scaled. unfold scale_coefs. cbn [tsc cc tac tpc dc tachc tchc]. f_equal; ring.
Qed.
End Units.

Example C109_wavefront_example : let es := [PropsOpd.flat 0; PropsOpd.flat 1] in exists es' x y,
  Forall (tractable 1000 (newton_steps 5)) es /\ Forall (fun e => updated (e_place e)) es /\ rescale_elements 1000 es = Some es' /\
  opd_ray es true 2 (-2) (-1) (1/4) 1 (geo_trace (newton_steps 5) es v0 ez 1 (1/4) false)
    (geo_trace (newton_steps 5) es (V (3/4) 0 0) (V (-3/5) 0 (4/5)) 1 (1/4) false) = Some (x, y, -1) /\
  opd_ray es' true (1000 * 2) (-2) (-1) (1/4) (1 / 1000) (geo_trace (newton_steps 5) es' (vmul3 1000 v0) ez 1 (1/4) false)
    (geo_trace (newton_steps 5) es' (vmul3 1000 (V (3/4) 0 0)) (V (-3/5) 0 (4/5)) 1 (1/4) false) = Some (1000 * x, 1000 * y, -1).
Proof.
  cbv zeta. set (es := [PropsOpd.flat 0; PropsOpd.flat 1]).
  assert (U : Forall (fun e => updated (e_place e)) es).
  { assert (P0 : 0 <= 0) by lra. assert (P1 : 0 <= 1) by lra. apply Forall_cons; [|apply Forall_cons; [|apply Forall_nil]].
    - exact (proj1 (C20_applies _ _ _ _ _ (place_front 0 P0))).
    - exact (proj1 (C20_applies _ _ _ _ _ (place_front 1 P1))). }
  assert (T : Forall (tractable 1000 (newton_steps 5)) es) by (repeat apply Forall_cons; try apply Forall_nil; exact I).
  destruct (rescales 1000 ltac:(lra) es U) as (es' & RS).
  destruct C54_stigmatic_example as (_ & _ & _ & _ & _ & _ & _ & x & y & O).
  assert (GA : geo_trace (newton_steps 5) es v0 ez 1 (1/4) false = axial_ray).
  { unfold es, axial_ray, geo_trace, sys_propagate. cbn. unfold plane_intercept. cbn. rewrite fdiv_some by lra. cbn. unfold at_ray. repeat (f_equal; try (apply vec_eq; cbn; lra); try lra). }
  assert (GT : geo_trace (newton_steps 5) es (V (3/4) 0 0) (V (-3/5) 0 (4/5)) 1 (1/4) false = tilted_ray).
  { unfold es, tilted_ray, geo_trace, sys_propagate. cbn. unfold plane_intercept. cbn. rewrite fdiv_some by lra. cbn. unfold at_ray. repeat (f_equal; try (apply vec_eq; cbn; lra); try lra). }
  exists es', x, y. split; [exact T|]. split; [exact U|]. split; [exact RS|]. split; [rewrite GA, GT; exact O|].
  rewrite (C109_wavefront 1000 ltac:(lra) (newton_steps 5) es es') by assumption. rewrite GA, GT. fold es in O. rewrite O. reflexivity.
Qed.
(** a thick water lens, also meeting the hypotheses of C109_paraxial and C109_seidel *)
Example C109_figures_example : exists es es' rs rs' f0 f1, Forall (fun e => updated (e_place e)) es /\ rescale_elements 1000 es = Some es' /\
  ptrace true 1 es (0, -1) (1, 1/9) 1 = Some rs /\ ptrace true 1 es' (1000 * 0, 1000 * -1) (1, 1/9) 1 = Some rs' /\ length es = 4%nat /\
  focal_length rs = Some (f0, f1) /\ f1 = 72/11 /\ focal_length rs' = Some (1000 * f0, 1000 * f1).
Proof.
  destruct C49_example as (p0 & p3 & p9 & p18 & rs & fl & fd & pd & mt & ma & last & r2 & E0 & E3 & E9 & E18 & _ & RI & _ & T & F & _ & _ & _ & _ & _ & _ & _ & _ & V).
  rewrite RI in T. set (es := lens3 p0 p3 p9 p18) in *.
  assert (U : Forall (fun e => updated (e_place e)) es).
  { unfold es, lens3. repeat apply Forall_cons; try apply Forall_nil; cbn [e_place];
      [exact (proj1 (C20_applies _ _ _ _ _ E0))|exact (proj1 (C20_applies _ _ _ _ _ E9))|exact (proj1 (C20_applies _ _ _ _ _ E3))|exact (proj1 (C20_applies _ _ _ _ _ E18))]. }
  destruct (rescales 1000 ltac:(lra) es U) as (es' & RS).
  destruct (C109_paraxial 1000 ltac:(lra) true 1 es es' (0, -1) (1, 1/9) 1 rs U RS T) as (rs' & T' & _). cbn [fst snd] in T'.
  destruct (C109_figures 1000 ltac:(lra) true 1 es es' (0, -1) (1, 1/9) 1 rs rs' true U RS T T') as (F' & _).
  exists es, es', rs, rs', (fst fl), (snd fl). repeat (split; [assumption|]).
  split; [reflexivity|].
  split; [rewrite F; destruct fl; reflexivity|]. split; [exact V|]. rewrite F', F. reflexivity.
Qed.
Example C109_spot_example : airy_radius 1 (1 / 1000) 61 = option_map (Rmult 1000) (Some (1 / 100)).
Proof. rewrite (proj1 (C109_spot 1000 ltac:(lra) 1 1 61)). unfold airy_radius. rewrite fdiv_some by lra. cbn [obind]. rewrite fdiv_some by lra. f_equal. f_equal. lra. Qed.
Print Assumptions C109_wavefront.
Print Assumptions C109_pixels.
Print Assumptions C109_paraxial.
Print Assumptions C109_figures.
Print Assumptions C109_spot.
Print Assumptions C109_seidel.
