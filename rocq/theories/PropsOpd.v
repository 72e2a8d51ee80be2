(** Property C54: the wave front error is the difference of optical paths to the reference sphere *)
From Coq Require Import Reals ZArith List Lra Lia Psatz.
From Verif Require Import Base Vec RotModel PlacementModel PlacementProofs ElementModel TraceProofs PropsElement PolyChain OpdModel.
Import ListNotations.
Open Scope R_scope.

(** * specification *)
(** position in the laboratory of a ray at element [k] *)
Definition lab_point (es : list element) (k : nat) (ray : list step) (P : vec) : Prop :=
  exists e o s y p, nth_error es k = Some e /\ nth_error (origins es) k = Some o /\ nth_error ray k = Some s /\
    st_y s = Some y /\ from_normal (e_place e) y = Some p /\ P = vadd3 o p.
(** its direction behind the element *)
Definition lab_direction (es : list element) (k : nat) (ray : list step) (U : vec) : Prop :=
  exists e s u, nth_error es k = Some e /\ nth_error ray k = Some s /\ st_u s = Some u /\ from_normal (e_place e) u = Some U.
(** optical path from the launch point to element [k] *)
Fixpoint optical_path (k : nat) (ray : list step) : option R :=
  match k, ray with
  | O, s :: _ => st_t s
  | S k, s :: ray => do t <- st_t s; do p <- optical_path k ray; Some (t + p)
  | _, [] => None
  end.
(** optical path from the plane through [q] perpendicular to [u] to the point [p] *)
Definition wave_front (n : R) (q u p : vec) : R := n * dot u (vsub3 p q).

(** the sphere used by default, centred on the image vertex, passes the vertex of the element before the
    image in a telecentric system, the exit pupil else (its distance counts from the image) *)
Theorem C54_default_sphere es a i oa oi pd : nth_error (origins es) a = Some oa -> nth_error (origins es) i = Some oi -> vx oa = vx oi -> vy oa = vy oi ->
  vsub3 oi (V 0 0 (default_radius true (vz oi) (vz oa) pd)) = oa /\
  vsub3 oi (V 0 0 (default_radius false (vz oi) (vz oa) pd)) = vadd3 oi (V 0 0 pd).
Proof.
  intros _ _ X Y. destruct oa as [x y z], oi as [x' y' z']. cbn in X, Y. subst x' y'. unfold default_radius, vsub3, vadd3. cbn. split; f_equal; ring.
Qed.
(** * lemmas *)
Lemma vm_sub y z m : vm (vsub3 y z) m = vsub3 (vm y m) (vm z m). Proof. vec_ring. Qed.
Lemma vm_back y m : rotation m -> vm (vm y m) (mT m) = y.
Proof. intros (A & B & _). rewrite <- vm_mm, A. apply vm_eye. Qed.
Lemma pyend_spec len after a : pyindex len after = Some a -> after <> (-1)%Z -> pyend len (after + 1) = S a.
Proof.
  unfold pyindex, pyend. intros H N. destruct (after <? 0)%Z eqn:E.
  - apply Z.ltb_lt in E. destruct (0 <=? after + Z.of_nat len)%Z eqn:A; [|discriminate]. destruct (after + Z.of_nat len <? Z.of_nat len)%Z eqn:B; [|discriminate].
    cbn in H. injection H as <-. apply Z.leb_le in A. destruct (after + 1 <? 0)%Z eqn:F; [|apply Z.ltb_ge in F; lia]. lia.
  - apply Z.ltb_ge in E. destruct (0 <=? after)%Z eqn:A; [|discriminate]. destruct (after <? Z.of_nat len)%Z eqn:B; [|discriminate].
    cbn in H. injection H as <-. destruct (after + 1 <? 0)%Z eqn:F; [apply Z.ltb_lt in F; lia|]. lia.
Qed.
Lemma path_diff_spec k : forall ray ref p pr, optical_path k ray = Some p -> optical_path k ref = Some pr ->
  path_diff (map st_t (firstn (S k) ray)) (map st_t (firstn (S k) ref)) = Some (p - pr).
Proof.
  induction k as [|k IH]; intros [|s ray] [|r ref] p pr A B; try discriminate.
  - cbn in A, B |- *. rewrite A, B. cbn [obind]. f_equal. ring.
  - cbn [optical_path] in A, B. change (firstn (S (S k)) (s :: ray)) with (s :: firstn (S k) ray). change (firstn (S (S k)) (r :: ref)) with (r :: firstn (S k) ref).
    cbn [map path_diff]. destruct (st_t s); cbn [obind] in *; [|discriminate]. destruct (st_t r); cbn [obind] in *; [|discriminate].
    destruct (optical_path k ray) eqn:X; cbn [obind] in *; [|discriminate]. destruct (optical_path k ref) eqn:Y; cbn [obind] in *; [|discriminate].
    rewrite (IH ray ref _ _ X Y). cbn [obind]. injection A as <-. injection B as <-. f_equal. ring.
Qed.
Lemma path_diff_some k : forall ray ref t, (k < length ray)%nat -> (k < length ref)%nat ->
  path_diff (map st_t (firstn (S k) ray)) (map st_t (firstn (S k) ref)) = Some t ->
  exists p pr, optical_path k ray = Some p /\ optical_path k ref = Some pr.
Proof.
  induction k as [|k IH]; intros [|s ray] [|r ref] t L M H; cbn [length] in L, M; try lia.
  - cbn in H |- *. destruct (st_t s); cbn [obind] in H; [|discriminate]. destruct (st_t r); cbn [obind] in H; [|discriminate]. eauto.
  - change (firstn (S (S k)) (s :: ray)) with (s :: firstn (S k) ray) in H. change (firstn (S (S k)) (r :: ref)) with (r :: firstn (S k) ref) in H.
    cbn [map path_diff optical_path] in *. destruct (st_t s); cbn [obind] in *; [|discriminate]. destruct (st_t r); cbn [obind] in *; [|discriminate].
    destruct (path_diff (map st_t (firstn (S k) ray)) (map st_t (firstn (S k) ref))) eqn:X; cbn [obind] in H; [|discriminate].
    apply IH in X; try lia. destruct X as (p & pr & -> & ->). cbn [obind]. eauto.
Qed.
Lemma sphere_on radius y u t : dot u u = 1 -> sphere_hit radius y u = Some t ->
  let p := at_ray y u t in dot (V (vx p) (vy p) (vz p - radius)) (V (vx p) (vy p) (vz p - radius)) = radius * radius /\ radius <> 0.
Proof.
  intros U H p. unfold sphere_hit in H. destruct (fdiv 1 radius) as [c|] eqn:C; cbn [obind] in H; [|discriminate].
  apply fdiv_inv in C. destruct C as (C & ->). apply C13_on_surface in H; [|auto]. fold p in H. unfold conic_set in H. cbn [s_c s_k] in H.
  split; [|auto]. unfold dot. cbn [vx vy vz].
  assert (Q : vx p * vx p + vy p * vy p + vz p * vz p = 2 * radius * vz p).
  { apply (Rmult_eq_reg_l (1 / radius)); [|apply Rmult_integral_contrapositive_currified; [lra|apply Rinv_neq_0_compat; auto]].
    transitivity (2 * vz p); [|field; auto]. lra. }
  lra.
Qed.
Lemma sphere_centre radius y u s : dot u u = 1 -> radius <> 0 -> at_ray y u s = V 0 0 radius -> sphere_hit radius y u = Some (s - radius).
Proof.
  intros U C H. unfold sphere_hit. rewrite fdiv_some by auto. cbn [obind]. unfold conic_intercept. cbn [s_c s_k s_alt].
  assert (N : 1 / radius <> 0) by (apply Rmult_integral_contrapositive_currified; [lra|apply Rinv_neq_0_compat; auto]).
  destruct (Req_EM_T (1 / radius) 0); [contradiction|]. destruct (Req_EM_T 0 0); [|congruence].
  unfold at_ray, vadd3, vmul3 in H. injection H as H1 H2 H3.
  set (yx := vx y) in *. set (yy := vy y) in *. set (yz := vz y) in *. set (ux := vx u) in *. set (uy := vy u) in *. set (uz := vz u) in *.
  assert (UU : ux * ux + uy * uy + uz * uz = 1) by exact U.
  assert (E1 : yx = - (s * ux)) by lra. assert (E2 : yy = - (s * uy)) by lra. assert (E3 : yz = radius - s * uz) by lra.
  assert (D : dot u y = radius * uz - s).
  { unfold dot. fold yx yy yz ux uy uz. rewrite E1, E2, E3. transitivity (radius * uz - s * (ux * ux + uy * uy + uz * uz)); [ring|rewrite UU; ring]. }
  assert (Y : dot y y = s * s - 2 * radius * s * uz + radius * radius).
  { unfold dot. fold yx yy yz. rewrite E1, E2, E3. transitivity (s * s * (ux * ux + uy * uy + uz * uz) - 2 * radius * s * uz + radius * radius); [ring|rewrite UU; ring]. }
  rewrite D, Y, E3.
  match goal with |- context [fsqrt ?e] => replace e with 1 by (field; auto) end.
  rewrite fsqrt_some by lra. rewrite sqrt_1. cbn [obind]. rewrite fdiv_some by lra. f_equal. field. auto.
Qed.
Lemma sphere_point_spec ea ei oa oi yref radius y u : good_place (e_place ea) -> good_place (e_place ei) -> dot u u = 1 ->
  exists p q U, from_normal (e_place ea) y = Some p /\ from_normal (e_place ei) yref = Some q /\ from_normal (e_place ea) u = Some U /\ dot U U = 1 /\
  let P := vadd3 oa p in let Q := vadd3 oi q in
  (forall t v, sphere_point ea ei oa oi yref radius (Some y) (Some u) = Some (t, v) ->
     to_normal (e_place ei) (vsub3 (vadd3 P (vmul3 t U)) Q) = Some v /\
     dot (vsub3 (vadd3 P (vmul3 t U)) Q) (vsub3 (vadd3 P (vmul3 t U)) Q) = radius * radius /\ radius <> 0) /\
  (forall s, radius <> 0 -> vadd3 P (vmul3 s U) = Q ->
     exists v, sphere_point ea ei oa oi yref radius (Some y) (Some u) = Some (s - radius, v)).
Proof.
  intros GA GI UU. destruct (normal_maps _ GA) as (ra & RA & FA & TA). destruct (normal_maps _ GI) as (ri & RI & FI & TI).
  exists (vm y ra), (vm yref ri), (vm u ra). split; [auto|]. split; [auto|]. split; [auto|].
  split; [rewrite rotation_dot; auto|]. cbv zeta. split.
  - intros t v H. unfold sphere_point in H. cbn [obind] in H. unfold to_sphere in H. rewrite !FA in H. cbn [obind] in H. rewrite !TI in H. cbn [obind] in H.
    set (U := vm u ra) in *. set (u' := vm U (mT ri)) in *.
    set (y' := V _ _ (_ + radius)) in *.
    destruct (sphere_hit radius y' u') as [t'|] eqn:S; cbn [obind] in H; [|discriminate]. injection H as <- <-.
    assert (U1 : dot u' u' = 1). { unfold u', U. rewrite rotation_dot by (apply rotation_mT; auto). rewrite rotation_dot; auto. }
    apply sphere_on in S; [|auto]. cbv zeta in S. destruct S as (S & RN).
    assert (E : vm (vsub3 (vadd3 (vadd3 oa (vm y ra)) (vmul3 t' U)) (vadd3 oi (vm yref ri))) (mT ri) =
      V (vx (at_ray y' u' t')) (vy (at_ray y' u' t')) (vz (at_ray y' u' t') - radius)).
    { subst y' u'. rewrite ?vm_sub, ?vm_add, ?vm_sub, ?vm_scale, (vm_back yref ri RI).
      generalize (vm (vm y ra) (mT ri)) (vm U (mT ri)) (vm oa (mT ri)) (vm oi (mT ri)). intros. unfold at_ray. apply vec_eq; unfold vadd3, vsub3, vmul3; cbn [vx vy vz]; ring. }
    rewrite TI, E. split; [reflexivity|]. split; [|auto]. rewrite <- S. rewrite <- E. rewrite rotation_dot by (apply rotation_mT; auto). reflexivity.
  - intros s RN H. unfold sphere_point. cbn [obind]. unfold to_sphere. rewrite !FA. cbn [obind]. rewrite !TI. cbn [obind].
    set (U := vm u ra) in *. set (u' := vm U (mT ri)) in *. set (y' := V _ _ (_ + radius)) in *.
    assert (U1 : dot u' u' = 1). { unfold u', U. rewrite rotation_dot by (apply rotation_mT; auto). rewrite rotation_dot; auto. }
    rewrite (sphere_centre radius y' u' s U1 RN).
    + cbn [obind]. eauto.
    + assert (Z : vm (vsub3 (vadd3 (vadd3 oa (vm y ra)) (vmul3 s U)) (vadd3 oi (vm yref ri))) (mT ri) = v0).
      { rewrite H. vec_ring. }
      rewrite vm_sub, !vm_add, vm_scale in Z. rewrite (vm_back yref ri RI) in Z. fold u' in Z.
      subst y'. clear - Z. rewrite vm_add, vm_sub. revert Z. generalize (vm (vm y ra) (mT ri)) u' (vm oa (mT ri)) (vm oi (mT ri)). intros a b c d Z.
      unfold v0, vadd3, vsub3, vmul3 in Z. cbn [vx vy vz] in Z. injection Z as Z1 Z2 Z3.
      apply vec_eq; unfold at_ray, vadd3, vsub3, vmul3; cbn [vx vy vz]; lra.
Qed.

(** * theorems *)
(** what the reported numbers are: points of ray and reference ray on the sphere of the given radius around the image of the
    reference ray, and the difference of their optical paths from object (or incoming wave front) to these points in waves *)
Theorem C54_meaning es finite radius after image l scale ref ray x y t a i :
  Forall (fun e => good_place (e_place e)) es -> after <> (-1)%Z ->
  pyindex (length es) after = Some a -> pyindex (length es) image = Some i ->
  (forall s u, nth_error ray a = Some s -> st_u s = Some u -> dot u u = 1) ->
  (forall s u, nth_error ref a = Some s -> st_u s = Some u -> dot u u = 1) ->
  opd_ray es finite radius after image l scale ref ray = Some (x, y, t) ->
  exists P U Pr Ur Q p pr s sr n n0 y0 y0r u0r ei v,
    lab_point es a ray P /\ lab_direction es a ray U /\ lab_point es a ref Pr /\ lab_direction es a ref Ur /\ lab_point es i ref Q /\
    optical_path a ray = Some p /\ optical_path a ref = Some pr /\
    (exists st, nth_error ref a = Some st /\ n = st_n st) /\ (exists st, nth_error ref 0 = Some st /\ n0 = st_n st /\ st_y st = Some y0r /\ st_u st = Some u0r) /\
    (exists st, nth_error ray 0 = Some st /\ st_y st = Some y0) /\
    let X := vadd3 P (vmul3 s U) in let Xr := vadd3 Pr (vmul3 sr Ur) in
    dot (vsub3 X Q) (vsub3 X Q) = radius * radius /\ dot (vsub3 Xr Q) (vsub3 Xr Q) = radius * radius /\
    nth_error es i = Some ei /\ to_normal (e_place ei) (vsub3 X Xr) = Some v /\ x = vx v /\ y = vy v /\
    t * (l / scale) = (pr + n * sr) - ((if finite then 0 else wave_front n0 y0r u0r y0) + p + n * s).
Proof.
  intros G NA IA II UR URR H. unfold opd_ray in H. rewrite (pyend_spec _ _ _ IA NA) in H.
  destruct (path_diff _ _) as [d|] eqn:PD; cbn [obind] in H; [|discriminate].
  destruct (nth_error ref 0) as [s0|] eqn:R0; cbn [obind] in H; [|discriminate].
  unfold launched in H. rewrite R0 in H. cbn [obind] in H.
  destruct (st_y s0) as [y0r|] eqn:Y0R; cbn [obind] in H; [|discriminate]. destruct (st_u s0) as [u0r|] eqn:U0R; cbn [obind] in H; [|discriminate].
  destruct (nth_error ray 0) as [t0|] eqn:T0; cbn [obind] in H; [|discriminate].
  destruct (st_y t0) as [y0|] eqn:Y0; cbn [obind] in H; [|discriminate]. destruct (st_u t0) as [u0|] eqn:U0; cbn [obind] in H; [|discriminate].
  rewrite IA, II in H. cbn [obind] in H.
  destruct (nth_error es a) as [ea|] eqn:EA; cbn [obind] in H; [|discriminate]. destruct (nth_error es i) as [ei|] eqn:EI; cbn [obind] in H; [|discriminate].
  destruct (nth_error (origins es) a) as [oa|] eqn:OA; cbn [obind] in H; [|discriminate]. destruct (nth_error (origins es) i) as [oi|] eqn:OI; cbn [obind] in H; [|discriminate].
  destruct (nth_error ref a) as [sr|] eqn:SR; cbn [obind] in H; [|discriminate]. destruct (nth_error ray a) as [s|] eqn:SS; cbn [obind] in H; [|discriminate].
  destruct (nth_error ref i) as [si|] eqn:SI; cbn [obind] in H; [|discriminate]. destruct (st_y si) as [yref|] eqn:YR; cbn [obind] in H; [|discriminate].
  destruct (st_y sr) as [yr|] eqn:YA; [|discriminate]. destruct (st_u sr) as [ur|] eqn:UA; [|discriminate].
  destruct (sphere_point _ _ _ _ _ _ (Some yr) (Some ur)) as [[tr vr]|] eqn:PR; cbn [obind] in H; [|discriminate].
  destruct (st_y s) as [yy|] eqn:YB; [|discriminate]. destruct (st_u s) as [uu|] eqn:UB; [|discriminate].
  destruct (sphere_point _ _ _ _ _ _ (Some yy) (Some uu)) as [[tt vv]|] eqn:PP; cbn [obind fst snd] in H; [|discriminate].
  destruct (fdiv l scale) as [q|] eqn:Q; cbn [obind] in H; [|discriminate]. apply fdiv_inv in Q. destruct Q as (SN & ->).
  destruct (fdiv _ (l / scale)) as [w|] eqn:W; cbn [obind] in H; [|discriminate]. apply fdiv_inv in W. destruct W as (LN & ->). injection H as HX HY HT.
  rewrite Forall_forall in G. pose proof (G ea (nth_error_In _ _ EA)) as GA. pose proof (G ei (nth_error_In _ _ EI)) as GI.
  destruct (path_diff_some a ray ref d) as (p & pr & HP & HPR); auto.
  { apply nth_error_Some. congruence. } { apply nth_error_Some. congruence. }
  rewrite (path_diff_spec a ray ref p pr HP HPR) in PD. injection PD as <-.
  destruct (sphere_point_spec ea ei oa oi yref radius yr ur GA GI (URR _ _ eq_refl UA)) as (Pr & Qq & Ur & F1 & F2 & F3 & _ & F5 & _).
  destruct (sphere_point_spec ea ei oa oi yref radius yy uu GA GI (UR _ _ eq_refl UB)) as (P & Qq' & U & E1 & E2 & E3 & _ & E5 & _).
  assert (Qq' = Qq) by congruence. subst Qq'. destruct (F5 _ _ PR) as (T1 & D1 & _). destruct (E5 _ _ PP) as (T2 & D2 & _).
  destruct (normal_maps _ GI) as (ri & RI & FI & TI). rewrite TI in T1, T2. injection T1 as T1. injection T2 as T2.
  exists (vadd3 oa P), U, (vadd3 oa Pr), Ur, (vadd3 oi Qq), p, pr, tt, tr, (st_n sr), (st_n s0), y0, y0r, u0r, ei, (vsub3 vv vr).
  repeat apply conj; auto.
  - exists ea, oa, s, yy, P. auto 10.
  - exists ea, s, uu. auto 10.
  - exists ea, oa, sr, yr, Pr. auto 10.
  - exists ea, sr, ur. auto 10.
  - exists ei, oi, si, yref, Qq. auto 10.
  - exists sr. auto.
  - exists s0. auto.
  - exists t0. auto.
  - rewrite TI. f_equal. rewrite <- T1, <- T2. rewrite !vm_sub. generalize (vm (vadd3 (vadd3 oa P) (vmul3 tt U)) (mT ri)) (vm (vadd3 (vadd3 oa Pr) (vmul3 tr Ur)) (mT ri)) (vm (vadd3 oi Qq) (mT ri)). intros aa bb cc. vec_ring.
  - rewrite <- HT. unfold launch_path, wave_front. destruct finite; [field; split; [auto|intros Z; apply LN; rewrite Z; field; auto]|].
    replace (dot u0r (vsub3 y0 y0r)) with (- dot u0r (vsub3 y0r y0)) by (unfold dot, vsub3; cbn [vx vy vz]; ring).
    field. split; [auto|]. intros Z; apply LN; rewrite Z; field; auto.
Qed.
(** if ray and reference ray meet in the image of the reference ray, the result does not depend on the sphere: it is the
    difference of their optical paths to that image; so it vanishes exactly if these are equal *)
Theorem C54_stigmatic es (finite : bool) radius after image l scale ref ray a i P U Pr Ur Q p pr s sr st0 st sta y0 u0 y0r u0r :
  Forall (fun e => good_place (e_place e)) es -> after <> (-1)%Z -> radius <> 0 -> l <> 0 -> scale <> 0 ->
  pyindex (length es) after = Some a -> pyindex (length es) image = Some i ->
  lab_point es a ray P -> lab_direction es a ray U -> dot U U = 1 ->
  lab_point es a ref Pr -> lab_direction es a ref Ur -> dot Ur Ur = 1 -> lab_point es i ref Q ->
  optical_path a ray = Some p -> optical_path a ref = Some pr ->
  nth_error ref 0 = Some st0 -> st_y st0 = Some y0r -> st_u st0 = Some u0r -> nth_error ray 0 = Some st -> st_y st = Some y0 -> st_u st = Some u0 ->
  nth_error ref a = Some sta ->
  vadd3 P (vmul3 s U) = Q -> vadd3 Pr (vmul3 sr Ur) = Q ->
  let total := (if finite then 0 else wave_front (st_n st0) y0r u0r y0) + p + st_n sta * s in
  let total_ref := pr + st_n sta * sr in
  exists x y, opd_ray es finite radius after image l scale ref ray = Some (x, y, (total_ref - total) / (l / scale)) /\
    ((total_ref - total) / (l / scale) = 0 <-> total = total_ref).
Proof.
  intros G NA RN LN SN IA II LP LD U1 LPR LDR U1R LQ HP HPR R0 Y0R U0R T0 Y0 U0 SA M MR total total_ref.
  destruct LP as (ea & oa & s1 & yy & pp & EA & OA & SS & YY & FP & ->). destruct LD as (ea' & s1' & uu & EA' & SS' & UU & FU).
  destruct LPR as (ea2 & oa2 & s2 & yr & ppr & EA2 & OA2 & SR & YR & FPR & ->). destruct LDR as (ea3 & s3 & ur & EA3 & SR3 & UR & FUR).
  destruct LQ as (ei & oi & si & yref & q & EI & OI & SI & YI & FQ & ->).
  assert (ea' = ea) by congruence. assert (s1' = s1) by congruence. assert (ea2 = ea) by congruence. assert (oa2 = oa) by congruence. assert (ea3 = ea) by congruence.
  assert (s3 = s2) by congruence. assert (s2 = sta) by congruence. subst ea' s1' ea2 oa2 ea3 s3 s2.
  rewrite Forall_forall in G. pose proof (G ea (nth_error_In _ _ EA)) as GA. pose proof (G ei (nth_error_In _ _ EI)) as GI.
  destruct (normal_maps _ GA) as (ra & RA & FA & TA).
  assert (N1 : dot uu uu = 1). { rewrite FA in FU. injection FU as <-. rewrite rotation_dot in U1; auto. }
  assert (N2 : dot ur ur = 1). { rewrite FA in FUR. injection FUR as <-. rewrite rotation_dot in U1R; auto. }
  destruct (sphere_point_spec ea ei oa oi yref radius yr ur GA GI N2) as (p' & q' & U' & F1 & F2 & F3 & _ & _ & F5).
  destruct (sphere_point_spec ea ei oa oi yref radius yy uu GA GI N1) as (p'' & q'' & U'' & E1 & E2 & E3 & _ & _ & E5).
  assert (p' = ppr) by congruence. assert (q' = q) by congruence. assert (U' = Ur) by congruence. assert (p'' = pp) by congruence. assert (q'' = q) by congruence. assert (U'' = U) by congruence. subst p' q' U' p'' q'' U''.
  destruct (F5 sr RN MR) as (vr & PR). destruct (E5 s RN M) as (vv & PP).
  assert (LS : l / scale <> 0) by (apply Rmult_integral_contrapositive_currified; [auto|apply Rinv_neq_0_compat; auto]).
  exists (vx vv - vx vr), (vy vv - vy vr). split.
  - unfold opd_ray. rewrite (pyend_spec _ _ _ IA NA), (path_diff_spec a ray ref p pr HP HPR). cbn [obind]. unfold launched. rewrite R0, T0. cbn [obind].
    rewrite Y0R, U0R, Y0, U0. cbn [obind]. rewrite IA, II. cbn [obind]. rewrite EA, EI. cbn [obind]. rewrite OA, OI. cbn [obind]. rewrite SR, SS. cbn [obind].
    rewrite SI. cbn [obind]. rewrite YI. cbn [obind]. rewrite YR, UR, PR. cbn [obind]. rewrite YY, UU, PP. cbn [obind fst snd].
    rewrite fdiv_some by auto. cbn [obind]. rewrite fdiv_some by auto. cbn [obind]. f_equal. f_equal. unfold Rdiv. f_equal. unfold total, total_ref, launch_path, wave_front.
    destruct finite; [ring|]. unfold dot, vsub3. cbn [vx vy vz]. ring.
  - split; intros Z; [|rewrite Z; unfold Rdiv; ring]. apply Rmult_integral in Z. destruct Z as [Z|Z]; [lra|]. exfalso. apply Rinv_neq_0_compat in LS. auto.
Qed.
(** the reference ray itself has no error *)
Theorem C54_reference es finite radius after image l scale ref x y t :
  opd_ray es finite radius after image l scale ref ref = Some (x, y, t) -> x = 0 /\ y = 0 /\ t = 0.
Proof.
  intros H. unfold opd_ray in H.
  assert (Z : forall l t, path_diff l l = Some t -> t = 0).
  { clear. induction l as [|o l IH]; intros t; cbn; [congruence|]. destruct o; cbn [obind]; [|discriminate]. destruct (path_diff l l); cbn [obind]; [|discriminate].
    intros E. injection E as <-. rewrite (IH _ eq_refl). ring. }
  destruct (path_diff _ _) as [d|] eqn:PD; cbn [obind] in H; [|discriminate]. apply Z in PD. subst d.
  destruct (nth_error ref 0); cbn [obind] in H; [|discriminate]. destruct (launched ref) as [yu|]; cbn [obind] in H; [|discriminate].
  do 8 (match type of H with obind ?o _ = _ => destruct o; cbn [obind] in H; [|discriminate] end).
  match type of H with obind ?o _ = _ => destruct o; cbn [obind] in H; [|discriminate] end.
  match type of H with obind ?o _ = _ => destruct o as [pr|]; cbn [obind] in H; [|discriminate] end.
  repeat match type of H with obind ?o _ = _ => destruct o eqn:?; cbn [obind] in H; [|discriminate] end.
  injection H as <- <- <-. split; [ring|]. split; [ring|].
  match goal with E : fdiv (- ?e) _ = Some _ |- _ => apply fdiv_inv in E; destruct E as (_ & ->); replace e with 0 end; [unfold Rdiv; ring|].
  unfold launch_path. destruct finite; [ring|]. unfold dot, vsub3. cbn [vx vy vz]. ring.
Qed.

(** * where a ray is launched along its line does not matter *)
Lemma conic_slide s y u d : dot u u = 1 ->
  conic_intercept s (at_ray y u d) u = do t <- conic_intercept s y u; Some (t - d).
Proof.
  intros U. unfold conic_intercept. destruct (Req_EM_T (s_c s) 0) as [C|C].
  - destruct (Req_EM_T (vz u) 0) as [Z|Z].
    + rewrite Z, !fdiv_zero. reflexivity.
    + rewrite !fdiv_some by auto. cbn [obind]. f_equal. unfold at_ray, vadd3, vmul3. cbn [vx vy vz]. field. auto.
  - unfold dot in U. destruct (Req_EM_T (s_k s) 0) as [K|K].
    + unfold at_ray, dot, vadd3, vmul3. cbn [vx vy vz].
      set (c := s_c s) in *. set (ux := vx u) in *. set (uy := vy u) in *. set (uz := vz u) in *. set (x := vx y). set (w := vy y). set (z := vz y).
      set (D := c * (ux * x + uy * w + uz * z) - uz). set (F := c * (x * x + w * w + z * z) - 2 * z).
      replace (c * (ux * (x + d * ux) + uy * (w + d * uy) + uz * (z + d * uz)) - uz) with (D + d * (c * 1)).
      2:{ unfold D. transitivity (c * (ux * x + uy * w + uz * z) - uz + d * (c * (ux * ux + uy * uy + uz * uz))); [rewrite U|]; ring. }
      replace (c * ((x + d * ux) * (x + d * ux) + (w + d * uy) * (w + d * uy) + (z + d * uz) * (z + d * uz)) - 2 * (z + d * uz)) with (F + 2 * d * D + d * d * (c * 1)).
      2:{ unfold F, D. transitivity (c * (x * x + w * w + z * z) - 2 * z + 2 * d * (c * (ux * x + uy * w + uz * z) - uz) + d * d * (c * (ux * ux + uy * uy + uz * uz))); [rewrite U|]; ring. }
      replace ((D + d * (c * 1)) * (D + d * (c * 1)) - c * 1 * (F + 2 * d * D + d * d * (c * 1))) with (D * D - c * 1 * F) by ring.
      destruct (fsqrt (D * D - c * 1 * F)); cbn [obind]; [|reflexivity]. rewrite !fdiv_some by lra. cbn [obind]. f_equal. field. auto.
    + unfold at_ray, vadd3, vmul3. cbn [vx vy vz].
      set (c := s_c s) in *. set (k := 1 + s_k s) in *. set (ux := vx u) in *. set (uy := vy u) in *. set (uz := vz u) in *. set (x := vx y). set (w := vy y). set (z := vz y).
      set (D := c * (ux * x * 1 + uy * w * 1 + uz * z * k) - uz). set (F := c * (x * x * 1 + w * w * 1 + z * z * k) - 2 * z). set (E := c * (ux * ux * 1 + uy * uy * 1 + uz * uz * k)).
      replace (c * (ux * (x + d * ux) * 1 + uy * (w + d * uy) * 1 + uz * (z + d * uz) * k) - uz) with (D + d * E) by (unfold D, E; ring).
      replace (c * ((x + d * ux) * (x + d * ux) * 1 + (w + d * uy) * (w + d * uy) * 1 + (z + d * uz) * (z + d * uz) * k) - 2 * (z + d * uz)) with (F + 2 * d * D + d * d * E) by (unfold F, D, E; ring).
      replace ((D + d * E) * (D + d * E) - E * (F + 2 * d * D + d * d * E)) with (D * D - E * F) by ring.
      destruct (fsqrt (D * D - E * F)); cbn [obind]; [|reflexivity]. destruct (Req_EM_T E 0) as [Z|Z].
      * rewrite Z, !fdiv_zero. reflexivity.
      * rewrite !fdiv_some by auto. cbn [obind]. f_equal. field. auto.
Qed.
Definition closed_form (e : element) : Prop := match e_kind e with Plain => True | Sph _ s => s_asph s = None end.
Section Launch.
Variable newton : (R -> option R) -> (R -> option R) -> option R -> option R.
Lemma propagate_slide e y u d n l c : dot u u = 1 -> closed_form e ->
  propagate newton e (Some (at_ray y u d)) (Some u) n l c =
  let '(y', u', n', t') := propagate newton e (Some y) (Some u) n l c in (y', u', n', do t <- t'; Some (t - d * n)).
Proof.
  intros U CF. unfold propagate. cbn [obind].
  assert (I : match e_kind e with Plain => plane_intercept (at_ray y u d) u | Sph _ s => intercept newton s (at_ray y u d) u end =
    do t <- match e_kind e with Plain => plane_intercept y u | Sph _ s => intercept newton s y u end; Some (t - d)).
  { unfold closed_form in CF. destruct (e_kind e) as [|m s].
    - unfold plane_intercept. destruct (Req_EM_T (vz u) 0) as [Z|Z]; [rewrite Z, !fdiv_zero; reflexivity|]. rewrite !fdiv_some by auto. cbn [obind]. f_equal.
      unfold at_ray, vadd3, vmul3. cbn [vx vy vz]. field. auto.
    - unfold intercept. rewrite CF. apply conic_slide. auto. }
  rewrite I. clear I CF.
  set (tt := match e_kind e with Plain => plane_intercept y u | Sph _ s => intercept newton s y u end).
  replace (do t <- (do t <- tt; Some (t - d)); Some (at_ray (at_ray y u d) u t)) with (do t <- tt; Some (at_ray y u t)).
  2:{ destruct tt; cbn [obind]; [|reflexivity]. f_equal. unfold at_ray, vadd3, vmul3. cbn [vx vy vz]. apply vec_eq; cbn [vx vy vz]; ring. }
  replace (do t <- (do t <- tt; Some (t - d)); Some (t * n)) with (do t <- (do t <- tt; Some (t * n)); Some (t - d * n)).
  2:{ destruct tt; cbn [obind]; [|reflexivity]. f_equal. ring. }
  destruct (e_kind e) as [|m s]; [reflexivity|]. destruct (get_n_mu m n l) as [n' [mu|]]; reflexivity.
Qed.
Lemma path_diff_shift d s ts : forall r rs, path_diff ((do t <- s; Some (t - d)) :: ts) (r :: rs) = do p <- path_diff (s :: ts) (r :: rs); Some (p - d).
Proof.
  intros r rs. cbn [path_diff]. destruct s; cbn [obind]; [|reflexivity]. destruct r; cbn [obind]; [|reflexivity]. destruct (path_diff ts rs); cbn [obind]; [|reflexivity]. f_equal. ring.
Qed.
(** infinite object: launching a ray of the bundle from another point of its line changes nothing *)
Theorem C54_launch e0 e1 es yr y u n l scale c d radius after image :
  good_place (e_place e0) -> good_place (e_place e1) -> closed_form e1 -> dot u u = 1 -> after <> (-1)%Z -> after <> 0%Z -> (2 <= length (e1 :: es))%nat ->
  (after < 0 -> - Z.of_nat (length (e1 :: es)) <= after)%Z ->
  let sys := e0 :: e1 :: es in let ref := geo_trace newton sys yr u n l c in
  opd_ray sys false radius after image l scale ref (geo_trace newton sys (at_ray y u d) u n l c) =
  opd_ray sys false radius after image l scale ref (geo_trace newton sys y u n l c).
Proof.
  intros G0 G1 CF U NA N0 LEN LOW sys ref.
  destruct (normal_maps _ G0) as (r0 & R0 & F0 & T0). destruct (normal_maps _ G1) as (r1 & R1 & F1 & T1).
  assert (STEP : forall y, geo_trace newton sys y u n l c =
    let '(y', u', n', t') := propagate newton e1 (Some (vm (vsub3 (vm y r0) (p_offset (e_place e1))) (mT r1))) (Some (vm (vm u r0) (mT r1))) n l c in
    Step (Some y) (Some u) n (Some u) (Some 0) :: Step y' u' n' (Some (vm (vm u r0) (mT r1))) t' ::
      sys_propagate newton es (onormal (from_normal (e_place e1)) y') (onormal (from_normal (e_place e1)) u') n' l c).
  { intros z. unfold sys. cbn [geo_trace sys_propagate]. rewrite !F0. unfold onormal at 1 2. cbn [obind]. rewrite !T1.
    destruct (propagate _ _ _ _ _ _ _) as [[[y1 u1] n1] t1]. reflexivity. }
  assert (REF : exists a b, ref = Step (Some yr) (Some u) n (Some u) (Some 0) :: a :: b).
  { unfold ref. rewrite STEP. destruct (propagate _ _ _ _ _ _ _) as [[[y' u'] n'] t']. eauto. }
  destruct REF as (ra & rb & ->).
  rewrite (STEP (at_ray y u d)), (STEP y). clear STEP.
  replace (vm (vsub3 (vm (at_ray y u d) r0) (p_offset (e_place e1))) (mT r1)) with
    (at_ray (vm (vsub3 (vm y r0) (p_offset (e_place e1))) (mT r1)) (vm (vm u r0) (mT r1)) d).
  2:{ unfold at_ray. rewrite (vm_add y (vmul3 d u) r0), vm_scale. rewrite !vm_sub, vm_add, vm_scale.
      generalize (vm (vm y r0) (mT r1)) (vm (vm u r0) (mT r1)) (vm (p_offset (e_place e1)) (mT r1)). intros aa bb cc. vec_ring. }
  rewrite propagate_slide; [|rewrite rotation_dot by (apply rotation_mT; auto); rewrite rotation_dot; auto|auto].
  destruct (propagate _ _ _ _ _ _ _) as [[[y' u'] n'] t'].
  set (rest := sys_propagate newton es _ _ n' l c). clearbody rest.
  assert (END : exists k, pyend (length sys) (after + 1) = S (S k)).
  { unfold sys, pyend. cbn [length] in *. destruct (after + 1 <? 0)%Z eqn:E.
    - apply Z.ltb_lt in E. exists (Z.to_nat (after + 1 + Z.of_nat (length es))). lia.
    - apply Z.ltb_ge in E. exists (Z.to_nat (after - 1)). lia. }
  destruct END as (k & END).
  unfold opd_ray. rewrite END. cbn [firstn map st_t]. 
  set (dt := d * n). set (A := map st_t (firstn k rest)). set (B := map st_t (firstn k rb)).
  assert (PD : path_diff (Some 0 :: (do t <- t'; Some (t - dt)) :: A) (Some 0 :: st_t ra :: B) =
    do p <- path_diff (Some 0 :: t' :: A) (Some 0 :: st_t ra :: B); Some (p - dt)).
  { assert (HD : forall x z, path_diff (Some 0 :: x) (Some 0 :: z) = do p <- path_diff x z; Some (0 - 0 + p)) by reflexivity.
    rewrite !HD, path_diff_shift. destruct (path_diff (t' :: A) (st_t ra :: B)); cbn [obind]; [|reflexivity]. f_equal. ring. }
  rewrite PD. clear PD. destruct (path_diff (Some 0 :: t' :: A) (Some 0 :: st_t ra :: B)) as [p|]; cbn [obind]; [|reflexivity].
  unfold launched. cbn [nth_error obind st_y st_u st_n fst snd].
  assert (LP : p - dt - launch_path false n (at_ray y u d) yr u = p - launch_path false n y yr u).
  { unfold launch_path, dt. transitivity (p - d * n - (dot u (vsub3 yr y) - d * dot u u) * n).
    - f_equal. f_equal. unfold dot, vsub3, at_ray, vadd3, vmul3. cbn [vx vy vz]. ring.
    - rewrite U. ring. }
  rewrite LP. destruct (pyindex (length sys) after) as [a|] eqn:IA; cbn [obind]; [|reflexivity].
  assert (SAME : exists b, a = S b).
  { pose proof (pyend_spec _ _ _ IA NA) as Q. rewrite END in Q. injection Q as <-. eauto. }
  destruct SAME as (b & ->). cbn [nth_error].
  destruct (pyindex (length sys) image) as [i|]; cbn [obind]; [|reflexivity].
  destruct b as [|b]; cbn [nth_error]; [|reflexivity].
  cbn [st_y st_u obind]. reflexivity.
Qed.
End Launch.
Lemma same_nth r r' : Forall2 (fun s s' => st_y s = st_y s' /\ st_u s = st_u s' /\ st_n s = st_n s') r r' -> forall j,
  match nth_error r j, nth_error r' j with
  | Some s, Some s' => st_y s = st_y s' /\ st_u s = st_u s' /\ st_n s = st_n s' | None, None => True | _, _ => False end.
Proof. induction 1 as [|s s' r r' A F IH]; intros [|j]; cbn [nth_error]; [exact I|exact I|exact A|apply IH]. Qed.
(** finding: with [after=-1] (sphere intersected behind the last element) the paths through the system are dropped:
    [t[:after + 1]] is empty *)
Theorem C54_after_last_refuted es finite radius image l scale ref ray ref' ray' :
  let same := Forall2 (fun s s' => st_y s = st_y s' /\ st_u s = st_u s' /\ st_n s = st_n s') in
  same ref ref' -> same ray ray' ->
  opd_ray es finite radius (-1) image l scale ref ray = opd_ray es finite radius (-1) image l scale ref' ray'.
Proof.
  intros same H K. assert (NTH := same_nth).
  unfold opd_ray. change (pyend (length es) (-1 + 1)) with 0%nat. cbn [firstn map path_diff obind]. unfold launched.
  pose proof (NTH ref ref' H 0%nat) as A. pose proof (NTH ray ray' K 0%nat) as B.
  destruct (nth_error ref 0) as [s|], (nth_error ref' 0) as [s'|]; try contradiction; [|reflexivity]. cbn [obind]. destruct A as (-> & -> & ->).
  destruct (nth_error ray 0) as [r|], (nth_error ray' 0) as [r'|]; try contradiction; cbn [obind].
  2:{ destruct (st_y s'); cbn [obind]; [destruct (st_u s')|]; reflexivity. }
  destruct B as (-> & -> & _).
  destruct (do y <- st_y s'; do u <- st_u s'; Some (y, u)); cbn [obind]; [|reflexivity].
  destruct (do y <- st_y r'; do u <- st_u r'; Some (y, u)); cbn [obind]; [|reflexivity].
  destruct (pyindex _ (-1)) as [a|]; cbn [obind]; [|reflexivity]. destruct (pyindex _ image) as [i|]; cbn [obind]; [|reflexivity].
  destruct (nth_error es a); cbn [obind]; [|reflexivity]. destruct (nth_error es i); cbn [obind]; [|reflexivity].
  destruct (nth_error (origins es) a); cbn [obind]; [|reflexivity]. destruct (nth_error (origins es) i); cbn [obind]; [|reflexivity].
  pose proof (NTH ref ref' H a) as A. destruct (nth_error ref a), (nth_error ref' a); try contradiction; cbn [obind]; [|reflexivity]. destruct A as (-> & -> & ->).
  pose proof (NTH ray ray' K a) as B. destruct (nth_error ray a), (nth_error ray' a); try contradiction; cbn [obind]; [|reflexivity]. destruct B as (-> & -> & _).
  pose proof (NTH ref ref' H i) as C. destruct (nth_error ref i), (nth_error ref' i); try contradiction; cbn [obind]; [|reflexivity]. destruct C as (-> & _).
  reflexivity.
Qed.

(** two rays of different inclination through one image point *)
Definition flat (d : R) : element := El (Placement d ez (V 0 0 d) v0 true true None None) None Plain.
Lemma flat_good d : 0 <= d -> good_place (e_place (flat d)).
Proof.
  intros D. destruct (init_spec d ez v0 None) as (p & I & N & F). rewrite place_front in I by auto. injection I as <-. split; auto.
Qed.
Definition tilted_ray : list step := let u := V (-3/5) 0 (4/5) in
  [Step (Some (V (3/4) 0 0)) (Some u) 1 (Some u) (Some 0); Step (Some v0) (Some u) 1 (Some u) (Some (5/4))].
Definition axial_ray : list step := [Step (Some v0) (Some ez) 1 (Some ez) (Some 0); Step (Some v0) (Some ez) 1 (Some ez) (Some 1)].
Example C54_stigmatic_example : let es := [flat 0; flat 1] in
  Forall (fun e => good_place (e_place e)) es /\ pyindex (length es) (-2) = Some 0%nat /\ pyindex (length es) (-1) = Some 1%nat /\
  lab_point es 0 tilted_ray (V (3/4) 0 0) /\ lab_direction es 0 tilted_ray (V (-3/5) 0 (4/5)) /\ lab_point es 1 axial_ray (V 0 0 1) /\
  vadd3 (V (3/4) 0 0) (vmul3 (5/4) (V (-3/5) 0 (4/5))) = V 0 0 1 /\
  exists x y, opd_ray es true 2 (-2) (-1) (1/4) 1 axial_ray tilted_ray = Some (x, y, -1).
Proof.
  cbv zeta. set (es := [flat 0; flat 1]).
  assert (G : Forall (fun e => good_place (e_place e)) es) by (apply Forall_cons; [apply flat_good; lra|apply Forall_cons; [apply flat_good; lra|apply Forall_nil]]).
  assert (F : forall d y, from_normal (e_place (flat d)) y = Some y) by reflexivity.
  assert (L0 : lab_point es 0 tilted_ray (V (3/4) 0 0)).
  { exists (flat 0), (V 0 0 0). do 3 eexists. repeat split; try reflexivity; cbn; [f_equal; apply vec_eq; cbn; ring|apply vec_eq; cbn; ring]. }
  assert (L1 : lab_direction es 0 tilted_ray (V (-3/5) 0 (4/5))) by (exists (flat 0); do 2 eexists; repeat split; reflexivity).
  assert (L2 : lab_point es 1 axial_ray (V 0 0 1)).
  { exists (flat 1), (V 0 0 1). do 3 eexists. repeat split; try reflexivity; cbn; [f_equal; apply vec_eq; cbn; ring|apply vec_eq; cbn; ring]. }
  assert (M : vadd3 (V (3/4) 0 0) (vmul3 (5/4) (V (-3/5) 0 (4/5))) = V 0 0 1) by (apply vec_eq; cbn; field).
  repeat apply conj; auto.
  destruct (C54_stigmatic es true 2 (-2) (-1) (1/4) 1 axial_ray tilted_ray 0 1 (V (3/4) 0 0) (V (-3/5) 0 (4/5)) v0 ez (V 0 0 1) 0 0 (5/4) 1
    (Step (Some v0) (Some ez) 1 (Some ez) (Some 0)) (Step (Some (V (3/4) 0 0)) (Some (V (-3/5) 0 (4/5))) 1 (Some (V (-3/5) 0 (4/5))) (Some 0))
    (Step (Some v0) (Some ez) 1 (Some ez) (Some 0)) (V (3/4) 0 0) (V (-3/5) 0 (4/5)) v0 ez) as (x & y & E & _); auto; try reflexivity; try lra; try lia.
  - unfold dot. cbn. field.
  - exists (flat 0), (V 0 0 0). do 3 eexists. repeat split; try reflexivity; cbn; [f_equal; apply vec_eq; cbn; ring|apply vec_eq; cbn; ring].
  - exists (flat 0). do 2 eexists. repeat split; reflexivity.
  - unfold dot. cbn. ring.
  - apply vec_eq; cbn; ring.
  - exists x, y. rewrite E. f_equal. f_equal. cbn. field.
Qed.
Example C54_default_sphere_example : let es := [flat 0; flat 1; flat 5] in nth_error (origins es) 1 = Some (V 0 0 1) /\ nth_error (origins es) 2 = Some (V 0 0 6) /\
  default_radius true 6 1 (-3) = 5 /\ default_radius false 6 1 (-3) = 3.
Proof. cbn. repeat apply conj; try (f_equal; apply vec_eq; cbn; ring); unfold default_radius; ring. Qed.
Example C54_launch_example : good_place (e_place (flat 1)) /\ closed_form (flat 1) /\ dot ez ez = 1 /\ (2 <= length [flat 1; flat 2])%nat /\
  (-2 < 0 -> - Z.of_nat (length [flat 1; flat 2]) <= -2)%Z.
Proof. split; [apply flat_good; lra|]. split; [exact I|]. split; [unfold dot; cbn; ring|]. split; cbn; lia. Qed.
Example C54_after_last_refuted_example : let shifted := map (fun s => Step (st_y s) (st_u s) (st_n s) (st_i s) (Some 7)) in
  Forall2 (fun s s' => st_y s = st_y s' /\ st_u s = st_u s' /\ st_n s = st_n s') axial_ray (shifted axial_ray).
Proof. repeat constructor. Qed.
Print Assumptions C54_meaning.
Print Assumptions C54_stigmatic.
Print Assumptions C54_reference.
Print Assumptions C54_launch.
Print Assumptions C54_after_last_refuted.
Print Assumptions C54_default_sphere.
