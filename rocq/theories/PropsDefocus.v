(** C105: the wave front error of a bundle that is focused beside the image surface, exactly, and the depth of focus. *)
From Coq Require Import Reals ZArith List Lra Lia Psatz.
From Verif Require Import Base Vec RotModel PlacementModel PlacementProofs ElementModel TraceProofs PropsElement PolyChain OpdModel PropsOpd.
From Verif Require Import Cx SumsModel PropsSums PsfModel PropsPsf MtfModel PropsMtf PropsStrehl.
Import ListNotations.
Open Scope R_scope.

(** * Specification *)
(** behind element [a] the ray runs in direction [U] through the laboratory point [F]; its optical path from the object
    (from the incoming wave front through the start of the reference ray if the object is infinite) to [F] is [total] *)
Definition reaches (es : list element) (finite : bool) (a : nat) (ref ray : list step) (n : R) (U F : vec) (total : R) : Prop :=
  exists P p s st0 y0r u0r st y0 u0 sta, lab_point es a ray P /\ lab_direction es a ray U /\ dot U U = 1 /\ optical_path a ray = Some p /\
    nth_error ref 0 = Some st0 /\ st_y st0 = Some y0r /\ st_u st0 = Some u0r /\ nth_error ray 0 = Some st /\ st_y st = Some y0 /\ st_u st = Some u0 /\
    nth_error ref a = Some sta /\ st_n sta = n /\ vadd3 P (vmul3 s U) = F /\
    total = (if finite then 0 else wave_front (st_n st0) y0r u0r y0) + p + n * s.
(** the error reported for a ray *)
Definition reported es finite radius after image l scale ref ray w : Prop := exists x y, opd_ray es finite radius after image l scale ref ray = Some (x, y, w).

(** * Auxiliary lemmas *)
Lemma sphere_exact radius y u : dot u u = 1 -> radius <> 0 -> let w := vsub3 y (V 0 0 radius) in let X := dot w w - dot u w ^ 2 in
  sphere_hit radius y u = if Rle_dec X (radius ^ 2) then Some (- dot u w - radius * sqrt (1 - X / radius ^ 2)) else None.
Proof.
  intros U C w X. unfold sphere_hit. rewrite fdiv_some by auto. cbn [obind]. unfold conic_intercept. cbn [s_c s_k s_alt].
  assert (N : 1 / radius <> 0) by (apply Rmult_integral_contrapositive_currified; [lra|apply Rinv_neq_0_compat; auto]).
  destruct (Req_EM_T (1 / radius) 0); [contradiction|]. destruct (Req_EM_T 0 0); [|congruence].
  assert (D : dot u y = dot u w + radius * vz u) by (unfold w, dot, vsub3; cbn [vx vy vz]; ring).
  assert (Y : dot y y = dot w w + 2 * radius * vz y - radius * radius) by (unfold w, dot, vsub3; cbn [vx vy vz]; ring).
  rewrite D, Y. match goal with |- context [fsqrt ?e] => replace e with (1 - X / radius ^ 2) by (unfold X; field; auto) end.
  assert (R2 : 0 < radius ^ 2) by (cbn; rewrite Rmult_1_r; apply Rsqr_pos_lt; auto).
  assert (I : X / radius ^ 2 * radius ^ 2 = X) by (field; auto). destruct (Rle_dec X (radius ^ 2)) as [L|L].
  - rewrite fsqrt_some by nra. cbn [obind]. rewrite fdiv_some by lra. f_equal. field. auto.
  - replace (fsqrt (1 - X / radius ^ 2)) with (@None R); [reflexivity|]. unfold fsqrt. destruct (Rle_dec 0 (1 - X / radius ^ 2)); [nra|reflexivity].
Qed.
Lemma sphere_point_exact ea ei oa oi yref radius y u p q U : good_place (e_place ea) -> good_place (e_place ei) -> dot u u = 1 -> radius <> 0 ->
  from_normal (e_place ea) y = Some p -> from_normal (e_place ei) yref = Some q -> from_normal (e_place ea) u = Some U ->
  let w := vsub3 (vadd3 oa p) (vadd3 oi q) in let X := dot w w - dot U w ^ 2 in
  if Rle_dec X (radius ^ 2) then exists v, sphere_point ea ei oa oi yref radius (Some y) (Some u) = Some (- dot U w - radius * sqrt (1 - X / radius ^ 2), v)
  else sphere_point ea ei oa oi yref radius (Some y) (Some u) = None.
Proof.
  intros GA GI UU RN Fy Fq Fu w X. destruct (normal_maps _ GA) as (ra & RA & FA & TA). destruct (normal_maps _ GI) as (ri & RI & FI & TI).
  rewrite FA in Fy, Fu. rewrite FI in Fq. injection Fy as <-. injection Fu as <-. injection Fq as <-.
  unfold sphere_point. cbn [obind]. unfold to_sphere. rewrite !FA. cbn [obind]. rewrite !TI. cbn [obind].
  set (U := vm u ra) in *. set (u' := vm U (mT ri)) in *. set (y' := V _ _ (_ + radius)) in *.
  assert (U1 : dot u' u' = 1). { unfold u', U. rewrite rotation_dot by (apply rotation_mT; auto). rewrite rotation_dot; auto. }
  assert (E : vsub3 y' (V 0 0 radius) = vm w (mT ri)).
  { subst y' w. rewrite ?vm_sub, ?vm_add, ?vm_sub, (vm_back yref ri RI).
    generalize (vm (vm y ra) (mT ri)) (vm oa (mT ri)) (vm oi (mT ri)). intros. apply vec_eq; unfold vadd3, vsub3; cbn [vx vy vz]; ring. }
  pose proof (sphere_exact radius y' u' U1 RN) as S. cbv zeta in S. rewrite E in S.
  assert (D1 : dot u' (vm w (mT ri)) = dot U w) by (unfold u'; apply rotation_dot, rotation_mT; auto).
  assert (D2 : dot (vm w (mT ri)) (vm w (mT ri)) = dot w w) by (apply rotation_dot, rotation_mT; auto).
  rewrite D1, D2 in S. fold X in S. rewrite S. destruct (Rle_dec X (radius ^ 2)); cbn [obind]; eauto.
Qed.
Lemma sag_bounds x : 0 <= x <= 1 -> 0 <= 1 - sqrt (1 - x) <= x.
Proof.
  intros X. assert (S := sqrt_sqrt (1 - x) ltac:(lra)). assert (P := sqrt_pos (1 - x)). set (q := sqrt (1 - x)) in *. nra.
Qed.
(** the miss distance squared of the line through [F] in direction [U] *)
Lemma miss U v : dot U U = 1 -> 0 <= dot v v - dot U v ^ 2.
Proof.
  intros H. replace (dot v v - dot U v ^ 2) with (dot (vsub3 v (vmul3 (dot U v) U)) (vsub3 v (vmul3 (dot U v) U))).
  - unfold dot. nra.
  - transitivity (dot v v - 2 * dot U v * dot U v + dot U v * dot U v * dot U U); [unfold dot, vsub3, vmul3; cbn [vx vy vz]; ring|rewrite H; ring].
Qed.

(** * Theorems *)
(** any ray: [F] is any point of its line behind the element and [v] where it is seen from the image point of the reference
    ray.  If the line misses the image point by more than the radius there is no result; else the path to [F] is
    corrected by the path between [F] and the sphere. *)
Theorem C105_exact es finite radius after image l scale ref ray a i Q n U F Ur T Tr : 
  Forall (fun e => good_place (e_place e)) es -> after <> (-1)%Z -> radius <> 0 -> l <> 0 -> scale <> 0 ->
  pyindex (length es) after = Some a -> pyindex (length es) image = Some i -> lab_point es i ref Q ->
  reaches es finite a ref ray n U F T -> reaches es finite a ref ref n Ur Q Tr ->
  let v := vsub3 F Q in let miss2 := dot v v - dot U v ^ 2 in
  (radius ^ 2 < miss2 -> opd_ray es finite radius after image l scale ref ray = None) /\
  (miss2 <= radius ^ 2 -> reported es finite radius after image l scale ref ray
    ((Tr - T + n * (dot U v - radius * (1 - sqrt (1 - miss2 / radius ^ 2)))) / (l / scale))).
Proof.
  intros G NA RN LN SN IA II LQ (P & p & s & st0 & y0r & u0r & st & y0 & u0 & sta & LP & LD & U1 & HP & R0 & Y0R & U0R & T0 & Y0 & U0 & SA & HN & M & HT)
    (Pr & pr & sr & st0' & y0r' & u0r' & st' & y0' & u0' & sta' & LPR & LDR & U1R & HPR & R0' & Y0R' & U0R' & T0' & Y0' & U0' & SA' & HN' & MR & HTR) v miss2.
  assert (st0' = st0) by congruence. assert (st' = st0) by congruence. assert (sta' = sta) by congruence. subst st0' st' sta'.
  assert (y0r' = y0r) by congruence. assert (u0r' = u0r) by congruence. assert (y0' = y0r) by congruence. assert (u0' = u0r) by congruence. subst y0r' u0r' y0' u0'.
  destruct LP as (ea & oa & s1 & yy & pp & EA & OA & SS & YY & FP & ->). destruct LD as (ea' & s1' & uu & EA' & SS' & UU & FU).
  destruct LPR as (ea2 & oa2 & s2 & yr & ppr & EA2 & OA2 & SR & YR & FPR & ->). destruct LDR as (ea3 & s3 & ur & EA3 & SR3 & UR & FUR).
  destruct LQ as (ei & oi & si & yref & q & EI & OI & SI & YI & FQ & ->).
  assert (ea' = ea) by congruence. assert (s1' = s1) by congruence. assert (ea2 = ea) by congruence. assert (oa2 = oa) by congruence. assert (ea3 = ea) by congruence.
  assert (s3 = s2) by congruence. assert (s2 = sta) by congruence. subst ea' s1' ea2 oa2 ea3 s3 s2.
  rewrite Forall_forall in G. pose proof (G ea (nth_error_In _ _ EA)) as GA. pose proof (G ei (nth_error_In _ _ EI)) as GI.
  destruct (normal_maps _ GA) as (ra & RA & FA & TA).
  assert (N1 : dot uu uu = 1). { rewrite FA in FU. injection FU as <-. rewrite rotation_dot in U1; auto. }
  assert (N2 : dot ur ur = 1). { rewrite FA in FUR. injection FUR as <-. rewrite rotation_dot in U1R; auto. }
  destruct (sphere_point_spec ea ei oa oi yref radius yr ur GA GI N2) as (p' & q' & U' & F1 & F2 & F3 & _ & _ & F5).
  assert (p' = ppr) by congruence. assert (q' = q) by congruence. assert (U' = Ur) by congruence. subst p' q' U'.
  destruct (F5 sr RN MR) as (vr & PR).
  pose proof (sphere_point_exact ea ei oa oi yref radius yy uu pp q U GA GI N1 RN FP FQ FU) as PP. cbv zeta in PP.
  set (w := vsub3 (vadd3 oa pp) (vadd3 oi q)) in *.
  assert (WV : w = vsub3 v (vmul3 s U)). { unfold w, v. rewrite <- M. apply vec_eq; unfold vadd3, vsub3, vmul3; cbn [vx vy vz]; ring. }
  assert (UW : dot U w = dot U v - s). { rewrite WV. transitivity (dot U v - s * dot U U); [unfold dot, vsub3, vmul3; cbn [vx vy vz]; ring|rewrite U1; ring]. }
  assert (WW : dot w w - dot U w ^ 2 = miss2).
  { rewrite UW. unfold miss2. transitivity (dot v v - 2 * s * dot U v + s * s * dot U U - (dot U v - s) ^ 2); [rewrite WV; unfold dot, vsub3, vmul3; cbn [vx vy vz]; ring|rewrite U1; ring]. }
  rewrite WW, UW in PP. assert (LS : l / scale <> 0) by (apply Rmult_integral_contrapositive_currified; [auto|apply Rinv_neq_0_compat; auto]).
  split; intros H; (destruct (Rle_dec miss2 (radius ^ 2)) as [C|C]; [|]); try (exfalso; lra).
  - unfold opd_ray. rewrite (pyend_spec _ _ _ IA NA), (path_diff_spec a ray ref p pr HP HPR). cbn [obind]. unfold launched. rewrite R0, T0. cbn [obind].
    rewrite Y0R, U0R, Y0, U0. cbn [obind]. rewrite IA, II. cbn [obind]. rewrite EA, EI. cbn [obind]. rewrite OA, OI. cbn [obind]. rewrite SR, SS. cbn [obind].
    rewrite SI. cbn [obind]. rewrite YI. cbn [obind]. rewrite YR, UR, PR. cbn [obind]. rewrite YY, UU, PP. reflexivity.
  - destruct PP as (vv & PP). exists (vx vv - vx vr), (vy vv - vy vr).
    unfold opd_ray. rewrite (pyend_spec _ _ _ IA NA), (path_diff_spec a ray ref p pr HP HPR). cbn [obind]. unfold launched. rewrite R0, T0. cbn [obind].
    rewrite Y0R, U0R, Y0, U0. cbn [obind]. rewrite IA, II. cbn [obind]. rewrite EA, EI. cbn [obind]. rewrite OA, OI. cbn [obind]. rewrite SR, SS. cbn [obind].
    rewrite SI. cbn [obind]. rewrite YI. cbn [obind]. rewrite YR, UR, PR. cbn [obind]. rewrite YY, UU, PP. cbn [obind fst snd].
    rewrite fdiv_some by auto. cbn [obind]. rewrite fdiv_some by auto. cbn [obind]. f_equal. f_equal. unfold Rdiv. f_equal. rewrite HT, HTR, HN. unfold launch_path, wave_front.
    destruct finite; [ring|]. unfold dot, vsub3. cbn [vx vy vz]. ring.
Qed.

(** defocus: ray and reference ray meet at equal optical path in the point at [D] behind the image point on the reference ray *)
Theorem C105_defocus es finite radius after image l scale ref ray a i Q n U Ur D T : 
  Forall (fun e => good_place (e_place e)) es -> after <> (-1)%Z -> radius <> 0 -> l <> 0 -> scale <> 0 ->
  pyindex (length es) after = Some a -> pyindex (length es) image = Some i -> lab_point es i ref Q ->
  let F := vadd3 Q (vmul3 D Ur) in reaches es finite a ref ray n U F T -> reaches es finite a ref ref n Ur F T ->
  let c := dot U Ur in D ^ 2 * (1 - c ^ 2) <= radius ^ 2 ->
  let w := - (n * (D * (1 - c) + radius * (1 - sqrt (1 - D ^ 2 * (1 - c ^ 2) / radius ^ 2)))) / (l / scale) in
  reported es finite radius after image l scale ref ray w /\
  Rabs (w + n * (D * (1 - c)) / (l / scale)) <= Rabs (n / (l / scale)) * (D ^ 2 * (1 - c ^ 2) / Rabs radius).
Proof.
  intros G NA RN LN SN IA II LQ F R1 R2 c H w.
  assert (U1 : dot U U = 1) by (destruct R1 as (P & p & s & st0 & y0r & u0r & st & y0 & u0 & sta & LP & LD & U1 & _); exact U1).
  assert (U1R : dot Ur Ur = 1) by (destruct R2 as (P & p & s & st0 & y0r & u0r & st & y0 & u0 & sta & LP & LD & V1 & _); exact V1).
  assert (R3 : reaches es finite a ref ref n Ur Q (T - n * D)).
  { destruct R2 as (P & p & s & st0 & y0r & u0r & st & y0 & u0 & sta & LP & LD & V1 & HP & R0 & Y0R & U0R & T0 & Y0 & U0 & SA & HN & M & HT).
    exists P, p, (s - D), st0, y0r, u0r, st, y0, u0, sta. repeat apply Logic.conj; auto; try (rewrite HT; ring).
    replace Q with (vsub3 F (vmul3 D Ur)) by (unfold F; apply vec_eq; unfold vadd3, vsub3, vmul3; cbn [vx vy vz]; ring).
    rewrite <- M. apply vec_eq; unfold vadd3, vsub3, vmul3; cbn [vx vy vz]; ring. }
  destruct (C105_exact es finite radius after image l scale ref ray a i Q n U F Ur T (T - n * D) G NA RN LN SN IA II LQ R1 R3) as (_ & E). cbv zeta in E.
  assert (V1 : vsub3 F Q = vmul3 D Ur) by (unfold F; apply vec_eq; unfold vadd3, vsub3, vmul3; cbn [vx vy vz]; ring). rewrite V1 in E.
  assert (A : dot U (vmul3 D Ur) = D * c) by (unfold c, dot, vmul3; cbn [vx vy vz]; ring).
  assert (B : dot (vmul3 D Ur) (vmul3 D Ur) - dot U (vmul3 D Ur) ^ 2 = D ^ 2 * (1 - c ^ 2)).
  { rewrite A. transitivity (D ^ 2 * dot Ur Ur - (D * c) ^ 2); [unfold dot, vmul3; cbn [vx vy vz]; ring|rewrite U1R; ring]. }
  assert (X0 : 0 <= D ^ 2 * (1 - c ^ 2)) by (rewrite <- B; apply miss; auto).
  rewrite B, A in E. assert (LS : l / scale <> 0) by (apply Rmult_integral_contrapositive_currified; [auto|apply Rinv_neq_0_compat; auto]).
  assert (R20 : 0 < radius ^ 2) by (cbn; rewrite Rmult_1_r; apply Rsqr_pos_lt; auto). split.
  - replace w with ((T - n * D - T + n * (D * c - radius * (1 - sqrt (1 - D ^ 2 * (1 - c ^ 2) / radius ^ 2)))) / (l / scale)); [auto|].
    unfold w. unfold Rdiv. f_equal. ring.
  - set (x := D ^ 2 * (1 - c ^ 2) / radius ^ 2). assert (XR : x * radius ^ 2 = D ^ 2 * (1 - c ^ 2)) by (unfold x; field; auto).
    assert (XB : 0 <= x <= 1) by (split; apply (Rmult_le_reg_r (radius ^ 2)); lra).
    replace (w + n * (D * (1 - c)) / (l / scale)) with (n / (l / scale) * - (radius * (1 - sqrt (1 - x)))) by (unfold w, x; field; repeat split; auto).
    rewrite Rabs_mult, Rabs_Ropp, Rabs_mult. apply Rmult_le_compat_l; [apply Rabs_pos|]. destruct (sag_bounds x XB) as (S0 & S1).
    rewrite (Rabs_pos_eq (1 - _)) by auto. rewrite <- XR, <- (pow2_abs radius). assert (RA := Rabs_pos_lt radius RN).
    replace (x * Rabs radius ^ 2 / Rabs radius) with (Rabs radius * x) by (field; lra). apply Rmult_le_compat_l; lra.
Qed.

(** depth of focus: every ray of the bundle makes an angle with the reference ray whose cosine is at least [c0], all meet at
    equal optical path in the point at [D] from the image point, and every value of the resampled pupil is between two of
    the reported errors.  Defocus of a quarter wave at the edge leaves at least half of the brightness. *)
Theorem C105_depth es finite radius after image l scale ref rays a i Q n Ur D T c0 N pad o : 
  Forall (fun e => good_place (e_place e)) es -> after <> (-1)%Z -> 0 < l / scale -> 0 < n -> 2 * Rabs D <= Rabs radius -> radius <> 0 -> 0 <= c0 ->
  pyindex (length es) after = Some a -> pyindex (length es) image = Some i -> lab_point es i ref Q ->
  let F := vadd3 Q (vmul3 D Ur) in reaches es finite a ref ref n Ur F T ->
  Forall (fun ray => exists U, reaches es finite a ref ray n U F T /\ c0 <= dot U Ur) rays ->
  (0 < pad)%nat -> lit N o ->
  (forall j k w, (j < N)%nat -> (k < N)%nat -> o j k = Some w -> exists r1 r2 w1 w2, In r1 rays /\ In r2 rays /\
     reported es finite radius after image l scale ref r1 w1 /\ reported es finite radius after image l scale ref r2 w2 /\ w1 <= w <= w2) ->
  let edge := n * Rabs D * (1 - c0) * (1 + 2 * Rabs D / Rabs radius) / (l / scale) in edge <= 1/2 ->
  exists v, psf N pad o 0 0 = Some v /\ cos (PI * edge) ^ 2 * peak N pad o <= v /\ (edge <= 1/4 -> peak N pad o / 2 <= v).
Proof.
  intros G NA LP0 N0 DR RN C0 IA II LQ F R2 RS P L O edge E.
  assert (LN : l <> 0) by (intros ->; unfold Rdiv in LP0; lra).
  assert (SN : scale <> 0). { intros ->. unfold Rdiv in LP0. rewrite Rinv_0 in LP0. lra. }
  assert (RA := Rabs_pos_lt radius RN). assert (DA := Rabs_pos D).
  assert (U1R : dot Ur Ur = 1) by (destruct R2 as (P1 & p & s & st0 & y0r & u0r & st & y0 & u0 & sta & LP & LD & V1 & _); exact V1).
  (* every reported error has the sign of [- D] and is within [edge] *)
  assert (B : exists lo hi, hi - lo = edge /\ forall ray w, In ray rays -> reported es finite radius after image l scale ref ray w -> lo <= w <= hi).
  { exists (if Rle_dec 0 D then - edge else 0), (if Rle_dec 0 D then 0 else edge). split; [destruct (Rle_dec 0 D); ring|].
    intros ray w HI (x & y & HO). rewrite Forall_forall in RS. destruct (RS ray HI) as (U & R1 & CU).
    assert (U1 : dot U U = 1) by (destruct R1 as (P1 & p & s & st0 & y0r & u0r & st & y0 & u0 & sta & LP & LD & U1 & _); exact U1).
    set (c := dot U Ur) in *.
    assert (C2 : 0 <= 1 - c ^ 2). { pose proof (miss U Ur U1) as K. rewrite U1R in K. exact K. }
    assert (C1 : c <= 1) by nra. assert (D2 : D ^ 2 = Rabs D ^ 2) by (symmetry; apply pow2_abs). assert (RR : radius ^ 2 = Rabs radius ^ 2) by (symmetry; apply pow2_abs).
    assert (HD : D ^ 2 * (1 - c ^ 2) <= radius ^ 2). { rewrite D2, RR. assert (Rabs D ^ 2 <= Rabs radius ^ 2) by (apply pow_incr; lra). assert (0 <= Rabs D ^ 2) by (apply pow_le; lra). nra. }
    destruct (C105_defocus es finite radius after image l scale ref ray a i Q n U Ur D T G NA RN LN SN IA II LQ R1 R2 HD) as ((x' & y' & HO') & _).
    fold c in HO'. rewrite HO in HO'. match type of HO' with _ = Some (_, _, ?v) => assert (HW : w = v) by congruence end. clear HO'.
    set (z := D ^ 2 * (1 - c ^ 2) / radius ^ 2) in HW. assert (R20 : 0 < radius ^ 2) by (rewrite RR; apply pow_lt; auto).
    assert (ZR : z * radius ^ 2 = D ^ 2 * (1 - c ^ 2)) by (unfold z; field; auto).
    assert (D20 : 0 <= D ^ 2) by (rewrite D2; apply pow_le; lra).
    assert (ZB : 0 <= z <= 1) by (split; apply (Rmult_le_reg_r (radius ^ 2)); nra).
    destruct (sag_bounds z ZB) as (S0 & S1). set (sg := 1 - sqrt (1 - z)) in *.
    set (d := Rabs D) in *. set (r := Rabs radius) in *.
    assert (SG : r * sg <= 2 * d / r * d * (1 - c)).
    { apply (Rle_trans _ (r * z)); [apply Rmult_le_compat_l; lra|].
      replace (r * z) with (d ^ 2 * (1 - c ^ 2) / r) by (unfold z; rewrite D2, RR; field; lra).
      replace (2 * d / r * d * (1 - c)) with (d ^ 2 * (2 * (1 - c)) / r) by (field; lra).
      unfold Rdiv. apply Rmult_le_compat_r; [left; apply Rinv_0_lt_compat; auto|]. apply Rmult_le_compat_l; [apply pow_le; auto|]. nra. }
    assert (K : 0 <= 2 * d / r <= 1).
    { split; [apply Rmult_le_pos; [lra|left; apply Rinv_0_lt_compat; auto]|]. apply (Rmult_le_reg_r r); [auto|]. unfold Rdiv. rewrite Rmult_assoc, Rinv_l; lra. }
    set (k := 2 * d / r) in *. assert (DC : 0 <= d * (1 - c)) by (apply Rmult_le_pos; lra).
    assert (SG2 : r * sg <= k * (d * (1 - c))) by lra. assert (SG3 : 0 <= r * sg) by (apply Rmult_le_pos; lra).
    assert (DE : d * (1 - c) <= d * (1 - c0)) by (apply Rmult_le_compat_l; lra).
    assert (EG : edge = n / (l / scale) * ((1 + k) * (d * (1 - c0)))) by (unfold edge, Rdiv; ring).
    assert (WG : w = n / (l / scale) * - (D * (1 - c) + radius * sg)) by (rewrite HW; unfold Rdiv; ring).
    assert (Q0 : 0 < n / (l / scale)) by (apply Rmult_lt_0_compat; [auto|apply Rinv_0_lt_compat; auto]).
    set (m := n / (l / scale)) in *.
    assert (SGA : - (r * sg) <= radius * sg <= r * sg).
    { unfold r. destruct (Rcase_abs radius) as [X|X]; [rewrite (Rabs_left _ X)|rewrite (Rabs_right _ X)]; nra. }
    assert (KD : k * (d * (1 - c)) <= d * (1 - c)) by nra. assert (KE : (1 + k) * (d * (1 - c)) <= (1 + k) * (d * (1 - c0))) by (apply Rmult_le_compat_l; lra).
    rewrite EG, WG. clear HW EG WG HD ZR SG S1 ZB R20 D20 D2 RR. destruct (Rle_dec 0 D) as [X|X].
    - assert (DD : d * (1 - c) = D * (1 - c)) by (unfold d; rewrite Rabs_pos_eq by auto; ring). split.
      + rewrite Ropp_mult_distr_r. apply Rmult_le_compat_l; [lra|]. lra.
      + replace 0 with (m * 0) by ring. apply Rmult_le_compat_l; [lra|]. lra.
    - assert (DD : d * (1 - c) = - (D * (1 - c))) by (unfold d; rewrite Rabs_left by lra; ring). split.
      + replace 0 with (m * 0) at 1 by ring. apply Rmult_le_compat_l; [lra|]. lra.
      + apply Rmult_le_compat_l; [lra|]. lra. }
  destruct B as (lo & hi & HL & B). rewrite <- HL in *. apply C104_rayleigh; auto.
  intros j k w J K. unfold against. destruct (o j k) as [w0|] eqn:W0; [|discriminate]. intros W. injection W as <-.
  destruct (O j k w0 J K W0) as (r1 & r2 & w1 & w2 & I1 & I2 & P1 & P2 & W1 & W2). pose proof (B r1 w1 I1 P1). pose proof (B r2 w2 I2 P2).
  cbn [INR]. replace ((INR j * 0 + INR k * 0) / INR (N * pad)) with 0 by (unfold Rdiv; ring). lra.
Qed.

(** a ray inclined by 4/5 and one along the axis that meet at the height 3 at equal path *)
Definition inclined : list step := let u := V (-3/5) 0 (4/5) in
  [Step (Some (V (9/4) 0 0)) (Some u) 1 (Some u) (Some 0); Step (Some v0) (Some u) 1 (Some u) (Some 0)].
Definition central : list step := [Step (Some v0) (Some ez) 1 (Some ez) (Some (3/4)); Step (Some v0) (Some ez) 1 (Some ez) (Some 0)].
Lemma flat_point k d ray s y : nth_error ray k = Some s -> st_y s = Some y -> (k = 0 \/ k = 1)%nat -> 
  lab_point [flat 0; flat d] k ray (vadd3 (V 0 0 (match k with O => 0 | _ => d end)) y).
Proof.
  intros N Y [-> | ->]; [exists (flat 0), (V 0 0 0), s, y, y|exists (flat d), (V 0 0 d), s, y, y]; repeat split; auto; cbn; f_equal; apply vec_eq; cbn; ring.
Qed.
Lemma inclined_reaches d : reaches [flat 0; flat d] true 0 central inclined 1 (V (-3/5) 0 (4/5)) (V 0 0 3) (15/4).
Proof.
  do 2 eexists. exists (15/4). do 7 eexists. split; [eapply (flat_point 0 d inclined); [reflexivity|reflexivity|auto]|]. 
  split; [exists (flat 0); do 2 eexists; repeat split; reflexivity|]. split; [unfold dot; cbn; field|]. do 9 (split; [reflexivity|]).
  split; [apply vec_eq; cbn; field|]. cbn. field.
Qed.
Lemma central_reaches d h : reaches [flat 0; flat d] true 0 central central 1 ez (V 0 0 h) (3/4 + h).
Proof.
  do 2 eexists. exists h. do 7 eexists. split; [eapply (flat_point 0 d central); [reflexivity|reflexivity|auto]|]. 
  split; [exists (flat 0); do 2 eexists; repeat split; reflexivity|]. split; [unfold dot; cbn; field|]. do 9 (split; [reflexivity|]).
  split; [apply vec_eq; cbn; field|]. cbn. field.
Qed.
Lemma flats_good d : 0 <= d -> Forall (fun e => good_place (e_place e)) [flat 0; flat d].
Proof. intros D. apply Forall_cons; [apply flat_good; lra|apply Forall_cons; [apply flat_good; auto|apply Forall_nil]]. Qed.
(** in the image surface at the height 1 the defocus is 2, as much as the radius *)
Example C105_example : reported [flat 0; flat 1] true 2 (-2) (-1) (4/5) 1 central inclined (-1).
Proof.
  pose proof (C105_defocus [flat 0; flat 1] true 2 (-2) (-1) (4/5) 1 central inclined 0 1 (V 0 0 1) 1 (V (-3/5) 0 (4/5)) ez 2 (15/4)) as H.
  cbv zeta in H. replace (vadd3 (V 0 0 1) (vmul3 2 ez)) with (V 0 0 3) in H by (apply vec_eq; cbn; ring).
  replace (dot (V (-3/5) 0 (4/5)) ez) with (4/5) in H by (unfold dot; cbn; ring).
  replace (1 - 2 ^ 2 * (1 - (4/5) ^ 2) / 2 ^ 2) with ((4/5) * (4/5)) in H by field. rewrite sqrt_square in H by lra.
  replace (- (1 * (2 * (1 - 4/5) + 2 * (1 - 4/5))) / (4/5/1)) with (-1) in H by field.
  apply H; try lra; try lia; try reflexivity.
  - apply flats_good. lra.
  - replace (V 0 0 1) with (vadd3 (V 0 0 1) v0) by (apply vec_eq; cbn; ring). eapply (flat_point 1 1 central); [reflexivity|reflexivity|auto].
  - apply inclined_reaches.
  - replace (15/4) with (3/4 + 3) by field. apply central_reaches.
Qed.
(** a line that misses the sphere has no result *)
Example C105_missed_example : opd_ray [flat 0; flat 1] true 1 (-2) (-1) (4/5) 1 central inclined = None.
Proof.
  pose proof (C105_exact [flat 0; flat 1] true 1 (-2) (-1) (4/5) 1 central inclined 0 1 (V 0 0 1) 1 (V (-3/5) 0 (4/5)) (V 0 0 3) ez (15/4) (3/4 + 1)) as H.
  cbv zeta in H. apply H; try lra; try lia; try reflexivity.
  - apply flats_good. lra.
  - replace (V 0 0 1) with (vadd3 (V 0 0 1) v0) by (apply vec_eq; cbn; ring). eapply (flat_point 1 1 central); [reflexivity|reflexivity|auto].
  - apply inclined_reaches.
  - apply central_reaches.
  - unfold dot, vsub3. cbn. lra.
Qed.
(** the image surface is a tenth before the focus: less than a quarter wave of a tenth *)
Example C105_depth_example : let err r := match opd_ray [flat 0; flat (29/10)] true 2 (-2) (-1) (1/10) 1 central r with Some (_, _, w) => Some w | None => None end in
  let o j k := match j, k with O, O => err central | _, O => err inclined | _, _ => None end in
  exists v, psf 2 2 o 0 0 = Some v /\ peak 2 2 o / 2 <= v.
Proof.
  intros err o. set (es := [flat 0; flat (29/10)]) in *.
  assert (G : Forall (fun e => good_place (e_place e)) es) by (apply flats_good; lra).
  assert (LQ : lab_point es 1 central (V 0 0 (29/10))).
  { replace (V 0 0 (29/10)) with (vadd3 (V 0 0 (29/10)) v0) by (apply vec_eq; cbn; ring). eapply (flat_point 1 (29/10) central); [reflexivity|reflexivity|auto]. }
  assert (EF : vadd3 (V 0 0 (29/10)) (vmul3 (1/10) ez) = V 0 0 3) by (apply vec_eq; cbn; field).
  assert (RC : reaches es true 0 central central 1 ez (vadd3 (V 0 0 (29/10)) (vmul3 (1/10) ez)) (15/4)).
  { rewrite EF. replace (15/4) with (3/4 + 3) by field. apply central_reaches. }
  assert (RI : reaches es true 0 central inclined 1 (V (-3/5) 0 (4/5)) (vadd3 (V 0 0 (29/10)) (vmul3 (1/10) ez)) (15/4)).
  { rewrite EF. apply inclined_reaches. }
  assert (OC : exists w, reported es true 2 (-2) (-1) (1/10) 1 central central w).
  { eexists. refine (proj1 (C105_defocus es true 2 (-2) (-1) (1/10) 1 central central 0 1 (V 0 0 (29/10)) 1 ez ez (1/10) (15/4) G _ _ _ _ _ _ LQ RC RC _)); try lra; try lia; try reflexivity. unfold dot. cbn. lra. }
  assert (OI : exists w, reported es true 2 (-2) (-1) (1/10) 1 central inclined w).
  { eexists. refine (proj1 (C105_defocus es true 2 (-2) (-1) (1/10) 1 central inclined 0 1 (V 0 0 (29/10)) 1 (V (-3/5) 0 (4/5)) ez (1/10) (15/4) G _ _ _ _ _ _ LQ RI RC _)); try lra; try lia; try reflexivity. unfold dot. cbn. lra. }
  destruct OC as (wc & xc & yc & OC). destruct OI as (wi & xi & yi & OI).
  assert (EC : err central = Some wc) by (unfold err; rewrite OC; reflexivity). assert (EI : err inclined = Some wi) by (unfold err; rewrite OI; reflexivity).
  assert (RA : Rabs (1/10) = 1/10) by (apply Rabs_pos_eq; lra). assert (R2 : Rabs 2 = 2) by (apply Rabs_pos_eq; lra).
  pose proof (C105_depth es true 2 (-2) (-1) (1/10) 1 central [central; inclined] 0 1 (V 0 0 (29/10)) 1 ez (1/10) (15/4) (4/5) 2 2 o G) as H.
  cbv zeta in H. rewrite RA, R2 in H. destruct H as (v & E & _ & B); try lra; try lia; try reflexivity; auto.
  - apply Forall_cons; [|apply Forall_cons; [|apply Forall_nil]].
    + exists ez. split; [exact RC|unfold dot; cbn; lra].
    + exists (V (-3/5) 0 (4/5)). split; [exact RI|unfold dot; cbn; lra].
  - exists 0%nat, 0%nat, wc. repeat split; [lia|lia|exact EC].
  - intros j k w J K W. destruct j as [|j], k as [|k]; cbn in W; try discriminate.
    + rewrite EC in W. injection W as <-. exists central, central, wc, wc. repeat split; try lra; cbn; auto; exists xc, yc; auto.
    + rewrite EI in W. injection W as <-. exists inclined, inclined, wi, wi. repeat split; try lra; cbn; auto; exists xi, yi; auto.
  - exists v. split; [exact E|]. apply B. lra.
Qed.
Print Assumptions C105_exact.
Print Assumptions C105_defocus.
Print Assumptions C105_depth.
