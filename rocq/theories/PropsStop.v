(** Property C60: launching the paraxial rays exactly, recomputing the stop radius and launching the clipping rays. *)
From Coq Require Import Reals List Lra Lia Psatz.
From Verif Require Import Base Vec RotModel RotProofs PlacementModel PlacementProofs ElementModel
  ParaxialModel ParaxialProofs LimitProofs PropsLimit ReverseModel PropsReverse PropsInverse PupilModel PropsPupil AimModel PropsAim ParaxTraceModel PropsConjugates ResolutionModel PropsResolution.
Import ListNotations.
Open Scope R_scope.

(** * Rays of the paraxial trace launched exactly *)
(** the ray at height h in the plane of the vertex with slope t in the plane of [axis] *)
Definition meridian (axis : bool) (h t : R) (y u : vec) : Prop :=
  vz y = 0 /\ dot u u = 1 /\ 0 < vz u /\
  (if axis then vx y = 0 /\ vy y = h /\ vx u = 0 /\ vy u = t * vz u else vx y = h /\ vy y = 0 /\ vx u = t * vz u /\ vy u = 0).
Lemma given_ray_spec axis h t : exists y u, given_ray (place_axis axis h) (place_axis axis (sinarctan t)) = Some (y, u) /\ meridian axis h t y u.
Proof.
  pose proof (root_pos t) as P. pose proof (root_sq t) as Q. set (w := sqrt (1 + t * t)) in *.
  assert (W : 1 - sinarctan t * sinarctan t = (/ w) * (/ w)).
  { unfold sinarctan. fold w. assert (T : t * t = w * w - 1) by lra. replace (t * (1 / w) * (t * (1 / w))) with (t * t * (/ w * / w)) by (field; lra). rewrite T. field. lra. }
  assert (IP : 0 < / w) by (apply Rinv_0_lt_compat; exact P).
  assert (F : fsqrt (1 - sinarctan t * sinarctan t) = Some (/ w)).
  { rewrite W, fsqrt_some by nra. f_equal. apply sqrt_square. lra. }
  assert (S : sinarctan t = t * / w) by (unfold sinarctan; fold w; field; lra).
  unfold given_ray, place_axis. destruct axis; cbn [fst snd].
  - replace (0 * 0 + sinarctan t * sinarctan t) with (sinarctan t * sinarctan t) by ring. rewrite F. cbn [obind]. do 2 eexists. split; [reflexivity|].
    unfold meridian, dot. cbn [vx vy vz]. repeat split; auto. lra.
  - replace (sinarctan t * sinarctan t + 0 * 0) with (sinarctan t * sinarctan t) by ring. rewrite F. cbn [obind]. do 2 eexists. split; [reflexivity|].
    unfold meridian, dot. cbn [vx vy vz]. repeat split; auto. lra.
Qed.
(** ** C60: for an object in air both rays leave the object with the height and the slope of the paraxial trace *)
Theorem C60_paraxial_rays axis rs r : nth_error rs 0 = Some r -> rn r = 1 ->
  exists ym um yc uc, rays_paraxial axis rs = Some ((ym, um), (yc, uc)) /\
  meridian axis (fst (ry r)) (fst (ru r) / rn r) ym um /\ meridian axis (snd (ry r)) (snd (ru r) / rn r) yc uc.
Proof.
  intros E N. unfold rays_paraxial. rewrite E. cbn [obind]. rewrite N. replace (fst (ru r) / 1) with (fst (ru r)) by field. replace (snd (ru r) / 1) with (snd (ru r)) by field.
  destruct (given_ray_spec axis (fst (ry r)) (fst (ru r))) as (ym & um & M & MM). destruct (given_ray_spec axis (snd (ry r)) (snd (ru r))) as (yc & uc & C & CC).
  rewrite M, C. cbn [obind]. do 4 eexists. split; [reflexivity|]. auto.
Qed.
Example C60_paraxial_rays_example : exists ym um c, rays_paraxial true [PRow (2, 0) (3/4, 0) 1] = Some ((ym, um), c) /\ ym = V 0 2 0 /\ um = V 0 (3/5) (4/5).
Proof.
  destruct (C60_paraxial_rays true [PRow (2, 0) (3/4, 0) 1] _ eq_refl eq_refl) as (ym & um & yc & uc & E & M & _). cbn [ry ru rn fst snd] in M. exists ym, um, (yc, uc). split; [exact E|].
  destruct ym as [a b c], um as [x y z]. unfold meridian, dot in M. cbn [vx vy vz] in M. destruct M as (Z & U & P & X & Y & UX & UY). subst.
  assert (z = 4/5) by nra. subst. split; apply vec_eq; cbn; lra.
Qed.
(** ** C60 refuted for an immersed object: the trace holds the product of index and slope, which is launched as
    the slope: every such ray that is not parallel to the axis leaves with a wrong slope *)
Theorem C60_paraxial_rays_immersed_refuted : forall axis rs r ym um yc uc, nth_error rs 0 = Some r -> 0 < rn r -> rn r <> 1 -> fst (ru r) <> 0 ->
  rays_paraxial axis rs = Some ((ym, um), (yc, uc)) -> ~ meridian axis (fst (ry r)) (fst (ru r) / rn r) ym um.
Proof.
  intros axis rs r ym um yc uc E P N U R M. unfold rays_paraxial in R. rewrite E in R. cbn [obind] in R.
  destruct (given_ray_spec axis (fst (ry r)) (fst (ru r))) as (y1 & u1 & M1 & (_ & _ & P1 & MM)). rewrite M1 in R. cbn [obind] in R.
  destruct (given_ray _ _) as [c|]; [|discriminate]. cbn [obind] in R. injection R as -> -> _.
  assert (X : fst (ru r) / rn r = fst (ru r)).
  { apply (Rmult_eq_reg_r (vz um)); [|lra]. destruct M as (_ & _ & _ & M). destruct axis; destruct M as (_ & _ & A & B), MM as (_ & _ & C & D); congruence. }
  apply N. apply (Rmult_eq_reg_l (fst (ru r))); [|exact U]. rewrite <- X at 1. field. lra.
Qed.
Example C60_paraxial_rays_immersed_example : exists ym um yc uc r, nth_error [PRow (0, 1) (1, 0) (4/3)] 0 = Some r /\ 0 < rn r /\ rn r <> 1 /\ fst (ru r) <> 0 /\
  rays_paraxial true [PRow (0, 1) (1, 0) (4/3)] = Some ((ym, um), (yc, uc)).
Proof.
  unfold rays_paraxial. cbn [nth_error obind ry ru fst snd]. destruct (given_ray_spec true 0 1) as (ym & um & M & _). destruct (given_ray_spec true 1 0) as (yc & uc & C & _). rewrite M, C. cbn [obind].
  exists ym, um, yc, uc. eexists. split; [reflexivity|]. cbn. repeat split; lra.
Qed.

(** * The stop radius from the pupils *)
Lemma tan_atan2 y z : z <> 0 -> tan (atan2 y z) = y / z.
Proof.
  intros Z. destruct (atan2_cs y z) as (C & S). { nra. } unfold tan. rewrite C, S.
  assert (0 < z * z + y * y) by nra. pose proof (sqrt_lt_R0 _ H). field. lra.
Qed.
(** * The field from the first and last element *)
Lemma stored_field c rad d r c' : 0 < pu_index (cj_pupil c) -> pu_update_distance (cj_pupil c) = true -> pu_update_radius (cj_pupil c) = true -> conj_update c rad d r = Some c' ->
  (cj_update_radius c = false -> cj_val c' = cj_val c) /\
  (cj_update_radius c = true -> exists r0, rad = Some r0 /\ (cj_finite c = true -> cj_val c' = r0) /\ (d <> 0 -> conj_slope c' = Some (r0 / d))).
Proof.
  intros N UD UR E. destruct (conj_update_inv _ _ _ _ _ N UD UR E) as (FI & _ & DI & _). unfold conj_update in E.
  destruct (pupil_update (cj_pupil c) d r) as [p|]; [|discriminate]. cbn [obind cj_update_radius with_pupil] in E.
  destruct (cj_update_radius c); split; intros B; try discriminate.
  - destruct rad as [r0|]; [|discriminate]. cbn [obind cj_finite with_pupil] in E. exists r0. split; [reflexivity|]. unfold conj_slope. rewrite FI, DI.
    destruct (cj_finite c); injection E as <-; cbn [cj_val with_cval with_pupil]; (split; [intros X; try discriminate; reflexivity|]); intros Z; [apply fdiv_some; exact Z|].
    unfold ftan. rewrite <- (tan_atan2 r0 d Z). apply fdiv_some. destruct (atan2_cs r0 d) as (C & _); [nra|]. rewrite C.
    assert (0 < d * d + r0 * r0) by nra. pose proof (sqrt_lt_R0 _ H). unfold Rdiv. apply Rmult_integral_contrapositive_currified; [exact Z|]. apply Rinv_neq_0_compat. lra.
  - injection E as <-. reflexivity.
Qed.
(** if the field is to follow the system, the chief ray is launched from the edge of the first element, in finite and
    infinite conjugates, and seen from the exit pupil the image field ends at the edge of the last element; otherwise the
    field is left as it is *)
Theorem C23_field axis l es stop o o' : 0 < pu_index (cj_pupil o) -> pu_update_distance (cj_pupil o) = true -> pu_update_radius (cj_pupil o) = true -> update_object axis l es stop o = Some o' ->
  (cj_update_radius o = false -> cj_val o' = cj_val o) /\
  (cj_update_radius o = true -> exists e0 r0, nth_error es 0 = Some e0 /\ e_radius e0 = Some r0 /\ (cj_finite o = true -> cj_val o' = r0) /\
    forall y u, prays es l o' = Some (y, u) -> pu_distance (cj_pupil o') <> 0 -> snd y = - r0).
Proof.
  intros N UD UR E. unfold update_object in E. destruct (nth_error es stop) as [st|]; [|discriminate]. cbn [obind] in E. destruct (e_radius st) as [r|]; [|discriminate]. cbn [obind] in E.
  destruct (nth_error es 0) as [e0|]; [|discriminate]. cbn [obind] in E. destruct (snd _) as [ma|]; [|discriminate]. cbn [obind] in E. destruct (block axis ma) as [[[a b] cc] dd].
  destruct (fdiv _ a) as [d|]; [|discriminate]. cbn [obind] in E. destruct (fdiv r a) as [pr|]; [|discriminate]. cbn [obind] in E.
  destruct (conj_update_inv _ _ _ _ _ N UD UR E) as (FI & _ & DI & _). destruct (stored_field _ _ _ _ _ N UD UR E) as (S1 & S2). split; [exact S1|]. intros B. destruct (S2 B) as (r0 & R0 & S3 & S4).
  exists e0, r0. split; [reflexivity|]. split; [exact R0|]. split; [exact S3|]. rewrite DI. intros y u P Z. specialize (S4 Z). unfold prays in P. rewrite FI in P.
  destruct (cj_finite o).
  - destruct (pupil_slope _); [|discriminate]. cbn [obind] in P. rewrite S4 in P. cbn [obind] in P. injection P as <- _. cbn [snd]. rewrite S3; reflexivity.
  - destruct (if wideangle o' then _ else _); [|discriminate]. cbn [obind] in P. destruct (pupil_radius _); [|discriminate]. cbn [obind] in P. rewrite S4 in P. cbn [obind] in P. injection P as <- _. cbn [snd].
    rewrite DI. field. exact Z.
Qed.
Theorem C23_field_image axis l es stop o o' : 0 < pu_index (cj_pupil o) -> pu_update_distance (cj_pupil o) = true -> pu_update_radius (cj_pupil o) = true -> update_image axis l es stop o = Some o' ->
  (cj_update_radius o = false -> cj_val o' = cj_val o) /\
  (cj_update_radius o = true -> exists el r0, nth_error es (length es - 1) = Some el /\ e_radius el = Some r0 /\ (cj_finite o = true -> cj_val o' = r0) /\
    (pu_distance (cj_pupil o') <> 0 -> conj_slope o' = Some (r0 / pu_distance (cj_pupil o')))).
Proof.
  intros N UD UR E. unfold update_image in E. destruct (nth_error es stop) as [st|]; [|discriminate]. cbn [obind] in E. destruct (e_radius st) as [r|]; [|discriminate]. cbn [obind] in E.
  destruct (nth_error es (length es - 1)) as [el|]; [|discriminate]. cbn [obind] in E. destruct (sys_matrix _ _ _ _) as [nb [mb|]]; [|discriminate]. cbn [obind] in E.
  destruct (inv_row0 _) as [[a b]|]; [|discriminate]. cbn [obind] in E.
  destruct (fdiv _ a) as [d|]; [|discriminate]. cbn [obind] in E. destruct (fdiv r a) as [pr|]; [|discriminate]. cbn [obind] in E.
  destruct (conj_update_inv _ _ _ _ _ N UD UR E) as (FI & _ & DI & _). destruct (stored_field _ _ _ _ _ N UD UR E) as (S1 & S2). split; [exact S1|]. intros B. destruct (S2 B) as (r0 & R0 & S3 & S4).
  exists el, r0. rewrite DI. auto.
Qed.

Lemma atan2_opp y z : y <> 0 -> z <> 0 -> atan2 (- y) z = - atan2 y z.
Proof.
  intros Y Z. unfold atan2. replace (- y / z) with (- (y / z)) by (field; exact Z). rewrite atan_opp.
  destruct (Rlt_dec 0 z); [reflexivity|]. destruct (Rlt_dec z 0); [|lra]. destruct (Rle_dec 0 (- y)), (Rle_dec 0 y); lra.
Qed.
Lemma atan2_pos y z : 0 < y -> z <> 0 -> 0 < atan2 y z.
Proof.
  intros Y Z. unfold atan2. destruct (Rlt_dec 0 z).
  - rewrite <- atan_0. apply atan_increasing. apply Rdiv_lt_0_compat; lra.
  - destruct (Rlt_dec z 0); [|lra]. destruct (Rle_dec 0 y); [|lra]. pose proof (atan_bound (y / z)). pose proof PI_RGT_0. lra.
Qed.
Lemma angle_max r z : r <> 0 -> z <> 0 -> corners_angle (corners_of r) z = corners_of (atan2 r z) /\ corners_max (corners_of (atan2 r z)) = atan2 (Rabs r) z /\ 0 < atan2 (Rabs r) z.
Proof.
  intros R Z. unfold corners_angle, corners_of. cbn [lo_s lo_m hi_s hi_m]. rewrite atan2_opp by assumption. split; [reflexivity|].
  assert (A : Rabs (atan2 r z) = atan2 (Rabs r) z).
  { destruct (Rle_dec 0 r).
    - rewrite (Rabs_pos_eq r) by assumption. apply Rabs_pos_eq. left. apply atan2_pos; [lra|assumption].
    - rewrite (Rabs_left r) by lra. rewrite atan2_opp by assumption. apply Rabs_left. pose proof (atan2_pos (- r) z ltac:(lra) Z) as P. rewrite atan2_opp in P by assumption. lra. }
  unfold corners_max. cbn [lo_s lo_m hi_s hi_m]. rewrite Rabs_Ropp, A, !Rmax_left by lra. split; [reflexivity|]. apply atan2_pos; [apply Rabs_pos_lt; exact R|exact Z].
Qed.
Lemma rim_inside a s : a <> 0 -> s * s = 1 -> inside (corners_of a) (0 * Rabs a, s * Rabs a) = true.
Proof.
  intros A S. unfold inside, corners_of. cbn [lo_s lo_m hi_s hi_m fst snd]. replace ((- a + a) / 2) with 0 by field. replace ((a - - a) / 2) with a by field.
  assert (a ^ 2 <> 0) by (apply pow_nonzero; exact A). rewrite !fdiv_some by assumption.
  destruct (Rle_dec _ _) as [|N]; [reflexivity|]. exfalso. apply N. right.
  replace ((s * Rabs a - 0) ^ 2) with (s * s * (Rabs a * Rabs a)) by ring. replace (Rabs a * Rabs a) with (a * a) by (destruct (Rcase_abs a) as [L|L]; [rewrite Rabs_left by exact L; ring|rewrite Rabs_pos_eq by lra; ring]). rewrite S. field. exact A.
Qed.
Lemma corners_max_abs a : corners_max (corners_of a) = Rabs a.
Proof. unfold corners_max, corners_of. cbn [lo_s lo_m hi_s hi_m]. rewrite Rabs_Ropp, !Rmax_left by lra. reflexivity. Qed.
Lemma axis_frame z w : w <> 0 -> sagittal_meridional (V 0 0 w) (V 0 0 z) = Some (ex, V 0 (w / Rabs w) 0).
Proof.
  intros W. unfold sagittal_meridional. replace (veqb (cross (V 0 0 w) (V 0 0 z)) v0) with true.
  2:{ symmetry. apply veqb_true. apply vec_eq; cbn; ring. }
  assert (E : ex <> v0) by (intros E; apply (f_equal vx) in E; cbn in E; lra).
  assert (NE : norm ex = 1). { unfold norm, dot, ex. cbn [vx vy vz]. replace (1 * 1 + 0 * 0 + 0 * 0) with 1 by ring. apply sqrt_1. }
  rewrite (fnormalize_some ex E), NE. cbn [obind].
  assert (C : cross (V 0 0 w) ex = V 0 w 0) by (apply vec_eq; unfold ex; cbn; ring). rewrite C.
  assert (NW : norm (V 0 w 0) = Rabs w). { unfold norm, dot. cbn [vx vy vz]. replace (0 * 0 + w * w + 0 * 0) with (Rsqr w) by (unfold Rsqr; ring). apply sqrt_Rsqr_abs. }
  rewrite fnormalize_some by (intros Q; apply (f_equal vy) in Q; cbn in Q; contradiction). rewrite NW. cbn [obind]. f_equal. f_equal; apply vec_eq; unfold ex, vmul3; cbn; try field; try (apply Rabs_no_R0; exact W).
Qed.
(** the ray [edge] launches, for an object or image at finite distance: it starts on the axis and has the slope
    of the pupil rim as seen from there, whatever the signs of pupil radius and distance *)
Lemma edge_finite newton c s r : cj_finite c = true -> s * s = 1 -> pupil_radius (cj_pupil c) = Some r -> r <> 0 -> pu_distance (cj_pupil c) <> 0 ->
  edge newton c s = Some (0, s * (Rabs r / Rabs (pu_distance (cj_pupil c)))).
Proof.
  intros F S R R0 Z. unfold edge. rewrite R, F. cbn [obind]. set (z := pu_distance (cj_pupil c)) in *.
  unfold finite_aim, finite_pupil. destruct (angle_max r z R0 Z) as (A & M & MP). rewrite A. unfold pupil_map. rewrite M. cbn [map fst snd filter].
  assert (AN : atan2 r z <> 0). { intros Q. rewrite <- M, Q in MP. rewrite corners_max_abs, Rabs_R0 in MP. lra. }
  pose proof (rim_inside (atan2 r z) s AN S) as I. rewrite <- corners_max_abs, M in I. rewrite I. cbn [map nth_error obind fst snd].
  assert (T : z * tan (s * atan2 (Rabs r) z) = s * Rabs r).
  { assert (TA : tan (atan2 (Rabs r) z) = Rabs r / z) by (apply tan_atan2; exact Z).
    assert (s = 1 \/ s = -1) as [-> | ->]. { assert ((s - 1) * (s + 1) = 0) by lra. apply Rmult_integral in H. lra. }
    - rewrite Rmult_1_l, TA. field. exact Z.
    - replace (-1 * atan2 (Rabs r) z) with (- atan2 (Rabs r) z) by ring. rewrite tan_neg, TA. field. exact Z. }
  rewrite T. replace (z * tan (0 * atan2 (Rabs r) z)) with 0 by (rewrite Rmult_0_l, tan_0; ring).
  unfold finite_ray. cbn [fst snd obind].
  assert (Y : V (- 0 * cj_val c) (- 0 * cj_val c) 0 = v0) by (apply vec_eq; cbn; ring). rewrite Y.
  assert (U : (if pu_telecentric (cj_pupil c) then V 0 0 z else vsub3 (V 0 0 z) v0) = V 0 0 z) by (destruct (pu_telecentric _); [reflexivity|apply vec_eq; cbn; ring]).
  rewrite U, axis_frame by exact Z. cbn [obind fst snd].
  set (q := vadd3 _ _). assert (Q : q = V 0 (s * Rabs r * (z / Rabs z)) z) by (apply vec_eq; unfold q, ex; cbn; ring). rewrite Q. clearbody q. clear Q q.
  assert (ZN : Rabs z <> 0) by (apply Rabs_no_R0; exact Z).
  rewrite fnormalize_some by (intros Q; apply (f_equal vz) in Q; cbn in Q; contradiction). cbn [obind]. set (k := norm _).
  assert (K : k <> 0) by (unfold k; rewrite norm_zero; intros Q; apply (f_equal vz) in Q; cbn in Q; contradiction). clearbody k. cbn [fst snd].
  destruct (Rlt_dec z 0) as [L|L]; cbn [vy vz vneg vmul3].
  - assert (X : - (/ k * z) <> 0). { apply Ropp_neq_0_compat. apply Rmult_integral_contrapositive_currified; [apply Rinv_neq_0_compat; exact K|exact Z]. }
    rewrite fdiv_some by exact X. cbn [obind]. f_equal. f_equal. rewrite (Rabs_left z) by exact L. field. auto.
  - assert (X : / k * z <> 0). { apply Rmult_integral_contrapositive_currified; [apply Rinv_neq_0_compat; exact K|exact Z]. }
    rewrite fdiv_some by exact X. cbn [obind]. f_equal. f_equal. rewrite (Rabs_pos_eq z) by lra. field. auto.
Qed.
Lemma edge_infinite newton c s r : cj_finite c = false -> cj_projection c = Rectilinear -> cos (cj_val c) <> 0 -> s * s = 1 -> pupil_radius (cj_pupil c) = Some r -> r <> 0 ->
  edge newton c s = Some (s * Rabs r, 0).
Proof.
  intros F P CV S R R0. unfold edge. rewrite R, F. cbn [obind]. set (z := pu_distance (cj_pupil c)) in *.
  unfold infinite_aim, pupil_map. rewrite corners_max_abs. cbn [map fst snd filter]. rewrite rim_inside by assumption. cbn [map nth_error obind].
  unfold infinite_ray. rewrite P. unfold direction_map, ftan. rewrite fdiv_some by exact CV. cbn [obind fst snd]. rewrite !Rmult_0_l.
  assert (N1 : norm (V 0 0 1) = 1). { unfold norm, dot. cbn [vx vy vz]. replace (0 * 0 + 0 * 0 + 1 * 1) with 1 by ring. apply sqrt_1. }
  rewrite fnormalize_some by (intros Q; apply (f_equal vz) in Q; cbn in Q; lra). rewrite N1. cbn [obind].
  assert (U : vmul3 (/ 1) (V 0 0 1) = V 0 0 1) by (apply vec_eq; cbn; field). rewrite U. rewrite axis_frame by lra. cbn [obind fst snd].
  rewrite (Rabs_pos_eq 1) by lra. cbn [vy vz vadd3 vsub3 vmul3 ex]. rewrite fdiv_some by lra. cbn [obind]. f_equal. f_equal; field.
Qed.

Lemma abs_quot x y : y <> 0 -> Rabs (x / y) = Rabs x / Rabs y.
Proof. intros Y. unfold Rdiv. rewrite Rabs_mult, Rabs_inv. reflexivity. Qed.
(** ** C60: taking the stop radius back from the entrance pupil that was computed from it: in air the size comes
    back, with its sign if the entrance pupil is upright
    and in front of the object, or inverted and behind it (object at infinity: if it is upright) *)
Theorem C60_stop_object newton axis l es stop c c' st r : 0 < pu_index (cj_pupil c) -> pu_update_distance (cj_pupil c) = true -> pu_update_radius (cj_pupil c) = true ->
  nth_error es stop = Some st -> e_radius st = Some r -> 0 < r -> update_object axis l es stop c = Some c' ->
  (cj_finite c = false -> cj_projection c = Rectilinear /\ cos (cj_val c') <> 0) -> (cj_finite c = true -> pu_distance (cj_pupil c') <> 0) ->
  refractive_index es l 0 = 1 ->
  exists q r', pupil_radius (cj_pupil c') = Some q /\ update_stop_object newton axis l es stop c' = Some r' /\ Rabs r' = r /\
    ((if cj_finite c then 0 < q * pu_distance (cj_pupil c') else 0 < q) -> r' = r).
Proof.
  intros IX UD UR NS RS R0 UO INF FIN N1. unfold update_object in UO. rewrite NS in UO. cbn [obind] in UO. rewrite RS in UO. cbn [obind] in UO.
  destruct (nth_error es 0) as [e0|]; [|discriminate]. cbn [obind] in UO. unfold update_stop_object.
  destruct (snd (sys_matrix es l 1 (Some (S stop)))) as [M|]; [|discriminate]. cbn [obind] in *. destruct (block axis M) as [[[a b] x] y]. rewrite N1 in UO.
  destruct (fdiv (b * 1) a) as [d|] eqn:FD; [|discriminate]. cbn [obind] in UO. destruct (fdiv r a) as [pr|] eqn:FR; [|discriminate]. cbn [obind] in UO.
  apply fdiv_inv in FD. destruct FD as [A ->]. apply fdiv_inv in FR. destruct FR as [_ ->].
  destruct (conj_update_inv _ _ _ _ _ IX UD UR UO) as (FI & PJ & DI & PRD & _). rewrite DI, PRD in *.
  assert (Q : r / a <> 0). { unfold Rdiv. apply Rmult_integral_contrapositive_currified; [lra|apply Rinv_neq_0_compat; exact A]. }
  assert (AA : Rabs a <> 0) by (apply Rabs_no_R0; exact A).
  exists (r / a). destruct (cj_finite c) eqn:F.
  - specialize (FIN eq_refl). assert (B : b <> 0) by (intros ->; apply FIN; unfold Rdiv; ring). assert (BB : Rabs b <> 0) by (apply Rabs_no_R0; exact B).
    rewrite (edge_finite newton c' 1 (r / a)); [|congruence|ring|exact PRD|exact Q|rewrite DI; exact FIN]. cbn [obind fst snd]. rewrite DI.
    eexists. split; [reflexivity|]. split; [reflexivity|].
    assert (V : a * 0 + b * (1 * (Rabs (r / a) / Rabs (b * 1 / a))) = b * (r / Rabs b)).
    { rewrite !abs_quot by exact A. rewrite Rmult_1_r, (Rabs_pos_eq r) by lra. field. auto. }
    rewrite V. split.
    + rewrite Rabs_mult, abs_quot by exact BB. rewrite Rabs_Rabsolu, (Rabs_pos_eq r) by lra. field. exact BB.
    + intros P. assert (0 < b). { replace (r / a * (b * 1 / a)) with (b * (r * (/ a * / a))) in P by (field; exact A). assert (0 < / a * / a) by (pose proof (Rinv_neq_0_compat _ A); nra). assert (0 < r * (/ a * / a)) by nra. nra. }
      rewrite (Rabs_pos_eq b) by lra. field. exact B.
  - destruct (INF eq_refl) as (PR & CV). rewrite (edge_infinite newton c' 1 (r / a)); [|congruence|congruence|exact CV|ring|exact PRD|exact Q]. cbn [obind fst snd].
    eexists. split; [reflexivity|]. split; [reflexivity|]. rewrite abs_quot, (Rabs_pos_eq r) by lra.
    replace (a * (1 * (r / Rabs a)) + b * 0) with (a * (r / Rabs a)) by ring. split.
    + rewrite Rabs_mult, abs_quot by exact AA. rewrite Rabs_Rabsolu, (Rabs_pos_eq r) by lra. field. exact AA.
    + intros P. assert (0 < a). { destruct (Rtotal_order a 0) as [L|[L|L]]; [|contradiction|lra]. exfalso. assert (r * / a < 0) by (apply Rinv_lt_0_compat in L; nra). unfold Rdiv in P. lra. }
      rewrite (Rabs_pos_eq a) by lra. field. exact A.
Qed.
(** ** C60: the same from the exit pupil, for an image at finite distance; the sign comes back if the exit pupil is
    upright and in front of the image, or inverted and behind it *)
Theorem C60_stop_image newton axis l es stop c c' st r : 0 < pu_index (cj_pupil c) -> pu_update_distance (cj_pupil c) = true -> pu_update_radius (cj_pupil c) = true ->
  nth_error es stop = Some st -> e_radius st = Some r -> 0 < r -> update_image axis l es stop c = Some c' ->
  cj_finite c = true -> pu_distance (cj_pupil c') <> 0 -> fst (sys_matrix es l (S stop) None) = 1 ->
  exists q r', pupil_radius (cj_pupil c') = Some q /\ update_stop_image newton axis l es stop c' = Some r' /\ Rabs r' = r /\
    (q * pu_distance (cj_pupil c') < 0 -> r' = r).
Proof.
  intros IX UD UR NS RS R0 UO F FIN N1. unfold update_image in UO. rewrite NS in UO. cbn [obind] in UO. rewrite RS in UO. cbn [obind] in UO.
  destruct (nth_error es (length es - 1)) as [e0|]; [|discriminate]. cbn [obind] in UO. unfold update_stop_image.
  destruct (sys_matrix es l (S stop) None) as [nb [M|]]; [|cbn in UO; discriminate UO]. cbn [obind fst snd] in *. subst nb. destruct (inv_row0 (block axis M)) as [[a b]|]; [|discriminate]. cbn [obind fst snd] in *.
  destruct (fdiv (b * 1) a) as [d|] eqn:FD; [|discriminate]. cbn [obind] in UO. destruct (fdiv r a) as [pr|] eqn:FR; [|discriminate]. cbn [obind] in UO.
  apply fdiv_inv in FD. destruct FD as [A ->]. apply fdiv_inv in FR. destruct FR as [_ ->].
  destruct (conj_update_inv _ _ _ _ _ IX UD UR UO) as (FI & PJ & DI & PRD & _). rewrite DI, PRD in *.
  assert (Q : r / a <> 0). { unfold Rdiv. apply Rmult_integral_contrapositive_currified; [lra|apply Rinv_neq_0_compat; exact A]. }
  assert (AA : Rabs a <> 0) by (apply Rabs_no_R0; exact A).
  assert (B : b <> 0) by (intros ->; apply FIN; unfold Rdiv; ring). assert (BB : Rabs b <> 0) by (apply Rabs_no_R0; exact B).
  exists (r / a). rewrite (edge_finite newton c' (-1) (r / a)); [|congruence|ring|exact PRD|exact Q|rewrite DI; exact FIN]. cbn [obind fst snd]. rewrite DI.
  eexists. split; [reflexivity|]. split; [reflexivity|].
  assert (V : a * 0 + b * (-1 * (Rabs (r / a) / Rabs (b * 1 / a))) = - (b * (r / Rabs b))).
  { rewrite !abs_quot by exact A. rewrite Rmult_1_r, (Rabs_pos_eq r) by lra. field. auto. }
  rewrite V. split.
  - rewrite Rabs_Ropp, Rabs_mult, abs_quot by exact BB. rewrite Rabs_Rabsolu, (Rabs_pos_eq r) by lra. field. exact BB.
  - intros P. assert (b < 0). { replace (r / a * (b * 1 / a)) with (b * (r * (/ a * / a))) in P by (field; exact A). assert (0 < / a * / a) by (pose proof (Rinv_neq_0_compat _ A); nra). assert (0 < r * (/ a * / a)) by nra. nra. }
    rewrite (Rabs_left b) by lra. field. exact B.
Qed.
(** ** C60 refuted for an image at infinity: the stop radius always comes back with the wrong sign *)
Theorem C60_stop_image_infinite_refuted newton axis l es stop c c' st r q r' : 0 < pu_index (cj_pupil c) -> pu_update_distance (cj_pupil c) = true -> pu_update_radius (cj_pupil c) = true ->
  nth_error es stop = Some st -> e_radius st = Some r -> 0 < r -> update_image axis l es stop c = Some c' ->
  cj_finite c = false -> cj_projection c = Rectilinear -> cos (cj_val c') <> 0 ->
  pupil_radius (cj_pupil c') = Some q -> 0 < q -> update_stop_image newton axis l es stop c' = Some r' -> r' = - r.
Proof.
  intros IX UD UR NS RS R0 UO F PR CV PQ QP US. unfold update_image in UO. rewrite NS in UO. cbn [obind] in UO. rewrite RS in UO. cbn [obind] in UO.
  destruct (nth_error es (length es - 1)) as [e0|]; [|discriminate]. cbn [obind] in UO. unfold update_stop_image in US.
  destruct (sys_matrix es l (S stop) None) as [nb [M|]]; [|cbn in UO; discriminate UO]. cbn [obind fst snd] in *. destruct (inv_row0 (block axis M)) as [[a b]|]; [|discriminate]. cbn [obind fst snd] in *.
  destruct (fdiv (b * nb) a) as [d|] eqn:FD; [|discriminate]. cbn [obind] in UO. destruct (fdiv r a) as [pr|] eqn:FR; [|discriminate]. cbn [obind] in UO.
  apply fdiv_inv in FD. destruct FD as [A ->]. apply fdiv_inv in FR. destruct FR as [_ ->].
  destruct (conj_update_inv _ _ _ _ _ IX UD UR UO) as (FI & PJ & DI & PRD & _). rewrite PRD in PQ. injection PQ as <-.
  rewrite (edge_infinite newton c' (-1) (r / a)) in US; [|congruence|congruence|exact CV|ring|exact PRD|lra]. cbn [obind fst snd] in US. injection US as <-.
  rewrite (Rabs_pos_eq (r / a)) by lra. field. exact A.
Qed.
(** a stop of radius 2 at distance 3 behind the object, the image at distance 3 behind the stop *)
Definition bench (p0 p3 : placement) (m : option material) : list element := [El p0 (Some 5) (Sph m flat); El p3 (Some 2) Plain; El p3 (Some 5) Plain].
Lemma bench_matrix p0 p3 m n l : init 3 ez v0 None = Some p3 -> 0 < n -> refractive_index (bench p0 p3 m) l 0 = n -> refractive_index (bench p0 p3 m) l 1 = n ->
  sys_matrix (bench p0 p3 m) l 1 (Some 2%nat) = (n, Some (Tm (3 / n))) /\ sys_matrix (bench p0 p3 m) l 2 None = (n, Some (Tm (3 / n))).
Proof.
  intros I N R0 R1. destruct (centred_axis 3) as (q3 & E3 & _ & D3 & _); [lra|]. assert (q3 = p3) by congruence. subst q3.
  unfold sys_matrix, paraxial_matrices. rewrite R0, R1. unfold bench, slice. cbn [firstn skipn matrices paraxial_matrix e_place e_kind index_after]. rewrite D3. unfold transfer_matrix. rewrite fdiv_some by lra.
  cbn [obind fold_left]. rewrite mm4_eye_r. split; reflexivity.
Qed.
Definition radius_pupil : pupil := Pupil RadiusPupil 1 1 true true false false 1 Rectilinear.
(** stop of radius 2 between object and image plane of radius 5, all 3 apart; field following the system *)
Example C23_field_example : exists es, forall f, let c := Conjugate f 0 radius_pupil Rectilinear true in
  exists o i y u, update_object true 1 es 1 c = Some o /\ update_image true 1 es 1 c = Some i /\ prays es 1 o = Some (y, u) /\ pu_distance (cj_pupil o) = 3 /\ snd y = -5 /\ conj_slope i = Some (-5/3).
Proof.
  destruct (centred_axis 0) as (p0 & E0 & _); [lra|]. destruct (centred_axis 3) as (p3 & E3 & _); [lra|]. exists (bench p0 p3 None). intros f c. set (es := bench p0 p3 None).
  destruct (bench_matrix p0 p3 None 1 1 E3 ltac:(lra) eq_refl eq_refl) as (M1 & M2). fold es in M1, M2. assert (B : forall t, block true (Tm t) = (1, t, 0, 1)) by reflexivity.
  assert (UO : exists o, update_object true 1 es 1 c = Some o /\ pupil_slope (cj_pupil o) <> None /\ pu_distance (cj_pupil o) = 3 /\ cj_finite o = f /\ cj_projection o = Rectilinear).
  { unfold update_object. cbn [es bench nth_error obind e_radius]. fold (bench p0 p3 None). fold es. rewrite M1. cbn [snd obind]. rewrite B. change (refractive_index es 1 0) with 1. rewrite !fdiv_some by lra. cbn [obind].
    unfold conj_update, pupil_update, c, radius_pupil. cbn [cj_pupil pu_update_distance pu_update_radius with_pdist pu_kind set_radius obind with_pupil cj_update_radius cj_finite].
    destruct f; (eexists; split; [reflexivity|]); cbn; unfold pupil_slope; cbn; rewrite ?fdiv_some by lra; cbn; repeat split; try discriminate; field. }
  assert (UI : exists i, update_image true 1 es 1 c = Some i /\ pu_distance (cj_pupil i) = -3).
  { unfold update_image. cbn [es bench nth_error obind e_radius length Nat.sub]. fold (bench p0 p3 None). fold es. rewrite M2. cbn [snd obind]. rewrite B. unfold inv_row0. replace (1 * 1 - 3 / 1 * 0) with 1 by field. rewrite !fdiv_some by lra. cbn [obind]. rewrite !fdiv_some by lra. cbn [obind].
    unfold conj_update, pupil_update, c, radius_pupil. cbn [cj_pupil pu_update_distance pu_update_radius with_pdist pu_kind set_radius obind with_pupil cj_update_radius cj_finite].
    destruct f; (eexists; split; [reflexivity|]); cbn; field. }
  destruct UO as (o & UO & PS & DO & FO & PO). destruct UI as (i & UI & DI).
  destruct (C23_field true 1 es 1 c o ltac:(cbn; lra) eq_refl eq_refl UO) as (_ & H1). destruct (H1 eq_refl) as (e0 & r0 & N0 & R0 & _ & H2). injection N0 as <-. injection R0 as <-.
  destruct (C23_field_image true 1 es 1 c i ltac:(cbn; lra) eq_refl eq_refl UI) as (_ & H3). destruct (H3 eq_refl) as (el & r1 & N1 & R1 & _ & H4). injection N1 as <-. injection R1 as <-.
  assert (SO : conj_slope o = Some (5 / 3)).
  { unfold update_object in UO. cbn [es bench nth_error obind e_radius] in UO. fold (bench p0 p3 None) in UO. fold es in UO. rewrite M1 in UO. cbn [snd obind] in UO. rewrite B in UO. change (refractive_index es 1 0) with 1 in UO. rewrite !fdiv_some in UO by lra. cbn [obind] in UO.
    destruct (stored_field c _ _ _ _ ltac:(cbn; lra) eq_refl eq_refl UO) as (_ & S). destruct (S eq_refl) as (r & E & _ & S'). injection E as <-. rewrite S' by lra. f_equal. field. }
  assert (PR : exists y u, prays es 1 o = Some (y, u)).
  { unfold prays. rewrite FO. destruct f.
    - destruct (pupil_slope (cj_pupil o)); [|contradiction]. rewrite SO. cbn [obind]. eauto.
    - unfold wideangle. rewrite PO. cbn [rectilinear negb]. assert (T := SO). unfold conj_slope in T. rewrite FO in T. rewrite T. cbn [obind]. rewrite SO.
      unfold update_object in UO. destruct (conj_update_inv c (Some 5) 3 2 o) as (_ & _ & _ & Q & _); [cbn; lra|reflexivity|reflexivity| |rewrite Q; cbn [obind]; eauto].
      rewrite <- UO. cbn [es bench nth_error obind e_radius]. fold (bench p0 p3 None). fold es. rewrite M1. cbn [snd obind]. rewrite B. change (refractive_index es 1 0) with 1. rewrite !fdiv_some by lra. cbn [obind]. f_equal; field. }
  destruct PR as (y & u & PR). exists o, i, y, u. split; [exact UO|]. split; [exact UI|]. split; [exact PR|]. split; [exact DO|]. split; [rewrite (H2 y u PR) by (rewrite DO; lra); ring|]. rewrite H4 by (rewrite DI; lra). rewrite DI. f_equal. field.
Qed.
Example C60_stop_example newton : exists es st c o i r, nth_error es 1 = Some st /\ e_radius st = Some 2 /\ refractive_index es 1 0 = 1 /\ fst (sys_matrix es 1 2 None) = 1 /\ cj_finite c = true /\
  update_object true 1 es 1 c = Some o /\ pu_distance (cj_pupil o) = 3 /\ pupil_radius (cj_pupil o) = Some 2 /\ update_stop_object newton true 1 es 1 o = Some 2 /\
  update_image true 1 es 1 c = Some i /\ pu_distance (cj_pupil i) = -3 /\ pupil_radius (cj_pupil i) = Some r /\ 0 < r.
Proof.
  destruct (centred_axis 0) as (p0 & E0 & _); [lra|]. destruct (centred_axis 3) as (p3 & E3 & _); [lra|].
  destruct (bench_matrix p0 p3 None 1 1 E3 ltac:(lra) eq_refl eq_refl) as (M1 & M2).
  set (c := Conjugate true 5 radius_pupil Rectilinear false).
  assert (B : forall t, block true (Tm t) = (1, t, 0, 1)) by reflexivity.
  assert (UO : update_object true 1 (bench p0 p3 None) 1 c = Some (with_pupil c (with_val (with_pdist radius_pupil (3 / 1 * 1 / 1)) (2 / 1)))).
  { unfold update_object. cbn [bench nth_error obind e_radius]. fold (bench p0 p3 None). rewrite M1. cbn [snd obind]. rewrite B. replace (refractive_index (bench p0 p3 None) 1 0) with 1 by reflexivity. rewrite !fdiv_some by lra. reflexivity. }
  assert (UI : update_image true 1 (bench p0 p3 None) 1 c = Some (with_pupil c (with_val (with_pdist radius_pupil (- (3 / 1) / 1 * 1 / (1 / 1))) (2 / (1 / 1))))).
  { unfold update_image. cbn [bench nth_error obind e_radius length Nat.sub]. fold (bench p0 p3 None). rewrite M2. cbn [snd obind]. rewrite B. unfold inv_row0. replace (1 * 1 - 3 / 1 * 0) with 1 by field. rewrite !fdiv_some by lra. cbn [obind]. rewrite !fdiv_some by lra. reflexivity. }
  destruct (C60_stop_object newton true 1 (bench p0 p3 None) 1 c _ (El p3 (Some 2) Plain) 2 ltac:(cbn; lra) eq_refl eq_refl eq_refl eq_refl ltac:(lra) UO) as (q & r' & Q & R' & _ & RR); [discriminate|cbn; lra|reflexivity|].
  exists (bench p0 p3 None), (El p3 (Some 2) Plain), c. do 3 eexists. split; [reflexivity|]. split; [reflexivity|]. split; [reflexivity|]. split; [rewrite M2; reflexivity|]. split; [reflexivity|].
  split; [exact UO|]. split; [cbn; lra|]. split; [cbn; f_equal; lra|].
  split. { rewrite R'. f_equal. apply RR. cbn in Q |- *. injection Q as <-. lra. }
  split; [exact UI|]. split; [cbn; field|]. split; [reflexivity|]. cbn. match goal with |- 0 < ?x => replace x with 2 by field end. lra.
Qed.
(** ** C60 refuted for an immersed object: the stop radius is divided by the index on every update *)
Theorem C60_stop_immersed_refuted newton : exists es c c' r', nth_error es 1 <> None /\ update_object true 1 es 1 c = Some c' /\ pupil_radius (cj_pupil c') = Some 2 /\
  pu_distance (cj_pupil c') = 3 /\ (exists st, nth_error es 1 = Some st /\ e_radius st = Some 2) /\ update_stop_object newton true 1 es 1 c' = Some r' /\ r' = 3/2.
Proof.
  destruct (centred_axis 0) as (p0 & E0 & _); [lra|]. destruct (centred_axis 3) as (p3 & E3 & _); [lra|].
  destruct (bench_matrix p0 p3 (Some water) (4/3) 1 E3 ltac:(lra) eq_refl eq_refl) as (M1 & _).
  set (c := Conjugate true 5 radius_pupil Rectilinear false).
  assert (B : forall t, block true (Tm t) = (1, t, 0, 1)) by reflexivity.
  exists (bench p0 p3 (Some water)), c, (with_pupil c (with_val (with_pdist radius_pupil (3 / (4/3) * (4/3) / 1)) (2 / 1))). eexists. split; [discriminate|].
  split. { unfold update_object. cbn [bench nth_error obind e_radius]. fold (bench p0 p3 (Some water)). rewrite M1. cbn [snd obind]. rewrite B. replace (refractive_index (bench p0 p3 (Some water)) 1 0) with (4/3) by reflexivity. rewrite !fdiv_some by lra. reflexivity. }
  split; [cbn; f_equal; lra|]. split; [cbn; field|]. split; [eexists; split; reflexivity|].
  unfold update_stop_object. rewrite M1. cbn [snd obind]. rewrite B.
  rewrite (edge_finite newton _ 1 (2 / 1)); [|reflexivity|ring|reflexivity|lra|cbn; lra]. cbn [obind fst snd cj_pupil with_pupil with_val with_pdist pu_distance]. split; [reflexivity|].
  replace (3 / (4 / 3) * (4 / 3) / 1) with 3 by field. rewrite !Rabs_pos_eq by lra. field.
Qed.
(** ** C60 refuted for a stop behind an intermediate image of the object, where the entrance pupil is inverted: the
    stop radius comes back negative *)
Theorem C60_stop_sign_refuted newton : forall axis l es stop c c' st r q, 0 < pu_index (cj_pupil c) -> pu_update_distance (cj_pupil c) = true -> pu_update_radius (cj_pupil c) = true ->
  nth_error es stop = Some st -> e_radius st = Some r -> 0 < r -> update_object axis l es stop c = Some c' -> cj_finite c = true -> refractive_index es l 0 = 1 ->
  pupil_radius (cj_pupil c') = Some q -> q * pu_distance (cj_pupil c') < 0 -> update_stop_object newton axis l es stop c' = Some (- r).
Proof.
  intros axis l es stop c c' st r q IX UD UR NS RS R0 UO F N1 PQ P. unfold update_object in UO. rewrite NS in UO. cbn [obind] in UO. rewrite RS in UO. cbn [obind] in UO.
  destruct (nth_error es 0) as [e0|]; [|discriminate]. cbn [obind] in UO. unfold update_stop_object.
  destruct (snd (sys_matrix es l 1 (Some (S stop)))) as [M|]; [|discriminate]. cbn [obind] in *. destruct (block axis M) as [[[a b] x] y]. rewrite N1 in UO.
  destruct (fdiv (b * 1) a) as [d|] eqn:FD; [|discriminate]. cbn [obind] in UO. destruct (fdiv r a) as [pr|] eqn:FR; [|discriminate]. cbn [obind] in UO.
  apply fdiv_inv in FD. destruct FD as [A ->]. apply fdiv_inv in FR. destruct FR as [_ ->].
  destruct (conj_update_inv _ _ _ _ _ IX UD UR UO) as (FI & PJ & DI & PRD & _). rewrite PRD in PQ. injection PQ as <-. rewrite DI in P.
  assert (Q : r / a <> 0). { unfold Rdiv. apply Rmult_integral_contrapositive_currified; [lra|apply Rinv_neq_0_compat; exact A]. }
  rewrite (edge_finite newton c' 1 (r / a)); [|congruence|ring|exact PRD|exact Q|rewrite DI; intros Z; rewrite Z in P; lra]. cbn [obind fst snd]. rewrite DI. f_equal.
  assert (b < 0). { replace (r / a * (b * 1 / a)) with (b * (r * (/ a * / a))) in P by (field; exact A). assert (0 < / a * / a) by (pose proof (Rinv_neq_0_compat _ A); nra). assert (0 < r * (/ a * / a)) by nra. nra. }
  assert (Rabs a <> 0) by (apply Rabs_no_R0; exact A). rewrite !abs_quot by exact A. rewrite Rmult_1_r, (Rabs_pos_eq r), (Rabs_left b) by lra. field. split; lra.
Qed.
(** object, a strongly curved surface to water, a stop behind the image of the object *)
Example C60_stop_sign_example newton : exists es c c' st, nth_error es 2 = Some st /\ e_radius st = Some 2 /\ refractive_index es 1 0 = 1 /\ cj_finite c = true /\
  update_object true 1 es 2 c = Some c' /\ pupil_radius (cj_pupil c') = Some (-1) /\ pu_distance (cj_pupil c') = 15/8 /\ update_stop_object newton true 1 es 2 c' = Some (-2).
Proof.
  destruct (centred_axis 0) as (p0 & E0 & _); [lra|]. destruct (centred_axis 3) as (p3 & E3 & U3 & D3 & _ & A3); [lra|].
  set (es := [El p0 (Some 5) (Sph None flat); El p3 (Some 2) (Sph (Some water) (Surf 4 0 None false)); El p3 (Some 2) (Sph None flat); El p3 (Some 5) Plain]).
  assert (M1 : exists M, snd (sys_matrix es 1 1 (Some 3%nat)) = Some M /\ block true M = (-2, -15/4, -4/3, -3)).
  { pose proof (prim (El p3 (Some 2) (Sph (Some water) (Surf 4 0 None false)), None) 1 1 (Some water) (Surf 4 0 None false) 4) as P1. pose proof (prim (El p3 (Some 2) (Sph None flat), None) 1 (4/3) None flat 0) as P2. cbn [fst] in P1, P2.
    unfold sys_matrix, paraxial_matrices, es, slice, refractive_index. cbn [firstn skipn rev app first_index e_kind matrices].
    rewrite P1; auto; [|split; auto|lra|split; [reflexivity|cbn; lra]]. change (m_index water 1) with (4/3). rewrite P2; auto; [|split; auto|lra].
    cbn [obind fold_left snd]. rewrite mm4_eye_r. eexists. split; [reflexivity|]. unfold dist. cbn [fst e_place]. rewrite D3.
    rewrite block_mm by apply RT_decoupled. rewrite !RT_block. cbv zeta. (f_equal; [f_equal; [f_equal|]|]); field. }
  destruct M1 as (M & M1 & B). set (c := Conjugate true 5 radius_pupil Rectilinear false).
  assert (UO : update_object true 1 es 2 c = Some (with_pupil c (with_val (with_pdist radius_pupil (-15/4 * 1 / -2)) (2 / -2)))).
  { unfold update_object. unfold es at 1 2. cbn [nth_error obind e_radius]. rewrite M1. cbn [obind]. rewrite B. replace (refractive_index es 1 0) with 1 by reflexivity. rewrite !fdiv_some by lra. reflexivity. }
  exists es, c. do 2 eexists. split; [reflexivity|]. split; [reflexivity|]. split; [reflexivity|]. split; [reflexivity|]. split; [exact UO|]. split; [cbn; f_equal; lra|]. split; [cbn; lra|].
  apply (C60_stop_sign_refuted newton true 1 es 2 c _ (El p3 (Some 2) (Sph None flat)) 2 (2 / -2)); try reflexivity; try exact UO; cbn; lra.
Qed.

(** * The clipping rays *)
(** the lower and the upper end of the pupil along [axis] *)
Definition lower (axis : bool) (p : corners) : R * R := if axis then (0, lo_m p) else (lo_s p, 0).
Definition upper (axis : bool) (p : corners) : R * R := if axis then (0, hi_m p) else (hi_s p, 0).
(** the ray passes the plane through the pupil centre perpendicular to the chief direction [d] at offset [o] *)
Definition passes_at (y u d : vec) (z : R) (o : R * R) : Prop :=
  exists s m, frame d s m /\ exists t, at_ray y u t = vadd3 (V 0 0 z) (vadd3 (vmul3 (fst o) s) (vmul3 (snd o) m)).
(** ** C60: for an object at infinity the three rays go through the centre and exactly through the two ends of the
    pupil, also if the pupil is cut asymmetrically *)
Theorem C60_clipping_infinite newton c surface yo z p axis rays : cj_finite c = false -> z <> 0 -> rays_clipping newton c surface yo z p axis = Some rays ->
  Forall2 (fun o ray => forall y u, ray = Some (y, u) -> dot u u = 1 -> direction_map (cj_projection c) yo (cj_val c) = Some u /\ passes_at y u u z o)
    [(0, 0); lower axis p; upper axis p] rays.
Proof.
  intros F Z E. unfold rays_clipping, clipping_coordinates in E. rewrite F in E.
  destruct (fdiv (if axis then lo_m p else lo_s p) (corners_max p)) as [a|] eqn:A; [|discriminate]. destruct (fdiv (if axis then hi_m p else hi_s p) (corners_max p)) as [b|] eqn:B; [|discriminate].
  cbn [obind] in E. injection E as <-. apply fdiv_inv in A. destruct A as (M & ->). apply fdiv_inv in B. destruct B as (_ & ->).
  unfold infinite_aim, pupil_map. cbn [map].
  assert (R : forall o, Forall2 (fun o ray => forall y u, ray = Some (y, u) -> dot u u = 1 -> direction_map (cj_projection c) yo (cj_val c) = Some u /\ passes_at y u u z o) [o] [infinite_ray newton c surface yo (Some o) z]).
  { intros [o1 o2]. constructor; [|constructor]. intros y u E U. destruct (C27_infinite newton c surface yo o1 o2 z y u Z E U) as (D & (s & m & FR & t & T) & _). split; [exact D|]. exists s, m. split; [exact FR|]. exists t. exact T. }
  assert (C : forall o r os rs, Forall2 (fun o ray => forall y u, ray = Some (y, u) -> dot u u = 1 -> direction_map (cj_projection c) yo (cj_val c) = Some u /\ passes_at y u u z o) [o] [r] ->
     Forall2 (fun o ray => forall y u, ray = Some (y, u) -> dot u u = 1 -> direction_map (cj_projection c) yo (cj_val c) = Some u /\ passes_at y u u z o) os rs ->
     Forall2 (fun o ray => forall y u, ray = Some (y, u) -> dot u u = 1 -> direction_map (cj_projection c) yo (cj_val c) = Some u /\ passes_at y u u z o) (o :: os) (r :: rs)).
  { intros o r os rs H1 H2. inversion H1; subst. constructor; assumption. }
  cbn [fst snd]. apply C. { replace (0 * corners_max p, 0 * corners_max p) with (0, 0) by (f_equal; ring). apply R. }
  apply C. { replace (fst (place_axis axis ((if axis then lo_m p else lo_s p) / corners_max p)) * corners_max p, snd (place_axis axis ((if axis then lo_m p else lo_s p) / corners_max p)) * corners_max p) with (lower axis p); [apply R|].
    unfold place_axis, lower. destruct axis; cbn; f_equal; field; exact M. }
  apply C; [|constructor]. replace (fst (place_axis axis ((if axis then hi_m p else hi_s p) / corners_max p)) * corners_max p, snd (place_axis axis ((if axis then hi_m p else hi_s p) / corners_max p)) * corners_max p) with (upper axis p); [apply R|].
    unfold place_axis, upper. destruct axis; cbn; f_equal; field; exact M.
Qed.
Example C60_clipping_infinite_example newton : let c := Conjugate false 0 (Pupil RadiusPupil 1 4 true true false false 1 Rectilinear) Rectilinear false in
  exists rays, rays_clipping newton c None (0, 0) 4 (Corners (-1) (-1) 1 (1/2)) true = Some rays /\ nth_error rays 2 = Some (Some (V 0 (1/2) 0, V 0 0 1)).
Proof.
  cbv zeta. unfold rays_clipping, clipping_coordinates. assert (M : corners_max (Corners (-1) (-1) 1 (1/2)) = 1).
  { unfold corners_max. cbn [lo_s lo_m hi_s hi_m]. rewrite (Rabs_left (-1)), (Rabs_pos_eq 1), (Rabs_pos_eq (1/2)) by lra. unfold Rmax. repeat destruct (Rle_dec _ _); lra. }
  rewrite M. cbn [lo_m hi_m]. rewrite !fdiv_some by lra. cbn [obind cj_finite]. eexists. split; [reflexivity|].
  unfold infinite_aim, pupil_map. rewrite M. cbn [map nth_error place_axis fst snd]. unfold infinite_ray. cbn [cj_projection cj_val]. unfold direction_map, ftan. rewrite sin_0, cos_0, fdiv_some by lra. cbn [obind fst snd]. rewrite !Rmult_0_l.
  assert (N1 : norm (V 0 0 1) = 1). { unfold norm, dot. cbn [vx vy vz]. replace (0 * 0 + 0 * 0 + 1 * 1) with 1 by ring. apply sqrt_1. }
  rewrite fnormalize_some by (intros Q; apply (f_equal vz) in Q; cbn in Q; lra). rewrite N1. cbn [obind].
  assert (U : vmul3 (/ 1) (V 0 0 1) = V 0 0 1) by (apply vec_eq; cbn; field). rewrite U. rewrite axis_frame by lra. cbn [obind fst snd]. rewrite (Rabs_pos_eq 1) by lra.
  do 3 f_equal. apply vec_eq; unfold ex; cbn; field.
Qed.

Lemma finite_rays c surface yo z ys p : finite_aim c surface yo (Some ys) z p false = map (fun y => finite_ray c surface yo (Some (z * tan (fst y * corners_max (corners_angle p z)), z * tan (snd y * corners_max (corners_angle p z)))) z) ys.
Proof. unfold finite_aim, finite_pupil, pupil_map. rewrite !map_map. apply map_ext. intros [a b]. reflexivity. Qed.
(** the ray passes the plane of the pupil at offset [o] in the frame of its chief ray *)
Definition meets (c : conjugate) (surface : option surf) (yo : R * R) (z : R) (y u : vec) (o : R * R) : Prop :=
  starts_at (cj_val c) surface yo y /\ let chief := if pu_telecentric (cj_pupil c) then V 0 0 z else vsub3 (V 0 0 z) y in
  exists s m, frame chief s m /\ goes_through y u (vadd3 (vadd3 y chief) (vadd3 (vmul3 (fst o) s) (vmul3 (snd o) m))) z.
(** ** C60: for an object at finite distance the three rays go through the centre and the ends of the pupil if the
    pupil is round; a round pupil of radius r *)
Theorem C60_clipping_finite newton c surface yo z r axis rays : cj_finite c = true -> z <> 0 -> 0 < r -> rays_clipping newton c surface yo z (corners_of r) axis = Some rays ->
  Forall2 (fun o ray => forall y u, ray = Some (y, u) -> meets c surface yo z y u o) [(0, 0); lower axis (corners_of r); upper axis (corners_of r)] rays.
Proof.
  intros F Z R E. unfold rays_clipping, clipping_coordinates in E. rewrite F, corners_max_abs, (Rabs_pos_eq r) in E by lra. cbn [corners_of lo_s lo_m hi_s hi_m] in E.
  replace (if axis then - r else - r) with (- r) in E by (destruct axis; reflexivity). replace (if axis then r else r) with r in E by (destruct axis; reflexivity).
  rewrite !fdiv_some in E by lra. cbn [obind] in E. apply (f_equal (fun o => match o with Some x => x | None => [] end)) in E. cbv beta iota in E. rewrite <- E, finite_rays. clear E. destruct (angle_max r z ltac:(lra) Z) as (A & M & _). rewrite A, M, (Rabs_pos_eq r) by lra. cbn [map].
  assert (T1 : tan (r / r * atan2 r z) = r / z). { replace (r / r * atan2 r z) with (atan2 r z) by (field; lra). apply tan_atan2; exact Z. }
  assert (T2 : tan (- r / r * atan2 r z) = - (r / z)). { replace (- r / r * atan2 r z) with (- atan2 r z) by (field; lra). rewrite tan_neg, tan_atan2 by exact Z. reflexivity. }
  assert (T0 : tan (0 * atan2 r z) = 0) by (rewrite Rmult_0_l; apply tan_0).
  assert (K : forall ab o, (z * tan (fst ab * atan2 r z), z * tan (snd ab * atan2 r z)) = o ->
    forall y u, finite_ray c surface yo (Some (z * tan (fst ab * atan2 r z), z * tan (snd ab * atan2 r z))) z = Some (y, u) -> meets c surface yo z y u o).
  { intros ab o EO y u EQ. rewrite EO in EQ. destruct o as [o1 o2]. destruct (proj1 (C27_finite c surface yo o1 o2 z Z) y u EQ) as (S & G). split; [exact S|]. exact G. }
  constructor; [|constructor; [|constructor; [|constructor]]]; apply K; cbn [fst snd].
  - rewrite T0. f_equal; ring.
  - unfold place_axis, lower. destruct axis; cbn [fst snd]; rewrite T0, T2; cbn; f_equal; try ring; field; exact Z.
  - unfold place_axis, upper. destruct axis; cbn [fst snd]; rewrite T0, T1; cbn; f_equal; try ring; field; exact Z.
Qed.
Example C60_clipping_finite_example newton : let c := Conjugate true 1 (Pupil RadiusPupil 1 4 true true false false 1 Rectilinear) Rectilinear false in
  exists rays, rays_clipping newton c None (0, 1/2) 4 (corners_of 1) true = Some rays /\ length rays = 3%nat /\ Forall (fun r => r <> None) rays.
Proof.
  cbv zeta. unfold rays_clipping, clipping_coordinates. rewrite corners_max_abs, (Rabs_pos_eq 1) by lra. cbn [corners_of lo_m hi_m]. rewrite !fdiv_some by lra. cbn [obind cj_finite]. eexists. split; [reflexivity|].
  rewrite finite_rays. split; [reflexivity|]. apply Forall_forall. intros r I. apply in_map_iff in I. destruct I as (q & <- & _). apply C27_finite; [lra|reflexivity].
Qed.
(** ** C60 refuted for a pupil cut asymmetrically and an object at finite distance: angles are scaled instead of
    heights, so the ray meant for the nearer end misses it: here it aims at sqrt 2 - 1 instead of 1/2 *)
Theorem C60_clipping_asymmetric_refuted newton : exists c p rays y u, cj_finite c = true /\ upper true p = (0, 1/2) /\ rays_clipping newton c None (0, 0) 1 p true = Some rays /\
  nth_error rays 2 = Some (Some (y, u)) /\ y = v0 /\ vy u = (sqrt 2 - 1) * vz u /\ 0 < vz u /\ sqrt 2 - 1 < 1/2.
Proof.
  exists (Conjugate true 1 (Pupil RadiusPupil 1 1 true true false false 1 Rectilinear) Rectilinear false), (Corners (-1) (-1) 1 (1/2)).
  assert (M : corners_max (Corners (-1) (-1) 1 (1/2)) = 1).
  { unfold corners_max. cbn [lo_s lo_m hi_s hi_m]. rewrite (Rabs_left (-1)), (Rabs_pos_eq 1), (Rabs_pos_eq (1/2)) by lra. unfold Rmax. repeat destruct (Rle_dec _ _); lra. }
  assert (AM : corners_max (corners_angle (Corners (-1) (-1) 1 (1/2)) 1) = PI / 4).
  { unfold corners_angle, corners_max, atan2. cbn [lo_s lo_m hi_s hi_m]. destruct (Rlt_dec 0 1); [|lra]. replace (-1 / 1) with (Ropp 1) by field. replace (1 / 1) with 1 by field. replace (1 / 2 / 1) with (1/2) by field.
    rewrite !atan_opp, atan_1, !Rabs_Ropp. pose proof PI_RGT_0. rewrite (Rabs_pos_eq (PI / 4)) by lra.
    assert (0 <= atan (1/2) <= PI / 4). { pose proof (atan_increasing 0 (1/2) ltac:(lra)). pose proof (atan_increasing (1/2) 1 ltac:(lra)). rewrite atan_0, ?atan_1 in *. lra. }
    rewrite (Rabs_pos_eq (atan (1/2))) by lra. unfold Rmax. repeat destruct (Rle_dec _ _); lra. }
  assert (S2 : 1 < sqrt 2 < 3/2). { split; [rewrite <- sqrt_1 at 1; apply sqrt_lt_1; lra|]. rewrite <- (sqrt_square (3/2)) by lra. apply sqrt_lt_1; lra. }
  assert (SS : sqrt 2 * sqrt 2 = 2) by (apply sqrt_sqrt; lra).
  assert (T : tan (1 / 2 / 1 * (PI / 4)) = sqrt 2 - 1).
  { replace (1 / 2 / 1 * (PI / 4)) with (PI / 8) by field. pose proof PI_RGT_0. pose proof PI_4.
    assert (C : 0 < cos (PI / 8)) by (apply cos_gt_0; lra). assert (C2 : cos (PI / 8) <> 0) by lra.
    assert (TT : tan (PI / 4) = 1) by apply tan_PI4.
    assert (S : sin (PI / 4) = 2 * sin (PI / 8) * cos (PI / 8)) by (replace (PI / 4) with (2 * (PI / 8)) by field; apply sin_2a).
    assert (CC : cos (PI / 4) = 2 * (cos (PI / 8) * cos (PI / 8)) - 1) by (replace (PI / 4) with (2 * (PI / 8)) by field; rewrite cos_2a_cos; ring).
    rewrite sin_PI4 in S. rewrite cos_PI4 in CC. unfold tan. apply (Rmult_eq_reg_r (2 * (cos (PI / 8) * cos (PI / 8)))); [|nra].
    replace (sin (PI / 8) / cos (PI / 8) * (2 * (cos (PI / 8) * cos (PI / 8)))) with (2 * sin (PI / 8) * cos (PI / 8)) by (field; exact C2). rewrite <- S.
    replace (2 * (cos (PI / 8) * cos (PI / 8))) with (1 / sqrt 2 + 1) by lra. apply (Rmult_eq_reg_r (sqrt 2)); [|lra]. field_simplify; [|lra..]. nra. }
  unfold rays_clipping, clipping_coordinates. rewrite M. cbn [lo_m hi_m]. rewrite !fdiv_some by lra. cbn [obind cj_finite]. do 3 eexists. split; [reflexivity|]. split; [reflexivity|]. split; [reflexivity|].
  rewrite finite_rays, AM. cbn [map nth_error place_axis fst snd]. rewrite T, Rmult_0_l, tan_0, !Rmult_0_r, Rmult_1_l. unfold finite_ray. cbn [fst snd cj_val cj_pupil pu_telecentric obind].
  assert (Y : V (- 0 * 1) (- 0 * 1) 0 = v0) by (apply vec_eq; cbn; ring). rewrite Y. assert (U : vsub3 (V 0 0 1) v0 = V 0 0 1) by (apply vec_eq; cbn; ring). rewrite U, axis_frame by lra. cbn [obind fst snd]. rewrite (Rabs_pos_eq 1) by lra.
  set (q := vadd3 _ _). assert (Q : q = V 0 (sqrt 2 - 1) 1) by (apply vec_eq; unfold q, ex; cbn; field). rewrite Q. clearbody q.
  rewrite fnormalize_some by (intros X; apply (f_equal vz) in X; cbn in X; lra). cbn [obind]. destruct (Rlt_dec 1 0); [lra|]. split; [reflexivity|]. split; [reflexivity|].
  set (k := norm _). assert (K : 0 < k). { assert (k <> 0) by (unfold k; rewrite norm_zero; intros X; apply (f_equal vz) in X; cbn in X; lra). pose proof (norm_nonneg (V 0 (sqrt 2 - 1) 1)). fold k in H0. lra. }
  clearbody k. cbn [vy vz vmul3]. split; [ring|]. split; [|lra]. rewrite Rmult_1_r. apply Rinv_0_lt_compat. exact K.
Qed.
Example C60_stop_image_infinite_example newton : exists es st c c' q r', nth_error es 1 = Some st /\ e_radius st = Some 2 /\ cj_finite c = false /\ cos (cj_val c') <> 0 /\
  update_image true 1 es 1 c = Some c' /\ pupil_radius (cj_pupil c') = Some q /\ 0 < q /\ update_stop_image newton true 1 es 1 c' = Some r' /\ r' = -2.
Proof.
  destruct (centred_axis 0) as (p0 & E0 & _); [lra|]. destruct (centred_axis 3) as (p3 & E3 & _); [lra|].
  destruct (bench_matrix p0 p3 None 1 1 E3 ltac:(lra) eq_refl eq_refl) as (_ & M2). set (c := Conjugate false 0 radius_pupil Rectilinear false).
  assert (B : forall t, block true (Tm t) = (1, t, 0, 1)) by reflexivity.
  assert (UI : update_image true 1 (bench p0 p3 None) 1 c = Some (with_pupil c (with_val (with_pdist radius_pupil (- (3 / 1) / 1 * 1 / (1 / 1))) (2 / (1 / 1))))).
  { unfold update_image. cbn [bench nth_error obind e_radius length Nat.sub]. fold (bench p0 p3 None). rewrite M2. cbn [snd obind]. rewrite B. unfold inv_row0. replace (1 * 1 - 3 / 1 * 0) with 1 by field. rewrite !fdiv_some by lra. cbn [obind]. rewrite !fdiv_some by lra. reflexivity. }
  assert (Q : 2 / (1 / 1) = 2) by field. assert (CV : cos 0 <> 0) by (rewrite cos_0; lra).
  exists (bench p0 p3 None), (El p3 (Some 2) Plain), c. do 3 eexists. split; [reflexivity|]. split; [reflexivity|]. split; [reflexivity|]. split; [|split; [exact UI|]]; [exact CV|]. split; [reflexivity|]. split; [cbn; rewrite Q; lra|].
  unfold update_stop_image. rewrite M2. cbn [snd obind]. rewrite B. unfold inv_row0. replace (1 * 1 - 3 / 1 * 0) with 1 by field. rewrite !fdiv_some by lra. cbn [obind].
  rewrite (edge_infinite newton _ (-1) 2); [|reflexivity|reflexivity|exact CV|ring|cbn; f_equal; exact Q|lra]. cbn [obind fst snd]. split; [reflexivity|]. rewrite Rabs_pos_eq by lra. field.
Qed.
Print Assumptions C60_paraxial_rays. Print Assumptions C60_paraxial_rays_immersed_refuted. Print Assumptions C60_stop_object. Print Assumptions C60_stop_image.
Print Assumptions C60_stop_image_infinite_refuted. Print Assumptions C60_stop_immersed_refuted. Print Assumptions C60_stop_sign_refuted. Print Assumptions C60_clipping_infinite.
Print Assumptions C60_clipping_finite. Print Assumptions C60_clipping_asymmetric_refuted.
