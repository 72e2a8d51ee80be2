(** Properties C58 (resolution quantities) and C59 (sizing apertures). *)
From Coq Require Import Reals List Lra Lia Psatz.
From Verif Require Import Base Vec RotModel PlacementModel PlacementProofs ElementModel PropsRescale
  ParaxialModel ParaxialProofs PropsParaxial LimitProofs PropsLimit ReverseModel PropsReverse PropsInverse
  PropsTrace PupilModel PropsPupil ParaxTraceModel PropsConjugates PropsSolve PropsCardinal PropsPupils ResolutionModel.
Import ListNotations.
Open Scope R_scope.

Lemma root_pos t : 0 < sqrt (1 + t * t). Proof. apply sqrt_lt_R0. pose proof (Rle_0_sqr t). unfold Rsqr in *. lra. Qed.
Lemma root_sq t : sqrt (1 + t * t) * sqrt (1 + t * t) = 1 + t * t. Proof. apply sqrt_sqrt. pose proof (Rle_0_sqr t). unfold Rsqr in *. lra. Qed.
(** the sine of the direction with a given tangent *)
Lemma sinarctan_spec t s c : s * s + c * c = 1 -> 0 < c -> s = t * c -> sinarctan t = s.
Proof.
  intros U P E. unfold sinarctan. pose proof (root_pos t) as R. pose proof (root_sq t) as Q. set (w := sqrt (1 + t * t)) in *. clearbody w.
  assert (K : c * w = 1).
  { assert (c * w * (c * w) = 1) by (transitivity (c * c * (w * w)); [ring|]; rewrite Q; rewrite E in U; nra). assert (0 < c * w) by nra. nra. }
  rewrite E. apply (Rmult_eq_reg_r w); [|lra]. transitivity t; [field; lra|]. transitivity (t * (c * w)); [rewrite K; ring|ring].
Qed.

(** ** C58: the numerical aperture is the index times the sine of the angle of the exact ray whose tangent is
    the slope of the marginal ray.  [s], [c]: sine and cosine of that angle *)
Theorem C58_aperture rs r0 r2 s c : nth_error rs 0 = Some r0 -> rn r0 <> 0 -> s * s + c * c = 1 -> 0 < c -> rn r0 * s = fst (ru r0) * c ->
  na_object rs = Some (Rabs (rn r0 * s)) /\
  (forall s' c', back rs 2 = Some r2 -> rn r2 <> 0 -> s' * s' + c' * c' = 1 -> 0 < c' -> rn r2 * s' = fst (ru r2) * c' ->
     na_image false rs = Some (Rabs (rn r2 * s'))).
Proof.
  intros Z N U P E. split.
  - unfold na_object. rewrite Z. cbn [obind]. unfold na_side. rewrite fdiv_some by auto. cbn [obind]. rewrite (sinarctan_spec _ s c); auto.
    apply (Rmult_eq_reg_l (rn r0)); [|auto]. rewrite E. field. auto.
  - intros s' c' B N2 U' P' E'. unfold na_image. rewrite Z, B. cbn [obind]. unfold na_side. rewrite fdiv_some by auto. cbn [obind]. rewrite (sinarctan_spec _ s' c'); auto.
    apply (Rmult_eq_reg_l (rn r2)); [|auto]. rewrite E'. field. auto.
Qed.
Example C58_aperture_example : let rs := [PRow (0, 1) (3/4, 1) 1; PRow (1, 1) (3/4, 1) 1; PRow (1, 1) (3/4, 1) 1] in
  na_object rs = Some (Rabs (1 * (3/5))) /\ na_image false rs = Some (Rabs (1 * (3/5))).
Proof.
  intros rs. destruct (C58_aperture rs (PRow (0, 1) (3/4, 1) 1) (PRow (1, 1) (3/4, 1) 1) (3/5) (4/5)) as (A & B); try reflexivity; cbn [rn ru fst]; try lra.
  split; [exact A|]. apply (B (3/5) (4/5)); try reflexivity; cbn [rn ru fst]; lra.
Qed.

(** ** C58: between finite conjugates the apertures obey the sine condition: aperture times field height is the
    same on both sides if object and image are in focus *)
Theorem C58_sine_condition axis l es y u rs last r2 el a b h0 h1 :
  Forall upright es -> (3 <= length es)%nat -> nth_error es (length es - 1) = Some el ->
  ptrace axis l es y u (refractive_index es l 0) = Some rs -> snd u <> 0 -> refractive_index es l 0 <> 0 ->
  back rs 1 = Some last -> back rs 2 = Some r2 -> plain_surface l (rn r2) el -> rn r2 <> 0 ->
  fst y = 0 -> fst (ry last) = 0 ->
  na_object rs = Some a -> na_image true rs = Some b -> height_object rs = Some h0 -> height_image rs = Some h1 ->
  a * h0 = b * h1.
Proof.
  intros U L EL TR UC N0 BL B2 PL N2 Y0 YL A B H0 H1. pose proof (ptrace_0 _ _ _ _ _ _ _ TR) as Z.
  unfold na_object in A. unfold na_image in B. unfold height_object in H0. unfold height_image in H1. rewrite Z in A, B, H0. rewrite BL in H1. rewrite B2 in B. cbn [obind ry ru rn] in *.
  injection H0 as <-. injection H1 as <-. destruct (na_side _ _) as [s|]; [|discriminate]. cbn [obind] in A, B. injection A as <-.
  destruct (fdiv (fst u) (fst (ru r2))) as [m|] eqn:FM; [|discriminate]. cbn [obind] in B. destruct (fdiv s m) as [q|] eqn:FQ; [|discriminate]. cbn [obind] in B. injection B as <-.
  apply fdiv_inv in FQ. destruct FQ as (M0 & ->).
  assert (MG : magnification rs = Some (m, snd (ru r2) * refractive_index es l 0 / (snd u * rn r2))).
  { unfold magnification. rewrite Z, B2. cbn [obind ru rn]. rewrite FM. cbn [obind]. rewrite fdiv_some by (apply Rmult_integral_contrapositive_currified; auto). reflexivity. }
  rewrite (C49_magnification axis l es y u rs _ _ last r2 el U L EL TR MG BL B2 PL Y0 YL). rewrite <- !Rabs_mult. f_equal. field. auto.
Qed.

(** ** C58: object at infinity in any medium: the working f-number behind the system and the f-number (front focal
    length over twice the entrance pupil radius) belong to the same angle: one is the cosecant, the other the cotangent *)
Theorem C58_f_number rs r0 r2 f w : nth_error rs 0 = Some r0 -> back rs 2 = Some r2 -> fst (ru r0) = 0 ->
  (exists r1, nth_error rs 1 = Some r1 /\ fst (ry r1) = fst (ry r0)) ->
  f_number_object rs = Some f -> working_image false rs = Some w -> rn r2 > 0 -> w ^ 2 = f ^ 2 + / 4.
Proof.
  intros Z B U0 (r1 & N1 & Y1) F W P. unfold f_number_object, focal_length, ppupil_height, lagrange in F. rewrite Z, B, N1 in F. cbn [obind] in F.
  destruct (fdiv _ (snd (ru r0) * fst (ru r2) - fst (ru r0) * snd (ru r2))) as [g|] eqn:FG; [|discriminate]. cbn [obind] in F. apply fdiv_inv in FG. destruct FG as (G0 & ->).
  destruct (ppupil_distance rs) as [[p0 p1]|]; [|discriminate]. cbn [obind fst snd] in F.
  destruct (fdiv (p0 * fst (ru r0)) (rn r0)) as [x|] eqn:FX; [|discriminate]. cbn [obind] in F. apply fdiv_inv in FX. destruct FX as (NX & ->).
  destruct (fdiv (p1 * fst (ru r2)) (rn r2)) as [x|] eqn:FX; [|discriminate]. cbn [obind fst snd] in F.
  match type of F with obind ?o _ = _ => destruct o as [v|] eqn:FV; [|discriminate] end. cbn [obind] in F. injection F as <-. apply fdiv_inv in FV. destruct FV as (V0 & ->).
  unfold working_image, na_image in W. rewrite Z, B in W. cbn [obind] in W. unfold na_side in W. rewrite fdiv_some in W by lra. cbn [obind] in W.
  apply fdiv_inv in W. destruct W as (W0 & ->). rewrite U0 in *. rewrite Y1 in *. rewrite Rmult_0_r, Rmult_0_l, Rminus_0_r in *. rewrite Rmult_0_l in *.
  replace (0 / rn r0) with 0 in * by (field; auto). rewrite Rplus_0_r in *.
  assert (U2 : fst (ru r2) <> 0) by (intros E; apply G0; rewrite E; ring). assert (UC : snd (ru r0) <> 0) by (intros E; apply G0; rewrite E; ring).
  assert (YM : fst (ry r0) <> 0) by (intros E; apply V0; rewrite E, Rabs_R0; ring).
  set (t := fst (ru r2) / rn r2) in *. assert (T0 : t <> 0) by (unfold t, Rdiv; apply Rmult_integral_contrapositive_currified; [auto|apply Rinv_neq_0_compat; lra]).
  assert (F2 : forall x, Rabs x ^ 2 = x ^ 2) by (intros ?; rewrite <- !Rsqr_pow2; symmetry; apply Rsqr_abs).
  rewrite F2. rewrite !Rminus_0_r. replace ((0 - snd (ru r0) * fst (ry r0)) / (snd (ru r0) * fst (ru r2)) * rn r2 * -1) with (fst (ry r0) / t) by (unfold t; field; repeat split; auto; lra).
  assert (E1 : (fst (ry r0) / t / (2 * Rabs (fst (ry r0)))) ^ 2 = / (4 * (t * t))).
  { replace ((fst (ry r0) / t / (2 * Rabs (fst (ry r0)))) ^ 2) with (fst (ry r0) ^ 2 / (t * t) / (4 * Rabs (fst (ry r0)) ^ 2)) by (field; repeat split; first [assumption|apply Rabs_no_R0; assumption]).
    rewrite F2. field. auto. }
  rewrite E1. pose proof (root_pos t) as R. pose proof (root_sq t) as Q. unfold sinarctan in *. set (q := sqrt (1 + t * t)) in *. clearbody q.
  replace ((rn r2 / (2 * Rabs (rn r2 * (t * (1 / q))))) ^ 2) with (rn r2 ^ 2 / (4 * Rabs (rn r2 * (t * (1 / q))) ^ 2)).
  - rewrite F2. replace ((rn r2 * (t * (1 / q))) ^ 2) with (rn r2 ^ 2 * (t * t) / (q * q)) by (field; lra). rewrite Q.
    assert (TT : 1 + t * t <> 0) by (pose proof (Rle_0_sqr t); unfold Rsqr in *; lra). field. repeat split; first [assumption|lra].
  - field. apply Rabs_no_R0. apply Rmult_integral_contrapositive_currified; [lra|]. apply Rmult_integral_contrapositive_currified; [auto|]. unfold Rdiv. rewrite Rmult_1_l. apply Rinv_neq_0_compat. lra.
Qed.
(** a parallel beam of height 3 brought to a focus 4 behind the last surface: f-number 2/3, working f-number 5/6 *)
Example C58_f_number_example : let rs := [PRow (3, 0) (0, 1) 1; PRow (3, 0) (-3/4, 1) 1; PRow (0, 4) (-3/4, 1) 1] in
  f_number_object rs = Some (2/3) /\ working_image false rs = Some (5/6).
Proof.
  cbv zeta. split.
  - unfold f_number_object, focal_length, lagrange, ppupil_height, ppupil_distance, back. cbn [length Nat.leb Nat.sub nth_error obind ry ru rn fst snd].
    repeat (rewrite fdiv_some by lra; cbn [obind fst snd]).
    replace (3 + - 0 / 1 * 1 * 0 / 1) with 3 by field. rewrite (Rabs_pos_eq 3) by lra. rewrite fdiv_some by lra. cbn [obind]. f_equal. match goal with |- Rabs ?x = _ => replace x with (- 2 / 3) by field end. rewrite Rabs_left; lra.
  - unfold working_image, na_image, na_side, back. cbn [length Nat.leb Nat.sub nth_error obind ry ru rn fst snd]. rewrite fdiv_some by lra. cbn [obind].
    rewrite (sinarctan_spec _ (-3/5) (4/5)) by lra. rewrite Rabs_left by lra. rewrite fdiv_some by lra. f_equal. field.
Qed.

(** ** C58: radius and depth of the diffraction spot are lengths: the same system described in another unit ([k] times
    larger numbers, scale divided by [k]) has [k] times larger ones *)
Theorem C58_units l s na k : k <> 0 -> s <> 0 ->
  airy_radius l (s / k) na = option_map (Rmult k) (airy_radius l s na) /\
  rayleigh_range l (s / k) na = option_map (Rmult k) (rayleigh_range l s na).
Proof.
  intros K S0. assert (SK : s / k <> 0) by (unfold Rdiv; apply Rmult_integral_contrapositive_currified; [auto|apply Rinv_neq_0_compat; auto]).
  assert (A : airy_radius l (s / k) na = option_map (Rmult k) (airy_radius l s na)).
  { unfold airy_radius. destruct (fdiv _ _) as [x|]; cbn [obind option_map]; [|reflexivity]. rewrite !fdiv_some by auto. cbn [option_map]. f_equal. field. auto. }
  split; [exact A|]. unfold rayleigh_range. rewrite A. destruct (airy_radius l s na) as [r|]; cbn [obind option_map]; [|reflexivity].
  destruct (Req_dec l 0) as [->|L]; [rewrite !fdiv_zero; reflexivity|]. rewrite !fdiv_some by auto. cbn [obind option_map]. f_equal. field. auto.
Qed.
(** ** C58: in metres (scale one) the number of points is the squared ratio of the object height to the diffraction
    radius (times 1.22), up to the squared cosine of the aperture angle *)
Theorem C58_points l rs r0 a r : nth_error rs 0 = Some r0 -> fst (ry r0) = 0 -> rn r0 > 0 -> l > 0 -> fst (ru r0) <> 0 ->
  na_object rs = Some a -> airy_radius l 1 a = Some r ->
  number_of_points l rs = Some ((122 / 100 * snd (ry r0) / r) ^ 2 * (1 + (fst (ru r0) / rn r0) ^ 2)).
Proof.
  intros Z Y0 N L U A R. unfold na_object, na_side in A. rewrite Z in A. cbn [obind] in A. rewrite fdiv_some in A by lra. cbn [obind] in A. injection A as <-.
  unfold number_of_points, lagrange. rewrite Z. cbn [obind]. rewrite Y0. rewrite fdiv_some by (apply pow_nonzero; lra). f_equal.
  unfold airy_radius in R. set (t := fst (ru r0) / rn r0) in *. assert (T0 : t <> 0) by (unfold t, Rdiv; apply Rmult_integral_contrapositive_currified; [auto|apply Rinv_neq_0_compat; lra]).
  destruct (fdiv (122 / 100 * l) _) as [x|] eqn:FX; [|discriminate]. cbn [obind] in R. rewrite fdiv_some in R by lra. injection R as <-. apply fdiv_inv in FX. destruct FX as (A0 & ->).
  assert (F2 : forall x, Rabs x ^ 2 = x ^ 2) by (intros x; rewrite <- !Rsqr_pow2; symmetry; apply Rsqr_abs).
  set (a := rn r0 * sinarctan t) in *. assert (AN : Rabs a <> 0) by (intros E; apply A0; rewrite E; ring).
  replace ((122 / 100 * snd (ry r0) / (122 / 100 * l / (2 * Rabs a) / 1)) ^ 2) with (4 * Rabs a ^ 2 * snd (ry r0) ^ 2 / l ^ 2) by (field; repeat split; first [assumption|lra]).
  rewrite F2. unfold a, sinarctan. pose proof (root_pos t) as P. pose proof (root_sq t) as Q. set (q := sqrt (1 + t * t)) in *. clearbody q.
  replace ((rn r0 * (t * (1 / q))) ^ 2) with (rn r0 ^ 2 * (t * t) / (q * q)) by (field; lra). rewrite Q. unfold t. field. repeat split; try lra.
  pose proof (Rle_0_sqr (fst (ru r0))). assert (0 < rn r0 ^ 2) by (apply pow_lt; lra). unfold Rsqr in *. nra.
Qed.
(** In any other unit it is wrong: the same rays in millimetres (scale 1/1000, all lengths a thousand times larger)
    have a million times more points, although height over diffraction radius is the same. *)
Theorem C58_points_unit_refuted : exists l rs rs' a r r' n n', let k := 1000 in
  rs' = map (fun x => PRow (k * fst (ry x), k * snd (ry x)) (ru x) (rn x)) rs /\ na_object rs = Some a /\ na_object rs' = Some a /\
  airy_radius l 1 a = Some r /\ airy_radius l (1 / k) a = Some r' /\ r' = k * r /\
  number_of_points l rs = Some n /\ number_of_points l rs' = Some n' /\ n = 4 /\ n' = 1000000 * n.
Proof.
  assert (S : sinarctan (3/4) = 3/5) by (apply (sinarctan_spec _ (3/5) (4/5)); lra).
  exists (3/4), [PRow (0, 1) (3/4, 0) 1]. do 6 eexists. cbv zeta. split; [reflexivity|].
  assert (A : forall y, na_object [PRow y (3/4, 0) 1] = Some (3/5)).
  { intros y. unfold na_object, na_side. cbn [nth_error obind ru rn fst]. rewrite fdiv_some by lra. cbn [obind]. replace (3/4/1) with (3/4) by field. rewrite S, Rmult_1_l, Rabs_pos_eq by lra. reflexivity. }
  split; [apply A|]. split; [cbn [map]; apply A|].
  unfold airy_radius. rewrite !fdiv_some by lra. cbn [obind]. rewrite !fdiv_some by lra. split; [reflexivity|]. split; [reflexivity|]. split; [field|].
  unfold number_of_points, lagrange. cbn [map nth_error obind ry ru fst snd]. rewrite !fdiv_some by (apply pow_nonzero; lra). split; [reflexivity|]. split; [reflexivity|]. split; field.
Qed.
Example C58_units_example : airy_radius 1 (1 / 1000) 2 = Some (1000 * (122 / 100 * 1 / (2 * 2) / 1)).
Proof. destruct (C58_units 1 1 2 1000) as (A & _); [lra|lra|]. rewrite A. unfold airy_radius. rewrite fdiv_some by lra. cbn [obind]. rewrite fdiv_some by lra. reflexivity. Qed.
(** the water lens images the object twice as large and inverted *)
Example C58_sine_condition_example : exists es rs el last r2, Forall upright es /\ (3 <= length es)%nat /\ nth_error es (length es - 1) = Some el /\
  ptrace true 1 es (0, -1) (1, 1/9) (refractive_index es 1 0) = Some rs /\ back rs 1 = Some last /\ back rs 2 = Some r2 /\ plain_surface 1 (rn r2) el /\ rn r2 = 1 /\ fst (ry last) = 0 /\
  exists a b, na_object rs = Some a /\ na_image true rs = Some b /\ height_object rs = Some 1 /\ height_image rs = Some 2 /\ 0 < a /\ a * 1 = b * 2.
Proof.
  destruct (centred_axis 0) as (p0 & E0 & _); [lra|]. destruct (centred_axis 3) as (p3 & E3 & _); [lra|].
  destruct (centred_axis 9) as (p9 & E9 & _); [lra|]. destruct (centred_axis 18) as (p18 & E18 & _); [lra|].
  destruct (lens3_trace p0 p3 p9 p18 E0 E3 E9 E18) as (U & PS & _ & T). specialize (T (0, -1) (1, 1/9)). cbn [fst snd] in T.
  do 5 eexists. split; [exact U|]. split; [cbn; lia|]. split; [reflexivity|]. split; [exact T|]. split; [reflexivity|]. split; [reflexivity|]. split; [apply PS; cbn; tauto|]. split; [reflexivity|]. split; [cbn [ry fst]; field|].
  assert (S : 0 < sinarctan (1/1)). { unfold sinarctan. pose proof (root_pos (1/1)). apply Rmult_lt_0_compat; [lra|]. apply Rdiv_lt_0_compat; lra. }
  exists (sinarctan (1/1)), (sinarctan (1/1) / 2). unfold na_object, na_image, na_side, height_object, height_image, back. cbn [length Nat.leb Nat.sub nth_error obind ry ru rn fst snd].
  rewrite !fdiv_some by lra. cbn [obind]. rewrite fdiv_some by lra. cbn [obind]. split; [rewrite Rmult_1_l, Rabs_pos_eq by lra; reflexivity|].
  split. { f_equal. match goal with |- Rabs ?x = _ => replace x with (- (sinarctan (1/1) / 2)) by field end. rewrite Rabs_Ropp, Rabs_pos_eq by lra. reflexivity. }
  split; [f_equal; rewrite Rabs_left; lra|]. split; [f_equal; match goal with |- Rabs ?x = _ => replace x with 2 by field end; apply Rabs_pos_eq; lra|]. split; [exact S|lra].
Qed.
Example C58_points_example : number_of_points 2 [PRow (0, 5) (3/4, 0) 1] = Some (4 * (3/4 * 5 - 0 * 0) ^ 2 / 2 ^ 2).
Proof. unfold number_of_points, lagrange. cbn [nth_error obind ry ru fst snd]. rewrite fdiv_some by lra. reflexivity. Qed.

(** * C59: sizing apertures *)
Lemma presize_spec es rs k e r : nth_error es (S k) = Some e -> nth_error rs (S k) = Some r ->
  nth_error (presize es rs) (S k) = Some (El (e_place e) (Some (Rabs (fst (ry r)) + Rabs (snd (ry r)))) (e_kind e)).
Proof.
  destruct es as [|e0 es]; [discriminate|]. destruct rs as [|r0 rs]; [discriminate|]. cbn [presize nth_error]. revert es rs.
  induction k as [|k IH]; intros [|a es] [|b rs] E Q; try discriminate; cbn in *.
  - injection E as ->. injection Q as ->. reflexivity.
  - apply IH; auto.
Qed.
(** ** C59: apertures sized by the paraxial trace pass exactly the paraxial rays from the whole field to the whole
    pupil: the ray [a] marginal plus [b] chief stays inside for fractions up to one, and one of them touches the rim *)
Theorem C59_paraxial axis l es y u rs k e r : Forall upright es ->
  ptrace axis l es y u (refractive_index es l 0) = Some rs -> nth_error es (S k) = Some e -> nth_error rs (S k) = Some r ->
  exists e' R, nth_error (presize es rs) (S k) = Some e' /\ e_radius e' = Some R /\ e_place e' = e_place e /\ e_kind e' = e_kind e /\
  (forall a b rs' r', Rabs a <= 1 -> Rabs b <= 1 ->
    ptrace axis l es (a * fst y + b * snd y, 0) (a * fst u + b * snd u, 0) (refractive_index es l 0) = Some rs' -> nth_error rs' (S k) = Some r' -> Rabs (fst (ry r')) <= R) /\
  (exists a b, Rabs a = 1 /\ Rabs b = 1 /\ forall rs' r',
    ptrace axis l es (a * fst y + b * snd y, 0) (a * fst u + b * snd u, 0) (refractive_index es l 0) = Some rs' -> nth_error rs' (S k) = Some r' -> Rabs (fst (ry r')) = R).
Proof.
  intros U T EE ER. eexists. eexists. split; [apply presize_spec; eauto|]. cbn [e_radius e_place e_kind]. split; [reflexivity|]. split; [reflexivity|]. split; [reflexivity|].
  assert (LIN : forall a b rs' r', ptrace axis l es (a * fst y + b * snd y, 0) (a * fst u + b * snd u, 0) (refractive_index es l 0) = Some rs' -> nth_error rs' (S k) = Some r' ->
    fst (ry r') = a * fst (ry r) + b * snd (ry r)).
  { intros a b rs' r' T' N'. eapply (rows_linear axis l es y u rs _ _ rs' a b U T T'); eauto. }
  split.
  - intros a b rs' r' A B T' N'. rewrite (LIN _ _ _ _ T' N'). eapply Rle_trans; [apply Rabs_triang|]. rewrite !Rabs_mult.
    pose proof (Rabs_pos (fst (ry r))). pose proof (Rabs_pos (snd (ry r))). pose proof (Rabs_pos a). pose proof (Rabs_pos b). nra.
  - set (sg := fun x => if Rle_dec 0 x then 1 else -1).
    assert (SG : forall x, Rabs (sg x) = 1 /\ sg x * x = Rabs x).
    { intros x. unfold sg. destruct (Rle_dec 0 x); [rewrite (Rabs_pos_eq x), (Rabs_pos_eq 1) by lra; lra|]. rewrite (Rabs_left x), (Rabs_left (-1)) by lra. lra. }
    exists (sg (fst (ry r))), (sg (snd (ry r))). split; [apply SG|]. split; [apply SG|]. intros rs' r' T' N'. rewrite (LIN _ _ _ _ T' N').
    rewrite (proj2 (SG _)), (proj2 (SG _)). apply Rabs_pos_eq. pose proof (Rabs_pos (fst (ry r))). pose proof (Rabs_pos (snd (ry r))). lra.
Qed.
Example C59_paraxial_example : exists es rs e r, Forall upright es /\ ptrace true 1 es (0, -1) (1, 1/9) (refractive_index es 1 0) = Some rs /\
  nth_error es 1 = Some e /\ nth_error rs 1 = Some r /\ e_radius e = Some 4 /\ exists e', nth_error (presize es rs) 1 = Some e' /\ e_radius e' = Some 9.
Proof.
  destruct (centred_axis 0) as (p0 & E0 & _); [lra|]. destruct (centred_axis 3) as (p3 & E3 & _); [lra|].
  destruct (centred_axis 9) as (p9 & E9 & _); [lra|]. destruct (centred_axis 18) as (p18 & E18 & _); [lra|].
  destruct (lens3_trace p0 p3 p9 p18 E0 E3 E9 E18) as (U & PS & _ & T). specialize (T (0, -1) (1, 1/9)). cbn [fst snd] in T.
  do 4 eexists. split; [exact U|]. split; [exact T|]. split; [reflexivity|]. split; [reflexivity|]. split; [reflexivity|]. eexists. split; [reflexivity|].
  cbn [e_radius ry fst snd]. f_equal. rewrite (Rabs_pos_eq (0 + 9 * 1)) by lra. replace (-1 + 9 * (1/9)) with 0 by field. rewrite Rabs_R0. lra.
Qed.

Lemma max_from_spec ys : forall m M, max_from m ys = Some M -> m <= M /\
  (forall y, In y ys -> exists v, y = Some v /\ sqrt (r2_of v) <= M) /\ (M = m \/ exists v, In (Some v) ys /\ sqrt (r2_of v) = M).
Proof.
  induction ys as [|y ys IH]; intros m M E; cbn in E.
  - injection E as <-. split; [lra|]. split; [intros ? []|auto].
  - destruct y as [y|]; [|discriminate]. cbn [obind] in E. destruct (IH _ _ E) as (A & B & C). pose proof (Rmax_l m (sqrt (r2_of y))). pose proof (Rmax_r m (sqrt (r2_of y))).
    split; [lra|]. split.
    + intros z [<-|I]; [exists y; split; [reflexivity|lra]|auto].
    + destruct C as [C|(v & I & Q)]; [|right; exists v; split; [right; exact I|exact Q]].
      destruct (Rle_dec m (sqrt (r2_of y))) as [L|L].
      * right. exists y. split; [left; reflexivity|]. rewrite C, Rmax_right; auto.
      * left. rewrite C, Rmax_left; lra.
Qed.
Lemma max_radius_spec ys M : max_radius ys = Some M ->
  (forall y, In y ys -> exists v, y = Some v /\ sqrt (r2_of v) <= M) /\ (exists v, In (Some v) ys /\ sqrt (r2_of v) = M).
Proof.
  destruct ys as [|[y|] ys]; cbn; try discriminate. intros E. destruct (max_from_spec _ _ _ E) as (A & B & C). split.
  - intros z [<-|I]; [exists y; auto|auto].
  - destruct C as [C|(v & I & Q)]; [exists y|exists v]; auto.
Qed.
Lemma gresize_from_spec fn : forall es ys es' k, gresize_from fn es ys = Some es' -> length ys = length es ->
  length es' = length es /\ forall e, nth_error es k = Some e -> exists y m, nth_error ys k = Some y /\ max_radius y = Some m /\
    nth_error es' k = Some (El (e_place e) (fn m (e_radius e)) (e_kind e)).
Proof.
  induction es as [|a es IH]; intros [|y ys] es' k E L; try discriminate; cbn in E.
  - injection E as <-. split; [reflexivity|]. destruct k; discriminate.
  - destruct (max_radius y) as [m|] eqn:M; [|discriminate]. cbn [obind] in E. destruct (gresize_from fn es ys) as [es2|] eqn:G; [|discriminate]. cbn [obind] in E. injection E as <-.
    cbn in L. split. { cbn. f_equal. apply (IH ys es2 O G). lia. }
    intros e N. destruct k as [|k]; cbn in *; [injection N as <-; exists y, m; auto|]. apply (IH ys es2 k G); auto.
Qed.
Lemma gresize_spec fn es ys es' : gresize fn es ys = Some es' -> length ys = length es ->
  length es' = length es /\ nth_error es' 0 = nth_error es 0 /\ forall k e, nth_error es (S k) = Some e -> exists y m, nth_error ys (S k) = Some y /\ max_radius y = Some m /\
    nth_error es' (S k) = Some (El (e_place e) (fn m (e_radius e)) (e_kind e)).
Proof.
  destruct es as [|e0 es], ys as [|y0 ys]; try discriminate; cbn [gresize].
  - intros E _. injection E as <-. split; [reflexivity|]. split; [reflexivity|]. intros k; discriminate.
  - intros E L. destruct (gresize_from fn es ys) as [es2|] eqn:G; [|discriminate]. cbn [obind] in E. injection E as <-. cbn in L. injection L as L.
    split; [cbn; f_equal; apply (gresize_from_spec fn es ys es2 O G L)|]. split; [reflexivity|]. intros k e N. cbn in *. apply (gresize_from_spec fn es ys es2 k G L); auto.
Qed.
Lemma points_nth n tr k : (k < n)%nat -> nth_error (points n tr) k = Some (map (fun t => do s <- nth_error t k; st_y s) tr).
Proof.
  intros L. unfold points. rewrite nth_error_map. replace (nth_error (seq 0 n) k) with (Some k); [reflexivity|]. symmetry.
  rewrite (nth_error_nth' _ O) by (rewrite seq_length; exact L). rewrite seq_nth by exact L. reflexivity.
Qed.
Lemma points_length n tr : length (points n tr) = n.
Proof. unfold points. rewrite map_length, seq_length. reflexivity. Qed.

(** every point of the trace [st] lies inside the aperture of the element of [es'] *)
Definition within (r : option R) (s : step) : Prop := exists v, st_y s = Some v /\ match r with None => True | Some r => r2_of v <= r * r end.
Lemma clip_pass newton : forall es es' y u n l, length es' = length es ->
  (forall k e, nth_error es k = Some e -> exists e' s, nth_error es' k = Some e' /\ e_place e' = e_place e /\ e_kind e' = e_kind e /\
    nth_error (sys_propagate newton es y u n l false) k = Some s /\ within (e_radius e') s) ->
  sys_propagate newton es' y u n l true = sys_propagate newton es y u n l false.
Proof.
  induction es as [|e es IH]; intros [|e' es'] y u n l L H; try discriminate; [reflexivity|].
  destruct (H O e eq_refl) as (e2 & s & Q & P & K & N & I). cbn in Q. injection Q as <-. cbn [sys_propagate] in *. rewrite P in *.
  set (y1 := obind y _) in *. set (i := onormal _ u) in *.
  assert (EQ : propagate newton e' y1 i n l true = propagate newton e y1 i n l false).
  { destruct I as (v & I & R). revert I. clear - N K R. destruct (propagate newton e y1 i n l false) as [[[yy uu] nn] tt] eqn:EP. cbn [nth_error] in N. injection N as <-. cbn [st_y]. intros I.
    unfold propagate in *. rewrite K. set (t := do y0 <- y1; do u0 <- i; match e_kind e with Plain => plane_intercept y0 u0 | Sph _ s => intercept newton s y0 u0 end) in *.
    set (y2 := do y0 <- y1; do u0 <- i; do t <- t; Some (at_ray y0 u0 t)) in *.
    assert (Y : y2 = yy). { destruct (e_kind e) as [|m s]; [congruence|]. destruct (get_n_mu m n l); congruence. }
    assert (C : clip (e_radius e') y2 i = i). { rewrite Y, I. cbn. destruct (e_radius e') as [r|]; [|reflexivity]. destruct (Rle_dec (r2_of v) (r * r)); [reflexivity|contradiction]. }
    rewrite C. exact EP. }
  rewrite EQ. clear EQ. destruct (propagate newton e y1 i n l false) as [[[yy uu] nn] tt]. f_equal. apply IH; [injection L; auto|].
  intros k e3 N3. destruct (H (S k) e3 N3) as (e4 & s4 & Q4). exists e4, s4. exact Q4.
Qed.

(** ** C59: after sizing the apertures to a traced bundle no ray of the bundle is clipped, also with any other
    rule that never makes an aperture smaller than the bundle *)
Theorem C59_passes newton fn es es' n l rays y u : (forall m r r', fn m r = Some r' -> m <= r') ->
  gresize fn es (points (length es) (map (fun '(y, u) => geo_trace newton es y u n l false) rays)) = Some es' -> In (y, u) rays ->
  geo_trace newton es' y u n l true = geo_trace newton es y u n l false.
Proof.
  intros F G I. destruct (gresize_spec _ _ _ _ G (points_length _ _)) as (L & Z & H).
  destruct es as [|e0 es], es' as [|e0' es']; try discriminate; [reflexivity|]. cbn in Z. injection Z as ->. cbn [geo_trace]. f_equal.
  apply clip_pass; [injection L; auto|]. intros k e N. destruct (H k e N) as (c & m & C & M & E').
  rewrite points_nth in C by (apply nth_error_Some; cbn; congruence). injection C as C. destruct (max_radius_spec _ _ M) as (B & _).
  assert (IN : In (do s <- nth_error (geo_trace newton (e0 :: es) y u n l false) (S k); st_y s) c).
  { rewrite <- C, map_map. apply in_map_iff. exists (y, u). auto. }
  destruct (B _ IN) as (v & Q & LE). cbn [geo_trace nth_error] in Q. destruct (nth_error (sys_propagate _ _ _ _ _ _ _) k) as [s|]; [|discriminate]. cbn [obind] in Q.
  exists (El (e_place e) (fn m (e_radius e)) (e_kind e)), s. split; [exact E'|]. split; [reflexivity|]. split; [reflexivity|]. split; [reflexivity|].
  exists v. split; [exact Q|]. cbn [e_radius]. destruct (fn m (e_radius e)) as [r'|] eqn:FR; [|exact Logic.I]. apply F in FR.
  assert (0 <= r2_of v) by (unfold r2_of; nra). pose proof (sqrt_pos (r2_of v)). pose proof (sqrt_sqrt (r2_of v) ltac:(assumption)). nra.
Qed.
(** ** C59: and no aperture is larger than needed: some ray of the bundle touches its rim, so any smaller
    aperture there clips that ray *)
Theorem C59_tight newton es es' n l rays k e' : gresize (fun m _ => Some m) es (points (length es) (map (fun '(y, u) => geo_trace newton es y u n l false) rays)) = Some es' ->
  nth_error es' (S k) = Some e' ->
  exists R y u s v, e_radius e' = Some R /\ In (y, u) rays /\ nth_error (geo_trace newton es y u n l false) (S k) = Some s /\ st_y s = Some v /\ sqrt (r2_of v) = R /\
    forall r d, 0 <= r < R -> clip (Some r) (st_y s) d = None.
Proof.
  intros G N. destruct (gresize_spec _ _ _ _ G (points_length _ _)) as (L & _ & H).
  assert (LT : (S k < length es)%nat) by (rewrite <- L; apply nth_error_Some; congruence).
  destruct (nth_error es (S k)) as [e|] eqn:E; [|apply nth_error_None in E; lia]. destruct (H k e E) as (c & m & C & M & E'). rewrite N in E'. injection E' as ->.
  rewrite points_nth in C by exact LT. injection C as C. destruct (max_radius_spec _ _ M) as (_ & v & I & Q). rewrite <- C, map_map in I. apply in_map_iff in I.
  destruct I as ((y & u) & I & IN). match type of I with obind ?o _ = _ => change o with (nth_error (geo_trace newton es y u n l false) (S k)) in I end.
  destruct (nth_error (geo_trace newton es y u n l false) (S k)) as [s|] eqn:S; [|discriminate I]. cbn [obind] in I.
  exists m, y, u, s, v. cbn [e_radius]. split; [reflexivity|]. split; [exact IN|]. split; [exact S|]. split; [exact I|]. split; [exact Q|].
  intros r d (R0 & R1). rewrite I. cbn. destruct (Rle_dec (r2_of v) (r * r)) as [X|X]; [|reflexivity]. exfalso. apply sqrt_le_1_alt in X. rewrite sqrt_square in X by exact R0. lra.
Qed.
Example C59_geometric_example newton : exists p0 p3, init 0 ez v0 None = Some p0 /\ init 3 ez v0 None = Some p3 /\
  let es := [El p0 None Plain; El p3 (Some 1) Plain] in let rays := [(V 0 (-5) 0, ez); (V 3 4 0, ez); (V 0 2 0, ez)] in
  gresize (fun m _ => Some m) es (points (length es) (map (fun '(y, u) => geo_trace newton es y u 1 1 false) rays)) = Some [El p0 None Plain; El p3 (Some 5) Plain].
Proof.
  destruct (on_axis 0) as (p0 & I0 & NF0 & FO0 & O0 & F0 & T0); [lra|].
  destruct (on_axis 3) as (p1 & I1 & NF1 & FO1 & O1 & F1 & T1); [lra|].
  exists p0, p1. split; [exact I0|]. split; [exact I1|]. cbv zeta.
  assert (K : forall g h, sys_propagate newton [El p1 (Some 1) Plain] (Some (V g h 0)) (Some ez) 1 1 false =
    [Step (Some (V g h 0)) (Some ez) 1 (Some ez) (Some 3)]).
  { intros g h. cbn [sys_propagate e_place obind onormal]. rewrite O1, !T1. unfold propagate. cbn [e_kind e_radius obind].
    unfold plane_intercept. rewrite fdiv_some by (unfold ez; cbn; lra). cbn [obind].
    replace (- vz (vsub3 (V g h 0) (V 0 0 3)) / vz ez) with 3 by (unfold ez; cbn; field).
    replace (at_ray (vsub3 (V g h 0) (V 0 0 3)) ez 3) with (V g h 0).
    2:{ apply vec_eq; unfold at_ray, ez; cbn; ring. }
    cbn [obind]. rewrite Rmult_1_r. reflexivity. }
  cbn [map geo_trace e_place length points seq]. rewrite !F0, !K. unfold points. cbn [map seq nth_error obind st_y].
  unfold gresize, gresize_from, max_radius, max_from. cbn [obind e_radius e_place e_kind]. unfold r2_of. cbn [vx vy].
  replace (0 * 0 + -5 * -5) with (5 * 5) by ring. replace (3 * 3 + 4 * 4) with (5 * 5) by ring. replace (0 * 0 + 2 * 2) with (2 * 2) by ring.
  rewrite !sqrt_square by lra. rewrite (Rmax_left 5 5) by lra. rewrite (Rmax_left 5 2) by lra. reflexivity.
Qed.
Print Assumptions C58_aperture. Print Assumptions C58_sine_condition. Print Assumptions C58_f_number. Print Assumptions C58_units. Print Assumptions C58_points.
Print Assumptions C58_points_unit_refuted. Print Assumptions C59_paraxial. Print Assumptions C59_passes. Print Assumptions C59_tight.
