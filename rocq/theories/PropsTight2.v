(** Further theorems of C28, C38 and C58: where the points of the regular pupil patterns lie, the principal axes of a beam,
    the size of the diffraction focus. *)
From Coq Require Import Reals List Lra Lia Psatz.
From Verif Require Import Base Vec RotModel RotProofs PlacementModel GaussianModel PropsBeams PropsSums ParaxTraceModel ResolutionModel SampleModel PropsSample.
Import ListNotations.
Open Scope R_scope.

(** ** C28: point [j] of each straight fan, counted along it, and point [j] of ring [i] of the hexapolar pattern *)
Lemma linspace_at a b n j : (2 <= n)%nat -> (j < n)%nat -> nth_error (linspace a b n) j = Some (a + (b - a) * (INR j / INR (n - 1))).
Proof.
  intros N J. unfold linspace. destruct n as [|[|m]]; [lia|lia|]. rewrite nth_error_map. rewrite (nth_error_nth' _ 0%nat) by (rewrite seq_length; lia). rewrite seq_nth by lia. cbn [option_map plus].
  f_equal. replace (S (S m) - 1)%nat with (S m) by lia. assert (INR (S m) <> 0) by (apply not_0_INR; lia). field. auto.
Qed.
Lemma rings_before k m : length (flat_map (hex_ring k) (seq 1 m)) = (3 * m * (m + 1))%nat.
Proof.
  induction m as [|m IH]; [reflexivity|]. rewrite seq_S, flat_map_app, app_length, IH. cbn [flat_map]. rewrite app_nil_r. unfold hex_ring. rewrite map_length, seq_length. lia.
Qed.
Lemma ring_at k i j : (1 <= i <= k)%nat -> (j < 6 * i)%nat ->
  nth_error (flat_map (hex_ring k) (seq 1 k)) (3 * (i - 1) * i + j) = Some (INR i / INR k * sin (2 * PI * INR j / INR (6 * i)), INR i / INR k * cos (2 * PI * INR j / INR (6 * i))).
Proof.
  intros I J. replace k with ((i - 1) + (1 + (k - i)))%nat at 2 by lia. rewrite !seq_app, !flat_map_app.
  pose proof (rings_before k (i - 1)) as L. replace (3 * (i - 1) * (i - 1 + 1))%nat with (3 * (i - 1) * i)%nat in L by (f_equal; lia).
  rewrite nth_error_app2 by lia. rewrite L. replace (3 * (i - 1) * i + j - 3 * (i - 1) * i)%nat with j by lia. replace (1 + (i - 1))%nat with i by lia. cbn [seq flat_map]. rewrite app_nil_r.
  assert (LR : length (hex_ring k i) = (6 * i)%nat) by (unfold hex_ring; rewrite map_length, seq_length; reflexivity). rewrite nth_error_app1 by lia.
  unfold hex_ring. rewrite nth_error_map. rewrite (nth_error_nth' _ 0%nat) by (rewrite seq_length; lia). rewrite seq_nth by lia. cbn [option_map plus]. f_equal.
  assert (INR k <> 0) by (apply not_0_INR; lia). assert (INR (6 * i) <> 0) by (apply not_0_INR; lia).
  replace (INR j * (2 * PI / INR (6 * i))) with (2 * PI * INR j / INR (6 * i)) by (field; auto). f_equal; field; auto.
Qed.
Theorem C28_positions rand gr gl n : (2 <= n)%nat -> let sample d := pupil_distribution rand gr gl d n in
  (exists xy, sample HalfMeridional = Some (0%nat, xy, None) /\ forall j, (j < n)%nat -> nth_error xy j = Some (0, INR j / INR (n - 1))) /\
  (exists xy, sample Meridional = Some (0%nat, xy, None) /\ forall j, (j <= 2 * (n / 2))%nat -> nth_error xy j = Some (0, -1 + 2 * (INR j / INR (2 * (n / 2))))) /\
  (exists xy, sample Sagittal = Some ((n / 2)%nat, xy, None) /\ forall j, (j <= 2 * (n / 2))%nat -> nth_error xy j = Some (-1 + 2 * (INR j / INR (2 * (n / 2))), 0)) /\
  (exists xy k, sample Hexapolar = Some (0%nat, xy, None) /\ nth_error xy 0 = Some (0, 0) /\ length xy = (1 + 3 * k * (k + 1))%nat /\
     forall i j, (1 <= i <= k)%nat -> (j < 6 * i)%nat ->
       nth_error xy (1 + 3 * (i - 1) * i + j) = Some (INR i / INR k * sin (2 * PI * INR j / INR (6 * i)), INR i / INR k * cos (2 * PI * INR j / INR (6 * i)))).
Proof.
  intros N sample. unfold sample, pupil_distribution. destruct (Nat.eqb_spec n 1); [lia|].
  assert (E : (n - n mod 2 = 2 * (n / 2))%nat) by (pose proof (Nat.div_mod_eq n 2); lia). assert (H : (1 <= n / 2)%nat) by (pose proof (Nat.div_mod_eq n 2); pose proof (Nat.mod_upper_bound n 2); lia).
  split; [|split; [|split]].
  - eexists. split; [reflexivity|]. intros j J. rewrite nth_error_map, linspace_at by lia. cbn [option_map]. f_equal. f_equal. rewrite Rminus_0_r. ring.
  - eexists. split; [reflexivity|]. intros j J. rewrite E. rewrite nth_error_map, linspace_at by lia. cbn [option_map]. replace (2 * (n / 2) + 1 - 1)%nat with (2 * (n / 2))%nat by lia. f_equal. f_equal. ring.
  - eexists. split. { rewrite E. rewrite (Nat.mul_comm 2 (n / 2)), Nat.div_mul by lia. reflexivity. } intros j J. rewrite (Nat.mul_comm (n / 2) 2). rewrite nth_error_map, linspace_at by lia. cbn [option_map]. replace (2 * (n / 2) + 1 - 1)%nat with (2 * (n / 2))%nat by lia. f_equal. f_equal. ring.
  - assert (N2 : 2 <= INR n) by (change 2 with (INR 2); apply le_INR; lia). rewrite fsqrt_some by lra. cbn [obind]. set (k := trunc _). exists ((0, 0) :: flat_map (hex_ring k) (seq 1 k)), k.
    split; [reflexivity|]. split; [reflexivity|]. split; [cbn [length]; rewrite rings_before; reflexivity|]. intros i j I J. change (1 + 3 * (i - 1) * i + j)%nat with (S (3 * (i - 1) * i + j)). cbn [nth_error]. apply ring_at; auto.
Qed.
Example C28_positions_example rand gr gl : exists xy, pupil_distribution rand gr gl HalfMeridional 5 = Some (0%nat, xy, None) /\ nth_error xy 1 = Some (0, 1 / 4).
Proof. destruct (C28_positions rand gr gl 5 ltac:(lia)) as ((xy & S & P) & _). exists xy. split; [exact S|]. rewrite P by lia. f_equal. f_equal. cbn. field. Qed.

(** ** C38: the angle of a beam is the direction of a principal axis of its matrix, the one within 45 degrees of the x axis *)
Lemma halves a b k : a = b / 2 + IZR k * (PI / 2) -> (cos (2 * a) = cos b /\ sin (2 * a) = sin b) \/ (cos (2 * a) = - cos b /\ sin (2 * a) = - sin b).
Proof.
  intros ->. replace (2 * (b / 2 + IZR k * (PI / 2))) with (b + IZR k * PI) by field.
  assert (G : forall m, sin (b + IZR (2 * m) * PI) = sin b /\ cos (b + IZR (2 * m) * PI) = cos b).
  { assert (P : forall x (m : nat), sin (x + 2 * INR m * PI) = sin x /\ cos (x + 2 * INR m * PI) = cos x) by (intros; split; [apply sin_period|apply cos_period]).
    intros m. rewrite mult_IZR. destruct (Z_le_gt_dec 0 m) as [H|H].
    - rewrite <- (Z2Nat.id m H), <- INR_IZR_INZ. apply P.
    - destruct (P (b + 2 * IZR m * PI) (Z.to_nat (- m))) as [A B]. rewrite INR_IZR_INZ, Z2Nat.id, opp_IZR in A, B by lia.
      replace (b + 2 * IZR m * PI + 2 * - IZR m * PI) with b in A, B by ring. auto. }
  destruct (Z.Even_or_Odd k) as [[m ->]|[m ->]]; [left; split; apply G|right].
  rewrite plus_IZR. replace (b + (IZR (2 * m) + 1) * PI) with (b + IZR (2 * m) * PI + PI) by ring. rewrite neg_cos, neg_sin. destruct (G m) as [-> ->]. auto.
Qed.
Theorem C38_principal xx xy yy : let a := angle xx xy yy in - (PI / 4) <= a < PI / 4 /\
  exists v, xx * cos a + xy * sin a = v * cos a /\ xy * cos a + yy * sin a = v * sin a.
Proof.
  intros a. assert (P := PI_RGT_0). unfold angle, pymod in a. set (b := atan2 (2 * xy) (xx - yy)) in *. set (x := b / 2 + PI / 4) in *. destruct (base_Int_part (x / (PI / 2))) as [I J]. set (k := Int_part _) in *. split.
  - assert (X : x = x / (PI / 2) * (PI / 2)) by (field; lra). set (y := x / (PI / 2)) in *. clearbody y. unfold a. rewrite X. split; nra.
  - assert (D : (xx - yy) * sin (2 * a) = 2 * xy * cos (2 * a)).
    { destruct (Req_dec ((xx - yy) * (xx - yy) + (2 * xy) * (2 * xy)) 0) as [Z|Z]; [assert (xx - yy = 0) by nra; assert (xy = 0) by nra; nra|].
      destruct (atan2_cs (2 * xy) (xx - yy) Z) as [C S]. fold b in C, S. remember (sqrt ((xx - yy) * (xx - yy) + 2 * xy * (2 * xy))) as h eqn:EH. assert (H : h <> 0) by (rewrite EH; apply Rgt_not_eq, sqrt_lt_R0; pose proof (Rle_0_sqr (xx - yy)); pose proof (Rle_0_sqr (2 * xy)); unfold Rsqr in *; lra).
      destruct (halves a b (- k)) as [[-> ->]|[-> ->]]; [unfold a, x; rewrite opp_IZR; field| |]; rewrite C, S; field; exact H. }
    rewrite sin_2a, cos_2a in D. pose proof (sin2_cos2 a) as U. unfold Rsqr in U. set (c := cos a) in *. set (s := sin a) in *. clearbody c s.
    exists (xx * c * c + 2 * xy * c * s + yy * s * s). split.
    + assert (xx * c + xy * s - (xx * c * c + 2 * xy * c * s + yy * s * s) * c = 0); [|lra].
      replace (xx * c + xy * s) with ((xx * c + xy * s) * (s * s + c * c)) by (rewrite U; ring).
      transitivity (s * (((xx - yy) * (2 * s * c) - 2 * xy * (c * c - s * s)) / 2)); [field|]. rewrite D. field.
    + assert (xy * c + yy * s - (xx * c * c + 2 * xy * c * s + yy * s * s) * s = 0); [|lra].
      replace (xy * c + yy * s) with ((xy * c + yy * s) * (s * s + c * c)) by (rewrite U; ring).
      transitivity (- c * (((xx - yy) * (2 * s * c) - 2 * xy * (c * c - s * s)) / 2)); [field|]. rewrite D. field.
Qed.
(** what [normal] returns, when it returns *)
Theorem C38_normal_values xx xy yy p q a : normal xx xy yy = Some (p, q, a) ->
  a = angle xx xy yy /\ p - q = xx - yy /\ p + q = (xx + yy) * cos (2 * a).
Proof.
  unfold normal. set (b := angle xx xy yy). cbv zeta. destruct (isclose _ 0); [|discriminate]. destruct (isclose _ 0); [|discriminate]. intros H. injection H as <- <- <-. split; [reflexivity|].
  rewrite cos_2a. pose proof (sin2_cos2 b) as U. unfold Rsqr in U. set (c := cos b) in *. set (s := sin b) in *. clearbody c s. split; [|ring].
  transitivity ((xx - yy) * (s * s + c * c)); [ring|]. rewrite U. ring.
Qed.
Example C38_principal_example : normal 3 0 2 = Some (3, 2, 0) /\ angle 3 0 2 = 0 /\ exists v, 1 * cos (angle 1 2 1) + 2 * sin (angle 1 2 1) = v * cos (angle 1 2 1).
Proof.
  pose proof (C38_normal_aligned 3 2) as N. split; [exact N|]. split; [destruct (C38_normal_values _ _ _ _ _ _ N) as (E & _); auto|]. destruct (C38_principal 1 2 1) as (_ & v & E & _). exists v. exact E.
Qed.

(** ** C58: radius and depth of the diffraction focus in metres: 0.61 wavelengths over the aperture, and the distance at
    which a Gaussian beam of that waist radius is wider by the square root of two.  [l]: wavelength, [s]: metres per unit *)
Definition gaussian_width (l w z : R) : R := w * sqrt (1 + (l * z / (PI * (w * w))) ^ 2).
Theorem C58_diffraction l s na r z : l <> 0 -> s <> 0 -> airy_radius l s na = Some r -> rayleigh_range l s na = Some z ->
  r * s * na = 61 / 100 * l /\ gaussian_width l (r * s) (z * s) = sqrt 2 * (r * s).
Proof.
  intros L S A Z. unfold rayleigh_range in Z. rewrite A in Z. cbn [obind] in Z. rewrite fdiv_some in Z by auto. cbn [obind] in Z. injection Z as <-.
  unfold airy_radius in A. destruct (fdiv _ (2 * na)) as [x|] eqn:F; [|discriminate]. cbn [obind] in A. rewrite fdiv_some in A by auto. injection A as <-. apply fdiv_inv in F. destruct F as (N & ->).
  assert (N0 : na <> 0) by (intros E; apply N; rewrite E; ring). split; [field; auto|]. unfold gaussian_width. rewrite Rmult_comm. f_equal. f_equal.
  assert (P := PI_RGT_0). match goal with |- 1 + ?x ^ 2 = _ => replace x with 1; [ring|] end. field. repeat split; try lra; auto.
Qed.
Example C58_diffraction_example : airy_radius 1 (1 / 1000) (61 / 100) = Some 1000 /\ rayleigh_range 1 (1 / 1000) (61 / 100) = Some (1000 * PI).
Proof.
  assert (A : airy_radius 1 (1 / 1000) (61 / 100) = Some 1000) by (unfold airy_radius; rewrite fdiv_some by lra; cbn [obind]; rewrite fdiv_some by lra; f_equal; field).
  split; [exact A|]. unfold rayleigh_range. rewrite A. cbn [obind]. rewrite fdiv_some by lra. cbn [obind]. f_equal. field.
Qed.
Print Assumptions C28_positions.
Print Assumptions C38_principal.
Print Assumptions C38_normal_values.
Print Assumptions C58_diffraction.
