(** C107: the diffraction pattern and the contrast of a rectangular pupil without wave front error. *)
From Coq Require Import Reals List Lra Lia Psatz Arith ZArith.
From Verif Require Import Base Cx SumsModel PropsSums PsfModel PropsPsf MtfModel PropsMtf PropsStrehl.
Import ListNotations.
Open Scope R_scope.

(** * Specification *)
(** light only in [a] by [b] pixels of the pupil from pixel [j0], [k0] on, with the same error everywhere *)
Definition between (j0 a j : nat) : bool := andb (Nat.leb j0 j) (Nat.ltb j (j0 + a)).
Definition rectangle (n : nat) (o : nat -> nat -> option R) (j0 a k0 b : nat) (w0 : R) : Prop :=
  (0 < a /\ 0 < b /\ j0 + a <= n /\ k0 + b <= n)%nat /\
  forall j k, (j < n)%nat -> (k < n)%nat -> o j k = if andb (between j0 a j) (between k0 b k) then Some w0 else None.
(** textbook: pattern of a row of [a] equal sources, [m] pixels for one order *)
Definition grating (m a p : nat) : R :=
  if Nat.eqb (p mod m) 0 then INR a ^ 2 else (sin (PI * INR a * INR p / INR m) / sin (PI * INR p / INR m)) ^ 2.
(** dark pixels along one axis *)
Definition dark (m a p : nat) : Prop := (p mod m <> 0 /\ (a * p) mod m = 0)%nat.
(** contrast of a slit [a] pixels wide sheared by [k] *)
Definition triangle (a k : nat) : R := if Nat.ltb k a then 1 - INR k / INR a else 0.

(** * Lemmas *)
Lemma segment n j0 a g : (j0 + a <= n)%nat -> rsum n (fun j => if between j0 a j then g j else 0) = rsum a (fun i => g (j0 + i)%nat).
Proof.
  intros L. rewrite <- (Nat.sub_add (j0 + a) n L). generalize (n - (j0 + a))%nat. clear L n. intros d.
  assert (A : rsum (j0 + a) (fun j => if between j0 a j then g j else 0) = rsum a (fun i => g (j0 + i)%nat)).
  { assert (T : forall t, (t <= a)%nat -> rsum (j0 + t) (fun j => if between j0 a j then g j else 0) = rsum t (fun i => g (j0 + i)%nat)).
    { induction t as [|t IH]; intros T.
      - rewrite Nat.add_0_r. cbn. rewrite (rsum_ext j0 _ (fun _ => 0)); [rewrite rsum_const; ring|]. intros i I. unfold between. replace (Nat.leb j0 i) with false by (symmetry; apply Nat.leb_gt; lia). reflexivity.
      - replace (j0 + S t)%nat with (S (j0 + t)) by lia. cbn [rsum]. rewrite IH by lia. unfold between at 1. replace (Nat.leb j0 (j0 + t)) with true by (symmetry; apply Nat.leb_le; lia).
        replace (Nat.ltb (j0 + t) (j0 + a)) with true by (symmetry; apply Nat.ltb_lt; lia). reflexivity. }
    apply T. lia. }
  induction d as [|d IH]; [exact A|]. cbn [Nat.add rsum]. rewrite IH. unfold between. replace (Nat.ltb (d + (j0 + a)) (j0 + a)) with false by (symmetry; apply Nat.ltb_ge; lia). rewrite Bool.andb_false_r. ring.
Qed.
Lemma sum_cos n x t : rsum n (fun i => cos (x + INR i * t)) = cos x * rsum n (fun i => cos (INR i * t)) - sin x * rsum n (fun i => sin (INR i * t)).
Proof. induction n as [|n IH]; cbn [rsum]; [ring|]. rewrite IH, cos_plus. ring. Qed.
Lemma sum_sin n x t : rsum n (fun i => sin (x + INR i * t)) = sin x * rsum n (fun i => cos (INR i * t)) + cos x * rsum n (fun i => sin (INR i * t)).
Proof. induction n as [|n IH]; cbn [rsum]; [ring|]. rewrite IH, sin_plus. ring. Qed.
Lemma rsum_lin n f g c d : rsum n (fun i => c * f i + d * g i) = c * rsum n f + d * rsum n g.
Proof. induction n as [|n IH]; cbn [rsum]; [ring|]. rewrite IH. ring. Qed.
Definition power (n : nat) (t : R) : R := rsum n (fun i => cos (INR i * t)) ^ 2 + rsum n (fun i => sin (INR i * t)) ^ 2.
Lemma power_product a b x s t :
  rsum a (fun i => rsum b (fun l => cos (x + INR i * s + INR l * t))) ^ 2 + rsum a (fun i => rsum b (fun l => sin (x + INR i * s + INR l * t))) ^ 2 = power a s * power b t.
Proof.
  unfold power. set (C := rsum b (fun l => cos (INR l * t))). set (S := rsum b (fun l => sin (INR l * t))).
  rewrite (rsum_ext a _ (fun i => C * cos (x + INR i * s) + (- S) * sin (x + INR i * s))) by (intros i _; rewrite sum_cos; fold C S; ring).
  rewrite (rsum_ext a (fun i => rsum b _) (fun i => S * cos (x + INR i * s) + C * sin (x + INR i * s))) by (intros i _; rewrite sum_sin; fold C S; ring).
  rewrite (rsum_lin a (fun i => cos (x + INR i * s)) (fun i => sin (x + INR i * s)) C (- S)), (rsum_lin a (fun i => cos (x + INR i * s)) (fun i => sin (x + INR i * s)) S C), sum_cos, sum_sin.
  set (A := rsum a (fun i => cos (INR i * s))). set (B := rsum a (fun i => sin (INR i * s))).
  pose proof (sin2_cos2 x) as T. unfold Rsqr in T. transitivity ((sin x * sin x + cos x * cos x) * ((A ^ 2 + B ^ 2) * (C ^ 2 + S ^ 2))); [ring|]. rewrite T. ring.
Qed.
Lemma power_closed n t : power n (2 * t) * sin t ^ 2 = sin (INR n * t) ^ 2.
Proof.
  assert (C : forall n, rsum n (fun i => cos (INR i * (2 * t))) * (2 * sin t) = sin (2 * INR n * t - t) + sin t).
  { induction n0 as [|k IH]; cbn [rsum]; [cbn [INR]; replace (2 * 0 * t - t) with (- t) by ring; rewrite sin_neg; ring|].
    rewrite Rmult_plus_distr_r, IH, S_INR. replace (2 * (INR k + 1) * t - t) with (2 * INR k * t + t) by ring. rewrite sin_plus, sin_minus. replace (INR k * (2 * t)) with (2 * INR k * t) by ring. ring. }
  assert (S : forall n, rsum n (fun i => sin (INR i * (2 * t))) * (2 * sin t) = cos t - cos (2 * INR n * t - t)).
  { induction n0 as [|k IH]; cbn [rsum]; [cbn [INR]; replace (2 * 0 * t - t) with (- t) by ring; rewrite cos_neg; ring|].
    rewrite Rmult_plus_distr_r, IH, S_INR. replace (2 * (INR k + 1) * t - t) with (2 * INR k * t + t) by ring. rewrite cos_plus, cos_minus. replace (INR k * (2 * t)) with (2 * INR k * t) by ring. ring. }
  unfold power. apply Rmult_eq_reg_l with 4; [|lra]. set (c := rsum n (fun i => cos (INR i * (2 * t)))) in *. set (s := rsum n (fun i => sin (INR i * (2 * t)))) in *.
  pose proof (C n) as C1. pose proof (S n) as S1. fold c in C1. fold s in S1.
  transitivity ((c * (2 * sin t)) ^ 2 + (s * (2 * sin t)) ^ 2); [ring|]. rewrite C1, S1. clear. set (y := INR n * t).
  replace (2 * INR n * t - t) with (2 * y - t) by (unfold y; ring). rewrite sin_minus, cos_minus, cos_2a_sin, sin_2a.
  pose proof (sin2_cos2 y) as A. pose proof (sin2_cos2 t) as B. unfold Rsqr in A, B. set (p := sin y) in *. set (q := cos y) in *. set (u := sin t) in *. set (v := cos t) in *.
  assert (A' : q * q = 1 - p * p) by lra. assert (B' : v * v = 1 - u * u) by lra.
  transitivity (4 * p ^ 2 * (q * q) * (v * v + u * u) + u * u * (2 * p * p) ^ 2 + v * v * (2 * p * p) ^ 2); [ring|]. rewrite A', B'. ring.
Qed.
Lemma sin_multiple m k : (0 < m)%nat -> sin (PI * INR k / INR m) = 0 <-> (k mod m = 0)%nat.
Proof.
  intros M. assert (MP : 0 < INR m) by (apply lt_0_INR; lia). pose proof PI_RGT_0 as PP. split.
  - intros Z. apply sin_eq_0_0 in Z. destruct Z as (z & Z).
    assert (E : INR k = IZR z * INR m) by (apply Rmult_eq_reg_l with (PI / INR m); [|apply Rmult_integral_contrapositive_currified; [lra|apply Rinv_neq_0_compat; lra]]; transitivity (PI * INR k / INR m); [field; lra|rewrite Z; field; lra]).
    rewrite !INR_IZR_INZ, <- mult_IZR in E. apply eq_IZR in E. assert (0 <= z)%Z by nia.
    assert (K : k = (Z.to_nat z * m)%nat) by nia. rewrite K. apply Nat.mod_mul. lia.
  - intros K. apply Nat.mod_divides in K; [|lia]. destruct K as (c & ->). apply sin_eq_0_1. exists (Z.of_nat c). rewrite mult_INR, <- INR_IZR_INZ. field. lra.
Qed.
Lemma power_grating m a p : (0 < m)%nat -> power a (2 * (PI * INR p / INR m)) = grating m a p.
Proof.
  intros M. assert (MP : 0 < INR m) by (apply lt_0_INR; lia). unfold grating. destruct (Nat.eqb (p mod m) 0) eqn:E.
  - apply Nat.eqb_eq in E. apply Nat.mod_divides in E; [|lia]. destruct E as (c & ->). unfold power.
    assert (T : forall i, INR i * (2 * (PI * INR (m * c) / INR m)) = 0 + 2 * INR (i * c) * PI) by (intros i; rewrite !mult_INR; field; lra).
    rewrite (rsum_ext a _ (fun _ => 1)) by (intros i _; rewrite T, cos_period, cos_0; reflexivity).
    rewrite (rsum_ext a (fun i => sin _) (fun _ => 0)) by (intros i _; rewrite T, sin_period, sin_0; reflexivity). rewrite !rsum_const. ring.
  - apply Nat.eqb_neq in E. assert (S : sin (PI * INR p / INR m) <> 0) by (intros Z; apply sin_multiple in Z; auto).
    pose proof (power_closed a (PI * INR p / INR m)) as P. replace (INR a * (PI * INR p / INR m)) with (PI * INR a * INR p / INR m) in P by (field; lra).
    unfold Rdiv at 2. rewrite Rpow_mult_distr, <- P. field. exact S.
Qed.
Lemma grating_zero m a p : (0 < m)%nat -> (0 < a)%nat -> 0 <= grating m a p /\ (grating m a p = 0 <-> dark m a p).
Proof.
  intros M A. assert (AP : 0 < INR a) by (apply lt_0_INR; lia). assert (MP : 0 < INR m) by (apply lt_0_INR; lia). unfold grating, dark. destruct (Nat.eqb (p mod m) 0) eqn:E.
  - apply Nat.eqb_eq in E. split; [apply pow2_ge_0|]. split; [|intros (N & _); congruence]. intros Z. pose proof (pow_lt (INR a) 2 AP). lra.
  - apply Nat.eqb_neq in E. split; [apply pow2_ge_0|]. assert (S : sin (PI * INR p / INR m) <> 0) by (intros Z; apply sin_multiple in Z; auto).
    assert (Q : PI * INR a * INR p / INR m = PI * INR (a * p) / INR m) by (rewrite mult_INR; field; lra). rewrite Q. split.
    + intros Z. split; [exact E|]. apply (sin_multiple m (a * p) M). assert (D : sin (PI * INR (a * p) / INR m) / sin (PI * INR p / INR m) = 0) by (apply Rsqr_0_uniq; unfold Rsqr; rewrite <- Z; ring).
      unfold Rdiv in D. apply Rmult_integral in D. destruct D as [D|D]; [exact D|]. exfalso. apply (Rinv_neq_0_compat _ S D).
    + intros (_ & Z). apply (sin_multiple m (a * p) M) in Z. rewrite Z. unfold Rdiv. ring.
Qed.
Lemma over_rectangle n o j0 a k0 b w0 p q m g : rectangle n o j0 a k0 b w0 ->
  over n g (against m o p q) = rsum a (fun i => rsum b (fun l => g (w0 + (INR (j0 + i) * INR p + INR (k0 + l) * INR q) / INR m))).
Proof.
  intros ((A & B & J & K) & O). unfold over.
  rewrite (rsum_ext n _ (fun j => if between j0 a j then rsum b (fun l => g (w0 + (INR j * INR p + INR (k0 + l) * INR q) / INR m)) else 0)).
  - exact (segment n j0 a (fun j => rsum b (fun l => g (w0 + (INR j * INR p + INR (k0 + l) * INR q) / INR m))) J).
  - intros j JL. destruct (between j0 a j) eqn:E.
    + rewrite <- (segment n k0 b (fun k => g (w0 + (INR j * INR p + INR k * INR q) / INR m)) K). apply rsum_ext. intros k KL. unfold against. rewrite (O j k JL KL), E. cbn [andb]. destruct (between k0 b k); reflexivity.
    + rewrite (rsum_ext n _ (fun _ => 0)); [rewrite rsum_const; ring|]. intros k KL. unfold against. rewrite (O j k JL KL), E. reflexivity.
Qed.
Lemma rectangle_lit n o j0 a k0 b w0 : rectangle n o j0 a k0 b w0 -> lit n o /\ count_good n o = INR a * INR b /\ o j0 k0 = Some w0 /\ (j0 < n)%nat /\ (k0 < n)%nat.
Proof.
  intros H. pose proof (over_rectangle n o j0 a k0 b w0 0 0 1 (fun _ => 1) H) as C. rewrite count_against, over_count in C. destruct H as ((A & B & J & K) & O).
  assert (W : o j0 k0 = Some w0).
  { rewrite O by lia. unfold between. rewrite !Nat.leb_refl. replace (Nat.ltb j0 (j0 + a)) with true by (symmetry; apply Nat.ltb_lt; lia). replace (Nat.ltb k0 (k0 + b)) with true by (symmetry; apply Nat.ltb_lt; lia). reflexivity. }
  split; [exists j0, k0, w0; repeat split; auto; lia|]. split; [|repeat split; auto; lia]. rewrite C, (rsum_ext a _ (fun _ => INR b)) by (intros; rewrite rsum_const; ring). rewrite rsum_const. ring.
Qed.

(** * C107 *)
(** the pattern is the product of the patterns of two gratings, wherever the rectangle is in the pupil *)
Theorem C107_pattern n pad o j0 a k0 b w0 p q : (0 < pad)%nat -> rectangle n o j0 a k0 b w0 -> let m := (n * pad)%nat in
  psf n pad o p q = Some (grating m a p * grating m b q / (INR a * INR b) / INR m ^ 2).
Proof.
  intros P H m. destruct (rectangle_lit n o j0 a k0 b w0 H) as (L & C & _). destruct (brightness n pad o p q P L) as (_ & MP & E). fold m in E, MP. rewrite E, over_count, C.
  rewrite !(over_rectangle n o j0 a k0 b w0) by exact H. do 3 f_equal.
  assert (M : (0 < m)%nat) by (destruct m; [cbn in MP; lra|lia]).
  set (x := 2 * PI * (w0 + (INR j0 * INR p + INR k0 * INR q) / INR m)). set (s := 2 * (PI * INR p / INR m)). set (t := 2 * (PI * INR q / INR m)).
  assert (T : forall i l, 2 * PI * (w0 + (INR (j0 + i) * INR p + INR (k0 + l) * INR q) / INR m) = x + INR i * s + INR l * t) by (intros; rewrite !plus_INR; unfold x, s, t; field; lra).
  rewrite (rsum_ext a _ (fun i => rsum b (fun l => cos (x + INR i * s + INR l * t)))) by (intros i _; apply rsum_ext; intros l _; rewrite T; reflexivity).
  rewrite (rsum_ext a (fun i => rsum b (fun l => sin (2 * PI * _))) (fun i => rsum b (fun l => sin (x + INR i * s + INR l * t)))) by (intros i _; apply rsum_ext; intros l _; rewrite T; reflexivity).
  rewrite power_product. unfold s, t. rewrite !power_grating by exact M. reflexivity.
Qed.
(** the dark lines are where the phase over the rectangle is a whole number of waves and the phase from pixel to pixel is not *)
Theorem C107_dark n pad o j0 a k0 b w0 p q : (0 < pad)%nat -> rectangle n o j0 a k0 b w0 -> let m := (n * pad)%nat in
  psf n pad o p q = Some 0 <-> dark m a p \/ dark m b q.
Proof.
  intros P H m. rewrite (C107_pattern n pad o j0 a k0 b w0 p q P H). fold m. destruct H as ((A & B & J & K) & _). assert (M : (0 < m)%nat) by (unfold m; nia).
  assert (MP : 0 < INR m) by (apply lt_0_INR; lia). assert (AP : 0 < INR a) by (apply lt_0_INR; lia). assert (BP : 0 < INR b) by (apply lt_0_INR; lia).
  destruct (grating_zero m a p M A) as (_ & GA). destruct (grating_zero m b q M B) as (_ & GB). rewrite <- GA, <- GB. split.
  - intros E. assert (Z : grating m a p * grating m b q / (INR a * INR b) / INR m ^ 2 = 0) by congruence. apply Rmult_integral.
    apply (f_equal (fun x => x * (INR a * INR b) * INR m ^ 2)) in Z. rewrite !Rmult_0_l in Z. rewrite <- Z. field. repeat split; lra.
  - intros [Z|Z]; rewrite Z; f_equal; unfold Rdiv; ring.
Qed.
(** size of the bright core: no dark line nearer than wavelength times distance by width, and there is one there *)
Theorem C107_core n pad o j0 a k0 b w0 h radius l scale p X : (0 < pad)%nat -> (1 < n)%nat -> 0 < h -> 0 < radius -> 0 < l -> 0 < scale -> rectangle n o j0 a k0 b w0 -> (p < n * pad)%nat ->
  psf_axis n pad h radius l scale p = Some X -> let width := INR a * (2 * h / (INR n - 1)) in
  (psf n pad o p 0 = Some 0 -> l / scale * radius / width <= Rabs X) /\
  (Rabs X = l / scale * radius / width -> (1 < a)%nat -> psf n pad o p 0 = Some 0).
Proof.
  intros P N HP RP LP SP H PL AX width. set (m := (n * pad)%nat) in *. assert (M : (0 < m)%nat) by (unfold m; nia).
  destruct (C55_pixels n pad h radius l scale p) as (z & E & ZM & ZB); try lra; auto. fold m in E, ZM, ZB. rewrite E in AX. injection AX as AX.
  pose proof (C107_dark n pad o j0 a k0 b w0 p 0 P H) as D. fold m in D. destruct H as ((A & B & J & K) & _).
  assert (MP : 0 < INR m) by (apply lt_0_INR; lia). assert (AP : 0 < INR a) by (apply lt_0_INR; lia). assert (NP : 0 < INR n - 1) by (pose proof (lt_INR 1 n N) as Q; cbn in Q; lra).
  set (u := l / scale * radius / (2 * h / (INR n - 1))). assert (DX : 0 < 2 * h / (INR n - 1)) by (apply Rdiv_lt_0_compat; lra).
  assert (U : 0 < u) by (apply Rdiv_lt_0_compat; [apply Rmult_lt_0_compat; [apply Rdiv_lt_0_compat; lra|lra]|exact DX]).
  assert (XA : Rabs X * (INR a * INR m) = IZR (Z.abs z * Z.of_nat a) * u).
  { rewrite <- AX, Rabs_mult, <- abs_IZR, mult_IZR, <- INR_IZR_INZ. rewrite (Rabs_right (l / scale * radius / _)).
    - unfold u. field. repeat split; lra.
    - apply Rle_ge, Rlt_le, Rdiv_lt_0_compat; [apply Rmult_lt_0_compat; [apply Rdiv_lt_0_compat; lra|lra]|apply Rmult_lt_0_compat; lra]. }
  assert (WA : l / scale * radius / width * (INR a * INR m) = IZR (Z.of_nat m) * u) by (rewrite <- INR_IZR_INZ; unfold width, u; field; repeat split; lra).
  assert (AM : 0 < INR a * INR m) by (apply Rmult_lt_0_compat; lra).
  assert (DM : dark m a p <-> (Z.of_nat p <> 0 /\ (Z.abs z * Z.of_nat a) mod Z.of_nat m = 0)%Z).
  { unfold dark. rewrite (Nat.mod_small p m) by exact PL.
    assert (Q : ((a * p) mod m = 0)%nat <-> ((Z.abs z * Z.of_nat a) mod Z.of_nat m = 0)%Z).
    { assert (Q1 : (Z.of_nat ((a * p) mod m) = (z * Z.of_nat a) mod Z.of_nat m)%Z) by (rewrite Nat2Z.inj_mod, Nat2Z.inj_mul, <- ZM, Z.mul_comm, Z.mul_mod_idemp_l by lia; reflexivity).
      assert (Q2 : ((z * Z.of_nat a) mod Z.of_nat m = 0 <-> (Z.abs z * Z.of_nat a) mod Z.of_nat m = 0)%Z).
      { rewrite !Z.mod_divide by lia. destruct (Z.abs_spec z) as [(_ & ->)|(_ & ->)]; [reflexivity|]. rewrite Z.mul_opp_l, Z.divide_opp_r. reflexivity. }
      rewrite <- Q2, <- Q1. lia. }
    rewrite Q. split; intros (G1 & G2); split; auto; lia. }
  assert (D0 : ~ dark m b 0) by (unfold dark; intros (G & _); apply G; apply Nat.mod_0_l; lia).
  assert (Z0 : (Z.of_nat p <> 0 -> z <> 0)%Z) by (intros G ->; rewrite Z.mod_0_l in ZM; lia).
  split.
  - intros S. apply D in S. destruct S as [S|S]; [|contradiction]. apply DM in S. destruct S as (S1 & S2). specialize (Z0 S1).
    apply Z.mod_divide in S2; [|lia]. destruct S2 as (c & S2). apply Rmult_le_reg_r with (INR a * INR m); [exact AM|]. rewrite XA, WA. apply Rmult_le_compat_r; [lra|]. apply IZR_le.
    assert (Q : (0 < Z.abs z * Z.of_nat a)%Z) by (apply Z.mul_pos_pos; lia). rewrite S2 in *. assert (0 < c)%Z by (apply (Z.mul_pos_cancel_r c (Z.of_nat m)); lia). rewrite <- (Z.mul_1_l (Z.of_nat m)) at 1. apply Z.mul_le_mono_nonneg_r; lia.
  - intros S A1. apply D. left. apply DM. assert (EQ : (Z.abs z * Z.of_nat a = Z.of_nat m)%Z).
    { apply eq_IZR. apply Rmult_eq_reg_r with u; [|lra]. rewrite <- XA, <- WA, S. reflexivity. }
    split; [intros G|rewrite EQ; apply Z.mod_same; lia]. assert (z mod Z.of_nat m = 0)%Z by lia. apply Z.mod_divide in H; [|lia]. destruct H as (c & ->). rewrite Z.abs_mul, (Z.abs_eq (Z.of_nat m)) in EQ by lia.
    assert (Z.abs c * Z.of_nat a = 1)%Z by (apply Z.mul_reg_r with (Z.of_nat m); lia). assert (Z.abs c <> 0)%Z by lia. nia.
Qed.
Lemma sheared_rectangle n o j0 a k0 b w0 k g : rectangle n o j0 a k0 b w0 -> over n g (sheared n o k) = INR a * INR (b - k) * g 0.
Proof.
  intros ((A & B & J & K) & O). unfold over.
  assert (E : forall j l, (j < n)%nat -> (l < n)%nat -> sheared n o k j l = if andb (between j0 a j) (between k0 (b - k) l) then Some (w0 - w0) else None).
  { intros j l JL LL. unfold sheared. destruct (Nat.ltb (l + k) n) eqn:S.
    - apply Nat.ltb_lt in S. rewrite (O j (l + k)%nat JL S), (O j l JL LL). destruct (between j0 a j); cbn [andb obind]; [|reflexivity].
      destruct (between k0 (b - k) l) eqn:I; unfold between in *.
      + apply andb_prop in I. destruct I as (I1 & I2). apply Nat.leb_le in I1. apply Nat.ltb_lt in I2.
        replace (Nat.leb k0 (l + k)) with true by (symmetry; apply Nat.leb_le; lia). replace (Nat.ltb (l + k) (k0 + b)) with true by (symmetry; apply Nat.ltb_lt; lia).
        replace (Nat.leb k0 l) with true by (symmetry; apply Nat.leb_le; lia). replace (Nat.ltb l (k0 + b)) with true by (symmetry; apply Nat.ltb_lt; lia). reflexivity.
      + destruct (Nat.leb k0 l) eqn:I1.
        * cbn [andb] in I. apply Nat.leb_le in I1. apply Nat.ltb_ge in I. replace (Nat.ltb (l + k) (k0 + b)) with false by (symmetry; apply Nat.ltb_ge; lia). rewrite Bool.andb_false_r. reflexivity.
        * cbn [andb]. destruct (andb (Nat.leb k0 (l + k)) (Nat.ltb (l + k) (k0 + b))); reflexivity.
    - apply Nat.ltb_ge in S. replace (between k0 (b - k) l) with false; [rewrite Bool.andb_false_r; reflexivity|]. symmetry. unfold between. destruct (Nat.leb k0 l) eqn:I1; [|reflexivity]. apply Nat.leb_le in I1. apply Nat.ltb_ge. lia. }
  rewrite (rsum_ext n _ (fun j => if between j0 a j then INR (b - k) * g 0 else 0)).
  - rewrite (segment n j0 a (fun _ => INR (b - k) * g 0) J), rsum_const. ring.
  - intros j JL. destruct (between j0 a j) eqn:S.
    + transitivity (rsum (b - k) (fun _ => g 0)); [|rewrite rsum_const; ring]. rewrite <- (segment n k0 (b - k) (fun _ => g 0)) by lia. apply rsum_ext. intros l LL. rewrite (E j l JL LL), S. cbn [andb].
      destruct (between k0 (b - k) l); [rewrite Rminus_diag_eq by reflexivity|]; reflexivity.
    + rewrite (rsum_ext n _ (fun _ => 0)); [rewrite rsum_const; ring|]. intros l LL. rewrite (E j l JL LL), S. reflexivity.
Qed.
(** the contrast falls linearly to zero at a shear by the width *)
Theorem C107_contrast n pad o j0 a k0 b w0 f x axis k q v : (2 <= pad)%nat -> rectangle n o j0 a k0 b w0 -> values n pad o f ->
  nth_error (contrast axis (n * pad) f x) k = Some (q, v) -> v = triangle (match axis with O => b | _ => a end) k.
Proof.
  intros P H V NE. destruct (rectangle_lit n o j0 a k0 b w0 H) as (_ & C & W & J0 & K0).
  destruct (C67_contrast n pad o f x axis k q v j0 k0 w0 P J0 K0 W V NE) as (E & _).
  assert (T : rectangle n (transposed o) k0 b j0 a w0).
  { destruct H as ((A & B & J & K) & O). split; [repeat split; auto|]. intros j l JL LL. unfold transposed. rewrite (O l j LL JL), Bool.andb_comm. reflexivity. }
  assert (G : forall o' a' b' j' k', rectangle n o' j' a' k' b' w0 -> INR a * INR b = INR a' * INR b' -> v = sqrt (over n (fun x => cos (2 * PI * x)) (sheared n o' k) ^ 2 + over n (fun x => sin (2 * PI * x)) (sheared n o' k) ^ 2) / (INR a * INR b) -> v = triangle b' k).
  { intros o' a' b' j' k' H' AB ->. rewrite !(sheared_rectangle n o' j' a' k' b' w0) by exact H'. rewrite Rmult_0_r, cos_0, sin_0, AB. destruct H' as ((A' & B' & _) & _).
    assert (AP : 0 < INR a') by (apply lt_0_INR; lia). assert (BP : 0 < INR b') by (apply lt_0_INR; lia). pose proof (pos_INR (b' - k)) as S.
    replace ((INR a' * INR (b' - k) * 1) ^ 2 + (INR a' * INR (b' - k) * 0) ^ 2) with ((INR a' * INR (b' - k)) ^ 2) by ring. rewrite sqrt_pow2 by (apply Rmult_le_pos; lra).
    unfold triangle. destruct (Nat.ltb k b') eqn:L.
    - apply Nat.ltb_lt in L. rewrite minus_INR by lia. field. lra.
    - apply Nat.ltb_ge in L. replace (b' - k)%nat with 0%nat by lia. cbn. field. lra. }
  rewrite C in E. destruct axis; [apply (G o a b j0 k0)|apply (G (transposed o) b a k0 j0)]; auto. ring.
Qed.
(** the frequency at which the contrast is gone is width by wavelength by distance *)
Theorem C107_cutoff n pad o j0 a k0 b w0 h radius l scale f x axis k F v : (2 <= pad)%nat -> (1 < n)%nat -> Nat.Even (n * pad) -> 0 < h -> 0 < radius -> 0 < l -> 0 < scale -> rectangle n o j0 a k0 b w0 -> values n pad o f ->
  (forall p, (p < n * pad)%nat -> psf_axis n pad h radius l scale p = Some (x p)) ->
  nth_error (contrast axis (n * pad) f x) k = Some (Some F, v) ->
  let width := INR (match axis with O => b | _ => a end) * (2 * h / (INR n - 1)) in let limit := width / (l / scale * radius) in
  0 <= F /\ v = Rmax 0 (1 - F / limit) /\ (v = 0 <-> limit <= F).
Proof.
  intros P N EV HP RP LP SP H V X NE width limit. set (c := match axis with O => b | _ => a end) in *.
  pose proof (C107_contrast n pad o j0 a k0 b w0 f x axis k (Some F) v P H V NE) as T. fold c in T.
  destruct (C67_frequency n pad h radius l scale x f axis k (Some F) v) as (F' & E & FE); try lra; try lia; auto. injection E as <-.
  assert (CP : 0 < INR c) by (destruct H as ((A & B & _) & _); apply lt_0_INR; unfold c; destruct axis; lia).
  assert (NP : 0 < INR n - 1) by (pose proof (lt_INR 1 n N) as Q; cbn in Q; lra).
  assert (LR : 0 < l / scale * radius) by (apply Rmult_lt_0_compat; [apply Rdiv_lt_0_compat; lra|lra]). set (u := l / scale * radius) in *.
  assert (DX : 0 < 2 * h / (INR n - 1)) by (apply Rdiv_lt_0_compat; lra). set (d := 2 * h / (INR n - 1)) in *.
  assert (FK : F = INR k * (d / u)). { apply Rmult_eq_reg_r with u; [|lra]. replace (F * u) with (F * (l / scale) * radius) by (unfold u; ring). rewrite FE. unfold PsfModel.grid, d. cbn [INR]. field. split; lra. }
  assert (DU : 0 < d / u) by (apply Rdiv_lt_0_compat; lra).
  assert (LI : limit = INR c * (d / u)) by (unfold limit, width; field; lra). rewrite FK, LI, T. pose proof (pos_INR k) as KP.
  replace (INR k * (d / u) / (INR c * (d / u))) with (INR k / INR c) by (field; repeat split; lra).
  split; [apply Rmult_le_pos; lra|]. unfold triangle. destruct (Nat.ltb k c) eqn:L.
  - apply Nat.ltb_lt in L. apply lt_INR in L. assert (Q : INR k / INR c < 1) by (apply Rmult_lt_reg_r with (INR c); [exact CP|]; replace (INR k / INR c * INR c) with (INR k) by (field; lra); lra).
    split; [rewrite Rmax_right; lra|]. split; [lra|]. intros G. assert (INR c <= INR k) by (apply Rmult_le_reg_r with (d / u); lra). lra.
  - apply Nat.ltb_ge in L. apply le_INR in L. assert (Q : 1 <= INR k / INR c) by (apply Rmult_le_reg_r with (INR c); [exact CP|]; replace (INR k / INR c * INR c) with (INR k) by (field; lra); lra).
    split; [rewrite Rmax_left; lra|]. split; [intros _; apply Rmult_le_compat_r; lra|reflexivity].
Qed.
(** two pixels lit out of two by two, padded to four: dark at pixel two *)
Lemma square_rectangle : rectangle 2 square 0 2 0 2 0.
Proof. split; [lia|]. intros j k J K. destruct j as [|[|j]]; [| |lia]; (destruct k as [|[|k]]; [| |lia]); reflexivity. Qed.
Example C107_dark_example : rectangle 2 square 0 2 0 2 0 /\ psf 2 2 square 2 0 = Some 0 /\ psf 2 2 square 1 0 <> Some 0 /\ psf_axis 2 2 1 4 1 1 2 = Some (-1).
Proof.
  split; [exact square_rectangle|]. split; [apply (C107_dark 2 2 square 0 2 0 2 0 2 0 ltac:(lia) square_rectangle); left; split; cbn; lia|]. split.
  - intros E. apply (C107_dark 2 2 square 0 2 0 2 0 1 0 ltac:(lia) square_rectangle) in E. unfold dark in E. cbn in E. lia.
  - unfold psf_axis, PsfModel.grid. rewrite fdiv_some by lra. cbn [obind]. rewrite fdiv_some by lra. cbn [obind]. rewrite fdiv_some by lra. cbn [obind]. unfold fftfreq. cbn [Nat.mul Nat.add Nat.sub Nat.div Nat.divmod fst Nat.ltb Nat.leb]. rewrite fdiv_some; [f_equal; cbn; field|cbn; lra].
Qed.
(** a slit one pixel wide and two pixels long off the centre of a pupil of three by three: no dark line across *)
Definition off (j k : nat) : option R := if andb (Nat.eqb j 1) (Nat.leb 1 k) then Some (1 / 3) else None.
Example C107_pattern_example : rectangle 3 off 1 1 1 2 (1 / 3) /\ psf 3 2 off 1 0 = Some (1 / 18) /\ psf 3 2 off 5 3 = Some 0.
Proof.
  assert (H : rectangle 3 off 1 1 1 2 (1 / 3)) by (split; [lia|]; intros j k J K; destruct j as [|[|[|j]]]; try lia; destruct k as [|[|[|k]]]; try lia; reflexivity).
  split; [exact H|]. split.
  - rewrite (C107_pattern 3 2 off 1 1 1 2 (1 / 3) 1 0 ltac:(lia) H). f_equal. unfold grating. cbn [Nat.mul Nat.add Nat.modulo Nat.divmod Nat.eqb Nat.sub fst snd]. cbn [INR].
    assert (S : sin (PI * 1 / (1 + 1 + 1 + 1 + 1 + 1)) <> 0) by (replace (PI * 1 / (1 + 1 + 1 + 1 + 1 + 1)) with (PI / 6) by field; rewrite sin_PI6; lra).
    replace (PI * 1 * 1 / (1 + 1 + 1 + 1 + 1 + 1)) with (PI * 1 / (1 + 1 + 1 + 1 + 1 + 1)) by field. field. exact S.
  - apply (C107_dark 3 2 off 1 1 1 2 (1 / 3) 5 3 ltac:(lia) H). right. split; cbn; lia.
Qed.
(** half the cut-off frequency, half the contrast *)
Example C107_cutoff_example : exists f, values 2 2 square f /\ (forall p, (p < 2 * 2)%nat -> psf_axis 2 2 1 4 1 1 p = Some (square_x p)) /\
  nth_error (contrast 1 (2 * 2) f square_x) 1 = Some (Some (1 / 2), 1 / 2).
Proof.
  destruct (C55_total 2 2 square 0 0 0) as (f & V & _); try lia; try reflexivity. exists f. split; [exact V|].
  assert (X : forall p, (p < 2 * 2)%nat -> psf_axis 2 2 1 4 1 1 p = Some (square_x p)).
  { intros p P. unfold psf_axis, PsfModel.grid. rewrite fdiv_some by lra. cbn [obind]. rewrite fdiv_some by lra. cbn [obind]. rewrite fdiv_some by lra. cbn [obind]. unfold fftfreq.
    destruct p as [|[|[|[|p]]]]; [| | | |lia]; cbn [Nat.mul Nat.add Nat.sub Nat.div Nat.divmod fst Nat.ltb Nat.leb]; (rewrite fdiv_some; [f_equal; cbn; field|cbn; lra]). }
  split; [exact X|]. destruct (nth_error (contrast 1 (2 * 2) f square_x) 1) as [[q v]|] eqn:NE; [|discriminate NE].
  destruct (C67_frequency 2 2 1 4 1 1 square_x f 1 1 q v) as (F & -> & EQ); try lra; try lia; auto; [exists 2%nat; reflexivity|].
  rewrite (C107_contrast 2 2 square 0 2 0 2 0 f square_x 1 1 (Some F) v ltac:(lia) square_rectangle V NE). unfold triangle. cbn [Nat.ltb Nat.leb]. unfold PsfModel.grid in EQ. cbn in EQ. assert (FE : F = 1 / 2) by lra. rewrite FE. f_equal. f_equal. cbn. field.
Qed.
