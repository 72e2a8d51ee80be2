(** C104: how bright the point spread function is for a given wave front error: Marechal's and Rayleigh's criteria, when
    the image is perfect, and what is left of the contrast. *)
From Coq Require Import Reals List Lra Lia Psatz Arith ZArith.
From Verif Require Import Base Cx SumsModel PropsSums PsfModel PropsPsf MtfModel PropsMtf.
Import ListNotations.
Open Scope R_scope.

(** * Specification *)
(** wave front error in waves against the plane wave that is focused on pixel [p], [q]; for the centre the error itself *)
Definition against (m : nat) (o : nat -> nat -> option R) (p q j k : nat) : option R :=
  match o j k with Some w => Some (w + (INR j * INR p + INR k * INR q) / INR m) | None => None end.
(** over the part of the pupil that has light: average and mean square deviation from the average *)
Definition average (n : nat) (e : nat -> nat -> option R) : R := over n (fun w => w) e / over n (fun _ => 1) e.
Definition variance (n : nat) (e : nat -> nat -> option R) : R := over n (fun w => (w - average n e) ^ 2) e / over n (fun _ => 1) e.
(** intensity in the centre without any error *)
Definition peak (n pad : nat) (o : nat -> nat -> option R) : R := over n (fun _ => 1) o / INR (n * pad) ^ 2.
(** all errors are within [lo] and [hi] *)
Definition within (n : nat) (e : nat -> nat -> option R) (lo hi : R) : Prop := forall j k w, (j < n)%nat -> (k < n)%nat -> e j k = Some w -> lo <= w <= hi.
Definition lit (n : nat) (o : nat -> nat -> option R) : Prop := exists j k w, (j < n)%nat /\ (k < n)%nat /\ o j k = Some w.

(** * Auxiliary lemmas *)
Lemma over_add n f g e : over n (fun w => f w + g w) e = over n f e + over n g e.
Proof. unfold over. rewrite <- rsum_add. apply rsum_ext. intros j _. rewrite <- rsum_add. apply rsum_ext. intros k _. destruct (e j k); ring. Qed.
Lemma over_mul n c f e : over n (fun w => c * f w) e = c * over n f e.
Proof. unfold over. rewrite <- rsum_mul. apply rsum_ext. intros j _. rewrite <- rsum_mul. apply rsum_ext. intros k _. destruct (e j k); ring. Qed.
Lemma over_ext n f g e : (forall w, f w = g w) -> over n f e = over n g e.
Proof. intros H. unfold over. apply rsum_ext. intros j _. apply rsum_ext. intros k _. destruct (e j k); auto. Qed.
Lemma over_le n f g e : (forall j k w, (j < n)%nat -> (k < n)%nat -> e j k = Some w -> f w <= g w) -> over n f e <= over n g e.
Proof. intros H. unfold over. apply rsum_le. intros j J. apply rsum_le. intros k K. destruct (e j k) as [w|] eqn:E; [apply (H j k w); auto|lra]. Qed.
Lemma over_const n c e : over n (fun _ => c) e = c * over n (fun _ => 1) e.
Proof. rewrite <- (over_mul n c (fun _ => 1)). apply over_ext. intros. ring. Qed.
Lemma over_count n o : over n (fun _ => 1) o = count_good n o. Proof. reflexivity. Qed.
Lemma count_against n m o p q : over n (fun _ => 1) (against m o p q) = over n (fun _ => 1) o.
Proof. unfold over, against. apply rsum_ext. intros j _. apply rsum_ext. intros k _. destruct (o j k); reflexivity. Qed.
Lemma over_zero n g e : (forall w, 0 <= g w) -> over n g e = 0 -> forall j k w, (j < n)%nat -> (k < n)%nat -> e j k = Some w -> g w = 0.
Proof.
  intros G Z j k w J K E. pose proof (G w) as GW.
  assert (ONE : forall n f i, (i < n)%nat -> (forall i, 0 <= f i) -> f i <= rsum n f).
  { clear. intros n f i L H. induction n as [|n IH]; [lia|]. cbn. pose proof (H n). destruct (Nat.eq_dec i n) as [->|]; [pose proof (rsum_nonneg n f H); lra|]. pose proof (IH ltac:(lia)). lra. }
  assert (N1 : forall j k, 0 <= match e j k with Some x => g x | None => 0 end) by (intros a b; destruct (e a b); [apply G|lra]).
  pose proof (ONE n (fun l => match e j l with Some x => g x | None => 0 end) k K (N1 j)) as A. cbv beta in A. rewrite E in A.
  pose proof (ONE n (fun j => rsum n (fun l => match e j l with Some x => g x | None => 0 end)) j J (fun a => rsum_nonneg _ _ (N1 a))) as B. unfold over in Z. cbv beta in B. lra.
Qed.
(** pairs of points *)
Definition pairs (n : nat) (g : R -> R -> R) (e : nat -> nat -> option R) : R := over n (fun w => over n (g w) e) e.
Lemma pairs_le n f g e : (forall j k j' k' w w', (j < n)%nat -> (k < n)%nat -> (j' < n)%nat -> (k' < n)%nat -> e j k = Some w -> e j' k' = Some w' -> f w w' <= g w w') -> pairs n f e <= pairs n g e.
Proof. intros H. unfold pairs. apply over_le. intros j k w J K E. apply over_le. intros j' k' w' J' K' E'. apply (H j k j' k' w w'); auto. Qed.
Lemma pairs_cos n e : let c := over n (fun w => cos (2 * PI * w)) e in let s := over n (fun w => sin (2 * PI * w)) e in c ^ 2 + s ^ 2 = pairs n (fun w v => cos (2 * PI * (w - v))) e.
Proof.
  intros c s. unfold pairs. rewrite (over_ext n _ (fun w => c * cos (2 * PI * w) + s * sin (2 * PI * w))).
  - rewrite (over_add n (fun w => c * cos (2 * PI * w)) (fun w => s * sin (2 * PI * w))), (over_mul n c (fun w => cos (2 * PI * w))), (over_mul n s (fun w => sin (2 * PI * w))). fold c s. ring.
  - intros w. rewrite (over_ext n _ (fun v => cos (2 * PI * w) * cos (2 * PI * v) + sin (2 * PI * w) * sin (2 * PI * v))) by (intros v; rewrite Rmult_minus_distr_l, cos_minus; ring).
    rewrite (over_add n (fun v => cos (2 * PI * w) * cos (2 * PI * v)) (fun v => sin (2 * PI * w) * sin (2 * PI * v))), (over_mul n _ (fun v => cos (2 * PI * v))), (over_mul n _ (fun v => sin (2 * PI * v))). fold c s. ring.
Qed.
Lemma pairs_squares n e : over n (fun _ => 1) e <> 0 -> pairs n (fun w v => (w - v) ^ 2) e = 2 * over n (fun _ => 1) e ^ 2 * variance n e.
Proof.
  intros N. unfold variance. set (a := average n e). set (N1 := over n (fun _ => 1) e) in *. set (s1 := over n (fun w => w) e). set (s2 := over n (fun w => w ^ 2) e).
  assert (A : a = s1 / N1) by reflexivity. clearbody a.
  assert (V : over n (fun w => (w - a) ^ 2) e = s2 - 2 * a * s1 + a ^ 2 * N1).
  { rewrite (over_ext n _ (fun w => w ^ 2 + (- 2 * a * w + a ^ 2 * 1))) by (intros; ring).
    rewrite (over_add n (fun w => w ^ 2) (fun w => - 2 * a * w + a ^ 2 * 1)), (over_add n (fun w => - 2 * a * w) (fun w => a ^ 2 * 1)), (over_mul n (- 2 * a) (fun w => w)), (over_mul n (a ^ 2) (fun _ => 1)). fold N1 s1 s2. ring. }
  assert (P : pairs n (fun w v => (w - v) ^ 2) e = 2 * N1 * s2 - 2 * s1 ^ 2).
  { unfold pairs. rewrite (over_ext n _ (fun w => N1 * w ^ 2 + (- 2 * s1 * w + s2 * 1))).
    - rewrite (over_add n (fun w => N1 * w ^ 2) (fun w => - 2 * s1 * w + s2 * 1)), (over_add n (fun w => - 2 * s1 * w) (fun w => s2 * 1)), (over_mul n N1 (fun w => w ^ 2)), (over_mul n (- 2 * s1) (fun w => w)), (over_mul n s2 (fun _ => 1)). fold N1 s1 s2. ring.
    - intros w. rewrite (over_ext n _ (fun v => v ^ 2 + (- 2 * w * v + w ^ 2 * 1))) by (intros; ring).
      rewrite (over_add n (fun v => v ^ 2) (fun v => - 2 * w * v + w ^ 2 * 1)), (over_add n (fun v => - 2 * w * v) (fun v => w ^ 2 * 1)), (over_mul n (- 2 * w) (fun v => v)), (over_mul n (w ^ 2) (fun _ => 1)). fold N1 s1 s2. ring. }
  rewrite V, P, A. field. exact N.
Qed.
Lemma pairs_mul n c g e : pairs n (fun w v => c * g w v) e = c * pairs n g e.
Proof. unfold pairs. rewrite <- over_mul. apply over_ext. intros w. apply over_mul. Qed.
Lemma pairs_add n f g e : pairs n (fun w v => f w v + g w v) e = pairs n f e + pairs n g e.
Proof. unfold pairs. rewrite <- over_add. apply over_ext. intros w. apply over_add. Qed.
Lemma pairs_one n e : pairs n (fun _ _ => 1) e = over n (fun _ => 1) e ^ 2.
Proof. unfold pairs. rewrite over_const. ring. Qed.
Lemma cos_ge x : 1 - x ^ 2 / 2 <= cos x.
Proof.
  replace x with (2 * (x / 2)) at 2 by field. rewrite cos_2a_sin. set (y := x / 2).
  assert (S : (sin y) ^ 2 <= y ^ 2).
  { assert (Q : forall z, 0 <= z -> (sin z) ^ 2 <= z ^ 2).
    { intros z Z. destruct (Req_dec z 0) as [->|NZ]; [rewrite sin_0; lra|]. pose proof (sin_lt_x z ltac:(lra)). destruct (Rle_dec z 1).
      - assert (0 <= sin z) by (apply sin_ge_0; [lra|pose proof PI_RGT_0; pose proof PI2_1; lra]). nra.
      - pose proof (SIN_bound z). nra. }
    destruct (Rle_dec 0 y); [auto|]. pose proof (Q (- y) ltac:(lra)) as R. rewrite sin_neg in R. nra. }
  replace (x ^ 2 / 2) with (2 * y ^ 2) by (unfold y; field). nra.
Qed.
Lemma cos_le x : cos x <= 1 - x ^ 2 / 2 + x ^ 4 / 24.
Proof.
  replace x with (2 * (x / 2)) at 1 by field. rewrite cos_2a_sin. set (y := x / 2).
  assert (S : y ^ 2 - y ^ 4 / 3 <= (sin y) ^ 2).
  { assert (Q : forall z, 0 <= z -> z ^ 2 - z ^ 4 / 3 <= (sin z) ^ 2).
    { intros z Z. destruct (Rle_dec (z ^ 2) 6) as [L|L].
      - assert (Z4 : z <= 4) by nra. pose proof (pre_sin_bound z 0 Z Z4) as (B & _). unfold sin_approx, sin_term in B. cbn in B.
        assert (B' : z - z ^ 3 / 6 <= sin z) by (replace (z - z ^ 3 / 6) with (1 * (z * 1 / 1) + -1 * 1 * (z * (z * (z * 1)) / (1 + 1 + 1 + 1 + 1 + 1))) by field; exact B).
        assert (P : 0 <= z - z ^ 3 / 6) by (replace (z - z ^ 3 / 6) with (z * (6 - z ^ 2) / 6) by field; nra).
        apply Rle_trans with ((z - z ^ 3 / 6) ^ 2); [|nra]. replace ((z - z ^ 3 / 6) ^ 2) with (z ^ 2 - z ^ 4 / 3 + (z ^ 3) ^ 2 / 36) by field. pose proof (pow2_ge_0 (z ^ 3)). lra.
      - pose proof (pow2_ge_0 (sin z)). assert (0 <= z ^ 2) by apply pow2_ge_0. replace (z ^ 4) with (z ^ 2 * z ^ 2) by ring. nra. }
    destruct (Rle_dec 0 y); [auto|]. pose proof (Q (- y) ltac:(lra)) as R. rewrite sin_neg in R. replace ((- y) ^ 2) with (y ^ 2) in R by ring. replace ((- y) ^ 4) with (y ^ 4) in R by ring. replace ((- sin y) ^ 2) with (sin y ^ 2) in R by ring. exact R. }
  replace (x ^ 2 / 2) with (2 * y ^ 2) by (unfold y; field). replace (x ^ 4 / 24) with (2 * y ^ 4 / 3) by (unfold y; field). nra.
Qed.
(** the intensity of a pixel *)
Lemma brightness n pad o p q : (0 < pad)%nat -> lit n o -> let e := against (n * pad) o p q in
  0 < over n (fun _ => 1) o /\ 0 < INR (n * pad) /\
  psf n pad o p q = Some ((over n (fun w => cos (2 * PI * w)) e ^ 2 + over n (fun w => sin (2 * PI * w)) e ^ 2) / over n (fun _ => 1) o / INR (n * pad) ^ 2).
Proof.
  intros P (j & k & w & J & K & W) e. pose proof (count_pos n o j k w J K W) as C. rewrite over_count. split; [exact C|]. rewrite (psf_some n pad o j k w p q P J K W).
  set (m := (n * pad)%nat) in *. assert (M : (n <= m)%nat) by (unfold m; nia). assert (MP : 0 < INR m) by (apply lt_0_INR; lia). split; [exact MP|].
  set (s := sqrt (count_good n o)). assert (S : 0 < s) by (apply sqrt_lt_R0; auto). assert (Q : s * s = count_good n o) by (apply sqrt_sqrt; lra).
  assert (Z : fft2 n m m (amplitude n o) p q = cmul (rc (/ s)) (Cx (over n (fun w => cos (2 * PI * w)) e) (- over n (fun w => sin (2 * PI * w)) e))).
  { unfold fft2. rewrite (csum_cut n m _ M). 2:{ intros a A. rewrite (csum_ext m _ (fun _ => c0)); [apply csum_zero|]. intros b B. unfold padded. replace (Nat.ltb a n) with false by (symmetry; apply Nat.ltb_ge; lia). cbn [andb]. ring. }
    assert (CX : forall (f g : nat -> nat -> R) , csum n (fun j => csum n (fun k => Cx (f j k) (g j k))) = Cx (rsum n (fun j => rsum n (fun k => f j k))) (rsum n (fun j => rsum n (fun k => g j k)))).
    { assert (C1 : forall N (f g : nat -> R), csum N (fun k => Cx (f k) (g k)) = Cx (rsum N f) (rsum N g)) by (induction N as [|N IH]; intros f g; cbn [csum rsum]; [reflexivity|rewrite IH; reflexivity]).
      intros f g. rewrite (csum_ext n _ (fun j => Cx (rsum n (fun k => f j k)) (rsum n (fun k => g j k)))) by (intros a _; apply C1). apply C1. }
    assert (NEG : - over n (fun w => sin (2 * PI * w)) e = over n (fun w => - sin (2 * PI * w)) e) by (rewrite (over_ext n (fun w => - sin (2 * PI * w)) (fun w => -1 * sin (2 * PI * w))) by (intros; ring); rewrite over_mul; ring).
    rewrite NEG. unfold over. rewrite <- CX, <- csum_mul. apply csum_ext. intros a A. rewrite (csum_cut n m _ M) by (intros b B; unfold padded; replace (Nat.ltb b n) with false by (symmetry; apply Nat.ltb_ge; lia); rewrite Bool.andb_false_r; ring).
    rewrite <- csum_mul. apply csum_ext. intros b B. unfold padded. apply Nat.ltb_lt in A, B. rewrite A, B. cbn [andb]. unfold e, against, amplitude. destruct (o a b) as [x|]; [|apply cx_eq; cbn; ring].
    fold s. assert (D : cdiv (cis (-2 * PI * x)) (rc s) = cmul (rc (/ s)) (cis (-2 * PI * x))) by (apply cx_eq; unfold cabs2; cbn; unfold cabs2; cbn; field; nra). rewrite D.
    transitivity (cmul (rc (/ s)) (cmul (cis (-2 * PI * x)) (cis (-2 * PI * (INR a * INR p / INR m + INR b * INR q / INR m))))); [ring|]. f_equal. rewrite <- cis_add. unfold cis.
    replace (-2 * PI * x + -2 * PI * (INR a * INR p / INR m + INR b * INR q / INR m)) with (- (2 * PI * (x + (INR a * INR p + INR b * INR q) / INR m))) by (field; lra). rewrite cos_neg, sin_neg. reflexivity. }
  rewrite Z. f_equal. unfold cabs2. cbn [re im cmul rc]. rewrite <- Q. field. split; lra.
Qed.

(** * C104 *)
(** Marechal: the loss of brightness is the mean square phase error up to a fourth order, at every pixel *)
Theorem C104_marechal n pad o p q : (0 < pad)%nat -> lit n o -> let e := against (n * pad) o p q in let phi := (2 * PI) ^ 2 * variance n e in
  exists v, psf n pad o p q = Some v /\ (1 - phi) * peak n pad o <= v /\ (phi <= 2 -> (1 - phi / 2) ^ 2 * peak n pad o <= v) /\
    forall lo hi, within n e lo hi -> v <= (1 - phi * (1 - (2 * PI * (hi - lo)) ^ 2 / 12)) * peak n pad o.
Proof.
  intros P L e phi. destruct (brightness n pad o p q P L) as (C & MP & E). fold e in E. eexists. split; [exact E|]. unfold peak.
  set (N := over n (fun _ => 1) o) in *. set (m := INR (n * pad)) in *. assert (NE : over n (fun _ => 1) e = N) by apply count_against.
  set (c := over n (fun w => cos (2 * PI * w)) e). set (s := over n (fun w => sin (2 * PI * w)) e).
  assert (PC : c ^ 2 + s ^ 2 = pairs n (fun w v => cos (2 * PI * (w - v))) e) by apply pairs_cos.
  assert (PS : pairs n (fun w v => (w - v) ^ 2) e = 2 * N ^ 2 * variance n e) by (rewrite <- NE; apply pairs_squares; lra).
  assert (P1 : pairs n (fun _ _ => 1) e = N ^ 2) by (rewrite <- NE; apply pairs_one).
  assert (SC : forall x, x * N ^ 2 <= c ^ 2 + s ^ 2 -> x * (N / m ^ 2) <= (c ^ 2 + s ^ 2) / N / m ^ 2).
  { intros x X. replace (x * (N / m ^ 2)) with (x * N ^ 2 * / (N * m ^ 2)) by (field; split; lra). replace ((c ^ 2 + s ^ 2) / N / m ^ 2) with ((c ^ 2 + s ^ 2) * / (N * m ^ 2)) by (field; split; lra).
    apply Rmult_le_compat_r; [|exact X]. apply Rlt_le, Rinv_0_lt_compat. (apply Rmult_lt_0_compat; [exact C|apply pow_lt; exact MP]). }
  split; [|split].
  - apply SC. rewrite PC. apply Rle_trans with (pairs n (fun w v => 1 + - ((2 * PI) ^ 2 / 2) * (w - v) ^ 2) e).
    + rewrite (pairs_add n (fun _ _ => 1) (fun w v => - ((2 * PI) ^ 2 / 2) * (w - v) ^ 2)), (pairs_mul n _ (fun w v => (w - v) ^ 2)), PS, P1. unfold phi. apply Req_le. field.
    + apply pairs_le. intros j k j' k' w w' _ _ _ _ _ _. pose proof (cos_ge (2 * PI * (w - w'))) as G. eapply Rle_trans; [|exact G]. apply Req_le. field.
  - intros PH. apply SC. set (a := average n e).
    assert (RE : (1 - phi / 2) * N <= cos (2 * PI * a) * c + sin (2 * PI * a) * s).
    { unfold c, s. rewrite <- (over_mul n _ (fun w => cos (2 * PI * w))), <- (over_mul n _ (fun w => sin (2 * PI * w))), <- over_add.
      apply Rle_trans with (over n (fun w => 1 + - ((2 * PI) ^ 2 / 2) * (w - a) ^ 2) e).
      - rewrite (over_add n (fun _ => 1) (fun w => - ((2 * PI) ^ 2 / 2) * (w - a) ^ 2)), (over_mul n _ (fun w => (w - a) ^ 2)). unfold phi, variance. fold a. rewrite NE. apply Req_le. field. lra.
      - apply over_le. intros j k w _ _ _. pose proof (cos_ge (2 * PI * (w - a))) as G. rewrite Rmult_minus_distr_l, cos_minus in G.
        eapply Rle_trans; [|eapply Rle_trans; [exact G|apply Req_le; ring]]. apply Req_le. field. }
    assert (R0 : 0 <= (1 - phi / 2) * N) by (apply Rmult_le_pos; lra).
    assert (SQ : ((1 - phi / 2) * N) ^ 2 <= (cos (2 * PI * a) * c + sin (2 * PI * a) * s) ^ 2) by (apply pow_incr; lra).
    pose proof (sin2_cos2 (2 * PI * a)) as T. unfold Rsqr in T. pose proof (pow2_ge_0 (cos (2 * PI * a) * s - sin (2 * PI * a) * c)) as D.
    apply Rle_trans with ((cos (2 * PI * a) * c + sin (2 * PI * a) * s) ^ 2); [eapply Rle_trans; [|exact SQ]; apply Req_le; ring|].
    set (X := cos (2 * PI * a)) in *. set (Y := sin (2 * PI * a)) in *.
    assert (ID : (X * c + Y * s) ^ 2 + (X * s - Y * c) ^ 2 = (Y * Y + X * X) * (c ^ 2 + s ^ 2)) by ring. rewrite T in ID. lra.
  - intros lo hi W. apply Rmult_le_reg_r with (N * m ^ 2); [(apply Rmult_lt_0_compat; [exact C|apply pow_lt; exact MP])|]. replace ((c ^ 2 + s ^ 2) / N / m ^ 2 * (N * m ^ 2)) with (c ^ 2 + s ^ 2) by (field; split; lra).
    replace ((1 - phi * (1 - (2 * PI * (hi - lo)) ^ 2 / 12)) * (N / m ^ 2) * (N * m ^ 2)) with ((1 - phi * (1 - (2 * PI * (hi - lo)) ^ 2 / 12)) * N ^ 2) by (field; lra).
    rewrite PC. apply Rle_trans with (pairs n (fun w v => 1 + - ((2 * PI) ^ 2 / 2) * (1 - (2 * PI * (hi - lo)) ^ 2 / 12) * (w - v) ^ 2) e).
    + apply pairs_le. intros j k j' k' w w' J K J' K' EW EW'. pose proof (cos_le (2 * PI * (w - w'))) as G. eapply Rle_trans; [exact G|].
      pose proof (W _ _ _ J K EW) as A. pose proof (W _ _ _ J' K' EW') as B.
      assert (D : (w - w') ^ 2 <= (hi - lo) ^ 2) by (apply pow_maj_Rabs; apply Rabs_le; lra).
      assert (F : (2 * PI) ^ 4 / 24 * (w - w') ^ 2 * (w - w') ^ 2 <= (2 * PI) ^ 4 / 24 * (w - w') ^ 2 * (hi - lo) ^ 2).
      { apply Rmult_le_compat_l; [|exact D]. apply Rmult_le_pos; [|apply pow2_ge_0]. pose proof (pow2_ge_0 ((2 * PI) ^ 2)) as Q. replace (((2 * PI) ^ 2) ^ 2) with ((2 * PI) ^ 4) in Q by ring. lra. }
      match goal with |- ?x <= ?y => replace y with (x + ((2 * PI) ^ 4 / 24 * (w - w') ^ 2 * (hi - lo) ^ 2 - (2 * PI) ^ 4 / 24 * (w - w') ^ 2 * (w - w') ^ 2)) by field end. lra.
    + rewrite (pairs_add n (fun _ _ => 1) (fun w v => - ((2 * PI) ^ 2 / 2) * (1 - (2 * PI * (hi - lo)) ^ 2 / 12) * (w - v) ^ 2)), (pairs_mul n _ (fun w v => (w - v) ^ 2)), PS, P1. unfold phi. apply Req_le. field.
Qed.
(** Rayleigh: errors that stay within half a wave leave at least cos^2 of the brightness; a quarter wave leaves one half *)
Theorem C104_rayleigh n pad o p q lo hi : (0 < pad)%nat -> lit n o -> within n (against (n * pad) o p q) lo hi -> hi - lo <= 1/2 ->
  exists v, psf n pad o p q = Some v /\ cos (PI * (hi - lo)) ^ 2 * peak n pad o <= v /\ (hi - lo <= 1/4 -> peak n pad o / 2 <= v).
Proof.
  intros P L W H. destruct (brightness n pad o p q P L) as (C & MP & E). set (e := against (n * pad) o p q) in *. eexists. split; [exact E|]. unfold peak.
  assert (D0 : 0 <= hi - lo). { destruct L as (j & k & w & J & K & O). assert (EE : exists w', e j k = Some w') by (unfold e, against; rewrite O; eauto). destruct EE as (w' & EE). pose proof (W j k w' J K EE). lra. }
  set (N := over n (fun _ => 1) o) in *. set (m := INR (n * pad)) in *. assert (NE : over n (fun _ => 1) e = N) by apply count_against.
  set (c := over n (fun w => cos (2 * PI * w)) e). set (s := over n (fun w => sin (2 * PI * w)) e). assert (PP := PI_RGT_0).
  set (a := (lo + hi) / 2). assert (CP : 0 <= cos (PI * (hi - lo))) by (apply cos_ge_0; nra).
  assert (RE : cos (PI * (hi - lo)) * N <= cos (2 * PI * a) * c + sin (2 * PI * a) * s).
  { unfold c, s. rewrite <- (over_mul n _ (fun w => cos (2 * PI * w))), <- (over_mul n _ (fun w => sin (2 * PI * w))), <- over_add. rewrite <- NE, <- over_const. apply over_le. intros j k w J K EW. pose proof (W _ _ _ J K EW) as B.
    replace (cos (2 * PI * a) * cos (2 * PI * w) + sin (2 * PI * a) * sin (2 * PI * w)) with (cos (2 * PI * (w - a))) by (rewrite Rmult_minus_distr_l, cos_minus; ring).
    destruct (Rle_dec a w).
    - apply cos_decr_1; unfold a in *; nra.
    - replace (2 * PI * (w - a)) with (- (2 * PI * (a - w))) by ring. rewrite cos_neg. apply cos_decr_1; unfold a in *; nra. }
  assert (R0 : 0 <= cos (PI * (hi - lo)) * N) by (apply Rmult_le_pos; lra).
  assert (SQ : (cos (PI * (hi - lo)) * N) ^ 2 <= (cos (2 * PI * a) * c + sin (2 * PI * a) * s) ^ 2) by (apply pow_incr; lra).
  pose proof (sin2_cos2 (2 * PI * a)) as T. unfold Rsqr in T. pose proof (pow2_ge_0 (cos (2 * PI * a) * s - sin (2 * PI * a) * c)) as D.
  assert (M : cos (PI * (hi - lo)) ^ 2 * (N / m ^ 2) <= (c ^ 2 + s ^ 2) / N / m ^ 2).
  { replace (cos (PI * (hi - lo)) ^ 2 * (N / m ^ 2)) with ((cos (PI * (hi - lo)) * N) ^ 2 * / (N * m ^ 2)) by (field; split; lra). replace ((c ^ 2 + s ^ 2) / N / m ^ 2) with ((c ^ 2 + s ^ 2) * / (N * m ^ 2)) by (field; split; lra).
    apply Rmult_le_compat_r; [apply Rlt_le, Rinv_0_lt_compat; (apply Rmult_lt_0_compat; [exact C|apply pow_lt; exact MP])|]. eapply Rle_trans; [exact SQ|]. set (X := cos (2 * PI * a)) in *. set (Y := sin (2 * PI * a)) in *.
    assert (ID : (X * c + Y * s) ^ 2 + (X * s - Y * c) ^ 2 = (Y * Y + X * X) * (c ^ 2 + s ^ 2)) by ring. rewrite T in ID. lra. }
  split; [exact M|]. intros Q. eapply Rle_trans; [|exact M]. assert (K : / 2 <= cos (PI * (hi - lo)) ^ 2).
  { assert (G : cos (PI / 4) <= cos (PI * (hi - lo))) by (apply cos_decr_1; nra). rewrite cos_PI4 in G. assert (S2 : 0 < sqrt 2) by (apply sqrt_lt_R0; lra). assert (Z : sqrt 2 * sqrt 2 = 2) by (apply sqrt_sqrt; lra).
    assert (V : 1 / sqrt 2 * (1 / sqrt 2) = / 2) by (transitivity (/ (sqrt 2 * sqrt 2)); [field; lra|rewrite Z; reflexivity]). assert (0 < 1 / sqrt 2) by (apply Rdiv_lt_0_compat; lra). nra. }
  replace (N / m ^ 2 / 2) with (/ 2 * (N / m ^ 2)) by (unfold Rdiv; ring). apply Rmult_le_compat_r; [|exact K]. apply Rlt_le, Rdiv_lt_0_compat; [exact C|apply pow_lt; exact MP].
Qed.
(** A pixel is as bright as the centre of a perfect image exactly if all errors against its plane wave agree up to whole
    waves *)
Theorem C104_perfect n pad o p q : (0 < pad)%nat -> lit n o -> let e := against (n * pad) o p q in
  psf n pad o p q = Some (peak n pad o) <->
  forall j k j' k' w w', (j < n)%nat -> (k < n)%nat -> (j' < n)%nat -> (k' < n)%nat -> e j k = Some w -> e j' k' = Some w' -> exists z : Z, w - w' = IZR z.
Proof.
  intros P L e. destruct (brightness n pad o p q P L) as (C & MP & E). fold e in E. rewrite E. unfold peak.
  set (N := over n (fun _ => 1) o) in *. set (m := INR (n * pad)) in *. assert (NE : over n (fun _ => 1) e = N) by apply count_against.
  rewrite pairs_cos. assert (P1 : pairs n (fun _ _ => 1) e = N ^ 2) by (rewrite <- NE; apply pairs_one). assert (PP := PI_RGT_0).
  set (T := pairs n (fun w v => cos (2 * PI * (w - v))) e).
  assert (TN : Some (T / N / m ^ 2) = Some (N / m ^ 2) <-> T = N ^ 2).
  { split; [intros H; apply (f_equal (fun o => match o with Some x => x | None => 0 end)) in H; cbv beta iota in H|intros ->; f_equal; field; split; lra]. apply (f_equal (fun x => x * (N * m ^ 2))) in H. replace (T / N / m ^ 2 * (N * m ^ 2)) with T in H by (field; split; lra). rewrite H. field. lra. }
  rewrite TN. split.
  - intros H. assert (Z : pairs n (fun w v => 1 + -1 * cos (2 * PI * (w - v))) e = 0) by (rewrite (pairs_add n (fun _ _ => 1) (fun w v => -1 * cos (2 * PI * (w - v)))), (pairs_mul n _ (fun w v => cos (2 * PI * (w - v)))), P1; fold T; lra).
    assert (NN : forall w v, 0 <= 1 + -1 * cos (2 * PI * (w - v))) by (intros w v; pose proof (COS_bound (2 * PI * (w - v))); lra).
    intros j k j' k' w w' J K J' K' EW EW'.
    assert (Z1 : over n (fun v => 1 + -1 * cos (2 * PI * (w - v))) e = 0).
    { apply (over_zero n (fun w => over n (fun v => 1 + -1 * cos (2 * PI * (w - v))) e) e) with (j := j) (k := k); auto. intros x. rewrite <- (Rmult_0_l (over n (fun _ => 1) e)), <- over_const. apply over_le. auto. }
    pose proof (over_zero n _ e (NN w) Z1 j' k' w' J' K' EW') as Z2. cbv beta in Z2.
    assert (S : sin (PI * (w - w')) = 0). { replace (2 * PI * (w - w')) with (2 * (PI * (w - w'))) in Z2 by ring. rewrite cos_2a_sin in Z2. nra. }
    apply sin_eq_0_0 in S. destruct S as (z & S). exists z. apply (Rmult_eq_reg_l PI); lra.
  - intros H. rewrite <- P1. apply Rle_antisym; apply pairs_le; intros j k j' k' w w' J K J' K' EW EW'; destruct (H j k j' k' w w') as (z & ->); auto;
      (assert (S : sin (PI * IZR z) = 0) by (apply sin_eq_0_1; exists z; ring)); replace (2 * PI * IZR z) with (2 * (PI * IZR z)) by ring; rewrite cos_2a_sin, S; lra.
Qed.
(** Contrast: errors within [hi - lo] waves leave at least the fraction cos (2 pi (hi - lo)) of the contrast of the perfect lens *)
Theorem C104_contrast n pad o f x axis k r v j0 k0 w0 lo hi : (2 <= pad)%nat -> (j0 < n)%nat -> (k0 < n)%nat -> o j0 k0 = Some w0 -> values n pad o f ->
  nth_error (contrast axis (n * pad) f x) k = Some (r, v) -> within n o lo hi -> hi - lo <= 1/2 ->
  let overlap := over n (fun _ => 1) (sheared n (match axis with O => o | _ => transposed o end) k) / over n (fun _ => 1) o in
  cos (2 * PI * (hi - lo)) * overlap <= v <= overlap.
Proof.
  intros P J K W V NE WI H overlap. destruct (C67_contrast n pad o f x axis k r v j0 k0 w0 P J K W V NE) as (E & (V0 & V1) & _). cbv zeta in E, V1.
  set (o' := match axis with O => o | _ => transposed o end) in *. set (d := sheared n o' k) in *. rewrite over_count in *. fold overlap in V1. split; [|exact V1].
  pose proof (count_pos n o j0 k0 w0 J K W) as C. assert (PP := PI_RGT_0). pose proof (WI _ _ _ J K W) as D0.
  assert (WD : forall j l w, (j < n)%nat -> (l < n)%nat -> d j l = Some w -> - (hi - lo) <= w <= hi - lo).
  { intros j l w Jn Ln DW. unfold d, sheared in DW. destruct (Nat.ltb (l + k) n) eqn:LT; [|discriminate DW]. apply Nat.ltb_lt in LT. destruct (o' j (l + k)%nat) as [a|] eqn:A; [|discriminate DW]. cbn [obind] in DW.
    destruct (o' j l) as [b|] eqn:B; [|discriminate DW]. cbn [obind] in DW. injection DW as <-.
    assert (WA : lo <= a <= hi) by (unfold o' in A; destruct axis; [apply (WI _ _ _ Jn LT A)|apply (WI _ _ _ LT Jn A)]). assert (WB : lo <= b <= hi) by (unfold o' in B; destruct axis; [apply (WI _ _ _ Jn Ln B)|apply (WI _ _ _ Ln Jn B)]). lra. }
  rewrite E. unfold overlap. set (c := over n (fun x0 => cos (2 * PI * x0)) d) in *. set (s := over n (fun x0 => sin (2 * PI * x0)) d) in *.
  assert (CB : cos (2 * PI * (hi - lo)) * over n (fun _ => 1) d <= c).
  { rewrite <- over_const. apply over_le. intros j l w Jn Ln DW. pose proof (WD _ _ _ Jn Ln DW) as B. destruct (Rle_dec 0 w).
    - apply cos_decr_1; nra.
    - replace (2 * PI * w) with (- (2 * PI * (- w))) by ring. rewrite cos_neg. apply cos_decr_1; nra. }
  assert (SQ : c <= sqrt (c ^ 2 + s ^ 2)). { destruct (Rle_dec 0 c); [|pose proof (sqrt_pos (c ^ 2 + s ^ 2)); lra]. rewrite <- (sqrt_pow2 c) at 1 by auto. apply sqrt_le_1_alt. pose proof (pow2_ge_0 s). lra. }
  unfold Rdiv. rewrite <- Rmult_assoc. apply Rmult_le_compat_r; [apply Rlt_le, Rinv_0_lt_compat; exact C|lra].
Qed.
(** two lit points a quarter wave apart: half of the brightness exactly *)
Definition two (j k : nat) : option R := match j, k with O, O => Some 0 | 1%nat, O => Some (1/4) | _, _ => None end.
Example C104_example : lit 2 two /\ within 2 (against (2 * 2) two 0 0) 0 (1/4) /\ variance 2 (against (2 * 2) two 0 0) = 1/64 /\
  psf 2 2 two 0 0 = Some (peak 2 2 two / 2) /\ peak 2 2 two = 1/8 /\ ~ (exists z, 1/4 - 0 = IZR z).
Proof.
  assert (LIT : lit 2 two) by (exists 0%nat, 0%nat, 0; repeat split; lia).
  assert (AG : forall j k, against (2 * 2) two 0 0 j k = two j k) by (intros [|[|j]] [|k]; unfold against, two; cbn [INR]; try reflexivity; f_equal; unfold Rdiv; ring).
  assert (OV : forall g, over 2 g (against (2 * 2) two 0 0) = g 0 + g (1/4)) by (intros g; unfold over; cbn [rsum]; rewrite !AG; cbn [two]; ring).
  assert (O1 : over 2 (fun _ => 1) two = 2) by (unfold over; cbn; ring).
  split; [exact LIT|]. split; [|split; [|split; [|split]]].
  - intros j k w J K E. rewrite AG in E. destruct j as [|[|j]], k as [|k]; cbn in E; try discriminate E; injection E as <-; lra.
  - unfold variance, average. rewrite !OV. field.
  - destruct (brightness 2 2 two 0 0 ltac:(lia) LIT) as (_ & _ & E). rewrite E, !OV, O1. unfold peak. rewrite O1. f_equal. replace (2 * PI * (1/4)) with (PI / 2) by field. rewrite Rmult_0_r, cos_0, sin_0, cos_PI2, sin_PI2. cbn [INR Nat.mul Nat.add]. field.
  - unfold peak. rewrite O1. cbn [INR Nat.mul Nat.add]. field.
  - intros (z & Z). assert (A : 0 < IZR z < 1) by lra. destruct A as [A B]. apply lt_IZR in A, B. lia.
Qed.
(** errors of an eighth of a wave: the contrast of two lit points is at least cos (pi / 4) of the overlap of one half *)
Definition eighth (j k : nat) : option R := match j, k with O, O => Some 0 | O, 1%nat => Some (1/8) | _, _ => None end.
Example C104_contrast_example : exists f, values 2 2 eighth f /\ within 2 eighth 0 (1/8) /\
  forall x, exists r v, nth_error (contrast 0 (2 * 2) f x) 1 = Some (r, v) /\ 1 / sqrt 2 * (1 / 2) <= v <= 1 / 2.
Proof.
  destruct (C55_total 2 2 eighth 0 0 0) as (f & V & _); try lia; try reflexivity. exists f. split; [exact V|].
  assert (W : within 2 eighth 0 (1/8)) by (intros j k w J K E; destruct j as [|j], k as [|[|k]]; cbn in E; try discriminate E; injection E as <-; lra).
  split; [exact W|]. intros x. destruct (nth_error (contrast 0 (2 * 2) f x) 1) as [[r v]|] eqn:NE; [|discriminate NE]. exists r, v. split; [reflexivity|].
  pose proof (C104_contrast 2 2 eighth f x 0 1 r v 0 0 0 0 (1/8) ltac:(lia) ltac:(lia) ltac:(lia) eq_refl V NE W ltac:(lra)) as B. cbv zeta in B.
  replace (2 * PI * (1/8 - 0)) with (PI / 4) in B by field. rewrite cos_PI4 in B.
  assert (O : over 2 (fun _ => 1) (sheared 2 eighth 1) / over 2 (fun _ => 1) eighth = 1 / 2) by (unfold over, sheared, eighth; cbn; field). rewrite O in B. exact B.
Qed.
