(** C93, continued: the quadrature patterns of the pupil average polynomials over the disc exactly. *)
From Coq Require Import Reals List Lra Lia Psatz Arith.
From Verif Require Import Base SampleModel LegendreModel LegendreProofs PropsSample PropsQuadrature PropsRadau.
Import ListNotations.
Open Scope R_scope.

(** average of f over the unit disc: integral over the radius, then over the angle *)
Definition disc_average (f : R * R -> R) (v : R) : Prop :=
  exists (G : R -> R -> R) (H : R -> R),
    (forall a r, derivable_pt_lim (G a) r (f (r * cos a, r * sin a) * r)) /\
    (forall a, derivable_pt_lim H a (G a 1 - G a 0)) /\ v = (H (2 * PI) - H 0) / PI.
Theorem C93_average_unique f u v : disc_average f u -> disc_average f v -> u = v.
Proof.
  intros (G & H & A & B & ->) (G' & H' & A' & B' & ->). f_equal. apply (primitive_unique (fun a => G a 1 - G a 0)); [auto|].
  intros a. replace (G a 1 - G a 0) with (G' a 1 - G' a 0); [auto|]. symmetry. eapply primitive_unique; [apply A|apply A'].
Qed.
Lemma average_plus f g u v : disc_average f u -> disc_average g v -> disc_average (fun p => f p + g p) (u + v).
Proof.
  intros (G & H & A & B & ->) (G' & H' & A' & B' & ->). exists (fun a => plus_fct (G a) (G' a)), (plus_fct H H'). split; [|split].
  - intros a r. rewrite Rmult_plus_distr_r. apply derivable_pt_lim_plus; auto.
  - intros a. unfold plus_fct at 2 3. replace (G a 1 + G' a 1 - (G a 0 + G' a 0)) with (G a 1 - G a 0 + (G' a 1 - G' a 0)) by ring. apply derivable_pt_lim_plus; auto.
  - unfold plus_fct. pose proof PI_neq0. field. auto.
Qed.
Lemma average_scale c f u : disc_average f u -> disc_average (fun p => c * f p) (c * u).
Proof.
  intros (G & H & A & B & ->). exists (fun a => mult_real_fct c (G a)), (mult_real_fct c H). split; [|split].
  - intros a r. rewrite Rmult_assoc. apply derivable_pt_lim_scal; auto.
  - intros a. unfold mult_real_fct at 2 3. replace (c * G a 1 - c * G a 0) with (c * (G a 1 - G a 0)) by ring. apply derivable_pt_lim_scal; auto.
  - unfold mult_real_fct. pose proof PI_neq0. field. auto.
Qed.
Lemma average_zero : disc_average (fun _ => 0) 0.
Proof.
  exists (fun _ => fct_cte 0), (fct_cte 0). split; [intros a r; rewrite Rmult_0_l; apply derivable_pt_lim_const|].
  split; [intros a; unfold fct_cte at 2 3; rewrite Rminus_0_r; apply derivable_pt_lim_const|]. unfold fct_cte. pose proof PI_neq0. field. auto.
Qed.

(** average over the circle *)
Definition circle (f : R -> R) (v : R) : Prop := exists H, (forall a, derivable_pt_lim H a (f a)) /\ v = (H (2 * PI) - H 0) / (2 * PI).
Lemma circle_ext f g v : (forall a, f a = g a) -> circle f v -> circle g v.
Proof. intros E (H & A & ->). exists H. split; [|auto]. intros a. rewrite <- E. auto. Qed.
Lemma circle_lin c f g u v : circle f u -> circle g v -> circle (fun a => / 2 * (f a + c * g a)) (/ 2 * (u + c * v)).
Proof.
  intros (H & A & ->) (H' & A' & ->). exists (mult_real_fct (/ 2) (plus_fct H (mult_real_fct c H'))). split.
  - intros a. apply derivable_pt_lim_scal, derivable_pt_lim_plus; [auto|apply derivable_pt_lim_scal; auto].
  - unfold mult_real_fct, plus_fct. pose proof PI_neq0. field. auto.
Qed.
Definition mean (n : nat) (f : R -> R) : R := / INR n * sumR (map f (half_angles n)).
Lemma mean_ext n f g : (forall a, f a = g a) -> mean n f = mean n g.
Proof. intros E. unfold mean. rewrite (map_ext _ _ E). reflexivity. Qed.
Lemma sumR_lin c (f g : R -> R) l : sumR (map (fun a => / 2 * (f a + c * g a)) l) = / 2 * (sumR (map f l) + c * sumR (map g l)).
Proof. unfold sumR. induction l as [|a l IH]; cbn [map fold_right]; [ring|]. rewrite IH. ring. Qed.
Lemma mean_lin n c f g : mean n (fun a => / 2 * (f a + c * g a)) = / 2 * (mean n f + c * mean n g).
Proof. unfold mean. rewrite sumR_lin. ring. Qed.

Lemma telescope (f : R -> R) g n : (forall j, f (INR j) = g (INR (S j)) - g (INR j)) -> sumR (map (fun j => f (INR j)) (seq 0 n)) = g (INR n) - g 0.
Proof.
  intros H. induction n as [|n IH]; [unfold sumR; cbn; ring|]. rewrite seq_S, map_app, sum_app, IH. cbn [plus map]. unfold sumR at 1. cbn [fold_right]. rewrite H. ring.
Qed.
Lemma sin_turns x l : sin (x + 2 * INR l * PI) = sin x. Proof. apply sin_period. Qed.
Lemma harmonic_mean n l th : (0 < l < n)%nat -> mean n (fun a => cos (INR (2 * l) * a + th)) = 0.
Proof.
  intros [L0 LN]. assert (NP : 0 < INR n) by (apply lt_0_INR; lia). assert (LP : 0 < INR l) by (apply lt_0_INR; auto). assert (LL : INR l < INR n) by (apply lt_INR; auto).
  pose proof PI_RGT_0 as PI0. set (s := sin (PI * INR l / INR n)).
  assert (S0 : 0 < s).
  { apply sin_gt_0; [apply Rdiv_lt_0_compat; nra|]. apply (Rmult_lt_reg_r (INR n)); [auto|]. unfold Rdiv. rewrite Rmult_assoc, Rinv_l by lra. nra. }
  unfold mean. unfold half_angles. rewrite map_map.
  set (g := fun t => / (2 * s) * sin (2 * PI * INR l * t / INR n - PI * INR l + th)).
  rewrite (telescope (fun t => cos (INR (2 * l) * (PI * ((t + / 2) / INR n - / 2)) + th)) g).
  - unfold g. replace (2 * PI * INR l * INR n / INR n - PI * INR l + th) with ((2 * PI * INR l * 0 / INR n - PI * INR l + th) + 2 * INR l * PI) by (field; lra).
    rewrite sin_turns. ring.
  - intros j. unfold g. rewrite S_INR, mult_INR. replace (INR 2) with 2 by (cbn; ring). rewrite <- Rmult_minus_distr_l, form4.
    replace ((2 * PI * INR l * (INR j + 1) / INR n - PI * INR l + th - (2 * PI * INR l * INR j / INR n - PI * INR l + th)) / 2) with (PI * INR l / INR n) by (field; lra).
    replace ((2 * PI * INR l * (INR j + 1) / INR n - PI * INR l + th + (2 * PI * INR l * INR j / INR n - PI * INR l + th)) / 2) with (2 * INR l * (PI * ((INR j + / 2) / INR n - / 2)) + th) by (field; lra).
    fold s. field. lra.
Qed.

(** one harmonic with powers of the cosine and the sine *)
Definition trig (a b k : nat) (th t : R) : R := cos t ^ a * sin t ^ b * cos (INR k * t + th).
Definition agrees (n a b : nat) : Prop := forall k th, exists v, circle (trig a b k th) v /\
  (Nat.Even (a + b + k) -> (a + b + k < 2 * n)%nat -> mean n (trig a b k th) = v) /\ (Nat.Odd (a + b + k) -> v = 0).
Lemma agrees_base n : (0 < n)%nat -> agrees n 0 0.
Proof.
  intros N k th. assert (NP : 0 < INR n) by (apply lt_0_INR; auto). destruct k as [|k].
  - exists (cos th). assert (E : forall t, trig 0 0 0 th t = cos th) by (intros t; unfold trig; cbn; rewrite Rmult_0_l, Rplus_0_l; ring). split; [|split].
    + exists (mult_real_fct (cos th) id). split; [intros a; rewrite E; rewrite <- (Rmult_1_r (cos th)) at 2; apply derivable_pt_lim_scal, derivable_pt_lim_id|].
      unfold mult_real_fct, id. pose proof PI_neq0. field. auto.
    + intros _ _. rewrite (mean_ext n _ (fun _ => cos th)) by auto. unfold mean.
      assert (C : forall l : list R, sumR (map (fun _ => cos th) l) = INR (length l) * cos th).
      { induction l as [|x l IH]; [unfold sumR; cbn; ring|]. cbn [length map]. rewrite S_INR. unfold sumR in *. cbn [fold_right]. rewrite IH. ring. }
      rewrite C, half_angles_length. field. lra.
    + cbn. intros [q Q]. lia.
  - exists 0. assert (E : forall t, trig 0 0 (S k) th t = cos (INR (S k) * t + th)) by (intros t; unfold trig; cbn [pow]; ring).
    assert (KP : INR (S k) <> 0) by (apply not_0_INR; lia). split; [|split].
    + exists (fun t => / INR (S k) * sin (INR (S k) * t + th)). split.
      * intros a. rewrite E. set (q := INR (S k)) in *.
        assert (L : derivable_pt_lim (fun t => q * t + th) a q).
        { assert (X : derivable_pt_lim (plus_fct (mult_real_fct q id) (fct_cte th)) a (q * 1 + 0)) by (apply derivable_pt_lim_plus; [apply derivable_pt_lim_scal, derivable_pt_lim_id|apply derivable_pt_lim_const]).
          rewrite Rmult_1_r, Rplus_0_r in X. exact X. }
        replace (cos (q * a + th)) with (/ q * (cos (q * a + th) * q)) by (field; auto).
        apply (derivable_pt_lim_scal (fun t => sin (q * t + th))). apply (derivable_pt_lim_comp (fun t => q * t + th) sin); [auto|apply derivable_pt_lim_sin].
      * replace (INR (S k) * (2 * PI) + th) with (INR (S k) * 0 + th + 2 * INR (S k) * PI) by ring. rewrite sin_turns. unfold Rdiv. ring.
    + intros [q Q] B. cbn [plus] in Q, B. rewrite (mean_ext n _ _ E), Q. apply harmonic_mean. lia.
    + auto.
Qed.
(** products of harmonics *)
Lemma cos_up k th t : cos t * cos (INR (S k) * t + th) = / 2 * (cos (INR (S (S k)) * t + th) + 1 * cos (INR k * t + th)).
Proof.
  rewrite !S_INR. replace ((INR k + 1 + 1) * t + th) with (((INR k + 1) * t + th) + t) by ring. replace (INR k * t + th) with (((INR k + 1) * t + th) - t) by ring.
  generalize ((INR k + 1) * t + th). intros u. rewrite cos_plus, cos_minus. field.
Qed.
Lemma cos_zero th t : cos t * cos (INR 0 * t + th) = / 2 * (cos (INR 1 * t + th) + 1 * cos (INR 1 * t + - th)).
Proof. cbn [INR]. rewrite Rmult_0_l, Rplus_0_l, Rmult_1_l. replace (t + - th) with (t - th) by ring. rewrite cos_plus, cos_minus. field. Qed.
Lemma sin_up k th t : sin t * cos (INR (S k) * t + th) = / 2 * (cos (INR (S (S k)) * t + (th - PI / 2)) + -1 * cos (INR k * t + (th - PI / 2))).
Proof.
  rewrite !S_INR. replace ((INR k + 1 + 1) * t + (th - PI / 2)) with (- (PI / 2 - (((INR k + 1) * t + th) + t))) by field.
  replace (INR k * t + (th - PI / 2)) with (- (PI / 2 - (((INR k + 1) * t + th) - t))) by field.
  generalize ((INR k + 1) * t + th). intros u. rewrite !cos_neg, !cos_shift, sin_plus, sin_minus. field.
Qed.
Lemma sin_low th t : sin t * cos (INR 0 * t + th) = / 2 * (cos (INR 1 * t + (th - PI / 2)) + 1 * cos (INR 1 * t + (- th - PI / 2))).
Proof.
  cbn [INR]. rewrite Rmult_0_l, Rplus_0_l, Rmult_1_l. replace (t + (th - PI / 2)) with (- (PI / 2 - (t + th))) by field. replace (t + (- th - PI / 2)) with (- (PI / 2 - (t - th))) by field.
  rewrite !cos_neg, !cos_shift, sin_plus, sin_minus. field.
Qed.
Lemma agrees_lin n a b a' b' k th c k1 th1 k2 th2 : agrees n a b ->
  (forall t, trig a' b' k th t = / 2 * (trig a b k1 th1 t + c * trig a b k2 th2 t)) ->
  (a' + b' + k = a + b + k1)%nat -> (k1 = k2 \/ k1 = k2 + 2)%nat ->
  exists v, circle (trig a' b' k th) v /\ (Nat.Even (a' + b' + k) -> (a' + b' + k < 2 * n)%nat -> mean n (trig a' b' k th) = v) /\ (Nat.Odd (a' + b' + k) -> v = 0).
Proof.
  intros AG E K1 K2. destruct (AG k1 th1) as (v1 & C1 & M1 & O1). destruct (AG k2 th2) as (v2 & C2 & M2 & O2). exists (/ 2 * (v1 + c * v2)). split; [|split].
  - apply (circle_ext (fun t => / 2 * (trig a b k1 th1 t + c * trig a b k2 th2 t))); [intros t; symmetry; apply E|]. apply circle_lin; auto.
  - intros EV B. rewrite (mean_ext n _ _ E), mean_lin. rewrite K1 in *. destruct EV as [q Q]. rewrite M1 by (auto; exists q; auto).
    rewrite M2; [reflexivity| |lia]. destruct K2 as [->| ->]; [exists q; lia|exists (q - 1)%nat; lia].
  - intros [q Q]. rewrite O1 by (exists q; lia). rewrite O2 by (destruct K2 as [->| ->]; [exists q; lia|exists (q - 1)%nat; lia]). ring.
Qed.
Lemma agrees_sin n b : agrees n 0 b -> agrees n 0 (S b).
Proof.
  intros AG [|k] th.
  - apply (agrees_lin n 0 b 0 (S b) 0 th 1 1 (th - PI / 2) 1 (- th - PI / 2) AG); [|lia|lia].
    intros t. unfold trig. transitivity (sin t ^ b * (sin t * cos (INR 0 * t + th))); [cbn [pow]; ring|]. rewrite sin_low. cbn [pow]. ring.
  - apply (agrees_lin n 0 b 0 (S b) (S k) th (-1) (S (S k)) (th - PI / 2) k (th - PI / 2) AG); [|lia|lia].
    intros t. unfold trig. transitivity (sin t ^ b * (sin t * cos (INR (S k) * t + th))); [cbn [pow]; ring|]. rewrite sin_up. cbn [pow]. ring.
Qed.
Lemma agrees_cos n a b : agrees n a b -> agrees n (S a) b.
Proof.
  intros AG [|k] th.
  - apply (agrees_lin n a b (S a) b 0 th 1 1 th 1 (- th) AG); [|lia|lia].
    intros t. unfold trig. transitivity (cos t ^ a * sin t ^ b * (cos t * cos (INR 0 * t + th))); [cbn [pow]; ring|]. rewrite cos_zero. ring.
  - apply (agrees_lin n a b (S a) b (S k) th 1 (S (S k)) th k th AG); [|lia|lia].
    intros t. unfold trig. transitivity (cos t ^ a * sin t ^ b * (cos t * cos (INR (S k) * t + th))); [cbn [pow]; ring|]. rewrite cos_up. ring.
Qed.
Lemma agrees_all n a b : (0 < n)%nat -> agrees n a b.
Proof. intros N. induction a as [|a IH]; [|apply agrees_cos; auto]. induction b as [|b IH]; [apply agrees_base; auto|apply agrees_sin; auto]. Qed.
(** odd functions have mean zero: the angles lie symmetrically *)
Lemma mean_odd n f : (forall t, f (- t) = - f t) -> mean n f = 0.
Proof.
  intros O. unfold mean. destruct n as [|m]; [cbn; unfold sumR; cbn; ring|]. set (n := S m). assert (NP : 0 < INR n) by (apply lt_0_INR; unfold n; lia).
  assert (E : sumR (map f (half_angles n)) = - sumR (map f (half_angles n))); [|replace (sumR (map f (half_angles n))) with 0 by lra; ring].
  rewrite <- (sum_rev (map f (half_angles n))) at 1. rewrite <- map_rev. unfold half_angles at 1. rewrite <- map_rev, rev_seq, !map_map.
  assert (OP : forall l, - sumR l = sumR (map Ropp l)).
  { induction l as [|a l IH]; unfold sumR in *; cbn; [ring|]. rewrite <- IH. ring. }
  rewrite OP. unfold half_angles. rewrite !map_map. f_equal. apply map_ext_in. intros j J. apply in_seq in J.
  rewrite <- O. f_equal. rewrite !minus_INR by lia. cbn [INR]. field. lra.
Qed.
(** the circle average of a monomial, and the mean over the rays of one ring *)
Lemma ring_mean n i b : (0 < n)%nat -> (2 * i + b < 2 * n)%nat -> circle (fun t => cos t ^ (2 * i) * sin t ^ b) (mean n (fun t => cos t ^ (2 * i) * sin t ^ b)).
Proof.
  intros N B. destruct (agrees_all n (2 * i) b N 0%nat 0) as (v & C & M & O).
  assert (E : forall t, trig (2 * i) b 0%nat 0 t = cos t ^ (2 * i) * sin t ^ b) by (intros t; unfold trig; replace (INR 0 * t + 0) with 0 by (cbn; ring); rewrite cos_0; ring).
  apply (circle_ext _ _ _ E) in C. rewrite (mean_ext n _ _ E) in M.
  destruct (Nat.Even_or_Odd b) as [[q Q]|[q Q]].
  - rewrite M; [auto|exists (i + q)%nat; lia|lia].
  - rewrite O in C by (exists (i + q)%nat; lia). rewrite mean_odd; [auto|]. intros t. rewrite cos_neg, sin_neg, Q.
    replace ((- sin t) ^ (2 * q + 1)) with (- sin t ^ (2 * q + 1)); [ring|]. rewrite !pow_add, !pow_mult. replace ((- sin t) ^ 2) with (sin t ^ 2) by ring. cbn [pow]. ring.
Qed.

(** sums over the rays are sums over the nodes of the means over the rings *)
Lemma quadrature_wsum xw : good_rule xw -> exists ref xy ws, quadrature xw = Some (ref, xy, Some ws) /\
  forall f, wsum f xy ws = wsum (fun x => mean (length (fst xw)) (fun a => f (sqrt ((x + 1) / 2) * cos a, sqrt ((x + 1) / 2) * sin a)) / 2) (fst xw) (snd xw).
Proof.
  intros (N & L & F & S). destruct (rule_radii xw F) as (r & E & B & HD). destruct xw as [x w]. cbn [fst snd] in *.
  unfold quadrature, interval_to_circle. cbn [fst snd]. rewrite (proj2 (Nat.eqb_eq _ _) L). cbn [negb]. rewrite E. cbn [obind].
  assert (RX : r = map (fun v => sqrt ((v + 1) / 2)) x).
  { clear - E F. revert r E. induction x as [|a x IH]; intros r E; cbn in E; [injection E as <-; auto|]. inversion F; subst.
    rewrite fsqrt_some in E by lra. cbn in E. destruct (mapo _ x) eqn:M; cbn in E; [|discriminate]. injection E as <-. cbn. f_equal. apply IH; auto. }
  destruct x as [|x0 x]; [contradiction|]. destruct w as [|w0 w]; [discriminate|].
  destruct (HD x0 x eq_refl) as (rt & RT). rewrite RT. cbn [map] in RX. rewrite RX in RT. injection RT as RT.
  fold (half_angles (length (x0 :: x))). set (n := length (x0 :: x)) in *. assert (NP : (0 < n)%nat) by (cbn in n; lia).
  assert (NR : 0 < INR n) by (apply lt_0_INR; auto).
  set (p := half_angles n). assert (LP : n = length p) by (unfold p; rewrite half_angles_length; auto).
  assert (LW : length w = (n - 1)%nat) by (cbn in L; unfold n; cbn; lia).
  assert (LT : length rt = (n - 1)%nat) by (rewrite <- RT, map_length; unfold n; cbn; lia).
  assert (SW : sumR (map (fun v => v / 2) (w0 :: repeat_each n (map (fun v => v / INR n) w))) = 1).
  { rewrite sum_half. unfold sumR at 1. cbn [fold_right]. fold (sumR (repeat_each n (map (fun v => v / INR n) w))). rewrite sum_each by auto.
    unfold sumR in S. cbn [fold_right] in S. fold (sumR w) in S. lra. }
  assert (SW' : sumR (map (fun v => v / 2) (repeat_each n (map (fun v => v / INR n) (w0 :: w)))) = 1).
  { rewrite sum_half, sum_each by auto. lra. }
  assert (WM : forall f xs ws, wsum (fun r => / INR n * sumR (map (fun a => f (at_polar (r, a))) p) / 2) (map (fun v => sqrt ((v + 1) / 2)) xs) ws =
    wsum (fun x => mean n (fun a => f (sqrt ((x + 1) / 2) * cos a, sqrt ((x + 1) / 2) * sin a)) / 2) xs ws).
  { intros f. induction xs as [|a xs IH]; intros [|v ws]; cbn [map]; try reflexivity. rewrite !wsum_cons, IH. reflexivity. }
  inversion F as [|? ? X0 FX]; subst.
  change (fun rp : R * R => (fst rp * cos (snd rp), fst rp * sin (snd rp))) with at_polar.
  destruct (Req_EM_T (sqrt ((x0 + 1) / 2)) 0) as [Z|Z].
  - destruct (Req_EM_T _ 1) as [_|X]; [|contradiction]. cbn [obind]. do 3 eexists. split; [reflexivity|]. intros f.
    replace (n - 1)%nat with (length (map (fun v => sqrt ((v + 1) / 2)) x)) by (rewrite map_length; unfold n; cbn; lia).
    cbn [combine map]. rewrite !wsum_cons.
    rewrite (wsum_rings f n p LP) by (rewrite map_length; unfold n in *; cbn in *; lia). rewrite WM. f_equal.
    rewrite Z. unfold at_polar. cbn [fst snd].
    rewrite (mean_ext n _ (fun _ => f (0, 0))) by (intros a; rewrite !Rmult_0_l; reflexivity). rewrite !Rmult_0_l. unfold mean.
    assert (C : forall l : list R, sumR (map (fun _ => f (0, 0)) l) = INR (length l) * f (0, 0)).
    { induction l as [|y l IH]; [unfold sumR; cbn; ring|]. cbn [length map]. rewrite S_INR. unfold sumR in *. cbn [fold_right]. rewrite IH. ring. }
    rewrite C, half_angles_length. field. lra.
  - destruct (Req_EM_T _ 1) as [_|X]; [|contradiction]. cbn [obind]. do 3 eexists. split; [reflexivity|]. intros f.
    change (sqrt ((x0 + 1) / 2) :: map (fun v => sqrt ((v + 1) / 2)) x) with (map (fun v => sqrt ((v + 1) / 2)) (x0 :: x)).
    replace (concat_n n p) with (concat_n (length (map (fun v => sqrt ((v + 1) / 2)) (x0 :: x))) p) by (rewrite map_length; auto).
    rewrite (wsum_rings f n p LP) by (rewrite map_length; auto). apply WM.
Qed.

(** powers of (x + 1) / 2 as polynomials *)
Fixpoint half_power (k : nat) : list R := match k with O => [1] | S k => pscale (/ 2) (padd (half_power k) (0 :: half_power k)) end.
Lemma half_power_length k : length (half_power k) = S k.
Proof. induction k as [|k IH]; [reflexivity|]. cbn [half_power]. rewrite pscale_length, padd_length. cbn [length]. rewrite IH. lia. Qed.
Lemma half_power_eval k x : poly (half_power k) x = ((x + 1) / 2) ^ k.
Proof. rewrite poly_eval. induction k as [|k IH]; [cbn; ring|]. cbn [half_power]. rewrite peval_scale, peval_add, peval_cons, IH. cbn [pow]. field. Qed.
Lemma half_power_primitive k x : derivable_pt_lim (fun x => 2 / INR (S k) * ((x + 1) / 2) ^ S k) x (poly (half_power k) x).
Proof.
  rewrite half_power_eval. assert (KP : INR (S k) <> 0) by (apply not_0_INR; lia).
  replace (((x + 1) / 2) ^ k) with (2 / INR (S k) * (INR (S k) * ((x + 1) / 2) ^ pred (S k) * / 2)) by (cbn [pred]; field; auto).
  apply (derivable_pt_lim_scal (fun x => ((x + 1) / 2) ^ S k)). apply (derivable_pt_lim_comp (fun x => (x + 1) / 2) (fun y => y ^ S k)); [|apply derivable_pt_lim_pow].
  assert (X : derivable_pt_lim (plus_fct (mult_real_fct (/ 2) id) (fct_cte (/ 2))) x (/ 2 * 1 + 0)) by (apply derivable_pt_lim_plus; [apply derivable_pt_lim_scal, derivable_pt_lim_id|apply derivable_pt_lim_const]).
  rewrite Rmult_1_r, Rplus_0_r in X. intros eps EP. destruct (X eps EP) as (d & Q). exists d. intros h H1 H2. specialize (Q h H1 H2).
  unfold plus_fct, mult_real_fct, fct_cte, id in Q. replace (((x + h + 1) / 2 - (x + 1) / 2) / h - / 2) with ((/ 2 * (x + h) + / 2 - (/ 2 * x + / 2)) / h - / 2) by (field; auto). exact Q.
Qed.
Lemma wsum_lin (c : R) (f : R -> R) xs : forall ws, wsum (fun x => c * f x) xs ws = c * wsum f xs ws.
Proof. induction xs as [|x xs IH]; intros [|w ws]; try (unfold wsum, sumR; cbn; ring). rewrite !wsum_cons, IH. ring. Qed.
Lemma wsum_ext {A} (f g : A -> R) xs : (forall x, In x xs -> f x = g x) -> forall ws, wsum f xs ws = wsum g xs ws.
Proof.
  induction xs as [|x xs IH]; intros H [|w ws]; try reflexivity. rewrite !wsum_cons, IH, (H x (or_introl eq_refl)); [reflexivity|]. intros y Y. apply H. right. auto.
Qed.
(** a polynomial that is even in x, as a list of terms c x^(2 i) y^b *)
Definition value (ts : list (R * nat * nat)) (p : R * R) : R :=
  fold_right (fun t s => (let '(c, i, b) := t in c * (fst p ^ (2 * i) * snd p ^ b)) + s) 0 ts.
Lemma disc_monomial xs ws n ref xy vs i b : good_rule (xs, ws) -> length xs = n -> (0 < n)%nat ->
  (forall c F, (length c <= n)%nat -> (forall x, derivable_pt_lim F x (poly c x)) -> wsum (poly c) xs ws = F 1 - F (-1)) ->
  quadrature (xs, ws) = Some (ref, xy, Some vs) -> (2 * i + b < 2 * n)%nat ->
  disc_average (fun p => fst p ^ (2 * i) * snd p ^ b) (wsum (fun p => fst p ^ (2 * i) * snd p ^ b) xy vs).
Proof.
  intros G LX N EX Q B. destruct (quadrature_wsum _ G) as (ref' & xy' & vs' & Q' & W). rewrite Q in Q'. injection Q' as <- <- <-. cbn [fst snd] in W. rewrite W, LX. clear W.
  pose proof (ring_mean n i b N B) as (H & HD & HV). set (mu := mean n (fun t => cos t ^ (2 * i) * sin t ^ b)) in *.
  assert (MM : forall r, mean n (fun a => (r * cos a) ^ (2 * i) * (r * sin a) ^ b) = r ^ (2 * i + b) * mu).
  { intros r. unfold mu, mean. rewrite (map_ext _ (fun a => r ^ (2 * i + b) * (cos a ^ (2 * i) * sin a ^ b))) by (intros a; rewrite !Rpow_mult_distr, pow_add; ring).
    assert (C : forall l, sumR (map (fun a => r ^ (2 * i + b) * (cos a ^ (2 * i) * sin a ^ b)) l) = r ^ (2 * i + b) * sumR (map (fun a => cos a ^ (2 * i) * sin a ^ b) l)).
    { unfold sumR. induction l as [|a l IH]; cbn [map fold_right]; [ring|]. rewrite IH. ring. }
    rewrite C. ring. }
  assert (E : wsum (fun x => mean n (fun a => (sqrt ((x + 1) / 2) * cos a) ^ (2 * i) * (sqrt ((x + 1) / 2) * sin a) ^ b) / 2) xs ws = mu * (2 / INR (2 * i + b + 2))).
  { destruct (Nat.Even_or_Odd b) as [[q Qe]|[q Qo]].
    - destruct G as (_ & _ & FX & _). cbn [fst] in FX. rewrite Forall_forall in FX. set (k := (i + q)%nat).
      rewrite (wsum_ext _ (fun x => mu / 2 * poly (half_power k) x)).
      + assert (HL : (length (half_power k) <= n)%nat) by (rewrite half_power_length; unfold k; lia). rewrite wsum_lin, (EX _ _ HL (half_power_primitive k)).
        replace (2 * i + b + 2)%nat with (2 * S k)%nat by (unfold k; lia). rewrite mult_INR. replace ((1 + 1) / 2) with 1 by field. replace ((-1 + 1) / 2) with 0 by field.
        rewrite pow1, pow_i by lia. replace (INR 2) with 2 by (cbn; ring). field. apply not_0_INR. lia.
      + intros x X. rewrite MM, half_power_eval. replace (2 * i + b)%nat with (2 * k)%nat by (unfold k; lia). rewrite pow_mult. replace (sqrt ((x + 1) / 2) ^ 2) with ((x + 1) / 2); [field|].
        rewrite <- Rsqr_pow2, Rsqr_sqrt; [reflexivity|]. specialize (FX x X). lra.
    - assert (M0 : mu = 0).
      { unfold mu. apply mean_odd. intros t. rewrite cos_neg, sin_neg, Qo.
        replace ((- sin t) ^ (2 * q + 1)) with (- sin t ^ (2 * q + 1)); [ring|]. rewrite !pow_add, !pow_mult. replace ((- sin t) ^ 2) with (sin t ^ 2) by ring. cbn [pow]. ring. }
      rewrite (wsum_ext _ (fun x => 0 * x)) by (intros x X; rewrite MM, M0; field). rewrite wsum_lin, M0. ring. }
  cbn [fst snd]. rewrite E. set (d := INR (2 * i + b + 2)). assert (DP : d <> 0) by (apply not_0_INR; lia).
  exists (fun a => mult_real_fct (cos a ^ (2 * i) * sin a ^ b / d) (fun r => r ^ (2 * i + b + 2))), (mult_real_fct (/ d) H). split; [|split].
  - intros a r. cbn [fst snd]. rewrite !Rpow_mult_distr.
    replace (r ^ (2 * i) * cos a ^ (2 * i) * (r ^ b * sin a ^ b) * r) with (cos a ^ (2 * i) * sin a ^ b / d * (INR (2 * i + b + 2) * r ^ pred (2 * i + b + 2))).
    + apply derivable_pt_lim_scal, derivable_pt_lim_pow.
    + fold d. replace (pred (2 * i + b + 2)) with (2 * i + b + 1)%nat by lia. rewrite !pow_add, pow_1. field. auto.
  - intros a. unfold mult_real_fct at 2 3. rewrite pow1, pow_i by lia. replace (cos a ^ (2 * i) * sin a ^ b / d * 1 - cos a ^ (2 * i) * sin a ^ b / d * 0) with (/ d * (cos a ^ (2 * i) * sin a ^ b)) by (field; auto).
    apply derivable_pt_lim_scal. auto.
  - unfold mult_real_fct. rewrite HV. pose proof PI_neq0. field. auto.
Qed.
(** both patterns: the weighted sum over the rays of any polynomial that is even in x and of degree
    below 2 n is its average over the disc *)
Theorem C93_disc roots n xw : finds_roots roots n ->
  (1 <= n)%nat /\ gr_roots roots n = Some xw \/ (2 <= n)%nat /\ gl_roots roots n = Some xw ->
  exists ref xy ws, quadrature xw = Some (ref, xy, Some ws) /\
  forall ts, Forall (fun t => let '(_, i, b) := t in (2 * i + b < 2 * n)%nat) ts -> disc_average (value ts) (wsum (value ts) xy ws).
Proof.
  intros FR H.
  assert (R : exists xs ws, xw = (xs, ws) /\ good_rule xw /\ length xs = n /\ (0 < n)%nat /\
    forall c F, (length c <= n)%nat -> (forall x, derivable_pt_lim F x (poly c x)) -> wsum (poly c) xs ws = F 1 - F (-1)).
  { assert (W : forall l, Forall (fun x => -1 < x < 1) l -> Forall (fun x => -1 <= x <= 1) l) by (intros l; apply Forall_impl; intros; lra).
    destruct H as [[N E]|[N E]].
    - destruct (C93_radau roots n FR N) as (x1 & w1 & E1 & L1 & M1 & _ & B1 & _ & S1). rewrite E in E1. injection E1 as ->. exists (-1 :: x1), w1. split; [auto|].
      split; [|split; [auto|split; [lia|intros c F L; apply S1; lia]]].
      split; [discriminate|]. split; [cbn [fst snd]; lia|]. split; [constructor; [lra|auto]|]. cbn [snd]. apply (sum_two (-1 :: x1) w1 n L1 M1). intros c F L. apply S1. lia.
    - destruct (C93_lobatto roots n FR N) as (x2 & w2 & E2 & L2 & M2 & _ & B2 & _ & S2). rewrite E in E2. injection E2 as ->. exists (-1 :: x2 ++ [1]), w2. split; [auto|].
      split; [|split; [auto|split; [lia|intros c F L; apply S2; lia]]].
      split; [discriminate|]. split; [cbn [fst snd]; lia|]. split; [constructor; [lra|apply Forall_app; split; [auto|constructor; [lra|constructor]]]|].
      cbn [snd]. apply (sum_two (-1 :: x2 ++ [1]) w2 n L2 M2). intros c F L. apply S2. lia. }
  destruct R as (xs & ws & -> & G & L & N & EX). destruct (quadrature_wsum _ G) as (ref & xy & vs & Q & _). exists ref, xy, vs. split; [auto|].
  induction ts as [|[[c i] b] ts IH]; intros FT.
  - replace (wsum (value []) xy vs) with 0; [apply average_zero|]. unfold value. cbn [fold_right]. symmetry. generalize vs. clear. induction xy as [|p xy IH]; intros [|v vs]; try reflexivity. rewrite wsum_cons, IH. ring.
  - inversion FT as [|? ? B FT']; subst. specialize (IH FT').
    assert (E : wsum (value ((c, i, b) :: ts)) xy vs = c * wsum (fun p => fst p ^ (2 * i) * snd p ^ b) xy vs + wsum (value ts) xy vs).
    { generalize vs. clear. induction xy as [|p xy IH]; intros [|v vs]; try (unfold wsum, sumR; cbn; ring). rewrite !wsum_cons, IH. unfold value at 1. cbn [fold_right]. fold (value ts p). ring. }
    rewrite E. apply (average_plus (fun p => c * (fst p ^ (2 * i) * snd p ^ b))); [|exact IH]. apply average_scale.
    eapply disc_monomial; eauto.
Qed.
(** three rings: the average of y^2 over the disc is 1/4, and so is the sum over the rays; terms to degree 5 *)
Example C93_disc_example : exists xw ref xy ws, gr_roots roots2 3 = Some xw /\ quadrature xw = Some (ref, xy, Some ws) /\
  wsum (value [(1, 0%nat, 2%nat)]) xy ws = 1 / 4 /\
  disc_average (value [(1, 0%nat, 4%nat); (2, 1%nat, 3%nat)]) (wsum (value [(1, 0%nat, 4%nat); (2, 1%nat, 3%nat)]) xy ws).
Proof.
  assert (N3 : (1 <= 3)%nat) by lia. destruct (C93_radau roots2 3 roots2_finds N3) as (xs & w & E & _).
  destruct (C93_disc roots2 3 _ roots2_finds (or_introl (conj N3 E))) as (ref & xy & ws & Q & A).
  exists (-1 :: xs, w), ref, xy, ws. split; [auto|]. split; [auto|]. split; [|apply A; repeat constructor].
  apply (C93_average_unique (value [(1, 0%nat, 2%nat)])); [apply A; repeat constructor|].
  exists (fun a => mult_real_fct (sin a ^ 2 / 4) (fun r => r ^ 4)), (mult_real_fct (/ 8) (minus_fct id (mult_fct sin cos))). split; [|split].
  - intros a r. replace (value [(1, 0%nat, 2%nat)] (r * cos a, r * sin a) * r) with (sin a ^ 2 / 4 * (INR 4 * r ^ pred 4)) by (unfold value; cbn; field).
    apply derivable_pt_lim_scal, derivable_pt_lim_pow.
  - intros a. unfold mult_real_fct at 2 3. replace (sin a ^ 2 / 4 * 1 ^ 4 - sin a ^ 2 / 4 * 0 ^ 4) with (/ 8 * (1 - (cos a * cos a + sin a * - sin a))).
    + apply derivable_pt_lim_scal, derivable_pt_lim_minus; [apply derivable_pt_lim_id|]. apply derivable_pt_lim_mult; [apply derivable_pt_lim_sin|apply derivable_pt_lim_cos].
    + pose proof (sin2_cos2 a) as SC. unfold Rsqr in SC. replace (cos a * cos a) with (1 - sin a * sin a) by lra. field.
  - unfold mult_real_fct, minus_fct, mult_fct, id. rewrite sin_2PI, sin_0. pose proof PI_neq0. field. auto.
Qed.
(** the patterns of [pupil_distribution] for N rays: exact where the square of the degree is at most 4 N *)
Lemma trunc_floor x (n : nat) : INR n <= x < INR n + 1 -> trunc x = n.
Proof.
  intros [A B]. unfold trunc. replace (Int_part x) with (Z.of_nat n); [apply Nat2Z.id|]. unfold Int_part.
  assert (U : up x = (Z.of_nat n + 1)%Z); [|lia]. symmetry. apply tech_up; rewrite plus_IZR, <- INR_IZR_INZ; lra.
Qed.
Theorem C93_pupil roots rand gr gl d N n : d = Radau \/ d = Lobatto -> (2 <= N)%nat ->
  INR n <= sqrt (INR N) + 1 < INR n + 1 -> finds_roots roots n -> gr_roots roots n = Some (gr n) -> gl_roots roots n = Some (gl n) ->
  exists ref xy ws, pupil_distribution rand gr gl d N = Some (ref, xy, Some ws) /\
  forall ts, Forall (fun t => let '(_, i, b) := t in ((2 * i + b) ^ 2 <= 4 * N)%nat) ts -> disc_average (value ts) (wsum (value ts) xy ws).
Proof.
  intros DD N2 FL FR EG EL. assert (NP : 2 <= INR N) by (change 2 with (INR 2); apply le_INR; auto).
  assert (SQ : sqrt (INR N) * sqrt (INR N) = INR N) by (apply sqrt_sqrt; lra). pose proof (sqrt_pos (INR N)) as SP.
  assert (NN : (2 <= n)%nat).
  { assert (1 < sqrt (INR N)) by nra. assert (1 < INR n) by lra. replace 1 with (INR 1) in H0 by reflexivity. apply INR_lt in H0. lia. }
  assert (DG : forall m, (m ^ 2 <= 4 * N)%nat -> (m < 2 * n)%nat).
  { intros m M. apply INR_lt. rewrite mult_INR. replace (INR 2) with 2 by (cbn; ring). apply le_INR in M. rewrite pow_INR, mult_INR in M. replace (INR 4) with 4 in M by (cbn; ring).
    pose proof (pos_INR m) as MP. assert (INR m <= 2 * sqrt (INR N)) by nra. lra. }
  destruct (C93_disc roots n (match d with Lobatto => gl n | _ => gr n end) FR) as (ref & xy & ws & Q & A); [destruct DD as [->| ->]; [left|right]; (split; [lia|auto])|].
  exists ref, xy, ws. split.
  - unfold pupil_distribution. destruct (Nat.eqb_spec N 1); [lia|]. rewrite (trunc_floor _ n FL). destruct DD as [->| ->]; auto.
  - intros ts FT. apply A. eapply Forall_impl; [|exact FT]. intros [[c i] b] T. apply DG. auto.
Qed.
(** only polynomials even in x: the rays cover the half of the pupil with x >= 0, and x itself, of average zero, has a positive sum *)
Theorem C93_half_refuted : exists xw ref xy ws, gr_roots roots2 2 = Some xw /\ quadrature xw = Some (ref, xy, Some ws) /\
  0 < wsum fst xy ws /\ disc_average fst 0.
Proof.
  assert (F2 : finds_roots roots2 2) by (intros p rs L; apply roots2_finds; lia). assert (N2 : (2 <= 2)%nat) by lia.
  destruct (C93_radau roots2 2 F2 ltac:(lia)) as (xs & w & E & L1 & L2 & _ & B & P & _).
  destruct (C93_rules roots2 2 F2 N2) as (r & l & E' & _ & G & _). rewrite E in E'. injection E' as <-.
  destruct (quadrature_wsum _ G) as (ref & xy & ws & Q & W). exists (-1 :: xs, w), ref, xy, ws. split; [auto|]. split; [auto|]. split.
  - rewrite W. cbn [fst snd]. destruct xs as [|x [|? ?]]; try discriminate. destruct w as [|w0 [|w1 [|? ?]]]; try discriminate. inversion_clear B as [|? ? BX _]. inversion_clear P as [|? ? _ P1]. inversion_clear P1 as [|? ? PW _].
    rewrite !wsum_cons. unfold wsum, sumR. cbn [combine map fold_right length]. replace ((-1 + 1) / 2) with 0 by field. rewrite sqrt_0.
    rewrite (mean_ext 2 (fun a => 0 * cos a) (fun a => sin (0 * a))) by (intros a; rewrite !Rmult_0_l, sin_0; auto). rewrite (mean_odd 2 (fun a => sin (0 * a))) by (intros t; rewrite <- sin_neg; f_equal; ring).
    assert (S0 : 0 < sqrt ((x + 1) / 2)) by (apply sqrt_lt_R0; lra).
    assert (M : 0 < mean 2 (fun a => sqrt ((x + 1) / 2) * cos a)).
    { unfold mean, half_angles, sumR. cbn [seq map fold_right]. assert (C : forall t, - (1 / 2) < t < 1 / 2 -> 0 < cos (PI * t)) by (intros t T; pose proof PI_RGT_0; apply cos_gt_0; nra).
      replace (INR 2) with 2 by (cbn; ring). cbn [INR]. assert (C0 := C ((0 + / 2) / 2 - / 2)). assert (C1 := C ((1 + / 2) / 2 - / 2)). apply Rmult_lt_0_compat; [lra|].
      assert (0 < sqrt ((x + 1) / 2) * cos (PI * ((0 + / 2) / 2 - / 2))) by (apply Rmult_lt_0_compat; [auto|apply C0; lra]).
      assert (0 < sqrt ((x + 1) / 2) * cos (PI * ((1 + / 2) / 2 - / 2))) by (apply Rmult_lt_0_compat; [auto|apply C1; lra]). lra. }
    assert (0 < w1 * (mean 2 (fun a => sqrt ((x + 1) / 2) * cos a) / 2)) by (apply Rmult_lt_0_compat; lra). lra.
  - exists (fun a => mult_real_fct (cos a / 3) (fun r => r ^ 3)), (mult_real_fct (/ 3) sin). split; [|split].
    + intros a r. cbn [fst]. replace (r * cos a * r) with (cos a / 3 * (INR 3 * r ^ pred 3)) by (cbn; field). apply derivable_pt_lim_scal, derivable_pt_lim_pow.
    + intros a. unfold mult_real_fct at 2 3. replace (cos a / 3 * 1 ^ 3 - cos a / 3 * 0 ^ 3) with (/ 3 * cos a) by field. apply derivable_pt_lim_scal, derivable_pt_lim_sin.
    + unfold mult_real_fct. rewrite sin_2PI, sin_0. pose proof PI_neq0. field. auto.
Qed.
(** five rays: three rings *)
Example C93_pupil_example : INR 3 <= sqrt (INR 5) + 1 < INR 3 + 1 /\ ((2 * 1 + 2) ^ 2 <= 4 * 5)%nat.
Proof.
  split; [|cbn; lia]. assert (Q : sqrt (INR 5) * sqrt (INR 5) = 5) by (rewrite sqrt_sqrt; cbn; lra). pose proof (sqrt_pos (INR 5)). set (s := sqrt (INR 5)) in *. cbn [INR]. split; nra.
Qed.
