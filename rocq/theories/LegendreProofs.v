(** Legendre polynomials: recurrences, orthogonality, kernel, zeros (for C93). *)
From Coq Require Import Reals List Lra Lia Psatz Arith.
From Verif Require Import Base SampleModel LegendreModel.
Import ListNotations.
Open Scope R_scope.

(** * polynomials *)
Lemma peval_add p : forall q x, peval (padd p q) x = peval p x + peval q x.
Proof. induction p as [|a p IH]; intros [|b q] x; cbn; try ring. change (a + b + x * peval (padd p q) x = a + x * peval p x + (b + x * peval q x)). rewrite IH. ring. Qed.
Lemma peval_scale c p x : peval (pscale c p) x = c * peval p x.
Proof. induction p as [|a p IH]; cbn; [ring|]. change (c * a + x * peval (pscale c p) x = c * (a + x * peval p x)). rewrite IH. ring. Qed.
Lemma peval_cons c p x : peval (c :: p) x = c + x * peval p x.
Proof. reflexivity. Qed.
Lemma padd_length p : forall q, length (padd p q) = Nat.max (length p) (length q).
Proof. induction p as [|a p IH]; intros [|b q]; cbn; auto. Qed.
Lemma pscale_length c p : length (pscale c p) = length p.
Proof. apply map_length. Qed.
Lemma pquot_length a p : length (pquot a p) = (length p - 1)%nat.
Proof. induction p as [|b p IH]; [reflexivity|]. cbn [pquot]. destruct p; [reflexivity|]. cbn [length] in *. rewrite IH. lia. Qed.
Lemma pquot_eval a p x : peval p x = (x - a) * peval (pquot a p) x + peval p a.
Proof.
  induction p as [|b p IH]; [cbn; ring|]. cbn [pquot]. destruct p as [|c p]; [cbn; ring|]. set (q := c :: p) in *.
  rewrite !peval_cons. rewrite IH at 1. ring.
Qed.
Lemma pderiv_length p : length (pderiv p) = (length p - 1)%nat.
Proof. induction p as [|b p IH]; [reflexivity|]. cbn [pderiv]. destruct p; [reflexivity|]. rewrite padd_length. cbn [length] in *. rewrite IH. lia. Qed.
Lemma pderiv_eval c p x : peval (pderiv (c :: p)) x = peval p x + x * peval (pderiv p) x.
Proof. cbn [pderiv]. destruct p as [|d p]; [cbn; ring|]. set (q := d :: p). rewrite peval_add, peval_cons. ring. Qed.
Lemma peval_derivable p x : derivable_pt_lim (peval p) x (peval (pderiv p) x).
Proof.
  induction p as [|c p IH]; [apply (derivable_pt_lim_const 0)|]. rewrite pderiv_eval.
  change (peval (c :: p)) with (plus_fct (fct_cte c) (mult_fct id (peval p))).
  replace (peval p x + x * peval (pderiv p) x) with (0 + (1 * peval p x + id x * peval (pderiv p) x)) by (unfold id; ring).
  apply derivable_pt_lim_plus; [apply derivable_pt_lim_const|]. apply derivable_pt_lim_mult; [apply derivable_pt_lim_id|auto].
Qed.
Lemma peval_continuity p : continuity (peval p).
Proof. intros x. apply derivable_continuous_pt. exists (peval (pderiv p) x). apply peval_derivable. Qed.
(** product of linear factors *)
Definition prodr (xs : list R) (x : R) : R := fold_right (fun r acc => (x - r) * acc) 1 xs.
Lemma prodr_cons r xs x : prodr (r :: xs) x = (x - r) * prodr xs x. Proof. reflexivity. Qed.
Lemma prodr_app xs ys x : prodr (xs ++ ys) x = prodr xs x * prodr ys x.
Proof. induction xs as [|r xs IH]; cbn [app]; [cbn; ring|]. rewrite !prodr_cons, IH. ring. Qed.
Lemma prodr_zero xs x : prodr xs x = 0 <-> In x xs.
Proof.
  induction xs as [|r xs IH]; [cbn; split; [lra|tauto]|]. rewrite prodr_cons. cbn [In]. rewrite <- IH. split.
  - intros H. apply Rmult_integral in H. destruct H; [left; lra|auto].
  - intros [->|H]; [ring|rewrite H; ring].
Qed.
Lemma vanish xs : NoDup xs -> forall p, (forall r, In r xs -> peval p r = 0) ->
  exists q, (length q <= length p - length xs)%nat /\ forall x, peval p x = prodr xs x * peval q x.
Proof.
  induction 1 as [|r xs NI _ IH]; intros p Z.
  - exists p. split; [cbn; lia|]. intros x. cbn. ring.
  - destruct (IH (pquot r p)) as (q & L & E).
    + intros s S. assert (peval p s = 0) by (apply Z; right; auto). rewrite (pquot_eval r) in H. rewrite (Z r (or_introl eq_refl)) in H.
      assert (s - r <> 0) by (intros X; apply NI; replace r with s by lra; auto). rewrite Rplus_0_r in H. apply Rmult_integral in H. tauto.
    + exists q. split; [rewrite pquot_length in L; cbn [length]; lia|]. intros x. rewrite (pquot_eval r p x), E, (Z r (or_introl eq_refl)), prodr_cons. ring.
Qed.

(** * integrals over [-1, 1], by the primitive *)
Definition integral (f : R -> R) (v : R) : Prop := exists F, (forall x, derivable_pt_lim F x (f x)) /\ v = F 1 - F (-1).
Lemma primitive_unique f F G : (forall x, derivable_pt_lim F x (f x)) -> (forall x, derivable_pt_lim G x (f x)) -> forall a b, F b - F a = G b - G a.
Proof.
  intros HF HG. assert (D : forall x, derivable_pt_lim (minus_fct F G) x 0).
  { intros x. replace 0 with (f x - f x) by ring. apply derivable_pt_lim_minus; auto. }
  assert (N : forall a b, minus_fct F G a = minus_fct F G b).
  { set (pr := fun x => exist (fun l => derivable_pt_lim (minus_fct F G) x l) 0 (D x) : derivable_pt (minus_fct F G) x).
    apply (null_derivative_1 (minus_fct F G) pr). intros x. reflexivity. }
  intros a b. specialize (N a b). unfold minus_fct in N. lra.
Qed.
Lemma integral_unique f u v : integral f u -> integral f v -> u = v.
Proof. intros (F & HF & ->) (G & HG & ->). eapply primitive_unique; eauto. Qed.
Lemma integral_ext f g v : (forall x, f x = g x) -> integral f v -> integral g v.
Proof. intros E (F & H & ->). exists F. split; [|auto]. intros x. rewrite <- E. auto. Qed.
Lemma integral_plus f g u v : integral f u -> integral g v -> integral (fun x => f x + g x) (u + v).
Proof. intros (F & HF & ->) (G & HG & ->). exists (plus_fct F G). split; [intros x; apply derivable_pt_lim_plus; auto|]. unfold plus_fct. ring. Qed.
Lemma integral_scale c f u : integral f u -> integral (fun x => c * f x) (c * u).
Proof. intros (F & HF & ->). exists (mult_real_fct c F). split; [intros x; apply derivable_pt_lim_scal; auto|]. unfold mult_real_fct. ring. Qed.
Lemma integral_zero : integral (fun _ => 0) 0.
Proof. exists (fct_cte 0). split; [intros x; apply derivable_pt_lim_const|]. unfold fct_cte. ring. Qed.

(** * Legendre polynomials *)
Definition P (n : nat) (x : R) : R := peval (legendre n) x.
Definition D (n : nat) (x : R) : R := peval (pderiv (legendre n)) x.
Lemma pair_snd n : snd (legendre_pair (S n)) = legendre n.
Proof. unfold legendre. cbn [legendre_pair]. destruct (legendre_pair n). reflexivity. Qed.
Lemma legendre_step n : legendre (S n) = pscale (/ (INR n + 1)) (padd (pscale (2 * INR n + 1) (0 :: legendre n)) (pscale (- INR n) (snd (legendre_pair n)))).
Proof. unfold legendre. cbn [legendre_pair]. destruct (legendre_pair n). reflexivity. Qed.
Lemma legendre_length n : length (legendre n) = S n.
Proof.
  assert (G : length (legendre n) = S n /\ length (snd (legendre_pair n)) = n); [|tauto].
  induction n as [|n [A B]]; [split; reflexivity|]. split; [|rewrite pair_snd; auto].
  rewrite legendre_step, pscale_length, padd_length, !pscale_length. cbn [length]. rewrite A, B. lia.
Qed.
Lemma P0 x : P 0 x = 1. Proof. unfold P. cbn. ring. Qed.
Lemma P1 x : P 1 x = x. Proof. unfold P. cbn. field. Qed.
Lemma D0 x : D 0 x = 0. Proof. reflexivity. Qed.
Lemma D1 x : D 1 x = 1. Proof. unfold D. cbn. field. Qed.
Lemma P_rec n x : (INR n + 2) * P (S (S n)) x = (2 * INR n + 3) * (x * P (S n) x) - (INR n + 1) * P n x.
Proof.
  unfold P. rewrite (legendre_step (S n)), pair_snd, peval_scale, peval_add, !peval_scale, peval_cons, S_INR.
  pose proof (pos_INR n). field. lra.
Qed.
Lemma P_derivable n x : derivable_pt_lim (P n) x (D n x).
Proof. apply peval_derivable. Qed.
Lemma derivable_unique f x a b : derivable_pt_lim f x a -> derivable_pt_lim f x b -> a = b.
Proof. apply uniqueness_limite. Qed.
Lemma D_rec n x : (INR n + 2) * D (S (S n)) x = (2 * INR n + 3) * (P (S n) x + x * D (S n) x) - (INR n + 1) * D n x.
Proof.
  apply (derivable_unique (fun x => (INR n + 2) * P (S (S n)) x) x).
  - apply (derivable_pt_lim_scal (P (S (S n)))). apply P_derivable.
  - assert (H : derivable_pt_lim (minus_fct (mult_real_fct (2 * INR n + 3) (mult_fct id (P (S n)))) (mult_real_fct (INR n + 1) (P n))) x
      ((2 * INR n + 3) * (1 * P (S n) x + id x * D (S n) x) - (INR n + 1) * D n x)).
    { apply derivable_pt_lim_minus; apply derivable_pt_lim_scal; [apply derivable_pt_lim_mult; [apply derivable_pt_lim_id|]|]; apply P_derivable. }
    unfold id at 2 in H. rewrite Rmult_1_l in H. intros eps E. destruct (H eps E) as (d & Q). exists d. intros h H1 H2. specialize (Q h H1 H2).
    unfold minus_fct, mult_real_fct, mult_fct, id in Q. rewrite !P_rec. exact Q.
Qed.
Lemma AB n x : D (S n) x = x * D n x + (INR n + 1) * P n x /\ x * D (S n) x - D n x = (INR n + 1) * P (S n) x.
Proof.
  induction n as [|n [A B]]; [rewrite D0, D1, P0, P1; cbn; split; ring|]. pose proof (pos_INR n) as N. rewrite S_INR.
  pose proof (D_rec n x) as DR. pose proof (P_rec n x) as PR.
  assert (A' : D (S (S n)) x = x * D (S n) x + (INR n + 1 + 1) * P (S n) x).
  { apply (Rmult_eq_reg_l (INR n + 2)); [|lra]. rewrite DR. replace (D n x) with (x * D (S n) x - (INR n + 1) * P (S n) x) by lra. ring. }
  split; [exact A'|]. rewrite A'. replace ((INR n + 1 + 1) * P (S (S n)) x) with ((INR n + 2) * P (S (S n)) x) by ring. rewrite PR.
  replace (x * (x * D (S n) x + (INR n + 1 + 1) * P (S n) x) - D (S n) x) with (x * (x * D (S n) x) + (INR n + 2) * (x * P (S n) x) - D (S n) x) by ring.
  replace (x * D (S n) x) with (D n x + (INR n + 1) * P (S n) x) by lra. rewrite A. ring.
Qed.
Lemma D_diff n x : D (S (S n)) x - D n x = (2 * INR n + 3) * P (S n) x.
Proof. destruct (AB n x) as [_ B]. destruct (AB (S n) x) as [A _]. rewrite S_INR in A. rewrite A. lra. Qed.
Lemma ODE1 n x : (1 - x ^ 2) * D (S n) x = (INR n + 1) * (P n x - x * P (S n) x).
Proof.
  destruct (AB n x) as [A B]. replace ((1 - x ^ 2) * D (S n) x) with (D (S n) x - x * (x * D (S n) x)) by ring.
  replace (x * D (S n) x) with (D n x + (INR n + 1) * P (S n) x) by lra. rewrite A. ring.
Qed.
Lemma ODE2 n x : (1 - x ^ 2) * D n x = (INR n + 1) * (x * P n x - P (S n) x).
Proof.
  destruct (AB n x) as [A B]. replace ((1 - x ^ 2) * D n x) with (D n x - x * (x * D n x)) by ring.
  replace (x * D n x) with (D (S n) x - (INR n + 1) * P n x) by lra.
  replace (D n x) with (x * D (S n) x - (INR n + 1) * P (S n) x) by lra. ring.
Qed.
Lemma P_one n : P n 1 = 1 /\ P (S n) 1 = 1.
Proof.
  induction n as [|n [A B]]; [rewrite P0, P1; auto|]. split; [auto|]. pose proof (pos_INR n). pose proof (P_rec n 1) as R. rewrite A, B in R.
  apply (Rmult_eq_reg_l (INR n + 2)); lra.
Qed.
Lemma P_minus n : P n (-1) = (-1) ^ n /\ P (S n) (-1) = (-1) ^ S n.
Proof.
  induction n as [|n [A B]]; [rewrite P0, P1; cbn; split; lra|]. split; [auto|]. pose proof (pos_INR n). pose proof (P_rec n (-1)) as R. rewrite A, B in R.
  apply (Rmult_eq_reg_l (INR n + 2)); [|lra]. rewrite R. cbn [pow]. ring.
Qed.
Lemma D_one n : D n 1 = INR n * (INR n + 1) / 2.
Proof. induction n as [|n IH]; [rewrite D0; cbn; lra|]. destruct (AB n 1) as [A _]. rewrite A, IH, (proj1 (P_one n)), S_INR. lra. Qed.
Lemma P_integral n : integral (P (S n)) 0.
Proof.
  exists (mult_real_fct (/ (2 * INR n + 3)) (minus_fct (P (S (S n))) (P n))). pose proof (pos_INR n) as N. split.
  - intros x. replace (P (S n) x) with (/ (2 * INR n + 3) * (D (S (S n)) x - D n x)) by (rewrite D_diff; field; lra).
    apply derivable_pt_lim_scal, derivable_pt_lim_minus; apply P_derivable.
  - unfold mult_real_fct, minus_fct. rewrite !(proj1 (P_one _)), !(proj1 (P_minus _)). cbn [pow]. ring.
Qed.
Lemma P_orth m : forall k, (m < k)%nat -> integral (fun x => x ^ m * P k x) 0.
Proof.
  induction m as [|m IH]; intros k L.
  - destruct k as [|k]; [lia|]. apply (integral_ext (P (S k))); [intros x; cbn; ring|]. apply P_integral.
  - destruct k as [|[|k]]; [lia|lia|]. pose proof (pos_INR (S k)) as N.
    apply (integral_ext (fun x => (INR (S k) + 2) / (2 * INR (S k) + 3) * (x ^ m * P (S (S (S k))) x) + (INR (S k) + 1) / (2 * INR (S k) + 3) * (x ^ m * P (S k) x))).
    + intros x. pose proof (P_rec (S k) x) as R. apply (Rmult_eq_reg_l (2 * INR (S k) + 3)); [|lra].
      transitivity (x ^ m * ((INR (S k) + 2) * P (S (S (S k))) x + (INR (S k) + 1) * P (S k) x)); [field; lra|]. rewrite R. cbn [pow]. ring.
    + replace 0 with ((INR (S k) + 2) / (2 * INR (S k) + 3) * 0 + (INR (S k) + 1) / (2 * INR (S k) + 3) * 0) by ring.
      apply integral_plus; apply integral_scale; apply IH; lia.
Qed.
Lemma P_orth_poly g : forall m k, (m + length g <= k)%nat -> integral (fun x => x ^ m * peval g x * P k x) 0.
Proof.
  induction g as [|c g IH]; intros m k L.
  - apply (integral_ext (fun _ => 0)); [intros x; cbn; ring|apply integral_zero].
  - cbn [length] in L. apply (integral_ext (fun x => c * (x ^ m * P k x) + x ^ S m * peval g x * P k x)); [intros x; rewrite peval_cons; cbn [pow]; ring|].
    replace 0 with (c * 0 + 0) by ring. apply integral_plus; [apply integral_scale, P_orth; lia|apply IH; lia].
Qed.
Lemma P_orth_eval g k : (length g <= k)%nat -> integral (fun x => peval g x * P k x) 0.
Proof. intros L. apply (integral_ext (fun x => x ^ 0 * peval g x * P k x)); [intros x; cbn; ring|]. apply P_orth_poly. auto. Qed.

(** * the kernel *)
Fixpoint kern (n : nat) (y : R) : list R :=
  match n with O => [] | S k => padd (kern k y) (pscale ((2 * INR k + 1) / 2 * P k y) (legendre k)) end.
Lemma kern_length n y : (length (kern n y) <= n)%nat.
Proof. induction n as [|n IH]; [cbn; lia|]. cbn [kern]. rewrite padd_length, pscale_length, legendre_length. lia. Qed.
Lemma kern_integral n y : integral (peval (kern (S n) y)) 1.
Proof.
  induction n as [|n IH].
  - apply (integral_ext (fun _ => / 2)); [intros x; cbn [kern padd]; rewrite peval_scale; fold (P 0 x); rewrite !P0; cbn; field|].
    exists (mult_real_fct (/ 2) id). split; [intros x; rewrite <- (Rmult_1_r (/ 2)) at 2; apply derivable_pt_lim_scal, derivable_pt_lim_id|]. unfold mult_real_fct, id. lra.
  - apply (integral_ext (fun x => peval (kern (S n) y) x + (2 * INR (S n) + 1) / 2 * P (S n) y * P (S n) x)).
    + intros x. change (kern (S (S n)) y) with (padd (kern (S n) y) (pscale ((2 * INR (S n) + 1) / 2 * P (S n) y) (legendre (S n)))). rewrite peval_add, peval_scale. reflexivity.
    + pose proof (integral_plus _ _ _ _ IH (integral_scale ((2 * INR (S n) + 1) / 2 * P (S n) y) _ _ (P_integral n))) as Q. rewrite Rmult_0_r, Rplus_0_r in Q. exact Q.
Qed.
Lemma kern_step n x y : peval (kern (S n) y) x = peval (kern n y) x + (2 * INR n + 1) / 2 * P n y * P n x.
Proof. cbn [kern]. rewrite peval_add, peval_scale. reflexivity. Qed.
Lemma kern_zero x y : peval (kern 0 y) x = 0. Proof. reflexivity. Qed.
Lemma CD n x y : (x - y) * peval (kern (S n) y) x = (INR n + 1) / 2 * (P (S n) x * P n y - P n x * P (S n) y).
Proof.
  induction n as [|n IH].
  - rewrite kern_step, kern_zero, !P0, !P1. cbn. field.
  - rewrite kern_step, Rmult_plus_distr_l, IH. pose proof (pos_INR n) as N. rewrite S_INR.
    assert (X : (INR n + 1 + 1) / 2 * (P (S (S n)) x * P (S n) y - P (S n) x * P (S (S n)) y) = / 2 * (((INR n + 2) * P (S (S n)) x) * P (S n) y - P (S n) x * ((INR n + 2) * P (S (S n)) y))) by field.
    rewrite X, !P_rec. field.
Qed.
Lemma CDc n x : peval (kern (S n) x) x = (INR n + 1) / 2 * (D (S n) x * P n x - D n x * P (S n) x).
Proof.
  induction n as [|n IH].
  - rewrite kern_step, kern_zero, !P0, D0, D1. cbn. field.
  - rewrite kern_step, IH. rewrite S_INR.
    assert (X : (INR n + 1 + 1) / 2 * (D (S (S n)) x * P (S n) x - D (S n) x * P (S (S n)) x) = / 2 * (((INR n + 2) * D (S (S n)) x) * P (S n) x - D (S n) x * ((INR n + 2) * P (S (S n)) x))) by field.
    rewrite X, P_rec, D_rec. field.
Qed.
Lemma kern_pos n x : / 2 <= peval (kern (S n) x) x.
Proof.
  induction n as [|n IH]; [rewrite kern_step, kern_zero, !P0; cbn; lra|]. rewrite kern_step. pose proof (pos_INR (S n)). pose proof (Rle_0_sqr (P (S n) x)). unfold Rsqr in *.
  assert (0 <= (2 * INR (S n) + 1) / 2 * P (S n) x * P (S n) x) by (rewrite Rmult_assoc; apply Rmult_le_pos; [lra|auto]). lra.
Qed.

(** * a rule with an orthogonal kernel is exact *)
Definition rsum (f : R -> R) (xs : list R) : R := fold_right (fun x r => f x + r) 0 xs.
Lemma rsum_cons f x xs : rsum f (x :: xs) = f x + rsum f xs. Proof. reflexivity. Qed.
Fixpoint interp (K : R -> list R) (c : R -> R) (xs : list R) : list R :=
  match xs with [] => [] | y :: xs => padd (pscale (c y) (K y)) (interp K c xs) end.
Lemma interp_length K c xs n : (forall y, In y xs -> (length (K y) <= n)%nat) -> (length (interp K c xs) <= n)%nat.
Proof.
  induction xs as [|y xs IH]; intros L; cbn [interp]; [cbn; lia|]. rewrite padd_length, pscale_length. specialize (L y (or_introl eq_refl)) as L1.
  specialize (IH (fun z Z => L z (or_intror Z))). lia.
Qed.
Lemma interp_integral K c xs : (forall y, In y xs -> integral (peval (K y)) 1) -> integral (peval (interp K c xs)) (rsum c xs).
Proof.
  induction xs as [|y xs IH]; intros L; cbn [interp]; [apply integral_zero|]. rewrite rsum_cons.
  apply (integral_ext (fun x => c y * peval (K y) x + peval (interp K c xs) x)); [intros x; rewrite peval_add, peval_scale; reflexivity|].
  apply integral_plus; [|apply IH; intros z Z; apply L; right; auto]. pose proof (integral_scale (c y) _ _ (L y (or_introl eq_refl))) as Q. rewrite Rmult_1_r in Q. exact Q.
Qed.
Lemma interp_out K c xs x : (forall y, In y xs -> peval (K y) x = 0) -> peval (interp K c xs) x = 0.
Proof.
  induction xs as [|y xs IH]; intros L; [reflexivity|]. cbn [interp]. rewrite peval_add, peval_scale, IH, (L y (or_introl eq_refl)); [ring|]. intros z Z. apply L. right; auto.
Qed.
Lemma interp_at K c xs x : NoDup xs -> In x xs -> (forall y, In y xs -> y <> x -> peval (K y) x = 0) -> peval (interp K c xs) x = c x * peval (K x) x.
Proof.
  induction 1 as [|y xs NI ND IH]; intros I L; [destruct I|]. cbn [interp]. rewrite peval_add, peval_scale. destruct I as [->|I].
  - rewrite interp_out; [ring|]. intros z Z. apply L; [right; auto|]. intros ->. auto.
  - rewrite IH; [|auto|intros z Z; apply L; right; auto]. rewrite (L y); [ring|left; auto|]. intros ->. auto.
Qed.
Lemma rule_exact xs (w : R -> R) (K : R -> list R) (T : R -> R) c d :
  NoDup xs ->
  (forall y, In y xs -> (length (K y) <= length xs)%nat) ->
  (forall y, In y xs -> integral (peval (K y)) 1) ->
  (forall x y, In x xs -> In y xs -> y <> x -> peval (K y) x = 0) ->
  (forall y, In y xs -> w y * peval (K y) y = 1) ->
  c <> 0 -> (forall x, T x = c * prodr xs x) ->
  (forall q, (length q <= d)%nat -> integral (fun x => peval q x * T x) 0) ->
  forall p, (length p <= length xs + d)%nat -> integral (peval p) (rsum (fun x => w x * peval p x) xs).
Proof.
  intros ND KL KI KO KW C TE TO p PL. set (cf := fun x => w x * peval p x). set (r := interp K cf xs).
  assert (LR : (length r <= length xs)%nat) by (apply interp_length; auto).
  assert (VR : forall x, In x xs -> peval r x = peval p x).
  { intros x I. unfold r. rewrite interp_at; auto. unfold cf. specialize (KW x I). replace (w x * peval p x * peval (K x) x) with (peval p x * (w x * peval (K x) x)) by ring. rewrite KW. ring. }
  destruct (vanish xs ND (padd p (pscale (-1) r))) as (q & QL & QE).
  { intros x I. rewrite peval_add, peval_scale, VR; auto. ring. }
  rewrite padd_length, pscale_length in QL.
  assert (I0 : integral (fun x => peval q x * T x) 0) by (apply TO; lia).
  apply (integral_ext (fun x => peval r x + / c * (peval q x * T x))).
  - intros x. specialize (QE x). rewrite peval_add, peval_scale in QE. rewrite TE. replace (/ c * (peval q x * (c * prodr xs x))) with (prodr xs x * peval q x) by (field; auto). lra.
  - pose proof (integral_plus _ _ _ _ (interp_integral K cf xs KI) (integral_scale (/ c) _ _ I0)) as Q. rewrite Rmult_0_r, Rplus_0_r in Q. exact Q.
Qed.

(** * zeros *)
Lemma last_step {A} (l : list A) : forall a d, last (a :: l) d = last l a.
Proof. induction l as [|b l IH]; intros a d; [reflexivity|]. change (last (b :: l) d = last (b :: l) a). rewrite !IH. reflexivity. Qed.
Lemma between f a b : continuity f -> a < b -> f a * f b < 0 -> exists z, a < z < b /\ f z = 0.
Proof.
  intros C L N. destruct (IVT_cor f a b C (Rlt_le _ _ L) (Rlt_le _ _ N)) as (z & [A B] & Z). exists z. split; [|auto].
  split; [destruct A as [A| ->]; auto|destruct B as [B|B]; auto].
  - exfalso. rewrite Z in N. lra.
  - exfalso. subst z. rewrite Z in N. lra.
Qed.
(** increasing points at which the sign alternates *)
Fixpoint chain (f : R -> R) (y0 : R) (l : list R) : Prop :=
  match l with [] => True | y1 :: l => y0 < y1 /\ f y0 * f y1 < 0 /\ chain f y1 l end.
(** one point of zs between any two neighbours *)
Fixpoint inter (y0 : R) (l zs : list R) : Prop :=
  match l, zs with [], [] => True | y1 :: l, z :: zs => y0 < z < y1 /\ inter y1 l zs | _, _ => False end.
Lemma zeros_between f : continuity f -> forall l y0, chain f y0 l -> exists zs, inter y0 l zs /\ (forall z, In z zs -> f z = 0).
Proof.
  intros C. induction l as [|y1 l IH]; intros y0 H; [exists []; split; [exact I|intros z []]|]. destruct H as (L & N & H).
  destruct (between f y0 y1 C L N) as (z & B & Z). destruct (IH y1 H) as (zs & A & Q). exists (z :: zs). split; [split; auto|].
  intros x [<-|X]; auto.
Qed.
Lemma inter_length l : forall y0 zs, inter y0 l zs -> length zs = length l.
Proof. induction l as [|y1 l IH]; intros y0 [|z zs] H; cbn in H; try tauto. cbn. f_equal. eapply IH. apply H. Qed.
Lemma inter_lower l : forall y0 zs, inter y0 l zs -> forall z, In z zs -> y0 < z.
Proof.
  induction l as [|y1 l IH]; intros y0 [|z zs] H x X; cbn in H; try tauto. destruct H as [B H]. destruct X as [<-|X]; [tauto|].
  specialize (IH _ _ H x X). lra.
Qed.
Lemma inter_NoDup l : forall y0 zs, inter y0 l zs -> NoDup zs.
Proof.
  induction l as [|y1 l IH]; intros y0 [|z zs] H; cbn in H; try tauto; [constructor|]. destruct H as [B H]. constructor; [|eapply IH; eauto].
  intros X. pose proof (inter_lower _ _ _ H z X). lra.
Qed.
Lemma inter_upper l : forall y0 zs b, inter y0 (l ++ [b]) zs -> forall z, In z zs -> z < b.
Proof.
  induction l as [|y1 l IH]; intros y0 [|z zs] b H x X; cbn in H; try tauto.
  - destruct zs; [|tauto]. destruct X as [<-|[]]. lra.
  - destruct H as [B H]. destruct X as [<-|X]; [|eapply IH; eauto].
    destruct zs as [|w zs]; [destruct l; cbn in H; tauto|]. pose proof (IH _ _ _ H w (or_introl eq_refl)). pose proof (inter_lower _ _ _ H w (or_introl eq_refl)). lra.
Qed.
(** shifted: the points ts (after the first z) separate the points zs *)
Fixpoint sep (z : R) (ts zs : list R) : Prop :=
  match ts, zs with [], [] => True | t :: ts, z' :: zs => z < t < z' /\ sep z' ts zs | _, _ => False end.
Lemma inter_sep ts : forall y0 b z zs, inter y0 (ts ++ [b]) (z :: zs) -> y0 < z /\ sep z ts zs /\ last zs z < b.
Proof.
  induction ts as [|t ts IH]; intros y0 b z zs H; cbn [app inter] in H.
  - destruct H as [B H]. destruct zs; [|tauto]. cbn. lra.
  - destruct H as [B H]. destruct zs as [|z' zs]; [destruct ts; cbn in H; tauto|]. destruct (IH _ _ _ _ H) as (A & Q & L). split; [lra|]. split; [cbn; tauto|].
    rewrite last_step. auto.
Qed.
Lemma sep_lower ts : forall z zs, sep z ts zs -> forall t, In t ts -> z < t.
Proof. induction ts as [|t0 ts IH]; intros z [|z' zs] H t T; cbn in H; try tauto; destruct T as [<-|T]; [lra|]. destruct H as [B H]. specialize (IH _ _ H t T). lra. Qed.
Lemma sep_last ts : forall z zs, sep z ts zs -> z <= last zs z /\ forall t, In t ts -> t < last zs z.
Proof.
  induction ts as [|t0 ts IH]; intros z [|z' zs] H; cbn in H; try tauto; [cbn; split; [lra|tauto]|]. destruct H as [B H]. destruct (IH _ _ H) as [A Q].
  rewrite last_step. split; [lra|]. intros t [<-|T]; [lra|auto].
Qed.
Lemma prodr_same xs a b : (forall r, In r xs -> 0 < (a - r) * (b - r)) -> 0 < prodr xs a * prodr xs b.
Proof.
  induction xs as [|r xs IH]; intros H; [cbn; lra|]. rewrite !prodr_cons. specialize (H r (or_introl eq_refl)) as H1. specialize (IH (fun s S => H s (or_intror S))).
  replace ((a - r) * prodr xs a * ((b - r) * prodr xs b)) with (((a - r) * (b - r)) * (prodr xs a * prodr xs b)) by ring. apply Rmult_lt_0_compat; auto.
Qed.
Lemma sep_chain ts : forall z zs pre, sep z ts zs -> (forall p, In p pre -> p < z) -> chain (prodr (pre ++ ts)) z zs.
Proof.
  induction ts as [|t ts IH]; intros z [|z' zs] pre H L; cbn in H; try tauto. destruct H as [B H]. cbn [chain]. split; [lra|]. split.
  - rewrite !prodr_app, !prodr_cons.
    assert (0 < prodr pre z * prodr pre z') by (apply prodr_same; intros r X; specialize (L r X); apply Rmult_lt_0_compat; lra).
    assert (0 < prodr ts z * prodr ts z').
    { apply prodr_same. intros r X. pose proof (sep_lower _ _ _ H r X). replace ((z - r) * (z' - r)) with ((r - z) * (r - z')) by ring. apply Rmult_lt_0_compat; lra. }
    replace (prodr pre z * ((z - t) * prodr ts z) * (prodr pre z' * ((z' - t) * prodr ts z'))) with (- (((t - z) * (z' - t)) * ((prodr pre z * prodr pre z') * (prodr ts z * prodr ts z')))) by ring.
    assert (0 < ((t - z) * (z' - t)) * ((prodr pre z * prodr pre z') * (prodr ts z * prodr ts z'))); [|lra].
    apply Rmult_lt_0_compat; [apply Rmult_lt_0_compat; lra|apply Rmult_lt_0_compat; auto].
  - change (t :: ts) with ([t] ++ ts). rewrite app_assoc. apply IH; [auto|]. intros p X. apply in_app_or in X. destruct X as [X|[<-|[]]]; [specialize (L p X); lra|lra].
Qed.
Lemma chain_scale f g s l : s <> 0 -> forall y0, chain f y0 l -> (forall y, y = y0 \/ In y l -> g y = s * f y) -> chain g y0 l.
Proof.
  intros S0. induction l as [|y1 l IH]; intros y0 H E; [exact I|]. destruct H as (L & N & H). cbn [chain]. split; [auto|]. split.
  - rewrite (E y0), (E y1) by (cbn; auto). replace (s * f y0 * (s * f y1)) with ((s * s) * (f y0 * f y1)) by ring.
    assert (0 < s * s) by (apply (Rsqr_pos_lt s); auto). nra.
  - apply IH; [auto|]. intros y Y. apply E. cbn. destruct Y; auto.
Qed.
Lemma chain_pos f g l : forall y0, chain f y0 l -> (forall y, y = y0 \/ In y l -> 0 < g y * f y) -> chain g y0 l.
Proof.
  induction l as [|y1 l IH]; intros y0 H E; [exact I|]. destruct H as (L & N & H). cbn [chain]. split; [auto|]. split.
  - assert (A : 0 < g y0 * f y0) by (apply E; cbn; auto). assert (B : 0 < g y1 * f y1) by (apply E; cbn; auto).
    assert (Q : 0 < (g y0 * g y1) * (f y0 * f y1)) by (replace ((g y0 * g y1) * (f y0 * f y1)) with ((g y0 * f y0) * (g y1 * f y1)) by ring; apply Rmult_lt_0_compat; auto). clear - N Q. nra.
  - apply IH; [auto|]. intros y Y. apply E. cbn. destruct Y; auto.
Qed.
Lemma chain_snoc f b l : forall y0, chain f y0 l -> last l y0 < b -> f (last l y0) * f b < 0 -> chain f y0 (l ++ [b]).
Proof.
  induction l as [|y1 l IH]; intros y0 H L N; [cbn in *; auto|]. destruct H as (A & B & H). cbn [app chain]. split; [auto|]. split; [auto|].
  rewrite last_step in *. apply IH; auto.
Qed.

Lemma constant_of q : (length q <= 1)%nat -> exists c, forall x, peval q x = c.
Proof. destruct q as [|c [|d q]]; cbn; intros H; [exists 0; auto|exists c; intros; ring|lia]. Qed.
Lemma neighbour_nonzero m t : P m t = 0 -> P (S m) t <> 0.
Proof. intros Z A. pose proof (kern_pos m t) as K. rewrite CDc, Z, A in K. lra. Qed.
(** the zeros of neighbouring Legendre polynomials interlace *)
Lemma legendre_zeros k : exists ts, NoDup ts /\ length ts = k /\ (forall t, In t ts -> -1 < t < 1 /\ P k t = 0) /\ chain (P (S k)) (-1) (ts ++ [1]).
Proof.
  induction k as [|k (ts & ND & LN & Z & CH)].
  - exists []. split; [constructor|]. split; [auto|]. split; [intros t []|]. cbn [app chain]. rewrite !P1. lra.
  - destruct (zeros_between (P (S k)) (peval_continuity _) _ _ CH) as (zs & IN & ZZ). pose proof (inter_length _ _ _ IN) as LZ. rewrite app_length in LZ. cbn in LZ.
    pose proof (inter_lower _ _ _ IN) as LO. pose proof (inter_upper _ _ _ _ IN) as UP.
    exists zs. split; [eapply inter_NoDup; eauto|]. split; [lia|]. split; [auto|].
    destruct zs as [|z zs]; [cbn in LZ; lia|]. destruct (inter_sep _ _ _ _ _ IN) as (A & SP & LA).
    destruct (vanish ts ND (legendre k)) as (q & QL & QE); [intros r R; apply Z; auto|]. rewrite legendre_length, LN in QL.
    destruct (constant_of q) as (c & C); [lia|]. assert (PK : forall x, P k x = c * prodr ts x) by (intros x; unfold P; rewrite QE, C; ring).
    assert (C0 : c <> 0) by (intros ->; pose proof (proj1 (P_one k)) as X; rewrite PK in X; lra).
    pose proof (pos_INR k) as N. set (al := (INR k + 1) / (INR k + 2)). assert (AL : 0 < al) by (apply Rdiv_lt_0_compat; lra).
    assert (P2 : forall y, In y (z :: zs) -> P (S (S k)) y = - al * c * prodr ts y).
    { intros y Y. pose proof (P_rec k y) as R. rewrite (ZZ y Y), PK in R. apply (Rmult_eq_reg_l (INR k + 2)); [|lra]. rewrite R. unfold al. field. lra. }
    assert (C2 : 0 < al * (c * c)) by (apply Rmult_lt_0_compat; [auto|apply (Rsqr_pos_lt c); auto]).
    assert (NEG : forall a b, 0 < prodr ts a * prodr ts b -> c * prodr ts a * (- al * c * prodr ts b) < 0).
    { intros a b H. replace (c * prodr ts a * (- al * c * prodr ts b)) with (- (al * (c * c) * (prodr ts a * prodr ts b))) by ring. pose proof (Rmult_lt_0_compat _ _ C2 H). lra. }
    cbn [app chain]. split; [auto|]. split.
    + replace (P (S (S k)) (-1)) with (P k (-1)) by (rewrite !(proj1 (P_minus _)); cbn; ring). rewrite PK, P2 by (left; auto). apply NEG, prodr_same.
      intros r R. pose proof (sep_lower _ _ _ SP r R). replace ((-1 - r) * (z - r)) with ((r + 1) * (r - z)) by ring. apply Rmult_lt_0_compat; lra.
    + apply chain_snoc; [|auto|].
      * apply (chain_scale (prodr ts) _ (- al * c)); [intros X; apply Rmult_integral in X; destruct X; [lra|auto]|apply (sep_chain ts z zs [] SP); intros p []|].
        intros y [->|Y]; apply P2; [left|right]; auto.
      * assert (LI : In (last zs z) (z :: zs)) by (clear; revert z; induction zs as [|a zs IH]; intros z; [left; auto|rewrite last_step; right; apply IH]).
        rewrite (P2 _ LI). rewrite Rmult_comm. replace (P (S (S k)) 1) with (P k 1) by (rewrite !(proj1 (P_one _)); auto). rewrite PK. apply NEG, prodr_same.
        intros r R. destruct (sep_last _ _ _ SP) as [_ Q]. specialize (Q r R). apply Rmult_lt_0_compat; lra.
Qed.

(** polynomials with as many real zeros as their degree *)
Definition splits (p rs : list R) : Prop := length p = S (length rs) /\ exists c, c <> 0 /\ forall x, peval p x = c * prodr rs x.
Lemma splits_unique p rs ss : NoDup rs -> splits p rs -> splits p ss -> NoDup ss /\ (forall x, In x ss -> In x rs) /\ length ss = length rs.
Proof.
  intros ND (L1 & c & C & E) (L2 & d & Dn & G). assert (LL : length ss = length rs) by lia.
  assert (IN : incl rs ss).
  { intros x X. apply prodr_zero in X. apply prodr_zero. specialize (E x). rewrite X, G, Rmult_0_r in E. apply Rmult_integral in E. tauto. }
  split; [eapply NoDup_incl_NoDup; eauto; lia|]. split; [|auto].
  intros x X. apply prodr_zero in X. apply prodr_zero. specialize (G x). rewrite X, E, Rmult_0_r in G. apply Rmult_integral in G. tauto.
Qed.
Definition radau_poly (m : nat) : list R := padd (legendre m) (legendre (S m)).
Lemma radau_poly_eval m x : peval (radau_poly m) x = P m x + P (S m) x. Proof. apply peval_add. Qed.
Lemma radau_quot m x : (x + 1) * peval (pquot (-1) (radau_poly m)) x = P m x + P (S m) x.
Proof.
  pose proof (pquot_eval (-1) (radau_poly m) x) as Q. rewrite !radau_poly_eval in Q.
  rewrite !(proj1 (P_minus _)) in Q. cbn [pow] in Q. lra.
Qed.
Lemma chain_app f l1 l2 : forall y0, chain f y0 (l1 ++ l2) -> chain f y0 l1.
Proof. induction l1 as [|y l1 IH]; intros y0 H; [exact I|]. destruct H as (A & B & H). split; [auto|]. split; [auto|]. apply IH; auto. Qed.
Lemma radau_splits m : exists rs, NoDup rs /\ length rs = m /\ (forall r, In r rs -> -1 < r < 1) /\ splits (pquot (-1) (radau_poly m)) rs.
Proof.
  assert (LQ : length (pquot (-1) (radau_poly m)) = S m).
  { rewrite pquot_length. unfold radau_poly. rewrite padd_length, !legendre_length. lia. }
  assert (RS : exists rs, NoDup rs /\ length rs = m /\ forall r, In r rs -> -1 < r < 1 /\ P m r + P (S m) r = 0).
  { destruct (legendre_zeros m) as (ts & ND & LN & Z & CH). destruct ts as [|t ts].
    - exists []. split; [constructor|]. split; [auto|]. intros r [].
    - cbn [app chain] in CH. destruct CH as (_ & _ & CH).
      assert (CS : chain (peval (radau_poly m)) t (ts ++ [1])).
      { apply (chain_pos (P (S m))); [auto|]. intros y Y. rewrite radau_poly_eval.
        assert (IY : In y (t :: ts) \/ y = 1) by (destruct Y as [->|Y]; [left; left; auto|apply in_app_or in Y; destruct Y as [Y|[<-|[]]]; [left; right; auto|auto]]).
        destruct IY as [IY| ->].
        - destruct (Z y IY) as [_ Z0]. rewrite Z0, Rplus_0_l. apply (Rsqr_pos_lt (P (S m) y)). apply neighbour_nonzero; auto.
        - rewrite !(proj1 (P_one _)). lra. }
      destruct (zeros_between _ (peval_continuity _) _ _ CS) as (zs & IN & ZZ). exists zs. split; [eapply inter_NoDup; eauto|].
      split; [rewrite (inter_length _ _ _ IN), app_length; cbn in *; lia|].
      intros r R. pose proof (inter_lower _ _ _ IN r R). pose proof (inter_upper _ _ _ _ IN r R). destruct (Z t (or_introl eq_refl)) as [B _].
      split; [lra|]. rewrite <- radau_poly_eval. apply ZZ; auto. }
  destruct RS as (rs & ND & LN & Z). exists rs. split; [auto|]. split; [auto|]. split; [intros r R; apply Z; auto|].
  split; [lia|]. destruct (vanish rs ND (pquot (-1) (radau_poly m))) as (q & QL & QE).
  - intros r R. destruct (Z r R) as [B Z0]. pose proof (radau_quot m r) as Q. rewrite Z0 in Q. apply Rmult_integral in Q. destruct Q; [lra|auto].
  - destruct (constant_of q) as (c & C); [lia|]. exists c. split; [|intros x; rewrite QE, C; ring].
    intros ->. pose proof (radau_quot m 1) as Q. rewrite QE, C, !(proj1 (P_one _)) in Q. lra.
Qed.
Lemma rolle m l f : forall y0, chain f y0 l -> (forall y, y = y0 \/ In y l -> P m y = 0) -> exists zs, inter y0 l zs /\ forall z, In z zs -> D m z = 0.
Proof.
  induction l as [|y1 l IH]; intros y0 H Z; [exists []; split; [exact I|intros z []]|]. destruct H as (L & _ & H).
  destruct (MVT_cor2 (P m) (D m) y0 y1 L (fun x _ => P_derivable m x)) as (z & E & B). rewrite (Z y0), (Z y1) in E by (cbn; auto).
  destruct (IH y1 H) as (zs & A & Q); [intros y Y; apply Z; cbn; destruct Y; auto|]. exists (z :: zs). split; [split; auto|].
  intros x [<-|X]; [|auto]. assert (X : D m z * (y1 - y0) = 0) by lra. apply Rmult_integral in X. destruct X; [auto|lra].
Qed.
Lemma inter_bound l : forall y0 zs b, inter y0 l zs -> (forall y, In y l -> y < b) -> forall z, In z zs -> z < b.
Proof.
  induction l as [|y1 l IH]; intros y0 [|z zs] b H U x X; cbn in H; try tauto. destruct H as [B H]. specialize (U y1 (or_introl eq_refl)) as U1.
  destruct X as [<-|X]; [lra|]. eapply IH; eauto. intros y Y. apply U. right. auto.
Qed.
Lemma lobatto_splits m : exists rs, NoDup rs /\ length rs = m /\ (forall r, In r rs -> -1 < r < 1) /\ splits (pderiv (legendre (S m))) rs.
Proof.
  destruct (legendre_zeros (S m)) as (ts & ND & LN & Z & CH). destruct ts as [|t ts]; [discriminate|]. cbn [app chain] in CH. destruct CH as (_ & _ & CH).
  apply chain_app in CH. destruct (rolle (S m) ts _ t CH) as (zs & IN & ZZ); [intros y [->|Y]; apply Z; [left|right]; auto|].
  exists zs. pose proof (inter_NoDup _ _ _ IN) as NZ. split; [auto|]. pose proof (inter_length _ _ _ IN) as LZ. cbn in LN. split; [lia|].
  split.
  - intros r R. pose proof (inter_lower _ _ _ IN r R). destruct (Z t (or_introl eq_refl)) as [B _].
    assert (r < 1) by (eapply inter_bound; eauto; intros y Y; apply Z; right; auto). lra.
  - split; [rewrite pderiv_length, legendre_length; lia|]. destruct (vanish zs NZ (pderiv (legendre (S m)))) as (q & QL & QE); [exact ZZ|].
    rewrite pderiv_length, legendre_length in QL. destruct (constant_of q) as (c & C); [lia|]. exists c. split; [|intros x; rewrite QE, C; ring].
    intros ->. pose proof (D_one (S m)) as Q. unfold D in Q. rewrite QE, C, S_INR in Q. pose proof (pos_INR m). nra.
Qed.
