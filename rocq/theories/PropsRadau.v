(** C93: the Gauss Radau and Gauss Lobatto rules behind the quadrature patterns of the pupil are exact. *)
From Coq Require Import Reals List Lra Lia Psatz Arith.
From Verif Require Import Base SampleModel LegendreModel LegendreProofs PropsSample PropsQuadrature.
Import ListNotations.
Open Scope R_scope.

(** sum of c_i x^(k+i) *)
Fixpoint poly_from (k : nat) (c : list R) (x : R) : R :=
  match c with [] => 0 | a :: c => a * x ^ k + poly_from (S k) c x end.
Definition poly (c : list R) (x : R) : R := poly_from 0 c x.
Lemma poly_from_eval c x : forall k, poly_from k c x = x ^ k * peval c x.
Proof. induction c as [|a c IH]; intros k; [cbn; ring|]. cbn [poly_from]. rewrite IH, peval_cons. cbn [pow]. ring. Qed.
Lemma poly_eval c x : poly c x = peval c x.
Proof. unfold poly. rewrite poly_from_eval. cbn. ring. Qed.
(** p has the zeros rs, with multiplicity, and no others *)
Definition factors (p rs : list R) : Prop :=
  length p = S (length rs) /\ exists c, c <> 0 /\ forall x, poly p x = c * fold_right (fun r acc => (x - r) * acc) 1 rs.
Lemma factors_splits p rs : factors p rs <-> splits p rs.
Proof. unfold factors, splits. split; intros (L & c & C & E); (split; [auto|]); exists c; (split; [auto|]); intros x; specialize (E x); rewrite poly_eval in *; auto. Qed.
(** [np.roots] finds all zeros of the polynomials of degree below n that have only real ones *)
Definition finds_roots (roots : list R -> list R) (n : nat) : Prop := forall p rs, (length p <= n)%nat -> factors p rs -> factors p (roots p).

Lemma mapo_all (f : R -> option R) g l : (forall x, In x l -> f x = Some (g x)) -> mapo f l = Some (map g l).
Proof. induction l as [|a l IH]; intros H; [reflexivity|]. cbn. rewrite (H a (or_introl eq_refl)), IH; [reflexivity|]. intros x X. apply H. right. auto. Qed.
Lemma wsum_map f (w : R -> R) xs : wsum f xs (map w xs) = rsum (fun x => w x * f x) xs.
Proof. induction xs as [|x xs IH]; [reflexivity|]. cbn [map]. rewrite wsum_cons, IH. reflexivity. Qed.

(** ** Radau *)
Lemma radau_node m y : P m y + P (S m) y = 0 ->
  P m y <> 0 /\ (1 - y) / (INR (S m) * P m y) ^ 2 * peval (kern (S m) y) y = 1.
Proof.
  intros Z. assert (E : P (S m) y = - P m y) by lra. pose proof (pos_INR m) as N.
  assert (NZ : P m y <> 0) by (intros X; apply (neighbour_nonzero m y X); lra). split; [auto|].
  destruct (AB m y) as [A B]. rewrite E in B. rewrite CDc, E, S_INR. set (p := P m y) in *. set (a := D (S m) y) in *. set (b := D m y) in *.
  assert (Q : (1 - y) * (a + b) = 2 * (INR m + 1) * p) by (rewrite A in B |- *; lra).
  transitivity (((1 - y) * (a + b)) / (2 * (INR m + 1) * p)); [field; lra|]. rewrite Q. field. lra.
Qed.
(** n nodes, -1 the first, the others strictly inside, positive weights, and exact to degree 2 n - 2 *)
Theorem C93_radau roots n : finds_roots roots n -> (1 <= n)%nat ->
  exists xs ws, gr_roots roots n = Some (-1 :: xs, ws) /\ length (-1 :: xs) = n /\ length ws = n /\ NoDup (-1 :: xs) /\
  Forall (fun x => -1 < x < 1) xs /\ Forall (fun w => 0 < w) ws /\
  forall c F, (length c <= 2 * n - 1)%nat -> (forall x, derivable_pt_lim F x (poly c x)) -> wsum (poly c) (-1 :: xs) ws = F 1 - F (-1).
Proof.
  intros FR N. destruct n as [|m]; [lia|]. destruct (radau_splits m) as (rs & ND & LN & BD & SP).
  assert (SR : splits (pquot (-1) (radau_poly m)) (roots (pquot (-1) (radau_poly m)))) by (apply factors_splits, (FR _ rs); [destruct SP; lia|]; apply factors_splits; auto).
  destruct (splits_unique _ _ _ ND SP SR) as (NX & IX & LX). unfold gr_roots. fold (radau_poly m). set (xs := roots (pquot (-1) (radau_poly m))) in *.
  assert (BX : forall x, In x xs -> -1 < x < 1) by auto.
  assert (NX' : NoDup (-1 :: xs)) by (constructor; [intros X; specialize (BX _ X); lra|auto]).
  destruct SR as (_ & c & C0 & CE).
  assert (T : forall x, P m x + P (S m) x = c * prodr (-1 :: xs) x).
  { intros x. rewrite <- radau_quot, CE, prodr_cons. ring. }
  assert (Z : forall y, In y (-1 :: xs) -> P m y + P (S m) y = 0) by (intros y Y; apply prodr_zero in Y; rewrite T, Y; ring).
  set (w := fun y => (1 - y) / (INR (S m) * P m y) ^ 2).
  assert (NP : INR (S m) <> 0) by (apply not_0_INR; lia).
  rewrite (mapo_all _ w).
  2:{ intros y Y. fold (P m y). apply fdiv_some. destruct (radau_node m y (Z y Y)) as [NZ _]. apply pow_nonzero. intros X. apply Rmult_integral in X. tauto. }
  cbn [obind]. exists xs, (map w (-1 :: xs)). split; [reflexivity|]. assert (LL : length (-1 :: xs) = S m) by (cbn; lia).
  split; [auto|]. split; [rewrite map_length; auto|]. split; [auto|]. split; [apply Forall_forall; auto|]. split.
  - apply Forall_forall. intros v V. apply in_map_iff in V. destruct V as (y & <- & Y). destruct (radau_node m y (Z y Y)) as [NZ _].
    unfold w. apply Rdiv_lt_0_compat; [destruct Y as [<-|Y]; [lra|specialize (BX y Y); lra]|].
    replace ((INR (S m) * P m y) ^ 2) with (Rsqr (INR (S m) * P m y)) by (unfold Rsqr; ring). apply Rsqr_pos_lt. intros X. apply Rmult_integral in X. tauto.
  - intros p F LP HF. rewrite wsum_map. apply (integral_unique (peval p)).
    + replace (rsum (fun x => w x * poly p x) (-1 :: xs)) with (rsum (fun x => w x * peval p x) (-1 :: xs)).
      2:{ generalize (-1 :: xs). clear. induction l as [|x l IH]; [reflexivity|]. rewrite !rsum_cons, IH, poly_eval. reflexivity. }
      apply (rule_exact (-1 :: xs) w (kern (S m)) (fun x => P m x + P (S m) x) c m); auto.
      * intros y _. rewrite LL. apply kern_length.
      * intros y _. apply kern_integral.
      * intros x y X Y NE. apply (Rmult_eq_reg_l (x - y)); [|lra]. rewrite CD. specialize (Z x X) as ZX. specialize (Z y Y) as ZY.
        replace (P (S m) x) with (- P m x) by lra. replace (P (S m) y) with (- P m y) by lra. ring.
      * intros y Y. apply radau_node. auto.
      * intros q Q. pose proof (integral_plus _ _ _ _ (P_orth_eval q m Q) (P_orth_eval q (S m) (le_S _ _ Q))) as I. rewrite Rplus_0_r in I.
        apply (integral_ext _ _ _ (fun x => eq_sym (Rmult_plus_distr_l _ _ _)) I).
      * rewrite LL. lia.
    + exists F. split; [|reflexivity]. intros x. rewrite <- poly_eval. auto.
Qed.

(** ** Lobatto *)
Definition lkern (m : nat) (y : R) : list R := padd (kern (S (S m)) y) (pscale (- ((INR m + 2) / 2 * P (S m) y)) (legendre (S m))).
Lemma lkern_eval m x y : peval (lkern m y) x = peval (kern (S (S m)) y) x - (INR m + 2) / 2 * P (S m) y * P (S m) x.
Proof. unfold lkern. rewrite peval_add, peval_scale. unfold P at 3. ring. Qed.
Lemma lobatto_rel m y : (1 - y ^ 2) * D (S m) y = 0 -> P (S (S m)) y = y * P (S m) y.
Proof. intros Z. rewrite ODE2, S_INR in Z. pose proof (pos_INR m). apply Rmult_integral in Z. destruct Z; lra. Qed.
Lemma lobatto_node m y : (1 - y ^ 2) * D (S m) y = 0 ->
  P (S m) y <> 0 /\ 2 / (INR (S (S m)) * (INR (S (S m)) - 1) * P (S m) y ^ 2) * peval (lkern m y) y = 1.
Proof.
  intros Z. apply lobatto_rel in Z. pose proof (pos_INR m) as N.
  assert (NZ : P (S m) y <> 0) by (intros X; apply (neighbour_nonzero (S m) y X); rewrite Z, X; ring). split; [auto|].
  destruct (AB (S m) y) as [A _]. rewrite lkern_eval, CDc, A, Z, !S_INR. field. repeat split; auto; lra.
Qed.
Lemma lobatto_orth m q : (length q <= m)%nat -> integral (fun x => peval q x * ((x ^ 2 - 1) * D (S m) x)) 0.
Proof.
  intros L. pose proof (pos_INR m) as N. set (k := (INR m + 1) * (INR m + 2) / (2 * INR m + 3)).
  apply (integral_ext (fun x => k * (peval q x * P (S (S m)) x) + - k * (peval q x * P m x))).
  - intros x. pose proof (ODE1 m x) as A. pose proof (ODE2 (S m) x) as B. rewrite S_INR in B.
    assert (E : (x ^ 2 - 1) * D (S m) x = k * (P (S (S m)) x - P m x)).
    { apply (Rmult_eq_reg_l (2 * INR m + 3)); [|lra]. unfold k. transitivity ((INR m + 1) * (INR m + 2) * (P (S (S m)) x - P m x)); [|field; lra].
      set (d := D (S m) x) in *. set (a := P m x) in *. set (b := P (S m) x) in *. set (e := P (S (S m)) x) in *. clearbody d a b e.
      replace ((2 * INR m + 3) * ((x ^ 2 - 1) * d)) with (- ((INR m + 2) * ((1 - x ^ 2) * d)) - (INR m + 1) * ((1 - x ^ 2) * d)) by ring. rewrite A at 1. rewrite B. ring. }
    rewrite E. ring.
  - pose proof (integral_plus _ _ _ _ (integral_scale k _ _ (P_orth_eval q (S (S m)) ltac:(lia))) (integral_scale (- k) _ _ (P_orth_eval q m L))) as I.
    rewrite !Rmult_0_r, Rplus_0_r in I. exact I.
Qed.
(** n nodes, -1 first and 1 last, the others strictly inside, positive weights, and exact to degree 2 n - 3 *)
Theorem C93_lobatto roots n : finds_roots roots n -> (2 <= n)%nat ->
  exists xs ws, gl_roots roots n = Some (-1 :: xs ++ [1], ws) /\ length (-1 :: xs ++ [1]) = n /\ length ws = n /\ NoDup (-1 :: xs ++ [1]) /\
  Forall (fun x => -1 < x < 1) xs /\ Forall (fun w => 0 < w) ws /\
  forall c F, (length c <= 2 * n - 2)%nat -> (forall x, derivable_pt_lim F x (poly c x)) -> wsum (poly c) (-1 :: xs ++ [1]) ws = F 1 - F (-1).
Proof.
  intros FR N. destruct n as [|[|m]]; [lia|lia|]. destruct (lobatto_splits m) as (rs & ND & LN & BD & SP).
  assert (SR : splits (pderiv (legendre (S m))) (roots (pderiv (legendre (S m))))) by (apply factors_splits, (FR _ rs); [destruct SP; lia|]; apply factors_splits; auto).
  destruct (splits_unique _ _ _ ND SP SR) as (NX & IX & LX). unfold gl_roots. set (xs := roots (pderiv (legendre (S m)))) in *.
  assert (BX : forall x, In x xs -> -1 < x < 1) by auto.
  assert (NX1 : NoDup (xs ++ [1])).
  { apply NoDup_rev in NX. rewrite <- (rev_involutive (xs ++ [1])). apply NoDup_rev. rewrite rev_app_distr. constructor; [|auto]. intros X. apply in_rev in X. specialize (BX _ X). lra. }
  set (ns := -1 :: xs ++ [1]). assert (NX' : NoDup ns).
  { constructor; [|auto]. intros X. apply in_app_or in X. destruct X as [X|[X|[]]]; [specialize (BX _ X); lra|lra]. }
  destruct SR as (_ & c & C0 & CE). fold (D (S m)) in CE.
  assert (T : forall x, (x ^ 2 - 1) * D (S m) x = c * prodr ns x).
  { intros x. unfold D. rewrite CE. unfold ns. rewrite prodr_cons, prodr_app. cbn [prodr fold_right]. ring. }
  assert (Z : forall y, In y ns -> (1 - y ^ 2) * D (S m) y = 0) by (intros y Y; apply prodr_zero in Y; specialize (T y); rewrite Y in T; lra).
  set (w := fun y => 2 / (INR (S (S m)) * (INR (S (S m)) - 1) * P (S m) y ^ 2)).
  assert (NP : 0 < INR (S (S m)) * (INR (S (S m)) - 1)) by (rewrite !S_INR; pose proof (pos_INR m); nra).
  assert (DP : forall y, In y ns -> 0 < INR (S (S m)) * (INR (S (S m)) - 1) * P (S m) y ^ 2).
  { intros y Y. destruct (lobatto_node m y (Z y Y)) as [NZ _]. apply Rmult_lt_0_compat; [auto|]. replace (P (S m) y ^ 2) with (Rsqr (P (S m) y)) by (unfold Rsqr; ring). apply Rsqr_pos_lt. auto. }
  rewrite (mapo_all _ w) by (intros y Y; fold (P (S m) y); apply fdiv_some, Rgt_not_eq, DP; auto).
  cbn [obind]. exists xs, (map w ns). split; [reflexivity|]. assert (LL : length ns = S (S m)) by (unfold ns; cbn; rewrite app_length; cbn; lia).
  split; [auto|]. split; [rewrite map_length; auto|]. split; [auto|]. split; [apply Forall_forall; auto|]. split.
  - apply Forall_forall. intros v V. apply in_map_iff in V. destruct V as (y & <- & Y). apply Rdiv_lt_0_compat; [lra|auto].
  - intros p F LP HF. fold ns. rewrite wsum_map. apply (integral_unique (peval p)).
    + replace (rsum (fun x => w x * poly p x) ns) with (rsum (fun x => w x * peval p x) ns).
      2:{ generalize ns. clear. induction ns as [|x l IH]; [reflexivity|]. rewrite !rsum_cons, IH, poly_eval. reflexivity. }
      apply (rule_exact ns w (lkern m) (fun x => (x ^ 2 - 1) * D (S m) x) c m); auto.
      * intros y _. rewrite LL. unfold lkern. rewrite padd_length, pscale_length, legendre_length. pose proof (kern_length (S (S m)) y). lia.
      * intros y _. pose proof (integral_plus _ _ _ _ (kern_integral (S m) y) (integral_scale (- ((INR m + 2) / 2 * P (S m) y)) _ _ (P_integral m))) as I.
        rewrite Rmult_0_r, Rplus_0_r in I. refine (integral_ext _ _ _ _ I). intros x. rewrite lkern_eval. cbv beta. ring.
      * intros x y X Y NE. apply (Rmult_eq_reg_l (x - y)); [|lra]. rewrite lkern_eval. pose proof (CD (S m) x y) as Q. rewrite S_INR in Q.
        rewrite (lobatto_rel m x (Z x X)), (lobatto_rel m y (Z y Y)) in Q. rewrite Rmult_minus_distr_l, Q. field.
      * intros y Y. apply lobatto_node. auto.
      * intros q Q. apply lobatto_orth. auto.
      * rewrite LL. lia.
    + exists F. split; [|reflexivity]. intros x. rewrite <- poly_eval. auto.
Qed.
(** fewer points have no finite weights *)
Theorem C93_degenerate roots : gr_roots roots 0 = None /\ gl_roots roots 0 = None /\ gl_roots roots 1 = None.
Proof.
  split; [reflexivity|]. split; [reflexivity|]. unfold gl_roots, mapo, fdiv. destruct (Req_EM_T _ 0) as [E|E]; [reflexivity|]. exfalso. apply E. cbn. ring.
Qed.

(** the rules are as [interval_to_circle] needs them: its assertion does not fire *)
Lemma wsum_one (xs : list R) : forall ws, length xs = length ws -> wsum (fun _ : R => 1) xs ws = sumR ws.
Proof. induction xs as [|x xs IH]; intros [|w ws] H; try discriminate; [reflexivity|]. rewrite wsum_cons, IH by (cbn in H; lia). unfold sumR. cbn. ring. Qed.
Lemma sum_two xs ws n : length xs = n -> length ws = n -> (forall c F, (length c <= 1)%nat -> (forall x, derivable_pt_lim F x (poly c x)) -> wsum (poly c) xs ws = F 1 - F (-1)) -> sumR ws = 2.
Proof.
  intros L1 L2 H. rewrite <- (wsum_one xs) by lia. specialize (H [1] id (le_n _)). unfold id in H.
  assert (E : wsum (poly [1]) xs ws = 1 - -1) by (apply H; intros x; replace (poly [1] x) with 1 by (unfold poly; cbn; ring); apply derivable_pt_lim_id).
  replace (wsum (fun _ : R => 1) xs ws) with (wsum (poly [1]) xs ws); [rewrite E; ring|]. unfold wsum. f_equal. apply map_ext. intros a. unfold poly. cbn. ring.
Qed.
Theorem C93_rules roots n : finds_roots roots n -> (2 <= n)%nat ->
  exists r l, gr_roots roots n = Some r /\ gl_roots roots n = Some l /\ good_rule r /\ good_rule l /\
  length (fst r) = n /\ length (fst l) = n /\ hd 0 (fst r) = -1 /\ hd 0 (fst l) = -1.
Proof.
  intros FR N. destruct (C93_radau roots n FR ltac:(lia)) as (x1 & w1 & E1 & L1 & M1 & _ & B1 & _ & S1).
  destruct (C93_lobatto roots n FR N) as (x2 & w2 & E2 & L2 & M2 & _ & B2 & _ & S2).
  exists (-1 :: x1, w1), (-1 :: x2 ++ [1], w2). split; [auto|]. split; [auto|]. cbn [fst hd].
  assert (W : forall l, Forall (fun x => -1 < x < 1) l -> Forall (fun x => -1 <= x <= 1) l) by (intros l; apply Forall_impl; intros; lra).
  split; [|split; [|repeat split; auto]].
  - split; [discriminate|]. split; [cbn [fst snd]; lia|]. split; [constructor; [lra|auto]|]. cbn [snd]. apply (sum_two (-1 :: x1) w1 n L1 M1). intros c F L. apply S1. lia.
  - split; [discriminate|]. split; [cbn [fst snd]; lia|]. split; [constructor; [lra|apply Forall_app; split; [auto|constructor; [lra|constructor]]]|].
    cbn [snd]. apply (sum_two (-1 :: x2 ++ [1]) w2 n L2 M2). intros c F L. apply S2. lia.
Qed.

(** zeros of polynomials up to degree two *)
Definition roots2 (p : list R) : list R :=
  match p with
  | [b; a] => [- b / a]
  | [c; b; a] => [(- b - sqrt (b ^ 2 - 4 * a * c)) / (2 * a); (- b + sqrt (b ^ 2 - 4 * a * c)) / (2 * a)]
  | _ => []
  end.
Lemma factors_lead p rs : factors p rs -> exists k, k <> 0 /\ forall x, poly p x = k * prodr rs x.
Proof. intros (_ & c & C & E). exists c. split; auto. Qed.
Lemma roots2_finds : finds_roots roots2 3.
Proof.
  intros p rs L H. assert (LL : length p = S (length rs)) by apply H. destruct (factors_lead _ _ H) as (k & K & E).
  destruct p as [|c [|b [|a [|d p]]]]; cbn [length] in *; [lia|..|lia].
  - destruct rs; [exact H|discriminate].
  - destruct rs as [|r [|s rs]]; try discriminate. pose proof (E 0) as E0. pose proof (E 1) as E1. unfold poly in E0, E1. cbn in E0, E1.
    assert (b = k) by lra. assert (c = - (k * r)) by lra. subst b c. split; [reflexivity|]. exists k. split; [auto|]. intros x. unfold poly. cbn. field. auto.
  - destruct rs as [|r [|s [|t rs]]]; try discriminate. pose proof (E 0) as E0. pose proof (E 1) as E1. pose proof (E (-1)) as E2. unfold poly in E0, E1, E2. cbn in E0, E1, E2.
    assert (c = k * (r * s)) by lra. assert (a = k) by lra. assert (b = - (k * (r + s))) by lra. subst a b c. split; [reflexivity|]. exists k. split; [auto|]. intros x. unfold roots2.
    assert (Q : sqrt ((- (k * (r + s))) ^ 2 - 4 * k * (k * (r * s))) ^ 2 = (k * (r - s)) ^ 2).
    { rewrite <- Rsqr_pow2. rewrite Rsqr_sqrt; [ring|]. replace ((- (k * (r + s))) ^ 2 - 4 * k * (k * (r * s))) with (Rsqr (k * (r - s))) by (unfold Rsqr; ring). apply Rle_0_sqr. }
    set (q := sqrt _) in *. unfold poly. cbn [poly_from fold_right pow].
    transitivity (k * (x * x) - k * (r + s) * x + (((k * (r + s)) ^ 2 - (k * (r - s)) ^ 2) / (4 * k))); [field; auto|]. rewrite <- Q. field. auto.
Qed.
(** three nodes: -1 and (1 +- sqrt 6) / 5; the integral of x^4 is 2/5 *)
Example C93_radau_example : exists xs ws, gr_roots roots2 3 = Some (-1 :: xs, ws) /\ length xs = 2%nat /\
  wsum (fun x => x ^ 4) (-1 :: xs) ws = 2 / 5.
Proof.
  destruct (C93_radau roots2 3 roots2_finds ltac:(lia)) as (xs & ws & E & L & _ & _ & _ & _ & S). exists xs, ws. split; [auto|]. split; [cbn in L; lia|].
  assert (F : forall x, derivable_pt_lim (fun x => / 5 * x ^ 5) x (poly [0; 0; 0; 0; 1] x)).
  { intros x. replace (poly [0; 0; 0; 0; 1] x) with (/ 5 * (INR 5 * x ^ pred 5)) by (unfold poly; cbn; field). apply (derivable_pt_lim_scal (fun x => x ^ 5)), derivable_pt_lim_pow. }
  specialize (S [0; 0; 0; 0; 1] _ ltac:(cbn; lia) F). replace (wsum (fun x => x ^ 4) (-1 :: xs) ws) with (wsum (poly [0; 0; 0; 0; 1]) (-1 :: xs) ws); [rewrite S; cbn; lra|].
  unfold wsum. f_equal. apply map_ext. intros a. unfold poly. cbn. ring.
Qed.
(** Simpson's rule: nodes -1, 0, 1, weights 1/3, 4/3, 1/3 *)
Example C93_lobatto_example : gl_roots roots2 3 = Some ([-1; 0; 1], [1 / 3; 4 / 3; 1 / 3]).
Proof.
  unfold gl_roots. assert (E : legendre 2 = [- / 2; 0; 3 / 2]).
  { unfold legendre. cbn. repeat apply (f_equal2 (@cons R)); try reflexivity; field. }
  rewrite E. assert (RT : roots2 (pderiv [- / 2; 0; 3 / 2]) = [0]) by (unfold roots2; cbn; f_equal; field). rewrite RT. cbn [app mapo].
  rewrite !fdiv_some by (cbn; lra). cbn [obind]. apply f_equal, (f_equal2 pair); [reflexivity|]. repeat apply (f_equal2 (@cons R)); try reflexivity; cbn; field.
Qed.
