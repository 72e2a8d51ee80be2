(** Two real coefficient vectors with the same values are equal (C07, C89). *)
From Coq Require Import Reals List Arith ZArith Lia Lra Bool.
From Verif Require Import SimplexModel SimplexEnum SimplexPairs SimplexMul SimplexEval.
Import ListNotations.
Local Open Scope R_scope.

Lemma sum_bound f n x : 0 <= x <= 1 -> Rabs (sum_f_R0 (fun k => f k * x ^ k) n) <= sum_f_R0 (fun k => Rabs (f k)) n.
Proof.
  intros X. eapply Rle_trans; [apply Rsum_abs|]. apply sum_Rle. intros k _. rewrite Rabs_mult.
  rewrite <- (Rmult_1_r (Rabs (f k))) at 2. apply Rmult_le_compat_l; [apply Rabs_pos|].
  assert (P : 0 <= x ^ k) by (apply pow_le; lra). rewrite Rabs_pos_eq by exact P.
  rewrite <- (pow1 k). apply pow_incr. exact X.
Qed.
(** a polynomial in one variable that vanishes for all positive arguments has no coefficients *)
Lemma poly_zero n : forall f, (forall x, 0 < x -> sum_f_R0 (fun k => f k * x ^ k) n = 0) -> forall k, (k <= n)%nat -> f k = 0.
Proof.
  induction n as [|n IH]; intros f H.
  - intros k Hk. assert (k = 0%nat) by lia. subst k. specialize (H 1 ltac:(lra)). cbn in H. lra.
  - assert (S : forall x, sum_f_R0 (fun k => f k * x ^ k) (S n) = f 0%nat + x * sum_f_R0 (fun k => f (S k) * x ^ k) n).
    { intros x. rewrite decomp_sum by lia. cbn [Nat.pred pow]. rewrite Rmult_1_r, scal_sum. f_equal. apply sum_eq. intros i _. cbn. ring. }
    assert (F0 : f 0%nat = 0).
    { set (M := sum_f_R0 (fun k => Rabs (f (Datatypes.S k))) n).
      assert (MP : 0 <= M) by (unfold M; apply cond_pos_sum; intros; apply Rabs_pos).
      destruct (Req_dec (f 0%nat) 0) as [|NZ]; [assumption|exfalso].
      assert (P : 0 < Rabs (f 0%nat)) by (apply Rabs_pos_lt; exact NZ).
      pose (x := Rmin 1 (Rabs (f 0%nat) / (2 * (M + 1)))).
      assert (XP : 0 < x) by (unfold x; apply Rmin_glb_lt; [lra|apply Rdiv_lt_0_compat; lra]).
      assert (X1 : x <= 1) by apply Rmin_l.
      assert (X2 : x * (2 * (M + 1)) <= Rabs (f 0%nat)).
      { assert (Q : x <= Rabs (f 0%nat) / (2 * (M + 1))) by apply Rmin_r.
        apply (Rmult_le_compat_r (2 * (M + 1))) in Q; [|lra]. unfold Rdiv in Q. rewrite Rmult_assoc, Rinv_l, Rmult_1_r in Q by lra. exact Q. }
      pose proof (H x XP) as E. rewrite S in E.
      pose proof (sum_bound (fun k => f (Datatypes.S k)) n x (conj (Rlt_le _ _ XP) X1)) as Bd. cbv beta in Bd. fold M in Bd.
      assert (A : Rabs (f 0%nat) = x * Rabs (sum_f_R0 (fun k => f (Datatypes.S k) * x ^ k) n)).
      { replace (f 0%nat) with (- (x * sum_f_R0 (fun k => f (Datatypes.S k) * x ^ k) n)) by lra. rewrite Rabs_Ropp, Rabs_mult, (Rabs_pos_eq x) by lra. reflexivity. }
      assert (x * Rabs (sum_f_R0 (fun k => f (Datatypes.S k) * x ^ k) n) <= x * M) by (apply Rmult_le_compat_l; lra).
      nra. }
    intros k Hk. destruct k as [|k]; [exact F0|].
    apply (IH (fun k => f (Datatypes.S k))); [|lia].
    intros x XP. pose proof (H x XP) as E. rewrite S, F0 in E.
    apply (Rmult_eq_reg_l x); lra.
Qed.

Local Notation ksum := (ksum R 0 Rplus).
(** the base [m] digits: distinct exponents below [m] give distinct numbers *)
Fixpoint digits (m : nat) (e : list nat) : nat := match e with [] => 0 | k :: e' => k + m * digits m e' end.
Lemma digits_inj m : (1 <= m)%nat -> forall e e', length e = length e' -> Forall (fun k => (k < m)%nat) e -> Forall (fun k => (k < m)%nat) e' -> digits m e = digits m e' -> e = e'.
Proof.
  intros Hm. induction e as [|k e IH]; intros [|k' e'] L F F' E; cbn in L; try lia; [reflexivity|].
  pose proof (Forall_inv F). pose proof (Forall_inv F'). pose proof (Forall_inv_tail F). pose proof (Forall_inv_tail F'). cbn in E, H, H0.
  assert (k = k' /\ digits m e = digits m e') as [-> E'] by (clear -E H H0; generalize dependent (digits m e); generalize (digits m e'); intros D' D E; assert (D = D') by (destruct (lt_eq_lt_dec D D') as [[?|?]|?]; nia); subst; lia).
  f_equal. apply IH; auto.
Qed.
Fixpoint powers (m d : nat) (x : R) : list R := match d with O => [] | S d' => x :: powers m d' (x ^ m) end.
Lemma powers_length m d x : length (powers m d x) = d.
Proof. revert x. induction d; intros; cbn; auto. Qed.
Lemma mono_powers m d : forall x e, length e = d -> mono R 1 Rmult (powers m d x) e = x ^ digits m e.
Proof.
  assert (K : forall y n, kpow R 1 Rmult y n = y ^ n) by (intros y n; induction n; cbn; congruence).
  induction d as [|d IH]; intros x [|k e] L; cbn in L; try lia; [reflexivity|].
  cbn. rewrite IH by lia. rewrite K, pow_add, pow_mult. reflexivity.
Qed.
(** a list of terms as one polynomial *)
Definition gather (l : list (nat * R)) (k : nat) : R := fold_right (fun t s => (if Nat.eqb (fst t) k then snd t else 0) + s) 0 l.
Lemma single n c j x : (j <= n)%nat -> sum_f_R0 (fun k => (if Nat.eqb j k then c else 0) * x ^ k) n = c * x ^ j.
Proof.
  revert j. induction n as [|n IH]; intros j J.
  - assert (j = 0%nat) by lia. subst. cbn. ring.
  - cbn [sum_f_R0]. destruct (Nat.eqb_spec j (S n)) as [->|N].
    + rewrite (sum_eq _ (fun _ => 0)); [rewrite sum_cte; ring|]. intros i Hi. destruct (Nat.eqb_spec (S n) i); [lia|ring].
    + rewrite IH by lia. ring.
Qed.
Lemma gather_sum n x l : Forall (fun t => (fst t <= n)%nat) l -> sum_f_R0 (fun k => gather l k * x ^ k) n = fold_right (fun t s => snd t * x ^ fst t + s) 0 l.
Proof.
  induction l as [|t l IH]; intros F; cbn [gather fold_right].
  - rewrite (sum_eq _ (fun _ => 0)) by (intros; cbn; ring). rewrite sum_cte. ring.
  - rewrite <- IH by (apply (Forall_inv_tail F)). rewrite <- (single n (snd t) (fst t) x) by (apply (Forall_inv F)).
    rewrite <- sum_plus. apply sum_eq. intros i _. unfold gather. ring.
Qed.
Lemma gather_in l t : NoDup (map fst l) -> In t l -> gather l (fst t) = snd t.
Proof.
  induction l as [|a l IH]; intros N I; [contradiction|]. cbn [map] in N. inversion N as [|? ? NI N']; subst. cbn [gather fold_right].
  assert (Z : forall k, ~ In k (map fst l) -> gather l k = 0).
  { clear. intros k. induction l as [|b l IH]; intros H; cbn; [reflexivity|]. fold (gather l k). rewrite IH by (intro; apply H; right; auto).
    destruct (Nat.eqb_spec (fst b) k); [exfalso; apply H; left; auto|ring]. }
  fold (gather l (fst t)). destruct I as [->|I].
  - rewrite Nat.eqb_refl, Z by auto. ring.
  - destruct (Nat.eqb_spec (fst a) (fst t)) as [E|_]; [exfalso; apply NI; rewrite E; apply in_map; auto|]. rewrite IH by auto. ring.
Qed.
Lemma terms_zero l : NoDup (map fst l) -> (forall x, 0 < x -> fold_right (fun t s => snd t * x ^ fst t + s) 0 l = 0) -> forall t, In t l -> snd t = 0.
Proof.
  intros N H t I. set (n := list_max (map fst l)).
  assert (F : Forall (fun t => (fst t <= n)%nat) l).
  { apply Forall_forall. intros a Ha. assert (G : Forall (fun k => (k <= n)%nat) (map fst l)) by (apply list_max_le; unfold n; lia).
    rewrite Forall_forall in G. apply G, in_map, Ha. }
  rewrite <- (gather_in l t N I). apply (poly_zero n).
  - intros x X. rewrite gather_sum by exact F. apply H, X.
  - rewrite Forall_forall in F. apply F, I.
Qed.

Lemma value_determines d m c : (1 <= d)%nat -> (1 <= m)%nat ->
  (forall x, length x = d -> pvalue R 0 1 Rplus Rmult d m c x = 0) -> forall e, length e = d -> (list_sum e < m)%nat -> c e = 0.
Proof.
  intros Hd Hm H e L S.
  pose (l := map (fun e => (digits m e, c e)) (simplex_iter d m)).
  assert (In e (simplex_iter d m)) as I by (apply simplex_iter_spec; auto).
  change (c e) with (snd (digits m e, c e)). apply (terms_zero l).
  - unfold l. rewrite map_map. cbn [fst].
    assert (B : forall e, In e (simplex_iter d m) -> length e = d /\ Forall (fun k => (k < m)%nat) e).
    { intros e' I'. apply simplex_iter_spec in I'; [|auto]. destruct I' as [I1 I2]. split; [exact I1|].
      clear -I2. revert m I2. induction e' as [|k e IH]; intros; [constructor|]. change (list_sum (k :: e)) with (k + list_sum e)%nat in I2. constructor; [lia|apply IH; lia]. }
    pose proof (simplex_iter_NoDup d m) as N. revert B N. generalize (simplex_iter d m). clear -Hm.
    induction l as [|e l IH]; intros B N; cbn; [constructor|]. inversion N as [|? ? NI N']; subst. constructor; [|apply IH; auto; intros; apply B; right; auto].
    intros I. apply in_map_iff in I. destruct I as (e' & E & I). destruct (B e) as [B1 B2]; [left; auto|]. destruct (B e') as [B3 B4]; [right; auto|].
    apply NI. rewrite <- (digits_inj m Hm e' e) by (auto; congruence). exact I.
  - intros x X. etransitivity; [|apply (H (powers m d x) (powers_length _ _ _))]. unfold pvalue, l. clear.
    assert (Q : forall es, (forall e, In e es -> length e = d) -> fold_right (fun t s => snd t * x ^ fst t + s) 0 (map (fun e => (digits m e, c e)) es) = ksum (fun e => c e * mono R 1 Rmult (powers m d x) e) es).
    { induction es as [|e es IH]; intros Q; cbn; [reflexivity|]. rewrite IH by (intros; apply Q; right; auto). rewrite mono_powers by (apply Q; left; auto). reflexivity. }
    apply Q. intros e I. destruct d; [destruct I as [<-|[]]; reflexivity|]. apply simplex_iter_spec in I; [tauto|lia].
  - unfold l. apply in_map_iff. exists e. auto.
Qed.
Theorem same_values d m a b : (1 <= d)%nat -> (1 <= m)%nat -> length a = simplex_size d m -> length b = simplex_size d m ->
  (forall x, length x = d -> pvalue R 0 1 Rplus Rmult d m (coef R 0 d m a) x = pvalue R 0 1 Rplus Rmult d m (coef R 0 d m b) x) -> a = b.
Proof.
  intros Hd Hm LA LB H. apply (coef_ext R 0 d m); auto; try (rewrite simplex_size_length; auto).
  intros e L S. apply Rminus_diag_uniq. apply (value_determines d m (fun e => coef R 0 d m a e - coef R 0 d m b e)); auto.
  intros x X. specialize (H x X). unfold pvalue in *. 
  assert (Q : forall es, ksum (fun e => (coef R 0 d m a e - coef R 0 d m b e) * mono R 1 Rmult x e) es = ksum (fun e => coef R 0 d m a e * mono R 1 Rmult x e) es - ksum (fun e => coef R 0 d m b e * mono R 1 Rmult x e) es).
  { induction es as [|e' es IH]; unfold SimplexMul.ksum in *; cbn [fold_right]; [ring|]. rewrite IH. ring. }
  rewrite Q, H. ring.
Qed.
