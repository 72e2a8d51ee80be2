(** Powers of truncated multinomials (C05). *)
From Coq Require Import Reals List Arith ZArith Lia Lra Bool.
From Verif Require Import Base SimplexModel SimplexEnum SimplexPairs SimplexMul SimplexPowModel.
Import ListNotations.
Open Scope R_scope.

(** generalised binomial coefficients, the Taylor coefficients of (1+x)^p *)
Fixpoint gbinom (p : R) (k : nat) : R :=
  match k with
  | O => 1
  | S k' => gbinom p k' * (p - INR k') / (INR k' + 1)
  end.

Lemma gbinom_S p k : (INR k + 1) * gbinom p (S k) = (p - INR k) * gbinom p k.
Proof. simpl. field. pose proof (pos_INR k). lra. Qed.

Local Notation rsum := (nsum R 0 Rplus).
Local Notation rconv := (conv R 0 Rplus Rmult).
Local Notation rconst := (pconst R 0).
Local Notation rcoef := (coef R 0).

Ltac rth := exact RTheory.

Lemma rsum_S n f : rsum (S n) f = rsum n f + f (S n).
Proof. eapply nsum_S. rth. Qed.
Lemma rsum_0 f : rsum 0 f = f O.
Proof. eapply nsum_0. rth. Qed.
Lemma rsum_ext n f g : (forall i, (i <= n)%nat -> f i = g i) -> rsum n f = rsum n g.
Proof. eapply nsum_ext. Qed.
Lemma rsum_add n f g : rsum n (fun i => f i + g i) = rsum n f + rsum n g.
Proof. unfold nsum. eapply ksum_add. rth. Qed.
Lemma rsum_scale n c f : rsum n (fun i => c * f i) = c * rsum n f.
Proof. unfold nsum. eapply ksum_scale. rth. Qed.
Lemma rsum_shift n f : rsum (S n) f = f O + rsum n (fun i => f (S i)).
Proof. eapply nsum_shift. Qed.
Lemma rsum_zero n f : (forall i, (i <= n)%nat -> f i = 0) -> rsum n f = 0.
Proof.
  intros H. unfold nsum. eapply ksum_zero; [rth|]. intros i Hi. apply in_seq in Hi. apply H. lia.
Qed.

Lemma rsum_pred n f : (1 <= n)%nat -> rsum n f = rsum (n - 1) f + f n.
Proof.
  intros H. destruct n as [|n]; [lia|]. rewrite rsum_S.
  replace (S n - 1)%nat with n by lia. reflexivity.
Qed.

Lemma rsum_shift_pos n f : (1 <= n)%nat -> rsum n f = f O + rsum (n - 1) (fun i => f (S i)).
Proof.
  intros H. destruct n as [|n]; [lia|]. rewrite rsum_shift.
  replace (S n - 1)%nat with n by lia. reflexivity.
Qed.

(** ** Vandermonde for real exponents *)
Lemma vandermonde p q k :
  rsum k (fun i => gbinom p i * gbinom q (k - i)) = gbinom (p + q) k.
Proof.
  induction k as [|k IH].
  - rewrite rsum_0. simpl. ring.
  - pose proof (pos_INR k) as Hk.
    apply Rmult_eq_reg_l with (INR k + 1); [|lra].
    rewrite gbinom_S, <- IH, <- !rsum_scale.
    transitivity (rsum (S k) (fun i => (INR i + INR (S k - i)) * (gbinom p i * gbinom q (S k - i)))).
    { apply rsum_ext. intros i Hi. rewrite <- plus_INR.
      replace (i + (S k - i))%nat with (S k) by lia. rewrite S_INR. ring. }
    transitivity (rsum (S k) (fun i => INR i * gbinom p i * gbinom q (S k - i)) +
                  rsum (S k) (fun i => gbinom p i * (INR (S k - i) * gbinom q (S k - i)))).
    { rewrite <- rsum_add. apply rsum_ext. intros; ring. }
    rewrite rsum_shift. rewrite rsum_S.
    replace (S k - S k)%nat with O by lia.
    replace (INR 0 * gbinom p 0 * gbinom q (S k - 0)) with 0 by (simpl; ring).
    replace (gbinom p (S k) * (INR 0 * gbinom q 0)) with 0 by (simpl; ring).
    rewrite Rplus_0_l, Rplus_0_r, <- rsum_add.
    apply rsum_ext. intros i Hi.
    rewrite S_INR, gbinom_S.
    replace (S k - S i)%nat with (k - i)%nat by lia.
    replace (S k - i)%nat with (S (k - i)) by lia.
    rewrite S_INR, gbinom_S, minus_INR by lia. ring.
Qed.

(** ** Powers of a polynomial without constant term *)
Fixpoint xpow (x : list nat -> R) (k : nat) : list nat -> R :=
  match k with O => rconst 1 | S k' => rconv x (xpow x k') end.

Lemma rconst_nonzero c e : (0 < list_sum e)%nat -> rconst c e = 0.
Proof.
  intros H. unfold pconst. induction e as [|n e IH]; simpl in *; [lia|].
  destruct n; simpl; auto.
Qed.

Lemma xpow_low x k e : x (repeat 0%nat (length e)) = 0 ->
  (list_sum e < k)%nat -> xpow x k e = 0.
Proof.
  revert e. induction k as [|k IH]; intros e Hx He; [lia|]. simpl.
  unfold conv. eapply ksum_zero; [rth|]. intros p Hp. apply in_below in Hp.
  pose proof (Forall2_le_length _ _ Hp) as Hl.
  assert (Hz : list_sum (zip_add p (zip_sub e p)) = list_sum e) by (rewrite zip_add_sub; auto).
  assert (Hl2 : length (zip_sub e p) = length p) by (apply zip_sub_length; lia).
  rewrite zip_add_sum in Hz by lia.
  destruct (Nat.eq_dec (list_sum p) 0) as [E|E].
  - assert (p = repeat 0%nat (length e)) as ->.
    { rewrite <- Hl. clear - E. induction p as [|a p IHp]; simpl in *; auto.
      f_equal; [lia|apply IHp; lia]. }
    rewrite Hx. ring.
  - rewrite IH; [ring| |lia]. rewrite Hl2, Hl. auto.
Qed.

Lemma rconv_ext f f' g g' e :
  (forall p, Forall2 le p e -> f p = f' p) ->
  (forall p, Forall2 le p e -> g p = g' p) ->
  rconv f g e = rconv f' g' e.
Proof. apply conv_ext. Qed.

Lemma xpow_add x i j e : rconv (xpow x i) (xpow x j) e = xpow x (i + j) e.
Proof.
  revert e. induction i as [|i IH]; intros e; simpl.
  - rewrite (conv_const_l R 0 1 Rplus Rmult Rminus Ropp RTheory). ring.
  - rewrite (conv_assoc R 0 1 Rplus Rmult Rminus Ropp RTheory).
    apply rconv_ext; auto.
Qed.

(** truncated binomial series *)
Definition series (x : list nat -> R) (p : R) (n : nat) : list nat -> R :=
  fun e => rsum n (fun k => gbinom p k * xpow x k e).

Lemma rsum_square n (f : nat -> nat -> R) :
  (forall i j, (i <= n)%nat -> (j <= n)%nat -> (n < i + j)%nat -> f i j = 0) ->
  rsum n (fun i => rsum n (f i)) = rsum n (fun i => rsum (n - i) (f i)).
Proof.
  intros H. apply rsum_ext. intros i Hi.
  assert (G : forall k, (k <= i)%nat -> rsum n (f i) = rsum (n - k) (f i)).
  { induction k as [|k IH]; intros Hk.
    - f_equal. lia.
    - rewrite IH by lia. replace (n - k)%nat with (S (n - S k)) by lia.
      rewrite rsum_S. rewrite (H i (S (n - S k))) by lia. ring. }
  apply G. lia.
Qed.

Lemma series_mul x p q n e :
  x (repeat 0%nat (length e)) = 0 -> (list_sum e <= n)%nat ->
  rconv (series x p n) (series x q n) e = series x (p + q) n e.
Proof.
  intros Hx He. unfold series, nsum.
  rewrite (conv_sum_l R 0 1 Rplus Rmult Rminus Ropp RTheory (fun k p0 => gbinom p k * xpow x k p0)).
  transitivity (rsum n (fun i => rsum n (fun j => gbinom p i * gbinom q j * xpow x (i + j) e))).
  { unfold nsum. apply ksum_ext. intros i _.
    rewrite (conv_sum_r R 0 1 Rplus Rmult Rminus Ropp RTheory (fun k p0 => gbinom q k * xpow x k p0)).
    apply ksum_ext. intros j _.
    rewrite (conv_scale_l R 0 1 Rplus Rmult Rminus Ropp RTheory).
    rewrite (conv_comm R 0 1 Rplus Rmult Rminus Ropp RTheory).
    rewrite (conv_scale_l R 0 1 Rplus Rmult Rminus Ropp RTheory).
    rewrite xpow_add. rewrite Nat.add_comm. ring. }
  rewrite rsum_square.
  2: { intros i j _ _ Hij. rewrite xpow_low; auto; [ring|lia]. }
  pose proof (nsum_tri R 0 1 Rplus Rmult Rminus Ropp RTheory n
     (fun k i => gbinom p i * gbinom q (k - i) * xpow x k e)) as Ht. cbv beta in Ht.
  transitivity (rsum n (fun j => rsum (n - j) (fun k => gbinom p j * gbinom q (j + k - j) * xpow x (j + k) e))).
  { apply rsum_ext. intros i Hi. apply rsum_ext. intros j Hj.
    replace (i + j - i)%nat with j by lia. reflexivity. }
  rewrite <- Ht. apply rsum_ext. intros k Hk.
  rewrite <- vandermonde. rewrite Rmult_comm, <- rsum_scale.
  apply rsum_ext. intros i Hi. ring.
Qed.

(** ** The loop computes the series *)
Section Pow.
  Variables (d m : nat) (idx : itable) (jdx : list (list nat)) (abi : list row).
  Hypothesis Hd : (1 <= d)%nat.
  Hypothesis Hm : (1 <= m)%nat.
  Hypothesis Hs : (Z.of_nat (simplex_size d m) <= 65536)%Z.
  Hypothesis Hidx : simplex_idx d m = Some (idx, jdx, abi).
  Local Notation N := (simplex_size d m).

  Let mulconv a b e := mul_conv R 0 1 Rplus Rmult Rminus Ropp RTheory d m idx jdx abi
    Hd Hm Hs Hidx a b e.
  Let mullen a b := mul_length R 0 Rplus Rmult d m idx jdx abi Hd Hm Hs Hidx a b.

  Lemma lookup_scale es c a e : lookup R 0 es (map (fun v => v * c) a) e = lookup R 0 es a e * c.
  Proof.
    revert a. induction es as [|e' es IH]; intros [|x a]; simpl; try ring.
    destruct (tuple_eqb e' e); auto.
  Qed.
  Lemma lookup_scale_l es c a e : lookup R 0 es (rvscale c a) e = c * lookup R 0 es a e.
  Proof.
    unfold rvscale, vscale. revert a. induction es as [|e' es IH]; intros [|x a]; simpl; try ring.
    destruct (tuple_eqb e' e); auto.
  Qed.

  (** updating slot 0 *)
  Lemma coef_upd0 v a e : length a = N -> length e = d -> (list_sum e < m)%nat ->
    rcoef d m (upd 0 v a) e = if (list_sum e =? 0)%nat then v else rcoef d m a e.
  Proof.
    intros Ha Hl Hlt. unfold coef. pose proof (simplex_iter_first d m Hm) as Hf.
    destruct (simplex_iter d m) as [|e0 es]; [discriminate|].
    simpl in Hf. inversion Hf; subst e0.
    pose proof (size_pos d m Hd Hm). destruct a as [|a0 a]; [simpl in Ha; lia|].
    cbn [upd lookup].
    destruct (tuple_eqb (repeat 0%nat d) e) eqn:Et.
    - apply tuple_eqb_eq in Et. subst e.
      replace (list_sum (repeat 0%nat d)) with 0%nat; auto.
      clear. induction d; simpl; auto.
    - destruct (Nat.eqb_spec (list_sum e) 0) as [E|]; auto.
      exfalso. assert (repeat 0%nat d = e) as E2.
      { rewrite <- Hl. clear - E. induction e as [|n e IH]; simpl in *; auto.
        f_equal; [lia|apply IH; lia]. }
      apply tuple_eqb_eq in E2. congruence.
  Qed.

  (** the part without the constant term *)
  Definition xpart (a : list R) : list nat -> R := rcoef d m (upd 0 0 a).

  Lemma xpart_0 a : length a = N -> xpart a (repeat 0%nat d) = 0.
  Proof.
    intros Ha. unfold xpart. assert (Hz : list_sum (repeat 0%nat d) = 0%nat).
    { clear. induction d; simpl; auto. }
    rewrite coef_upd0; auto.
    - rewrite Hz. reflexivity.
    - apply repeat_length.
    - lia.
  Qed.

  Lemma rvadd_length a b : length a = length b -> length (rvadd a b) = length a.
  Proof. intros. unfold rvadd, vadd. rewrite map_length, combine_length. lia. Qed.

  Lemma pow_loop a p n y z :
    length a = N -> length y = N -> length z = N ->
    (forall e, length e = d -> (list_sum e < m)%nat ->
       rcoef d m y e = gbinom p 1 * xpow (xpart a) 1 e) ->
    (forall e, length e = d -> (list_sum e < m)%nat ->
       rcoef d m z e = series (xpart a) p 1 e) ->
    let yz := fold_left (pow_step abi (upd 0 0 a) p) (seq 1 n) (y, z) in
    length (fst yz) = N /\ length (snd yz) = N /\
    (forall e, length e = d -> (list_sum e < m)%nat ->
       rcoef d m (fst yz) e = gbinom p (S n) * xpow (xpart a) (S n) e) /\
    (forall e, length e = d -> (list_sum e < m)%nat ->
       rcoef d m (snd yz) e = series (xpart a) p (S n) e).
  Proof.
    intros Ha Hy Hz Ey Ez. induction n as [|n IH].
    - simpl fold_left. cbn [fst snd]. auto.
    - rewrite seq_S, fold_left_app. cbn zeta in IH.
      destruct (fold_left (pow_step abi (upd 0 0 a) p) (seq 1 n) (y, z)) as [y' z'].
      cbn [fst snd] in IH. destruct IH as (L1 & L2 & E1 & E2).
      replace (1 + n)%nat with (S n) by lia.
      cbn [fold_left]. unfold pow_step. cbn [fst snd].
      assert (Lw : length (rmul abi (upd 0 0 a) y') = N) by apply mullen.
      assert (Ls : forall c, length (rvscale c (rmul abi (upd 0 0 a) y')) = N).
      { intros c. unfold rvscale, vscale. rewrite map_length. auto. }
      assert (Ey' : forall e, length e = d -> (list_sum e < m)%nat ->
        rcoef d m (rvscale ((p - INR (S n)) / (INR (S n) + 1)) (rmul abi (upd 0 0 a) y')) e
        = gbinom p (S (S n)) * xpow (xpart a) (S (S n)) e).
      { intros e Hl Hlt. unfold coef. rewrite lookup_scale_l.
        fold (rcoef d m (rmul abi (upd 0 0 a) y') e). unfold rmul. rewrite mulconv by auto.
        fold (xpart a).
        transitivity ((p - INR (S n)) / (INR (S n) + 1) *
          rconv (xpart a) (fun e => gbinom p (S n) * xpow (xpart a) (S n) e) e).
        - f_equal. apply rconv_ext; auto. intros q Hq. apply E1.
          + apply Forall2_le_length in Hq. lia.
          + apply Forall2_le_sum in Hq. lia.
        - rewrite (conv_comm R 0 1 Rplus Rmult Rminus Ropp RTheory).
          rewrite (conv_scale_l R 0 1 Rplus Rmult Rminus Ropp RTheory).
          rewrite (conv_comm R 0 1 Rplus Rmult Rminus Ropp RTheory).
          change (rconv (xpart a) (xpow (xpart a) (S n)) e) with (xpow (xpart a) (S (S n)) e).
          change (gbinom p (S (S n))) with (gbinom p (S n) * (p - INR (S n)) / (INR (S n) + 1)).
          field. pose proof (pos_INR (S n)). lra. }
      repeat split; auto.
      + rewrite rvadd_length; auto. rewrite Ls. auto.
      + intros e Hl Hlt. unfold coef. unfold rvadd.
        rewrite (lookup_vadd R 0 1 Rplus Rmult Rminus Ropp RTheory) by (rewrite Ls; auto).
        fold (rcoef d m z' e). rewrite E2 by auto.
        unfold coef in Ey'. rewrite Ey' by auto. unfold series. rewrite (rsum_S (S n)). reflexivity.
  Qed.

  (** the whole function, before the final scaling *)
  Definition pow_unscaled (a : list R) (p : R) : list R :=
    let x := upd 0 0 a in
    let y := map (fun v => v * p) x in
    let z := upd 0 (nth 0 y 0 + 1) y in
    snd (fold_left (pow_step abi x p) (seq 1 (m - 1)) (y, z)).

  Lemma pow_unscaled_spec a p :
    length a = N ->
    length (pow_unscaled a p) = N /\
    forall e, length e = d -> (list_sum e < m)%nat ->
      rcoef d m (pow_unscaled a p) e = series (xpart a) p m e.
  Proof.
    intros Ha. unfold pow_unscaled.
    set (y := map (fun v => v * p) (upd 0 0 a)).
    set (z := upd 0 (nth 0 y 0 + 1) y).
    assert (Ly : length y = N) by (unfold y; rewrite map_length, upd_length; auto).
    assert (Lz : length z = N) by (unfold z; rewrite upd_length; auto).
    assert (Ey : forall e, length e = d -> (list_sum e < m)%nat ->
       rcoef d m y e = gbinom p 1 * xpow (xpart a) 1 e).
    { intros e Hl Hlt. unfold y, coef. rewrite lookup_scale.
      fold (rcoef d m (upd 0 0 a) e). fold (xpart a).
      simpl. rewrite (conv_comm R 0 1 Rplus Rmult Rminus Ropp RTheory).
      rewrite (conv_const_l R 0 1 Rplus Rmult Rminus Ropp RTheory). field. }
    assert (Hz0 : nth 0 y 0 = 0).
    { unfold y. pose proof (size_pos d m Hd Hm).
      destruct a as [|a0 a]; [simpl in Ha; lia|]. simpl. ring. }
    assert (Ez : forall e, length e = d -> (list_sum e < m)%nat ->
       rcoef d m z e = series (xpart a) p 1 e).
    { intros e Hl Hlt. unfold z. rewrite coef_upd0 by auto. rewrite Hz0.
      unfold series. rewrite rsum_S, rsum_0.
      destruct (Nat.eqb_spec (list_sum e) 0) as [E|E].
      - rewrite xpow_low with (k := 1%nat); [| |lia].
        2: { rewrite Hl. apply xpart_0; auto. }
        assert (Hr : e = repeat 0%nat d).
        { rewrite <- Hl. clear - E. induction e as [|n e IH]; simpl in *; auto.
          f_equal; [lia|apply IH; lia]. }
        subst e. simpl. unfold pconst.
        replace (forallb _ _) with true.
        2: { clear. induction d; simpl; auto. }
        ring.
      - rewrite Ey by auto. simpl xpow. cbn [xpow]. rewrite (rconst_nonzero 1 e) by lia. ring. }
    pose proof (pow_loop a p (m - 1) y z Ha Ly Lz Ey Ez) as Hp. cbn zeta in Hp.
    destruct Hp as (_ & L & _ & E). split; auto.
    replace (S (m - 1)) with m in E by lia. exact E.
  Qed.

  (** one more term never matters below degree m *)
  Lemma series_trunc a p e : length a = N -> length e = d -> (list_sum e < m)%nat ->
    series (xpart a) p m e = series (xpart a) p (m - 1) e.
  Proof.
    intros Ha Hl Hlt. unfold series. rewrite (rsum_pred m) by auto.
    rewrite (xpow_low (xpart a) m); [ring| |lia].
    rewrite Hl. apply xpart_0; auto.
  Qed.

  Lemma simplex_pow_unit a p :
    length a = N -> nth 0 a 0 = 1 ->
    simplex_pow abi m a p = Some (pow_unscaled a p).
  Proof.
    intros Ha H1. unfold simplex_pow, pow_unscaled.
    pose proof (size_pos d m Hd Hm). destruct a as [|a0 a]; [simpl in Ha; lia|].
    simpl in H1. subst a0.
    destruct (fold_left _ _ _) as [y z]. rewrite cpow_1. simpl.
    f_equal. rewrite <- (map_id z) at 2. apply map_ext. intros; ring.
  Qed.

  Lemma pow_unscaled_add a p q :
    length a = N ->
    rmul abi (pow_unscaled a p) (pow_unscaled a q) = pow_unscaled a (p + q).
  Proof.
    intros Ha. destruct (pow_unscaled_spec a p Ha) as [L1 E1].
    destruct (pow_unscaled_spec a q Ha) as [L2 E2].
    destruct (pow_unscaled_spec a (p + q) Ha) as [L3 E3].
    apply (coef_ext R 0 d m); auto.
    - unfold rmul. rewrite mullen. symmetry. apply simplex_size_length; auto.
    - rewrite L3. symmetry. apply simplex_size_length; auto.
    - intros e Hl Hlt. unfold rmul. rewrite mulconv by auto. rewrite E3 by auto.
      rewrite <- series_mul.
      + apply rconv_ext; intros r Hr; [apply E1|apply E2];
          solve [apply Forall2_le_length in Hr; lia | apply Forall2_le_sum in Hr; lia].
      + rewrite Hl. apply xpart_0; auto.
      + lia.
  Qed.

  Lemma pow_unscaled_0 a : length a = N -> pow_unscaled a 0 = vconst R 0 d m 1.
  Proof.
    intros Ha. destruct (pow_unscaled_spec a 0 Ha) as [L E].
    pose proof (size_pos d m Hd Hm).
    apply (coef_ext R 0 d m); auto.
    - rewrite L. symmetry. apply simplex_size_length; auto.
    - unfold vconst. simpl. rewrite repeat_length, simplex_size_length by auto. lia.
    - intros e Hl Hlt. rewrite E by auto. rewrite coef_vconst by auto.
      unfold series. transitivity (rsum m (fun k => if (k =? 0)%nat then rconst 1 e else 0)).
      + apply rsum_ext. intros k _. destruct k as [|k]; simpl; [ring|].
        assert (G : forall k, gbinom 0 (S k) = 0).
        { clear. induction k as [|k IH]; [simpl; field|].
          change (gbinom 0 (S (S k))) with (gbinom 0 (S k) * (0 - INR (S k)) / (INR (S k) + 1)).
          rewrite IH. field. pose proof (pos_INR (S k)). lra. }
        change (gbinom 0 (S k) * xpow (xpart a) (S k) e = 0). rewrite G. ring.
      + clear - Hm. destruct m as [|n]; [lia|]. rewrite rsum_shift. simpl.
        rewrite rsum_zero; auto. ring.
  Qed.

  Lemma pow_unscaled_1 a : length a = N -> nth 0 a 0 = 1 -> pow_unscaled a 1 = a.
  Proof.
    intros Ha H1. destruct (pow_unscaled_spec a 1 Ha) as [L E].
    apply (coef_ext R 0 d m); auto.
    - rewrite L. symmetry. apply simplex_size_length; auto.
    - rewrite Ha. symmetry. apply simplex_size_length; auto.
    - intros e Hl Hlt. rewrite E by auto.
      unfold series. assert (Hex : exists n, m = S n) by (exists (m - 1)%nat; lia).
      destruct Hex as [n Em].
      transitivity (rconst 1 e + xpart a e).
      + rewrite Em at 1. rewrite rsum_shift. f_equal; [simpl; ring|].
        assert (G : forall k, gbinom 1 (S (S k)) = 0).
        { clear. induction k as [|k IH]; [simpl; field|].
          change (gbinom 1 (S (S (S k)))) with (gbinom 1 (S (S k)) * (1 - INR (S (S k))) / (INR (S (S k)) + 1)).
          rewrite IH. field. pose proof (pos_INR (S (S k))). lra. }
        assert (X1 : xpow (xpart a) 1 e = xpart a e).
        { simpl. rewrite (conv_comm R 0 1 Rplus Rmult Rminus Ropp RTheory).
          rewrite (conv_const_l R 0 1 Rplus Rmult Rminus Ropp RTheory). ring. }
        destruct n as [|n].
        * rewrite rsum_0, X1. simpl. field.
        * rewrite rsum_shift, rsum_zero.
          -- rewrite X1. simpl. field.
          -- intros k _. rewrite G. ring.
      + unfold xpart. rewrite coef_upd0 by auto.
        destruct (Nat.eqb_spec (list_sum e) 0) as [E0|E0].
        * assert (Hr : e = repeat 0%nat d).
          { rewrite <- Hl. clear - E0. induction e as [|x e IH]; simpl in *; auto.
            f_equal; [lia|apply IH; lia]. }
          subst e. unfold coef. rewrite (lookup_nth R 0 _ a 0); [|apply simplex_iter_NoDup|apply simplex_iter_first; lia].
          rewrite H1. unfold pconst. replace (forallb _ _) with true; [ring|].
          clear. induction d; simpl; auto.
        * rewrite rconst_nonzero by lia. ring.
  Qed.

  (** constant term of the result *)
  Lemma pow_unscaled_const a p : length a = N -> nth 0 (pow_unscaled a p) 0 = 1.
  Proof.
    intros Ha. destruct (pow_unscaled_spec a p Ha) as [L E].
    assert (Hz : list_sum (repeat 0%nat d) = 0%nat) by (clear; induction d; simpl; auto).
    specialize (E (repeat 0%nat d) (repeat_length _ _)).
    rewrite Hz in E. specialize (E ltac:(lia)).
    unfold coef in E. rewrite (lookup_nth R 0 _ _ 0) in E; [|apply simplex_iter_NoDup|apply simplex_iter_first; lia].
    rewrite E. unfold series. rewrite (rsum_shift_pos m) by auto. rewrite rsum_zero.
    - simpl. unfold pconst. replace (forallb _ _) with true; [ring|].
      clear. induction d; simpl; auto.
    - intros k _. rewrite xpow_low; [ring| |lia]. rewrite repeat_length. apply xpart_0; auto.
  Qed.

  (** iterated product *)
  Fixpoint vpow (a : list R) (n : nat) : list R :=
    match n with O => vconst R 0 d m 1 | S n' => rmul abi a (vpow a n') end.

  Lemma pow_unscaled_nat a n : length a = N -> nth 0 a 0 = 1 ->
    pow_unscaled a (INR n) = vpow a n.
  Proof.
    intros Ha H1. induction n as [|n IH].
    - simpl. apply pow_unscaled_0; auto.
    - rewrite S_INR, Rplus_comm, <- pow_unscaled_add by auto.
      rewrite pow_unscaled_1 by auto. simpl. rewrite IH. reflexivity.
  Qed.
End Pow.
