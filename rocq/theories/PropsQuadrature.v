(** C28, continued: the quadrature patterns integrate, and which points the grid patterns have. *)
From Coq Require Import Reals List Lra Lia Psatz ZArith Arith Bool.
From Verif Require Import Base SampleModel PropsSample.
Import ListNotations.
Open Scope R_scope.

(** weighted sum of f over points *)
Definition wsum {A} (f : A -> R) (xs : list A) (ws : list R) : R := sumR (map (fun xw => snd xw * f (fst xw)) (combine xs ws)).

Lemma combine_app {A B} (a c : list A) (b d : list B) : length a = length b -> combine (a ++ c) (b ++ d) = combine a b ++ combine c d.
Proof. revert b. induction a as [|x a IH]; intros [|y b] H; cbn in *; try discriminate; [auto|]. rewrite IH by lia. auto. Qed.
Lemma wsum_cons {A} (f : A -> R) x xs w ws : wsum f (x :: xs) (w :: ws) = w * f x + wsum f xs ws. Proof. reflexivity. Qed.
Lemma wsum_app {A} (f : A -> R) xs ys ws vs : length xs = length ws -> wsum f (xs ++ ys) (ws ++ vs) = wsum f xs ws + wsum f ys vs.
Proof. intros H. unfold wsum. rewrite combine_app by auto. rewrite map_app. apply sum_app. Qed.
Lemma wsum_const {A} (f : A -> R) xs w n : n = length xs -> wsum f xs (repeat w n) = w * sumR (map f xs).
Proof.
  intros ->. induction xs as [|x xs IH]; [unfold wsum, sumR; cbn; ring|]. cbn [length repeat map]. rewrite wsum_cons, IH. unfold sumR. cbn. ring.
Qed.
Definition at_polar (rp : R * R) : R * R := (fst rp * cos (snd rp), fst rp * sin (snd rp)).
Lemma map_combine_repeat r p n : n = length p -> map at_polar (combine (repeat r n) p) = map (fun a => at_polar (r, a)) p.
Proof. intros ->. induction p as [|a p IH]; [reflexivity|]. cbn [length repeat combine map]. rewrite IH. auto. Qed.
(** the rings: every radius with every angle *)
Lemma wsum_rings f n p : n = length p -> forall rs ws, length rs = length ws ->
  wsum f (map at_polar (combine (repeat_each n rs) (concat_n (length rs) p))) (map (fun v => v / 2) (repeat_each n (map (fun v => v / INR n) ws))) =
  wsum (fun r => / INR n * sumR (map (fun a => f (at_polar (r, a))) p) / 2) rs ws.
Proof.
  intros N. induction rs as [|r rs IH]; intros [|w ws] L; try discriminate; [reflexivity|].
  cbn [length concat_n map repeat_each]. rewrite combine_app by (rewrite repeat_length; auto). rewrite !map_app, wsum_app.
  - rewrite IH by (cbn in L; lia). rewrite wsum_cons. f_equal. rewrite map_combine_repeat by auto.
    assert (E : map (fun v => v / 2) (repeat (w / INR n) n) = repeat (w / INR n / 2) n).
    { generalize n at 2 4. intros m. induction m as [|m IHm]; [reflexivity|]. cbn. f_equal. auto. }
    rewrite E, wsum_const by (rewrite map_length; auto). rewrite map_map. unfold Rdiv. ring.
  - rewrite !map_length, combine_length, !repeat_length. lia.
Qed.

(** half circle of angles, symmetric about 0 *)
Lemma sum_rev l : sumR (rev l) = sumR l.
Proof. induction l as [|a l IH]; [reflexivity|]. cbn [rev]. rewrite sum_app, IH. unfold sumR. cbn. ring. Qed.
Definition half_angles (n : nat) : list R := map (fun j => PI * ((INR j + / 2) / INR n - / 2)) (seq 0 n).
Lemma half_angles_length n : length (half_angles n) = n. Proof. unfold half_angles. rewrite map_length, seq_length. auto. Qed.
Lemma half_angles_bound n a : (0 < n)%nat -> In a (half_angles n) -> - (PI / 2) < a < PI / 2.
Proof.
  intros N I. apply in_map_iff in I. destruct I as (j & <- & I). apply in_seq in I. pose proof PI_RGT_0 as P.
  assert (0 < INR n) by (apply lt_0_INR; auto). assert (0 <= INR j) by apply pos_INR.
  assert (INR j + 1 <= INR n) by (rewrite <- S_INR; apply le_INR; lia).
  assert (Q : 0 < (INR j + / 2) / INR n < 1).
  { split; [apply Rdiv_lt_0_compat; lra|]. apply (Rmult_lt_reg_r (INR n)); [auto|]. unfold Rdiv. rewrite Rmult_assoc, Rinv_l by lra. lra. }
  nra.
Qed.
Lemma rev_seq n : rev (seq 0 n) = map (fun j => (n - 1 - j)%nat) (seq 0 n).
Proof.
  induction n as [|n IH]; [reflexivity|]. rewrite seq_S at 1. rewrite rev_app_distr, IH. cbn [plus rev app seq map]. f_equal; [lia|].
  rewrite <- seq_shift, map_map. apply map_ext_in. intros j J. apply in_seq in J. lia.
Qed.
Lemma half_angles_sin n : (0 < n)%nat -> sumR (map sin (half_angles n)) = 0.
Proof.
  intros N. assert (NP : 0 < INR n) by (apply lt_0_INR; auto).
  assert (E : sumR (map sin (half_angles n)) = - sumR (map sin (half_angles n))); [|lra].
  rewrite <- (sum_rev (map sin (half_angles n))) at 1. rewrite <- map_rev. unfold half_angles at 1. rewrite <- map_rev, rev_seq, !map_map.
  assert (O : forall l, - sumR l = sumR (map Ropp l)).
  { induction l as [|a l IH]; unfold sumR in *; cbn; [ring|]. rewrite <- IH. ring. }
  rewrite O. unfold half_angles. rewrite !map_map. f_equal. apply map_ext_in. intros j J. apply in_seq in J.
  rewrite <- sin_neg. f_equal. rewrite !minus_INR by lia. cbn [INR]. field. lra.
Qed.

(** both quadrature patterns, for any rule of nodes in [-1, 1]: radial functions are integrated as the
    rule integrates them in x = 2 r^2 - 1, which is the average over the disc; the points cover the half
    x >= 0 of the pupil and are balanced about its axis *)
Theorem C28_exact xw g : good_rule xw ->
  exists ref xy ws, quadrature xw = Some (ref, xy, Some ws) /\
  wsum (fun p => g (fst p ^ 2 + snd p ^ 2)) xy ws = / 2 * wsum (fun x => g ((x + 1) / 2)) (fst xw) (snd xw) /\
  wsum snd xy ws = 0 /\ Forall (fun p => 0 <= fst p) xy.
Proof.
  intros (N & L & F & S). destruct (rule_radii xw F) as (r & E & B & HD). destruct xw as [x w]. cbn [fst snd] in *.
  unfold quadrature, interval_to_circle. cbn [fst snd]. rewrite (proj2 (Nat.eqb_eq _ _) L). cbn [negb]. rewrite E. cbn [obind].
  assert (RX : r = map (fun v => sqrt ((v + 1) / 2)) x).
  { clear - E F. revert r E. induction x as [|a x IH]; intros r E; cbn in E; [injection E as <-; auto|]. inversion F; subst.
    rewrite fsqrt_some in E by lra. cbn in E. destruct (mapo _ x) eqn:M; cbn in E; [|discriminate]. injection E as <-. cbn. f_equal. apply IH; auto. }
  destruct x as [|x0 x]; [contradiction|]. destruct w as [|w0 w]; [discriminate|].
  destruct (HD x0 x eq_refl) as (rt & RT). rewrite RT. cbn [map] in RX. rewrite RX in RT. injection RT as RT.
  fold (half_angles (length (x0 :: x))). set (n := length (x0 :: x)) in *. assert (NP : (0 < n)%nat) by (cbn in n; lia).
  assert (NR : 0 < INR n) by (apply lt_0_INR; auto).
  set (p := half_angles n). assert (LP : n = length p) by (unfold p; rewrite half_angles_length; auto).
  assert (LW : length w = (n - 1)%nat) by (cbn in L; unfold n; cbn; lia).
  assert (LT : length rt = (n - 1)%nat) by (rewrite <- RT, map_length; unfold n; cbn; lia).
  assert (SW : sumR (map (fun v => v / 2) (w0 :: repeat_each n (map (fun v => v / INR n) w))) = 1).
  { rewrite sum_half. unfold sumR at 1. cbn [fold_right]. fold (sumR (repeat_each n (map (fun v => v / INR n) w))). rewrite sum_each by auto.
    unfold sumR in S. cbn [fold_right] in S. fold (sumR w) in S. lra. }
  assert (SW' : sumR (map (fun v => v / 2) (repeat_each n (map (fun v => v / INR n) (w0 :: w)))) = 1).
  { rewrite sum_half, sum_each by auto. lra. }
  (* the mean of a function over one ring *)
  assert (RG : forall v, -1 <= v <= 1 -> / INR n * sumR (map (fun a => g (fst (at_polar (sqrt ((v + 1) / 2), a)) ^ 2 + snd (at_polar (sqrt ((v + 1) / 2), a)) ^ 2)) p) / 2 = / 2 * g ((v + 1) / 2)).
  { intros v V. rewrite (map_ext _ (fun _ => g ((v + 1) / 2))).
    - assert (C : sumR (map (fun _ : R => g ((v + 1) / 2)) p) = INR n * g ((v + 1) / 2)).
      { rewrite LP. clear. induction p as [|a p IH]; [unfold sumR; cbn; ring|]. cbn [length]. rewrite S_INR. unfold sumR in *. cbn [map fold_right]. rewrite IH. ring. }
      rewrite C. field. lra.
    - intros a. f_equal. unfold at_polar. cbn [fst snd]. pose proof (sin2_cos2 a) as SC. unfold Rsqr in SC.
      assert (Q : sqrt ((v + 1) / 2) * sqrt ((v + 1) / 2) = (v + 1) / 2) by (apply sqrt_sqrt; lra).
      replace ((sqrt ((v + 1) / 2) * cos a) ^ 2 + (sqrt ((v + 1) / 2) * sin a) ^ 2) with
        (sqrt ((v + 1) / 2) * sqrt ((v + 1) / 2) * (sin a * sin a + cos a * cos a)) by ring. rewrite SC, Q. ring. }
  assert (RS : forall v, / INR n * sumR (map (fun a => snd (at_polar (v, a))) p) / 2 = 0).
  { intros v. assert (C : sumR (map (fun a => snd (at_polar (v, a))) p) = v * sumR (map sin p)).
    { generalize p. clear. induction p as [|a p IH]; [unfold sumR; cbn; ring|]. unfold sumR in *. cbn [map fold_right]. rewrite IH. unfold at_polar. cbn. ring. }
    rewrite C. unfold p. rewrite half_angles_sin by auto. field. lra. }
  assert (WG : forall xs ws, Forall (fun x => -1 <= x <= 1) xs ->
    wsum (fun r => / INR n * sumR (map (fun a => g (fst (at_polar (r, a)) ^ 2 + snd (at_polar (r, a)) ^ 2)) p) / 2) (map (fun v => sqrt ((v + 1) / 2)) xs) ws =
    / 2 * wsum (fun x => g ((x + 1) / 2)) xs ws).
  { induction xs as [|a xs IH]; intros [|v ws] FX; cbn [map]; try (unfold wsum, sumR; cbn; ring). inversion FX; subst.
    rewrite !wsum_cons, IH, RG by auto. ring. }
  assert (WS : forall xs ws, wsum (fun r => / INR n * sumR (map (fun a => snd (at_polar (r, a))) p) / 2) xs ws = 0).
  { induction xs as [|a xs IH]; intros [|v ws]; try reflexivity. rewrite wsum_cons, IH, RS. ring. }
  assert (HP : forall rs ps, (forall v, In v rs -> 0 <= v) -> (forall a, In a ps -> 0 <= cos a) -> Forall (fun q => 0 <= fst q) (map at_polar (combine rs ps))).
  { intros rs ps R0 P0. apply Forall_forall. intros q I. apply in_map_iff in I. destruct I as ([v a] & <- & I). cbn.
    apply Rmult_le_pos; [apply R0; apply in_combine_l in I; auto|apply P0; apply in_combine_r in I; auto]. }
  assert (CP : forall a, In a p -> 0 <= cos a) by (intros a I; destruct (half_angles_bound n a NP I); apply cos_ge_0; lra).
  assert (CN : forall m a, In a (concat_n m p) -> 0 <= cos a).
  { induction m as [|m IH]; cbn [concat_n]; [contradiction|]. intros a I. apply in_app_iff in I. destruct I; auto. }
  assert (RN : forall v, In v (sqrt ((x0 + 1) / 2) :: rt) -> 0 <= v) by (rewrite <- RT; intros v [<-|I]; [apply sqrt_pos|apply in_map_iff in I; destruct I as (y & <- & _); apply sqrt_pos]).
  inversion F as [|? ? X0 FX]; subst.
  change (fun rp : R * R => (fst rp * cos (snd rp), fst rp * sin (snd rp))) with at_polar.
  destruct (Req_EM_T (sqrt ((x0 + 1) / 2)) 0) as [Z|Z].
  - destruct (Req_EM_T _ 1) as [_|X]; [|contradiction]. cbn [obind]. do 3 eexists. split; [reflexivity|].
    assert (XZ : (x0 + 1) / 2 = 0) by (apply sqrt_eq_0; lra).
    replace (n - 1)%nat with (length (map (fun v => sqrt ((v + 1) / 2)) x)) by (rewrite map_length; unfold n; cbn; lia).
    cbn [combine map]. rewrite !wsum_cons.
    rewrite (wsum_rings (fun q => g (fst q ^ 2 + snd q ^ 2)) n p LP), (wsum_rings snd n p LP) by (rewrite map_length; unfold n in *; cbn in *; lia).
    rewrite WG, WS by auto. split; [|split].
    + unfold at_polar. cbn [fst snd]. rewrite Z, XZ. replace ((0 * cos 0) ^ 2 + (0 * sin 0) ^ 2) with 0 by ring. field.
    + unfold at_polar. cbn [fst snd]. rewrite Z. ring.
    + constructor; [unfold at_polar; cbn; rewrite Z; lra|]. apply HP; [intros v I; apply repeat_each_In in I; apply RN; right; auto|apply CN].
  - destruct (Req_EM_T _ 1) as [_|X]; [|contradiction]. cbn [obind]. do 3 eexists. split; [reflexivity|].
    change (sqrt ((x0 + 1) / 2) :: map (fun v => sqrt ((v + 1) / 2)) x) with (map (fun v => sqrt ((v + 1) / 2)) (x0 :: x)).
    replace (concat_n n p) with (concat_n (length (map (fun v => sqrt ((v + 1) / 2)) (x0 :: x))) p) by (rewrite map_length; auto).
    rewrite (wsum_rings (fun q => g (fst q ^ 2 + snd q ^ 2)) n p LP), (wsum_rings snd n p LP) by (rewrite map_length; auto).
    rewrite WG, WS by auto. split; [auto|]. split; [auto|]. apply HP; [intros v I; apply repeat_each_In in I; apply RN; auto|apply CN].
Qed.
(** the two point Radau rule on [-1, 1] is exact to degree 2: averages 1/2 of r^2 and 1/3 of r^4 over the disc *)
Example C28_exact_example : let rule := ([-1; 1 / 3], [1 / 2; 3 / 2]) in good_rule rule /\
  exists ref xy ws, quadrature rule = Some (ref, xy, Some ws) /\ wsum (fun p => fst p ^ 2 + snd p ^ 2) xy ws = 1 / 2.
Proof.
  intros rule. assert (G : good_rule rule).
  { unfold good_rule. cbn. split; [discriminate|]. split; [auto|]. split; [repeat constructor; lra|unfold sumR; cbn; lra]. }
  split; [auto|]. destruct (C28_exact rule (fun x => x) G) as (ref & xy & ws & Q & H & _). exists ref, xy, ws. split; [auto|].
  rewrite H. unfold rule, wsum, sumR. cbn. lra.
Qed.
(** radii, angles and weights come in equal numbers *)
Theorem C28_lengths x w r p ws : interval_to_circle x w = Some (r, p, ws) -> length r = length p /\ length p = length ws.
Proof.
  unfold interval_to_circle. destruct (Nat.eqb_spec (length x) (length w)) as [L|]; cbn [negb]; [|discriminate].
  destruct (mapo _ x) as [rs|] eqn:E; cbn [obind]; [|discriminate]. apply mapo_length in E.
  destruct rs as [|r0 rt]; [discriminate|]. destruct w as [|w0 wt]; [discriminate|]. cbn [length] in *.
  fold (half_angles (length x)).
  destruct (Req_EM_T r0 0); (destruct (Req_EM_T _ 1); [|discriminate]); intros [= <- <- <-];
    cbn [length map]; rewrite ?map_length, ?app_length, ?repeat_length, ?repeat_each_length, ?concat_n_length, ?half_angles_length, ?map_length; cbn [length]; rewrite ?app_length, ?repeat_each_length, ?repeat_length, ?half_angles_length, ?map_length; nia.
Qed.

Section Oracles.
Variable rand : nat -> list (R * R).
Variable gr_roots gl_roots : nat -> list R * list R.
Let sample := pupil_distribution rand gr_roots gl_roots.
Lemma in_linspace k x : (2 <= k)%nat -> In x (mgrid1 k) <-> exists i, (i < k)%nat /\ x = -1 + 2 * INR i / INR (k - 1).
Proof.
  intros K. destruct k as [|[|m]]; try lia. unfold mgrid1. cbn [linspace]. rewrite in_map_iff. replace (S (S m) - 1)%nat with (S m) by lia.
  assert (0 < INR (S m)) by (apply lt_0_INR; lia). split.
  - intros (i & <- & I). apply in_seq in I. exists i. split; [lia|]. field. lra.
  - intros (i & I & ->). exists i. split; [field; lra|apply in_seq; lia].
Qed.
Lemma nth_mgrid k j : (2 <= k)%nat -> (j < k)%nat -> nth_error (mgrid1 k) j = Some (-1 + 2 * INR j / INR (k - 1)).
Proof.
  intros K J. destruct k as [|[|m]]; try lia. unfold mgrid1. cbn [linspace]. rewrite nth_error_map. replace (S (S m) - 1)%nat with (S m) by lia.
  rewrite (nth_error_nth' (seq 0 (S (S m))) 0%nat) by (rewrite seq_length; lia). rewrite seq_nth by lia. cbn [option_map plus]. f_equal.
  assert (0 < INR (S m)) by (apply lt_0_INR; lia). field. lra.
Qed.
Lemma in_combine_seq {A} (l : list A) : forall s p, In p (combine (seq s (length l)) l) <-> exists j, (j < length l)%nat /\ fst p = (s + j)%nat /\ nth_error l j = Some (snd p).
Proof.
  induction l as [|a l IH]; intros s p; cbn [length seq combine].
  - split; [contradiction|]. intros (j & J & _). cbn in J. lia.
  - cbn [In]. rewrite IH. split.
    + intros [<-|(j & J & F & N)]; [exists 0%nat; cbn; repeat split; lia|]. exists (S j). cbn. repeat split; [lia|lia|auto].
    + intros ([|j] & J & F & N); [left; destruct p as [p1 p2]; cbn in N, F; injection N as ->; f_equal; lia|]. right. exists j. cbn in N. repeat split; [lia|lia|auto].
Qed.
(** square and triangular patterns: the centre and exactly those points of the n by n grid over
    [-1, 1] x [-1, 1] that are in the disc; n is the largest number with n^2 pi/4 <= number of rays.  In the triangular one every
    other row is moved by 2/n.  The number of points does not exceed 1 + n^2 *)
Theorem C28_grids rays n : (2 <= rays)%nat -> (2 <= n)%nat -> PI * INR n ^ 2 <= 4 * INR rays < PI * (INR n + 1) ^ 2 ->
  let node i := -1 + 2 * INR i / INR (n - 1) in
  (exists xy, sample Square rays = Some (0%nat, xy, None) /\ (length xy <= 1 + n * n)%nat /\
     forall p, In p xy <-> p = (0, 0) \/ exists i j, (i < n)%nat /\ (j < n)%nat /\ p = (node i, node j) /\ disc p) /\
  (exists xy, sample Triangular rays = Some (0%nat, xy, None) /\ (length xy <= 1 + n * n)%nat /\
     forall p, In p xy <-> p = (0, 0) \/ exists i j, (i < n)%nat /\ (j < n)%nat /\
       p = (node i + (if Nat.even j then 0 else 2 / INR n), node j) /\ disc p).
Proof.
  intros R2 K2 B node. pose proof PI_RGT_0 as P. pose proof (pos_INR n) as N0.
  assert (T : trunc (sqrt (INR rays * 4 / PI)) = n).
  { set (q := sqrt (INR rays * 4 / PI)). assert (X : 0 <= INR rays * 4 / PI) by (apply Rmult_le_pos; [pose proof (pos_INR rays); lra|left; apply Rinv_0_lt_compat; auto]).
    assert (QQ : q * q = INR rays * 4 / PI) by (apply sqrt_sqrt; auto). assert (Q0 : 0 <= q) by apply sqrt_pos.
    assert (QP : q * q * PI = 4 * INR rays) by (rewrite QQ; field; lra).
    assert (B1 : INR n <= q). { destruct (Rle_dec (INR n) q); [auto|]. exfalso. assert (q * q < INR n * INR n) by nra. nra. }
    assert (B2 : q < INR n + 1). { destruct (Rlt_dec q (INR n + 1)); [auto|]. exfalso. assert ((INR n + 1) * (INR n + 1) <= q * q) by nra. nra. }
    destruct (trunc_spec q _ Q0 eq_refl) as [C D]. set (k := trunc q) in *.
    assert (INR k < INR n + 1) by lra. assert (INR n < INR k + 1) by lra. rewrite <- S_INR in *. apply INR_lt in H, H0. lia. }
  assert (ID : forall p, in_disc p = true <-> disc p).
  { intros p. unfold in_disc, disc. destruct (Rle_dec (fst p ^ 2 + snd p ^ 2) 1); split; auto; intros; try discriminate; nra. }
  assert (LG : forall sh, length (grid n sh) = (n * n)%nat).
  { intros sh. unfold grid. assert (G : forall l, length (flat_map (fun x => map (fun jy => (x + sh (fst jy), snd jy)) (combine (seq 0 n) (mgrid1 n))) l) = (length l * n)%nat).
    { induction l as [|x l IH]; [reflexivity|]. cbn [flat_map]. rewrite app_length, IH, map_length, combine_length, seq_length. unfold mgrid1. rewrite linspace_length. cbn [length]. lia. }
    rewrite G. unfold mgrid1. rewrite linspace_length. auto. }
  assert (FL : forall sh, (length (filter in_disc (grid n sh)) <= n * n)%nat).
  { intros sh. rewrite <- (LG sh). generalize (grid n sh). induction l as [|a l IH]; cbn; [auto|]. destruct (in_disc a); cbn; lia. }
  assert (IG : forall sh p, In p (grid n sh) <-> exists i j, (i < n)%nat /\ (j < n)%nat /\ p = (node i + sh j, node j)).
  { intros sh p. unfold grid. rewrite in_flat_map. split.
    - intros (x & X & I). apply in_linspace in X; [|auto]. destruct X as (i & I' & ->). apply in_map_iff in I. destruct I as ([j y] & <- & J).
      replace n with (length (mgrid1 n)) in J at 1 by (unfold mgrid1; apply linspace_length). apply in_combine_seq in J. destruct J as (j' & J' & F & Y).
      unfold mgrid1 in J'. rewrite linspace_length in J'. cbn in F. subst j'. rewrite nth_mgrid in Y by auto. injection Y as Y.
      exists i, j. cbn [fst snd]. repeat split; auto. rewrite <- Y. auto.
    - intros (i & j & I & J & ->). exists (node i). split; [apply in_linspace; eauto|]. apply in_map_iff. exists (j, node j). split; [reflexivity|].
      replace n with (length (mgrid1 n)) at 1 by (unfold mgrid1; apply linspace_length). apply in_combine_seq. exists j. split; [unfold mgrid1; rewrite linspace_length; auto|].
      split; [auto|]. apply nth_mgrid; auto. }
  unfold sample, pupil_distribution. destruct (Nat.eqb_spec rays 1); [lia|]. rewrite T. cbv zeta. destruct (Nat.eqb_spec n 0); [lia|]. split.
  - eexists. split; [reflexivity|]. split; [cbn [length]; specialize (FL (fun _ => 0)); lia|]. intros p. cbn [In]. rewrite filter_In, ID, IG. split.
    + intros [<-|((i & j & I & J & ->) & D)]; [auto|]. right. rewrite Rplus_0_r in D |- *. exists i, j. auto.
    + intros [->|(i & j & I & J & -> & D)]; [auto|]. right. split; [|auto]. exists i, j. rewrite Rplus_0_r. auto.
  - eexists. split; [reflexivity|]. split; [cbn [length]; specialize (FL (fun j => INR (j mod 2) * (2 / INR n))); lia|]. intros p. cbn [In]. rewrite filter_In, ID, IG.
    assert (M : forall j, INR (j mod 2) * (2 / INR n) = if Nat.even j then 0 else 2 / INR n).
    { intros j. rewrite <- Nat.bit0_mod, Nat.bit0_odd, <- Nat.negb_even. destruct (Nat.even j); cbn; ring. }
    split.
    + intros [<-|((i & j & I & J & ->) & D)]; [auto|]. right. rewrite M in D |- *. exists i, j. auto.
    + intros [->|(i & j & I & J & -> & D)]; [auto|]. right. split; [|auto]. exists i, j. rewrite M. auto.
Qed.
End Oracles.
Example C28_grids_example : (2 <= 8)%nat /\ PI * INR 3 ^ 2 <= 4 * INR 8 < PI * (INR 3 + 1) ^ 2.
Proof.
  split; [lia|]. replace (INR 3) with 3 by (cbn; ring). replace (INR 8) with 8 by (cbn; ring). pose proof PI_ineq 2 as [A B]. cbn in A, B.
  unfold PI_tg, tg_alt in A, B. cbn in A, B. lra.
Qed.
Print Assumptions C28_exact.
Print Assumptions C28_lengths.
Print Assumptions C28_grids.
