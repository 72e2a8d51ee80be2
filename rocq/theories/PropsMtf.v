(** Property C67: contrast and encircled energy of the point spread function. *)
From Coq Require Import Reals List Lra Lia Psatz Arith ZArith.
From Verif Require Import Base Cx SumsModel PropsSums PsfModel PropsPsf MtfModel.
Import ListNotations.
Open Scope R_scope.

Lemma div2_bounds m : (2 * (m / 2) <= m < 2 * (m / 2) + 2)%nat.
Proof. pose proof (Nat.div_mod m 2 ltac:(lia)). pose proof (Nat.mod_upper_bound m 2 ltac:(lia)). lia. Qed.
Lemma shift_unshift m q : (q < m)%nat -> shift m (unshift m q) = q.
Proof.
  intros Q. unfold shift, unshift. rewrite Nat.add_mod_idemp_l by lia. pose proof (div2_bounds m). replace (q + m / 2 + (m - m / 2))%nat with (q + 1 * m)%nat by lia.
  rewrite Nat.mod_add by lia. apply Nat.mod_small. auto.
Qed.
Lemma rsum_front n f : rsum (S n) f = f 0%nat + rsum n (fun i => f (S i)).
Proof. induction n as [|n IH]; [cbn; ring|]. change (rsum (S (S n)) f) with (rsum (S n) f + f (S n)). rewrite IH. cbn [rsum]. ring. Qed.
Lemma rsum_rotate m g s : rsum m (fun p => g ((p + s) mod m)%nat) = rsum m g.
Proof.
  destruct m as [|m]; [reflexivity|]. induction s as [|s IH].
  - apply rsum_ext. intros i I. rewrite Nat.add_0_r, Nat.mod_small by auto. reflexivity.
  - rewrite <- IH. rewrite (rsum_front m (fun p => g ((p + s) mod S m)%nat)). cbn [rsum]. rewrite Rplus_comm. f_equal.
    + f_equal. replace (m + S s)%nat with (s + 1 * S m)%nat by lia. rewrite Nat.mod_add by lia. reflexivity.
    + apply rsum_ext. intros i I. f_equal. f_equal. lia.
Qed.
Lemma rsum_shift m g : rsum m (fun p => g (shift m p)) = rsum m g.
Proof. apply (rsum_rotate m g (m - m / 2)). Qed.
Lemma cis_mod m l q : (0 < m)%nat -> cis (-2 * PI * (INR (l mod m) * INR q / INR m)) = cis (-2 * PI * (INR l * INR q / INR m)).
Proof.
  intros M. assert (MP : 0 < INR m) by (apply lt_0_INR; auto). rewrite <- (cis_turn_neg (-2 * PI * (INR (l mod m) * INR q / INR m)) (l / m * q)). f_equal.
  pose proof (Nat.div_mod l m ltac:(lia)) as D. rewrite D at 3. rewrite plus_INR, !mult_INR. field. lra.
Qed.
(** Wiener and Khinchin *)
Lemma autocorrelation m b k : (0 < m)%nat ->
  csum m (fun q => cmul (rc (cabs2 (csum m (fun l => cmul (b l) (cis (-2 * PI * (INR l * INR q / INR m))))))) (cis (2 * PI * (INR q * INR k / INR m)))) =
  cmul (rc (INR m)) (csum m (fun l => cmul (b ((l + k) mod m)%nat) (conj (b l)))).
Proof.
  intros M. assert (MP : 0 < INR m) by (apply lt_0_INR; auto).
  set (e := fun l q => cis (-2 * PI * (INR l * INR q / INR m))).
  transitivity (csum m (fun q => csum m (fun l => csum m (fun l' => cmul (cmul (b l') (conj (b l))) (cmul (e l' q) (conj (e ((l + k) mod m)%nat q))))))).
  - apply csum_ext. intros q _. rewrite <- cabs2_conj. rewrite csum_conj.
    set (W := cis (2 * PI * (INR q * INR k / INR m))). set (Z := csum m (fun l => cmul (b l) (e l q))).
    change (cmul (cmul Z (csum m (fun i => conj (cmul (b i) (e i q))))) W = csum m (fun l => csum m (fun l' => cmul (cmul (b l') (conj (b l))) (cmul (e l' q) (conj (e ((l + k) mod m)%nat q)))))).
    transitivity (cmul (cmul Z W) (csum m (fun i => conj (cmul (b i) (e i q))))); [clearbody Z W; ring|]. rewrite <- csum_mul. apply csum_ext. intros l _.
    assert (CW : cmul W (conj (e l q)) = conj (e ((l + k) mod m)%nat q)).
    { unfold e, W. rewrite cis_mod by auto. rewrite !cis_conj, <- cis_add. f_equal. rewrite plus_INR. field. lra. }
    transitivity (cmul (cmul (conj (b l)) (cmul W (conj (e l q)))) Z); [rewrite conj_mul; clearbody Z W; ring|]. rewrite CW. unfold Z. rewrite <- csum_mul. apply csum_ext. intros l' _. ring.
  - rewrite csum_swap. rewrite <- csum_mul. apply csum_ext. intros l L. rewrite csum_swap.
    assert (ML : ((l + k) mod m < m)%nat) by (apply Nat.mod_upper_bound; lia).
    rewrite (csum_one m _ ((l + k) mod m)%nat ML).
    + rewrite (csum_mul m (fun q => cmul (e ((l + k) mod m)%nat q) (conj (e ((l + k) mod m)%nat q)))). unfold e. rewrite roots_orth by auto. destruct (Nat.eq_dec _ _); [ring|congruence].
    + intros l' L' NE. rewrite (csum_mul m (fun q => cmul (e l' q) (conj (e ((l + k) mod m)%nat q)))). unfold e. rewrite roots_orth by auto. destruct (Nat.eq_dec _ _); [congruence|ring].
Qed.
Lemma fft2_transpose n m a p q : fft2 n m m a p q = fft2 n m m (fun j k => a k j) q p.
Proof.
  unfold fft2. rewrite csum_swap. apply csum_ext. intros k _. apply csum_ext. intros j _. unfold padded. rewrite Bool.andb_comm. f_equal.
  f_equal. ring.
Qed.
(** sums over one axis of the intensity are sums of one dimensional intensities *)
Lemma line_intensity n m a q : (0 < m)%nat ->
  rsum m (fun p => cabs2 (fft2 n m m a p q)) = INR m * rsum m (fun j => cabs2 (csum m (fun l => cmul (padded n a j l) (cis (-2 * PI * (INR l * INR q / INR m)))))).
Proof.
  intros M. rewrite <- (parseval m (fun j => csum m (fun l => cmul (padded n a j l) (cis (-2 * PI * (INR l * INR q / INR m))))) M).
  apply rsum_ext. intros p _. f_equal. unfold fft2. apply csum_ext. intros j _.
  transitivity (cmul (cis (-2 * PI * (INR j * INR p / INR m))) (csum m (fun l => cmul (padded n a j l) (cis (-2 * PI * (INR l * INR q / INR m)))))); [|ring].
  rewrite <- csum_mul. apply csum_ext. intros l _. rewrite Rmult_plus_distr_l, cis_add. ring.
Qed.
Lemma transfer_sum axis m f k : (0 < m)%nat -> transfer axis m f k =
  csum m (fun q => cmul (rc (match axis with O => rsum m (fun p => f p q) | _ => rsum m (fun p => f q p) end)) (cis (2 * PI * (INR q * INR k / INR m)))).
Proof.
  intros M. assert (MP : 0 < INR m) by (apply lt_0_INR; auto). unfold transfer. rewrite <- csum_mul. apply csum_ext. intros q Q.
  rewrite mult_INR, sqrt_square by lra.
  assert (E : line_spread axis m f (unshift m q) = match axis with O => rsum m (fun p => f p q) | _ => rsum m (fun p => f q p) end).
  { unfold line_spread, shifted. rewrite shift_unshift by auto. destruct axis; [apply (rsum_shift m (fun p => f p q))|apply (rsum_shift m (fun p => f q p))]. }
  rewrite E. set (L := match axis with O => _ | _ => _ end). clearbody L. apply cx_eq; cbn; field; lra.
Qed.
(** the values of the point spread function *)
Definition values (n pad : nat) (o : nat -> nat -> option R) (f : nat -> nat -> R) : Prop := forall p q, psf n pad o p q = Some (f p q).
Definition transposed {A} (o : nat -> nat -> A) (j k : nat) : A := o k j.
Lemma count_transposed n o : count_good n (transposed o) = count_good n o.
Proof. unfold count_good, transposed. apply (rsum_swap n n (fun j k => match o k j with Some _ => 1 | None => 0 end)). Qed.
Lemma transfer_autocorrelation n pad o f j0 k0 w0 k axis : (2 <= pad)%nat -> (j0 < n)%nat -> (k0 < n)%nat -> o j0 k0 = Some w0 -> values n pad o f ->
  (2 * k <= n * pad)%nat ->
  transfer axis (n * pad) f k = csum n (fun j => csum n (fun l =>
    let a := amplitude n (match axis with O => o | _ => transposed o end) in if Nat.ltb (l + k) n then cmul (a j (l + k)%nat) (conj (a j l)) else c0)).
Proof.
  intros P J K W V KM. set (m := (n * pad)%nat) in *. assert (M : (2 * n <= m)%nat) by (unfold m; nia). assert (M0 : (0 < m)%nat) by lia. assert (MP : 0 < INR m) by (apply lt_0_INR; auto).
  set (a := amplitude n (match axis with O => o | _ => transposed o end)).
  rewrite transfer_sum by auto.
  assert (F : forall p q, f p q = cabs2 (fft2 n m m (amplitude n o) p q) / (INR m * INR m)).
  { intros p q. pose proof (psf_some n pad o j0 k0 w0 p q ltac:(lia) J K W) as E. rewrite (V p q) in E. injection E as ->. reflexivity. }
  assert (AT : forall i l, amplitude n (transposed o) i l = amplitude n o l i) by (intros i l; unfold amplitude; rewrite count_transposed; reflexivity).
  assert (LS : forall q, match axis with O => rsum m (fun p => f p q) | _ => rsum m (fun p => f q p) end =
    / INR m * rsum m (fun j => cabs2 (csum m (fun l => cmul (padded n a j l) (cis (-2 * PI * (INR l * INR q / INR m))))))).
  { intros q. transitivity (/ (INR m * INR m) * rsum m (fun p => cabs2 (fft2 n m m a p q))).
    - rewrite <- rsum_mul. destruct axis; apply rsum_ext; intros p _; rewrite F; unfold a.
      + field. lra.
      + rewrite (fft2_transpose n m (amplitude n o) q p). replace (fft2 n m m (fun j k => amplitude n o k j) p q) with (fft2 n m m (amplitude n (transposed o)) p q); [field; lra|].
        unfold fft2. apply csum_ext. intros i _. apply csum_ext. intros l _. unfold padded. rewrite AT. reflexivity.
    - rewrite line_intensity by auto. field. lra. }
  rewrite (csum_ext m _ (fun q => csum m (fun j => cmul (rc (/ INR m)) (cmul (rc (cabs2 (csum m (fun l => cmul (padded n a j l) (cis (-2 * PI * (INR l * INR q / INR m))))))) (cis (2 * PI * (INR q * INR k / INR m))))))).
  2:{ intros q Q. rewrite (LS q). rewrite csum_mul.
      transitivity (cmul (cmul (rc (/ INR m)) (cis (2 * PI * (INR q * INR k / INR m)))) (csum m (fun j => rc (cabs2 (csum m (fun l => cmul (padded n a j l) (cis (-2 * PI * (INR l * INR q / INR m)))))))) ).
      - rewrite csum_rc. set (X := rsum m _). set (C := cis _). clearbody X C. apply cx_eq; cbn; ring.
      - set (C := cis (2 * PI * (INR q * INR k / INR m))). transitivity (cmul (rc (/ INR m)) (cmul C (csum m (fun j => rc (cabs2 (csum m (fun l => cmul (padded n a j l) (cis (-2 * PI * (INR l * INR q / INR m))))))))))  ; [ring|].
        f_equal. rewrite <- csum_mul. apply csum_ext. intros j _. ring. }
  rewrite csum_swap. rewrite (csum_cut n m); [|lia|].
  2:{ intros j JM. rewrite csum_mul, (autocorrelation m (fun l => padded n a j l) k M0). rewrite (csum_ext m _ (fun _ => c0)); [rewrite csum_zero; ring|].
      intros l _. unfold padded. destruct (Nat.ltb_spec j n); [lia|]. cbn [andb]. ring. }
  apply csum_ext. intros j JN. rewrite csum_mul, (autocorrelation m (fun l => padded n a j l) k M0).
  transitivity (csum m (fun l => cmul (padded n a j ((l + k) mod m)%nat) (conj (padded n a j l)))).
  { set (X := csum m _). clearbody X. apply cx_eq; cbn; field; lra. }
  rewrite (csum_cut n m); [|lia|].
  2:{ intros l LM. unfold padded at 2. destruct (Nat.ltb_spec l n); [lia|]. rewrite Bool.andb_false_r. apply cx_eq; cbn; ring. }
  apply csum_ext. intros l L. rewrite Nat.mod_small by lia. unfold padded. destruct (Nat.ltb_spec j n); [|lia]. destruct (Nat.ltb_spec l n); [|lia]. cbn [andb].
  destruct (Nat.ltb (l + k) n); [reflexivity|]. ring.
Qed.
(** * contrast *)
(** difference of the wave front errors of two pupil points [k] apart along the second index, where both exist *)
Definition sheared (n : nat) (o : nat -> nat -> option R) (k j l : nat) : option R :=
  if Nat.ltb (l + k) n then do a <- o j (l + k)%nat; do b <- o j l; Some (a - b) else None.
Definition over (n : nat) (g : R -> R) (d : nat -> nat -> option R) : R :=
  rsum n (fun j => rsum n (fun l => match d j l with Some x => g x | None => 0 end)).
Lemma pair_amplitude n o k j l : 0 < count_good n o ->
  (if Nat.ltb (l + k) n then cmul (amplitude n o j (l + k)%nat) (conj (amplitude n o j l)) else c0) =
  cmul (rc (/ count_good n o)) (match sheared n o k j l with Some x => cis (-2 * PI * x) | None => c0 end).
Proof.
  intros C. unfold sheared. destruct (Nat.ltb (l + k) n); [|ring]. unfold amplitude. set (N := count_good n o) in *. assert (S : 0 < sqrt N) by (apply sqrt_lt_R0; auto).
  assert (Q : sqrt N * sqrt N = N) by (apply sqrt_sqrt; lra). set (s := sqrt N) in *.
  destruct (o j (l + k)%nat) as [a|]; cbn [obind]; [|ring]. destruct (o j l) as [b|]; cbn [obind]; [|apply cx_eq; cbn; ring].
  assert (D : forall z, cdiv z (rc s) = cmul (rc (/ s)) z). { intros z. unfold cdiv. apply cx_eq; cbn; unfold cabs2; cbn; field; nra. }
  rewrite !D, conj_mul, cis_conj. replace (-2 * PI * (a - b)) with (-2 * PI * a + - (-2 * PI * b)) by ring. rewrite cis_add, <- Q.
  set (A := cis (-2 * PI * a)). set (B := cis (- (-2 * PI * b))). clearbody A B. apply cx_eq; cbn; field; lra.
Qed.
Lemma over_sum n d (f : R -> cx) : csum n (fun j => csum n (fun l => match d j l with Some x => f x | None => c0 end)) =
  Cx (over n (fun x => re (f x)) d) (over n (fun x => im (f x)) d).
Proof.
  unfold over. assert (G : forall m (h : nat -> cx), csum m h = Cx (rsum m (fun i => re (h i))) (rsum m (fun i => im (h i)))).
  { clear. induction m as [|m IH]; intros h; [reflexivity|]. cbn. rewrite IH. reflexivity. }
  rewrite G. apply f_equal2; apply rsum_ext; intros j _; rewrite G; cbn [re im]; apply rsum_ext; intros l _; destruct (d j l); reflexivity.
Qed.
Lemma over_bound n d : sqrt (over n (fun x => cos (2 * PI * x)) d ^ 2 + over n (fun x => sin (2 * PI * x)) d ^ 2) <= over n (fun _ => 1) d.
Proof.
  set (C := over n (fun x => cos (2 * PI * x)) d). set (S := over n (fun x => sin (2 * PI * x)) d). set (N := over n (fun _ => 1) d).
  set (r := sqrt (C ^ 2 + S ^ 2)). assert (P : 0 <= C ^ 2 + S ^ 2) by nra. assert (R2 : r * r = C ^ 2 + S ^ 2) by (apply sqrt_sqrt; auto). assert (R0 : 0 <= r) by apply sqrt_pos.
  assert (LE : C ^ 2 + S ^ 2 <= r * N).
  { replace (C ^ 2 + S ^ 2) with (C * C + S * S) by ring. unfold C at 2, S at 2, N, over. rewrite <- !rsum_mul, <- rsum_add. apply rsum_le. intros j _.
    rewrite <- !rsum_mul, <- rsum_add. apply rsum_le. intros l _. destruct (d j l) as [x|]; [|lra]. rewrite Rmult_1_r.
    apply Rsqr_incr_0_var; [|auto]. unfold Rsqr. rewrite R2. pose proof (sin2_cos2 (2 * PI * x)) as SC. unfold Rsqr in SC.
    set (c := cos (2 * PI * x)) in *. set (s := sin (2 * PI * x)) in *. pose proof (Rle_0_sqr (C * s - S * c)) as H. unfold Rsqr in H. nra. }
  destruct (Rle_lt_dec r N) as [|LT]; [auto|]. exfalso. destruct (Rle_lt_or_eq_dec 0 r R0) as [RP|RZ]; [nra|].
  assert (N0 : 0 <= N) by (unfold N, over; apply rsum_nonneg; intros j; apply rsum_nonneg; intros l; destruct (d j l); lra). lra.
Qed.
(** The contrast curve: at entry k the modulus of the normalised autocorrelation of the pupil with itself, sheared by k
    steps: the phase factors of the differences of the wave front error, added over all pairs of pupil points k steps
    apart.  It starts at one, stays below the part of the pupil that overlaps and reaches it without aberrations. *)
Theorem C67_contrast n pad o f x axis k q v j0 k0 w0 : (2 <= pad)%nat -> (j0 < n)%nat -> (k0 < n)%nat -> o j0 k0 = Some w0 -> values n pad o f ->
  nth_error (contrast axis (n * pad) f x) k = Some (q, v) ->
  let d := sheared n (match axis with O => o | _ => transposed o end) k in
  let overlap := over n (fun _ => 1) d / count_good n o in
  v = sqrt (over n (fun x => cos (2 * PI * x)) d ^ 2 + over n (fun x => sin (2 * PI * x)) d ^ 2) / count_good n o /\
  0 <= v <= overlap /\ overlap <= 1 /\ (k = 0%nat -> v = 1) /\ ((forall j l w, o j l = Some w -> w = w0) -> v = overlap).
Proof.
  intros P J K W V NE d overlap. pose proof (count_pos n o j0 k0 w0 J K W) as CP. set (N := count_good n o) in *.
  unfold contrast in NE. rewrite nth_error_map in NE. destruct (nth_error (seq 0 (n * pad / 2)) k) as [k'|] eqn:SQ; [|discriminate]. cbn in NE.
  assert (KL : (k < n * pad / 2)%nat) by (rewrite <- (seq_length (n * pad / 2) 0); apply nth_error_Some; congruence).
  rewrite (nth_error_nth' _ 0%nat) in SQ by (rewrite seq_length; auto). rewrite seq_nth in SQ by auto. injection SQ as <-. cbn [plus] in *.
  injection NE as _ <-. pose proof (div2_bounds (n * pad)) as DB.
  set (o' := match axis with O => o | _ => transposed o end) in *.
  assert (CN : count_good n o' = N) by (unfold o'; destruct axis; [reflexivity|apply count_transposed]).
  rewrite (transfer_autocorrelation n pad o f j0 k0 w0 k axis P J K W V ltac:(lia)). fold o'. cbv zeta.
  rewrite (csum_ext n _ (fun j => cmul (rc (/ N)) (csum n (fun l => match d j l with Some x => cis (-2 * PI * x) | None => c0 end)))).
  2:{ intros j _. rewrite <- csum_mul. apply csum_ext. intros l _. rewrite (pair_amplitude n o' k j l) by (rewrite CN; auto). rewrite CN. reflexivity. }
  rewrite csum_mul, over_sum. set (C := over n (fun x => cos (2 * PI * x)) d). set (S := over n (fun x => sin (2 * PI * x)) d).
  assert (CE : over n (fun x => re (cis (-2 * PI * x))) d = C).
  { unfold C, over. apply rsum_ext. intros j _. apply rsum_ext. intros l _. destruct (d j l); [|auto]. cbn. rewrite <- (cos_neg (2 * PI * r)). f_equal. ring. }
  assert (SE : over n (fun x => im (cis (-2 * PI * x))) d = - S).
  { unfold S, over. replace (- rsum n _) with (-1 * rsum n (fun j => rsum n (fun l => match d j l with Some x => sin (2 * PI * x) | None => 0 end))) by ring.
    rewrite <- rsum_mul. apply rsum_ext. intros j _. rewrite <- rsum_mul. apply rsum_ext. intros l _. destruct (d j l); [|ring]. cbn. replace (-2 * PI * r) with (- (2 * PI * r)) by ring. rewrite sin_neg. ring. }
  rewrite CE, SE. rewrite cabs2_mul.
  assert (VE : sqrt (cabs2 (rc (/ N)) * cabs2 (Cx C (- S))) = sqrt (C ^ 2 + S ^ 2) / N).
  { unfold cabs2. cbn [re im rc]. replace ((/ N * / N + 0 * 0) * (C * C + - S * - S)) with ((/ N * / N) * (C ^ 2 + S ^ 2)) by ring. assert (0 < / N) by (apply Rinv_0_lt_compat; auto).
    rewrite sqrt_mult by nra. rewrite sqrt_square by lra. field. lra. }
  rewrite VE. split; [reflexivity|].
  assert (B := over_bound n d). fold C S in B. assert (NI : 0 < / N) by (apply Rinv_0_lt_compat; auto).
  split; [split; [apply Rmult_le_pos; [apply sqrt_pos|lra]|unfold overlap; apply Rmult_le_compat_r; [lra|exact B]]|].
  assert (OV : over n (fun _ => 1) d <= N).
  { rewrite <- CN. unfold over, count_good. apply rsum_le. intros j _. apply rsum_le. intros l _. unfold d, sheared. destruct (Nat.ltb (l + k) n); [|destruct (o' j l); lra].
    destruct (o' j (l + k)%nat); cbn [obind]; destruct (o' j l); cbn [obind]; lra. }
  split; [unfold overlap; apply (Rmult_le_reg_r N); [auto|]; unfold Rdiv; rewrite Rmult_assoc, Rinv_l by lra; lra|].
  assert (FLAT : (forall j l x, (j < n)%nat -> (l < n)%nat -> d j l = Some x -> x = 0) -> sqrt (C ^ 2 + S ^ 2) / N = overlap).
  { intros Z. assert (C1 : C = over n (fun _ => 1) d). { unfold C, over. apply rsum_ext. intros j HJ. apply rsum_ext. intros l HL. destruct (d j l) as [y|] eqn:E; [|auto]. rewrite (Z j l y HJ HL E), Rmult_0_r. apply cos_0. }
    assert (S1 : S = 0). { unfold S, over. rewrite (rsum_ext n _ (fun _ => 0)); [apply rsum_zero|]. intros j HJ. rewrite (rsum_ext n _ (fun _ => 0)); [apply rsum_zero|]. intros l HL. destruct (d j l) as [y|] eqn:E; [|auto]. rewrite (Z j l y HJ HL E), Rmult_0_r. apply sin_0. }
    rewrite S1, C1. unfold overlap. f_equal. replace (over n (fun _ => 1) d ^ 2 + 0 ^ 2) with (over n (fun _ => 1) d * over n (fun _ => 1) d) by ring. apply sqrt_square.
    unfold over. apply rsum_nonneg. intros j. apply rsum_nonneg. intros l. destruct (d j l); lra. }
  split.
  - intros K0. rewrite FLAT.
    + unfold overlap. replace (over n (fun _ => 1) d) with N; [field; lra|]. rewrite <- CN. unfold over, count_good. apply rsum_ext. intros j _. apply rsum_ext. intros l L. unfold d, sheared. rewrite K0, Nat.add_0_r.
      destruct (Nat.ltb_spec l n); [|lia]. destruct (o' j l); reflexivity.
    + intros j l y _ _ E. unfold d, sheared in E. rewrite K0, Nat.add_0_r in E. destruct (Nat.ltb l n); [|discriminate]. destruct (o' j l); [|discriminate]. cbn in E. injection E as <-. ring.
  - intros EQ. apply FLAT. intros j l y _ _ E. unfold d, sheared in E. destruct (Nat.ltb (l + k) n); [|discriminate]. destruct (o' j (l + k)%nat) as [a|] eqn:OA; [|discriminate]. destruct (o' j l) as [b|] eqn:OB; [|discriminate].
    cbn in E. injection E as <-. assert (a = w0 /\ b = w0); [|lra]. unfold o' in OA, OB. destruct axis; split; eapply EQ; [exact OA|exact OB|exact OA|exact OB].
Qed.

(** * coordinates *)
(** the coordinates of the point spread function, put in order *)
Lemma ordered_axis n pad h radius l scale x g p : (1 < n)%nat -> (n * pad = 2 * g)%nat -> (0 < g)%nat -> h <> 0 -> radius <> 0 -> l <> 0 -> scale <> 0 ->
  (forall p, (p < n * pad)%nat -> psf_axis n pad h radius l scale p = Some (x p)) -> (p < n * pad)%nat ->
  x (shift (n * pad) p) = (INR p - INR g) * (l / scale * radius / (INR (n * pad) * (2 * h / (INR n - 1)))).
Proof.
  intros N E G H RN LN SN X P. set (m := (n * pad)%nat) in *. assert (S : (shift m p < m)%nat) by (apply Nat.mod_upper_bound; lia).
  destruct (C55_pixels n pad h radius l scale (shift m p) ltac:(nia) N H RN LN SN S) as (k & A & B & C & D). fold m in A, B, C, D.
  rewrite (X _ S) in A. injection A as ->. f_equal. rewrite !INR_IZR_INZ, <- minus_IZR. f_equal.
  assert (MG : (m / 2 = g)%nat) by (rewrite E, Nat.mul_comm; apply Nat.div_mul; lia).
  unfold shift in B. rewrite MG in B. replace (m - g)%nat with g in B by lia. rewrite Nat2Z.inj_mod in B.
  pose proof (Z.div_mod k (Z.of_nat m) ltac:(lia)) as K1. pose proof (Z.div_mod (Z.of_nat (p + g)) (Z.of_nat m) ltac:(lia)) as K2. rewrite B in K1.
  set (a := (k / Z.of_nat m)%Z) in *. set (b := (Z.of_nat (p + g) / Z.of_nat m)%Z) in *. clearbody a b.
  assert (EQ : (k = Z.of_nat p - Z.of_nat g + Z.of_nat m * (a - b + 1))%Z) by nia. assert ((a - b + 1 = 0)%Z); nia.
Qed.
Lemma ordered_size m f x g dx : (m = 2 * g)%nat -> (0 < g)%nat -> (forall p, (p < m)%nat -> x (shift m p) = (INR p - INR g) * dx) -> pixel_size m f x = dx.
Proof. intros -> G X. unfold pixel_size. rewrite !X by lia. cbn [INR]. ring. Qed.
(** a frequency on the contrast curve belongs to the shear of the pupil: frequency times wavelength times radius of the
    reference sphere *)
Theorem C67_frequency n pad h radius l scale x f axis k q v : (1 < n)%nat -> Nat.Even (n * pad) -> (0 < pad)%nat -> h <> 0 -> radius <> 0 -> l <> 0 -> scale <> 0 ->
  (forall p, (p < n * pad)%nat -> psf_axis n pad h radius l scale p = Some (x p)) ->
  nth_error (contrast axis (n * pad) f x) k = Some (q, v) ->
  exists F, q = Some F /\ F * (l / scale) * radius = PsfModel.grid n h k - PsfModel.grid n h 0.
Proof.
  intros N (g & E) P H RN LN SN X NE. assert (G : (0 < g)%nat) by nia. set (m := (n * pad)%nat) in *.
  set (dx := l / scale * radius / (INR m * (2 * h / (INR n - 1)))).
  assert (PS : pixel_size m f x = dx) by (apply (ordered_size m f x g); auto; intros p PL; apply (ordered_axis n pad h radius l scale x g p); auto).
  unfold contrast in NE. rewrite nth_error_map in NE. destruct (nth_error (seq 0 (m / 2)) k) as [k'|] eqn:SQ; [|discriminate]. cbn in NE.
  assert (KL : (k < m / 2)%nat) by (rewrite <- (seq_length (m / 2) 0); apply nth_error_Some; congruence).
  rewrite (nth_error_nth' _ 0%nat) in SQ by (rewrite seq_length; auto). rewrite seq_nth in SQ by auto. injection SQ as <-. cbn [plus] in *. injection NE as <- _. rewrite PS.
  assert (MG : (m / 2 = g)%nat) by (rewrite E, Nat.mul_comm; apply Nat.div_mul; lia).
  assert (MP : 0 < INR m) by (apply lt_0_INR; lia). assert (NP : 0 < INR n - 1) by (pose proof (lt_INR 1 n N) as Q; cbn in Q; lra).
  assert (LAM : l / scale <> 0) by (apply Rmult_integral_contrapositive_currified; [auto|apply Rinv_neq_0_compat; auto]).
  unfold fftfreq. pose proof (div2_bounds (m - 1)) as DB. destruct (Nat.ltb_spec k ((m - 1) / 2 + 1)); [|lia].
  assert (DN : INR m * dx <> 0).
  { unfold dx. repeat (apply Rmult_integral_contrapositive_currified || apply Rinv_neq_0_compat); auto; lra. }
  rewrite fdiv_some by auto. eexists. split; [reflexivity|]. unfold PsfModel.grid, dx. cbn [INR]. field. repeat apply Logic.conj; auto; lra.
Qed.

(** * encircled energy *)
(** energy of the pixels less than [r] away from (cx, cy) *)
Definition energy_within (m : nat) (f : nat -> nat -> R) (x : nat -> R) (cx cy r : R) : R :=
  rsum m (fun p => rsum m (fun q => if Rlt_dec (sqrt ((x p - cx) ^ 2 + (x q - cy) ^ 2)) r then f p q else 0)).
Definition mean_x (m : nat) (f : nat -> nat -> R) (x : nat -> R) : R := rsum m (fun p => rsum m (fun q => f p q * x p)).
Definition mean_y (m : nat) (f : nat -> nat -> R) (x : nat -> R) : R := rsum m (fun p => rsum m (fun q => f p q * x q)).
Lemma rsum_shift2 m g : rsum m (fun p => rsum m (fun q => g (shift m p) (shift m q))) = rsum m (fun p => rsum m (fun q => g p q)).
Proof.
  rewrite (rsum_ext m _ (fun p => rsum m (fun q => g (shift m p) q))) by (intros p _; apply (rsum_shift m (fun q => g (shift m p) q))).
  apply (rsum_shift m (fun p => rsum m (fun q => g p q))).
Qed.
Lemma sumn_rsum n f : sumn n f = rsum n f. Proof. induction n; cbn; congruence. Qed.
Lemma rows_image m f : image m m (rows m f).
Proof.
  unfold rows. split; [rewrite map_length, seq_length; auto|]. intros row I. apply in_map_iff in I. destruct I as (p & <- & _). rewrite map_length, seq_length. auto.
Qed.
Lemma rows_pix m f i j : (i < m)%nat -> (j < m)%nat -> nth j (nth i (rows m f) []) 0 = f i j.
Proof.
  intros I J. unfold rows. rewrite (nth_indep _ [] (map (fun q => f 0%nat q) (seq 0 m))) by (rewrite map_length, seq_length; auto).
  rewrite (map_nth (fun p => map (fun q => f p q) (seq 0 m)) (seq 0 m) 0%nat i), seq_nth by auto. cbn [plus].
  rewrite (nth_indep _ 0 (f i 0%nat)) by (rewrite map_length, seq_length; auto). rewrite (map_nth (fun q => f i q) (seq 0 m) 0%nat j), seq_nth by auto. reflexivity.
Qed.
Lemma cumsum_length a l : length (cumsum a l) = length l. Proof. revert a. induction l; intros; cbn; auto. Qed.
Lemma cumsum_nth l : forall a k, (k < length l)%nat -> nth k (cumsum a l) 0 = a + rsum (S k) (fun i => nth i l 0).
Proof.
  induction l as [|x l IH]; intros a k K; [cbn in K; lia|]. cbn [cumsum]. destruct k as [|k]; [cbn; ring|]. cbn [nth]. cbn [length] in K. rewrite IH by lia.
  rewrite (rsum_front (S k)). cbn [nth]. ring.
Qed.
Lemma bincount_length kw out : kw <> [] -> bincount kw 0 = Some out -> (0 < length out)%nat.
Proof.
  intros NE B. assert (L : length out = match bincount kw 0 with Some l => length l | None => O end) by (rewrite B; reflexivity). rewrite L.
  unfold bincount in *. destruct (existsb _ _); [discriminate|].
  assert (LA : forall kw (b : list R), length (fold_left (fun bins e => add_at bins (Z.to_nat (fst e)) (snd e)) kw b) = length b).
  { clear. assert (LL : forall b k w, length (add_at b k w) = length b) by (induction b as [|y b IH]; intros [|k] w; cbn; auto).
    induction kw as [|e kw IH]; intros b; [reflexivity|]. cbn. rewrite IH. apply LL. }
  rewrite LA, repeat_length. destruct kw as [|e kw]; [congruence|]. eapply Nat.lt_le_trans; [apply (Nat.lt_0_succ (Z.to_nat (fst e)))|apply Nat.le_max_l].
Qed.
Lemma polar_sum_length r c image0 center out : image r c image0 -> (0 < r)%nat /\ (0 < c)%nat -> polar_sum image0 center Azimuthal 1 None = Some out -> (0 < length out)%nat.
Proof.
  intros IM (RP & CP) PO. unfold polar_sum in PO. rewrite fdiv_some in PO by (rewrite Rmin_left by lra; lra). unfold obind in PO. apply bincount_length in PO; [auto|].
  destruct (image_shape _ _ _ IM RP) as (NR & NC). unfold SumsModel.grid. rewrite NR, NC. destruct r, c; try lia. discriminate.
Qed.
Lemma encircled_spec m f x g dx : (m = 2 * g)%nat -> (0 < g)%nat -> dx <> 0 -> (forall p, (p < m)%nat -> x (shift m p) = (INR p - INR g) * dx) ->
  exists ee, encircled m f x = Some ee /\ (forall k, drawn_radius m f x k = INR k * dx) /\
    (forall k, (k < length ee)%nat -> nth k ee 0 = energy_within m f x (mean_x m f x) (mean_y m f x) ((INR k + 1) * Rabs dx)) /\
    (0 < length ee)%nat /\ nth (length ee - 1) ee 0 = rsum m (fun p => rsum m (fun q => f p q)).
Proof.
  intros E G DN X. pose proof (ordered_size m f x g dx E G X) as PS. unfold encircled. rewrite PS. rewrite !fdiv_some by auto. cbn [obind].
  assert (CX : centroid_x m f x = mean_x m f x) by (unfold centroid_x, mean_x, shifted; apply (rsum_shift2 m (fun p q => f p q * x p))).
  assert (CY : centroid_y m f x = mean_y m f x) by (unfold centroid_y, mean_y, shifted; apply (rsum_shift2 m (fun p q => f p q * x q))).
  rewrite CX, CY. set (X0 := mean_x m f x). set (Y0 := mean_y m f x).
  pose proof (rows_image m (shifted m f)) as IM.
  assert (BB : azimuthal_binsize 1 None = 1) by (unfold azimuthal_binsize; apply Rmin_left; lra).
  destruct (C34_azimuthal m m _ (INR m / 2 + X0 / dx, INR m / 2 + Y0 / dx) 1 None IM ltac:(rewrite BB; lra)) as (out & PO & TO & NO).
  rewrite PO. cbn [obind]. exists (cumsum 0 out). split; [reflexivity|]. split; [intros k; unfold drawn_radius; rewrite PS; reflexivity|].
  assert (AD : 0 < Rabs dx) by (apply Rabs_pos_lt; auto).
  assert (MH : INR m / 2 = INR g) by (rewrite E, mult_INR; cbn [INR]; field).
  set (dist := fun p q => sqrt ((x p - X0) ^ 2 + (x q - Y0) ^ 2)).
  assert (DIST : forall i j, (i < m)%nat -> (j < m)%nat -> sqrt ((INR j - (INR m / 2 + Y0 / dx)) ^ 2 * 1 ^ 2 + (INR i - (INR m / 2 + X0 / dx)) ^ 2) / 1 = dist (shift m i) (shift m j) / Rabs dx).
  { intros i j I J. unfold dist. rewrite !X by auto. rewrite MH. set (u := INR i - INR g). set (v := INR j - INR g).
    replace (INR i - (INR g + X0 / dx)) with (u - X0 / dx) by (unfold u; ring). replace (INR j - (INR g + Y0 / dx)) with (v - Y0 / dx) by (unfold v; ring).
    replace ((u * dx - X0) ^ 2 + (v * dx - Y0) ^ 2) with (Rsqr dx * ((v - Y0 / dx) ^ 2 * 1 ^ 2 + (u - X0 / dx) ^ 2)) by (unfold Rsqr; field; auto).
    rewrite sqrt_mult; [|apply Rle_0_sqr|pose proof (pow2_ge_0 (v - Y0 / dx)); pose proof (pow2_ge_0 (u - X0 / dx)); clearbody u v X0 Y0; clear dist; lra]. rewrite sqrt_Rsqr_abs. field. lra. }
  assert (BIN : forall k, nth k out 0 = rsum m (fun p => rsum m (fun q => if Rle_dec (INR k) (dist p q / Rabs dx) then if Rlt_dec (dist p q / Rabs dx) (INR k + 1) then f p q else 0 else 0))).
  { intros k. rewrite NO, sumn_rsum.
    rewrite <- (rsum_shift2 m (fun p q => if Rle_dec (INR k) (dist p q / Rabs dx) then if Rlt_dec (dist p q / Rabs dx) (INR k + 1) then f p q else 0 else 0)).
    apply rsum_ext. intros i I. rewrite sumn_rsum. apply rsum_ext. intros j J. cbv zeta. rewrite BB. cbn [fst snd]. rewrite (DIST i j I J), rows_pix by auto. reflexivity. }
  assert (D0 : forall p q, 0 <= dist p q / Rabs dx) by (intros; apply Rmult_le_pos; [apply sqrt_pos|left; apply Rinv_0_lt_compat; auto]).
  assert (WITHIN : forall k, rsum (S k) (fun i => nth i out 0) = energy_within m f x X0 Y0 ((INR k + 1) * Rabs dx)).
  { intros k. assert (STEP : forall K, rsum K (fun i => nth i out 0) = rsum m (fun p => rsum m (fun q => if Rlt_dec (dist p q / Rabs dx) (INR K) then f p q else 0))).
    { induction K as [|K IH].
      - cbn [rsum INR]. symmetry. rewrite (rsum_ext m _ (fun _ => 0)); [apply rsum_zero|]. intros p _. rewrite (rsum_ext m _ (fun _ => 0)); [apply rsum_zero|]. intros q _. pose proof (D0 p q). destruct (Rlt_dec _ 0); [lra|auto].
      - cbn [rsum]. rewrite IH, BIN, <- rsum_add. apply rsum_ext. intros p _. rewrite <- rsum_add. apply rsum_ext. intros q _. rewrite S_INR.
        set (t := dist p q / Rabs dx). destruct (Rlt_dec t (INR K)); destruct (Rle_dec (INR K) t); try lra; destruct (Rlt_dec t (INR K + 1)); lra. }
    rewrite STEP. unfold energy_within. apply rsum_ext. intros p _. apply rsum_ext. intros q _. fold (dist p q). rewrite S_INR.
    assert (IFF : dist p q / Rabs dx < INR k + 1 <-> dist p q < (INR k + 1) * Rabs dx).
    { split; intros L; [apply (Rmult_lt_compat_r (Rabs dx)) in L; auto; unfold Rdiv in L; rewrite Rmult_assoc, Rinv_l in L by lra; lra|].
      apply (Rmult_lt_reg_r (Rabs dx)); [auto|]. unfold Rdiv. rewrite Rmult_assoc, Rinv_l by lra. lra. }
    destruct (Rlt_dec (dist p q / Rabs dx) (INR k + 1)); destruct (Rlt_dec (dist p q) ((INR k + 1) * Rabs dx)); tauto. }
  assert (LP : (0 < length out)%nat).
  { apply (polar_sum_length _ _ _ _ _ IM ltac:(lia) PO). }
  rewrite cumsum_length. split; [|split; [exact LP|]].
  - intros k K. rewrite cumsum_nth by auto. rewrite Rplus_0_l. apply WITHIN.
  - rewrite cumsum_nth by lia. replace (S (length out - 1)) with (length out) by lia. rewrite Rplus_0_l. rewrite <- sumn_rsum, <- suml_nth, TO.
    rewrite (total_sumn _ _ _ IM), sumn_rsum. rewrite <- (rsum_shift2 m f). apply rsum_ext. intros i I. rewrite sumn_rsum. apply rsum_ext. intros j J. rewrite rows_pix by auto. reflexivity.
Qed.
(** entry [k] of the encircled energy is the part of the light nearer to the centroid than [k + 1] pixels; the entries rise to
    one.  It is drawn at [k] pixels *)
Theorem C67_encircled n pad h radius l scale o f x j0 k0 w0 : (1 < n)%nat -> Nat.Even (n * pad) -> (0 < pad)%nat -> h <> 0 -> radius <> 0 -> l <> 0 -> scale <> 0 ->
  (j0 < n)%nat -> (k0 < n)%nat -> o j0 k0 = Some w0 -> values n pad o f ->
  (forall p, (p < n * pad)%nat -> psf_axis n pad h radius l scale p = Some (x p)) ->
  let m := (n * pad)%nat in let dx := l / scale * radius / (INR m * (2 * h / (INR n - 1))) in
  exists ee, encircled m f x = Some ee /\ (forall k, drawn_radius m f x k = INR k * dx) /\
    (forall k, (k < length ee)%nat -> nth k ee 0 = energy_within m f x (mean_x m f x) (mean_y m f x) ((INR k + 1) * Rabs dx)) /\
    (forall k, (S k < length ee)%nat -> 0 <= nth k ee 0 <= nth (S k) ee 0) /\ (0 < length ee)%nat /\ nth (length ee - 1) ee 0 = 1.
Proof.
  intros N (g & E) P H RN LN SN J K W V X m dx. fold m in E. assert (G : (0 < g)%nat) by (unfold m in E; nia).
  assert (MP : 0 < INR m) by (apply lt_0_INR; lia). assert (NP : 0 < INR n - 1) by (pose proof (lt_INR 1 n N) as Q; cbn in Q; lra).
  assert (DN : dx <> 0).
  { unfold dx, Rdiv. repeat (apply Rmult_integral_contrapositive_currified || apply Rinv_neq_0_compat); auto; lra. }
  assert (XO : forall p, (p < m)%nat -> x (shift m p) = (INR p - INR g) * dx) by (intros p PL; apply (ordered_axis n pad h radius l scale x g p); auto).
  destruct (encircled_spec m f x g dx E G DN XO) as (ee & A & B & C & D & T). exists ee. split; [exact A|]. split; [exact B|]. split; [exact C|].
  destruct (C55_total n pad o j0 k0 w0 P J K W) as (f' & FV & FN & FT). assert (FE : forall p q, f' p q = f p q) by (intros p q; specialize (V p q); rewrite FV in V; congruence).
  split; [|split; [exact D|]].
  - intros k KL. rewrite (C k) by lia. rewrite (C (S k)) by lia. rewrite S_INR. assert (AD : 0 < Rabs dx) by (apply Rabs_pos_lt; auto). split.
    + apply rsum_nonneg. intros p. apply rsum_nonneg. intros q. rewrite <- FE. specialize (FN p q). destruct (Rlt_dec _ _); lra.
    + apply rsum_le. intros p _. apply rsum_le. intros q _. rewrite <- FE. specialize (FN p q).
      destruct (Rlt_dec _ ((INR k + 1) * Rabs dx)); destruct (Rlt_dec _ ((INR k + 1 + 1) * Rabs dx)); nra.
  - rewrite T, <- FT. fold m. apply rsum_ext. intros p _. apply rsum_ext. intros q _. symmetry. apply FE.
Qed.

(** * examples *)
(** one open pixel of the pupil: light everywhere *)
Definition lone (j k : nat) : option R := if Nat.eqb (j + k) 0 then Some 0 else None.
Definition lone_x (p : nat) : R := match p with O => 0 | _ => -1 end.
Lemma lone_values : values 2 1 lone (fun _ _ => 1 / 4).
Proof.
  intros p q. rewrite (psf_some 2 1 lone 0 0 0) by (try lia; reflexivity). f_equal. assert (C : count_good 2 lone = 1) by (unfold count_good, lone; cbn; lra).
  unfold fft2. cbn [Nat.mul Nat.add csum]. unfold padded. cbn [Nat.ltb Nat.leb andb]. unfold amplitude. rewrite C, sqrt_1. unfold lone. cbn [Nat.add Nat.eqb INR].
  replace (0 * INR p / (1 + 1) + 0 * INR q / (1 + 1)) with 0 by field. rewrite !Rmult_0_r. unfold cis. rewrite cos_0, sin_0. unfold cdiv, cinv, cabs2. cbn. field.
Qed.
Lemma lone_axis p : (p < 2 * 1)%nat -> psf_axis 2 1 1 4 1 1 p = Some (lone_x p).
Proof.
  intros P. unfold psf_axis, PsfModel.grid. rewrite fdiv_some by lra. cbn [obind]. rewrite fdiv_some by lra. cbn [obind]. rewrite fdiv_some by lra. cbn [obind]. unfold fftfreq.
  destruct p as [|[|p]]; [| |lia]; cbn [Nat.mul Nat.add Nat.sub Nat.div Nat.divmod fst Nat.ltb Nat.leb]; (rewrite fdiv_some; [f_equal; cbn; field|cbn; lra]).
Qed.
Lemma lone_means : mean_x (2 * 1) (fun _ _ => 1 / 4) lone_x = - (1 / 2) /\ mean_y (2 * 1) (fun _ _ => 1 / 4) lone_x = - (1 / 2).
Proof. unfold mean_x, mean_y. cbn. lra. Qed.
Example C67_encircled_example : lone 0 0 = Some 0 /\ lone 1 0 = None /\ values 2 1 lone (fun _ _ => 1 / 4) /\ Nat.Even (2 * 1) /\
  forall p, (p < 2 * 1)%nat -> psf_axis 2 1 1 4 1 1 p = Some (lone_x p).
Proof. repeat split; [exact lone_values|exists 1%nat; reflexivity|exact lone_axis]. Qed.
(** the curve says that all the light is within radius zero of the centroid, but every pixel is farther away *)
Theorem C67_radius_refuted : exists n pad h radius l scale o f x ee, values n pad o f /\ (forall p, (p < n * pad)%nat -> psf_axis n pad h radius l scale p = Some (x p)) /\
  encircled (n * pad) f x = Some ee /\ nth 0 ee 0 = 1 /\ drawn_radius (n * pad) f x 0 = 0 /\
  (forall p q, (p < n * pad)%nat -> (q < n * pad)%nat -> 0 < sqrt ((x p - mean_x (n * pad) f x) ^ 2 + (x q - mean_y (n * pad) f x) ^ 2)).
Proof.
  destruct (C67_encircled 2 1 1 4 1 1 lone (fun _ _ => 1 / 4) lone_x 0 0 0) as (ee & A & B & C & _ & L & _); try lra; try lia; auto using lone_values, lone_axis; [exists 1%nat; reflexivity|].
  exists 2%nat, 1%nat, 1, 4, 1, 1, lone, (fun _ _ => 1 / 4), lone_x, ee. destruct lone_means as (MX & MY).
  assert (D : forall p q, (p < 2 * 1)%nat -> (q < 2 * 1)%nat -> (lone_x p - - (1 / 2)) ^ 2 + (lone_x q - - (1 / 2)) ^ 2 = 1 / 2).
  { intros [|[|p]] [|[|q]] P Q; try lia; cbn; field. }
  repeat apply Logic.conj; auto using lone_values, lone_axis.
  - rewrite C by auto. rewrite MX, MY. unfold energy_within. rewrite (rsum_ext _ _ (fun _ => 1 / 2)); [rewrite rsum_const; cbn; field|].
    intros p P. rewrite (rsum_ext _ _ (fun _ => 1 / 4)); [rewrite rsum_const; cbn; field|]. intros q Q. rewrite (D p q P Q).
    destruct (Rlt_dec _ _) as [|NL]; [reflexivity|]. exfalso. apply NL. replace (1 * 4 / (INR (2 * 1) * (2 * 1 / (INR 2 - 1)))) with 1 by (cbn; field).
    replace (1 / 1 * 4 / (INR (2 * 1) * (2 * 1 / (INR 2 - 1)))) with 1 by (cbn; field). rewrite Rabs_R1. cbn [INR].
    replace ((0 + 1) * 1) with (sqrt 1) by (rewrite sqrt_1; ring). apply sqrt_lt_1; lra.
  - rewrite B. cbn. ring.
  - intros p q P Q. rewrite MX, MY, (D p q P Q). apply sqrt_lt_R0. lra.
Qed.
(** a square pupil without error: the contrast falls linearly *)
Definition square (j k : nat) : option R := Some 0.
Example C67_contrast_example : exists f, values 2 2 square f /\ forall x, exists q v, nth_error (contrast 0 (2 * 2) f x) 1 = Some (q, v) /\ v = 1 / 2.
Proof.
  destruct (C55_total 2 2 square 0 0 0) as (f & V & _); try lia; try reflexivity. exists f. split; [exact V|]. intros x.
  destruct (nth_error (contrast 0 (2 * 2) f x) 1) as [[q v]|] eqn:NE; [|discriminate NE]. exists q, v. split; [reflexivity|].
  destruct (C67_contrast 2 2 square f x 0 1 q v 0 0 0 ltac:(lia) ltac:(lia) ltac:(lia) eq_refl V NE) as (_ & _ & _ & _ & F).
  rewrite F by (intros j l w S; injection S as <-; reflexivity). unfold over, sheared, count_good, square. cbn. field.
Qed.
Definition square_x (p : nat) : R := match p with O => 0 | S O => 1 / 2 | S (S O) => -1 | _ => -1 / 2 end.
Example C67_frequency_example : exists x, (forall p, (p < 2 * 2)%nat -> psf_axis 2 2 1 4 1 1 p = Some (x p)) /\ Nat.Even (2 * 2) /\
  forall f, exists v, nth_error (contrast 1 (2 * 2) f x) 1 = Some (Some (1 / 2), v).
Proof.
  exists square_x.
  assert (X : forall p, (p < 2 * 2)%nat -> psf_axis 2 2 1 4 1 1 p = Some (square_x p)).
  { intros p P. unfold psf_axis, PsfModel.grid. rewrite fdiv_some by lra. cbn [obind]. rewrite fdiv_some by lra. cbn [obind]. rewrite fdiv_some by lra. cbn [obind]. unfold fftfreq.
    destruct p as [|[|[|[|p]]]]; [| | | |lia]; cbn [Nat.mul Nat.add Nat.sub Nat.div Nat.divmod fst Nat.ltb Nat.leb]; (rewrite fdiv_some; [f_equal; cbn; field|cbn; lra]). }
  split; [exact X|]. split; [exists 2%nat; reflexivity|]. intros f. 
  destruct (nth_error (contrast 1 (2 * 2) f square_x) 1) as [[q v]|] eqn:NE; [|discriminate NE]. exists v. f_equal. f_equal.
  destruct (C67_frequency 2 2 1 4 1 1 square_x f 1 1 q v) as (F & -> & EQ); try lra; try lia; auto; [exists 2%nat; reflexivity|]. f_equal. unfold PsfModel.grid in EQ. cbn in EQ. lra.
Qed.
