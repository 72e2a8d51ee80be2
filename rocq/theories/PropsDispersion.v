(** C32, continued: the dispersion formulas against their textbook forms, and against each other. *)
From Coq Require Import Reals List Arith Bool Lra Lia.
From Verif Require Import Base SampleModel MaterialModel PropsMaterial.
Import ListNotations.
Open Scope R_scope.

(** Gases: with coefficients B = c0/c1 and pole wavelength squared C = 1/c1 the formula is
    the Sellmeier expansion of n instead of n^2; the offset one adds its constant *)
Theorem C32_gas w l m : w <> 0 -> Forall (fun b => snd b <> 0) l ->
  let s := map (fun b => (fst b / snd b, / snd b)) l in
  n_gas w (map fst l ++ map snd l) = Some m <->
  exists t, sellmeier_terms (w ^ 2) (fun x => x) s = Some t /\ m = 1 + t.
Proof.
  intros W F s. unfold n_gas. rewrite halves_unzip. cbn [obind].
  assert (W2 : w ^ 2 <> 0) by (apply pow_nonzero; auto). rewrite fdiv_some by auto. cbn [obind].
  assert (E : sellmeier_terms (w ^ 2) (fun x => x) s = osum (map (fun b => fdiv (fst b) (snd b - 1 / w ^ 2)) l)).
  { unfold sellmeier_terms, s. rewrite map_map. f_equal. apply map_ext_in. intros [a b] I. rewrite Forall_forall in F. specialize (F _ I). cbn in *.
    unfold fdiv. destruct (Req_EM_T (w * (w * 1) - / b) 0) as [e|n], (Req_EM_T (b - 1 / (w * (w * 1))) 0) as [e'|n']; auto.
    - exfalso. apply n'. replace (w * (w * 1)) with (/ b) by lra. field. auto.
    - exfalso. apply n. replace b with (1 / (w * (w * 1))) by lra. field. auto.
    - f_equal. assert (K : w * (w * 1) * b - 1 <> 0).
      { intros H. apply n. apply (Rmult_eq_reg_l b); auto. rewrite Rmult_0_r. rewrite <- H. field. auto. }
      field. repeat split; auto; intros H; apply K; rewrite <- H; ring. }
  rewrite <- E. destruct (sellmeier_terms _ _ s) as [t|]; cbn [obind]; split.
  - intros [= <-]. exists t. auto.
  - intros (u & [= ->] & ->). auto.
  - discriminate.
  - intros (u & H & _). discriminate H.
Qed.
Theorem C32_gas_offset w c0 c m : n_gas_offset w (c0 :: c) = Some m <-> n_gas w c = Some (m - c0).
Proof.
  unfold n_gas_offset. cbn [item nth_error obind tl]. destruct (n_gas w c) as [g|]; cbn [obind]; [|split; discriminate].
  split; intros [= H]; f_equal; lra.
Qed.

(** the multiplied-out forms, free of quotients: Conrady, Herzberger, handbook 1, retro, exotic *)
Theorem C32_conrady w c0 c1 c2 : 0 < w ->
  exists n, n_conrady w [c0; c1; c2] = Some n /\ (n - c0) ^ 2 * w ^ 7 = (c1 * sqrt w ^ 5 + c2) ^ 2 /\
    (0 <= c1 -> 0 <= c2 -> c0 <= n).
Proof.
  intros W. unfold n_conrady, item. cbn [nth_error obind]. rewrite fdiv_some by lra. cbn [obind].
  unfold cpow. destruct (Rlt_dec 0 w) as [_|n]; [|contradiction]. cbn [obind].
  set (s := sqrt w). assert (S : 0 < s) by (apply sqrt_lt_R0; auto). assert (SS : s * s = w) by (apply sqrt_sqrt; lra).
  assert (P : Rpower w (7 / 2) = s ^ 7).
  { unfold s. rewrite <- Rpower_sqrt by auto. rewrite <- Rpower_pow by apply exp_pos. rewrite Rpower_mult. f_equal. cbn. lra. }
  rewrite P. rewrite fdiv_some by (apply pow_nonzero; lra). cbn [obind]. eexists. split; [reflexivity|]. rewrite <- SS. split.
  - field. lra.
  - intros A B. assert (0 < / (s * s)) by (apply Rinv_0_lt_compat; nra). assert (0 < / s ^ 7) by (apply Rinv_0_lt_compat; apply pow_lt; auto).
    unfold Rdiv. nra.
Qed.
Theorem C32_herzberger w c0 c1 c2 c3 c4 c5 n :
  n_herzberger w [c0; c1; c2; c3; c4; c5] = Some n <->
  let d := w ^ 2 - 28 / 1000 in d <> 0 /\ (n - c0 - c3 * w ^ 2 - c4 * w ^ 4 - c5 * w ^ 6) * d ^ 2 = c1 * d + c2.
Proof.
  unfold n_herzberger, item. cbv zeta. set (d := w ^ 2 - 28 / 1000). unfold fdiv. destruct (Req_EM_T d 0) as [e|D]; cbn [obind nth_error].
  - split; [discriminate|]. intros [H _]. contradiction.
  - split.
    + intros [= <-]. split; [auto|]. field. auto.
    + intros [_ H]. f_equal. assert (D2 : d ^ 2 <> 0) by (apply pow_nonzero; auto).
      apply (Rmult_eq_reg_r (d ^ 2)); auto. transitivity (c1 * d + c2 + (c0 + c3 * w ^ 2 + c4 * w ^ 4 + c5 * w ^ 6) * d ^ 2); [field; auto|].
      rewrite <- H. ring.
Qed.
Theorem C32_handbook1 w c0 c1 c2 c3 n :
  n_handbook_of_optics1 w [c0; c1; c2; c3] = Some n <->
  w ^ 2 <> c2 /\ 0 <= n /\ (n ^ 2 + c3 * w ^ 2 - c0) * (w ^ 2 - c2) = c1.
Proof.
  unfold n_handbook_of_optics1, item. cbn [nth_error obind]. unfold fdiv. destruct (Req_EM_T (w ^ 2 - c2) 0) as [e|D]; cbn [obind].
  - split; [discriminate|]. intros [H _]. lra.
  - split.
    + intros H. apply fsqrt_inv in H. destruct H as (_ & N & S). repeat split; [lra|auto|]. replace (n ^ 2) with (n * n) by ring. rewrite S. field. auto.
    + intros (_ & N & S). assert (E : c0 + c1 / (w ^ 2 - c2) - c3 * w ^ 2 = n ^ 2) by (rewrite <- S; field; auto).
      rewrite E, fsqrt_some by nra. f_equal. replace (n ^ 2) with (Rsqr n) by (unfold Rsqr; ring). apply sqrt_Rsqr. auto.
Qed.
Theorem C32_handbook2 w c0 c1 c2 c3 n :
  n_handbook_of_optics2 w [c0; c1; c2; c3] = Some n <->
  w ^ 2 <> c2 /\ 0 <= n /\ (n ^ 2 + c3 * w ^ 2 - c0) * (w ^ 2 - c2) = c1 * w ^ 2.
Proof.
  assert (H : n_handbook_of_optics2 w [c0; c1; c2; c3] = n_handbook_of_optics1 w [c0; c1 * w ^ 2; c2; c3]) by reflexivity.
  rewrite H. apply C32_handbook1.
Qed.
(** (n^2 - 2)(m^2 - 1) = 1 where m^2 = c0 + c1 w^2/(w^2 - c2) + c3 w^2 *)
Theorem C32_retro w c0 c1 c2 c3 m n : n_handbook_of_optics2 w [c0; c1; c2; - c3] = Some m ->
  n_retro w [c0; c1; c2; c3] = Some n <-> m <> 1 /\ 0 <= n /\ (n ^ 2 - 2) * (m ^ 2 - 1) = 1.
Proof.
  intros M. unfold n_handbook_of_optics2, item in M. cbn [nth_error obind] in M. unfold n_retro, item. cbn [nth_error obind].
  destruct (fdiv (c1 * w ^ 2) (w ^ 2 - c2)) as [q|]; cbn [obind] in *; [|discriminate]. apply fsqrt_inv in M. destruct M as (_ & M & Q).
  replace (c0 + q + c3 * w ^ 2 - 1) with (m ^ 2 - 1) by (replace (m ^ 2) with (m * m) by ring; lra).
  unfold fdiv. destruct (Req_EM_T (m ^ 2 - 1) 0) as [e|D]; cbn [obind].
  - split; [discriminate|]. intros (N & _ & H). rewrite e in H. lra.
  - split.
    + intros H. apply fsqrt_inv in H. destruct H as (_ & N & S). repeat split; [intros ->; apply D; ring|auto|].
      replace (n ^ 2) with (n * n) by ring. rewrite S. field. auto.
    + intros (_ & N & S). assert (E : 2 + 1 / (m ^ 2 - 1) = n ^ 2) by (transitivity (2 + (n ^ 2 - 2) * (m ^ 2 - 1) / (m ^ 2 - 1)); [rewrite S; auto|field; auto]).
      rewrite E, fsqrt_some by nra. f_equal. replace (n ^ 2) with (Rsqr n) by (unfold Rsqr; ring). apply sqrt_Rsqr. auto.
Qed.
(** the second term of the exotic formula is an absorption line at c4: zero there and odd about it;
    without it the formula is the first of the handbook *)
Theorem C32_exotic w c0 c1 c2 c3 c4 c5 n :
  n_exotic w [c0; c1; c2; c3; c4; c5] = Some n <->
  w ^ 2 <> c2 /\ (w - c4) ^ 2 <> - c5 /\ 0 <= n /\
  ((n ^ 2 - c0) * (w ^ 2 - c2) - c1) * ((w - c4) ^ 2 + c5) = c3 * (w - c4) * (w ^ 2 - c2).
Proof.
  unfold n_exotic, item. cbn [nth_error obind]. unfold fdiv.
  destruct (Req_EM_T (w ^ 2 - c2) 0) as [e|D]; cbn [obind]; [split; [discriminate|intros [H _]; lra]|].
  destruct (Req_EM_T ((w - c4) ^ 2 + c5) 0) as [e|D']; cbn [obind]; [split; [discriminate|intros (_ & H & _); lra]|]. split.
  - intros H. apply fsqrt_inv in H. destruct H as (_ & N & S). repeat split; [lra|lra|auto|]. replace (n ^ 2) with (n * n) by ring. rewrite S. field. auto.
  - intros (_ & _ & N & S).
    assert (E : c0 + c1 / (w ^ 2 - c2) + c3 * (w - c4) / ((w - c4) ^ 2 + c5) = n ^ 2).
    { apply (Rmult_eq_reg_r ((w ^ 2 - c2) * ((w - c4) ^ 2 + c5))); [|apply Rmult_integral_contrapositive_currified; auto].
      transitivity (c0 * ((w ^ 2 - c2) * ((w - c4) ^ 2 + c5)) + c1 * ((w - c4) ^ 2 + c5) + c3 * (w - c4) * (w ^ 2 - c2)); [field; auto|].
      rewrite <- S. ring. }
    rewrite E, fsqrt_some by nra. f_equal. replace (n ^ 2) with (Rsqr n) by (unfold Rsqr; ring). apply sqrt_Rsqr. auto.
Qed.

(** refractiveindex.info's general formula: two Sellmeier terms (with wavelength exponents 2)
    plus a polynomial *)
Theorem C32_refractiveindex_info w c0 b1 p1 b2 p2 l n : 0 < w -> 0 < p1 -> 0 < p2 ->
  n_refractiveindex_info w ([c0; b1; 2; p1; 2; b2; 2; p2; 2] ++ flat l) = Some n <->
  exists s q, sellmeier_terms (w ^ 2) (fun x => x ^ 2) [(b1, p1); (b2, p2)] = Some s /\ n_cauchy w (c0 :: flat l) = Some q /\
    0 <= n /\ n ^ 2 = s + q.
Proof.
  intros W P1 P2. assert (C : forall x, 0 < x -> cpow x 2 = Some (x ^ 2)).
  { intros x X. unfold cpow. destruct (Rlt_dec 0 x); [|contradiction]. f_equal. replace 2 with (INR 2) by (cbn; ring). rewrite Rpower_pow by auto. reflexivity. }
  unfold n_refractiveindex_info, n_cauchy, item, sellmeier_terms. cbn [app skipn nth_error obind tl].
  rewrite pairs_flat. cbn [obind]. rewrite !C by auto. cbn [obind map fst snd].
  destruct (fdiv (b1 * w ^ 2) (w ^ 2 - p1 ^ 2)) as [q1|]; cbn [obind osum fold_right]; [|split; [discriminate|intros (s & q & H & _); discriminate]].
  destruct (fdiv (b2 * w ^ 2) (w ^ 2 - p2 ^ 2)) as [q2|]; cbn [obind]; [|split; [discriminate|intros (s & q & H & _); discriminate]].
  destruct (powers w l) as [t|]; cbn [obind]; [|split; [discriminate|intros (s & q & _ & H & _); discriminate]].
  split.
  - intros H. apply fsqrt_inv in H. destruct H as (_ & N & S). exists (q1 + (q2 + 0)), (c0 + t). repeat split; auto.
    replace (n ^ 2) with (n * n) by ring. rewrite S. ring.
  - intros (s & q & [= <-] & [= <-] & N & S). replace (c0 + q1 + q2 + t) with (n ^ 2) by (rewrite S; ring).
    rewrite fsqrt_some by nra. f_equal. replace (n ^ 2) with (Rsqr n) by (unfold Rsqr; ring). apply sqrt_Rsqr. auto.
Qed.
Example C32_refractiveindex_info_example :
  n_refractiveindex_info 1 ([1; 3 / 4; 2; 1 / 2; 2; 1; 2; 1 / 2; 2] ++ flat [(5 / 3, 0)]) = Some (sqrt 5).
Proof.
  assert (H : forall x, 0 <= x -> x ^ 2 = Rsqr x) by (intros; unfold Rsqr; ring).
  apply (C32_refractiveindex_info 1 1 (3 / 4) (1 / 2) 1 (1 / 2) [(5 / 3, 0)]); try lra.
  exists (7 / 3), (8 / 3). unfold sellmeier_terms, n_cauchy, powers, item. cbn [map fst snd osum fold_right obind tl flat pairs nth_error].
  rewrite !fdiv_some by lra. cbn [obind]. rewrite cpow_1. cbn [obind]. split; [f_equal; field|]. split; [f_equal; field|].
  split; [apply sqrt_pos|]. replace (sqrt 5 ^ 2) with (sqrt 5 * sqrt 5) by ring. rewrite sqrt_sqrt by lra. field.
Qed.

(** the Fraunhofer lines d, F and C in nanometres *)
Theorem C32_lines : lambda_F * 1000000000 = 48613 / 100 /\ lambda_d * 1000000000 = 58756 / 100 /\ lambda_C * 1000000000 = 65627 / 100.
Proof. unfold lambda_F, lambda_d, lambda_C. lra. Qed.

(** wavelengths are metres, formulas take micrometres; a mirror's index is the negated one *)
Theorem C32_units f mirror c w n : coefficients_index f mirror c (w * / 1000000) = Some n <-> f w c = Some (if mirror then - n else n).
Proof.
  unfold coefficients_index. replace (w * / 1000000 / (1 / 1000000)) with w by field.
  destruct (f w c) as [m|]; cbn [obind]; [|split; discriminate]. destruct mirror; split; intros [= H]; f_equal; lra.
Qed.
(** the built-in air is air: 1.00027 < n < 1.0003 and normal dispersion throughout the visible *)
Theorem C32_air v w : 350 * / 1000000000 <= v -> v < w -> w <= 1100 * / 1000000000 ->
  exists a b, air_index v = Some a /\ air_index w = Some b /\ 1 + 27 / 100000 < b < a /\ a < 1 + 3 / 10000.
Proof.
  intros V L W. set (x := v * 1000000). set (y := w * 1000000).
  assert (I : forall w, 350 * / 1000000000 <= w <= 1100 * / 1000000000 -> let y := w * 1000000 in
    air_index w = Some (1 + (5792105 / 100000000 / (2380185 / 10000 - / y ^ 2) + 167917 / 100000000 / (57362 / 1000 - / y ^ 2))) /\ 1 / 2 <= / y ^ 2 <= 9).
  { clear. intros w H y. assert (Y : 35 / 100 <= y <= 11 / 10) by (unfold y; lra).
    assert (Y2 : 1225 / 10000 <= y ^ 2 <= 121 / 100) by nra. assert (B : 1 / 2 <= / y ^ 2 <= 9).
    { split; apply (Rmult_le_reg_l (y ^ 2)); try lra; rewrite Rinv_r by lra; nra. }
    split; [|exact B]. unfold air_index, coefficients_index.
    replace (w / (1 / 1000000)) with y by (unfold y; field). unfold n_gas, halves. cbn [length Nat.div Nat.divmod fst snd Nat.modulo Nat.eqb firstn skipn combine obind Nat.sub].
    rewrite fdiv_some by lra. cbn [obind map osum fold_right fst snd]. replace (1 / y ^ 2) with (/ y ^ 2) by (unfold Rdiv; ring).
    rewrite !fdiv_some by lra. cbn [obind]. f_equal. ring. }
  pose proof (I v ltac:(lra)) as Iv. pose proof (I w ltac:(lra)) as Iw. clear I. cbv zeta in Iv, Iw.
  destruct Iv as [Iv Bx], Iw as [Iw By]. rewrite Iv, Iw. clear Iv Iw. fold x in Bx |- *. fold y in By |- *.
  assert (XY : / y ^ 2 < / x ^ 2).
  { assert (0 < x) by (unfold x; lra). assert (x < y) by (unfold x, y; lra).
    apply Rinv_lt_contravar; [apply Rmult_lt_0_compat; apply pow_lt; lra|nra]. }
  set (p := / x ^ 2) in *. set (q := / y ^ 2) in *. do 2 eexists. split; [reflexivity|]. split; [reflexivity|].
  assert (M : forall k c s t, 0 < k -> s < t -> t <= 9 -> 50 < c -> k / (c - s) < k / (c - t)).
  { intros k c s t K S T C. apply Rmult_lt_compat_l; [auto|]. apply Rinv_lt_contravar; nra. }
  assert (U : forall k c t r, 0 < k -> t <= 9 -> 50 < c -> k < r * (c - t) -> k / (c - t) < r).
  { intros k c t r K T C H. apply (Rmult_lt_reg_r (c - t)); [lra|]. replace (k / (c - t) * (c - t)) with k by (field; lra). exact H. }
  assert (D : forall k c t r, 0 < k -> t <= 9 -> 50 < c -> r * (c - t) < k -> r < k / (c - t)).
  { intros k c t r K T C H. apply (Rmult_lt_reg_r (c - t)); [lra|]. replace (k / (c - t) * (c - t)) with k by (field; lra). exact H. }
  pose proof (M (5792105 / 100000000) (2380185 / 10000) q p ltac:(lra) XY ltac:(lra) ltac:(lra)).
  pose proof (M (167917 / 100000000) (57362 / 1000) q p ltac:(lra) XY ltac:(lra) ltac:(lra)).
  pose proof (U (5792105 / 100000000) (2380185 / 10000) p (2535 / 10000000) ltac:(lra) ltac:(lra) ltac:(lra) ltac:(lra)).
  pose proof (U (167917 / 100000000) (57362 / 1000) p (348 / 10000000) ltac:(lra) ltac:(lra) ltac:(lra) ltac:(lra)).
  pose proof (D (5792105 / 100000000) (2380185 / 10000) q (2433 / 10000000) ltac:(lra) ltac:(lra) ltac:(lra) ltac:(lra)).
  pose proof (D (167917 / 100000000) (57362 / 1000) q (292 / 10000000) ltac:(lra) ltac:(lra) ltac:(lra) ltac:(lra)).
  lra.
Qed.
(** so that its Abbe number is defined and positive *)
Theorem C32_air_vd : exists v, vd air_index = Some (Some v) /\ 0 < v.
Proof.
  destruct (C32_air lambda_F lambda_C) as (a & b & A & B & L & _); [unfold lambda_F; lra|unfold lambda_F, lambda_C; lra|unfold lambda_C; lra|].
  destruct (C32_air lambda_d lambda_C) as (d & b' & D & B' & L' & _); [unfold lambda_d; lra|unfold lambda_d, lambda_C; lra|unfold lambda_C; lra|].
  unfold vd, dispersion, delta_n. rewrite A, B, D. cbn [obind]. destruct (Req_EM_T (a - b) 0); [lra|].
  rewrite fdiv_some by auto. cbn [obind]. eexists. split; [reflexivity|]. apply Rdiv_lt_0_compat; lra.
Qed.
(** the Schott thermal formula, multiplied out *)
Theorem C50_thermal_formula h t n l d :
  dn_thermal h t n (Some (l * / 1000000)) = Some d <->
  let dt := t - th_tref h in let k := l ^ 2 - th_lref h ^ 2 in n <> 0 /\ k <> 0 /\
  2 * n * k * d = (n ^ 2 - 1) * (dt * (th_d0 h + dt * (th_d1 h + dt * th_d2 h)) * k + dt * (th_e0 h + dt * th_e1 h)).
Proof.
  unfold dn_thermal. cbv zeta. replace (l * / 1000000 / (1 / 1000000)) with l by field. set (k := l ^ 2 - th_lref h ^ 2).
  unfold fdiv. destruct (Req_EM_T (2 * n) 0) as [e|N]; cbn [obind]; [split; [discriminate|intros [H _]; lra]|].
  destruct (Req_EM_T k 0) as [e|K]; cbn [obind]; [split; [discriminate|intros (_ & H & _); contradiction]|].
  split.
  - intros [= <-]. repeat split; [lra|auto|]. field. split; auto; lra.
  - intros (N0 & _ & H). f_equal. assert (NK : 2 * n * k <> 0) by (apply Rmult_integral_contrapositive_currified; auto).
    apply (Rmult_eq_reg_l (2 * n * k)); auto. rewrite H. field. split; auto.
Qed.
Example C50_thermal_formula_example : dn_thermal (Thermal 1 2 3 4 5 20 2) 21 (1 / 2) (Some (3 * / 1000000)) = Some (- (117 / 20)).
Proof. apply C50_thermal_formula. cbn. lra. Qed.

Example C32_textbook_example :
  n_herzberger 1 [1; 243 / 250; 0; 1; 1; 1] = Some 5 /\ n_handbook_of_optics1 2 [5; 4; 2; 3 / 4] = Some 2 /\
  n_handbook_of_optics2 2 [5; 1; 2; 3 / 4] = Some 2 /\ n_exotic 2 [1; 4; 2; 4; 1; 3] = Some 2 /\
  n_retro 2 [1; 1 / 4; 3; 1 / 2] = Some (sqrt (7 / 3)) /\ n_conrady 4 [1; 2; 128] = Some (5 / 2).
Proof.
  split; [apply C32_herzberger; cbn; lra|]. split; [apply C32_handbook1; lra|]. split; [apply C32_handbook2; lra|].
  split; [apply C32_exotic; lra|]. split.
  - apply (C32_retro 2 1 (1 / 4) 3 (1 / 2) 2); [apply C32_handbook2; lra|]. split; [lra|]. split; [apply sqrt_pos|].
    replace (sqrt (7 / 3) ^ 2) with (sqrt (7 / 3) * sqrt (7 / 3)) by ring. rewrite sqrt_sqrt by lra. field.
  - destruct (C32_conrady 4 1 2 128) as (n & E & H & P); [lra|]. rewrite E. f_equal.
    assert (S : sqrt 4 = 2) by (replace 4 with (2 * 2) by ring; apply sqrt_square; lra). rewrite S in H. specialize (P ltac:(lra) ltac:(lra)). nra.
Qed.
Example C32_gas_example : n_gas 1 (map fst [(1, 2)] ++ map snd [(1, 2)]) = Some 2 /\ n_gas_offset 1 [3; 1; 2] = Some 5.
Proof.
  split.
  - apply (C32_gas 1 [(1, 2)] 2); [lra|repeat constructor; cbn; lra|]. exists 1. unfold sellmeier_terms. cbn [map osum fold_right fst snd].
    rewrite fdiv_some by lra. cbn [obind]. split; [f_equal; field|ring].
  - apply C32_gas_offset. replace (5 - 3) with 2 by ring. apply (C32_gas 1 [(1, 2)] 2); [lra|repeat constructor; cbn; lra|].
    exists 1. unfold sellmeier_terms. cbn [map osum fold_right fst snd]. rewrite fdiv_some by lra. cbn [obind]. split; [f_equal; field|ring].
Qed.

Print Assumptions C32_gas.
Print Assumptions C32_gas_offset.
Print Assumptions C32_conrady.
Print Assumptions C32_herzberger.
Print Assumptions C32_handbook1.
Print Assumptions C32_handbook2.
Print Assumptions C32_retro.
Print Assumptions C32_exotic.
Print Assumptions C32_refractiveindex_info.
Print Assumptions C32_lines.
Print Assumptions C32_units.
Print Assumptions C32_air.
Print Assumptions C32_air_vd.
Print Assumptions C50_thermal_formula.
