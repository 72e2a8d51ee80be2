(** C65: the aberration coefficients read off the polynomial trace are the third order sums. *)
From Coq Require Import String Reals List Arith ZArith Lia Lra Psatz.
From Verif Require Import Base Vec RotModel RotProofs PlacementModel PlacementProofs ElementModel ParaxialModel PupilModel SimplexModel SimplexPowModel SimplexTransform PropsTransform SimplexComb SimplexEnum SimplexMul SimplexEval PolyModel TaylorProofs PolyProofs PolyChain PropsPoly.
From Verif Require Import TraceProofs PropsRescale LimitProofs PropsLimit ThirdOrder ParaxTraceModel OpdModel PropsOpd SeidelModel SeidelProofs PropsSeidel PolySeidelModel.
Import ListNotations.
Open Scope R_scope.

(** * second order remainder of a polynomial *)
Section Order.
Variables (m : nat) (idx : itable) (jdx : list (list nat)) (abi : list row).
Hypothesis Hm : (2 <= m)%nat.
Hypothesis Hs : (Z.of_nat (simplex_size 3 m) <= 65536)%Z.
Hypothesis Hi : simplex_idx 3 m = Some (idx, jdx, abi).
Lemma peval_linear a : length a = simplex_size 3 m ->
  order 2 (fun x => peval m a x - (nth 0 a 0 + nth 1 a 0 * fst (fst x) + nth 2 a 0 * snd (fst x) + nth 3 a 0 * snd x)).
Proof.
  intros LA. destruct (iter_units m Hm) as (U1 & U2 & U3 & Q4). pose proof (simplex_iter_first 3 m ltac:(lia)) as U0. pose proof (simplex_iter_NoDup 3 m) as ND.
  assert (CO : forall j e, nth_error (simplex_iter 3 m) j = Some e -> coef R 0 3 m a e = nth j a 0) by (intros j e H; unfold coef; rewrite (lookup_nth R 0 _ _ j e ND H); reflexivity).
  assert (C0 : coef R 0 3 m a [0;0;0]%nat = nth 0 a 0). { apply coef_first; try lia. intros Z. rewrite Z in LA. cbn [length] in LA. lia. }
  pose proof (CO _ _ U1) as C1. pose proof (CO _ _ U2) as C2. pose proof (CO _ _ U3) as C3. clear CO.
  assert (SP : forall e, In e (simplex_iter 3 m) -> length e = 3%nat) by (intros e I; apply simplex_iter_spec in I; [tauto|lia]).
  destruct (simplex_iter 3 m) as [|e0 [|e1 [|e2 [|e3 l]]]] eqn:E; try discriminate. cbn in U0, U1, U2, U3. injection U0 as ->. injection U1 as ->. injection U2 as ->. injection U3 as ->.
  assert (DG : forall e, In e l -> (2 <= list_sum e)%nat).
  { intros e I. assert (L : length e = 3%nat) by (apply SP; do 4 right; auto). destruct e as [|a0 [|b [|c [|]]]]; try discriminate L.
    inversion ND as [|? ? N0 ND1]; subst. inversion ND1 as [|? ? N1 ND2]; subst. inversion ND2 as [|? ? N2 ND3]; subst. inversion ND3 as [|? ? N3 ND4]; subst.
    destruct (le_lt_dec 2 (list_sum [a0; b; c])) as [|LT]; [auto|exfalso]. cbn in LT.
    assert (K : [a0; b; c] = [0;0;0]%nat \/ [a0; b; c] = [1;0;0]%nat \/ [a0; b; c] = [0;1;0]%nat \/ [a0; b; c] = [0;0;1]%nat).
    { destruct a0 as [|[|a0]], b as [|[|b]], c as [|[|c]]; try lia; auto. }
    destruct K as [K|[K|[K|K]]]; rewrite K in I; [apply N0|apply N1|apply N2|apply N3]; cbn; auto. }
  apply (order_ext 2 (fun x => ksum R 0 Rplus (fun e => coef R 0 3 m a e * mono R 1 Rmult (args x) e) l)).
  - apply near_all. intros x. unfold peval, pvalue. rewrite E. unfold ksum. cbn [fold_right]. rewrite C0, C1, C2, C3. cbn. ring.
  - apply (order_sum 2 (fun e x => coef R 0 3 m a e * mono R 1 Rmult (args x) e)). intros e I. apply order_scale. apply (order_le 2 (list_sum e)); [auto|]. apply order_mono. apply SP. do 4 right. auto.
Qed.
(** along a ray through the origin *)
Lemma value_cubic a x1 x2 f1 f2 : length a = simplex_size 3 m -> exists C d, 0 < d /\ forall h, Rabs h < d ->
  exists v, value jdx a (h * x1) (h * x2) (h * f1) (h * f2) = Some v /\
    Rabs (v - (nth 0 a 0 + h ^ 2 * (nth 1 a 0 * (x1 ^ 2 + x2 ^ 2) + nth 2 a 0 * (f1 ^ 2 + f2 ^ 2) + nth 3 a 0 * (x1 * f1 + x2 * f2)))) <= C * h ^ 4.
Proof.
  intros LA. destruct (order_pos _ _ (peval_linear a LA)) as (C & C0 & d & D & H). set (s := size (ray_pt x1 x2 f1 f2)). pose proof (size_pos (ray_pt x1 x2 f1 f2)) as S0. fold s in S0.
  assert (SC : forall h, size (ray_pt (h * x1) (h * x2) (h * f1) (h * f2)) = h ^ 2 * s).
  { intros h. unfold s, size, ray_pt. cbn [fst snd]. replace ((h * x1) ^ 2 + (h * x2) ^ 2) with (h ^ 2 * (x1 ^ 2 + x2 ^ 2)) by ring. replace ((h * f1) ^ 2 + (h * f2) ^ 2) with (h ^ 2 * (f1 ^ 2 + f2 ^ 2)) by ring. replace (h * x1 * (h * f1) + h * x2 * (h * f2)) with (h ^ 2 * (x1 * f1 + x2 * f2)) by ring. rewrite !Rabs_mult, (Rabs_right (h ^ 2)) by (apply Rle_ge, pow2_ge_0). ring. }
  exists (C * s ^ 2), (Rmin 1 (d / (s + 1))). assert (D1 : 0 < d / (s + 1)) by (apply Rdiv_lt_0_compat; lra). split; [apply Rmin_pos; lra|]. intros h HL. pose proof (Rmin_l 1 (d / (s + 1))). pose proof (Rmin_r 1 (d / (s + 1))).
  eexists. split; [apply (value_eq m idx jdx abi Hm Hs Hi); auto|]. specialize (H (ray_pt (h * x1) (h * x2) (h * f1) (h * f2))). cbv beta in H. rewrite SC in H.
  assert (SM : h ^ 2 * s < d).
  { rewrite <- (pow2_abs h). pose proof (Rabs_pos h). assert (Rabs h ^ 2 <= Rabs h) by nra. assert (Rabs h * (s + 1) < d). { apply (Rmult_lt_compat_r (s + 1)) in HL; [|lra]. assert (Rmin 1 (d / (s + 1)) * (s + 1) <= d / (s + 1) * (s + 1)) by (apply Rmult_le_compat_r; lra). replace (d / (s + 1) * (s + 1)) with d in * by (field; lra). lra. } nra. }
  specialize (H SM). replace (C * s ^ 2 * h ^ 4) with (C * (h ^ 2 * s) ^ 2) by ring. eapply Rle_trans; [|exact H]. right. f_equal. unfold ray_pt. cbn [fst snd]. ring.
Qed.
Definition cubic (s t : list R) (x1 x2 f1 f2 x f : R) : R :=
  (nth 1 s 0 * (x1 ^ 2 + x2 ^ 2) + nth 2 s 0 * (f1 ^ 2 + f2 ^ 2) + nth 3 s 0 * (x1 * f1 + x2 * f2)) * x +
  (nth 1 t 0 * (x1 ^ 2 + x2 ^ 2) + nth 2 t 0 * (f1 ^ 2 + f2 ^ 2) + nth 3 t 0 * (x1 * f1 + x2 * f2)) * f.
Lemma combine_cubic s t x1 x2 f1 f2 : length s = simplex_size 3 m -> length t = simplex_size 3 m -> exists C d, 0 < d /\ forall h, Rabs h < d ->
  exists v w, combine1 jdx s t (h * x1) (h * x2) (h * f1) (h * f2) = Some v /\ combine2 jdx s t (h * x1) (h * x2) (h * f1) (h * f2) = Some w /\
    Rabs (v - (h * (nth 0 s 0 * x1 + nth 0 t 0 * f1) + h ^ 3 * cubic s t x1 x2 f1 f2 x1 f1)) <= C * Rabs h ^ 5 /\
    Rabs (w - (h * (nth 0 s 0 * x2 + nth 0 t 0 * f2) + h ^ 3 * cubic s t x1 x2 f1 f2 x2 f2)) <= C * Rabs h ^ 5.
Proof.
  intros LS LT. destruct (value_cubic s x1 x2 f1 f2 LS) as (C1 & d1 & D1 & H1). destruct (value_cubic t x1 x2 f1 f2 LT) as (C2 & d2 & D2 & H2).
  exists (Rabs C1 * (Rabs x1 + Rabs x2) + Rabs C2 * (Rabs f1 + Rabs f2)), (Rmin d1 d2). split; [apply Rmin_pos; auto|]. intros h HL. pose proof (Rmin_l d1 d2). pose proof (Rmin_r d1 d2).
  destruct (H1 h ltac:(lra)) as (v & EV & BV). destruct (H2 h ltac:(lra)) as (w & EW & BW). unfold combine1, combine2. rewrite EV, EW. cbn [obind]. do 2 eexists. split; [reflexivity|]. split; [reflexivity|].
  assert (P : forall C, C * h ^ 4 <= Rabs C * Rabs h ^ 4). { intros C. rewrite RPow_abs, (Rabs_right (h ^ 4)). - apply Rmult_le_compat_r; [|apply Rle_abs]. replace (h ^ 4) with ((h ^ 2) ^ 2) by ring. apply pow2_ge_0. - replace (h ^ 4) with ((h ^ 2) ^ 2) by ring. apply Rle_ge, pow2_ge_0. }
  pose proof (P C1) as P1. pose proof (P C2) as P2. clear P. set (sv := nth 0 s 0 + _) in BV. set (tv := nth 0 t 0 + _) in BW.
  assert (G : forall x f, Rabs x <= Rabs x1 + Rabs x2 -> Rabs f <= Rabs f1 + Rabs f2 -> Rabs (v * (h * x) + w * (h * f) - (h * (nth 0 s 0 * x + nth 0 t 0 * f) + h ^ 3 * cubic s t x1 x2 f1 f2 x f)) <= (Rabs C1 * (Rabs x1 + Rabs x2) + Rabs C2 * (Rabs f1 + Rabs f2)) * Rabs h ^ 5).
  { intros x f HX HF. replace (v * (h * x) + w * (h * f) - _) with ((v - sv) * x * h + (w - tv) * f * h) by (unfold sv, tv, cubic; ring).
    eapply Rle_trans; [apply Rabs_triang|]. rewrite !Rabs_mult. pose proof (Rabs_pos h) as HP.
    assert (Rabs (v - sv) * Rabs x <= Rabs C1 * Rabs h ^ 4 * (Rabs x1 + Rabs x2)) by (apply Rmult_le_compat; try apply Rabs_pos; lra).
    assert (Rabs (w - tv) * Rabs f <= Rabs C2 * Rabs h ^ 4 * (Rabs f1 + Rabs f2)) by (apply Rmult_le_compat; try apply Rabs_pos; lra).
    apply Rle_trans with (Rabs C1 * Rabs h ^ 4 * (Rabs x1 + Rabs x2) * Rabs h + Rabs C2 * Rabs h ^ 4 * (Rabs f1 + Rabs f2) * Rabs h); [apply Rplus_le_compat; apply Rmult_le_compat_r; auto|]. right. ring. }
  pose proof (Rabs_pos x1). pose proof (Rabs_pos x2). pose proof (Rabs_pos f1). pose proof (Rabs_pos f2). split; apply G; lra.
Qed.
End Order.
(** a function with two expansions *)
Lemma cubic_unique X a b L E C d : tends (fun h => (X h - h * L) / h ^ 3) E -> 0 < d -> (forall h, Rabs h < d -> Rabs (X h - (h * a + h ^ 3 * b)) <= C * Rabs h ^ 5) -> L = a /\ E = b.
Proof.
  intros T D B.
  assert (T2 : tends (fun h => (X h - (h * a + h ^ 3 * b)) / h ^ 3) 0).
  { apply tends_spec. intros eps EP. unfold nearly, near. exists (Rmin d (Rmin 1 (eps / (Rabs C + 1)))). pose proof (Rabs_pos C). assert (0 < eps / (Rabs C + 1)) by (apply Rdiv_lt_0_compat; lra). split; [repeat apply Rmin_pos; lra|].
    intros h HL NZ. pose proof (Rmin_l d (Rmin 1 (eps / (Rabs C + 1)))). pose proof (Rmin_r d (Rmin 1 (eps / (Rabs C + 1)))). pose proof (Rmin_l 1 (eps / (Rabs C + 1))). pose proof (Rmin_r 1 (eps / (Rabs C + 1))).
    rewrite Rminus_0_r. assert (HP : 0 < Rabs h) by (apply Rabs_pos_lt; auto). unfold Rdiv. rewrite Rabs_mult, Rabs_inv, <- RPow_abs. assert (P3 : 0 < Rabs h ^ 3) by (apply pow_lt; auto).
    apply (Rmult_lt_reg_r (Rabs h ^ 3)); [auto|]. rewrite Rmult_assoc, Rinv_l, Rmult_1_r by lra. eapply Rle_lt_trans; [apply B; lra|]. replace (C * Rabs h ^ 5) with (C * Rabs h ^ 2 * Rabs h ^ 3) by ring. apply Rmult_lt_compat_r; [auto|].
    pose proof (Rle_abs C). assert (Rabs h ^ 2 <= Rabs h) by nra. assert (Rabs h * (Rabs C + 1) < eps). { assert (Rabs h < eps / (Rabs C + 1)) as HH by lra. apply (Rmult_lt_compat_r (Rabs C + 1)) in HH; [|lra]. replace (eps / (Rabs C + 1) * (Rabs C + 1)) with eps in HH by (field; lra). auto. } nra. }
  assert (T3 : tends (fun h => (L - a) / h ^ 2) (b - E)).
  { eapply tends_eq; [eapply tends_ext; [|exact (tends_plus _ _ _ _ (tends_minus _ _ _ _ T2 T) (tends_const b))]|ring]. apply all_nearly. intros h NZ. cbv beta. field. auto. }
  assert (LA : L = a).
  { assert (T4 := tends_mult _ _ _ _ (tends_mult _ _ _ _ tends_id tends_id) T3). cbv beta in T4.
    assert (T5 : tends (fun _ : R => L - a) 0). { eapply tends_eq; [eapply tends_ext; [|exact T4]|ring]. apply all_nearly. intros h NZ. cbv beta. field. auto. }
    assert (U := single_limit (fun _ => L - a) (fun h => h <> 0) (L - a) 0 0). enough (L - a = 0) by lra. apply U; [|apply tends_const|exact T5]. intros al AL. exists (al / 2). unfold R_dist. rewrite Rminus_0_r, Rabs_right by lra. lra. }
  split; [auto|]. subst a. assert (T5 : tends (fun _ : R => 0) (b - E)). { eapply tends_ext; [|exact T3]. apply all_nearly. intros h NZ. cbv beta. field. auto. }
  enough (b - E = 0) by lra. apply (single_limit (fun _ => 0) (fun h => h <> 0) (b - E) 0 0); [|exact T5|apply tends_const]. intros al AL. exists (al / 2). unfold R_dist. rewrite Rminus_0_r, Rabs_right by lra. lra.
Qed.

Lemma within_ray k f g x1 x2 f1 f2 : within k f g -> exists C d, 0 < d /\ forall h, Rabs h < d ->
  exists a b, f (h * x1) (h * x2) (h * f1) (h * f2) = Some a /\ g (h * x1) (h * x2) (h * f1) (h * f2) = Some b /\ Rabs (a - b) <= C * Rabs h ^ k.
Proof.
  intros (C & d & D & W). set (K := 1 + Rabs x1 + Rabs x2 + Rabs f1 + Rabs f2). pose proof (Rabs_pos x1). pose proof (Rabs_pos x2). pose proof (Rabs_pos f1). pose proof (Rabs_pos f2). assert (K1 : 1 <= K) by (unfold K; lra).
  exists (C * K ^ k), (d / K). split; [apply Rdiv_lt_0_compat; lra|]. intros h HL. pose proof (Rabs_pos h) as HP.
  assert (HK : Rabs h * K < d) by (apply (Rmult_lt_compat_r K) in HL; [|lra]; replace (d / K * K) with d in HL by (field; lra); auto).
  assert (B : forall x, Rabs x <= K -> Rabs (h * x) <= Rabs h * K) by (intros x HX; rewrite Rabs_mult; apply Rmult_le_compat_l; auto).
  destruct (W (Rabs h * K) (h * x1) (h * x2) (h * f1) (h * f2) HK ltac:(apply B; unfold K; lra) ltac:(apply B; unfold K; lra) ltac:(apply B; unfold K; lra) ltac:(apply B; unfold K; lra)) as (a & b & EA & EB & EC).
  exists a, b. split; [auto|]. split; [auto|]. rewrite Rpow_mult_distr in EC. lra.
Qed.

(** * the system meets the assumptions of both traces *)
Lemma front_place d p : 0 <= d -> init d ez v0 None = Some p -> updated p /\ p_direction p = ez /\ p_angles p = v0.
Proof.
  intros D IN. destruct (centred_axis d D) as (p' & E & U & _ & DI & A). rewrite IN in E. injection E as <-. auto.
Qed.
Lemma lens_elements l es : lens l false es -> Forall refracting es -> Forall centred es /\ Forall (conic_refracting l false) es /\ Forall closed_form es.
Proof.
  induction es as [|e es IH]; intros LE FR; [repeat split; constructor|]. cbn [lens] in LE. destruct LE as (mat & c & d & K & IN & DP & LE). inversion FR as [|? ? RE FR']; subst.
  assert (LE' : lens l false es /\ match mat with None => True | Some m => m_mirror m = false /\ 0 < m_index m l end).
  { unfold refracting in RE. rewrite K in RE. destruct mat as [mt|]; [|auto]. rewrite RE in LE. tauto. }
  destruct LE' as [LE' ME]. destruct (IH LE' FR') as (F1 & F2 & F3). assert (D0 : 0 <= d) by (destruct DP as [|(_ & -> & _)]; lra). destruct (front_place d _ D0 IN) as (U & DI & A).
  split; [constructor; [split; auto|auto]|]. split; constructor; auto.
  - split; [discriminate|]. rewrite K. cbn [s_asph s_alt s_c s_k]. split; [auto|]. split; [auto|]. split; [right; lra|auto].
  - unfold closed_form. rewrite K. reflexivity.
Qed.
Lemma trace_slide newton e0 e1 es y u d n l c : centred e0 -> centred e1 -> closed_form e1 -> dot u u = 1 ->
  forall j s, nth_error (geo_trace newton (e0 :: e1 :: es) y u n l c) (S j) = Some s ->
  exists s', nth_error (geo_trace newton (e0 :: e1 :: es) (at_ray y u d) u n l c) (S j) = Some s' /\ st_y s' = st_y s.
Proof.
  intros C0 C1 CF U j s. destruct (centred_frame e0 C0) as (_ & _ & T0 & F0). destruct (centred_frame e1 C1) as (_ & _ & T1 & F1).
  cbn [geo_trace sys_propagate nth_error]. rewrite !F0. unfold onormal at 1 2 5 6. cbn [obind]. rewrite !T1.
  replace (vsub3 (at_ray y u d) (p_offset (e_place e1))) with (at_ray (vsub3 y (p_offset (e_place e1))) u d) by (unfold at_ray; vec_ring).
  rewrite propagate_slide by auto. destruct (propagate _ _ _ _ _ _ _) as [[[y' u'] n'] t']. intros H. destruct j as [|j]; cbn [nth_error] in *.
  - injection H as <-. eexists. split; [reflexivity|reflexivity].
  - exists s. auto.
Qed.
Lemma centred_rotated e : centred e -> p_rotated (e_place e) = false.
Proof.
  intros (U & D & A). destruct (updated_fix _ U) as (_ & (S & N & _) & _). rewrite D in S. rewrite A in N. rewrite allclose_refl_ez in S. rewrite allclose_refl_v0 in N. unfold p_rotated. rewrite N, S. reflexivity.
Qed.
(** exact heights at the image, launched from the plane [pos] *)
Lemma image_heights newton axis l1 l2 e0 es l n pos ym yc um uc A B rs xs j e r :
  centred e0 -> lens l false es -> Forall refracting es -> 0 < n -> um * yc - uc * ym <> 0 ->
  ptrace axis l (e0 :: es) (ym, yc) (um, uc) n = Some rs -> aberrations l1 l2 (e0 :: es) rs = Some xs ->
  nth_error es j = Some e -> flat e -> nth_error rs (S j) = Some r -> fst (ry r) = 0 ->
  let E := error_pattern (column tsc (firstn (S (S j)) xs)) (column cc (firstn (S (S j)) xs)) (column tac (firstn (S (S j)) xs))
    (column tpc (firstn (S (S j)) xs)) (column dc (firstn (S (S j)) xs)) A B in
  let H := snd (ry r) in let y := mix ym yc A B in let t := scale2 (/ n) (mix um uc A B) in
  let at_ c h := exact_y newton (e0 :: es) pos n l (S j) c (h * (fst y + pos * fst t)) (h * (snd y + pos * snd t)) (h * fst t) (h * snd t) in
  exists X1 X2, (exists eps, 0 < eps /\ forall h, Rabs h < eps -> at_ vx h = Some (X1 h) /\ at_ vy h = Some (X2 h)) /\
    tends (fun h => (X1 h - h * (H * fst B)) / h ^ 3) (H * fst E) /\ tends (fun h => (X2 h - h * (H * snd B)) / h ^ 3) (H * snd E).
Proof.
  intros C0 LE FR N LN PT AB EJ FL RJ RZ E H y t at_. destruct (lens_elements l es LE FR) as (FC & FCR & FCF).
  destruct (C56_third_order newton axis l1 l2 e0 es l false n ym yc um uc A B rs xs j e r C0 FC FCR N LN PT AB EJ FL RJ RZ) as (X1 & X2 & (eps & EP & K) & L1 & L2).
  exists X1, X2. split; [|split; assumption]. exists eps. split; [auto|]. intros h HL. destruct (K h HL) as (s & NS & YS). fold y t in NS.
  destruct es as [|e1 es]; [destruct j; discriminate EJ|]. inversion FC as [|? ? C1 FC']; subst. inversion FCF as [|? ? CF1 _]; subst.
  assert (NP : 0 < 1 + h * h * (fst t * fst t + snd t * snd t)) by (pose proof (Rle_0_sqr h); pose proof (Rle_0_sqr (fst t)); pose proof (Rle_0_sqr (snd t)); unfold Rsqr in *; nra).
  pose proof (sqrt_lt_R0 _ NP) as WP. pose proof (sqrt_sqrt _ (Rlt_le _ _ NP)) as WW.
  assert (U1 : dot (launch_U t h) (launch_U t h) = 1).
  { unfold launch_U, dot. cbn [vx vy vz]. set (w := sqrt _) in *. clearbody w. apply (Rmult_eq_reg_r (w * w)); [|nra]. rewrite Rmult_1_l. rewrite WW at 2. field. lra. }
  set (w := sqrt (1 + h * h * (fst t * fst t + snd t * snd t))) in *.
  destruct (trace_slide newton e0 e1 es (launch_Y y h) (launch_U t h) (pos * w) n l false C0 C1 CF1 U1 j s NS) as (s' & NS' & YS').
  assert (EX : exact newton (e0 :: e1 :: es) pos n l (h * (fst y + pos * fst t)) (h * (snd y + pos * snd t)) (h * fst t) (h * snd t) = geo_trace newton (e0 :: e1 :: es) (at_ray (launch_Y y h) (launch_U t h) (pos * w)) (launch_U t h) n l false).
  { unfold exact. replace (1 + (h * fst t) ^ 2 + (h * snd t) ^ 2) with (1 + h * h * (fst t * fst t + snd t * snd t)) by ring. fold w. f_equal. unfold at_ray, launch_Y, launch_U, vadd3, vmul3. fold w. clearbody w. apply vec_eq; cbn [vx vy vz]; field; lra. }
  assert (FE : forall v, from_normal (e_place e) v = Some v) by (intros v; apply centred_frame; apply (proj1 (Forall_forall _ _) FC); apply (nth_error_In _ _ EJ)).
  unfold at_, exact_y. rewrite EX, NS'. change (nth_error (e0 :: e1 :: es) (S j)) with (nth_error (e1 :: es) j). rewrite EJ. cbn [obind]. rewrite YS', YS. cbn [obind]. rewrite FE. cbn [obind vx vy]. auto.
Qed.
Section Expand.
Variables (m : nat) (idx : itable) (jdx : list (list nat)) (abi : list row).
Hypothesis Hm : (2 <= m)%nat.
Hypothesis Hs : (Z.of_nat (simplex_size 3 m) <= 65536)%Z.
Hypothesis Hi : simplex_idx 3 m = Some (idx, jdx, abi).
(** [s'], [t']: the polynomials in the coordinates [x], [f] of pupil and field *)
Lemma image_cubic axis l1 l2 e0 es l n pos ym yc um uc A B rs xs j e r sts st s' t' x1 x2 f1 f2 :
  centred e0 -> lens l false es -> Forall refracting es -> 0 < n -> um * yc - uc * ym <> 0 ->
  ptrace axis l (e0 :: es) (ym, yc) (um, uc) n = Some rs -> aberrations l1 l2 (e0 :: es) rs = Some xs ->
  nth_error es j = Some e -> flat e -> nth_error rs (S j) = Some r -> fst (ry r) = 0 ->
  poly_trace abi m (simplex_size 3 m) (e0 :: es) l pos n = Some sts -> nth_error sts (S j) = Some st ->
  length s' = simplex_size 3 m -> length t' = simplex_size 3 m ->
  let y := mix ym yc A B in let t := scale2 (/ n) (mix um uc A B) in
  (forall h, combine1 jdx s' t' (h * x1) (h * x2) (h * f1) (h * f2) = combine1 jdx (ps_s st) (ps_t st) (h * (fst y + pos * fst t)) (h * (snd y + pos * snd t)) (h * fst t) (h * snd t)) ->
  (forall h, combine2 jdx s' t' (h * x1) (h * x2) (h * f1) (h * f2) = combine2 jdx (ps_s st) (ps_t st) (h * (fst y + pos * fst t)) (h * (snd y + pos * snd t)) (h * fst t) (h * snd t)) ->
  let E := error_pattern (column tsc (firstn (S (S j)) xs)) (column cc (firstn (S (S j)) xs)) (column tac (firstn (S (S j)) xs))
    (column tpc (firstn (S (S j)) xs)) (column dc (firstn (S (S j)) xs)) A B in
  let H := snd (ry r) in
  H * fst E = cubic s' t' x1 x2 f1 f2 x1 f1 /\ H * snd E = cubic s' t' x1 x2 f1 f2 x2 f2.
Proof.
  intros C0 LE FR N LN PT AB EJ FL RJ RZ PO NE LS LT y t Q1 Q2 E H. set (newton := fun (_ _ : R -> option R) (_ : option R) => @None R).
  destruct (image_heights newton axis l1 l2 e0 es l n pos ym yc um uc A B rs xs j e r C0 LE FR N LN PT AB EJ FL RJ RZ) as (X1 & X2 & (eps & EP & K) & L1 & L2). fold E H y t in K, L1, L2.
  destruct (C43_taylor m idx jdx abi Hm Hs Hi newton l e0 es pos n LE (centred_rotated e0 C0) N) as (sts' & PO' & _ & TA). assert (sts' = sts) by congruence. subst sts'. destruct (TA j st NE) as (W1 & W2 & _). clear TA.
  destruct (within_ray _ _ _ (fst y + pos * fst t) (snd y + pos * snd t) (fst t) (snd t) W1) as (C1 & d1 & D1 & B1). destruct (within_ray _ _ _ (fst y + pos * fst t) (snd y + pos * snd t) (fst t) (snd t) W2) as (C2 & d2 & D2 & B2).
  destruct (combine_cubic m idx jdx abi Hm Hs Hi s' t' x1 x2 f1 f2 LS LT) as (C3 & d3 & D3 & B3).
  set (d := Rmin 1 (Rmin eps (Rmin d1 (Rmin d2 d3)))). assert (DP : 0 < d) by (unfold d; repeat apply Rmin_pos; lra).
  assert (DL : d <= 1 /\ d <= eps /\ d <= d1 /\ d <= d2 /\ d <= d3).
  { unfold d. pose proof (Rmin_l 1 (Rmin eps (Rmin d1 (Rmin d2 d3)))). pose proof (Rmin_r 1 (Rmin eps (Rmin d1 (Rmin d2 d3)))). pose proof (Rmin_l eps (Rmin d1 (Rmin d2 d3))). pose proof (Rmin_r eps (Rmin d1 (Rmin d2 d3))). pose proof (Rmin_l d1 (Rmin d2 d3)). pose proof (Rmin_r d1 (Rmin d2 d3)). pose proof (Rmin_l d2 d3). pose proof (Rmin_r d2 d3). repeat split; lra. }
  destruct DL as (G0 & G1 & G2 & G3 & G4).
  assert (P5 : forall C h, Rabs h < d -> C * Rabs h ^ (2 * m + 1) <= Rabs C * Rabs h ^ 5).
  { intros C h HL. pose proof (Rabs_pos h). replace (2 * m + 1)%nat with (5 + 2 * (m - 2))%nat by lia. rewrite pow_add. assert (0 <= Rabs h ^ 5) by (apply pow_le; auto). assert (0 <= Rabs h ^ (2 * (m - 2)) <= 1) by (split; [apply pow_le; auto|rewrite <- (pow1 (2 * (m - 2))); apply pow_incr; lra]).
    apply Rle_trans with (Rabs C * (Rabs h ^ 5 * Rabs h ^ (2 * (m - 2)))); [apply Rmult_le_compat_r; [nra|apply Rle_abs]|]. apply Rmult_le_compat_l; [apply Rabs_pos|nra]. }
  assert (S1 : forall h, Rabs h < d -> Rabs (X1 h - (h * (nth 0 s' 0 * x1 + nth 0 t' 0 * f1) + h ^ 3 * cubic s' t' x1 x2 f1 f2 x1 f1)) <= (Rabs C1 + C3) * Rabs h ^ 5).
  { intros h HL. destruct (K h ltac:(lra)) as (E1 & _). destruct (B1 h ltac:(lra)) as (a & b & EA & EB & EC). destruct (B3 h ltac:(lra)) as (v & w & EV & _ & EVB & _). rewrite Q1 in EV.
    assert (a = X1 h) by congruence. assert (b = v) by congruence. subst a b. set (g := h * _ + _) in *. pose proof (P5 C1 h HL). replace (X1 h - g) with ((X1 h - v) + (v - g)) by ring. eapply Rle_trans; [apply Rabs_triang|]. lra. }
  assert (S2 : forall h, Rabs h < d -> Rabs (X2 h - (h * (nth 0 s' 0 * x2 + nth 0 t' 0 * f2) + h ^ 3 * cubic s' t' x1 x2 f1 f2 x2 f2)) <= (Rabs C2 + C3) * Rabs h ^ 5).
  { intros h HL. destruct (K h ltac:(lra)) as (_ & E1). destruct (B2 h ltac:(lra)) as (a & b & EA & EB & EC). destruct (B3 h ltac:(lra)) as (v & w & _ & EV & _ & EVB). rewrite Q2 in EV.
    assert (a = X2 h) by congruence. assert (b = w) by congruence. subst a b. set (g := h * _ + _) in *. pose proof (P5 C2 h HL). replace (X2 h - g) with ((X2 h - w) + (w - g)) by ring. eapply Rle_trans; [apply Rabs_triang|]. lra. }
  destruct (cubic_unique _ _ _ _ _ _ _ L1 DP S1) as (_ & ->). destruct (cubic_unique _ _ _ _ _ _ _ L2 DP S2) as (_ & ->). auto.
Qed.
End Expand.
(** comparing the cubic forms *)
Lemma cubic_coefs s t a d H S C T P D :
  (forall A B : R * R, H * fst (error_pattern S C T P D A B) = cubic s t (a * fst A) (a * snd A) (d * fst B) (d * snd B) (a * fst A) (d * fst B) /\
                       H * snd (error_pattern S C T P D A B) = cubic s t (a * fst A) (a * snd A) (d * fst B) (d * snd B) (a * snd A) (d * snd B)) ->
  nth 1 s 0 * a ^ 3 = H * S /\ nth 2 s 0 * (a * d ^ 2) = H * (T + P) /\ nth 3 s 0 * (a ^ 2 * d) = 2 * (H * C) /\
  nth 1 t 0 * (a ^ 2 * d) = H * C /\ nth 2 t 0 * d ^ 3 = H * D /\ nth 3 t 0 * (a * d ^ 2) = 2 * (H * T).
Proof.
  intros Q. destruct (Q (1, 0) (0, 0)) as [Q1 _]. destruct (Q (0, 0) (1, 0)) as [Q2 _]. destruct (Q (1, 0) (0, 1)) as [Q3 Q4]. destruct (Q (1, 0) (1, 1)) as [Q5 Q6]. clear Q.
  unfold error_pattern, mix, inner, cubic in *. cbn [fst snd] in *.
  assert (E1 : nth 1 s 0 * a ^ 3 = H * S) by lra. assert (E2 : nth 2 t 0 * d ^ 3 = H * D) by lra. assert (E3 : nth 2 s 0 * (a * d ^ 2) = H * (T + P)) by lra. assert (E4 : nth 1 t 0 * (a ^ 2 * d) = H * C) by lra.
  assert (E6 : nth 3 t 0 * (a * d ^ 2) = 2 * (H * T)) by lra. repeat split; auto. lra.
Qed.
Lemma ten m : (3 <= m)%nat -> (10 <= simplex_size 3 m)%nat.
Proof. intros M3. rewrite <- (simplex_size_length 3 m) by (auto using H3). destruct m as [|[|[|k]]]; try lia. cbn. lia. Qed.
Lemma seidel_head s t : (10 <= length s)%nat -> (10 <= length t)%nat -> exists rest,
  seidel s t = Some (("s1", nth 1 s 0) :: ("s2", - nth 1 t 0) :: ("s3", nth 3 t 0 / 2) :: ("s4", nth 2 s 0 - nth 3 t 0 / 2) :: ("s5", - nth 2 t 0) :: rest)%string.
Proof.
  intros LS LT. unfold seidel. destruct (Nat.ltb_spec (length s) 10); [lia|]. destruct (Nat.ltb_spec (length t) 10); [lia|]. cbn [orb]. eexists. reflexivity.
Qed.
Section Main.
Variables (m : nat) (idx : itable) (jdx : list (list nat)) (abi : list row).
Hypothesis Hm : (3 <= m)%nat.
Hypothesis Hs : (Z.of_nat (simplex_size 3 m) <= 65536)%Z.
Hypothesis Hi : simplex_idx 3 m = Some (idx, jdx, abi).
Lemma infinite_coefs axis l1 l2 e0 es l n pos ym yc uc rs xs j e r :
  centred e0 -> lens l false es -> Forall refracting es -> 0 < n -> ym <> 0 -> uc <> 0 -> yc + pos * (uc / n) = 0 ->
  ptrace axis l (e0 :: es) (ym, yc) (0, uc) n = Some rs -> aberrations l1 l2 (e0 :: es) rs = Some xs ->
  nth_error es j = Some e -> flat e -> nth_error rs (S j) = Some r -> fst (ry r) = 0 ->
  let sum f := snd (ry r) * column f (firstn (S (S j)) xs) in let a := uc / n in
  exists sts st, poly_trace abi m (simplex_size 3 m) (e0 :: es) l pos n = Some sts /\ nth_error sts (S j) = Some st /\
    length (ps_s st) = simplex_size 3 m /\ length (ps_t st) = simplex_size 3 m /\
    nth 1 (ps_s st) 0 * ym ^ 3 = sum tsc /\ nth 2 (ps_s st) 0 * (ym * a ^ 2) = sum tac + sum tpc /\ nth 3 (ps_s st) 0 * (ym ^ 2 * a) = 2 * sum cc /\
    nth 1 (ps_t st) 0 * (ym ^ 2 * a) = sum cc /\ nth 2 (ps_t st) 0 * a ^ 3 = sum dc /\ nth 3 (ps_t st) 0 * (ym * a ^ 2) = 2 * sum tac.
Proof.
  intros C0 LE FR N YN UN PU PT AB EJ FL RJ RZ sum a. assert (Hm2 : (2 <= m)%nat) by lia.
  destruct (core m idx jdx abi Hm2 Hs Hi (fun _ _ _ => None) l e0 es pos n LE (centred_rotated e0 C0) N) as (sts & PO & LL & d & _ & HT).
  assert (JL : (j < length es)%nat) by (apply nth_error_Some; congruence). destruct (nth_error sts (S j)) as [st|] eqn:NE; [|apply nth_error_None in NE; lia]. destruct (HT j st NE) as (F & TS & _). clear HT.
  pose proof (proj1 (ts_s _ _ _ TS)) as LS. pose proof (proj1 (ts_t _ _ _ TS)) as LT.
  exists sts, st. split; [auto|]. split; [auto|]. split; [auto|]. split; [auto|].
  assert (LN : 0 * yc - uc * ym <> 0). { rewrite Rmult_0_l, Rminus_0_l. apply Ropp_neq_0_compat, Rmult_integral_contrapositive_currified; auto. }
  destruct (cubic_coefs (ps_s st) (ps_t st) ym a (snd (ry r)) (column tsc (firstn (S (S j)) xs)) (column cc (firstn (S (S j)) xs)) (column tac (firstn (S (S j)) xs)) (column tpc (firstn (S (S j)) xs)) (column dc (firstn (S (S j)) xs))) as (E1 & E2 & E3 & E4 & E5 & E6).
  - intros A B.
    assert (EQ : forall a1 b1 : R, ym * a1 + yc * b1 + pos * (/ n * (0 * a1 + uc * b1)) = ym * a1 /\ / n * (0 * a1 + uc * b1) = a * b1).
    { intros a1 b1. split; [|unfold a; field; lra]. transitivity (ym * a1 + (yc + pos * (uc / n)) * b1); [field; lra|]. rewrite PU. ring. }
    destruct (EQ (fst A) (fst B)) as [EX1 ET1]. destruct (EQ (snd A) (snd B)) as [EX2 ET2].
    apply (image_cubic m idx jdx abi Hm2 Hs Hi axis l1 l2 e0 es l n pos ym yc 0 uc A B rs xs j e r sts st (ps_s st) (ps_t st) (ym * fst A) (ym * snd A) (a * fst B) (a * snd B)); auto;
      intros h; unfold mix, scale2; cbn [fst snd]; rewrite EX1, EX2, ET1, ET2; reflexivity.
  - unfold sum. repeat split; auto. rewrite E2. ring.
Qed.
End Main.

(** * parallel light: marginal ray of height [ym], chief ray through the axis at the plane of launch *)
Theorem C65_seidel : forall m idx jdx abi, (3 <= m)%nat -> (Z.of_nat (simplex_size 3 m) <= 65536)%Z -> simplex_idx 3 m = Some (idx, jdx, abi) ->
  forall axis l1 l2 e0 es l n pos ym yc uc rs xs j e r,
  centred e0 -> lens l false es -> Forall refracting es -> 0 < n -> ym <> 0 -> uc <> 0 -> yc + pos * (uc / n) = 0 ->
  ptrace axis l (e0 :: es) (ym, yc) (0, uc) n = Some rs -> aberrations l1 l2 (e0 :: es) rs = Some xs ->
  nth_error es j = Some e -> flat e -> nth_error rs (S j) = Some r -> fst (ry r) = 0 ->
  let sum f := snd (ry r) * column f (firstn (S (S j)) xs) in let a := uc / n in
  exists sts st s1 s2 s3 s4 s5 rest, poly_trace abi m (simplex_size 3 m) (e0 :: es) l pos n = Some sts /\ nth_error sts (S j) = Some st /\
    seidel (ps_s st) (ps_t st) = Some (("s1", s1) :: ("s2", s2) :: ("s3", s3) :: ("s4", s4) :: ("s5", s5) :: rest)%string /\
    s1 * ym ^ 3 = sum tsc /\ s2 * (ym ^ 2 * a) = - sum cc /\ s3 * (ym * a ^ 2) = sum tac /\ s4 * (ym * a ^ 2) = sum tpc /\ s5 * a ^ 3 = - sum dc.
Proof.
  intros m idx jdx abi Hm Hs Hi axis l1 l2 e0 es l n pos ym yc uc rs xs j e r C0 LE FR N YN UN PU PT AB EJ FL RJ RZ sum a.
  destruct (infinite_coefs m idx jdx abi Hm Hs Hi axis l1 l2 e0 es l n pos ym yc uc rs xs j e r C0 LE FR N YN UN PU PT AB EJ FL RJ RZ) as (sts & st & PO & NE & LS & LT & E1 & E2 & E3 & E4 & E5 & E6). fold a in E1, E2, E3, E4, E5, E6.
  pose proof (ten m Hm). destruct (seidel_head (ps_s st) (ps_t st)) as (rest & SE); [lia|lia|]. exists sts, st. do 6 eexists. split; [exact PO|]. split; [exact NE|]. split; [exact SE|].
  unfold sum; clear sum; clearbody a. split; [exact E1|]. split; [lra|]. split; [lra|]. split; [|lra]. rewrite Rmult_minus_distr_r, E2. lra.
Qed.
Print Assumptions C65_seidel.
(** and the remaining coefficient of this order is twice the coma *)
Theorem C65_coma : forall m idx jdx abi, (3 <= m)%nat -> (Z.of_nat (simplex_size 3 m) <= 65536)%Z -> simplex_idx 3 m = Some (idx, jdx, abi) ->
  forall axis l1 l2 e0 es l n pos ym yc uc rs xs j e r,
  centred e0 -> lens l false es -> Forall refracting es -> 0 < n -> ym <> 0 -> uc <> 0 -> yc + pos * (uc / n) = 0 ->
  ptrace axis l (e0 :: es) (ym, yc) (0, uc) n = Some rs -> aberrations l1 l2 (e0 :: es) rs = Some xs ->
  nth_error es j = Some e -> flat e -> nth_error rs (S j) = Some r -> fst (ry r) = 0 ->
  exists sts st, poly_trace abi m (simplex_size 3 m) (e0 :: es) l pos n = Some sts /\ nth_error sts (S j) = Some st /\
    nth 3 (ps_s st) 0 = 2 * nth 1 (ps_t st) 0.
Proof.
  intros m idx jdx abi Hm Hs Hi axis l1 l2 e0 es l n pos ym yc uc rs xs j e r C0 LE FR N YN UN PU PT AB EJ FL RJ RZ.
  destruct (infinite_coefs m idx jdx abi Hm Hs Hi axis l1 l2 e0 es l n pos ym yc uc rs xs j e r C0 LE FR N YN UN PU PT AB EJ FL RJ RZ) as (sts & st & PO & NE & _ & _ & _ & _ & E3 & E4 & _).
  exists sts, st. split; [auto|]. split; [auto|]. assert (Z : ym ^ 2 * (uc / n) <> 0).
  { apply Rmult_integral_contrapositive_currified; [apply pow_nonzero; auto|]. unfold Rdiv. apply Rmult_integral_contrapositive_currified; [auto|apply Rinv_neq_0_compat; lra]. }
  apply (Rmult_eq_reg_r (ym ^ 2 * (uc / n))); [|auto]. lra.
Qed.
Print Assumptions C65_coma.
(** the values of the other listing *)
Theorem C65_buchdahl_values : forall m idx jdx abi, (3 <= m)%nat -> (Z.of_nat (simplex_size 3 m) <= 65536)%Z -> simplex_idx 3 m = Some (idx, jdx, abi) ->
  forall axis l1 l2 e0 es l n pos ym yc uc rs xs j e r,
  centred e0 -> lens l false es -> Forall refracting es -> 0 < n -> ym <> 0 -> uc <> 0 -> yc + pos * (uc / n) = 0 ->
  ptrace axis l (e0 :: es) (ym, yc) (0, uc) n = Some rs -> aberrations l1 l2 (e0 :: es) rs = Some xs ->
  nth_error es j = Some e -> flat e -> nth_error rs (S j) = Some r -> fst (ry r) = 0 ->
  let sum f := snd (ry r) * column f (firstn (S (S j)) xs) in let a := uc / n in
  exists sts st v, poly_trace abi m (simplex_size 3 m) (e0 :: es) l pos n = Some sts /\ nth_error sts (S j) = Some st /\
    buchdahl_values (ps_s st) (ps_t st) = Some v /\ length v = 18%nat /\
    nth 0 v 0 * ym ^ 3 = - sum tsc /\ nth 1 v 0 * (ym * a ^ 2) = - (sum tac + sum tpc) /\ nth 2 v 0 * (ym ^ 2 * a) = 2 * sum cc /\
    nth 9 v 0 * (ym ^ 2 * a) = sum cc /\ nth 10 v 0 * a ^ 3 = sum dc /\ nth 11 v 0 * (ym * a ^ 2) = - (2 * sum tac).
Proof.
  intros m idx jdx abi Hm Hs Hi axis l1 l2 e0 es l n pos ym yc uc rs xs j e r C0 LE FR N YN UN PU PT AB EJ FL RJ RZ sum a.
  destruct (infinite_coefs m idx jdx abi Hm Hs Hi axis l1 l2 e0 es l n pos ym yc uc rs xs j e r C0 LE FR N YN UN PU PT AB EJ FL RJ RZ) as (sts & st & PO & NE & LS & LT & E1 & E2 & E3 & E4 & E5 & E6). fold a in E1, E2, E3, E4, E5, E6.
  pose proof (ten m Hm). rewrite <- LS in H at 1. pose proof (ten m Hm) as H'. rewrite <- LT in H'.
  revert H H' E1 E2 E3 E4 E5 E6. destruct (ps_s st) as [|s0 [|s1 [|s2 [|s3 [|s4 [|s5 [|s6 [|s7 [|s8 [|s9 ss]]]]]]]]]] eqn:ES; cbn [length]; try (intros; lia).
  destruct (ps_t st) as [|t0 [|t1 [|t2 [|t3 [|t4 [|t5 [|t6 [|t7 [|t8 [|t9 ts]]]]]]]]]] eqn:ET; cbn [length]; try (intros; lia). intros _ _. cbn [nth]. intros E1 E2 E3 E4 E5 E6.
  exists sts, st. rewrite ES, ET. eexists. split; [exact PO|]. split; [exact NE|]. split; [reflexivity|]. split; [reflexivity|]. cbn [nth fold_left flips flip_pair negate upd slice_1_10 firstn tl map app Nat.add].
  unfold sum; clear sum; clearbody a. repeat split; lra.
Qed.
Print Assumptions C65_buchdahl_values.
(** a generator reading the list it extends: the listing never ends *)
Lemma extend_runs fuel : forall i n, (i < length n)%nat -> extend_self fuel i n = None.
Proof.
  induction fuel as [|fuel IH]; intros i n L; cbn [extend_self]; (destruct (nth_error n i) eqn:E; [|apply nth_error_None in E; lia]); auto.
  apply IH. rewrite app_length. cbn. lia.
Qed.
(** the loop ends only if it starts behind the end *)
Theorem C65_extend_self : forall fuel i n m, extend_self fuel i n = Some m <-> (length n <= i)%nat /\ m = n.
Proof.
  intros fuel i n m. destruct (le_lt_dec (length n) i) as [L|L].
  - assert (E : extend_self fuel i n = Some n). { apply nth_error_None in L. destruct fuel; cbn [extend_self]; rewrite L; reflexivity. }
    rewrite E. split; [intros H; injection H as <-; auto|intros [_ ->]; auto].
  - rewrite extend_runs by auto. split; [discriminate|lia].
Qed.
Example C65_extend_self_example : extend_self 3 1 ["a"]%string = Some ["a"]%string /\ extend_self 3 0 ["a"]%string = None.
Proof. split; reflexivity. Qed.
Theorem C65_buchdahl_refuted : forall s t, ~ exists fuel names, buchdahl fuel s t = Some names.
Proof. intros s t (fuel & names & H). unfold buchdahl in H. rewrite extend_runs in H; [discriminate H|cbn; lia]. Qed.
Print Assumptions C65_buchdahl_refuted.
Example C65_buchdahl_refuted_example : exists v, buchdahl_values [0; 1; 2; 3; 4; 5; 6; 7; 8; 9] [0; 1; 2; 3; 4; 5; 6; 7; 8; 9] = Some v /\ length v = 18%nat.
Proof. eexists. split; reflexivity. Qed.

(** * objects at a finite distance: coordinates of pupil and field from -1 to 1 *)
Section FiniteTransform.
Variables (m : nat) (idx : itable) (jdx : list (list nat)) (abi : list row).
Hypothesis Hm : (2 <= m)%nat.
Hypothesis Hs : (Z.of_nat (simplex_size 3 m) <= 65536)%Z.
Hypothesis Hi : simplex_idx 3 m = Some (idx, jdx, abi).
Hypothesis Hb : forall e, length e = 3%nat -> (list_sum e < m)%nat -> (Z.of_nat (multinom e) < 65536)%Z.
Lemma transform_length c st r a c' : length (ps_s st) = simplex_size 3 m -> length (ps_t st) = simplex_size 3 m ->
  pupil_radius (cj_pupil c) = Some r -> pupil_slope (cj_pupil c) = Some a -> conj_slope c = Some c' ->
  exists N, forall fuel, (N <= fuel)%nat -> exists bs bt, poly_transform fuel idx jdx c st = Some (bs, bt) /\ length bs = simplex_size 3 m /\ length bt = simplex_size 3 m.
Proof.
  intros LS LT PR PS CS. unfold poly_transform. rewrite PR, PS, CS. cbn [obind]. destruct (Rlt_dec (Rabs c') (Rabs a)) as [TE|TE].
  - set (r' := - cj_val c).
    destruct (transformed m idx jdx abi Hm Hs Hi Hb (rvadd (rvscale r' (ps_s st)) (rvscale c' (ps_t st))) r' c' a (scaled_length m _ _ _ _ LS LT)) as (N1 & H1).
    destruct (transformed m idx jdx abi Hm Hs Hi Hb (rvadd (rvscale 0 (ps_s st)) (rvscale a (ps_t st))) r' c' a (scaled_length m _ _ _ _ LS LT)) as (N2 & H2).
    exists (N1 + N2)%nat. intros fuel Hf. destruct (H1 fuel ltac:(lia)) as (b1 & -> & L1 & E1). destruct (H2 fuel ltac:(lia)) as (b2 & -> & L2 & E2). cbn [obind].
    do 2 eexists. split; [reflexivity|]. destruct (swapped m idx jdx abi Hm Hs Hi b1 0 0 0 L1) as [M1 _]. destruct (swapped m idx jdx abi Hm Hs Hi b2 0 0 0 L2) as [M2 _]. split; assumption.
  - destruct (transformed m idx jdx abi Hm Hs Hi Hb (rvadd (rvscale r (ps_s st)) (rvscale a (ps_t st))) r a c' (scaled_length m _ _ _ _ LS LT)) as (N1 & H1).
    destruct (transformed m idx jdx abi Hm Hs Hi Hb (rvadd (rvscale 0 (ps_s st)) (rvscale c' (ps_t st))) r a c' (scaled_length m _ _ _ _ LS LT)) as (N2 & H2).
    exists (N1 + N2)%nat. intros fuel Hf. destruct (H1 fuel ltac:(lia)) as (b1 & -> & L1 & E1). destruct (H2 fuel ltac:(lia)) as (b2 & -> & L2 & E2). cbn [obind].
    do 2 eexists. split; [reflexivity|]. auto.
Qed.
End FiniteTransform.
(** marginal ray from the axis point of the object to the rim of the pupil, chief ray from its edge to the pupil centre *)
Theorem C65_finite : forall m idx jdx abi, (3 <= m)%nat -> (Z.of_nat (simplex_size 3 m) <= 65536)%Z -> simplex_idx 3 m = Some (idx, jdx, abi) ->
  (forall e, length e = 3%nat -> (list_sum e < m)%nat -> (Z.of_nat (multinom e) < 65536)%Z) ->
  forall axis l1 l2 e0 es l n pos c rad rs xs j e r,
  centred e0 -> lens l false es -> Forall refracting es -> 0 < n ->
  cj_finite c = true -> pu_telecentric (cj_pupil c) = false -> pu_distance (cj_pupil c) <> 0 -> pupil_radius (cj_pupil c) = Some rad -> poly_start c = Some pos ->
  rad <> 0 -> cj_val c <> 0 ->
  ptrace axis l (e0 :: es) (0, - cj_val c) (n * (rad / pu_distance (cj_pupil c)), n * (cj_val c / pu_distance (cj_pupil c))) n = Some rs -> aberrations l1 l2 (e0 :: es) rs = Some xs ->
  nth_error es j = Some e -> flat e -> nth_error rs (S j) = Some r -> fst (ry r) = 0 ->
  let sum f := snd (ry r) * column f (firstn (S (S j)) xs) in
  exists sts st fuel, poly_trace abi m (simplex_size 3 m) (e0 :: es) l pos n = Some sts /\ nth_error sts (S j) = Some st /\
  forall f, (fuel <= f)%nat -> exists bs bt rest, poly_transform f idx jdx c st = Some (bs, bt) /\
    seidel bs bt = Some (("s1", sum tsc) :: ("s2", - sum cc) :: ("s3", sum tac) :: ("s4", sum tpc) :: ("s5", - sum dc) :: rest)%string.
Proof.
  intros m idx jdx abi Hm Hs Hi Hb axis l1 l2 e0 es l n pos c rad rs xs j e r C0 LE FR N FI TE DZ PR PS RN VN PT AB EJ FL RJ RZ sum. assert (Hm2 : (2 <= m)%nat) by lia.
  set (D := pu_distance (cj_pupil c)) in *. set (Ro := cj_val c) in *.
  destruct (core m idx jdx abi Hm2 Hs Hi (fun _ _ _ => None) l e0 es pos n LE (centred_rotated e0 C0) N) as (sts & PO & LL & d & _ & HT).
  assert (JL : (j < length es)%nat) by (apply nth_error_Some; congruence). destruct (nth_error sts (S j)) as [st|] eqn:NE; [|apply nth_error_None in NE; lia]. destruct (HT j st NE) as (F & TS & _). clear HT.
  pose proof (proj1 (ts_s _ _ _ TS)) as LS. pose proof (proj1 (ts_t _ _ _ TS)) as LT.
  unfold poly_start in PS. rewrite FI, TE in PS. destruct (pupil_slope (cj_pupil c)) as [a|] eqn:SL; cbn [obind] in PS; [|discriminate PS]. destruct (conj_slope c) as [c'|] eqn:CS; cbn [obind] in PS; [|discriminate PS].
  assert (EC : c' = Ro / D). { unfold conj_slope in CS. rewrite FI in CS. fold D Ro in CS. rewrite fdiv_some in CS by auto. congruence. }
  assert (EA : a = rad / D). { unfold pupil_radius in PR. unfold pupil_slope in SL, PR. fold D in SL, PR. destruct (pu_kind (cj_pupil c)). 1, 2, 4: rewrite SL in PR; cbn [obind] in PR; injection PR as <-; field; auto. rewrite fdiv_some in SL by auto. congruence. }
  destruct (finite_evaluate m idx jdx abi Hm2 Hs Hi Hb c st rad a c' LS LT PR SL CS) as (N1 & FE). destruct (transform_length m idx jdx abi Hm2 Hs Hi Hb c st rad a c' LS LT PR SL CS) as (N2 & TL).
  exists sts, st, (N1 + N2)%nat. split; [auto|]. split; [auto|]. intros f HF. destruct (TL f ltac:(lia)) as (bs & bt & TR & LB & LC). clear TL. specialize (FE f ltac:(lia)). fold Ro in FE.
  assert (LN : n * (rad / D) * - Ro - n * (Ro / D) * 0 <> 0). { rewrite Rmult_0_r, Rminus_0_r. repeat apply Rmult_integral_contrapositive_currified; auto; try lra. apply Rinv_neq_0_compat; auto. }
  assert (SX : forall x g, (if Rlt_dec (Rabs c') (Rabs a) then - Ro * g else rad * x) = - Ro * g + pos * ((rad * x + Ro * g) / D)).
  { intros x g. destruct (Rlt_dec (Rabs c') (Rabs a)); injection PS as <-; [ring|]. fold D. field; auto. }
  assert (CO : forall x1 x2 f1 f2, combine1 jdx bs bt x1 x2 f1 f2 = combine1 jdx (ps_s st) (ps_t st) (- Ro * f1 + pos * ((rad * x1 + Ro * f1) / D)) (- Ro * f2 + pos * ((rad * x2 + Ro * f2) / D)) ((rad * x1 + Ro * f1) / D) ((rad * x2 + Ro * f2) / D) /\
    combine2 jdx bs bt x1 x2 f1 f2 = combine2 jdx (ps_s st) (ps_t st) (- Ro * f1 + pos * ((rad * x1 + Ro * f1) / D)) (- Ro * f2 + pos * ((rad * x2 + Ro * f2) / D)) ((rad * x1 + Ro * f1) / D) ((rad * x2 + Ro * f2) / D)).
  { intros x1 x2 f1 f2. specialize (FE x1 x2 f1 f2). cbv zeta in FE. destruct FE as (p1 & p2 & EV & E1 & E2). rewrite !SX in E1, E2. assert (SA : forall x g, a * x + c' * g = (rad * x + Ro * g) / D) by (intros; rewrite EA, EC; field; auto). rewrite !SA in E1, E2. rewrite E1, E2.
    unfold poly_evaluate_finite in EV. rewrite TR in EV. cbn [obind] in EV. unfold combine1, combine2, value. destruct (simplex_eval R 0 Rplus Rmult jdx bs _); cbn [obind] in *; [|discriminate EV]. destruct (simplex_eval R 0 Rplus Rmult jdx bt _); cbn [obind] in *; [|discriminate EV]. injection EV as <- <-. auto. }
  destruct (cubic_coefs bs bt 1 1 (snd (ry r)) (column tsc (firstn (S (S j)) xs)) (column cc (firstn (S (S j)) xs)) (column tac (firstn (S (S j)) xs)) (column tpc (firstn (S (S j)) xs)) (column dc (firstn (S (S j)) xs))) as (E1 & E2 & E3 & E4 & E5 & E6).
  - intros A B.
    assert (EQ : forall h a1 b1 : R, - Ro * (h * (1 * b1)) + pos * ((rad * (h * (1 * a1)) + Ro * (h * (1 * b1))) / D) = h * (0 * a1 + - Ro * b1 + pos * (/ n * (n * (rad / D) * a1 + n * (Ro / D) * b1))) /\ (rad * (h * (1 * a1)) + Ro * (h * (1 * b1))) / D = h * (/ n * (n * (rad / D) * a1 + n * (Ro / D) * b1))).
    { intros h a1 b1. split; field; split; auto; lra. }
    apply (image_cubic m idx jdx abi Hm2 Hs Hi axis l1 l2 e0 es l n pos 0 (- Ro) (n * (rad / D)) (n * (Ro / D)) A B rs xs j e r sts st bs bt (1 * fst A) (1 * snd A) (1 * fst B) (1 * snd B)); auto;
      intros h; destruct (CO (h * (1 * fst A)) (h * (1 * snd A)) (h * (1 * fst B)) (h * (1 * snd B))) as [CO1 CO2]; (rewrite CO1 || rewrite CO2); unfold mix, scale2; cbn [fst snd]; destruct (EQ h (fst A) (fst B)) as [-> ->]; destruct (EQ h (snd A) (snd B)) as [-> ->]; reflexivity.
  - pose proof (ten m Hm). destruct (seidel_head bs bt) as (rest & SE); [lia|lia|]. exists bs, bt, rest. split; [exact TR|]. rewrite SE. unfold sum.
    replace (nth 1 bs 0) with (snd (ry r) * column tsc (firstn (S (S j)) xs)) by lra. replace (nth 1 bt 0) with (snd (ry r) * column cc (firstn (S (S j)) xs)) by lra.
    replace (nth 2 bs 0 - nth 3 bt 0 / 2) with (snd (ry r) * column tpc (firstn (S (S j)) xs)) by lra. replace (nth 3 bt 0 / 2) with (snd (ry r) * column tac (firstn (S (S j)) xs)) by lra. replace (nth 2 bt 0) with (snd (ry r) * column dc (firstn (S (S j)) xs)) by lra. reflexivity.
Qed.
Print Assumptions C65_finite.

(** * a sphere of curvature 1 and index 2 behind a first plane, and the plane of its image *)
Definition demo_e0 : element := El (at_front 0) None Plain.
Definition demo_es (d1 d2 : R) : list element := [El (at_front d1) None (Sph (Some glass2) (Surf 1 0 None false)); El (at_front d2) None (Sph None (Surf 0 0 None false))].
Lemma demo_lens l d1 d2 : 0 < d1 -> 0 < d2 -> centred demo_e0 /\ lens l false (demo_es d1 d2) /\ Forall refracting (demo_es d1 d2).
Proof.
  intros D1 D2. split; [|split].
  - apply (front_place 0 _ (Rle_refl 0)). apply place_front. lra.
  - exists (Some glass2), 1, d1. split; [reflexivity|]. split; [apply place_front; lra|]. split; [left; auto|]. split; [cbn; lra|]. exists None, 0, d2. split; [reflexivity|]. split; [apply place_front; lra|]. split; [left; auto|exact I].
  - repeat constructor.
Qed.
Lemma demo_trace axis l d1 d2 ym yc um uc : 0 < d1 -> 0 < d2 ->
  let y1m := ym + d1 * um in let y1c := yc + d1 * uc in let u1m := um - y1m in let u1c := uc - y1c in
  ptrace axis l (demo_e0 :: demo_es d1 d2) (ym, yc) (um, uc) 1 = Some [PRow (ym, yc) (um, uc) 1; PRow (y1m, y1c) (u1m, u1c) 2; PRow (y1m + d2 * (u1m / 2), y1c + d2 * (u1c / 2)) (u1m, u1c) 2].
Proof.
  intros D1 D2 y1m y1c u1m u1c. destruct (demo_lens l d1 d2 D1 D2) as (_ & LE & RF). destruct (lens_elements l _ LE RF) as (FC & FR & _). unfold demo_es in *.
  inversion FC as [|? ? CE1 FC2]; subst. inversion FC2 as [|? ? CE2 _]; subst. inversion FR as [|? ? RE1 FR2]; subst. inversion FR2 as [|? ? RE2 _]; subst.
  destruct (matrix_centred _ l false 1 CE1 RE1 Rlt_0_1) as (M1 & PM1 & MV1). destruct (matrix_centred _ l false 2 CE2 RE2 ltac:(lra)) as (M2 & PM2 & MV2).
  unfold index_after in PM1, PM2. cbn [e_kind m_index glass2] in PM1, PM2. unfold power in MV1, MV2. cbn [e_kind e_place m_index glass2 s_c at_front p_distance] in MV1, MV2.
  unfold ptrace, ptrace_from, propagate_paraxial. rewrite PM1, PM2. cbn [obind fst snd]. rewrite !MV1. rewrite !MV2. cbn [row_y row_u w0 w1 w2 w3 obind]. unfold u1m, u1c, y1m, y1c. destruct axis; cbn [row_y row_u w0 w1 w2 w3]; parts; field.
Qed.
(** parallel light, pupil at the sphere: s1 = -1/8, coma -1/8, astigmatism -1/8, field curvature -1/4, distortion -3/8 *)
Example C65_seidel_example : let rs := [PRow (1, -1) (0, 1) 1; PRow (1, 0) (-1, 1) 2; PRow (0, 1) (-1, 1) 2] in
  centred demo_e0 /\ lens 0 false (demo_es 1 2) /\ Forall refracting (demo_es 1 2) /\ -1 + 1 * (1 / 1) = 0 /\
  ptrace true 0 (demo_e0 :: demo_es 1 2) (1, -1) (0, 1) 1 = Some rs /\
  aberrations 0 0 (demo_e0 :: demo_es 1 2) rs = Some [no_coefs; Coefs (- 1 / 8) (- 1 / 8) (- 1 / 8) (- 1 / 4) (- 3 / 8) 0 0; no_coefs] /\ 
  exists idx jdx abi, simplex_idx 3 3 = Some (idx, jdx, abi) /\ exists sts st rest, poly_trace abi 3 (simplex_size 3 3) (demo_e0 :: demo_es 1 2) 0 1 1 = Some sts /\ nth_error sts 2 = Some st /\
    seidel (ps_s st) (ps_t st) = Some (("s1", - 1 / 8) :: ("s2", 1 / 8) :: ("s3", - 1 / 8) :: ("s4", - 1 / 4) :: ("s5", 3 / 8) :: rest)%string.
Proof.
  intros rs. destruct (demo_lens 0 1 2 ltac:(lra) ltac:(lra)) as (C0 & LE & RF).
  assert (PT : ptrace true 0 (demo_e0 :: demo_es 1 2) (1, -1) (0, 1) 1 = Some rs) by (rewrite demo_trace by lra; unfold rs; parts; field).
  assert (AB : aberrations 0 0 (demo_e0 :: demo_es 1 2) rs = Some [no_coefs; Coefs (- 1 / 8) (- 1 / 8) (- 1 / 8) (- 1 / 4) (- 3 / 8) 0 0; no_coefs]).
  { unfold aberrations, aberrations_from, demo_es, rs, element_aberration, element_dispersion, aberration, departure. cbn [e_kind ry ru rn s_asph s_c s_k m_mirror m_index glass2 fst snd].
    repeat (cbn [obind]; rewrite fdiv_some by (try lra; ring_simplify; lra)). cbn [obind]. unfold no_coefs. parts; try reflexivity; field; auto. }
  split; [auto|]. split; [auto|]. split; [auto|]. split; [field|]. split; [auto|]. split; [auto|].
  destruct (simplex_idx 3 3) as [[[idx jdx] abi]|] eqn:Hi; [|exfalso; revert Hi; vm_compute; discriminate]. exists idx, jdx, abi. split; [auto|].
  destruct (C65_seidel 3 idx jdx abi ltac:(lia) ltac:(vm_compute; discriminate) Hi true 0 0 demo_e0 (demo_es 1 2) 0 1 1 1 (-1) 1 rs _ 1%nat _ _ C0 LE RF ltac:(lra) ltac:(lra) ltac:(lra) ltac:(field) PT AB eq_refl eq_refl eq_refl eq_refl) as (sts & st & s1 & s2 & s3 & s4 & s5 & rest & PO & NE & SE & E1 & E2 & E3 & E4 & E5).
  exists sts, st, rest. split; [auto|]. split; [auto|]. unfold column in *. cbn [firstn fold_right tsc cc tac tpc dc no_coefs ry snd] in *.
  replace s1 with (- 1 / 8) in SE by lra. replace s2 with (1 / 8) in SE by lra. replace s3 with (- 1 / 8) in SE by lra. replace s4 with (- 1 / 4) in SE by lra. replace s5 with (3 / 8) in SE by lra. exact SE.
Qed.
(** object of radius 1 and pupil of radius 1 in the sphere, two units apart *)
Definition demo_object : conjugate := Conjugate true 1 (Pupil RadiusPupil 1 2 false false true false 1 Rectilinear) Rectilinear false.
Example C65_finite_example : let rs := [PRow (0, -1) (1 / 2, 1 / 2) 1; PRow (1, 0) (- 1 / 2, 1 / 2) 2; PRow (0, 1) (- 1 / 2, 1 / 2) 2] in
  centred demo_e0 /\ lens 0 false (demo_es 2 4) /\ Forall refracting (demo_es 2 4) /\
  pu_distance (cj_pupil demo_object) = 2 /\ pupil_radius (cj_pupil demo_object) = Some 1 /\ poly_start demo_object = Some 2 /\
  ptrace true 0 (demo_e0 :: demo_es 2 4) (0, - cj_val demo_object) (1 * (1 / pu_distance (cj_pupil demo_object)), 1 * (cj_val demo_object / pu_distance (cj_pupil demo_object))) 1 = Some rs /\
  exists xs, aberrations 0 0 (demo_e0 :: demo_es 2 4) rs = Some xs /\ tsc (nth 1 xs no_coefs) = - 45 / 32.
Proof.
  intros rs. destruct (demo_lens 0 2 4 ltac:(lra) ltac:(lra)) as (C0 & LE & RF). split; [auto|]. split; [auto|]. split; [auto|]. split; [reflexivity|]. split; [reflexivity|]. split; [|split].
  - unfold poly_start, conj_slope, pupil_slope, demo_object. cbn [cj_finite cj_pupil cj_val pu_telecentric pu_kind pu_val pu_distance]. rewrite !fdiv_some by lra. cbn [obind]. rewrite !Rabs_right by lra. destruct (Rlt_dec (1 / 2) (1 / 2)); [lra|]. reflexivity.
  - cbn [demo_object cj_val cj_pupil pu_distance]. rewrite demo_trace by lra. unfold rs. parts; field.
  - eexists. split.
    + unfold aberrations, aberrations_from, demo_es, rs, element_aberration, element_dispersion, aberration, departure. cbn [e_kind ry ru rn s_asph s_c s_k m_mirror m_index glass2 fst snd].
      repeat (cbn [obind]; rewrite fdiv_some by (try lra; ring_simplify; lra)). cbn [obind]. reflexivity.
    + cbn [nth tsc]. field.
Qed.
