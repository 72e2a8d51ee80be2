(** C65 continued: the fifth order entries of the listing *)
From Coq Require Import String Reals List Arith ZArith Lia Lra Psatz.
From Verif Require Import Base Vec RotModel PlacementModel ElementModel SimplexModel SimplexComb SimplexEnum SimplexMul SimplexEval PolyModel TaylorProofs PolyProofs PolyChain PropsPoly PolySeidelModel PropsSeidel PropsPolySeidel PolyDemo.
Import ListNotations.
Open Scope R_scope.

Lemma iter_squares m : (3 <= m)%nat -> exists l, simplex_iter 3 m = ([0;0;0] :: [1;0;0] :: [0;1;0] :: [0;0;1] :: [2;0;0] :: [1;1;0] :: [1;0;1] :: [0;2;0] :: [0;1;1] :: [0;0;2] :: l)%nat.
Proof. intros M. destruct m as [|[|[|k]]]; [lia|lia|lia|]. cbn [simplex_iter seq]. cbn. eexists. reflexivity. Qed.

Section Order.
Variables (m : nat) (idx : itable) (jdx : list (list nat)) (abi : list row).
Hypothesis Hm : (3 <= m)%nat.
Hypothesis Hs : (Z.of_nat (simplex_size 3 m) <= 65536)%Z.
Hypothesis Hi : simplex_idx 3 m = Some (idx, jdx, abi).
(** the terms up to second order in the invariants *)
Definition quadric (a : list R) (x : pt) : R :=
  let p := fst (fst x) in let f := snd (fst x) in let k := snd x in
  nth 0 a 0 + nth 1 a 0 * p + nth 2 a 0 * f + nth 3 a 0 * k +
  (nth 4 a 0 * (p * p) + nth 5 a 0 * (p * f) + nth 6 a 0 * (p * k) + nth 7 a 0 * (f * f) + nth 8 a 0 * (f * k) + nth 9 a 0 * (k * k)).
Lemma peval_quadric a : length a = simplex_size 3 m -> order 3 (fun x => peval m a x - quadric a x).
Proof.
  intros LA. destruct (iter_squares m Hm) as (l & E). pose proof (simplex_iter_NoDup 3 m) as ND.
  assert (CO : forall j e, nth_error (simplex_iter 3 m) j = Some e -> coef R 0 3 m a e = nth j a 0) by (intros j e H; unfold coef; rewrite (lookup_nth R 0 _ _ j e ND H); reflexivity).
  assert (SP : forall e, In e (simplex_iter 3 m) -> length e = 3%nat) by (intros e I; apply simplex_iter_spec in I; [tauto|lia]).
  rewrite E in *.
  pose proof (CO 0%nat _ eq_refl) as C0. pose proof (CO 1%nat _ eq_refl) as C1. pose proof (CO 2%nat _ eq_refl) as C2. pose proof (CO 3%nat _ eq_refl) as C3. pose proof (CO 4%nat _ eq_refl) as C4.
  pose proof (CO 5%nat _ eq_refl) as C5. pose proof (CO 6%nat _ eq_refl) as C6. pose proof (CO 7%nat _ eq_refl) as C7. pose proof (CO 8%nat _ eq_refl) as C8. pose proof (CO 9%nat _ eq_refl) as C9. clear CO.
  assert (DG : forall e, In e l -> (3 <= list_sum e)%nat).
  { intros e I. assert (L : length e = 3%nat) by (apply SP; do 10 right; auto). destruct e as [|a0 [|b [|c [|]]]]; try discriminate L.
    destruct (le_lt_dec 3 (list_sum [a0; b; c])) as [|LT]; [auto|exfalso]. cbn in LT.
    assert (K : In [a0; b; c] [[0;0;0]; [1;0;0]; [0;1;0]; [0;0;1]; [2;0;0]; [1;1;0]; [1;0;1]; [0;2;0]; [0;1;1]; [0;0;2]]%nat).
    { destruct a0 as [|[|[|a0]]], b as [|[|[|b]]], c as [|[|[|c]]]; try lia; cbn; tauto. }
    change ([0;0;0] :: [1;0;0] :: [0;1;0] :: [0;0;1] :: [2;0;0] :: [1;1;0] :: [1;0;1] :: [0;2;0] :: [0;1;1] :: [0;0;2] :: l)%nat with ([[0;0;0]; [1;0;0]; [0;1;0]; [0;0;1]; [2;0;0]; [1;1;0]; [1;0;1]; [0;2;0]; [0;1;1]; [0;0;2]]%nat ++ l) in ND.
    revert K ND I. generalize [[0;0;0]; [1;0;0]; [0;1;0]; [0;0;1]; [2;0;0]; [1;1;0]; [1;0;1]; [0;2;0]; [0;1;1]; [0;0;2]]%nat. intros q K ND I. revert K ND. induction q as [|z q IH]; intros K ND; [contradiction|].
    cbn [app] in ND. inversion ND as [|? ? N0 ND']; subst. destruct K as [->|K]; [apply N0, in_or_app; auto|auto]. }
  apply (order_ext 3 (fun x => ksum R 0 Rplus (fun e => coef R 0 3 m a e * mono R 1 Rmult (args x) e) l)).
  - apply near_all. intros x. unfold peval, pvalue. rewrite E. unfold ksum. cbn [fold_right]. rewrite C0, C1, C2, C3, C4, C5, C6, C7, C8, C9. unfold quadric. cbn. ring.
  - apply (order_sum 3 (fun e x => coef R 0 3 m a e * mono R 1 Rmult (args x) e)). intros e I. apply order_scale. apply (order_le 3 (list_sum e)); [auto|]. apply order_mono. apply SP. do 10 right. auto.
Qed.
(** along a ray through the origin *)
Lemma value_quintic a x1 x2 f1 f2 : length a = simplex_size 3 m -> exists C d, 0 < d /\ forall h, Rabs h < d ->
  exists v, value jdx a (h * x1) (h * x2) (h * f1) (h * f2) = Some v /\ Rabs (v - quadric a (ray_pt (h * x1) (h * x2) (h * f1) (h * f2))) <= C * h ^ 6.
Proof.
  intros LA. destruct (order_pos _ _ (peval_quadric a LA)) as (C & C0 & d & D & H). set (s := size (ray_pt x1 x2 f1 f2)). pose proof (size_pos (ray_pt x1 x2 f1 f2)) as S0. fold s in S0.
  assert (SC : forall h, size (ray_pt (h * x1) (h * x2) (h * f1) (h * f2)) = h ^ 2 * s).
  { intros h. unfold s, size, ray_pt. cbn [fst snd]. replace ((h * x1) ^ 2 + (h * x2) ^ 2) with (h ^ 2 * (x1 ^ 2 + x2 ^ 2)) by ring. replace ((h * f1) ^ 2 + (h * f2) ^ 2) with (h ^ 2 * (f1 ^ 2 + f2 ^ 2)) by ring.
    replace (h * x1 * (h * f1) + h * x2 * (h * f2)) with (h ^ 2 * (x1 * f1 + x2 * f2)) by ring. rewrite !(Rabs_mult (h ^ 2)), (Rabs_right (h ^ 2)) by (apply Rle_ge, pow2_ge_0). ring. }
  exists (C * s ^ 3), (Rmin 1 (d / (s + 1))). assert (D1 : 0 < d / (s + 1)) by (apply Rdiv_lt_0_compat; lra). split; [apply Rmin_pos; lra|]. intros h HL. pose proof (Rmin_l 1 (d / (s + 1))). pose proof (Rmin_r 1 (d / (s + 1))).
  eexists. split; [apply (value_eq m idx jdx abi ltac:(lia) Hs Hi); auto|]. specialize (H (ray_pt (h * x1) (h * x2) (h * f1) (h * f2))). cbv beta in H. rewrite SC in H.
  assert (SM : h ^ 2 * s < d).
  { rewrite <- (pow2_abs h). pose proof (Rabs_pos h). assert (Rabs h ^ 2 <= Rabs h) by nra. assert (HD : Rabs h < d / (s + 1)) by lra. apply (Rmult_lt_compat_r (s + 1)) in HD; [|lra]. replace (d / (s + 1) * (s + 1)) with d in HD by (field; lra). nra. }
  specialize (H SM). replace (C * s ^ 3 * h ^ 6) with (C * (h ^ 2 * s) ^ 3) by ring. exact H.
Qed.
End Order.

(** the expansion of the landing point in Buchdahl's coefficients: pupil coordinates [r (cos q, sin q)], field [H] *)
Definition third_y (s1 s2 s3 s4 s5 r q H : R) : R :=
  s1 * r ^ 3 * cos q + s2 * r ^ 2 * H * (2 + cos (2 * q)) + (3 * s3 + s4) * r * H ^ 2 * cos q + s5 * H ^ 3.
Definition third_x (s1 s2 s3 s4 r q H : R) : R :=
  s1 * r ^ 3 * sin q + s2 * r ^ 2 * H * sin (2 * q) + (s3 + s4) * r * H ^ 2 * sin q.
Definition fifth_y (m1 m2 m3 m4 m6 m7 m8 m10 m12 r q H : R) : R :=
  m1 * r ^ 5 * cos q + (m2 + m3 * cos (2 * q)) * r ^ 4 * H + (m4 + m6 * cos q ^ 2) * r ^ 3 * H ^ 2 * cos q +
  (m7 + m8 * cos (2 * q)) * r ^ 2 * H ^ 3 + m10 * r * H ^ 4 * cos q + m12 * H ^ 5.
Definition fifth_x (m1 m3 m5 m6 m9 m11 r q H : R) : R :=
  m1 * r ^ 5 * sin q + m3 * r ^ 4 * H * sin (2 * q) + (m5 + m6 * cos q ^ 2) * r ^ 3 * H ^ 2 * sin q + m9 * r ^ 2 * H ^ 3 * sin (2 * q) + m11 * r * H ^ 4 * sin q.

(** the exact rays have this expansion with the listed values, except that the listed m9 has the opposite sign.
    The field is minus the slope at the launch. *)
Theorem C65_fifth_order : forall m idx jdx abi, (3 <= m)%nat -> (Z.of_nat (simplex_size 3 m) <= 65536)%Z -> simplex_idx 3 m = Some (idx, jdx, abi) ->
  forall newton l e0 es pos n0, lens l false es -> p_rotated (e_place e0) = false -> 0 < n0 ->
  exists sts, poly_trace abi m (simplex_size 3 m) (e0 :: es) l pos n0 = Some sts /\ length sts = S (length es) /\
  forall i st, nth_error sts (S i) = Some st -> nth 3 (ps_s st) 0 = 2 * nth 1 (ps_t st) 0 ->
  exists s1 s2 s3 s4 s5 m1 m2 m3 m4 m5 m6 m7 m8 m9 m10 m11 m12,
    seidel (ps_s st) (ps_t st) = Some [("s1", s1); ("s2", s2); ("s3", s3); ("s4", s4); ("s5", s5); ("m1", m1); ("m2", m2); ("m3", m3); ("m4", m4); ("m5", m5); ("m6", m6);
      ("m7", m7); ("m8", m8); ("m9", m9); ("m10", m10); ("m11", m11); ("m12", m12)]%string /\
    forall r q H, exists C d, 0 < d /\ forall h, Rabs h < d ->
      exists y x, exact_y newton (e0 :: es) pos n0 l (S i) vx (h * (r * cos q)) (h * (r * sin q)) (h * - H) (h * 0) = Some y /\
        exact_y newton (e0 :: es) pos n0 l (S i) vy (h * (r * cos q)) (h * (r * sin q)) (h * - H) (h * 0) = Some x /\
        Rabs (y - (h * (nth 0 (ps_s st) 0 * (r * cos q) - nth 0 (ps_t st) 0 * H) + h ^ 3 * third_y s1 s2 s3 s4 s5 r q H + h ^ 5 * fifth_y m1 m2 m3 m4 m6 m7 m8 m10 m12 r q H)) <= C * Rabs h ^ 7 /\
        Rabs (x - (h * (nth 0 (ps_s st) 0 * (r * sin q)) + h ^ 3 * third_x s1 s2 s3 s4 r q H + h ^ 5 * fifth_x m1 m3 m5 m6 (- m9) m11 r q H)) <= C * Rabs h ^ 7.
Proof.
  intros m idx jdx abi Hm Hs Hi newton l e0 es pos n0 LE R0 N0.
  destruct (C43_taylor m idx jdx abi ltac:(lia) Hs Hi newton l e0 es pos n0 LE R0 N0) as (sts & PT & LN & TAY). exists sts. split; [exact PT|]. split; [exact LN|]. intros i st NE COMA.
  destruct (TAY i st NE) as (W1 & W2 & _).
  assert (LST : length (ps_s st) = simplex_size 3 m /\ length (ps_t st) = simplex_size 3 m).
  { destruct (core m idx jdx abi ltac:(lia) Hs Hi newton l e0 es pos n0 LE R0 N0) as (sts' & PT' & _ & d & _ & HT). replace sts' with sts in HT by congruence. destruct (HT i st NE) as (F & TS & _). split; [apply (ts_s _ _ _ TS)|apply (ts_t _ _ _ TS)]. }
  destruct LST as (LS & LT). pose proof (ten m Hm) as TEN.
  unfold seidel. destruct (Nat.ltb_spec (length (ps_s st)) 10); [lia|]. destruct (Nat.ltb_spec (length (ps_t st)) 10); [lia|]. cbn [orb combine seidel_names].
  do 17 eexists. split; [reflexivity|]. intros r q H1.
  destruct (within_ray _ _ _ (r * cos q) (r * sin q) (- H1) 0 W1) as (C1 & d1 & D1 & B1). destruct (within_ray _ _ _ (r * cos q) (r * sin q) (- H1) 0 W2) as (C2 & d2 & D2 & B2).
  destruct (value_quintic m idx jdx abi Hm Hs Hi (ps_s st) (r * cos q) (r * sin q) (- H1) 0 LS) as (C3 & d3 & D3 & B3).
  destruct (value_quintic m idx jdx abi Hm Hs Hi (ps_t st) (r * cos q) (r * sin q) (- H1) 0 LT) as (C4 & d4 & D4 & B4).
  set (K := Rabs (r * cos q) + Rabs (r * sin q) + Rabs H1).
  exists (Rabs C1 + Rabs C2 + (Rabs C3 + Rabs C4) * K), (Rmin 1 (Rmin (Rmin d1 d2) (Rmin d3 d4))). split; [repeat apply Rmin_pos; lra|]. intros h HL.
  pose proof (Rmin_l 1 (Rmin (Rmin d1 d2) (Rmin d3 d4))). pose proof (Rmin_r 1 (Rmin (Rmin d1 d2) (Rmin d3 d4))). pose proof (Rmin_l (Rmin d1 d2) (Rmin d3 d4)). pose proof (Rmin_r (Rmin d1 d2) (Rmin d3 d4)).
  pose proof (Rmin_l d1 d2). pose proof (Rmin_r d1 d2). pose proof (Rmin_l d3 d4). pose proof (Rmin_r d3 d4).
  destruct (B1 h ltac:(lra)) as (y & py & EY & PY & BY). destruct (B2 h ltac:(lra)) as (x & px & EX & PX & BX). destruct (B3 h ltac:(lra)) as (vs & VS & BS). destruct (B4 h ltac:(lra)) as (vt & VT & BT).
  exists y, x. split; [exact EY|]. split; [exact EX|]. clear B1 B2 B3 B4 W1 W2 TAY.
  unfold combine1 in PY. unfold combine2 in PX. rewrite VS, VT in PY, PX. cbn [obind] in PY, PX. injection PY as <-. injection PX as <-.
  pose proof (Rabs_pos h) as HP. assert (P7 : Rabs h ^ (2 * m + 1) <= Rabs h ^ 7).
  { replace (2 * m + 1)%nat with (7 + (2 * m - 6))%nat by lia. rewrite pow_add. rewrite <- (Rmult_1_r (Rabs h ^ 7)) at 2. apply Rmult_le_compat_l; [apply pow_le; auto|].
    rewrite <- (pow1 (2 * m - 6)). apply pow_incr. split; [auto|lra]. }
  assert (P70 : 0 <= Rabs h ^ 7) by (apply pow_le; auto). assert (PM : 0 <= Rabs h ^ (2 * m + 1)) by (apply pow_le; auto).
  assert (EV6 : h ^ 6 = Rabs h ^ 6) by (replace (h ^ 6) with ((h ^ 2) ^ 3) by ring; rewrite <- (pow2_abs h); ring).
  rewrite EV6 in BS, BT. assert (P60 : 0 <= Rabs h ^ 6) by (apply pow_le; auto).
  set (Y := Rabs h ^ 7) in *. set (Z := Rabs h ^ (2 * m + 1)) in *. assert (YE : Y = Rabs h ^ 6 * Rabs h) by (unfold Y; ring).
  assert (GEN : forall e p a b A B c, Rabs (e - p) <= c * Z -> p = vs * (h * a) + vt * (h * b) -> Rabs a <= K -> Rabs b <= K ->
    quadric (ps_s st) (ray_pt (h * (r * cos q)) (h * (r * sin q)) (h * - H1) (h * 0)) * (h * a) + quadric (ps_t st) (ray_pt (h * (r * cos q)) (h * (r * sin q)) (h * - H1) (h * 0)) * (h * b) = A -> B = A ->
    Rabs c <= Rabs C1 + Rabs C2 -> Rabs (e - B) <= (Rabs C1 + Rabs C2 + (Rabs C3 + Rabs C4) * K) * Y).
  { intros e p a b A B c EP -> HA HB QA -> HC. rewrite <- QA. set (qs := quadric (ps_s st) _) in *. set (qt := quadric (ps_t st) _) in *.
    replace (e - (qs * (h * a) + qt * (h * b))) with ((e - (vs * (h * a) + vt * (h * b))) + ((vs - qs) * h * a + (vt - qt) * h * b)) by ring.
    eapply Rle_trans; [apply Rabs_triang|]. rewrite Rmult_plus_distr_r. apply Rplus_le_compat.
    - eapply Rle_trans; [exact EP|]. apply Rle_trans with (Rabs c * Z); [apply Rmult_le_compat_r; [auto|apply Rle_abs]|]. apply Rmult_le_compat; auto using Rabs_pos.
    - eapply Rle_trans; [apply Rabs_triang|]. rewrite !Rabs_mult. rewrite YE.
      assert (G : forall w c3 z, Rabs w <= c3 * Rabs h ^ 6 -> Rabs z <= K -> Rabs w * Rabs h * Rabs z <= Rabs c3 * K * (Rabs h ^ 6 * Rabs h)).
      { intros w c3 z HW HZ. assert (W2 : Rabs w <= Rabs c3 * Rabs h ^ 6) by (eapply Rle_trans; [exact HW|]; apply Rmult_le_compat_r; [auto|apply Rle_abs]).
        replace (Rabs c3 * K * (Rabs h ^ 6 * Rabs h)) with (Rabs c3 * Rabs h ^ 6 * Rabs h * K) by ring. apply Rmult_le_compat; auto using Rabs_pos; [apply Rmult_le_pos; apply Rabs_pos|]. apply Rmult_le_compat_r; auto. }
      pose proof (G _ _ _ BS HA). pose proof (G _ _ _ BT HB). lra. }
  assert (SC : sin q ^ 2 = 1 - cos q ^ 2) by (pose proof (sin2_cos2 q) as S2; unfold Rsqr in S2; lra).
  pose proof (Rabs_pos (r * cos q)). pose proof (Rabs_pos (r * sin q)). pose proof (Rabs_pos H1). pose proof (Rabs_pos C1). pose proof (Rabs_pos C2).
  assert (COMA' := COMA). split.
  - eapply (GEN y _ (r * cos q) (- H1) _ _ C1 BY); [reflexivity|unfold K; lra|rewrite Rabs_Ropp; unfold K; lra|reflexivity| |lra].
    unfold quadric, ray_pt, third_y, fifth_y. cbn [fst snd]. rewrite (cos_2a_cos q), COMA. replace ((h * (r * cos q)) ^ 2 + (h * (r * sin q)) ^ 2) with (h ^ 2 * r ^ 2) by (replace ((h * (r * sin q)) ^ 2) with (h ^ 2 * r ^ 2 * sin q ^ 2) by ring; rewrite SC; ring). field.
  - eapply (GEN x _ (r * sin q) 0 _ _ C2 BX); [reflexivity|unfold K; lra|rewrite Rabs_R0; unfold K; lra|reflexivity| |lra].
    unfold quadric, ray_pt, third_x, fifth_x. cbn [fst snd]. rewrite (sin_2a q), COMA. replace ((h * (r * cos q)) ^ 2 + (h * (r * sin q)) ^ 2) with (h ^ 2 * r ^ 2) by (replace ((h * (r * sin q)) ^ 2) with (h ^ 2 * r ^ 2 * sin q ^ 2) by ring; rewrite SC; ring). field.
Qed.
Print Assumptions C65_fifth_order.

(** fewer than ten coefficients, that is order below three *)
Theorem C65_seidel_short : forall s t, seidel s t = None <-> (length s < 10 \/ length t < 10)%nat.
Proof. intros s t. unfold seidel. destruct (Nat.ltb_spec (length s) 10), (Nat.ltb_spec (length t) 10); cbn [orb]; split; intros H'; auto; try discriminate; lia. Qed.
Print Assumptions C65_seidel_short.
Example C65_seidel_short_example : seidel [1; 2; 3; 4] [1; 2; 3; 4] = None.
Proof. apply C65_seidel_short. cbn. lia. Qed.

(** the listed values of a sphere of radius one into glass of index two, parallel light, in the focal plane *)
Lemma demo_idx : exists idx jdx abi, simplex_idx 3 3 = Some (idx, jdx, abi).
Proof. destruct (simplex_idx 3 3) as [[[idx jdx] abi]|] eqn:E; [eauto|]. assert (H : match simplex_idx 3 3 with Some _ => true | None => false end = true) by (vm_compute; reflexivity). rewrite E in H. discriminate. Qed.
Example C65_fifth_order_example : forall l, exists idx jdx abi, simplex_idx 3 3 = Some (idx, jdx, abi) /\ (Z.of_nat (simplex_size 3 3) <= 65536)%Z /\ lens l false (demo_es 1 2) /\ p_rotated (e_place demo_e0) = false /\
  exists sts st, poly_trace abi 3 (simplex_size 3 3) (demo_e0 :: demo_es 1 2) l 0 1 = Some sts /\ nth_error sts 2 = Some st /\ nth 3 (ps_s st) 0 = 2 * nth 1 (ps_t st) 0 /\
    exists v, seidel (ps_s st) (ps_t st) = Some v /\
      map snd v = [-1 / 8; 1 / 4; -1 / 2; -1 / 4; 3 / 2; -9 / 128; 25 / 64; 1 / 4; -49 / 32; -17 / 32; -3 / 4; 39 / 16; 11 / 8; -5 / 8; -43 / 16; -3 / 16; 3 / 8].
Proof.
  intros l. destruct demo_idx as (idx & jdx & abi & SI). exists idx, jdx, abi. split; [exact SI|]. split; [vm_compute; discriminate|].
  destruct (demo_lens l 1 2 ltac:(lra) ltac:(lra)) as (C0 & LE & _). split; [exact LE|]. split; [apply centred_rotated; exact C0|].
  destruct (demo_coefs l idx jdx abi SI) as (sts & st & PT & NE & ES & ET). exists sts, st. split; [exact PT|]. split; [exact NE|]. rewrite ES, ET. split; [cbn; lra|].
  eexists. split; [reflexivity|]. cbn [map snd combine seidel_names nth]. repeat (apply (f_equal2 (@cons R)); [lra|]). reflexivity.
Qed.

(** with the listed m9 itself the expansion is wrong *)
Theorem C65_m9_refuted : ~ forall m idx jdx abi, (3 <= m)%nat -> (Z.of_nat (simplex_size 3 m) <= 65536)%Z -> simplex_idx 3 m = Some (idx, jdx, abi) ->
  forall newton l e0 es pos n0 sts i st s1 s2 s3 s4 s5 m1 m2 m3 m4 m5 m6 m7 m8 m9 m10 m11 m12, lens l false es -> p_rotated (e_place e0) = false -> 0 < n0 ->
  poly_trace abi m (simplex_size 3 m) (e0 :: es) l pos n0 = Some sts -> nth_error sts (S i) = Some st -> nth 3 (ps_s st) 0 = 2 * nth 1 (ps_t st) 0 ->
  seidel (ps_s st) (ps_t st) = Some [("s1", s1); ("s2", s2); ("s3", s3); ("s4", s4); ("s5", s5); ("m1", m1); ("m2", m2); ("m3", m3); ("m4", m4); ("m5", m5); ("m6", m6);
      ("m7", m7); ("m8", m8); ("m9", m9); ("m10", m10); ("m11", m11); ("m12", m12)]%string ->
  forall r q H, exists C d, 0 < d /\ forall h x, Rabs h < d ->
    exact_y newton (e0 :: es) pos n0 l (S i) vy (h * (r * cos q)) (h * (r * sin q)) (h * - H) (h * 0) = Some x ->
    Rabs (x - (h * (nth 0 (ps_s st) 0 * (r * sin q)) + h ^ 3 * third_x s1 s2 s3 s4 r q H + h ^ 5 * fifth_x m1 m3 m5 m6 m9 m11 r q H)) <= C * Rabs h ^ 7.
Proof.
  intros ALL. destruct (C65_fifth_order_example 1) as (idx & jdx & abi & SI & SZ & LE & R0 & sts & st & PT & NE & CM & v & SV & VV).
  set (newton := fun (_ _ : R -> option R) (_ : option R) => @None R).
  destruct (C65_fifth_order 3 idx jdx abi ltac:(lia) SZ SI newton 1 demo_e0 (demo_es 1 2) 0 1 LE R0 Rlt_0_1) as (sts' & PT' & _ & EXP). replace sts' with sts in EXP by congruence.
  destruct (EXP 1%nat st NE CM) as (s1 & s2 & s3 & s4 & s5 & m1 & m2 & m3 & m4 & m5 & m6 & m7 & m8 & m9 & m10 & m11 & m12 & SL & E).
  specialize (ALL 3%nat idx jdx abi ltac:(lia) SZ SI newton 1 demo_e0 (demo_es 1 2) 0 1 sts 1%nat st s1 s2 s3 s4 s5 m1 m2 m3 m4 m5 m6 m7 m8 m9 m10 m11 m12 LE R0 Rlt_0_1 PT NE CM SL 1 (PI / 4) 1).
  specialize (E 1 (PI / 4) 1). destruct E as (C1 & d1 & D1 & B1). destruct ALL as (C2 & d2 & D2 & B2).
  assert (M9 : m9 = -5 / 8). { rewrite SL in SV. injection SV as <-. cbn [map snd] in VV. congruence. }
  set (K := Rabs C1 + Rabs C2 + 1). assert (K1 : 1 <= K) by (unfold K; pose proof (Rabs_pos C1); pose proof (Rabs_pos C2); lra).
  set (h := Rmin (Rmin d1 d2) (/ K) / 2). assert (IK : 0 < / K <= 1) by (split; [apply Rinv_0_lt_compat; lra|rewrite <- Rinv_1; apply Rinv_le_contravar; lra]).
  assert (MP : 0 < Rmin (Rmin d1 d2) (/ K)) by (repeat apply Rmin_pos; lra). pose proof (Rmin_l (Rmin d1 d2) (/ K)). pose proof (Rmin_r (Rmin d1 d2) (/ K)). pose proof (Rmin_l d1 d2). pose proof (Rmin_r d1 d2).
  assert (HP : 0 < h) by (unfold h; lra). assert (AH : Rabs h = h) by (apply Rabs_right; lra). assert (HK : h <= / K) by (unfold h; lra).
  destruct (B1 h) as (y & x & EY & EX & _ & BX); [rewrite AH; unfold h; lra|]. specialize (B2 h x ltac:(rewrite AH; unfold h; lra) EX). rewrite AH in BX, B2.
  unfold fifth_x in BX, B2. rewrite M9 in BX, B2. replace (2 * (PI / 4)) with (PI / 2) in BX, B2 by field. rewrite sin_PI2 in BX, B2.
  set (base := h * (nth 0 (ps_s st) 0 * (1 * sin (PI / 4))) + h ^ 3 * third_x s1 s2 s3 s4 1 (PI / 4) 1) in *.
  set (p := m1 * 1 ^ 5 * sin (PI / 4) + m3 * 1 ^ 4 * 1 * 1 + (m5 + m6 * cos (PI / 4) ^ 2) * 1 ^ 3 * 1 ^ 2 * sin (PI / 4)) in *. set (p2 := m11 * 1 * 1 ^ 4 * sin (PI / 4)) in *.
  assert (P7 : 0 < h ^ 7) by (apply pow_lt; auto). assert (P5 : 0 < h ^ 5) by (apply pow_lt; auto).
  assert (U : Rabs (5 / 4 * h ^ 5) <= (Rabs C1 + Rabs C2) * h ^ 7).
  { replace (5 / 4 * h ^ 5) with ((x - (base + h ^ 5 * (p + -5 / 8 * 1 ^ 2 * 1 ^ 3 * 1 + p2))) - (x - (base + h ^ 5 * (p + - (-5 / 8) * 1 ^ 2 * 1 ^ 3 * 1 + p2)))) by field.
    unfold Rminus at 1. eapply Rle_trans; [apply Rabs_triang|]. rewrite Rabs_Ropp, Rmult_plus_distr_r. pose proof (Rle_abs C1). pose proof (Rle_abs C2). assert (C1 * h ^ 7 <= Rabs C1 * h ^ 7) by (apply Rmult_le_compat_r; lra). assert (C2 * h ^ 7 <= Rabs C2 * h ^ 7) by (apply Rmult_le_compat_r; lra). lra. }
  rewrite Rabs_right in U by lra. assert (F : (Rabs C1 + Rabs C2) * h ^ 7 <= h ^ 5).
  { replace (h ^ 7) with (h ^ 2 * h ^ 5) by ring. rewrite <- Rmult_assoc. rewrite <- (Rmult_1_l (h ^ 5)) at 2. apply Rmult_le_compat_r; [lra|].
    apply Rle_trans with (K * h); [|apply (Rmult_le_compat_l K) in HK; [|lra]; rewrite Rinv_r in HK; lra]. assert (h <= 1) by lra. unfold K. pose proof (Rabs_pos C1). pose proof (Rabs_pos C2). assert (h ^ 2 <= h) by nra. nra. }
  lra.
Qed.
Print Assumptions C65_m9_refuted.
