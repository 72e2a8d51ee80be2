(** Properties of refocusing a ray bundle (C47). *)
From Coq Require Import Reals List Bool Lia Lra.
From Verif Require Import Base Vec RotModel PlacementModel ElementModel RefocusModel RotProofs PlacementProofs.
Import ListNotations.
Open Scope R_scope.

(** rays that all arrive at the plane z = 0 with a finite slope *)
Definition arrives (r : ray) : Prop := exists y i, ry r = Some y /\ ri r = Some i /\ vz y = 0 /\ vz i <> 0.
(** point where a ray crosses the plane displaced by [t] along the axis *)
Definition cross_at (t : R) (r : ray) (p : R * R) : Prop :=
  exists y i s, ry r = Some y /\ ri r = Some i /\ vz (vadd3 y (vmul3 s i)) = t /\ p = (vx (vadd3 y (vmul3 s i)), vy (vadd3 y (vmul3 s i))).
(** weighted sum of squared distances from the centroid *)
Definition sq (p : R * R) : R := fst p * fst p + snd p * snd p.
Definition centroid (l : list (R * R)) : R * R := (sum_fst l / INR (length l), sum_snd l / INR (length l)).
Fixpoint spread (w : list R) (l : list (R * R)) (c : R * R) : R :=
  match w, l with
  | w :: ws, p :: ps => w * ((fst p - fst c) * (fst p - fst c) + (snd p - snd c) * (snd p - snd c)) + spread ws ps c
  | _, _ => 0
  end.
Definition spot2 (w : list R) (l : list (R * R)) : R := spread w l (centroid l).

Lemma centred_some l : l <> [] -> centred l = Some (map (fun p => (fst p - fst (centroid l), snd p - snd (centroid l))) l).
Proof.
  intros N. assert (Z : INR (length l) <> 0) by (apply not_0_INR; destruct l; [contradiction|cbn; lia]). unfold centred, mean. rewrite !fdiv_some by auto. reflexivity.
Qed.
Lemma wdot_spread w : forall l c, wdot w (map (fun p => (fst p - fst c, snd p - snd c)) l) (map (fun p => (fst p - fst c, snd p - snd c)) l) = spread w l c.
Proof. induction w as [|a w IH]; intros [|p l] c; cbn [map wdot spread fst snd]; auto. rewrite IH. ring. Qed.
Lemma spread_nonneg w : Forall (fun x => 0 <= x) w -> forall l c, 0 <= spread w l c.
Proof.
  induction 1 as [|x w X W IH]; intros l c; cbn [spread]; [lra|]. destruct l as [|p l]; [lra|]. specialize (IH l c). pose proof (Rle_0_sqr (fst p - fst c)). pose proof (Rle_0_sqr (snd p - snd c)). unfold Rsqr in *.
  assert (0 <= x * ((fst p - fst c) * (fst p - fst c) + (snd p - snd c) * (snd p - snd c))) by (apply Rmult_le_pos; lra). lra.
Qed.
(** rms is the square root of the weighted spread about the centroid *)
Lemma rms_spot w l : l <> [] -> rms w l = Some (sqrt (spot2 w l)).
Proof. intros N. unfold rms. rewrite centred_some by auto. cbn [obind]. rewrite wdot_spread. reflexivity. Qed.

(** the parts of a ray list *)
Definition y_of (r : ray) : R * R := match ry r with Some y => (vx y, vy y) | None => (0, 0) end.
Definition u_of (r : ray) : R * R := match ri r with Some i => (vx i / vz i, vy i / vz i) | None => (0, 0) end.
Lemma good_all rays : Forall arrives rays -> good rays = map (fun r => (ry r, u_of r, rw r)) rays.
Proof.
  induction 1 as [|r l (y & i & Y & I & _ & Z) _ IH]; [reflexivity|]. cbn [good map]. unfold u_of at 1. rewrite I. cbn [obind]. unfold slope. rewrite !fdiv_some by auto. cbn [obind]. rewrite IH. reflexivity.
Qed.
Lemma points_all rays : Forall arrives rays -> points (map (fun r => (ry r, u_of r, rw r)) rays) = Some (map y_of rays).
Proof.
  induction 1 as [|r l (y & i & Y & I & _ & Z) _ IH]; [reflexivity|]. cbn [map points]. rewrite Y. cbn [obind]. rewrite IH. cbn [obind]. unfold y_of at 2. rewrite Y. reflexivity.
Qed.
Definition shifted (t : R) (r : ray) : R * R := (fst (y_of r) + t * fst (u_of r), snd (y_of r) + t * snd (u_of r)).
Lemma cross_at_shifted t r : arrives r -> forall p, cross_at t r p <-> p = shifted t r.
Proof.
  intros (y & i & Y & I & Z & N) p. unfold shifted, y_of, u_of. rewrite Y, I. cbn [fst snd]. split.
  - intros (y' & i' & s & Y' & I' & E & ->). rewrite Y in Y'. injection Y' as <-. rewrite I in I'. injection I' as <-. unfold vadd3, vmul3 in *. cbn [vx vy vz] in *. rewrite Z in E.
    assert (ES : s = t / vz i) by (rewrite <- E; field; auto). rewrite ES. f_equal; field; auto.
  - intros ->. exists y, i, (t / vz i). split; [auto|]. split; [auto|]. unfold vadd3, vmul3. cbn [vx vy vz]. rewrite Z. split; [field; auto|]. f_equal; field; auto.
Qed.
Lemma sums_shifted t rays : sum_fst (map (shifted t) rays) = sum_fst (map y_of rays) + t * sum_fst (map u_of rays) /\ sum_snd (map (shifted t) rays) = sum_snd (map y_of rays) + t * sum_snd (map u_of rays).
Proof.
  unfold sum_fst, sum_snd. induction rays as [|r l [IH1 IH2]]; cbn [map fold_right]; [split; ring|]. rewrite IH1, IH2. unfold shifted. cbn [fst snd]. split; ring.
Qed.
Lemma centroid_shifted t rays : rays <> [] -> centroid (map (shifted t) rays) =
  (fst (centroid (map y_of rays)) + t * fst (centroid (map u_of rays)), snd (centroid (map y_of rays)) + t * snd (centroid (map u_of rays))).
Proof.
  intros N. unfold centroid. rewrite !map_length. destruct (sums_shifted t rays) as [-> ->]. assert (Z : INR (length rays) <> 0) by (apply not_0_INR; destruct rays; [contradiction|cbn; lia]). cbn [fst snd]. f_equal; field; auto.
Qed.
(** the spot is a quadratic function of the displacement *)
Lemma spot_quadratic rays t : rays <> [] ->
  let w := map rw rays in let cy := centroid (map y_of rays) in let cu := centroid (map u_of rays) in
  let Y := map (fun p => (fst p - fst cy, snd p - snd cy)) (map y_of rays) in let U := map (fun p => (fst p - fst cu, snd p - snd cu)) (map u_of rays) in
  spot2 w (map (shifted t) rays) = wdot w Y Y + 2 * t * wdot w Y U + t * t * wdot w U U.
Proof.
  intros N w cy cu Y U. unfold spot2. rewrite centroid_shifted by auto. fold cy cu. unfold w, Y, U. clearbody cy cu. clear. induction rays as [|r l IH]; cbn [map spread wdot]; [ring|].
  rewrite IH. unfold shifted. cbn [fst snd]. ring.
Qed.

(** * C47 *)
(** The displacement computed by refocus minimises the weighted spot size (as [rms] measures it) of the
    points where the rays cross a displaced image plane; for any other displacement it is larger *)
Theorem C47_least_squares rays t : Forall arrives rays -> Forall (fun r => 0 <= rw r) rays -> refocus_shift rays = Some t ->
  forall t' pts pts', Forall2 (cross_at t) rays pts -> Forall2 (cross_at t') rays pts' ->
  exists s s', rms (map rw rays) pts = Some s /\ rms (map rw rays) pts' = Some s' /\ s <= s' /\ (t' <> t -> s < s').
Proof.
  intros A W H t' pts pts' P P'.
  assert (N : rays <> []).
  { intros ->. unfold refocus_shift in H. cbn in H. unfold centred, mean in H. cbn [length INR] in H. rewrite fdiv_zero in H. discriminate H. }
  assert (E : forall x l, Forall2 (cross_at x) rays l -> l = map (shifted x) rays).
  { clear - A. intros x. induction A as [|r rays R A IH]; intros l F; inversion F; subst; [auto|]. cbn. f_equal; [apply cross_at_shifted; auto|auto]. }
  rewrite (E _ _ P), (E _ _ P'). unfold refocus_shift in H. rewrite good_all in H by auto. rewrite points_all in H by auto. cbn [obind] in H.
  rewrite !map_map in H. cbn [fst snd] in H. change (map (fun x => u_of x) rays) with (map u_of rays) in H. change (map (fun x => rw x) rays) with (map rw rays) in H.
  assert (NM : forall B (f : ray -> B), map f rays <> []) by (intros B f; destruct rays; [contradiction|discriminate]).
  rewrite (centred_some (map y_of rays)), (centred_some (map u_of rays)) in H by auto. cbn [obind] in H.
  set (Y := map _ (map y_of rays)) in H. set (U := map _ (map u_of rays)) in H. apply fdiv_inv in H. destruct H as [C0 ->].
  rewrite !rms_spot by auto. eexists _, _. split; [reflexivity|]. split; [reflexivity|].
  rewrite !spot_quadratic by auto. fold Y U. set (c := wdot (map rw rays) U U) in *. set (b := wdot (map rw rays) Y U) in *. set (a := wdot (map rw rays) Y Y) in *.
  assert (WN : Forall (fun x => 0 <= x) (map rw rays)) by (clear - W; induction W; cbn; constructor; auto).
  assert (CP : 0 < c). { assert (0 <= c) by (unfold c, U; rewrite wdot_spread; apply spread_nonneg; auto). lra. }
  assert (NNE : forall x, 0 <= a + 2 * x * b + x * x * c).
  { intros x. pose proof (spot_quadratic rays x N) as Q. cbv zeta in Q. fold Y U in Q. fold a b c in Q. rewrite <- Q. apply spread_nonneg. auto. }
  assert (D : a + 2 * t' * b + t' * t' * c = a + 2 * (- b / c) * b + - b / c * (- b / c) * c + c * ((t' - - b / c) * (t' - - b / c))) by (field; auto).
  assert (SQ : 0 <= (t' - - b / c) * (t' - - b / c)) by apply Rle_0_sqr. split.
  - apply sqrt_le_1_alt. rewrite D. assert (0 <= c * ((t' - - b / c) * (t' - - b / c))) by (apply Rmult_le_pos; lra). lra.
  - intros NE. apply sqrt_lt_1_alt. split; [apply NNE|]. rewrite D. assert (0 < (t' - - b / c) * (t' - - b / c)) by (apply Rsqr_pos_lt; lra).
    assert (0 < c * ((t' - - b / c) * (t' - - b / c))) by (apply Rmult_lt_0_compat; lra). lra.
Qed.
(** rays that were lost on the way have no influence on the displacement *)
Theorem C47_lost_rays rays : refocus_shift rays = refocus_shift (filter (fun r => match ri r with Some i => if Req_EM_T (vz i) 0 then false else true | None => false end) rays).
Proof.
  unfold refocus_shift. assert (G : good rays = good (filter (fun r => match ri r with Some i => if Req_EM_T (vz i) 0 then false else true | None => false end) rays)); [|rewrite <- G; reflexivity].
  induction rays as [|r l IH]; [reflexivity|]. cbn [good filter]. destruct (ri r) as [i|] eqn:I; cbn [obind].
  - unfold slope at 1. destruct (Req_EM_T (vz i) 0) as [Z|Z].
    + rewrite Z, fdiv_zero. cbn [obind]. auto.
    + cbn [good]. rewrite I. cbn [obind]. unfold slope. rewrite !fdiv_some by auto. cbn [obind]. rewrite IH. reflexivity.
  - auto.
Qed.
(** In the frame of an untilted image element the element moves along the axis: re-tracing the rays to the
    refocused element gives the points where they cross the plane displaced by the change of distance *)
Theorem C47_moves p q d y i : normal_form p -> frame_ok p -> p_angles p = v0 ->
  p_direction p = ez \/ (p_straight p = false /\ allclose (cross (p_direction p) ez) v0 = false) ->
  0 <= d -> set_distance p d = Some q -> vz y = 0 -> vz i <> 0 ->
  exists y', retrace p q y i = Some y' /\ vz y' = 0 /\ cross_at (d - p_distance p) (Ray (Some y) (Some i) 0) (vx y', vy y').
Proof.
  intros (DN & DU & OF) FO A0 EA D S Y0 I0. unfold set_distance in S. destruct (update_spec d (p_direction p) (p_angles p)) as (q' & U & NQ & FQ & AQ & DQ & u & HU & OQ & DIQ).
  rewrite S in U. injection U as <-. destruct (unit_or_axis_spec (p_direction p)) as (u' & HU' & _ & _ & _ & UN). rewrite HU' in HU. injection HU as ->. rewrite (UN DU) in *. destruct (Rlt_dec d 0); [lra|].
  assert (NP : p_normal p = true). { destruct FO as (_ & N & _). rewrite N, A0. apply allclose_v0. unfold v0; cbn. rewrite Rabs_R0. unfold tol. repeat split; lra. }
  assert (NPQ : p_normal q = true). { destruct FQ as (_ & N & _). rewrite N, AQ, A0. apply allclose_v0. unfold v0; cbn. rewrite Rabs_R0. unfold tol. repeat split; lra. }
  assert (FR : exists m, rotation m /\ (forall x, from_normal p x = Some (vm x m)) /\ (forall x, to_normal q x = Some (vm x (mT m))) /\ vm ez m = p_direction p).
  { unfold from_normal, to_normal, do_rotate. destruct EA as [E|[E1 E2]].
    - assert (SP : p_straight p = true). { destruct FO as (N & _). rewrite N, E. apply allclose_ez. unfold ez; cbn [vx vy vz]. rewrite Rminus_diag_eq by auto. rewrite Rabs_R0. unfold tol. repeat split; lra. }
      assert (SQ : p_straight q = true). { destruct FQ as (N & _). rewrite N, DIQ, E. apply allclose_ez. unfold ez; cbn [vx vy vz]. rewrite Rminus_diag_eq by auto. rewrite Rabs_R0. unfold tol. repeat split; lra. }
      exists eye. split; [apply rotation_eye|]. unfold p_rotated. rewrite NP, NPQ, SP, SQ. cbn [andb negb]. rewrite mT_eye. split; [intros; rewrite vm_eye; auto|]. split; [intros; rewrite vm_eye; auto|]. rewrite vm_eye. auto.
    - assert (SQ : p_straight q = false). { destruct FQ as (N & _). destruct FO as (N' & _). rewrite N, DIQ, <- N'. auto. }
      assert (RP : p_rotated p = true) by (unfold p_rotated; rewrite E1, andb_false_r; auto). assert (RQ : p_rotated q = true) by (unfold p_rotated; rewrite SQ, andb_false_r; auto).
      destruct FO as (_ & _ & AX & RT). destruct (RT RP) as (m & M & MR & r1 & r2 & ME & M1 & M2). destruct FQ as (_ & _ & AXQ & RTQ). destruct (RTQ RQ) as (mq & Mq & _ & r1q & r2q & MEq & M1q & M2q).
      rewrite E1 in M1. rewrite SQ in M1q. destruct (AX E1) as (a & AX1 & AX2). destruct (AXQ SQ) as (a' & AX3 & AX4). rewrite DIQ in AX4. rewrite AX2 in AX4. injection AX4 as <-.
      assert (r1 = a) by congruence. assert (r1q = a) by congruence. subst r1 r1q. rewrite NP in M2. rewrite NPQ in M2q. subst r2 r2q. rewrite mm_eye_r in ME, MEq. assert (EQ : mq = m) by congruence. rewrite EQ in Mq. clear EQ MEq mq.
      exists m. split; [auto|]. rewrite RP, RQ, M, Mq. split; [auto|]. split; [auto|]. rewrite ME. destruct (axis_rotation_spec (p_direction p) DU) as (r3 & B1 & _ & B2 & _). assert (r3 = a) by congruence. subst r3. apply B2. auto. }
  destruct FR as (m & MR & FN & TN & EZ). unfold retrace. rewrite !FN. cbn [obind]. rewrite !TN. cbn [obind].
  assert (YE : vm (vsub3 (vadd3 (vm y m) (p_offset p)) (p_offset q)) (mT m) = vsub3 y (vmul3 (d - p_distance p) ez)).
  { rewrite OQ, OF, <- EZ. replace (vsub3 (vadd3 (vm y m) (vmul3 (p_distance p) (vm ez m))) (vmul3 d (vm ez m))) with (vm (vsub3 y (vmul3 (d - p_distance p) ez)) m) by vec_ring. apply rotation_inv_r. auto. }
  rewrite YE, rotation_inv_r by auto. set (t := d - p_distance p). unfold plane_intercept. rewrite fdiv_some by auto. cbn [obind]. eexists. split; [reflexivity|].
  unfold at_ray, vadd3, vsub3, vmul3, ez. cbn [vx vy vz]. rewrite Y0. split; [field; auto|]. exists y, i, (t / vz i). split; [auto|]. split; [auto|]. unfold vadd3, vmul3. cbn [vx vy vz]. rewrite Y0. split; [field; auto|]. f_equal; field; auto.
Qed.
(** ** C47: refocusing as a whole: retracing every ray to the element at its new distance, as long as that is not negative,
    gives the spots of the plane moved by the best shift *)
Theorem C47_refocus p q rays t : normal_form p -> frame_ok p -> p_angles p = v0 ->
  p_direction p = ez \/ (p_straight p = false /\ allclose (cross (p_direction p) ez) v0 = false) ->
  refocus_shift rays = Some t -> 0 <= p_distance p + t -> refocus p rays = Some q ->
  p_distance q = p_distance p + t /\
  forall y i w, In (Ray (Some y) (Some i) w) rays -> vz y = 0 -> vz i <> 0 ->
  exists y', retrace p q y i = Some y' /\ cross_at t (Ray (Some y) (Some i) w) (vx y', vy y').
Proof.
  intros NF FO A0 EA RS D RF. unfold refocus in RF. rewrite RS in RF. cbn [obind] in RF. split.
  - unfold set_distance in RF. destruct (update_spec (p_distance p + t) (p_direction p) (p_angles p)) as (q' & U & _ & _ & _ & DQ & _). rewrite RF in U. injection U as <-. rewrite DQ. apply Rabs_right. lra.
  - intros y i w _ Y0 I0. destruct (C47_moves p q _ y i NF FO A0 EA D RF Y0 I0) as (y' & R & Z & C). exists y'. split; [exact R|].
    replace (p_distance p + t - p_distance p) with t in C by ring. exact C.
Qed.
Lemma shift_value rays t : Forall arrives rays ->
  let w := map rw rays in let cy := centroid (map y_of rays) in let cu := centroid (map u_of rays) in
  let Y := map (fun p => (fst p - fst cy, snd p - snd cy)) (map y_of rays) in let U := map (fun p => (fst p - fst cu, snd p - snd cu)) (map u_of rays) in
  rays <> [] -> refocus_shift rays = Some t <-> (wdot w U U <> 0 /\ t * wdot w U U = - wdot w Y U).
Proof.
  intros A w cy cu Y U N. unfold refocus_shift. rewrite good_all, points_all by auto. cbn [obind]. rewrite !map_map. cbn [fst snd].
  change (map (fun x => u_of x) rays) with (map u_of rays). change (map (fun x => rw x) rays) with (map rw rays).
  assert (NM : forall B (f : ray -> B), map f rays <> []) by (intros B f; destruct rays; [contradiction|discriminate]).
  rewrite (centred_some (map y_of rays)), (centred_some (map u_of rays)) by auto. cbn [obind]. fold cy cu. fold Y U w. split.
  - intros H. apply fdiv_inv in H. destruct H as [Z ->]. split; [auto|]. field. auto.
  - intros [Z E]. rewrite fdiv_some by auto. f_equal. rewrite <- E. field. auto.
Qed.
(** ** C47: refocusing once is enough: for the rays as they meet the moved plane the computed displacement is zero *)
Theorem C47_refocus_twice rays rays' t : Forall arrives rays -> refocus_shift rays = Some t ->
  Forall2 (fun r r' => exists y, ry r' = Some y /\ vz y = 0 /\ cross_at t r (vx y, vy y) /\ ri r' = ri r /\ rw r' = rw r) rays rays' ->
  refocus_shift rays' = Some 0.
Proof.
  intros A H F.
  assert (N : rays <> []). { intros ->. unfold refocus_shift in H. cbn in H. unfold centred, mean in H. cbn [length INR] in H. rewrite fdiv_zero in H. discriminate H. }
  assert (X : Forall arrives rays' /\ map y_of rays' = map (shifted t) rays /\ map u_of rays' = map u_of rays /\ map rw rays' = map rw rays).
  { clear H N. induction F as [|r r' l l' (y & Y & Z & C & I & W) F IH]; [repeat split; constructor|]. inversion A as [|? ? AR A']; subst. destruct (IH A') as (I1 & I2 & I3 & I4).
    apply cross_at_shifted in C; [|auto]. split.
    - constructor; [|auto]. destruct AR as (y0 & i & _ & RI & _ & ZI). exists y, i. rewrite I. auto.
    - cbn [map]. rewrite I2, I3, I4, W. unfold y_of at 1, u_of at 1. rewrite Y, I. rewrite C. split; [reflexivity|]. split; reflexivity. }
  destruct X as (A' & EY & EU & EW). assert (N' : rays' <> []) by (intros ->; inversion F; subst; contradiction).
  apply shift_value in H; [|auto|auto]. apply shift_value; [auto|auto|]. rewrite EY, EU, EW. destruct H as [Z E]. split; [exact Z|]. rewrite Rmult_0_l. rewrite centroid_shifted by auto.
  set (cy := centroid (map y_of rays)) in *. set (cu := centroid (map u_of rays)) in *. clearbody cy cu. cbn [fst snd].
  assert (L : forall l, wdot (map rw l) (map (fun p => (fst p - (fst cy + t * fst cu), snd p - (snd cy + t * snd cu))) (map (shifted t) l)) (map (fun p => (fst p - fst cu, snd p - snd cu)) (map u_of l))
     = wdot (map rw l) (map (fun p => (fst p - fst cy, snd p - snd cy)) (map y_of l)) (map (fun p => (fst p - fst cu, snd p - snd cu)) (map u_of l))
     + t * wdot (map rw l) (map (fun p => (fst p - fst cu, snd p - snd cu)) (map u_of l)) (map (fun p => (fst p - fst cu, snd p - snd cu)) (map u_of l))).
  { clear. induction l as [|r l IH]; cbn [map wdot]; [ring|]. rewrite IH. unfold shifted. cbn [fst snd]. ring. }
  rewrite L. lra.
Qed.
(** finding: with unequal weights the spot size, here and in [rms], is measured from the plain mean of the
    points, so the displacement does not minimise the spread about the weighted centroid of the light *)
Definition wcentroid (w : list R) (l : list (R * R)) : R * R :=
  let s := fold_right Rplus 0 w in (wdot w l (map (fun _ => (1, 0)) l) / s, wdot w l (map (fun _ => (0, 1)) l) / s).
Definition ray1 (y u w : R) : ray := Ray (Some (V 0 y 0)) (Some (V 0 u 1)) w.
Theorem C47_weighted_refuted : exists rays t t', Forall arrives rays /\ Forall (fun r => 0 < rw r) rays /\ refocus_shift rays = Some t /\
  spread (map rw rays) (map (shifted t') rays) (wcentroid (map rw rays) (map (shifted t') rays)) < spread (map rw rays) (map (shifted t) rays) (wcentroid (map rw rays) (map (shifted t) rays)).
Proof.
  exists [ray1 0 0 1; ray1 0 1 1; ray1 1 0 2], (5/7), (2/3). split; [|split; [|split]].
  - repeat constructor; eexists _, _; (split; [reflexivity|]; split; [reflexivity|]); cbn; split; lra.
  - repeat constructor; cbn; lra.
  - unfold refocus_shift. cbn [good ray1 ri ry rw obind]. unfold slope. cbn [vx vy vz]. rewrite !fdiv_some by lra. cbn [obind points map fst snd vx vy vz]. unfold centred, mean, sum_fst, sum_snd. cbn [map fst snd fold_right length INR]. rewrite !fdiv_some by lra. cbn [obind map fst snd wdot].
    rewrite fdiv_some by lra. f_equal. field.
  - unfold wcentroid, shifted, y_of, u_of. cbn [map ray1 rw ry ri vx vy vz fst snd wdot spread fold_right]. lra.
Qed.
(** three rays with a displacement *)
Example C47_example : let rays := [ray1 0 0 1; ray1 0 1 1; ray1 1 0 2] in Forall arrives rays /\ Forall (fun r => 0 <= rw r) rays /\ refocus_shift rays = Some (5/7).
Proof.
  cbv zeta. split; [|split].
  - repeat constructor; eexists _, _; (split; [reflexivity|]; split; [reflexivity|]); cbn; split; lra.
  - repeat constructor; cbn; lra.
  - unfold refocus_shift. cbn [good ray1 ri ry rw obind]. unfold slope. cbn [vx vy vz]. rewrite !fdiv_some by lra. cbn [obind points map fst snd vx vy vz]. unfold centred, mean, sum_fst, sum_snd. cbn [map fst snd fold_right length INR]. rewrite !fdiv_some by lra. cbn [obind map fst snd wdot].
    rewrite fdiv_some by lra. f_equal. field.
Qed.
Example C47_moves_example : exists p q, normal_form p /\ frame_ok p /\ p_angles p = v0 /\ p_direction p = ez /\ set_distance p 3 = Some q.
Proof.
  destruct (update_spec 1 ez v0) as (p & P & NF & FO & A & _ & u & U & _ & D). destruct (unit_or_axis_spec ez) as (u' & U' & _ & _ & _ & UN). rewrite U in U'. injection U' as <-. destruct (Rlt_dec 1 0); [lra|].
  rewrite UN in D by vec_ring. destruct (set_distance_spec p 3 NF) as (q & Q & _). exists p, q. auto.
Qed.
(** an image plane at distance 1 that refocus moves to 12/7 *)
Example C47_refocus_example : exists p q, let rays := [ray1 0 0 1; ray1 0 1 1; ray1 1 0 2] in
  normal_form p /\ frame_ok p /\ p_angles p = v0 /\ p_direction p = ez /\ refocus p rays = Some q /\ p_distance p = 1 /\ p_distance q = 12/7.
Proof.
  destruct (update_spec 1 ez v0) as (p & P & NF & FO & A & DP & u & U & _ & D). destruct (unit_or_axis_spec ez) as (u' & U' & _ & _ & _ & UN). rewrite U in U'. injection U' as <-. destruct (Rlt_dec 1 0); [lra|].
  rewrite UN in D by vec_ring. rewrite Rabs_right in DP by lra. destruct (set_distance_spec p (p_distance p + 5/7) NF) as (q & Q & _). exists p, q. cbv zeta. do 4 (split; [assumption|]).
  assert (R : refocus p [ray1 0 0 1; ray1 0 1 1; ray1 1 0 2] = Some q). { unfold refocus. destruct C47_example as (_ & _ & ->). exact Q. }
  split; [exact R|]. split; [exact DP|]. destruct (C47_refocus p q _ (5/7) NF FO A (or_introl D) (proj2 (proj2 C47_example)) ltac:(lra) R) as [-> _]. lra.
Qed.
Print Assumptions C47_least_squares.
Print Assumptions C47_lost_rays.
Print Assumptions C47_moves.
Print Assumptions C47_refocus_twice.
Print Assumptions C47_refocus.
Print Assumptions C47_weighted_refuted.
