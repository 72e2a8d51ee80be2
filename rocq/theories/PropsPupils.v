(** Property C53: pupils, magnification and nodal points reported by the paraxial trace. *)
From Coq Require Import Reals List Lra Lia Psatz.
From Verif Require Import Base Vec RotModel PlacementModel PlacementProofs ElementModel PropsRescale
  ParaxialModel ParaxialProofs PropsParaxial LimitProofs PropsLimit ReverseModel PropsReverse PropsInverse
  PupilModel PropsPupil ParaxTraceModel PropsConjugates PropsSolve PropsCardinal.
Import ListNotations.
Open Scope R_scope.

Lemma rows_linear axis l es y u rs y' u' rs' a b : Forall upright es ->
  ptrace axis l es y u (refractive_index es l 0) = Some rs -> ptrace axis l es y' u' (refractive_index es l 0) = Some rs' ->
  fst y' = a * fst y + b * snd y -> fst u' = a * fst u + b * snd u ->
  forall k r r', nth_error rs k = Some r -> nth_error rs' k = Some r' ->
  fst (ry r') = a * fst (ry r) + b * snd (ry r) /\ fst (ru r') = a * fst (ru r) + b * snd (ru r) /\ rn r' = rn r.
Proof.
  intros U T T' Y V [|k] r r' N N'.
  - rewrite (ptrace_0 _ _ _ _ _ _ _ T) in N. rewrite (ptrace_0 _ _ _ _ _ _ _ T') in N'. injection N as <-. injection N' as <-. auto.
  - destruct (ptrace_nth axis l es y u rs k r U T N) as (M & SM & _ & RI & NR). destruct (ptrace_nth axis l es y' u' rs' k r' U T' N') as (M' & SM' & _ & RI' & NR').
    assert (M' = M) by congruence. subst M'. unfold row_is in *. destruct (block axis M) as [[[p q] s] t]. destruct RI as [-> ->]. destruct RI' as [-> ->]. cbn [fst snd]. rewrite Y, V. split; [ring|]. split; [ring|congruence].
Qed.
Lemma combination axis l es y u rs : Forall upright es -> ptrace axis l es y u (refractive_index es l 0) = Some rs -> lagrange rs <> Some 0 -> lagrange rs <> None ->
  fst u * snd y - snd u * fst y <> 0.
Proof. intros U T L N E. unfold lagrange in L, N. rewrite (ptrace_0 _ _ _ _ _ _ _ T) in L, N. cbn [obind ry ru] in L, N. apply L. f_equal. exact E. Qed.

(** ** C53: pupils are the images of the stop.  [rs]: traced marginal and chief ray, the chief
    ray crossing the axis at element [k].  Spec: a ray of the same system that has [f] times the marginal height at
    element [k] meets the plane at the reported distance in front of (behind) the first (last) surface
    at [f] times the reported height. *)
Theorem C53_pupils axis l es y u rs d0 d1 h0 h1 k rk y' u' rs' rk' r1 r2 f :
  Forall upright es -> (2 <= length es)%nat ->
  ptrace axis l es y u (refractive_index es l 0) = Some rs -> lagrange rs <> Some 0 ->
  ppupil_distance rs = Some (d0, d1) -> ppupil_height rs = Some (h0, h1) ->
  nth_error rs k = Some rk -> snd (ry rk) = 0 -> fst (ry rk) <> 0 ->
  ptrace axis l es y' u' (refractive_index es l 0) = Some rs' -> nth_error rs' k = Some rk' -> fst (ry rk') = f * fst (ry rk) ->
  nth_error rs' 1 = Some r1 -> back rs' 2 = Some r2 ->
  Rabs (fst (ry r1) + d0 * (fst u' / refractive_index es l 0)) = Rabs f * h0 /\
  Rabs (fst (ry r2) + d1 * (fst (ru r2) / rn r2)) = Rabs f * h1.
Proof.
  intros U L T LG PD PH NK CK MK T' NK' FK B1 B2. pose proof (ptrace_length _ _ _ _ _ _ _ T) as LN. pose proof (ptrace_length _ _ _ _ _ _ _ T') as LN'. pose proof (ptrace_0 _ _ _ _ _ _ _ T) as Z0.
  assert (LZ : fst u * snd y - snd u * fst y <> 0). { intros E. apply LG. unfold lagrange. rewrite Z0. cbn [obind ry ru]. f_equal. exact E. }
  set (Lg := fst u * snd y - snd u * fst y) in *.
  set (a := (fst u' * snd y - snd u * fst y') / Lg). set (b := (fst u * fst y' - fst u' * fst y) / Lg).
  assert (LIN := rows_linear axis l es y u rs y' u' rs' a b U T T' ltac:(unfold a, b, Lg in *; field; auto) ltac:(unfold a, b, Lg in *; field; auto)).
  destruct (LIN k rk rk' NK NK') as (HK & _ & _). rewrite CK, FK in HK. assert (a = f) by (apply (Rmult_eq_reg_r (fst (ry rk))); auto; lra). 
  unfold ppupil_height in PH. rewrite PD in PH. unfold ppupil_distance in PD. rewrite Z0 in PD, PH. cbn [obind ry ru rn] in PD, PH.
  destruct (nth_error rs 1) as [q1|] eqn:Q1; cbn [obind] in PD, PH; [|discriminate PD]. destruct (back rs 2) as [q2|] eqn:Q2; cbn [obind fst snd] in PD, PH; [|discriminate PD].
  destruct (fdiv (- snd (ry q1)) (snd u)) as [a0|] eqn:F0; cbn [obind] in PD; [|discriminate PD]. destruct (fdiv (- snd (ry q2)) (snd (ru q2))) as [a1|] eqn:F1; cbn [obind] in PD; [|discriminate PD].
  apply fdiv_inv in F0. destruct F0 as [N0 ->]. apply fdiv_inv in F1. destruct F1 as [N1 ->]. injection PD as <- <-.
  destruct (fdiv _ (refractive_index es l 0)) as [b0|] eqn:G0; cbn [obind] in PH; [|discriminate PH]. destruct (fdiv _ (rn q2)) as [b1|] eqn:G1; cbn [obind] in PH; [|discriminate PH].
  apply fdiv_inv in G0. destruct G0 as [I0 ->]. apply fdiv_inv in G1. destruct G1 as [I1 ->]. injection PH as <- <-. rewrite <- !Rabs_mult.
  destruct (LIN 1%nat q1 r1 Q1 B1) as (HY1 & _ & _). destruct (LIN 0%nat _ _ Z0 (ptrace_0 _ _ _ _ _ _ _ T')) as (_ & HU0 & _). cbn [ru] in HU0.
  unfold back in Q2, B2. rewrite LN' in B2. rewrite LN in Q2. destruct (Nat.leb 2 (length es)); [|discriminate Q2]. destruct (LIN _ q2 r2 Q2 B2) as (HY2 & HU2 & HN2).
  rewrite HN2, HY1, HY2, HU2, HU0, <- H. split; f_equal; field; auto.
Qed.
(** ** C53: the angular magnification is the ratio of the slopes behind and in front of the system of every ray
    through the centre of the stop *)
Theorem C53_angular_magnification axis l es y u rs mt ma k rk y' u' rs' rk' r2 :
  Forall upright es -> (2 <= length es)%nat ->
  ptrace axis l es y u (refractive_index es l 0) = Some rs -> lagrange rs <> Some 0 -> magnification rs = Some (mt, ma) ->
  nth_error rs k = Some rk -> snd (ry rk) = 0 -> fst (ry rk) <> 0 ->
  ptrace axis l es y' u' (refractive_index es l 0) = Some rs' -> nth_error rs' k = Some rk' -> fst (ry rk') = 0 ->
  back rs' 2 = Some r2 ->
  refractive_index es l 0 <> 0 -> rn r2 <> 0 ->
  fst (ru r2) / rn r2 = ma * (fst u' / refractive_index es l 0).
Proof.
  intros U L T LG MG NK CK MK T' NK' FK B2 I0 I2. pose proof (ptrace_length _ _ _ _ _ _ _ T) as LN. pose proof (ptrace_length _ _ _ _ _ _ _ T') as LN'. pose proof (ptrace_0 _ _ _ _ _ _ _ T) as Z0.
  assert (LZ : fst u * snd y - snd u * fst y <> 0). { intros E. apply LG. unfold lagrange. rewrite Z0. cbn [obind ry ru]. f_equal. exact E. }
  set (Lg := fst u * snd y - snd u * fst y) in *.
  set (a := (fst u' * snd y - snd u * fst y') / Lg). set (b := (fst u * fst y' - fst u' * fst y) / Lg).
  assert (LIN := rows_linear axis l es y u rs y' u' rs' a b U T T' ltac:(unfold a, b, Lg in *; field; auto) ltac:(unfold a, b, Lg in *; field; auto)).
  destruct (LIN k rk rk' NK NK') as (HK & _ & _). rewrite CK, FK in HK. assert (a = 0) by (apply (Rmult_eq_reg_r (fst (ry rk))); auto; lra).
  unfold magnification in MG. rewrite Z0 in MG. cbn [obind ry ru rn] in MG. destruct (back rs 2) as [q2|] eqn:Q2; cbn [obind] in MG; [|discriminate MG].
  destruct (fdiv (fst u) _) as [m0|]; cbn [obind] in MG; [|discriminate MG]. destruct (fdiv (snd (ru q2) * _) _) as [m1|] eqn:F1; cbn [obind] in MG; [|discriminate MG]. injection MG as _ <-. apply fdiv_inv in F1. destruct F1 as [N1 ->].
  destruct (LIN 0%nat _ _ Z0 (ptrace_0 _ _ _ _ _ _ _ T')) as (_ & HU0 & _). cbn [ru] in HU0.
  unfold back in Q2, B2. rewrite LN' in B2. rewrite LN in Q2. destruct (Nat.leb 2 (length es)); [|discriminate Q2]. destruct (LIN _ q2 r2 Q2 B2) as (HY2 & HU2 & HN2).
  rewrite HU2, HU0, H, HN2. rewrite HN2 in I2. assert (snd u <> 0) by (intros E; apply N1; rewrite E; ring). field. auto.
Qed.
(** ** C53: nodal points in air.  Spec: a ray aimed at the front nodal point (on the axis, nd0
    behind the first surface) leaves with its slope unchanged and seems to come from the rear one (nd1 behind the last surface) *)
Theorem C53_nodal_points axis l es y u rs nd0 nd1 y' u' rs' r1 r2 e1 :
  Forall upright es -> (3 <= length es)%nat -> nth_error es 1 = Some e1 -> plain_surface l 1 e1 ->
  ptrace axis l es y u (refractive_index es l 0) = Some rs -> nodal_distance rs = Some (nd0, nd1) ->
  ptrace axis l es y' u' (refractive_index es l 0) = Some rs' -> nth_error rs' 1 = Some r1 -> back rs' 2 = Some r2 ->
  refractive_index es l 0 = 1 -> rn r2 = 1 ->
  fst (ry r1) + nd0 * fst u' = 0 ->
  fst (ru r2) = fst u' /\ fst (ry r2) + nd1 * fst (ru r2) = 0.
Proof.
  intros U L E1 P1 TR ND TR' B1 B2 N0 NN AIM. destruct (back2 axis l es U L y' u' rs' TR') as (M & r2' & B2' & SM & DM & RI & DET & NR).
  rewrite B2 in B2'. injection B2' as <-. rewrite NR in NN.
  destruct (back2 axis l es U L y u rs TR) as (M0 & q2 & Q2 & SM0 & _ & RI0 & _ & NQ). rewrite SM in SM0. injection SM0 as <-.
  assert (B10 : exists q1, nth_error rs 1 = Some q1).
  { destruct (nth_error rs 1) eqn:E; [eauto|]. apply nth_error_None in E. apply ptrace_length in TR. lia. }
  destruct B10 as (q1 & B10).
  destruct (ptrace_nth axis l es y u rs 0 q1 U TR B10) as (M1 & SM1 & DM1 & RI1 & _).
  destruct (ptrace_nth axis l es y' u' rs' 0 r1 U TR' B1) as (M1' & SM1' & _ & RI1' & _). rewrite SM1 in SM1'. injection SM1' as <-.
  assert (BM1 : exists t f g, block axis M1 = (1, t, f, g)).
  { revert SM1. unfold sys_matrix, paraxial_matrices, slice. destruct es as [|e0 [|e1' es]]; [discriminate|discriminate|].
    cbn in E1. injection E1 as ->. cbn [firstn skipn matrices]. rewrite N0.
    destruct (paraxial_matrix e1 1 l) as [n1 m1] eqn:PM. cbn [fold_left snd obind]. destruct m1 as [m1|]; [|discriminate].
    cbn [obind]. rewrite mm4_eye_r. intros E. injection E as <-.
    assert (U1 : upright e1) by (rewrite Forall_forall in U; apply U; right; left; reflexivity).
    destruct (untilted_block axis e1 1 l n1 m1 P1 U1 PM) as (f & g & B & _). eauto. }
  destruct BM1 as (t & f & g & BM1).
  unfold nodal_distance in ND. destruct (focal_distance rs) as [[fd0 fd1]|] eqn:FD; cbn [obind] in ND; [|discriminate ND].
  destruct (focal_length rs) as [[f0 f1]|] eqn:FL; [|discriminate]. cbn [obind fst snd] in ND. injection ND as <- <-.
  pose proof (focal_length_C axis l es y u rs f0 f1 M U L TR FL SM) as FC. rewrite NN, N0 in FC.
  unfold focal_distance in FD. rewrite FL in FD. unfold lagrange in FD. rewrite (ptrace_0 _ _ _ _ _ _ _ TR), B10, Q2 in FD.
  cbn [obind ry ru rn] in FD. rewrite NQ, NN, N0 in FD. cbn [fst snd] in FD.
  unfold row_is in RI, RI0, RI1, RI1'. rewrite BM1 in RI1, RI1'. destruct (block axis M) as [[[a b] c] d].
  destruct FC as (C & LZ & -> & ->). destruct RI as [RY2 RU2]. destruct RI0 as [RY0 RU0]. destruct RI1 as [RY1 _]. destruct RI1' as [RY1' _].
  rewrite RY0, RU0, RY1 in FD. rewrite RY1' in AIM. rewrite RY2, RU2. cbn [fst snd] in *. set (Lg := fst u * snd y - snd u * fst y) in *.
  rewrite !fdiv_some in FD by (auto; lra). cbn [obind] in FD. rewrite !fdiv_some in FD by (auto; lra). cbn [obind] in FD. injection FD as <- <-.
  assert (X1 : ((a * snd y + b * snd u) * fst u - (a * fst y + b * fst u) * snd u) = a * Lg) by (unfold Lg; ring).
  assert (X0 : ((1 * snd y + t * snd u) * (c * fst y + d * fst u) - (1 * fst y + t * fst u) * (c * snd y + d * snd u)) = (d - c * t) * Lg) by (unfold Lg; ring).
  rewrite X0 in AIM. rewrite X1. clearbody Lg. clear X0 X1 RY0 RU0 RY1 RY1' RY2 RU2.
  assert (AIM' : c * fst y' + d * fst u' = fst u'). { apply (f_equal (fun z => z * c)) in AIM. rewrite Rmult_0_l in AIM. rewrite <- Rminus_0_r at 1. rewrite <- AIM at 1. field. auto. }
  split; [exact AIM'|]. apply (Rmult_eq_reg_l c); [|auto].
  transitivity (a * (c * fst y' + d * fst u') - (a * d - b * c) * fst u' + (1 - a) * (c * fst y' + d * fst u')); [field; auto|]. rewrite DET, AIM'. ring.
Qed.

Lemma first_row axis l es y u rs r1 e1 : Forall upright es -> nth_error es 1 = Some e1 -> plain_surface l (refractive_index es l 0) e1 ->
  ptrace axis l es y u (refractive_index es l 0) = Some rs -> nth_error rs 1 = Some r1 ->
  refractive_index es l 0 <> 0 /\ ry r1 = (fst y + p_distance (e_place e1) * (fst u / refractive_index es l 0), snd y + p_distance (e_place e1) * (snd u / refractive_index es l 0)).
Proof.
  intros U E1 P1 T N. destruct (ptrace_nth axis l es y u rs 0 r1 U T N) as (M1 & SM1 & _ & RI & _).
  assert (BM1 : refractive_index es l 0 <> 0 /\ exists f g, block axis M1 = (1, p_distance (e_place e1) / refractive_index es l 0, f, g)).
  { clear T N RI. revert SM1. unfold sys_matrix, paraxial_matrices, slice. destruct es as [|e0 [|e1' es]]; [discriminate|discriminate|].
    cbn in E1. injection E1 as ->. cbn [firstn skipn matrices Nat.sub]. set (n0 := refractive_index _ _ _) in *.
    destruct (paraxial_matrix e1 n0 l) as [n1 m1] eqn:PM. cbn [fold_left snd obind]. destruct m1 as [m1|]; [|discriminate].
    cbn [obind]. rewrite mm4_eye_r. intros E. injection E as <-.
    assert (U1 : upright e1) by (rewrite Forall_forall in U; apply U; right; left; reflexivity).
    destruct (untilted_block axis e1 n0 l n1 m1 P1 U1 PM) as (f & g & B & NZ). split; [auto|eauto]. }
  destruct BM1 as (NZ & f & g & BM). unfold row_is in RI. rewrite BM in RI. destruct RI as [-> _]. split; [auto|]. f_equal; field; auto.
Qed.
(** ** C53: the rays launched for a conjugate report its own pupil.  Spec: the distance of the entrance pupil counts from
    the first surface, that of the conjugate from the object (element 0), and the pupil height is the absolute value of the pupil radius. *)
Theorem C53_launched axis l es o y u rs e1 d0 d1 h0 h1 :
  Forall upright es -> nth_error es 1 = Some e1 -> plain_surface l (refractive_index es l 0) e1 ->
  cj_finite o = true \/ wideangle o = false ->
  prays es l o = Some (y, u) -> ptrace axis l es y u (refractive_index es l 0) = Some rs ->
  ppupil_distance rs = Some (d0, d1) -> ppupil_height rs = Some (h0, h1) ->
  d0 = pu_distance (cj_pupil o) - p_distance (e_place e1) /\ exists r, pupil_radius (cj_pupil o) = Some r /\ h0 = Rabs r.
Proof.
  intros U E1 P1 W PR T PD PH. pose proof (ptrace_0 _ _ _ _ _ _ _ T) as Z0.
  unfold ppupil_height in PH. rewrite PD in PH. unfold ppupil_distance in PD. rewrite Z0 in PD, PH. cbn [obind ry ru rn] in PD, PH.
  destruct (nth_error rs 1) as [q1|] eqn:Q1; cbn [obind] in PD, PH; [|discriminate PD]. destruct (back rs 2) as [q2|] eqn:Q2; cbn [obind fst snd] in PD, PH; [|discriminate PD].
  destruct (first_row axis l es y u rs q1 e1 U E1 P1 T Q1) as (NZ & R1). rewrite R1 in PD, PH. cbn [fst snd] in PD, PH. clear R1 T Z0 Q1. set (n0 := refractive_index es l 0) in *. set (d := p_distance (e_place e1)) in *.
  destruct (fdiv _ (snd u)) as [a0|] eqn:F0; cbn [obind] in PD; [|discriminate PD]. destruct (fdiv _ (snd (ru q2))) as [a1|]; cbn [obind] in PD; [|discriminate PD].
  apply fdiv_inv in F0. destruct F0 as [N0 ->]. injection PD as <- _.
  destruct (fdiv _ n0) as [b0|] eqn:G0; cbn [obind] in PH; [|discriminate PH]. destruct (fdiv _ (rn q2)) as [b1|]; cbn [obind] in PH; [|discriminate PH].
  apply fdiv_inv in G0. destruct G0 as [I0 ->]. injection PH as <- _. clear a1 b1 q2 Q2 I0.
  unfold prays in PR. fold n0 in PR. destruct (cj_finite o) eqn:CF.
  - destruct (pupil_slope (cj_pupil o)) as [ps|] eqn:PS; cbn [obind] in PR; [|discriminate PR]. unfold conj_slope in PR. rewrite CF in PR.
    destruct (fdiv _ (pu_distance _)) as [s|] eqn:S; cbn [obind] in PR; [|discriminate PR]. injection PR as <- <-. cbn [fst snd] in *. apply fdiv_inv in S. destruct S as [DZ ->].
    assert (cj_val o <> 0) by (intros E; apply N0; rewrite E; field; auto).
    assert (X : - (- cj_val o + d * (n0 * (cj_val o / pu_distance (cj_pupil o)) / n0)) / (n0 * (cj_val o / pu_distance (cj_pupil o))) * n0 = pu_distance (cj_pupil o) - d) by (field; auto).
    rewrite X. split; [reflexivity|]. exists (ps * pu_distance (cj_pupil o)). split; [|f_equal; field; auto].
    unfold pupil_radius. rewrite PS. destruct (pu_kind (cj_pupil o)) eqn:K; try reflexivity. unfold pupil_slope in PS. rewrite K in PS. apply fdiv_inv in PS. destruct PS as [_ ->]. f_equal. field. auto.
  - destruct W as [W|W]; [discriminate W|]. rewrite W in PR. unfold conj_slope in PR. rewrite CF in PR. destruct (ftan (cj_val o)) as [s|]; cbn [obind] in PR; [|discriminate PR].
    destruct (pupil_radius (cj_pupil o)) as [r|]; cbn [obind] in PR; [|discriminate PR]. injection PR as <- <-. cbn [fst snd] in *.
    assert (s <> 0) by (intros E; apply N0; rewrite E; ring). split; [field; auto|]. exists r. split; [reflexivity|]. f_equal. field. auto.
Qed.
(** ** C53: launched rays scale with the system: heights by the factor, slopes not at all *)
Theorem C53_rescaled_launch es es' l o k : k <> 0 -> refractive_index es' l 0 = refractive_index es l 0 ->
  cj_finite o = true \/ wideangle o = false ->
  prays es' l (conj_rescale o k) = match prays es l o with Some (y, u) => Some ((k * fst y, k * snd y), u) | None => None end.
Proof.
  intros K N W. unfold prays. rewrite N. set (n0 := refractive_index es l 0).
  assert (D0 : pu_distance (pupil_rescale (cj_pupil o) k) = pu_distance (cj_pupil o) * k) by (unfold pupil_rescale; destruct (pu_kind _); reflexivity).
  assert (PS : pupil_slope (pupil_rescale (cj_pupil o) k) = pupil_slope (cj_pupil o)).
  { unfold pupil_rescale, pupil_slope. destruct (cj_pupil o) as [kd v d a b c t i pj]. cbn. destruct kd; cbn; try reflexivity.
    destruct (Req_dec d 0) as [->|D]; [rewrite Rmult_0_l, !fdiv_zero; reflexivity|]. rewrite !fdiv_some by (try apply Rmult_integral_contrapositive_currified; auto). f_equal. field. auto. }
  assert (PRD : pupil_radius (pupil_rescale (cj_pupil o) k) = match pupil_radius (cj_pupil o) with Some r => Some (k * r) | None => None end).
  { unfold pupil_radius. rewrite PS, D0. assert (KD : pu_kind (pupil_rescale (cj_pupil o) k) = pu_kind (cj_pupil o)) by (unfold pupil_rescale; destruct (cj_pupil o) as [[] ?]; reflexivity). rewrite KD.
    destruct (pu_kind (cj_pupil o)) eqn:E; try (destruct (pupil_slope (cj_pupil o)); cbn [obind]; [f_equal; ring|reflexivity]).
    unfold pupil_rescale. cbn. rewrite E. cbn. f_equal. ring. }
  unfold conj_rescale, conj_slope. destruct o as [cf v p pj ur]. cbn in *. destruct cf; cbn; rewrite ?PS, ?D0, ?PRD.
  - destruct (pupil_slope p) as [ps|]; cbn [obind]; [|reflexivity].
    destruct (Req_dec (pu_distance p) 0) as [E|D]; [rewrite E, Rmult_0_l, !fdiv_zero; reflexivity|].
    rewrite !fdiv_some by (try apply Rmult_integral_contrapositive_currified; auto). cbn [obind fst snd]. f_equal. f_equal; f_equal; try ring. f_equal. field. auto.
  - destruct W as [W|W]; [discriminate W|]. unfold wideangle in *. cbn in *. rewrite W. destruct (ftan v) as [s|]; cbn [obind]; [|reflexivity].
    destruct (pupil_radius p); cbn [obind fst snd]; [|reflexivity]. f_equal. f_equal; f_equal; ring.
Qed.
(** ** C53: the medium at an element is that of the nearest element before or at it that has one; air if there is none *)
Definition has_medium (l n : R) (e : element) : Prop := exists m s, e_kind e = Sph (Some m) s /\ m_index m l = n.
Definition no_medium (e : element) : Prop := forall m s, e_kind e <> Sph (Some m) s.
Lemma first_index_spec b e c l n : Forall no_medium b -> has_medium l n e -> first_index (b ++ e :: c) l = n.
Proof.
  intros B (m & s & K & M). induction b as [|x b IH]; cbn.
  - rewrite K. exact M.
  - inversion B as [|? ? X B']; subst. destruct (e_kind x) as [|[m0|] s0] eqn:E; auto. exfalso. exact (X m0 s0 E).
Qed.
Theorem C53_medium a e b c l n : has_medium l n e -> Forall no_medium b ->
  refractive_index_last (a ++ e :: b) l = n /\ refractive_index (a ++ e :: b ++ c) l (length a + length b) = n.
Proof.
  intros E B. assert (B' : Forall no_medium (rev b)) by (apply Forall_rev; auto). split.
  - unfold refractive_index_last. rewrite rev_app_distr. cbn [rev]. rewrite <- app_assoc. cbn [app]. apply first_index_spec; auto.
  - unfold refractive_index. replace (S (length a + length b)) with (length (a ++ e :: b) + 0)%nat by (rewrite app_length; cbn; lia).
    replace (a ++ e :: b ++ c) with ((a ++ e :: b) ++ c) by (rewrite <- app_assoc; reflexivity). rewrite firstn_app_2. cbn [firstn]. rewrite app_nil_r, rev_app_distr. cbn [rev]. rewrite <- app_assoc. apply first_index_spec; auto.
Qed.
Theorem C53_medium_air b c l : Forall no_medium b -> refractive_index_last b l = 1 /\ (b <> [] -> refractive_index (b ++ c) l (length b - 1) = 1).
Proof.
  assert (X : forall b, Forall no_medium b -> first_index b l = 1).
  { clear. induction b as [|x b IH]; cbn; auto. intros B. inversion B as [|? ? X B']; subst. destruct (e_kind x) as [|[m0|] s0] eqn:E; auto. exfalso. exact (X m0 s0 E). }
  intros B. split; [apply X, Forall_rev, B|]. intros NE. unfold refractive_index.
  assert (L : S (length b - 1) = (length b + 0)%nat) by (destruct b; [congruence|cbn; lia]). rewrite L, firstn_app_2. cbn [firstn]. rewrite app_nil_r. apply X, Forall_rev, B.
Qed.

(** the water lens of C49_example, stopped at its front surface: pupils, magnification and nodal points *)
Lemma lens3_trace p0 p3 p9 p18 : init 0 ez v0 None = Some p0 -> init 3 ez v0 None = Some p3 -> init 9 ez v0 None = Some p9 -> init 18 ez v0 None = Some p18 ->
  Forall upright (lens3 p0 p3 p9 p18) /\ (forall e, In e (lens3 p0 p3 p9 p18) -> plain_surface 1 1 e) /\ p_distance p9 = 9 /\
  forall y u, let h1 a p := a + 9 * p in let v1 a p := p - 1/9 * h1 a p in
    let h2 a p := h1 a p + 9/4 * v1 a p in let v2 a p := v1 a p - 1/18 * h2 a p in let h3 a p := h2 a p + 18 * v2 a p in
  ptrace true 1 (lens3 p0 p3 p9 p18) y u 1 =
    Some [PRow y u 1; PRow (h1 (fst y) (fst u), h1 (snd y) (snd u)) (v1 (fst y) (fst u), v1 (snd y) (snd u)) (4/3);
          PRow (h2 (fst y) (fst u), h2 (snd y) (snd u)) (v2 (fst y) (fst u), v2 (snd y) (snd u)) 1;
          PRow (h3 (fst y) (fst u), h3 (snd y) (snd u)) (v2 (fst y) (fst u), v2 (snd y) (snd u)) 1].
Proof.
  intros I0 I3 I9 I18.
  destruct (centred_axis 0) as (q0 & E0 & U0 & D0 & _ & A0); [lra|].
  destruct (centred_axis 3) as (q3 & E3 & U3 & D3 & _ & A3); [lra|].
  destruct (centred_axis 9) as (q9 & E9 & U9 & D9 & _ & A9); [lra|].
  destruct (centred_axis 18) as (q18 & E18 & U18 & D18 & _ & A18); [lra|].
  assert (q0 = p0) by congruence. assert (q3 = p3) by congruence. assert (q9 = p9) by congruence. assert (q18 = p18) by congruence. subst q0 q3 q9 q18.
  split. { unfold lens3. repeat apply Forall_cons; [..|apply Forall_nil]; unfold upright; cbn; rewrite ?A0, ?A3, ?A9, ?A18; reflexivity. }
  split. { intros e [<-|[<-|[<-|[<-|[]]]]]; (split; [assumption|]); intros m s E; cbn in E; injection E as <- _ || discriminate; cbn; lra. }
  split; [exact D9|]. intros y u.
  pose proof (prim (El p9 (Some 4) (Sph (Some water) (Surf (1/3) 0 None false)), None) 1 1 (Some water) (Surf (1/3) 0 None false) (1/3)) as P1.
  pose proof (prim (El p3 (Some 4) (Sph (Some vac) (Surf (-1/6) 0 None false)), None) 1 (4/3) (Some vac) (Surf (-1/6) 0 None false) (-1/6)) as P2.
  pose proof (prim (El p18 None (Sph None flat), None) 1 1 None flat 0) as P3. intros h1 v1 h2 v2 h3.
  unfold lens3. cbn [ptrace ptrace_from]. unfold propagate_paraxial.
    change (El p9 (Some 4) (Sph (Some water) (Surf (1/3) 0 None false))) with (fst (El p9 (Some 4) (Sph (Some water) (Surf (1/3) 0 None false)), @None material)).
    rewrite P1; auto; [|split; auto|lra|split; [reflexivity|cbn; lra]]. cbn [obind].
    change (El p3 (Some 4) (Sph (Some vac) (Surf (-1/6) 0 None false))) with (fst (El p3 (Some 4) (Sph (Some vac) (Surf (-1/6) 0 None false)), @None material)).
    change (m_index water 1) with (4/3).
    rewrite P2; auto; [|split; auto|lra|split; [reflexivity|cbn; lra]]. cbn [obind].
    change (El p18 None (Sph None flat)) with (fst (El p18 None (Sph None flat), @None material)).
    change (m_index vac 1) with 1.
    rewrite P3; auto; [|split; auto|lra]. cbn [obind].
    unfold dist. cbn [fst snd e_place]. rewrite D3, D9, D18.
    set (m1 := mm4 (Rm _) (Tm (9 / 1))). set (m2 := mm4 (Rm ((4/3 - 1) * _)) _). set (m3 := mm4 (Rm 0) _).
    assert (X1 : forall a p, mv4 m1 (V4 a a p p) = V4 (h1 a p) (h1 a p) (v1 a p) (v1 a p)).
    { intros a p. unfold m1, v1, h1. rewrite mv4_mm4, Tm_mv, Rm_mv. cbv zeta. apply v4_eq; cbn [w0 w1 w2 w3]; field. }
    assert (X2 : forall a p, mv4 m2 (V4 a a p p) = let y := a + 9/4 * p in let v := p - 1/18 * y in V4 y y v v).
    { intros a p. unfold m2. rewrite mv4_mm4, Tm_mv, Rm_mv. cbv zeta. apply v4_eq; cbn [w0 w1 w2 w3]; field. }
    assert (X3 : forall a p, mv4 m3 (V4 a a p p) = let y := a + 18 * p in V4 y y p p).
    { intros a p. unfold m3. rewrite mv4_mm4, Tm_mv, Rm_mv. cbv zeta. apply v4_eq; cbn [w0 w1 w2 w3]; field. }
    rewrite !X1, !X2. cbv zeta. rewrite !X3. cbv zeta. unfold row_y, row_u. cbn [w0 w1 w2 w3 fst snd]. reflexivity.
Qed.
Example C53_example : exists p0 p3 p9 p18 rs rs' r1 r2, let es := lens3 p0 p3 p9 p18 in
  Forall upright es /\ nth_error es 1 = Some (El p9 (Some 4) (Sph (Some water) (Surf (1/3) 0 None false))) /\ (forall e, In e es -> plain_surface 1 1 e) /\
  ptrace true 1 es (0, -1) (1, 1/9) (refractive_index es 1 0) = Some rs /\ lagrange rs = Some (-1) /\
  ppupil_distance rs = Some (0, -18/7) /\ ppupil_height rs = Some (9, 72/7) /\ magnification rs = Some (-2, 7/8) /\
  nodal_distance rs = Some (9/11, -18/11) /\
  (** another ray, three times the marginal height at the stop, and the ray through the nodal points *)
  ptrace true 1 es (9, 108/11) (2, -1) (refractive_index es 1 0) = Some rs' /\ nth_error rs' 1 = Some r1 /\ back rs' 2 = Some r2 /\
  fst (ry r1) = 3 * 9 /\ snd (ry r1) + 9/11 * -1 = 0 /\ snd (ru r2) = -1 /\ snd (ry r2) + -18/11 * snd (ru r2) = 0 /\
  Rabs (fst (ry r2) + -18/7 * (fst (ru r2) / rn r2)) = 3 * (72/7) /\
  (** a conjugate that launches these rays *)
  (let o := Conjugate true 1 (Pupil RadiusPupil 9 9 false false false false 1 Rectilinear) Rectilinear false in prays es 1 o = Some ((0, -1), (1, 1/9))).
Proof.
  destruct (centred_axis 0) as (p0 & E0 & _); [lra|]. destruct (centred_axis 3) as (p3 & E3 & _); [lra|].
  destruct (centred_axis 9) as (p9 & E9 & _); [lra|]. destruct (centred_axis 18) as (p18 & E18 & _); [lra|].
  destruct (lens3_trace p0 p3 p9 p18 E0 E3 E9 E18) as (U & PL & D9 & T). exists p0, p3, p9, p18. do 4 eexists. cbv zeta in T |- *.
  split; [exact U|]. split; [reflexivity|]. split; [exact PL|]. change (refractive_index (lens3 p0 p3 p9 p18) 1 0) with 1. split; [apply T|].
  set (rs := [_; _; _; _]). assert (PD : ppupil_distance rs = Some (0, -18/7)).
  { unfold ppupil_distance, back, rs. cbn [length Nat.leb Nat.sub nth_error obind ry ru rn fst snd]. rewrite !fdiv_some by lra. cbn [obind]. f_equal. f_equal; field. }
  assert (FL : focal_length rs = Some (-72/11, 72/11)).
  { unfold focal_length, lagrange, back, rs. cbn [length Nat.leb Nat.sub nth_error obind ry ru rn fst snd]. rewrite !fdiv_some by lra. cbn [obind]. f_equal. f_equal; field. }
  split. { unfold lagrange, rs. cbn. f_equal. lra. }
  split; [exact PD|].
  split. { unfold ppupil_height. rewrite PD. unfold back, rs. cbn [length Nat.leb Nat.sub nth_error obind ry ru rn fst snd]. rewrite !fdiv_some by lra. cbn [obind]. f_equal. f_equal; rewrite Rabs_right; lra. }
  split. { unfold magnification, back, rs. cbn [length Nat.leb Nat.sub nth_error obind ry ru rn fst snd]. rewrite !fdiv_some by lra. cbn [obind]. f_equal. f_equal; field. }
  split. { unfold nodal_distance, focal_distance. rewrite FL. unfold lagrange, back, rs. cbn [length Nat.leb Nat.sub nth_error obind ry ru rn fst snd]. rewrite !fdiv_some by lra. cbn [obind]. rewrite !fdiv_some by lra. cbn [obind fst snd]. f_equal. f_equal; field. }
  split; [apply T|]. split; [reflexivity|]. split; [reflexivity|]. cbn [ry ru rn fst snd].
  split; [lra|]. split; [lra|]. split; [lra|]. split; [lra|]. split; [rewrite Rabs_right; lra|].
  unfold prays, conj_slope, pupil_slope. cbn [cj_finite cj_pupil pu_kind pu_val pu_distance cj_val].
  change (refractive_index (lens3 p0 p3 p9 p18) 1 0) with 1. rewrite !fdiv_some by lra. cbn [obind]. f_equal. f_equal; f_equal; field.
Qed.
Example C53_rescaled_launch_example : exists o y u, prays [] 1 o = Some (y, u) /\ prays [] 1 (conj_rescale o 10) = Some ((10 * fst y, 10 * snd y), u) /\ y <> (0, 0) /\ u <> (0, 0).
Proof.
  exists (Conjugate true 1 (Pupil RadiusPupil 9 9 false false false false 1 Rectilinear) Rectilinear false), (0, -1), (1, 1/9).
  assert (P : prays [] 1 (Conjugate true 1 (Pupil RadiusPupil 9 9 false false false false 1 Rectilinear) Rectilinear false) = Some ((0, -1), (1, 1/9))).
  { unfold prays, conj_slope, pupil_slope, refractive_index. cbn. rewrite !fdiv_some by lra. cbn [obind]. f_equal. f_equal; f_equal; field. }
  split; [exact P|]. split. { rewrite (C53_rescaled_launch [] [] 1 _ 10); [rewrite P; reflexivity|lra|reflexivity|left; reflexivity]. }
  split; intros E; apply (f_equal snd) in E; cbn in E; lra.
Qed.
Example C53_medium_example : exists p, let g := El p None (Sph (Some water) flat) in let f := El p None (Sph (Some vac) flat) in let s := El p None Plain in
  refractive_index_last [f; g; s; s] 1 = 4/3 /\ refractive_index [f; g; s; f] 1 2 = 4/3 /\ refractive_index [s; s; g] 1 1 = 1.
Proof. destruct (centred_axis 0) as (p & _); [lra|]. exists p. repeat split. Qed.
Print Assumptions C53_pupils.
Print Assumptions C53_angular_magnification.
Print Assumptions C53_nodal_points.
Print Assumptions C53_launched.
Print Assumptions C53_rescaled_launch.
Print Assumptions C53_medium.
Print Assumptions C53_medium_air.
