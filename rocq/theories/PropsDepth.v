(** Property C116: distances along the axis are magnified by the product of the lateral magnifications. *)
From Coq Require Import Reals List Lra Lia Psatz.
From Verif Require Import Base Vec RotModel RotProofs PlacementModel PlacementProofs ElementModel PropsRescale
  ParaxialModel ParaxialProofs PropsParaxial LimitProofs PropsLimit ReverseModel PropsReverse PropsInverse
  PupilModel PropsPupil ParaxTraceModel PropsConjugates PropsSolve PropsCardinal PropsDesign.
Import ListNotations.
Open Scope R_scope.

(** ** Specification *)
(** the plane at [z] behind the first surface is imaged onto the plane at [z'] behind the last surface with the lateral
    magnification [m]: every ray meets the second at [m] times the height at which it meets the first ([ru] is index times slope) *)
Definition imaged_onto (axis : bool) (l : R) (es : list element) (z z' m : R) : Prop :=
  forall y u rs r0 r1 r2, ptrace axis l es y u (refractive_index es l 0) = Some rs -> nth_error rs 0 = Some r0 -> nth_error rs 1 = Some r1 -> back rs 2 = Some r2 ->
  fst (ry r2) + z' * (fst (ru r2) / rn r2) = m * (fst (ry r1) + z * (fst (ru r0) / rn r0)).

(** ** Auxiliary *)
Lemma general_rows axis l e0 x xs img y u rs r1 r2 : let es := e0 :: x :: xs ++ [img] in let n := refractive_index es l 0 in Forall (lens_surface l) es -> 0 < n ->
  ptrace axis l es y u n = Some rs -> nth_error rs 1 = Some r1 -> back rs 2 = Some r2 ->
  exists M, seq_matrix (x :: xs) n l = Some M /\ rn r2 = after (x :: xs) n l /\
  let '(a, b, c, d) := block axis M in a * d - b * c = 1 /\
  fst (ry r1) = fst y + p_distance (e_place x) / n * fst u /\ fst (ry r2) = a * fst y + b * fst u /\ fst (ru r2) = c * fst y + d * fst u.
Proof.
  intros es n F N TR B1 B2. pose proof (lens_uprights _ _ F) as U.
  assert (L : (3 <= length es)%nat) by (unfold es; cbn; rewrite app_length; cbn; lia).
  destruct (back2 axis l es U L y u rs TR) as (M & q2 & Q2 & SM0 & _ & RI0 & _ & NQ). rewrite B2 in Q2. injection Q2 as <-.
  destruct (reported axis l e0 x xs img y u rs F TR N) as (M' & SM & _ & DET & NL & _). fold es in SM, NL. fold n in SM, NL.
  assert (MM : M = M').
  { unfold es in SM0. change (e0 :: x :: xs ++ [img]) with (e0 :: (x :: xs) ++ [img]) in SM0. rewrite seq_sys in SM0 by (cbn; lia).
    change (e0 :: (x :: xs) ++ [img]) with es in SM0. fold n in SM0. congruence. }
  subst M'. exists M. split; [exact SM|]. split; [rewrite NQ; exact NL|].
  assert (LX : lens_surface l x) by (inversion F as [|? ? _ F']; subst; inversion F'; auto).
  destruct (lens_block axis l x n LX N) as (mx & PM & DX & BX). cbv zeta in BX.
  destruct (ptrace_nth axis l es y u rs 0 r1 U TR B1) as (M1 & SM1 & DM1 & RI1 & _).
  assert (MX : M1 = mx).
  { revert SM1. unfold sys_matrix, paraxial_matrices, slice, es. cbn [firstn skipn matrices].
    change (e0 :: x :: xs ++ [img]) with es. fold n. rewrite PM. cbn [fold_left snd obind]. rewrite mm4_eye_r. congruence. }
  subst M1. unfold row_is in RI0, RI1. rewrite BX in RI1. destruct (block axis M) as [[[a b] c] d].
  destruct RI0 as [-> ->]. destruct RI1 as [-> _]. cbn [fst]. split; [exact DET|]. split; [ring|]. split; reflexivity.
Qed.
Lemma ray_exists axis l e0 x xs img y u : let es := e0 :: x :: xs ++ [img] in Forall (lens_surface l) es -> 0 < refractive_index es l 0 ->
  exists rs r1 r2, ptrace axis l es y u (refractive_index es l 0) = Some rs /\ nth_error rs 0 = Some (PRow y u (refractive_index es l 0)) /\ nth_error rs 1 = Some r1 /\ back rs 2 = Some r2.
Proof.
  intros es F N. assert (FT : Forall (lens_surface l) (x :: xs ++ [img])) by (inversion F; auto).
  destruct (proj1 (ptrace_some axis l e0 (x :: xs ++ [img]) y u (refractive_index es l 0)) (lens_traceable l _ FT _ N)) as (rs & TR). fold es in TR.
  assert (L : (3 <= length es)%nat) by (unfold es; cbn; rewrite app_length; cbn; lia).
  destruct (back2 axis l es (lens_uprights _ _ F) L y u rs TR) as (_ & r2 & B2 & _).
  assert (B1 : exists r1, nth_error rs 1 = Some r1) by (destruct (nth_error rs 1) eqn:E; [eauto|apply nth_error_None in E; apply ptrace_length in TR; lia]).
  destruct B1 as (r1 & B1). exists rs, r1, r2. split; [exact TR|]. split; [exact (ptrace_0 _ _ _ _ _ _ _ TR)|]. auto.
Qed.
Lemma imaged_block axis l e0 x xs img : let es := e0 :: x :: xs ++ [img] in let n := refractive_index es l 0 in Forall (lens_surface l) es -> 0 < n ->
  exists a b c d, a * d - b * c = 1 /\
  (forall y u rs r1 r2, ptrace axis l es y u n = Some rs -> nth_error rs 1 = Some r1 -> back rs 2 = Some r2 -> rn r2 = after (x :: xs) n l /\
     fst (ry r1) = fst y + p_distance (e_place x) / n * fst u /\ fst (ry r2) = a * fst y + b * fst u /\ fst (ru r2) = c * fst y + d * fst u) /\
  forall z z' m, imaged_onto axis l es z z' m ->
    let s := (p_distance (e_place x) + z) / n in let s' := z' / after (x :: xs) n l in a + s' * c = m /\ b + s' * d = m * s.
Proof.
  intros es n F N.
  assert (FX : Forall (lens_surface l) (x :: xs)) by (inversion F as [|? ? _ F']; subst; inversion F' as [|? ? A B]; subst; apply Forall_app in B; constructor; [exact A|apply B]).
  destruct (seq_some axis l (x :: xs) FX n N) as (M & SM & _ & DET).
  assert (RW : forall y u rs r1 r2, ptrace axis l es y u n = Some rs -> nth_error rs 1 = Some r1 -> back rs 2 = Some r2 -> rn r2 = after (x :: xs) n l /\ let '(a, b, c, d) := block axis M in
     fst (ry r1) = fst y + p_distance (e_place x) / n * fst u /\ fst (ry r2) = a * fst y + b * fst u /\ fst (ru r2) = c * fst y + d * fst u).
  { intros y u rs r1 r2 TR B1 B2. destruct (general_rows axis l e0 x xs img y u rs r1 r2 F N TR B1 B2) as (M' & SM' & NR & R). fold es in SM', NR. fold n in SM', NR. rewrite SM in SM'. injection SM' as <-.
    split; [exact NR|]. fold es in R. fold n in R. destruct (block axis M) as [[[a b] c] d]. tauto. }
  destruct (block axis M) as [[[a b] c] d]. exists a, b, c, d. split; [exact DET|]. split; [exact RW|].
  intros z z' m I s s'.
  destruct (ray_exists axis l e0 x xs img (1, 1) (0, 0) F N) as (rs & r1 & r2 & TR & Z0 & B1 & B2).
  pose proof (I _ _ _ _ _ _ TR Z0 B1 B2) as H1. destruct (RW _ _ _ _ _ TR B1 B2) as (NR & Q1 & Q2 & Q3).
  cbn [fst ry ru rn] in *. rewrite Q1, Q2, Q3, NR in H1. clear rs r1 r2 TR Z0 B1 B2 NR Q1 Q2 Q3.
  destruct (ray_exists axis l e0 x xs img (0, 0) (1, 1) F N) as (rs & r1 & r2 & TR & Z0 & B1 & B2).
  pose proof (I _ _ _ _ _ _ TR Z0 B1 B2) as H2. destruct (RW _ _ _ _ _ TR B1 B2) as (NR & Q1 & Q2 & Q3).
  cbn [fst ry ru rn] in *. rewrite Q1, Q2, Q3, NR in H2. fold es in H1, H2. fold n in H1, H2. unfold s, s'. unfold Rdiv in *. split; lra.
Qed.

(** ** C116: whatever the system (telescopes included) and the media, two object planes and their images *)
Theorem C116_depth axis l e0 x xs img z1 z1' m1 z2 z2' m2 : let es := e0 :: x :: xs ++ [img] in let n := refractive_index es l 0 in
  Forall (lens_surface l) es -> 0 < n ->
  imaged_onto axis l es z1 z1' m1 -> imaged_onto axis l es z2 z2' m2 ->
  (z2' - z1') / after (x :: xs) n l = m1 * m2 * ((z2 - z1) / n).
Proof.
  intros es n F N I1 I2. destruct (imaged_block axis l e0 x xs img F N) as (a & b & c & d & DET & _ & H).
  destruct (H _ _ _ I1) as (A1 & B1). destruct (H _ _ _ I2) as (A2 & B2). fold es in A1, A2, B1, B2. fold n in A1, A2, B1, B2.
  set (n' := after (x :: xs) n l) in *. set (t := p_distance (e_place x)) in *.
  transitivity ((z2' / n' - z1' / n') * (a * d - b * c)); [rewrite DET; unfold Rdiv; ring|].
  transitivity (m1 * (m2 * ((t + z2) / n)) - m2 * (m1 * ((t + z1) / n))); [|unfold Rdiv; ring].
  rewrite <- B1, <- B2, <- A1, <- A2. ring.
Qed.
(** the image plane and the magnification are determined by the object plane, the magnification is not zero, and rays from
    the axial point have their slope divided by it, times the ratio of the indices *)
Theorem C116_slope axis l e0 x xs img z z' m y u rs r0 r1 r2 : let es := e0 :: x :: xs ++ [img] in let n := refractive_index es l 0 in
  Forall (lens_surface l) es -> 0 < n ->
  imaged_onto axis l es z z' m -> ptrace axis l es y u n = Some rs -> nth_error rs 0 = Some r0 -> nth_error rs 1 = Some r1 -> back rs 2 = Some r2 ->
  fst (ry r1) + z * (fst (ru r0) / rn r0) = 0 ->
  m <> 0 /\ fst (ru r2) = fst (ru r0) / m /\ forall z2' m2, imaged_onto axis l es z z2' m2 -> z2' = z' /\ m2 = m.
Proof.
  intros es n F N I TR B0 B1 B2 AX. destruct (imaged_block axis l e0 x xs img F N) as (a & b & c & d & DET & RW & H).
  destruct (H _ _ _ I) as (A1 & S1). fold es in A1, S1. fold n in A1, S1. destruct (RW _ _ _ _ _ TR B1 B2) as (NR & Q1 & Q2 & Q3).
  rewrite (ptrace_0 _ _ _ _ _ _ _ TR) in B0. injection B0 as <-. cbn [ru rn ry fst] in *. fold es in Q1, AX, NR. fold n in Q1, AX, NR.
  set (n' := after (x :: xs) n l) in *. set (t := p_distance (e_place x)) in *.
  assert (MD : m * (d - (t + z) / n * c) = 1) by (transitivity ((a + z' / n' * c) * d - (b + z' / n' * d) * c); [rewrite A1, S1; ring|rewrite <- DET; ring]).
  assert (MZ : m <> 0) by (intros Z; rewrite Z in MD; lra). split; [exact MZ|].
  assert (FY : fst y = - ((t + z) / n) * fst u) by (rewrite Q1 in AX; unfold Rdiv in *; lra).
  split.
  - rewrite Q3, FY. transitivity (fst u * (m * (d - (t + z) / n * c)) / m); [field; lra|]. rewrite MD. field. exact MZ.
  - intros z2' m2 I2. destruct (H _ _ _ I2) as (A2 & S2). fold es in A2, S2. fold n in A2, S2. fold n' in A2, S2. fold t in S2.
    assert (FX : Forall (lens_surface l) (x :: xs)) by (inversion F as [|? ? _ F']; subst; inversion F' as [|? ? P Q]; subst; apply Forall_app in Q; constructor; [exact P|apply Q]).
    assert (NP : 0 < n') by (apply lens_after; auto).
    assert (MD2 : m2 * (d - (t + z) / n * c) = 1) by (transitivity ((a + z2' / n' * c) * d - (b + z2' / n' * d) * c); [rewrite A2, S2; ring|rewrite <- DET; ring]).
    assert (MM : m2 = m) by (transitivity (m2 * (m * (d - (t + z) / n * c))); [rewrite MD; ring|transitivity (m * (m2 * (d - (t + z) / n * c))); [ring|rewrite MD2; ring]]).
    split; [|exact MM]. rewrite MM in A2, S2. set (q := z' / n') in *. set (q2 := z2' / n') in *.
    assert (QC : q2 * c = q * c) by (clear - A1 A2; lra).
    assert (QD : q2 * d = q * d) by (rewrite <- S1 in S2; clear - S2; lra).
    assert (QQ : q2 = q) by (transitivity (q2 * (a * d - b * c)); [rewrite DET; ring|transitivity (a * (q2 * d) - b * (q2 * c)); [ring|rewrite QC, QD; transitivity (q * (a * d - b * c)); [ring|rewrite DET; ring]]]).
    transitivity (q2 * n'); [unfold q2; field; lra|]. rewrite QQ. unfold q. field. lra.
Qed.

(** ** Example: the biconvex water lens of focal length 72/11; object planes one and two focal lengths in front of the front
    focal point have images one and one half focal length behind the back focal point, of sizes 1 and 1/2, inverted *)
Example C116_example : exists e0 e1 e2 img fd0 fd1, let es := [e0; e1; e2; img] in let f := 72 / 11 in Forall (lens_surface 1) es /\ refractive_index es 1 0 = 1 /\
  imaged_onto true 1 es (fd0 - f) (fd1 + f) (-1) /\ imaged_onto true 1 es (fd0 - 2 * f) (fd1 + f / 2) (-1/2).
Proof.
  destruct (centred_axis 0) as (p0 & _ & _ & D0 & _ & A0); [lra|]. destruct (centred_axis 3) as (p3 & _ & _ & D3 & _ & A3); [lra|].
  destruct (centred_axis 9) as (p9 & _ & _ & D9 & _ & A9); [lra|]. destruct (centred_axis 18) as (p18 & _ & _ & D18 & _ & A18); [lra|].
  assert (V : forall m', Some vac = Some m' -> m_mirror m' = false /\ 0 < m_index m' 1) by (intros m' E; injection E as <-; cbn; split; [reflexivity|lra]).
  assert (W : forall m', Some water = Some m' -> m_mirror m' = false /\ 0 < m_index m' 1) by (intros m' E; injection E as <-; cbn; split; [reflexivity|lra]).
  assert (FA : Forall (lens_surface 1) (lens3 p0 p3 p9 p18)).
  { unfold lens3, flat. repeat apply Forall_cons; [..|apply Forall_nil]; apply plain_lens; auto; discriminate. }
  destruct (available true 1 _ _ [_] _ (1, 1) (0, 1/9) FA eq_refl eq_refl) as (rs & f0 & f1 & fd0 & fd1 & pd0 & pd1 & TR & FL & FD & PD).
  { cbn. lra. } { cbn. rewrite ?D3, ?D9. intros Z. field_simplify in Z. lra. }
  destruct (C86_lens true 1 _ _ _ _ (1, 1) (0, 1/9) rs f0 f1 fd0 fd1 pd0 pd1 water (Surf (1/3) 0 None false) vac (Surf (-1/6) 0 None false) FA eq_refl eq_refl eq_refl eq_refl TR FL FD PD) as (E & _).
  cbn in E. rewrite D3 in E.
  assert (NF : f1 <> 0) by (intros Z; rewrite Z in E; unfold Rdiv at 1 in E; rewrite Rinv_0 in E; lra).
  assert (EF : f1 = 72 / 11) by (replace f1 with (1 / (1 / f1)) by (field; exact NF); rewrite E; field).
  do 4 eexists. exists fd0, fd1. cbv zeta. split; [exact FA|]. split; [reflexivity|].
  assert (G : forall x x', x <> 0 -> x * x' = f1 * f1 -> imaged_onto true 1 (lens3 p0 p3 p9 p18) (fd0 - x) (fd1 + x') (- (f1 / x))).
  { intros x x' XN X y u rs' r0 r1 r2 TR' B0 B1 B2. change (refractive_index (lens3 p0 p3 p9 p18) 1 0) with 1 in TR'.
    destruct (C86_newton true 1 _ _ [_] _ (1, 1) (0, 1/9) rs f0 f1 fd0 fd1 y u rs' r1 r2 x x' FA eq_refl eq_refl TR FL FD TR' B1 B2) as (_ & _ & Q). specialize (Q X).
    rewrite (ptrace_0 _ _ _ _ _ _ _ TR') in B0. injection B0 as <-. cbn [ru rn].
    assert (NR : rn r2 = 1) by (assert (P1 : 0 < refractive_index (lens3 p0 p3 p9 p18) 1 0) by (change (0 < 1); lra); destruct (general_rows true 1 _ _ [_] _ y u rs' r1 r2 FA P1 TR' B1 B2) as (_ & _ & NR & _); exact NR).
    rewrite NR, !over_1. exact Q. }
  split.
  - pose proof (G f1 f1 NF eq_refl) as H. rewrite EF in H. replace (- (72 / 11 / (72 / 11))) with (-1) in H by field. exact H.
  - assert (N2 : 2 * f1 <> 0) by lra. assert (P2 : 2 * f1 * (f1 / 2) = f1 * f1) by field. pose proof (G (2 * f1) (f1 / 2) N2 P2) as H. rewrite EF in H. replace (- (72 / 11 / (2 * (72 / 11)))) with (-1/2) in H by field. exact H.
Qed.
