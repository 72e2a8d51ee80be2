(** Property C118: systems in sequence image in steps; the magnifications multiply. *)
From Coq Require Import Reals List Lra Lia Psatz.
From Verif Require Import Base Vec RotModel RotProofs PlacementModel PlacementProofs ElementModel PropsRescale
  ParaxialModel ParaxialProofs PropsParaxial LimitProofs PropsLimit ReverseModel PropsReverse PropsInverse
  PupilModel PropsPupil ParaxTraceModel PropsConjugates PropsSolve PropsCardinal PropsDesign PropsDepth.
Import ListNotations.
Open Scope R_scope.

(** ** Auxiliary: the imaging condition in terms of the block of the surfaces *)
Lemma imaged_iff axis l e0 x xs img M : let es := e0 :: x :: xs ++ [img] in let n := refractive_index es l 0 in Forall (lens_surface l) es -> 0 < n ->
  seq_matrix (x :: xs) n l = Some M -> forall z z' m,
  imaged_onto axis l es z z' m <->
  let '(a, b, c, d) := block axis M in let s := (p_distance (e_place x) + z) / n in let s' := z' / after (x :: xs) n l in a + s' * c = m /\ b + s' * d = m * s.
Proof.
  intros es n F N SM z z' m.
  assert (RW : forall y u rs r1 r2, ptrace axis l es y u n = Some rs -> nth_error rs 1 = Some r1 -> back rs 2 = Some r2 -> rn r2 = after (x :: xs) n l /\ let '(a, b, c, d) := block axis M in
     fst (ry r1) = fst y + p_distance (e_place x) / n * fst u /\ fst (ry r2) = a * fst y + b * fst u /\ fst (ru r2) = c * fst y + d * fst u).
  { intros y u rs r1 r2 TR B1 B2. destruct (general_rows axis l e0 x xs img y u rs r1 r2 F N TR B1 B2) as (M' & SM' & NR & R). fold es in SM', NR. fold n in SM', NR. rewrite SM in SM'. injection SM' as <-.
    split; [exact NR|]. fold es in R. fold n in R. destruct (block axis M) as [[[a b] c] d]. tauto. }
  destruct (block axis M) as [[[a b] c] d]. cbv zeta. set (n' := after (x :: xs) n l) in *. split.
  - intros I.
    destruct (ray_exists axis l e0 x xs img (1, 1) (0, 0) F N) as (rs & r1 & r2 & TR & Z0 & B1 & B2).
    pose proof (I _ _ _ _ _ _ TR Z0 B1 B2) as H1. destruct (RW _ _ _ _ _ TR B1 B2) as (NR & Q1 & Q2 & Q3).
    cbn [fst ry ru rn] in *. rewrite Q1, Q2, Q3, NR in H1. clear rs r1 r2 TR Z0 B1 B2 NR Q1 Q2 Q3.
    destruct (ray_exists axis l e0 x xs img (0, 0) (1, 1) F N) as (rs & r1 & r2 & TR & Z0 & B1 & B2).
    pose proof (I _ _ _ _ _ _ TR Z0 B1 B2) as H2. destruct (RW _ _ _ _ _ TR B1 B2) as (NR & Q1 & Q2 & Q3).
    cbn [fst ry ru rn] in *. rewrite Q1, Q2, Q3, NR in H2. fold es in H1, H2. fold n in H1, H2. unfold Rdiv in *. split; lra.
  - intros (E1 & E2) y u rs r0 r1 r2 TR B0 B1 B2. destruct (RW _ _ _ _ _ TR B1 B2) as (NR & Q1 & Q2 & Q3).
    rewrite (ptrace_0 _ _ _ _ _ _ _ TR) in B0. injection B0 as <-. cbn [ru rn]. rewrite Q1, Q2, Q3, NR. fold es. fold n.
    transitivity ((a + z' / n' * c) * fst y + (b + z' / n' * d) * fst u); [unfold Rdiv; ring|]. rewrite E1, E2. unfold Rdiv. ring.
Qed.

(** ** C118: [A] images the plane at [z] onto the plane at [z'] behind it.  Behind [A] stand the surfaces of [B], the first of
    them ([xj]) so that this plane is the one that [B] alone images onto [w'].  Then the whole images [z] onto [w']. *)
Theorem C118_relay axis l oa xa xas ia ob xb xbs ib xj z z' m1 w w' m2 :
  let A := oa :: xa :: xas ++ [ia] in let B := ob :: xb :: xbs ++ [ib] in let es := oa :: xa :: (xas ++ xj :: xbs) ++ [ib] in
  Forall (lens_surface l) A -> Forall (lens_surface l) B -> 0 < refractive_index A l 0 ->
  after (xa :: xas) (refractive_index A l 0) l = refractive_index B l 0 ->
  e_kind xj = e_kind xb -> p_angles (e_place xj) = v0 ->
  imaged_onto axis l A z z' m1 -> imaged_onto axis l B w w' m2 -> z' = p_distance (e_place xj) + w ->
  imaged_onto axis l es z w' (m1 * m2).
Proof.
  intros A B es FA FB NA AB KJ PJ IA IB ZW.
  assert (FXA : lens_surface l oa /\ Forall (lens_surface l) (xa :: xas)).
  { inversion FA as [|? ? O FA']; subst. inversion FA' as [|? ? P Q]; subst. apply Forall_app in Q. split; [exact O|]. constructor; [exact P|apply Q]. }
  assert (FXB : lens_surface l xb /\ Forall (lens_surface l) xbs /\ Forall (lens_surface l) [ib]).
  { inversion FB as [|? ? O FB']; subst. inversion FB' as [|? ? P Q]; subst. apply Forall_app in Q. tauto. }
  destruct FXA as (FO & FXA). destruct FXB as (FXB & FXS & FI).
  assert (FJ : lens_surface l xj) by (destruct FXB as (_ & Q); split; [exact PJ|rewrite KJ; exact Q]).
  assert (FE : Forall (lens_surface l) es).
  { inversion FXA as [|? ? P Q]; subst. unfold es. constructor; [exact FO|]. constructor; [exact P|]. apply Forall_app. split; [|exact FI]. apply Forall_app. split; [exact Q|]. constructor; auto. }
  assert (NE : refractive_index es l 0 = refractive_index A l 0) by reflexivity.
  set (n := refractive_index A l 0) in *. set (n1 := refractive_index B l 0) in *.
  assert (NB : 0 < n1) by (rewrite <- AB; apply lens_after; auto).
  assert (FBB : Forall (lens_surface l) (xb :: xbs)) by (constructor; auto). assert (FJS : Forall (lens_surface l) (xj :: xbs)) by (constructor; auto).
  destruct (seq_some axis l (xa :: xas) FXA n NA) as (MA & SA & DA & _).
  destruct (seq_some axis l (xb :: xbs) FBB n1 NB) as (MB & SB & _).
  destruct (seq_some axis l (xj :: xbs) FJS n1 NB) as (MJ & SJ & _).
  destruct (seq_cons axis l xj xbs n1 MJ FJ NB FXS SJ) as (mj & mr & _ & DJ & BJ & SR & DR & EJ).
  destruct (seq_cons axis l xb xbs n1 MB FXB NB FXS SB) as (mb & mr' & _ & DB' & BB & SR' & _ & EB).
  assert (IJ : index_after xj n1 l = index_after xb n1 l) by (unfold index_after; rewrite KJ; reflexivity).
  assert (PW : surface_power l n1 xj = surface_power l n1 xb) by (unfold surface_power; rewrite KJ; reflexivity).
  rewrite IJ in SR. rewrite SR in SR'. injection SR' as <-. cbv zeta in BJ, BB. rewrite PW in BJ. subst MJ.
  assert (SE : seq_matrix (xa :: xas ++ xj :: xbs) (refractive_index es l 0) l = Some (mm4 (mm4 mr mj) MA)).
  { rewrite NE. change (xa :: xas ++ xj :: xbs) with ((xa :: xas) ++ xj :: xbs). rewrite seq_app, SA, AB. cbn [obind]. rewrite SJ. reflexivity. }
  assert (NP : 0 < refractive_index es l 0) by (rewrite NE; exact NA).
  apply (imaged_iff axis l oa xa (xas ++ xj :: xbs) ib _ FE NP SE).
  apply (imaged_iff axis l oa xa xas ia MA FA NA SA) in IA. fold A in IA. fold n in IA.
  apply (imaged_iff axis l ob xb xbs ib MB FB NB SB) in IB. fold B in IB. fold n1 in IB.
  assert (AF : after (xa :: xas ++ xj :: xbs) n l = after (xb :: xbs) n1 l).
  { change (xa :: xas ++ xj :: xbs) with ((xa :: xas) ++ xj :: xbs). rewrite after_app, AB. change (after xbs (index_after xj n1 l) l = after xbs (index_after xb n1 l) l). rewrite IJ. reflexivity. }
  change (oa :: xa :: (xas ++ xj :: xbs) ++ [ib]) with es. rewrite NE, AF.
  rewrite block_mm by (auto using decoupled_mm). rewrite block_mm by auto. rewrite BJ. rewrite EB, block_mm, BB in IB by auto. rewrite AB in IA.
  destruct (block axis mr) as [[[ar br] cr] dr]. destruct (block axis MA) as [[[a b] c] d]. cbv zeta in *.
  set (p := surface_power l n1 xb) in *. set (tj := p_distance (e_place xj)) in *. set (tb := p_distance (e_place xb)) in *. set (ta := p_distance (e_place xa)) in *.
  set (S' := w' / after (xb :: xbs) n1 l) in *. clearbody S' p. destruct IA as (A1 & A2). destruct IB as (B1 & B2). rewrite ZW in A1, A2.
  assert (NZ : n1 <> 0) by lra.
  assert (C1 : br + S' * dr = m2 * (w / n1)).
  { rewrite <- B1 in B2 |- *. assert (X : br + S' * dr = (ar * 1 + br * - p + S' * (cr * 1 + dr * - p)) * ((tb + w) / n1) - (ar * 1 + br * - p + S' * (cr * 1 + dr * - p)) * (tb / n1)) by (rewrite <- B2; ring).
    rewrite X. unfold Rdiv. ring. }
  split.
  - transitivity ((ar * 1 + br * - p + S' * (cr * 1 + dr * - p)) * (a + tj / n1 * c) + (br + S' * dr) * c); [ring|]. rewrite B1, C1. rewrite <- A1. unfold Rdiv. ring.
  - transitivity ((ar * 1 + br * - p + S' * (cr * 1 + dr * - p)) * (b + tj / n1 * d) + (br + S' * dr) * d); [ring|]. rewrite B1, C1. transitivity (m2 * (b + (tj + w) / n1 * d)); [unfold Rdiv; ring|]. rewrite A2. ring.
Qed.

(** ** Example: two biconvex water lenses of focal length 72/11, each imaging at the magnification -1: the relay images
    upright in the size of the object *)
Example C118_example : exists p0 p3 p9 p18 pj, let A := lens3 p0 p3 p9 p18 in
  Forall (lens_surface 1) A /\ refractive_index A 1 0 = 1 /\ p_angles pj = v0 /\ p_distance pj = 261 / 11 /\
  imaged_onto true 1 A (-135/11) (126/11) (-1) /\
  imaged_onto true 1 (doublet p0 p3 pj p9 p18) (-135/11) (126/11) 1.
Proof.
  destruct (centred_axis 0) as (p0 & _ & _ & D0 & _ & A0); [lra|]. destruct (centred_axis 3) as (p3 & _ & _ & D3 & _ & A3); [lra|].
  destruct (centred_axis 9) as (p9 & _ & _ & D9 & _ & A9); [lra|]. destruct (centred_axis 18) as (p18 & _ & _ & D18 & _ & A18); [lra|].
  destruct (centred_axis (261/11)) as (pj & _ & _ & DJ & _ & AJ); [lra|].
  assert (V : forall m', Some vac = Some m' -> m_mirror m' = false /\ 0 < m_index m' 1) by (intros m' E; injection E as <-; cbn; split; [reflexivity|lra]).
  assert (W : forall m', Some water = Some m' -> m_mirror m' = false /\ 0 < m_index m' 1) by (intros m' E; injection E as <-; cbn; split; [reflexivity|lra]).
  assert (FA : Forall (lens_surface 1) (lens3 p0 p3 p9 p18)).
  { unfold lens3, flat. repeat apply Forall_cons; [..|apply Forall_nil]; apply plain_lens; auto; discriminate. }
  assert (P1 : 0 < refractive_index (lens3 p0 p3 p9 p18) 1 0) by (change (0 < 1); lra).
  exists p0, p3, p9, p18, pj. cbv zeta. split; [exact FA|]. split; [reflexivity|]. split; [exact AJ|]. split; [exact DJ|].
  assert (IM : imaged_onto true 1 (lens3 p0 p3 p9 p18) (-135/11) (126/11) (-1)).
  { assert (FX : Forall (lens_surface 1) (tl (removelast (lens3 p0 p3 p9 p18)))).
    { cbn. inversion FA as [|? ? _ Q]; subst. inversion Q as [|? ? Q1 Q2]; subst. inversion Q2; subst. apply Forall_cons; [assumption|apply Forall_cons; [assumption|apply Forall_nil]]. }
    destruct (seq_block true 1 _ FX 1 Rlt_0_1) as (M & SM & _ & BM).
    apply (imaged_iff true 1 _ _ [_] _ M FA P1 SM). rewrite BM. cbn. rewrite D3, D9. split; field. }
  split; [exact IM|]. replace 1 with (-1 * -1) at 2 by ring.
  apply (C118_relay true 1 _ _ [_] _ _ _ [_] _ (El pj (Some 4) (Sph (Some water) (Surf (1/3) 0 None false))) (-135/11) (126/11) (-1) (-135/11) (126/11) (-1) FA FA P1 eq_refl eq_refl AJ IM IM).
  cbn. rewrite DJ. field.
Qed.

(** ** C116: the reported focal lengths are what two magnifications measure: the object plane moves by the second
    reported value times the change of the inverse magnification, the image plane by the first times the change of the
    magnification, in any media *)
Theorem C116_measured axis l e0 x xs img y u rs f0 f1 z1 z1' m1 z2 z2' m2 : let es := e0 :: x :: xs ++ [img] in
  Forall (lens_surface l) es -> 0 < refractive_index es l 0 ->
  ptrace axis l es y u (refractive_index es l 0) = Some rs -> focal_length rs = Some (f0, f1) ->
  imaged_onto axis l es z1 z1' m1 -> imaged_onto axis l es z2 z2' m2 ->
  z2 - z1 = f1 * (1 / m2 - 1 / m1) /\ z2' - z1' = f0 * (m2 - m1).
Proof.
  intros es F N TR FL I1 I2. destruct (reported axis l e0 x xs img y u rs F TR N) as (M & SM & DM & DET & _ & FF). specialize (FF _ _ FL). fold es in SM, FF.
  apply (imaged_iff axis l e0 x xs img M F N SM) in I1. apply (imaged_iff axis l e0 x xs img M F N SM) in I2. fold es in I1, I2.
  assert (FX : Forall (lens_surface l) (x :: xs)) by (inversion F as [|? ? _ F']; subst; inversion F' as [|? ? P Q]; subst; apply Forall_app in Q; constructor; [exact P|apply Q]).
  pose proof (lens_after l _ FX _ N) as NP. set (n := refractive_index es l 0) in *. set (n' := after (x :: xs) n l) in *. set (t := p_distance (e_place x)) in *.
  destruct (block axis M) as [[[a b] c] d]. destruct FF as (C & _ & -> & ->). cbv zeta in I1, I2. destruct I1 as (A1 & B1). destruct I2 as (A2 & B2).
  assert (D1 : m1 * (d - (t + z1) / n * c) = 1) by (transitivity ((a + z1' / n' * c) * d - (b + z1' / n' * d) * c); [rewrite A1, B1; ring|rewrite <- DET; ring]).
  assert (D2 : m2 * (d - (t + z2) / n * c) = 1) by (transitivity ((a + z2' / n' * c) * d - (b + z2' / n' * d) * c); [rewrite A2, B2; ring|rewrite <- DET; ring]).
  assert (M1 : m1 <> 0) by (intros Z; rewrite Z in D1; lra). assert (M2 : m2 <> 0) by (intros Z; rewrite Z in D2; lra).
  assert (E1 : 1 / m1 = d - (t + z1) / n * c) by (apply (Rmult_eq_reg_l m1); [rewrite D1; field; exact M1|exact M1]).
  assert (E2 : 1 / m2 = d - (t + z2) / n * c) by (apply (Rmult_eq_reg_l m2); [rewrite D2; field; exact M2|exact M2]).
  split.
  - rewrite E1, E2. field. split; first [exact C|lra].
  - rewrite <- A1, <- A2. field. split; first [exact C|lra].
Qed.
(** the water lens: moving the object by one focal length 72/11 changes the magnification from -1 to -1/2 *)
Example C116_measured_example : exists p0 p3 p9 p18 rs f0, let es := lens3 p0 p3 p9 p18 in
  Forall (lens_surface 1) es /\ ptrace true 1 es (1, 1) (0, 1/9) 1 = Some rs /\ focal_length rs = Some (f0, 72/11) /\
  imaged_onto true 1 es (-135/11) (126/11) (-1) /\ imaged_onto true 1 es (-207/11) (90/11) (-1/2).
Proof.
  destruct (centred_axis 0) as (p0 & _ & _ & D0 & _ & A0); [lra|]. destruct (centred_axis 3) as (p3 & _ & _ & D3 & _ & A3); [lra|].
  destruct (centred_axis 9) as (p9 & _ & _ & D9 & _ & A9); [lra|]. destruct (centred_axis 18) as (p18 & _ & _ & D18 & _ & A18); [lra|].
  assert (V : forall m', Some vac = Some m' -> m_mirror m' = false /\ 0 < m_index m' 1) by (intros m' E; injection E as <-; cbn; split; [reflexivity|lra]).
  assert (W : forall m', Some water = Some m' -> m_mirror m' = false /\ 0 < m_index m' 1) by (intros m' E; injection E as <-; cbn; split; [reflexivity|lra]).
  assert (FA : Forall (lens_surface 1) (lens3 p0 p3 p9 p18)).
  { unfold lens3, flat. repeat apply Forall_cons; [..|apply Forall_nil]; apply plain_lens; auto; discriminate. }
  assert (P1 : 0 < refractive_index (lens3 p0 p3 p9 p18) 1 0) by (change (0 < 1); lra).
  assert (FX : Forall (lens_surface 1) (tl (removelast (lens3 p0 p3 p9 p18)))).
  { cbn. inversion FA as [|? ? _ Q]; subst. inversion Q as [|? ? Q1 Q2]; subst. inversion Q2; subst. apply Forall_cons; [assumption|apply Forall_cons; [assumption|apply Forall_nil]]. }
  destruct (seq_block true 1 _ FX 1 Rlt_0_1) as (M & SM & _ & BM).
  assert (IM : imaged_onto true 1 (lens3 p0 p3 p9 p18) (-135/11) (126/11) (-1)) by (apply (imaged_iff true 1 _ _ [_] _ M FA P1 SM); rewrite BM; cbn; rewrite D3, D9; split; field).
  assert (IM2 : imaged_onto true 1 (lens3 p0 p3 p9 p18) (-207/11) (90/11) (-1/2)) by (apply (imaged_iff true 1 _ _ [_] _ M FA P1 SM); rewrite BM; cbn; rewrite D3, D9; split; field).
  destruct (available true 1 _ _ [_] _ (1, 1) (0, 1/9) FA eq_refl eq_refl) as (rs & f0 & f1 & fd0 & fd1 & pd0 & pd1 & TR & FL & _).
  { cbn. lra. } { cbn. rewrite ?D3, ?D9. intros Z. field_simplify in Z. lra. }
  destruct (C116_measured true 1 _ _ [_] _ (1, 1) (0, 1/9) rs f0 f1 _ _ _ _ _ _ FA P1 TR FL IM IM2) as (E & _).
  assert (EF : f1 = 72 / 11) by lra.
  exists p0, p3, p9, p18, rs, f0. cbv zeta. split; [exact FA|]. split; [exact TR|]. split; [rewrite FL, EF; reflexivity|]. split; [exact IM|exact IM2].
Qed.
