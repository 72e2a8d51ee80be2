(** Property C114: two lens groups with a common focal point make a telescope. *)
From Coq Require Import Reals List Lra Lia Psatz.
From Verif Require Import Base Vec RotModel RotProofs PlacementModel PlacementProofs ElementModel PropsRescale
  ParaxialModel ParaxialProofs PropsParaxial LimitProofs PropsLimit ReverseModel PropsReverse PropsInverse
  PupilModel PropsPupil ParaxTraceModel PropsConjugates PropsSolve PropsCardinal PropsDesign.
Import ListNotations.
Open Scope R_scope.

(** ** Auxiliary: the block of two groups in terms of the figures that each group reports alone *)
Lemma joined axis l oa xa xas ia ya ua rsa fa0 fa pda0 pda1 ob xb xbs ib yb ub rsb fb0 fb pdb0 pdb1 xj :
  let A := oa :: xa :: xas ++ [ia] in let B := ob :: xb :: xbs ++ [ib] in let es := oa :: xa :: (xas ++ xj :: xbs) ++ [ib] in
  Forall (lens_surface l) A -> Forall (lens_surface l) B ->
  refractive_index A l 0 = 1 -> refractive_index B l 0 = 1 -> after (xa :: xas) 1 l = 1 -> after (xb :: xbs) 1 l = 1 ->
  e_kind xj = e_kind xb -> p_angles (e_place xj) = v0 ->
  ptrace axis l A ya ua 1 = Some rsa -> focal_length rsa = Some (fa0, fa) -> principal_distance rsa = Some (pda0, pda1) ->
  ptrace axis l B yb ub 1 = Some rsb -> focal_length rsb = Some (fb0, fb) -> principal_distance rsb = Some (pdb0, pdb1) ->
  let gap := p_distance (e_place xj) - pda1 + pdb0 - fa - fb in
  Forall (lens_surface l) es /\ refractive_index es l 0 = 1 /\ fa <> 0 /\ fb <> 0 /\
  exists M, seq_matrix (xa :: xas ++ xj :: xbs) 1 l = Some M /\
    let '(a, b, c, d) := block axis M in c = gap / (fa * fb) /\
    (gap = 0 -> a = - (fb / fa) /\ d = - (fa / fb) /\ b + (pdb1 + fb) * d = - (fb / fa) * (pda0 - fa + p_distance (e_place xa))).
Proof.
  intros A B es FA FB NA NB AA AB KJ PJ TA LA DA TB LB DB gap.
  unfold principal_distance in DA, DB. rewrite LA in DA. rewrite LB in DB.
  destruct (focal_distance rsa) as [[fda0 fda1]|] eqn:FDA; [|discriminate]. destruct (focal_distance rsb) as [[fdb0 fdb1]|] eqn:FDB; [|discriminate].
  cbn [obind fst snd] in DA, DB. injection DA as <- <-. injection DB as <- <-.
  destruct (cardinals axis l oa xa xas ia ya ua rsa fa0 fa fda0 fda1 FA NA AA TA LA FDA) as (MA & SA & DA & CA).
  destruct (cardinals axis l ob xb xbs ib yb ub rsb fb0 fb fdb0 fdb1 FB NB AB TB LB FDB) as (MB & SB & DB & CB).
  assert (FXA : lens_surface l oa /\ Forall (lens_surface l) (xa :: xas)).
  { inversion FA as [|? ? O FA']; subst. inversion FA' as [|? ? P Q]; subst. apply Forall_app in Q. split; [exact O|]. constructor; [exact P|apply Q]. }
  assert (FXB : lens_surface l xb /\ Forall (lens_surface l) xbs /\ Forall (lens_surface l) [ib]).
  { inversion FB as [|? ? O FB']; subst. inversion FB' as [|? ? P Q]; subst. apply Forall_app in Q. tauto. }
  destruct FXA as (FO & FXA). destruct FXB as (FXB & FXS & FI).
  assert (FJ : lens_surface l xj) by (destruct FXB as (_ & Q); split; [exact PJ|rewrite KJ; exact Q]).
  assert (FE : Forall (lens_surface l) es).
  { inversion FXA as [|? ? P Q]; subst. unfold es. constructor; [exact FO|]. constructor; [exact P|]. apply Forall_app. split; [|exact FI]. apply Forall_app. split; [exact Q|]. constructor; auto. }
  assert (NE : refractive_index es l 0 = 1) by (rewrite <- NA; reflexivity).
  split; [exact FE|]. split; [exact NE|].
  assert (FJS : Forall (lens_surface l) (xj :: xbs)) by (constructor; auto).
  destruct (seq_some axis l (xj :: xbs) FJS 1 Rlt_0_1) as (MJ & SJ & _).
  destruct (seq_cons axis l xj xbs 1 MJ FJ Rlt_0_1 FXS SJ) as (mj & mr & _ & DJ & BJ & SR & DR & EJ).
  destruct (seq_cons axis l xb xbs 1 MB FXB Rlt_0_1 FXS SB) as (mb & mr' & _ & DB' & BB & SR' & _ & EB).
  assert (IJ : index_after xj 1 l = index_after xb 1 l) by (unfold index_after; rewrite KJ; reflexivity).
  assert (PW : surface_power l 1 xj = surface_power l 1 xb) by (unfold surface_power; rewrite KJ; reflexivity).
  rewrite IJ in SR. rewrite SR in SR'. injection SR' as <-. cbv zeta in BJ, BB. rewrite PW, over_1 in BJ. rewrite over_1 in BB. subst MJ MB.
  rewrite block_mm, BB in CB by auto.
  assert (BM : block axis (mm4 (mm4 mr mj) MA) = let '(a, b, c, d) := block axis MA in let '(ar, br, cr, dr) := block axis mr in
    let p := surface_power l 1 xb in let t := p_distance (e_place xj) in let a1 := ar - br * p in let c1 := cr - dr * p in
    (a1 * a + (a1 * t + br) * c, a1 * b + (a1 * t + br) * d, c1 * a + (c1 * t + dr) * c, c1 * b + (c1 * t + dr) * d)).
  { rewrite block_mm by (auto using decoupled_mm). rewrite block_mm by auto. rewrite BJ. destruct (block axis mr) as [[[ar br] cr] dr]. destruct (block axis MA) as [[[a b] c] d].
    cbv zeta. apply quad_eq; ring. }
  destruct (block axis mr) as [[[ar br] cr] dr]. destruct (block axis MA) as [[[a b] c] d]. cbv zeta in BM.
  set (p := surface_power l 1 xb) in *. set (tj := p_distance (e_place xj)) in *. set (tb := p_distance (e_place xb)) in *. set (ta := p_distance (e_place xa)) in *.
  destruct CA as (DTA & CA & EA0 & EA & EA1 & EA2). destruct CB as (DTB & CB & EB0 & EB & EB1 & EB2).
  set (a1 := ar - br * p) in *. set (c1 := cr - dr * p) in *.
  replace (cr * 1 + dr * - p) with c1 in * by (unfold c1; ring). replace (ar * 1 + br * - p) with a1 in * by (unfold a1; ring).
  replace (cr * tb + dr * (1 - p * tb)) with (c1 * tb + dr) in * by (unfold c1; ring). replace (ar * tb + br * (1 - p * tb)) with (a1 * tb + br) in * by (unfold a1; ring).
  assert (D1 : a1 * dr - br * c1 = 1) by lra.
  replace ((c1 * tb + dr - c1 * tb) / c1) with (dr / c1) in EB2 by (f_equal; ring).
  assert (NFA : fa <> 0). { intros Z. rewrite Z in EA. assert (H : c * (- 1 / c) = 0) by (rewrite <- EA; ring). replace (c * (- 1 / c)) with (- 1) in H by (field; exact CA). lra. }
  assert (NFB : fb <> 0). { intros Z. rewrite Z in EB. assert (H : c1 * (- 1 / c1) = 0) by (rewrite <- EB; ring). replace (c1 * (- 1 / c1)) with (- 1) in H by (field; exact CB). lra. }
  split; [exact NFA|]. split; [exact NFB|].
  exists (mm4 (mm4 mr mj) MA). split.
  { change (xa :: xas ++ xj :: xbs) with ((xa :: xas) ++ xj :: xbs). rewrite seq_app, SA, AA. cbn [obind]. rewrite SJ. reflexivity. }
  rewrite BM. clear BM BJ BB.
  assert (G : gap = tj + a / c + dr / c1) by (unfold gap; rewrite EA1, EB2, EB0, EB; field; split; auto).
  clearbody a1 c1 gap. clear - DTA CA EA EA0 EA1 EA2 CB EB EB1 D1 G.
  assert (CG : c1 * a + (c1 * tj + dr) * c = gap * (c * c1)) by (rewrite G; field; auto).
  split; [rewrite CG, EA, EB; field; auto|].
  intros Z. rewrite Z in CG. assert (TJ : tj = - a / c - dr / c1) by (replace (- a / c) with (- (a / c)) by (field; exact CA); lra).
  rewrite EA, EB, EA0, EA2, EB1, TJ. clear - DTA D1 CA CB.
  split; [|split].
  - transitivity (- (a1 * dr - br * c1) * c / c1); [field; auto|]. rewrite D1. field. auto.
  - transitivity (- (a * d - b * c) * c1 / c); [field; auto|]. rewrite DTA. field. auto.
  - transitivity (- (a1 * dr - br * c1) * d / c1); [field; auto|]. rewrite D1. field. auto.
Qed.

(** ** C114: [A] and [B] are lens groups in air that were traced alone; in [es] the surfaces of [B] follow those of
    [A], [xj] being the first of them.  If the principal planes facing each other are [fa + fb] apart, every ray
    leaves with its slope multiplied by [-fa/fb], whatever its height; the plane at [z] behind the front focal point
    of [A] is imaged onto the plane at [(fb/fa)^2 z] behind the rear focal point of [B], at the magnification
    [-fb/fa] for all [z]. *)
Theorem C114_telescope axis l oa xa xas ia ya ua rsa fa0 fa pda0 pda1 ob xb xbs ib yb ub rsb fb0 fb pdb0 pdb1 xj y u rs r1 r2 z :
  let A := oa :: xa :: xas ++ [ia] in let B := ob :: xb :: xbs ++ [ib] in let es := oa :: xa :: (xas ++ xj :: xbs) ++ [ib] in
  Forall (lens_surface l) A -> Forall (lens_surface l) B ->
  refractive_index A l 0 = 1 -> refractive_index B l 0 = 1 -> after (xa :: xas) 1 l = 1 -> after (xb :: xbs) 1 l = 1 ->
  e_kind xj = e_kind xb -> p_angles (e_place xj) = v0 ->
  ptrace axis l A ya ua 1 = Some rsa -> focal_length rsa = Some (fa0, fa) -> principal_distance rsa = Some (pda0, pda1) ->
  ptrace axis l B yb ub 1 = Some rsb -> focal_length rsb = Some (fb0, fb) -> principal_distance rsb = Some (pdb0, pdb1) ->
  p_distance (e_place xj) - pda1 + pdb0 = fa + fb ->
  ptrace axis l es y u 1 = Some rs -> nth_error rs 1 = Some r1 -> back rs 2 = Some r2 ->
  fst (ru r2) = - (fa / fb) * fst u /\
  fst (ry r2) + (pdb1 + fb + (fb / fa) ^ 2 * z) * fst (ru r2) = - (fb / fa) * (fst (ry r1) + (pda0 - fa + z) * fst u).
Proof.
  intros A B es FA FB NA NB AA AB KJ PJ TA LA DA TB LB DB SEP TR R1 R2.
  destruct (joined axis l oa xa xas ia ya ua rsa fa0 fa pda0 pda1 ob xb xbs ib yb ub rsb fb0 fb pdb0 pdb1 xj FA FB NA NB AA AB KJ PJ TA LA DA TB LB DB) as (FE & NE & ZA & ZB & M & SM & BM).
  pose proof (ray_rows axis l oa xa (xas ++ xj :: xbs) ib y u rs r1 r2 M FE NE TR R1 R2 SM) as RR.
  destruct (block axis M) as [[[a b] c] d]. destruct BM as (EC & BM). destruct RR as (E1 & E2 & E3).
  destruct BM as (EA & ED & EB); [lra|]. assert (C0 : c = 0). { rewrite EC. replace (p_distance (e_place xj) - pda1 + pdb0 - fa - fb) with 0 by lra. unfold Rdiv. ring. }
  rewrite C0 in E3. assert (E4 : fst (ru r2) = - (fa / fb) * fst u) by (rewrite E3, ED; ring). split; [exact E4|].
  set (v := fst u) in *. set (w := fst y) in *.
  transitivity (a * w + (b + (pdb1 + fb) * d) * v - (fb / fa) ^ 2 * z * (fa / fb) * v).
  - rewrite E2, E4, ED. ring.
  - rewrite EB, EA, E1. field. auto.
Qed.

(** the code reports no focal length exactly for this separation *)
Theorem C114_no_focus axis l oa xa xas ia ya ua rsa fa0 fa pda0 pda1 ob xb xbs ib yb ub rsb fb0 fb pdb0 pdb1 xj y u rs :
  let A := oa :: xa :: xas ++ [ia] in let B := ob :: xb :: xbs ++ [ib] in let es := oa :: xa :: (xas ++ xj :: xbs) ++ [ib] in
  Forall (lens_surface l) A -> Forall (lens_surface l) B ->
  refractive_index A l 0 = 1 -> refractive_index B l 0 = 1 -> after (xa :: xas) 1 l = 1 -> after (xb :: xbs) 1 l = 1 ->
  e_kind xj = e_kind xb -> p_angles (e_place xj) = v0 ->
  ptrace axis l A ya ua 1 = Some rsa -> focal_length rsa = Some (fa0, fa) -> principal_distance rsa = Some (pda0, pda1) ->
  ptrace axis l B yb ub 1 = Some rsb -> focal_length rsb = Some (fb0, fb) -> principal_distance rsb = Some (pdb0, pdb1) ->
  ptrace axis l es y u 1 = Some rs -> fst u * snd y - snd u * fst y <> 0 ->
  focal_length rs = None <-> p_distance (e_place xj) - pda1 + pdb0 = fa + fb.
Proof.
  intros A B es FA FB NA NB AA AB KJ PJ TA LA DA TB LB DB TR LZ.
  destruct (joined axis l oa xa xas ia ya ua rsa fa0 fa pda0 pda1 ob xb xbs ib yb ub rsb fb0 fb pdb0 pdb1 xj FA FB NA NB AA AB KJ PJ TA LA DA TB LB DB) as (FE & NE & ZA & ZB & M & SM & BM).
  fold es in FE, NE. pose proof (lens_uprights _ _ FE) as U.
  assert (L : (3 <= length es)%nat) by (unfold es; cbn; rewrite !app_length; cbn; lia).
  assert (TR0 := TR). rewrite <- NE in TR0.
  destruct (back2 axis l es U L y u rs TR0) as (M0 & q2 & Q2 & SM0 & _ & RI0 & _ & _).
  assert (MM : M0 = M).
  { unfold es in SM0. change (oa :: xa :: (xas ++ xj :: xbs) ++ [ib]) with (oa :: (xa :: xas ++ xj :: xbs) ++ [ib]) in SM0. rewrite seq_sys in SM0 by (cbn; lia).
    change (oa :: (xa :: xas ++ xj :: xbs) ++ [ib]) with es in SM0. rewrite NE in SM0. congruence. }
  subst M0. unfold row_is in RI0. destruct (block axis M) as [[[a b] c] d]. destruct RI0 as [_ RU]. destruct BM as (EC & _).
  unfold focal_length, lagrange. rewrite (ptrace_0 _ _ _ _ _ _ _ TR), Q2. cbn [obind ry ru rn]. rewrite RU. cbn [fst snd].
  replace (snd u * (c * fst y + d * fst u) - fst u * (c * snd y + d * snd u)) with (- c * (fst u * snd y - snd u * fst y)) by ring.
  split.
  - intros N. destruct (Req_dec c 0) as [C|C].
    + rewrite C in EC. assert (H : 0 * (fa * fb) = p_distance (e_place xj) - pda1 + pdb0 - fa - fb) by (rewrite EC; field; auto). lra.
    + rewrite fdiv_some in N; [discriminate|]. apply Rmult_integral_contrapositive_currified; [lra|exact LZ].
  - intros SEP. replace (- c * (fst u * snd y - snd u * fst y)) with 0; [rewrite fdiv_zero; reflexivity|].
    rewrite EC. replace (p_distance (e_place xj) - pda1 + pdb0 - fa - fb) with 0 by lra. field. auto.
Qed.

(** ** Example: two biconvex water lenses of focal length 72/11 with a common focal point: slopes are reversed, the image
    is inverted and of the size of the object, no focal length is reported *)
Example C114_example : exists p0 p3 pj p9 p18 rs f0 f1 pd0 pd1 rs' r1 r2, let A := lens3 p0 p3 p9 p18 in let es := doublet p0 p3 pj p9 p18 in
  Forall (lens_surface 1) A /\ ptrace true 1 A (1, 1) (0, 1/9) 1 = Some rs /\ focal_length rs = Some (f0, f1) /\ principal_distance rs = Some (pd0, pd1) /\
  f1 = 72 / 11 /\ p_distance pj - pd1 + pd0 = f1 + f1 /\
  ptrace true 1 es (1, 1) (0, 1/9) 1 = Some rs' /\ nth_error rs' 1 = Some r1 /\ back rs' 2 = Some r2 /\ focal_length rs' = None /\
  fst (ru r2) = 0 /\ fst (ry r2) = - fst (ry r1).
Proof.
  destruct (centred_axis 0) as (p0 & _ & _ & D0 & _ & A0); [lra|]. destruct (centred_axis 3) as (p3 & _ & _ & D3 & _ & A3); [lra|].
  destruct (centred_axis (117/11)) as (pj & _ & _ & DJ & _ & AJ); [lra|]. destruct (centred_axis 9) as (p9 & _ & _ & D9 & _ & A9); [lra|].
  destruct (centred_axis 18) as (p18 & _ & _ & D18 & _ & A18); [lra|].
  assert (V : forall m', Some vac = Some m' -> m_mirror m' = false /\ 0 < m_index m' 1) by (intros m' E; injection E as <-; cbn; split; [reflexivity|lra]).
  assert (W : forall m', Some water = Some m' -> m_mirror m' = false /\ 0 < m_index m' 1) by (intros m' E; injection E as <-; cbn; split; [reflexivity|lra]).
  assert (FA : Forall (lens_surface 1) (lens3 p0 p3 p9 p18)).
  { unfold lens3, flat. repeat apply Forall_cons; [..|apply Forall_nil]; apply plain_lens; auto; discriminate. }
  assert (FE : Forall (lens_surface 1) (doublet p0 p3 pj p9 p18)).
  { unfold doublet, flat. repeat apply Forall_cons; [..|apply Forall_nil]; apply plain_lens; auto; discriminate. }
  destruct (available true 1 _ _ [_] _ (1, 1) (0, 1/9) FA eq_refl eq_refl) as (rs & f0 & f1 & fd0 & fd1 & pd0 & pd1 & TR & FL & FD & PD).
  { cbn. lra. } { cbn. rewrite ?D3, ?D9. intros Z. field_simplify in Z. lra. }
  destruct (C86_lens true 1 _ _ _ _ (1, 1) (0, 1/9) rs f0 f1 fd0 fd1 pd0 pd1 water (Surf (1/3) 0 None false) vac (Surf (-1/6) 0 None false) FA eq_refl eq_refl eq_refl eq_refl TR FL FD PD) as (E & _ & E1 & _ & E2 & E3).
  cbn in E, E1, E2, E3. rewrite D3 in E, E1, E2, E3.
  assert (NF : f1 <> 0) by (intros Z; rewrite Z in E; unfold Rdiv at 1 in E; rewrite Rinv_0 in E; lra).
  assert (EF : f1 = 72 / 11) by (replace f1 with (1 / (1 / f1)) by (field; exact NF); rewrite E; field).
  assert (SEP : p_distance pj - pd1 + pd0 = f1 + f1) by (rewrite DJ, E2, E3, EF; field).
  assert (FT : Forall (lens_surface 1) (tl (doublet p0 p3 pj p9 p18))) by (inversion FE; auto).
  destruct (proj1 (ptrace_some true 1 (El p0 None (Sph (Some vac) flat)) _ (1, 1) (0, 1/9) 1) (lens_traceable 1 _ FT 1 Rlt_0_1)) as (rs' & TR').
  assert (LR := ptrace_length _ _ _ _ _ _ _ TR').
  assert (R1 : exists r1, nth_error rs' 1 = Some r1) by (destruct (nth_error rs' 1) eqn:X; [eauto|apply nth_error_None in X; cbn in LR; lia]). destruct R1 as (r1 & R1).
  assert (R2 : exists r2, back rs' 2 = Some r2) by (unfold back; destruct rs' as [|? [|? [|? [|? [|? [|? [|]]]]]]]; try discriminate LR; cbn; eauto). destruct R2 as (r2 & R2).
  exists p0, p3, pj, p9, p18, rs, f0, f1, pd0, pd1, rs', r1, r2. cbv zeta. split; [exact FA|]. split; [exact TR|]. split; [exact FL|]. split; [exact PD|]. split; [exact EF|]. split; [exact SEP|].
  split; [exact TR'|]. split; [exact R1|]. split; [exact R2|].
  set (xj := El pj (Some 4) (Sph (Some water) (Surf (1/3) 0 None false))).
  split.
  - apply (C114_no_focus true 1 _ _ [_] _ (1, 1) (0, 1/9) rs f0 f1 pd0 pd1 _ _ [_] _ (1, 1) (0, 1/9) rs f0 f1 pd0 pd1 xj (1, 1) (0, 1/9) rs' FA FA eq_refl eq_refl eq_refl eq_refl eq_refl AJ TR FL PD TR FL PD TR'); [cbn; lra|exact SEP].
  - destruct (C114_telescope true 1 _ _ [_] _ (1, 1) (0, 1/9) rs f0 f1 pd0 pd1 _ _ [_] _ (1, 1) (0, 1/9) rs f0 f1 pd0 pd1 xj (1, 1) (0, 1/9) rs' r1 r2 0 FA FA eq_refl eq_refl eq_refl eq_refl eq_refl AJ TR FL PD TR FL PD SEP TR' R1 R2) as (S & H).
    cbn [fst] in S, H. assert (S0 : fst (ru r2) = 0) by (rewrite S; ring). split; [exact S0|]. rewrite S0 in H. replace (f1 / f1) with 1 in H by (field; exact NF). lra.
Qed.
