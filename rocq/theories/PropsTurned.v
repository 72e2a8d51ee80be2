(** Property C115: a lens turned round reports the same focal lengths, and the mirror image of its focal points and
    principal planes. *)
From Coq Require Import Reals List Lra Lia Psatz.
From Verif Require Import Base Vec RotModel RotProofs PlacementModel PlacementProofs ElementModel PropsRescale
  ParaxialModel ParaxialProofs PropsParaxial LimitProofs PropsLimit ReverseModel PropsReverse PropsInverse
  PupilModel PropsPupil ParaxTraceModel PropsConjugates PropsSolve PropsCardinal PropsDesign.
Import ListNotations.
Open Scope R_scope.

(** ** Auxiliary *)
Definition seen (l : R) (e : relem) : Prop := untilted e /\ exists m s c, e_kind (fst e) = Sph m s /\ vertex_curvature s = Some c /\
  match m with None => True | Some m => m_mirror m = false /\ 0 < m_index m l end.
Lemma seen_lens l e : seen l e -> lens_surface l (fst e).
Proof.
  intros ((_ & A) & m & s & c & K & V & M). split; [exact A|]. intros mt s' E. rewrite K in E. injection E as <- <-. split.
  - intros Z. unfold vertex_curvature in V. rewrite Z in V. discriminate.
  - intros m' ->. exact M.
Qed.
Lemma seen_good l e : seen l e -> good_prev l (material_of e).
Proof. intros (_ & m & s & c & K & _ & M). unfold good_prev, material_of. rewrite K. exact M. Qed.
Lemma seen_rgen l es : forall mp, Forall (seen l) es -> good_prev l mp -> Forall (seen l) (rgen mp es).
Proof.
  induction es as [|e es IH]; intros mp F G; [constructor|]. inversion F as [|? ? E F']; subst. cbn [rgen]. apply Forall_app. split.
  - apply IH; [exact F'|apply seen_good; exact E].
  - constructor; [|constructor]. destruct E as (U & m & s & c & K & V & M). split.
    + apply untilted_revd; [exact U|]. destruct es as [|f es]; [lra|]. inversion F' as [|? ? X _]; subst. apply dist_nonneg, X.
    + exists mp, (reverse_surf s), (- c). split; [eapply kind_revd; eauto|]. split; [apply vertex_reverse; exact V|exact G].
Qed.
Lemma rgen_front ys z img : forall mp, exists m ws, rgen mp (ys ++ [z; img]) = revd img 0 (material_of z) :: revd z (dist img) m :: ws.
Proof.
  induction ys as [|y ys IH]; intros mp.
  - cbn. eauto.
  - destruct (IH (material_of y)) as (m & ws & E). cbn [app rgen]. rewrite E. cbn [app]. eauto.
Qed.
Lemma sys_seq e es l : es <> [] -> snd (sys_matrix (e :: es) l 1 None) = seq_matrix es (index_after e 1 l) l.
Proof.
  intros N. rewrite sys_matrix_mfold. unfold paraxial_matrices, slice. rewrite refractive_index_after. cbn [skipn firstn].
  change (after [e] 1 l) with (index_after e 1 l). unfold seq_matrix. destruct es as [|x xs]; [congruence|].
  cbn [matrices]. destruct (paraxial_matrix x _ l) as [n1 m1]. reflexivity.
Qed.
Lemma block_J axis : block axis Jm = (1, 0, 0, -1).
Proof. unfold block, Jm. destruct axis; reflexivity. Qed.
Lemma J_decoupled : decoupled Jm.
Proof. unfold decoupled, Jm. cbn. repeat split; reflexivity. Qed.
Lemma block_eye axis : block axis eye4 = (1, 0, 0, 1).
Proof. unfold block. destruct axis; reflexivity. Qed.
Lemma flipped axis m m1 : decoupled m -> decoupled m1 -> (let '(a, b, c, d) := block axis m in a * d - b * c = 1) ->
  mm4 m1 (mm4 Jm (mm4 m Jm)) = eye4 -> let '(a, b, c, d) := block axis m in block axis m1 = (d, b, c, a).
Proof.
  intros D D1 DET E. apply (f_equal (block axis)) in E. rewrite block_eye in E. pose proof J_decoupled as DJ.
  rewrite !block_mm in E by (auto using decoupled_mm). rewrite block_J in E.
  destruct (block axis m) as [[[a b] c] d]. destruct (block axis m1) as [[[a1 b1] c1] d1]. injection E as E1 E2 E3 E4.
  assert (F1 : a1 * a - b1 * c = 1) by lra. assert (F2 : b1 * d = a1 * b) by lra. assert (F3 : c1 * a = d1 * c) by lra. assert (F4 : d1 * d - c1 * b = 1) by lra.
  clear E1 E2 E3 E4. apply quad_eq.
  - transitivity (a1 * (a * d - b * c)); [rewrite DET; ring|]. transitivity (d * (a1 * a - b1 * c) + c * (b1 * d - a1 * b)); [ring|]. rewrite F1, F2. ring.
  - transitivity (b1 * (a * d - b * c)); [rewrite DET; ring|]. transitivity (a * (b1 * d - a1 * b) + b * (a1 * a - b1 * c)); [ring|]. rewrite F1, F2. ring.
  - transitivity (c1 * (a * d - b * c)); [rewrite DET; ring|]. transitivity (c * (d1 * d - c1 * b) + d * (c1 * a - d1 * c)); [ring|]. rewrite F3, F4. ring.
  - transitivity (d1 * (a * d - b * c)); [rewrite DET; ring|]. transitivity (a * (d1 * d - c1 * b) + b * (c1 * a - d1 * c)); [ring|]. rewrite F3, F4. ring.
Qed.
(** the whole block from that of the surfaces: a last element without power only adds its distance *)
Lemma with_screen axis l xs img M : Forall (lens_surface l) xs -> lens_surface l img -> after xs 1 l = 1 -> surface_power l 1 img = 0 ->
  seq_matrix xs 1 l = Some M -> decoupled M -> exists W, seq_matrix (xs ++ [img]) 1 l = Some W /\ decoupled W /\
  let '(a, b, c, d) := block axis M in let t := p_distance (e_place img) in block axis W = (a + t * c, b + t * d, c, d).
Proof.
  intros F FI A P S D. destruct (lens_block axis l img 1 FI Rlt_0_1) as (mi & PM & DI & BI). cbv zeta in BI. rewrite P, over_1 in BI.
  exists (mm4 mi M). split; [|split; [apply decoupled_mm; auto|]].
  - rewrite seq_app, S, A. cbn [obind]. unfold seq_matrix. cbn [matrices]. rewrite PM. cbn. rewrite mm4_eye_r. reflexivity.
  - rewrite block_mm by auto. rewrite BI. destruct (block axis M) as [[[a b] c] d]. cbv zeta. apply quad_eq; ring.
Qed.
Lemma optics_end l img xs : Forall (lens l) xs -> screen l img -> optics l (xs ++ [img]).
Proof.
  induction 1 as [|x xs X _ IH]; intros S; [exact S|]. specialize (IH S). cbn [app]. destruct (xs ++ [img]) as [|q qs] eqn:E; [destruct xs; discriminate|].
  change (lens l x /\ optics l (q :: qs)). split; auto.
Qed.

(** ** C115: a lens of any number of refracting surfaces between an object plane [e0] and an image plane [img], in air.
    Turned round by [reverse], it reports the same focal lengths; the distance of the front focal point from the first
    surface is the one of the back focal point from the last surface before, seen from the other side, and the same for
    the principal planes. *)
Theorem C115_turned axis l e0 x xs img y u rs f0 f1 fd0 fd1 pd0 pd1 : let es := e0 :: x :: xs ++ [img] in
  Forall untilted es -> Forall (lens l) (e0 :: x :: xs) -> screen l img ->
  refractive_index (map fst es) l 0 = 1 -> after (map fst (x :: xs)) 1 l = 1 ->
  ptrace axis l (map fst es) y u 1 = Some rs -> focal_length rs = Some (f0, f1) -> focal_distance rs = Some (fd0, fd1) -> principal_distance rs = Some (pd0, pd1) ->
  exists es1, reverse es = Some es1 /\ refractive_index (map fst es1) l 0 = 1 /\
  forall y' u' rs' g0 g1 gd0 gd1 qd0 qd1, ptrace axis l (map fst es1) y' u' 1 = Some rs' ->
    focal_length rs' = Some (g0, g1) -> focal_distance rs' = Some (gd0, gd1) -> principal_distance rs' = Some (qd0, qd1) ->
    g0 = f0 /\ g1 = f1 /\ gd0 = - fd1 /\ gd1 = - fd0 /\ qd0 = - pd1 /\ qd1 = - pd0.
Proof.
  intros es U L SC N0 N1 TR FL FD PD.
  assert (LE : lens l e0 /\ lens l x /\ Forall (lens l) (x :: xs)) by (inversion L as [|? ? A B]; subst; inversion B; subst; auto). destruct LE as (L0 & LX & LS).
  assert (SN : Forall (seen l) es).
  { unfold es in *. change (e0 :: x :: xs ++ [img]) with ((e0 :: x :: xs) ++ [img]) in *. apply Forall_app in U. destruct U as (UA & UB). apply Forall_app. split.
    - clear - L UA. induction L as [|q qs Q _ IH]; [constructor|]. inversion UA; subst. constructor; [|auto]. split; [auto|]. destruct Q as (m & s & c & K & MM & MP & V). exists (Some m), s, c. auto.
    - inversion UB; subst. constructor; [|constructor]. split; [auto|]. destruct SC as (m & s & c & K & V & M). exists m, s, c. split; [exact K|]. split; [exact V|]. destruct m; tauto. }
  assert (ME : map fst es = fst e0 :: fst x :: map fst xs ++ [fst img]) by (unfold es; cbn; rewrite map_app; reflexivity).
  assert (FS : Forall (lens_surface l) (fst e0 :: fst x :: map fst xs ++ [fst img])).
  { rewrite <- ME. apply Forall_map. eapply Forall_impl; [|exact SN]. apply seen_lens. }
  destruct (C22_inverse l e0 (x :: xs ++ [img]) U L0 (optics_end l img (x :: xs) LS SC)) as (es1 & n & n1 & m & m1 & RV & SM & SM1 & INV & _).
  fold es in RV, SM. exists es1. split; [exact RV|].
  assert (PL : placed es) by (eapply Forall_impl; [|exact U]; intros a H; apply H).
  assert (RV' : rgen None es = es1) by (rewrite (reverse_rgen es PL) in RV; congruence). clear RV. rename RV' into RV.
  (* the shape of the reversed system *)
  destruct (exists_last (l := x :: xs)) as (ys & z & YZ); [discriminate|].
  assert (SH : x :: xs ++ [img] = ys ++ [z; img]) by (change (x :: xs ++ [img]) with ((x :: xs) ++ [img]); rewrite YZ, <- app_assoc; reflexivity).
  destruct (rgen_front ys z img (material_of e0)) as (mz & ws & RF). rewrite <- SH in RF.
  set (i' := revd e0 (dist x) None). set (o' := revd img 0 (material_of z)) in *. set (x' := revd z (dist img) mz) in *.
  assert (R1 : es1 = o' :: x' :: ws ++ [i']). { rewrite <- RV. exact (f_equal (fun r => r ++ [i']) RF). }
  assert (SN1 : Forall (seen l) es1) by (rewrite <- RV; apply seen_rgen; [exact SN|exact I]).
  assert (ME1 : map fst es1 = fst o' :: fst x' :: map fst ws ++ [fst i']) by (rewrite R1; cbn; rewrite map_app; reflexivity).
  assert (FS1 : Forall (lens_surface l) (fst o' :: fst x' :: map fst ws ++ [fst i'])).
  { rewrite <- ME1. apply Forall_map. eapply Forall_impl; [|exact SN1]. apply seen_lens. }
  (* the media of the reversed system *)
  assert (LZ : lens l z). { assert (X : Forall (lens l) (ys ++ [z])) by (rewrite <- YZ; exact LS). apply Forall_app in X. destruct X as (_ & X). inversion X; auto. }
  destruct (lens_material l z LZ) as (m_z & sz & cz & MZ & KZ & _ & _ & _).
  destruct (lens_material l e0 L0) as (m_0 & s0 & c0 & M0 & K0 & _ & _ & _).
  assert (IZ : m_index m_z l = 1).
  { rewrite YZ, map_app, after_app in N1. cbn in N1. unfold index_after in N1. rewrite KZ in N1. exact N1. }
  assert (I0 : m_index m_0 l = 1).
  { rewrite refractive_index_after, ME in N0. cbn in N0. unfold index_after in N0. rewrite K0 in N0. exact N0. }
  assert (IO : index_after (fst o') 1 l = 1).
  { destruct SC as (mi & si & ci & KI & _). unfold o'. unfold index_after. rewrite (kind_revd img 0 (material_of z) _ _ KI), MZ. exact IZ. }
  assert (N0' : refractive_index (map fst es1) l 0 = 1) by (rewrite refractive_index_after, ME1; exact IO).
  split; [exact N0'|].
  assert (N1' : after (map fst (x' :: ws)) 1 l = 1).
  { assert (X : after (map fst (o' :: x' :: ws)) 1 l = 1).
    { rewrite <- RF. cbn [rgen]. rewrite map_app, after_app. destruct LX as (mx & sx & cx & KX & _). cbn. unfold index_after.
      rewrite (kind_revd x _ (material_of e0) _ _ KX), M0. exact I0. }
    cbn [map] in X. change (after (fst o' :: fst x' :: map fst ws) 1 l) with (after (fst x' :: map fst ws) (index_after (fst o') 1 l) l) in X. rewrite IO in X. exact X. }
  intros y' u' rs' g0 g1 gd0 gd1 qd0 qd1 TR' GL GD QD.
  rewrite ME in TR, N0. rewrite ME1 in TR', N0'. cbn [map] in N1, N1'.
  destruct (cardinals axis l _ _ _ _ y u rs f0 f1 fd0 fd1 FS N0 N1 TR FL FD) as (M & S & D & CA).
  destruct (cardinals axis l _ _ _ _ y' u' rs' g0 g1 gd0 gd1 FS1 N0' N1' TR' GL GD) as (M' & S' & D' & CA').
  (* the matrices including the last element *)
  assert (IE : index_after (fst e0) 1 l = 1) by (unfold index_after; rewrite K0; exact I0).
  assert (SY : seq_matrix ((fst x :: map fst xs) ++ [fst img]) 1 l = Some m).
  { apply (f_equal snd) in SM. rewrite ME, sys_seq, IE in SM by discriminate. exact SM. }
  assert (SY' : seq_matrix ((fst x' :: map fst ws) ++ [fst i']) 1 l = Some m1).
  { apply (f_equal snd) in SM1. rewrite ME1, sys_seq, IO in SM1 by discriminate. exact SM1. }
  assert (FSP : Forall (lens_surface l) (fst x :: map fst xs) /\ lens_surface l (fst img)).
  { inversion FS as [|? ? _ Q]; subst. change (fst x :: map fst xs ++ [fst img]) with ((fst x :: map fst xs) ++ [fst img]) in Q. apply Forall_app in Q. destruct Q as (Q1 & Q2). inversion Q2; auto. }
  assert (FSP' : Forall (lens_surface l) (fst x' :: map fst ws) /\ lens_surface l (fst i')).
  { inversion FS1 as [|? ? _ Q]; subst. change (fst x' :: map fst ws ++ [fst i']) with ((fst x' :: map fst ws) ++ [fst i']) in Q. apply Forall_app in Q. destruct Q as (Q1 & Q2). inversion Q2; auto. }
  destruct FSP as (FX & FI). destruct FSP' as (FX' & FI').
  assert (PI : surface_power l 1 (fst img) = 0).
  { destruct SC as (mi & si & ci & KI & VI & MI). unfold surface_power. rewrite KI. destruct mi as [mi|]; [|reflexivity]. destruct MI as (_ & _ & CI).
    assert (BE : bend si = ci) by (unfold bend; unfold vertex_curvature in VI; destruct (s_asph si) as [[|]|]; congruence). rewrite BE, CI. ring. }
  assert (PI' : surface_power l 1 (fst i') = 0) by (unfold surface_power, i'; rewrite (kind_revd e0 (dist x) None _ _ K0); reflexivity).
  destruct (with_screen axis l _ (fst img) M FX FI N1 PI S D) as (W & SW & DW & BW).
  destruct (with_screen axis l _ (fst i') M' FX' FI' N1' PI' S' D') as (W' & SW' & DW' & BW').
  assert (EW : W = m) by congruence. assert (EW' : W' = m1) by congruence. subst W W'.
  pose proof (flipped axis m m1 DW DW') as FP.
  assert (TI : p_distance (e_place (fst i')) = dist x) by apply (dist_revd e0 (dist x) None).
  assert (TX : p_distance (e_place (fst x')) = dist img) by apply (dist_revd z (dist img) mz).
  rewrite TX in CA'. rewrite TI in BW'.
  unfold principal_distance in PD, QD. rewrite FL, FD in PD. rewrite GL, GD in QD. cbn [obind fst snd] in PD, QD. injection PD as <- <-. injection QD as <- <-.
  destruct (block axis M) as [[[a b] c] d]. destruct (block axis M') as [[[a' b'] c'] d']. cbv zeta in BW, BW'. rewrite BW, BW' in FP.
  destruct CA as (DET & C & E0 & E1 & E2 & E3). destruct CA' as (_ & C' & E0' & E1' & E2' & E3').
  change (p_distance (e_place (fst x))) with (dist x) in *. change (p_distance (e_place (fst img))) with (dist img) in *.
  assert (FQ := FP ltac:(nra) INV). clear FP. injection FQ as A1 _ A2 A3. subst c'.
  assert (A4 : a' = d - dist x * c) by lra.
  assert (G0 : g0 = f0) by (rewrite E0', E0; reflexivity). assert (G1 : g1 = f1) by (rewrite E1', E1; reflexivity).
  assert (X0 : gd0 = - fd1) by (rewrite E3', A3, E2; field; exact C). assert (X1 : gd1 = - fd0) by (rewrite E2', A4, E3; field; exact C).
  assert (FF : f0 = - f1) by (rewrite E0, E1; field; exact C).
  repeat split; try assumption; rewrite ?X0, ?X1, ?G0, ?G1, FF; ring.
Qed.

(** ** Example: the biconvex water lens (index 4/3, curvatures 1/3 and -1/6, thickness 3), 9 behind the object plane and
    18 in front of the image plane *)
Example C115_example : exists (es es1 : list relem) rs f0 f1 fd0 fd1 pd0 pd1 rs' gd0 gd1 qd0 qd1,
  Forall untilted es /\ reverse es = Some es1 /\ ptrace true 1 (map fst es) (1, 1) (0, 1/9) 1 = Some rs /\ focal_length rs = Some (f0, f1) /\
  focal_distance rs = Some (fd0, fd1) /\ principal_distance rs = Some (pd0, pd1) /\ f1 = 72 / 11 /\ fd1 = 54 / 11 /\ pd1 = - 18 / 11 /\ pd0 = 9 / 11 /\
  ptrace true 1 (map fst es1) (1, 1) (0, 1/9) 1 = Some rs' /\ focal_length rs' = Some (f0, f1) /\
  focal_distance rs' = Some (gd0, gd1) /\ principal_distance rs' = Some (qd0, qd1) /\ gd0 = - 54 / 11 /\ qd0 = 18 / 11 /\ qd1 = - 9 / 11.
Proof.
  destruct (centred_axis 0) as (p0 & _ & U0 & D0 & _ & A0); [lra|]. destruct (centred_axis 3) as (p3 & _ & U3 & D3 & _ & A3); [lra|].
  destruct (centred_axis 9) as (p9 & _ & U9 & D9 & _ & A9); [lra|]. destruct (centred_axis 18) as (p18 & _ & U18 & D18 & _ & A18); [lra|].
  assert (V : forall m', Some vac = Some m' -> m_mirror m' = false /\ 0 < m_index m' 1) by (intros m' E; injection E as <-; cbn; split; [reflexivity|lra]).
  assert (W : forall m', Some water = Some m' -> m_mirror m' = false /\ 0 < m_index m' 1) by (intros m' E; injection E as <-; cbn; split; [reflexivity|lra]).
  assert (FA : Forall (lens_surface 1) (lens3 p0 p3 p9 p18)).
  { unfold lens3, flat. repeat apply Forall_cons; [..|apply Forall_nil]; apply plain_lens; auto; discriminate. }
  destruct (available true 1 _ _ [_] _ (1, 1) (0, 1/9) FA eq_refl eq_refl) as (rs & f0 & f1 & fd0 & fd1 & pd0 & pd1 & TR & FL & FD & PD).
  { cbn. lra. } { cbn. rewrite ?D3, ?D9. intros Z. field_simplify in Z. lra. }
  destruct (C86_lens true 1 _ _ _ _ (1, 1) (0, 1/9) rs f0 f1 fd0 fd1 pd0 pd1 water (Surf (1/3) 0 None false) vac (Surf (-1/6) 0 None false) FA eq_refl eq_refl eq_refl eq_refl TR FL FD PD) as (E & _ & E1 & _ & E2 & E3).
  cbn in E, E1, E2, E3. rewrite D3 in E, E1, E2, E3.
  assert (NF : f1 <> 0) by (intros Z; rewrite Z in E; unfold Rdiv at 1 in E; rewrite Rinv_0 in E; lra).
  assert (EF : f1 = 72 / 11) by (replace f1 with (1 / (1 / f1)) by (field; exact NF); rewrite E; field).
  pose (e0 := (El p0 None (Sph (Some vac) flat), None) : relem). pose (e1 := (El p9 (Some 4) (Sph (Some water) (Surf (1/3) 0 None false)), None) : relem).
  pose (e2 := (El p3 (Some 4) (Sph (Some vac) (Surf (-1/6) 0 None false)), None) : relem). pose (e3 := (El p18 None (Sph None flat), None) : relem).
  pose (es := [e0; e1; e2; e3]).
  assert (UT : Forall untilted es) by (unfold es; repeat apply Forall_cons; [..|apply Forall_nil]; split; auto).
  assert (LN : Forall (lens 1) [e0; e1; e2]).
  { repeat apply Forall_cons; [..|apply Forall_nil].
    - exists vac, flat, 0. cbn. repeat split; lra.
    - exists water, (Surf (1/3) 0 None false), (1/3). cbn. repeat split; lra.
    - exists vac, (Surf (-1/6) 0 None false), (-1/6). cbn. repeat split; lra. }
  assert (SC : screen 1 e3) by (exists None, flat, 0; cbn; auto).
  destruct (C115_turned true 1 e0 e1 [e2] e3 (1, 1) (0, 1/9) rs f0 f1 fd0 fd1 pd0 pd1 UT LN SC eq_refl eq_refl TR FL FD PD) as (es1 & RV & _ & T).
  assert (PL : placed es) by (eapply Forall_impl; [|exact UT]; intros a H; apply H).
  assert (RV' : rgen None es = es1) by (pose proof (reverse_rgen es PL) as Q; change (reverse es = Some es1) in RV; congruence).
  assert (SN : Forall (seen 1) es).
  { unfold es in *. repeat (apply Forall_cons || apply Forall_nil); (split; [split; auto|]);
      [exists (Some vac), flat, 0|exists (Some water), (Surf (1/3) 0 None false), (1/3)|exists (Some vac), (Surf (-1/6) 0 None false), (-1/6)|exists None, flat, 0]; cbn; repeat (split; [reflexivity|]); try exact I; try split; try reflexivity; lra. }
  assert (F1 : Forall (lens_surface 1) (map fst (rgen None es))).
  { apply Forall_map. eapply Forall_impl; [apply seen_lens|]. apply seen_rgen; [exact SN|exact I]. }
  destruct (available true 1 _ _ [_] _ (1, 1) (0, 1/9) F1 eq_refl eq_refl) as (rs' & g0 & g1 & gd0 & gd1 & qd0 & qd1 & TR' & GL & GD & QD).
  { cbn. lra. } { cbn. unfold dist, e0, e1, e2, e3. cbn. rewrite ?D3, ?D9, ?D18. intros Z. field_simplify in Z. lra. }
  destruct (T (1, 1) (0, 1/9) rs' g0 g1 gd0 gd1 qd0 qd1) as (X0 & X1 & X2 & X3 & X4 & X5); [rewrite <- RV'; exact TR'|exact GL|exact GD|exact QD|].
  exists es, es1, rs, f0, f1, fd0, fd1, pd0, pd1, rs', gd0, gd1, qd0, qd1.
  split; [exact UT|]. split; [exact RV|]. split; [exact TR|]. split; [exact FL|]. split; [exact FD|]. split; [exact PD|]. split; [exact EF|].
  split; [rewrite E1, EF; field|]. split; [rewrite E2, EF; field|]. split; [rewrite E3, EF; field|]. split; [rewrite <- RV'; exact TR'|].
  split; [rewrite GL, X0, X1; reflexivity|]. split; [exact GD|]. split; [exact QD|].
  split; [rewrite X2, E1, EF; field|]. split; [rewrite X4, E2, EF; field|rewrite X5, E3, EF; field].
Qed.
