(** Property C99: third order sums of systems of thin lenses and mirrors with air between them, in any number and order;
    Petzval sum and colour; the eyepiece of two lenses of one glass; what lenses in contact can and cannot correct. *)
From Coq Require Import Reals List Lra Lia Psatz.
From Verif Require Import Base Vec RotModel RotProofs PlacementModel PlacementProofs ElementModel PropsRescale
  ParaxialModel ParaxialProofs LimitProofs PropsLimit PupilModel ParaxTraceModel PropsConjugates SeidelModel PropsSeidel PropsStopShift PropsDesign PropsThinLens PropsMirrors.
Import ListNotations.
Open Scope R_scope.

(** ** Specification *)
(** a component: a thin lens or a mirror, behind the component before it by a distance *)
Inductive component := Lens (d : R) (t : thin) | Mir (m : mirror).
Definition c_d (c : component) : R := match c with Lens d _ => d | Mir m => mi_d m end.
Definition c_power (c : component) : R := match c with Lens _ t => t_power t | Mir m => - (2 * mi_c m) end.
(** index that counts for the Petzval sum, and power over Abbe number (times the change of index) *)
Definition c_index (c : component) : R := match c with Lens _ t => t_n t | Mir _ => -1 end.
Definition c_colour (c : component) : R := match c with Lens _ t => t_power t * t_dn t / (t_n t - 1) | Mir _ => 0 end.
Definition good (c : component) : Prop := match c with Lens _ t => 0 < t_n t /\ t_n t <> 1 /\ t_c1 t <> t_c2 t | Mir _ => True end.
(** height and slope of a ray behind a component *)
Definition c_h (c : component) (y u : R) : R := y + c_d c * u.
Definition c_u (c : component) (y u : R) : R := u - c_power c * c_h c y u.
(** its aberrations with the stop at it; [h] height, [u] and [u'] slopes of the marginal ray *)
Definition alone (H : R) (c : component) (h u u' : R) : coefs :=
  match c with Lens _ t => thin_sums t h H (conjugates u u') | Mir m => reflection H (mi_c m) (mi_k m) h u u' end.
Fixpoint heights (cs : list component) (y u : R) : list R :=
  match cs with [] => [] | c :: cs => c_h c y u :: heights cs (c_h c y u) (c_u c y u) end.
Fixpoint all_sums (H : R) (cs : list component) (y u yc uc : R) : coefs :=
  match cs with
  | [] => no_coefs
  | c :: cs => let h := c_h c y u in let hc := c_h c yc uc in let u' := c_u c y u in let uc' := c_u c yc uc in
      plus (stop_shifted (hc / h) (alone H c h u u')) (all_sums H cs h u' hc uc')
  end.
(** the elements of a component, and the whole system: object, components, image *)
Definition is_component (l l1 l2 : R) (c : component) (es : list element) : Prop :=
  match c with
  | Mir m => exists e, es = [e] /\ is_mirror m e
  | Lens d t => exists e1 e2 m1 m2 b1 b2, es = [e1; e2] /\ p_angles (e_place e1) = v0 /\ p_angles (e_place e2) = v0 /\ p_distance (e_place e1) = d /\ p_distance (e_place e2) = 0 /\
      e_kind e1 = Sph (Some m1) (Surf (t_c1 t) (t_k1 t) None b1) /\ e_kind e2 = Sph (Some m2) (Surf (t_c2 t) (t_k2 t) None b2) /\
      m_mirror m1 = false /\ m_mirror m2 = false /\ m_index m1 l = t_n t /\ m_index m1 l1 - m_index m1 l2 = t_dn t /\ forall w, m_index m2 w = 1
  end.
Definition is_system (l l1 l2 : R) (cs : list component) (es : list element) : Prop :=
  exists e0 ess img, es = e0 :: concat ess ++ [img] /\ Forall2 (is_component l l1 l2) cs ess /\ is_image img.

(** ** One component *)
Lemma sums_app xs ys : sums (xs ++ ys) = plus (sums xs) (sums ys).
Proof.
  induction xs as [|x xs IH]; cbn [app]; [apply coefs_eq; unfold plus, sums, column; cbn; ring|]. rewrite !plus_sums, IH.
  apply coefs_eq; unfold plus; cbn [tsc cc tac tpc dc tachc tchc]; ring.
Qed.
Lemma lens_pair t h hc u uc : let H := u * hc - uc * h in 0 < t_n t -> t_n t <> 1 -> t_c1 t <> t_c2 t -> h <> 0 -> H <> 0 ->
  let n := t_n t in let u1 := u + (1 - n) * t_c1 t * h in let u2 := u1 + (n - 1) * t_c2 t * h in
  let uc1 := uc + (1 - n) * t_c1 t * hc in let uc2 := uc1 + (n - 1) * t_c2 t * hc in
  plus (sev (t_k1 t * t_c1 t ^ 3 / 8) (t_c1 t) n 1 0 (t_dn t) h hc u uc u1 uc1) (sev (t_k2 t * t_c2 t ^ 3 / 8) (t_c2 t) 1 n (t_dn t) 0 h hc u1 uc1 u2 uc2) =
  stop_shifted (hc / h) (thin_sums t h H (conjugates u u2)).
Proof.
  intros H NP N1 CC HN HNZ n u1 u2 uc1 uc2. set (Q := hc / h). assert (YC : hc = 0 + Q * h) by (unfold Q; field; exact HN).
  assert (UC : uc = - H / h + Q * u) by (unfold Q, H; field; exact HN). clearbody Q H.
  assert (U1 : uc1 = - H / h + Q * u1) by (unfold uc1, u1; rewrite UC, YC; ring).
  assert (U2 : uc2 = - H / h + Q * u2) by (unfold uc2, u2; rewrite U1, YC; ring). clearbody uc1 uc2. subst uc1 uc2 uc hc.
  pose proof (two_surfaces n (t_dn t) (t_c1 t) (t_k1 t) (t_c2 t) (t_k2 t) h u H NP N1 CC HN HNZ) as TS. cbv zeta in TS.
  replace (Thin n (t_dn t) (t_c1 t) (t_k1 t) (t_c2 t) (t_k2 t)) with t in TS by (unfold n; destruct t; reflexivity).
  fold u1 in TS. fold u2 in TS. rewrite <- TS, shifted_plus.
  pose proof (sev_shift (t_k1 t * t_c1 t ^ 3 / 8) (t_c1 t) n 1 0 (t_dn t) h 0 u (- H / h) Q ltac:(lra) ltac:(unfold n; lra)) as G1. cbv zeta in G1.
  pose proof (sev_shift (t_k2 t * t_c2 t ^ 3 / 8) (t_c2 t) 1 n (t_dn t) 0 h 0 u1 (- H / h) Q ltac:(unfold n; lra) ltac:(lra)) as G2. cbv zeta in G2.
  rewrite !Rmult_0_r, !Rplus_0_r in G1, G2.
  assert (NZ : 0 - - H / h * h <> 0) by (intros Z; apply HNZ; unfold Rdiv in Z; rewrite Rmult_assoc, Rinv_l in Z by exact HN; lra).
  specialize (G1 NZ). specialize (G2 NZ). apply (f_equal2 plus); [exact G1|exact G2].
Qed.
Lemma component_step axis l l1 l2 c es : is_component l l1 l2 c es -> good c -> forall vm vc r0,
  let ym := row_y axis vm in let um := row_u axis vm in let yc := row_y axis vc in let uc := row_u axis vc in let H := um * yc - uc * ym in
  H <> 0 -> ru r0 = (um, uc) -> rn r0 = 1 ->
  exists wm wc rs r xs, row_y axis wm = c_h c ym um /\ row_u axis wm = c_u c ym um /\ row_y axis wc = c_h c yc uc /\ row_u axis wc = c_u c yc uc /\
    ru r = (row_u axis wm, row_u axis wc) /\ rn r = 1 /\
    (forall rest, ptrace_from axis l (es ++ rest) vm vc 1 = do rs' <- ptrace_from axis l rest wm wc 1; Some (rs ++ rs')) /\
    (forall rest rs', aberrations_from l1 l2 (es ++ rest) r0 (rs ++ rs') 0 = do xs' <- aberrations_from l1 l2 rest r rs' 0; Some (xs ++ xs')) /\
    (c_h c ym um <> 0 -> sums xs = stop_shifted (c_h c yc uc / c_h c ym um) (alone H c (c_h c ym um) um (c_u c ym um))).
Proof.
  intros IC GD vm vc r0 ym um yc uc H HZ R0 RN. destruct c as [d t|m]; cbn [is_component good] in IC, GD.
  - destruct IC as (e1 & e2 & m1 & m2 & b1 & b2 & -> & A1 & A2 & D1 & D2 & K1 & K2 & M1 & M2 & N & DN & AIR). destruct GD as (NP & N1 & CC).
    assert (L1 : lens_surface l e1) by (split; [exact A1|]; intros mt s0 E; rewrite K1 in E; injection E as <- <-; split; [discriminate|]; intros m E; injection E as <-; rewrite N; auto).
    assert (L2 : lens_surface l e2) by (split; [exact A2|]; intros mt s0 E; rewrite K2 in E; injection E as <- <-; split; [discriminate|]; intros m E; injection E as <-; rewrite AIR; split; [exact M2|lra]).
    destruct (lens_block axis l e1 1 L1 ltac:(lra)) as (X1 & P1 & _). unfold index_after in P1. rewrite K1, N in P1.
    destruct (lens_block axis l e2 (t_n t) L2 NP) as (X2 & P2 & _). unfold index_after in P2. rewrite K2, AIR in P2.
    destruct (element_rows e1 1 l (t_n t) X1 ltac:(lra) A1 ltac:(rewrite K1, M1; lra) P1) as (_ & _ & W1). rewrite K1 in W1.
    destruct (element_rows e2 (t_n t) l 1 X2 NP A2 ltac:(rewrite K2, M2, AIR; lra) P2) as (_ & _ & W2). rewrite K2 in W2.
    destruct (W1 axis vm) as (Y1m & c & E & U1m). unfold vertex_curvature in E. cbn in E. injection E as <-. destruct (W1 axis vc) as (Y1c & c & E & U1c). cbn in E. injection E as <-.
    destruct (W2 axis (mv4 X1 vm)) as (Y2m & c & E & U2m). cbn in E. injection E as <-. destruct (W2 axis (mv4 X1 vc)) as (Y2c & c & E & U2c). cbn in E. injection E as <-.
    unfold signed in U1m, U1c, U2m, U2c. rewrite M1 in U1m, U1c. rewrite M2 in U2m, U2c. rewrite D1 in Y1m, Y1c. rewrite D2 in Y2m, Y2c.
    fold ym um in Y1m, U1m. fold yc uc in Y1c, U1c. unfold Rdiv in Y2m, Y2c. rewrite !Rmult_0_l, Rplus_0_r in Y2m, Y2c.
    set (h := ym + d * um). set (hc := yc + d * uc). assert (EH : row_y axis (mv4 X1 vm) = h) by (rewrite Y1m; unfold h; field). assert (EHC : row_y axis (mv4 X1 vc) = hc) by (rewrite Y1c; unfold hc; field).
    rewrite EH in U1m, Y2m. rewrite EHC in U1c, Y2c. rewrite Y2m in U2m. rewrite Y2c in U2c.
    set (u1 := row_u axis (mv4 X1 vm)) in *. set (uc1 := row_u axis (mv4 X1 vc)) in *. set (u2 := row_u axis (mv4 X2 (mv4 X1 vm))) in *. set (uc2 := row_u axis (mv4 X2 (mv4 X1 vc))) in *.
    assert (HE : um * hc - uc * h = H) by (unfold H, h, hc; ring).
    set (r1 := PRow (h, hc) (u1, uc1) (t_n t)). set (r2 := PRow (h, hc) (u2, uc2) 1).
    set (x1 := sev (t_k1 t * t_c1 t ^ 3 / 8) (t_c1 t) (t_n t) 1 0 (t_dn t) h hc um uc u1 uc1). set (x2 := sev (t_k2 t * t_c2 t ^ 3 / 8) (t_c2 t) 1 (t_n t) (t_dn t) 0 h hc u1 uc1 u2 uc2).
    exists (mv4 X2 (mv4 X1 vm)), (mv4 X2 (mv4 X1 vc)), [r1; r2], r2, [x1; x2]. fold u2 uc2. unfold c_u, c_h, c_power, c_d, t_power. fold h hc.
    split; [exact Y2m|]. split; [rewrite U2m, U1m; ring|]. split; [exact Y2c|]. split; [rewrite U2c, U1c; ring|]. split; [reflexivity|]. split; [reflexivity|]. split.
    { intros rest. cbn [app ptrace_from]. unfold propagate_paraxial. rewrite P1. cbn [obind]. rewrite P2. cbn [obind].
      fold u1 uc1 u2 uc2. rewrite EH, EHC, Y2m, Y2c. destruct (ptrace_from axis l rest _ _ 1); reflexivity. }
    split.
    { intros rest rs'. cbn [app aberrations_from]. assert (DI1 : element_dispersion e1 l1 l2 = t_dn t) by (unfold element_dispersion; rewrite K1; exact DN).
      assert (DI2 : element_dispersion e2 l1 l2 = 0) by (unfold element_dispersion; rewrite K2, !AIR; ring).
      assert (F1 : element_aberration e1 (ry r1) (ru r0) (ru r1) (rn r0) (rn r1) 0 (element_dispersion e1 l1 l2) = Some x1).
      { unfold element_aberration. rewrite K1, DI1, R0, RN. apply aberration_sev. unfold departure. cbn [s_asph s_c s_k]. eexists _, _. unfold signed. rewrite M1.
        split; [reflexivity|]. cbn [r1 rn]. split; [lra|]. split; [lra|]. split; [|reflexivity]. rewrite U1m, U1c. intros Z. apply HZ. rewrite <- HE. lra. }
      assert (F2 : element_aberration e2 (ry r2) (ru r1) (ru r2) (rn r1) (rn r2) (element_dispersion e1 l1 l2) (element_dispersion e2 l1 l2) = Some x2).
      { unfold element_aberration. rewrite K2, DI1, DI2. apply aberration_sev. unfold departure. cbn [s_asph s_c s_k]. eexists _, _. unfold signed. rewrite M2.
        split; [reflexivity|]. cbn [r1 r2 rn]. split; [lra|]. split; [lra|]. split; [|reflexivity]. rewrite U2m, U2c, U1m, U1c. intros Z. apply HZ. rewrite <- HE. lra. }
      rewrite F1. cbn [obind]. rewrite F2. cbn [obind]. rewrite DI2. destruct (aberrations_from l1 l2 rest r2 rs' 0); reflexivity. }
    intros HN. pose proof (lens_pair t h hc um uc) as LP. cbv zeta in LP. rewrite HE in LP. specialize (LP NP N1 CC HN HZ). cbn [alone].
    transitivity (plus x1 x2); [rewrite !plus_sums; apply coefs_eq; unfold plus, sums, column; cbn [fold_right tsc cc tac tpc dc tachc tchc]; ring|].
    unfold x1, x2. rewrite U2m, U2c, U1m, U1c. rewrite LP. f_equal. f_equal. f_equal. ring.
  - destruct IC as (e & -> & IM). destruct (mirror_step m e l IM) as (M & P & W).
    destruct (W axis vm) as (YM & UM). destruct (W axis vc) as (YC & UC). fold ym um in YM, UM. fold yc uc in YC, UC. destruct IM as (A & D & g & b & K & G & I).
    set (h := ym + mi_d m * um) in *. set (hc := yc + mi_d m * uc) in *.
    set (r := PRow (h, hc) (row_u axis (mv4 M vm), row_u axis (mv4 M vc)) 1).
    assert (HE : um * hc - uc * h = H) by (unfold H, h, hc; ring).
    set (x := sev (mi_k m * mi_c m ^ 3 / 8) (mi_c m) (-1) 1 0 0 h hc um uc (row_u axis (mv4 M vm)) (row_u axis (mv4 M vc))).
    exists (mv4 M vm), (mv4 M vc), [r], r, [x]. unfold c_u, c_h, c_power, c_d. fold h hc.
    split; [exact YM|]. split; [rewrite UM; ring|]. split; [exact YC|]. split; [rewrite UC; ring|]. split; [reflexivity|]. split; [reflexivity|]. split.
    { intros rest. cbn [app ptrace_from]. unfold propagate_paraxial. rewrite P. cbn [obind]. rewrite YM, YC. destruct (ptrace_from axis l rest _ _ 1); reflexivity. }
    split.
    { intros rest rs'. cbn [app aberrations_from]. assert (DI : element_dispersion e l1 l2 = 0) by (unfold element_dispersion; rewrite K, !I; ring).
      assert (EA : element_aberration e (ry r) (ru r0) (ru r) (rn r0) (rn r) 0 (element_dispersion e l1 l2) = Some x).
      { unfold element_aberration. rewrite K, DI, R0, RN. apply aberration_sev. unfold departure. cbn [s_asph s_c s_k]. eexists _, _.
        unfold signed. rewrite G. split; [reflexivity|]. cbn [r rn]. split; [lra|]. split; [lra|]. split; [|reflexivity]. rewrite UM, UC. intros Z. apply HZ. rewrite <- HE. lra. }
      rewrite EA. cbn [obind]. rewrite DI. destruct (aberrations_from l1 l2 rest r rs' 0); reflexivity. }
    intros HN. cbn [alone]. transitivity x; [rewrite plus_sums; apply coefs_eq; unfold plus, sums, column; cbn [fold_right tsc cc tac tpc dc tachc tchc]; ring|].
    unfold x. rewrite UM, UC. pose proof (one_mirror (mi_c m) (mi_k m) h hc um uc) as OM. cbv zeta in OM. rewrite HE in OM. rewrite (OM HN HZ). f_equal. f_equal. ring.
Qed.

(** ** Any number of components *)
Lemma system_from axis l l1 l2 img : is_image img -> forall cs ess, Forall2 (is_component l l1 l2) cs ess -> Forall good cs -> forall vm vc r0,
  let ym := row_y axis vm in let um := row_u axis vm in let yc := row_y axis vc in let uc := row_u axis vc in let H := um * yc - uc * ym in
  H <> 0 -> ru r0 = (um, uc) -> rn r0 = 1 ->
  exists rs xs, ptrace_from axis l (concat ess ++ [img]) vm vc 1 = Some rs /\ aberrations_from l1 l2 (concat ess ++ [img]) r0 rs 0 = Some xs /\
    (Forall (fun h => h <> 0) (heights cs ym um) -> sums xs = all_sums H cs ym um yc uc).
Proof.
  intros IMG. induction 1 as [|c es cs ess IC F IH]; intros GD vm vc r0 ym um yc uc H HZ R0 RN; cbn [concat].
  - destruct (mirrors_from axis l l1 l2 img IMG [] [] (Forall2_nil _) vm vc r0 HZ R0 RN) as (rs & xs & P & A & _ & _ & T). exists rs, xs. split; [exact P|]. split; [exact A|].
    intros _. apply T. constructor.
  - inversion GD as [|? ? G GD']; subst. destruct (component_step axis l l1 l2 c es IC G vm vc r0 HZ R0 RN) as (wm & wc & rs & r & xs & E1 & E2 & E3 & E4 & RU & RR & P & A & S).
    fold ym um in E1, E2, S. fold yc uc in E3, E4, S.
    assert (HE : row_u axis wm * row_y axis wc - row_u axis wc * row_y axis wm = H) by (rewrite E1, E2, E3, E4; unfold c_u, c_h, H; ring).
    destruct (IH GD' wm wc r) as (rs' & xs' & P' & A' & T); [rewrite HE; exact HZ|exact RU|exact RR|]. exists (rs ++ rs'), (xs ++ xs'). rewrite <- app_assoc.
    split; [rewrite P, P'; reflexivity|]. split; [rewrite A, A'; reflexivity|]. cbn [heights]. intros FA. inversion FA as [|? ? HN FA']; subst.
    rewrite sums_app, (S HN). cbn [all_sums]. rewrite HE, E1, E2, E3, E4 in T. rewrite (T FA'). reflexivity.
Qed.
(** every such system is traced, and its listed coefficients add up to those of the components, each with the stop at it
    moved to the common stop *)
Theorem C99_components cs es axis l l1 l2 y u : is_system l l1 l2 cs es -> Forall good cs -> let H := fst u * snd y - snd u * fst y in H <> 0 ->
  exists rs xs, ptrace axis l es y u 1 = Some rs /\ aberrations l1 l2 es rs = Some xs /\
    (Forall (fun h => h <> 0) (heights cs (fst y) (fst u)) -> sums xs = all_sums H cs (fst y) (fst u) (snd y) (snd u)).
Proof.
  intros (e0 & ess & img & -> & F & IMG) GD H HZ. set (vm := V4 (fst y) (fst y) (fst u) (fst u)). set (vc := V4 (snd y) (snd y) (snd u) (snd u)).
  assert (E1 : row_y axis vm = fst y) by (unfold row_y, vm; destruct axis; reflexivity). assert (E2 : row_u axis vm = fst u) by (unfold row_u, vm; destruct axis; reflexivity).
  assert (E3 : row_y axis vc = snd y) by (unfold row_y, vc; destruct axis; reflexivity). assert (E4 : row_u axis vc = snd u) by (unfold row_u, vc; destruct axis; reflexivity).
  pose proof (system_from axis l l1 l2 img IMG cs ess F GD vm vc (PRow y u 1)) as K. cbv zeta in K. rewrite E1, E2, E3, E4 in K.
  destruct K as (rs & xs & P & A & T); [exact HZ|apply surjective_pairing|reflexivity|].
  exists (PRow y u 1 :: rs), (no_coefs :: xs). cbn [ptrace aberrations]. fold vm vc. rewrite P. cbn [obind]. split; [reflexivity|]. rewrite A. split; [reflexivity|].
  intros FA. rewrite plus_sums, (T FA). fold H. apply coefs_eq; unfold plus, no_coefs; cbn [tsc cc tac tpc dc tachc tchc]; ring.
Qed.
Lemma given_system cs es axis l l1 l2 y u rs xs : is_system l l1 l2 cs es -> Forall good cs -> fst u * snd y - snd u * fst y <> 0 -> Forall (fun h => h <> 0) (heights cs (fst y) (fst u)) ->
  ptrace axis l es y u 1 = Some rs -> aberrations l1 l2 es rs = Some xs -> sums xs = all_sums (fst u * snd y - snd u * fst y) cs (fst y) (fst u) (snd y) (snd u).
Proof.
  intros M G H F P A. destruct (C99_components cs es axis l l1 l2 y u M G H) as (rs' & xs' & P' & A' & T). rewrite P in P'. injection P' as <-. rewrite A in A'. injection A' as <-. auto.
Qed.

(** ** Petzval sum and colour *)
Definition petzval (cs : list component) : R := fold_right (fun c s => c_power c / c_index c + s) 0 cs.
Fixpoint axial (cs : list component) (y u : R) : R :=
  match cs with [] => 0 | c :: cs => c_h c y u ^ 2 * c_colour c + axial cs (c_h c y u) (c_u c y u) end.
Fixpoint lateral (cs : list component) (y u yc uc : R) : R :=
  match cs with [] => 0 | c :: cs => c_h c y u * c_h c yc uc * c_colour c + lateral cs (c_h c y u) (c_u c y u) (c_h c yc uc) (c_u c yc uc) end.
Lemma all_sums_columns H cs : H <> 0 -> Forall good cs -> forall y u yc uc, Forall (fun h => h <> 0) (heights cs y u) ->
  tpc (all_sums H cs y u yc uc) = H / 2 * petzval cs /\ tachc (all_sums H cs y u yc uc) = axial cs y u / H /\ tchc (all_sums H cs y u yc uc) = lateral cs y u yc uc / H.
Proof.
  intros HZ. induction 1 as [|c cs G GD IH]; intros y u yc uc FA; cbn [all_sums petzval axial lateral fold_right heights] in *; [cbn; repeat split; field; exact HZ|].
  inversion FA as [|? ? HN FA']; subst. fold (petzval cs). destruct (IH (c_h c y u) (c_u c y u) (c_h c yc uc) (c_u c yc uc) FA') as (I1 & I2 & I3).
  unfold plus, stop_shifted. cbn [tpc tachc tchc]. rewrite I1, I2, I3. set (h := c_h c y u) in *. set (hc := c_h c yc uc) in *.
  destruct c as [d t|m]; cbn [alone thin_sums reflection tpc tachc tchc c_power c_index c_colour good] in *; [destruct G as (N & N1 & _)|]; repeat split; field; repeat split; auto; lra.
Qed.
(** Petzval sum: half the invariant times power over index, summed, wherever components and stop are and whatever their shapes;
    colour: heights squared, or heights of both rays, times power over Abbe number *)
Theorem C99_sums cs es axis l l1 l2 y u rs xs : is_system l l1 l2 cs es -> Forall good cs -> let H := fst u * snd y - snd u * fst y in H <> 0 ->
  Forall (fun h => h <> 0) (heights cs (fst y) (fst u)) -> ptrace axis l es y u 1 = Some rs -> aberrations l1 l2 es rs = Some xs ->
  column tpc xs = H / 2 * petzval cs /\ column tachc xs = axial cs (fst y) (fst u) / H /\ column tchc xs = lateral cs (fst y) (fst u) (snd y) (snd u) / H.
Proof.
  intros M G H HZ F P A. pose proof (given_system _ _ _ _ _ _ _ _ _ _ M G HZ F P A) as T. fold H in T.
  destruct (all_sums_columns H cs HZ G (fst y) (fst u) (snd y) (snd u) F) as (T1 & T2 & T3). rewrite <- T in T1, T2, T3. auto.
Qed.

(** ** Two lenses *)
Definition two (d0 : R) (t1 : thin) (d : R) (t2 : thin) : list component := [Lens d0 t1; Lens d t2].
Definition abbe (t : thin) : R := (t_n t - 1) / t_dn t.
(** an eyepiece: the chief ray comes in parallel to the axis, the marginal ray leaves so; of one glass it has no lateral colour
    exactly if the lenses are half the sum of their focal lengths apart *)
Theorem C99_eyepiece d0 t1 d t2 es axis l l1 l2 y u yc rs xs : is_system l l1 l2 (two d0 t1 d t2) es -> Forall good (two d0 t1 d t2) -> t_n t2 = t_n t1 -> t_dn t2 = t_dn t1 -> t_dn t1 <> 0 ->
  yc <> 0 -> Forall (fun h => h <> 0) (heights (two d0 t1 d t2) y u) -> u * yc <> 0 ->
  let h1 := y + d0 * u in let u1 := u - t_power t1 * h1 in let h2 := h1 + d * u1 in u1 - t_power t2 * h2 = 0 ->
  ptrace axis l es (y, yc) (u, 0) 1 = Some rs -> aberrations l1 l2 es rs = Some xs ->
  (column tchc xs = 0 <-> d = (/ t_power t1 + / t_power t2) / 2).
Proof.
  intros M G N DN DZ YC F UZ h1 u1 h2 OUT P A. assert (HE : u * yc - 0 * y = u * yc) by ring.
  pose proof (C99_sums (two d0 t1 d t2) es axis l l1 l2 (y, yc) (u, 0) rs xs M G) as T. cbn [fst snd] in T. rewrite HE in T. destruct (T UZ F P A) as (_ & _ & TL). clear T.
  inversion G as [|? ? G1 G']; subst. inversion G' as [|? ? G2 _]; subst. cbn [good] in G1, G2. destruct G1 as (NP & N1 & C1). destruct G2 as (_ & _ & C2).
  cbn [two heights] in F. inversion F as [|? ? F1 F']; subst. inversion F' as [|? ? F2 _]; subst. clear F F'.
  assert (P1 : t_power t1 <> 0) by (unfold t_power; apply Rmult_integral_contrapositive_currified; lra). assert (P2 : t_power t2 <> 0) by (unfold t_power; rewrite N; apply Rmult_integral_contrapositive_currified; lra).
  unfold c_h, c_u, c_h, c_d, c_power in F1, F2. fold h1 in F1, F2. fold u1 in F2. fold h2 in F2.
  cbn [two lateral] in TL. unfold c_h, c_u, c_h, c_d, c_power, c_colour in TL. fold h1 in TL. fold u1 in TL. fold h2 in TL. rewrite N, DN in TL.
  assert (H1E : h1 = h2 * (1 - d * t_power t2)) by (assert (E : u1 = t_power t2 * h2) by lra; unfold h2 at 1; replace h1 with (h2 - d * u1) by (unfold h2; ring); rewrite E; unfold h2; ring).
  set (f1 := t_power t1) in *. set (f2 := t_power t2) in *.
  assert (TE : column tchc xs = h2 * t_dn t1 / ((t_n t1 - 1) * u) * (f1 + f2 - 2 * d * f1 * f2)).
  { rewrite TL. rewrite H1E. field. assert (UN : u <> 0) by (intros Z; apply UZ; rewrite Z; ring). repeat split; first [exact YC|exact UN|clear - N1; lra]. }
  assert (UN : u <> 0) by (intros Z; apply UZ; rewrite Z; ring).
  assert (KN : h2 * t_dn t1 / ((t_n t1 - 1) * u) <> 0).
  { apply Rmult_integral_contrapositive_currified; [apply Rmult_integral_contrapositive_currified; assumption|]. apply Rinv_neq_0_compat. apply Rmult_integral_contrapositive_currified; [lra|exact UN]. }
  rewrite TE. split.
  - intros Z. apply Rmult_integral in Z as [Z|Z]; [contradiction|]. apply (Rmult_eq_reg_r (2 * f1 * f2)); [|apply Rmult_integral_contrapositive_currified; [clear - P1; lra|exact P2]].
    replace ((/ f1 + / f2) / 2 * (2 * f1 * f2)) with (f1 + f2) by (field; auto). clear - Z; lra.
  - intros ->. field_simplify_eq; [ring|]. repeat split; auto. lra.
Qed.
Lemma proportional f1 f2 v1 v2 n1 n2 : f2 <> 0 -> v1 <> 0 -> v2 <> 0 -> n1 <> 0 -> n2 <> 0 -> f1 / v1 + f2 / v2 = 0 -> f1 / n1 + f2 / n2 = 0 -> n1 / v1 = n2 / v2.
Proof.
  intros F V1 V2 N1 N2 Z1 Z2. assert (Q : f1 = - (f2 * v1 / v2)) by (replace f1 with ((f1 / v1 + f2 / v2) * v1 - f2 * v1 / v2) by (field; auto); rewrite Z1; ring).
  assert (E : f2 * (v2 * n1 - v1 * n2) = 0) by (replace (f2 * (v2 * n1 - v1 * n2)) with ((f1 / n1 + f2 / n2) * (n1 * n2 * v2)) by (rewrite Q; field; auto); rewrite Z2; ring).
  apply Rmult_integral in E as [E|E]; [contradiction|]. replace (n1 / v1) with (v2 * n1 / (v1 * v2)) by (field; auto). replace (v2 * n1) with (v1 * n2) by lra. field. auto.
Qed.
(** two lenses in contact, of total power not zero, met by a marginal ray of height not zero: free of axial colour and Petzval
    curvature both, exactly if power over Abbe number and power over index cancel; this needs glasses in which index and Abbe
    number are proportional, which no choice of shapes can replace *)
Theorem C99_contact d0 t1 t2 es axis l l1 l2 y u rs xs : is_system l l1 l2 (two d0 t1 0 t2) es -> Forall good (two d0 t1 0 t2) -> t_dn t1 <> 0 -> t_dn t2 <> 0 ->
  fst u * snd y - snd u * fst y <> 0 -> fst y + d0 * fst u <> 0 -> ptrace axis l es y u 1 = Some rs -> aberrations l1 l2 es rs = Some xs ->
  (column tachc xs = 0 <-> t_power t1 / abbe t1 + t_power t2 / abbe t2 = 0) /\ (column tpc xs = 0 <-> t_power t1 / t_n t1 + t_power t2 / t_n t2 = 0) /\
  (column tachc xs = 0 -> column tchc xs = 0) /\ (column tachc xs = 0 -> column tpc xs = 0 -> t_n t1 / abbe t1 = t_n t2 / abbe t2).
Proof.
  intros M G DN1 DN2 HZ HN P A. set (h := fst y + d0 * fst u) in *. set (hc := snd y + d0 * snd u).
  assert (F : Forall (fun h => h <> 0) (heights (two d0 t1 0 t2) (fst y) (fst u))).
  { cbn [two heights]. unfold c_h, c_d. fold h. repeat constructor; [exact HN|]. rewrite Rmult_0_l, Rplus_0_r. exact HN. }
  destruct (C99_sums _ _ _ _ _ _ _ _ _ _ M G HZ F P A) as (TP & TA & TL). set (H := fst u * snd y - snd u * fst y) in *.
  inversion G as [|? ? G1 G']; subst. inversion G' as [|? ? G2 _]; subst. cbn [good] in G1, G2. destruct G1 as (NP1 & N1 & C1). destruct G2 as (NP2 & N2 & C2).
  assert (P1 : t_power t1 <> 0) by (unfold t_power; apply Rmult_integral_contrapositive_currified; lra). assert (P2 : t_power t2 <> 0) by (unfold t_power; apply Rmult_integral_contrapositive_currified; lra).
  assert (EA : column tachc xs = h ^ 2 / H * (t_power t1 / abbe t1 + t_power t2 / abbe t2)).
  { rewrite TA. cbn [two axial]. unfold c_h, c_u, c_h, c_d, c_power, c_colour, abbe. fold h. field. repeat split; auto; lra. }
  assert (EL : column tchc xs = h * hc / H * (t_power t1 / abbe t1 + t_power t2 / abbe t2)).
  { rewrite TL. cbn [two lateral]. unfold c_h, c_u, c_h, c_d, c_power, c_colour, abbe. fold h hc. field. repeat split; auto; lra. }
  assert (EP : column tpc xs = H / 2 * (t_power t1 / t_n t1 + t_power t2 / t_n t2)) by (rewrite TP; unfold two, petzval; cbn [fold_right c_power c_index]; ring).
  assert (K : h ^ 2 / H <> 0) by (apply Rmult_integral_contrapositive_currified; [apply pow_nonzero; exact HN|apply Rinv_neq_0_compat; exact HZ]).
  assert (KH : H / 2 <> 0) by lra.
  assert (ZA : column tachc xs = 0 <-> t_power t1 / abbe t1 + t_power t2 / abbe t2 = 0).
  { rewrite EA. split; [intros Z; apply Rmult_integral in Z as [Z|Z]; [contradiction|exact Z]|intros ->; ring]. }
  assert (ZP : column tpc xs = 0 <-> t_power t1 / t_n t1 + t_power t2 / t_n t2 = 0).
  { rewrite EP. split; [intros Z; apply Rmult_integral in Z as [Z|Z]; [contradiction|exact Z]|intros ->; ring]. }
  split; [exact ZA|]. split; [exact ZP|]. split; [intros Z; apply ZA in Z; rewrite EL, Z; ring|].
  intros Z1 Z2. apply ZA in Z1. apply ZP in Z2. assert (V1 : abbe t1 <> 0) by (apply Rmult_integral_contrapositive_currified; [clear - N1; lra|apply Rinv_neq_0_compat; exact DN1]). assert (V2 : abbe t2 <> 0) by (apply Rmult_integral_contrapositive_currified; [clear - N2; lra|apply Rinv_neq_0_compat; exact DN2]).
  exact (proportional _ _ _ _ _ _ P2 V1 V2 (Rgt_not_eq _ _ NP1) (Rgt_not_eq _ _ NP2) Z1 Z2).
Qed.

(** ** Examples: Huygens' eyepiece; a lens before a spherical mirror; two achromatic pairs in contact *)
Definition glass (n g : R) : material := Material (fun l => n - g * l) false true.
Definition lens_el (p p0 : placement) (n g c1 c2 : R) : list element :=
  [El p (Some 1) (Sph (Some (glass n g)) (Surf c1 0 None false)); El p0 (Some 1) (Sph (Some vacuum) (Surf c2 0 None false))].
Definition between (p : placement) (ess : list (list element)) : list element := El p None (Sph (Some vacuum) (Surf 0 0 None false)) :: concat ess ++ [El p None Plain].
Lemma lens_el_is p p0 d n g c1 c2 : p_distance p = d -> p_angles p = v0 -> p_angles p0 = v0 -> p_distance p0 = 0 -> is_component 0 0 (1/100) (Lens d (Thin n (g / 100) c1 0 c2 0)) (lens_el p p0 n g c1 c2).
Proof. intros D A A0 D0. do 6 eexists. split; [reflexivity|]. repeat (split; [assumption || reflexivity|]). cbn. repeat split; auto; lra. Qed.
Lemma between_is p cs ess : p_angles p = v0 -> Forall2 (is_component 0 0 (1/100)) cs ess -> is_system 0 0 (1/100) cs (between p ess).
Proof. intros A F. do 3 eexists. split; [reflexivity|]. split; [exact F|]. split; [exact A|exact I]. Qed.
(** focal lengths 3/2 and 1/2, one apart; no lateral colour but axial colour, and a Petzval sum *)
Example C99_huygens : exists p0 p1, let es := between p1 [lens_el p1 p0 (3/2) 1 (4/3) 0; lens_el p1 p0 (3/2) 1 4 0] in
  exists rs xs, ptrace true 0 es (-7/3, 1/10) (4/3, 0) 1 = Some rs /\ aberrations 0 (1/100) es rs = Some xs /\ column tchc xs = 0 /\ column tachc xs = 2/5 /\ column tpc xs = 16/135.
Proof.
  destruct (centred_axis 0) as (p0 & _ & _ & D0 & _ & A0); [lra|]. destruct (centred_axis 1) as (p1 & _ & _ & D1 & _ & A1); [lra|]. exists p0, p1. intros es.
  set (t1 := Thin (3/2) (1/100) (4/3) 0 0 0). set (t2 := Thin (3/2) (1/100) 4 0 0 0).
  assert (M : is_system 0 0 (1/100) (two 1 t1 1 t2) es) by (apply between_is; [exact A1|]; unfold two; constructor; [|constructor; [|constructor]]; apply lens_el_is; assumption).
  assert (G : Forall good (two 1 t1 1 t2)) by (unfold two, t1, t2; repeat constructor; cbn; lra).
  assert (F : Forall (fun h => h <> 0) (heights (two 1 t1 1 t2) (-7/3) (4/3))) by (unfold two, t1, t2, heights, c_u, c_h, c_d, c_power, t_power; cbn [t_n t_c1 t_c2]; repeat constructor; lra).
  destruct (C99_components (two 1 t1 1 t2) es true 0 0 (1/100) (-7/3, 1/10) (4/3, 0) M G ltac:(cbn; lra)) as (rs & xs & P & A & _). exists rs, xs. split; [exact P|]. split; [exact A|].
  assert (Q1 : t_power t1 = 2/3) by (unfold t_power, t1; cbn; field). assert (Q2 : t_power t2 = 2) by (unfold t_power, t2; cbn; field). split.
  - apply (C99_eyepiece 1 t1 1 t2 es true 0 0 (1/100) (-7/3) (4/3) (1/10) rs xs M G eq_refl eq_refl); auto; try (cbn [t1 t_dn]; lra); rewrite Q1, Q2; lra.
  - destruct (C99_sums (two 1 t1 1 t2) es true 0 0 (1/100) (-7/3, 1/10) (4/3, 0) rs xs M G ltac:(cbn; lra) F P A) as (T1 & T2 & _). rewrite T1, T2. cbn [fst snd]. split.
    + unfold two, axial, c_u, c_h, c_d, c_power, c_colour. rewrite Q1, Q2. unfold t1, t2. cbn [t_n t_dn]. field.
    + unfold two, petzval. cbn [fold_right c_power c_index]. rewrite Q1, Q2. unfold t1, t2. cbn [t_n]. field.
Qed.
(** a weak lens one unit before a sphere: the colour is that of the lens alone; the Petzval sums have opposite signs *)
Example C99_mixed : exists p0 p1, let es := between p1 [lens_el p1 p0 (3/2) 1 (1/2) 0; [mirror_el p1 (-1/2) 0]] in
  exists rs xs, ptrace true 0 es (1, -1/10) (0, 1/10) 1 = Some rs /\ aberrations 0 (1/100) es rs = Some xs /\ column tachc xs = - (1/20) /\ column tchc xs = 0 /\ column tpc xs = 1/24.
Proof.
  destruct (centred_axis 0) as (p0 & _ & _ & D0 & _ & A0); [lra|]. destruct (centred_axis 1) as (p1 & _ & _ & D1 & _ & A1); [lra|]. exists p0, p1. intros es.
  set (t := Thin (3/2) (1/100) (1/2) 0 0 0). set (cs := [Lens 1 t; Mir (Mirror 1 (-1/2) 0)]).
  assert (M : is_system 0 0 (1/100) cs es).
  { apply between_is; [exact A1|]. constructor; [apply lens_el_is; assumption|]. constructor; [|constructor]. eexists. split; [reflexivity|]. split; [exact A1|]. split; [exact D1|]. exists glass_mirror, false. repeat split. }
  assert (G : Forall good cs) by (unfold cs, t; repeat constructor; cbn; lra).
  assert (F : Forall (fun h => h <> 0) (heights cs 1 0)) by (unfold cs, t, heights, c_u, c_h, c_d, c_power, t_power; cbn [t_n t_c1 t_c2 mi_c mi_d]; repeat constructor; lra).
  destruct (C99_components cs es true 0 0 (1/100) (1, -1/10) (0, 1/10) M G ltac:(cbn; lra)) as (rs & xs & P & A & _). exists rs, xs. split; [exact P|]. split; [exact A|].
  destruct (C99_sums cs es true 0 0 (1/100) (1, -1/10) (0, 1/10) rs xs M G ltac:(cbn; lra) F P A) as (T1 & T2 & T3). rewrite T1, T2, T3. cbn [fst snd].
  unfold cs, petzval, axial, lateral, c_u, c_h, c_d, c_power, c_colour, c_index, t_power, t. cbn [fold_right t_n t_dn t_c1 t_c2 mi_c mi_d]. repeat split; field.
Qed.
(** powers 2 and -1, Abbe numbers 50 and 25: no axial colour, hence no lateral colour, but a Petzval sum; powers 15 and -16 of
    glasses in which index and Abbe number are proportional: neither *)
Example C99_achromats : exists p0 p1, let es g c1 c2 := between p1 [lens_el p1 p0 (3/2) 1 c1 0; lens_el p0 p0 (8/5) g c2 0] in
  (exists rs xs, ptrace true 0 (es (12/5) 4 (-5/3)) (1, 0) (0, 1/10) 1 = Some rs /\ aberrations 0 (1/100) (es (12/5) 4 (-5/3)) rs = Some xs /\ column tachc xs = 0 /\ column tchc xs = 0 /\ column tpc xs <> 0) /\
  exists rs xs, ptrace true 0 (es (9/8) 30 (-80/3)) (1, 0) (0, 1/10) 1 = Some rs /\ aberrations 0 (1/100) (es (9/8) 30 (-80/3)) rs = Some xs /\ column tachc xs = 0 /\ column tchc xs = 0 /\ column tpc xs = 0.
Proof.
  destruct (centred_axis 0) as (p0 & _ & _ & D0 & _ & A0); [lra|]. destruct (centred_axis 1) as (p1 & _ & _ & D1 & _ & A1); [lra|]. exists p0, p1. intros es.
  assert (W : forall g c1 c2, 0 < g -> c1 <> 0 -> c2 <> 0 -> let t1 := Thin (3/2) (1/100) c1 0 0 0 in let t2 := Thin (8/5) (g/100) c2 0 0 0 in
    exists rs xs, ptrace true 0 (es g c1 c2) (1, 0) (0, 1/10) 1 = Some rs /\ aberrations 0 (1/100) (es g c1 c2) rs = Some xs /\
      (column tachc xs = 0 <-> c1 + g * c2 = 0) /\ (column tpc xs = 0 <-> c1 / 3 + 3 * c2 / 8 = 0) /\ (column tachc xs = 0 -> column tchc xs = 0)).
  { intros g c1 c2 GP Z1 Z2 t1 t2.
    assert (M : is_system 0 0 (1/100) (two 1 t1 0 t2) (es g c1 c2)) by (apply between_is; [exact A1|]; unfold two; constructor; [|constructor; [|constructor]]; apply lens_el_is; assumption).
    assert (G : Forall good (two 1 t1 0 t2)) by (unfold two, t1, t2; repeat constructor; cbn; lra).
    destruct (C99_components (two 1 t1 0 t2) (es g c1 c2) true 0 0 (1/100) (1, 0) (0, 1/10) M G ltac:(cbn; lra)) as (rs & xs & P & A & _). exists rs, xs. split; [exact P|]. split; [exact A|].
    destruct (C99_contact 1 t1 t2 (es g c1 c2) true 0 0 (1/100) (1, 0) (0, 1/10) rs xs M G ltac:(cbn; lra) ltac:(cbn; lra) ltac:(cbn; lra) ltac:(cbn; lra) P A) as (T1 & T2 & T3 & _). rewrite T1, T2 at 1.
    unfold abbe, t_power, t1, t2. cbn [t_n t_dn t_c1 t_c2]. split; [|split; [|exact T3]].
    - replace ((3 / 2 - 1) * (c1 - 0) / ((3 / 2 - 1) / (1 / 100)) + (8 / 5 - 1) * (c2 - 0) / ((8 / 5 - 1) / (g / 100))) with ((c1 + g * c2) / 100) by (field; lra). lra.
    - replace ((3 / 2 - 1) * (c1 - 0) / (3 / 2) + (8 / 5 - 1) * (c2 - 0) / (8 / 5)) with (c1 / 3 + 3 * c2 / 8) by field. tauto. }
  split.
  - destruct (W (12/5) 4 (-5/3)) as (rs & xs & P & A & T1 & T2 & T3); try lra. exists rs, xs. split; [exact P|]. split; [exact A|]. assert (Z : column tachc xs = 0) by (apply T1; lra). split; [exact Z|]. split; [exact (T3 Z)|]. rewrite T2. lra.
  - destruct (W (9/8) 30 (-80/3)) as (rs & xs & P & A & T1 & T2 & T3); try lra. exists rs, xs. split; [exact P|]. split; [exact A|]. assert (Z : column tachc xs = 0) by (apply T1; lra). split; [exact Z|]. split; [exact (T3 Z)|]. rewrite T2. lra.
Qed.
