(** Property C57: the chromatic coefficients are the first order change of the paraxial image with the indices. *)
From Coq Require Import Reals List Lra Lia Psatz.
From Verif Require Import Base Vec RotModel PlacementModel PlacementProofs ElementModel ElementProofs TraceProofs
  PropsElement ParaxialModel FirstOrder LimitProofs PropsLimit ThirdOrder ParaxTraceModel SeidelModel SeidelProofs PropsSeidel.
Import ListNotations.
Open Scope R_scope.

(** the glass at the strength [t] of its dispersion: every index moved by t times the difference between the
    wavelengths l1 and l2 *)
Definition tint (l1 l2 t : R) (e : element) : element :=
  match e_kind e with
  | Sph (Some m) s => El (e_place e) (e_radius e)
      (Sph (Some (Material (fun l => m_index m l + t * (m_index m l1 - m_index m l2)) (m_mirror m) (m_solid m))) s)
  | _ => e
  end.
(** dispersion of the medium behind an element *)
Definition medium (l1 l2 v : R) (e : element) : R :=
  match e_kind e with Sph (Some m) _ => m_index m l1 - m_index m l2 | _ => v end.
Definition has_material (e : element) : bool := match e_kind e with Sph (Some _) _ => true | _ => false end.
(** elements without a material stand in media without dispersion; [v] is the dispersion of the first medium *)
Fixpoint neutral (l1 l2 v : R) (es : list element) : Prop :=
  match es with
  | [] => True
  | e :: es => (has_material e = false -> v = 0) /\ neutral l1 l2 (medium l1 l2 v e) es
  end.

Lemma tint_facts l1 l2 l c t e : centred e -> conic_refracting l c e -> 0 < index_after (tint l1 l2 t e) 1 l ->
  centred (tint l1 l2 t e) /\ conic_refracting l c (tint l1 l2 t e) /\ e_place (tint l1 l2 t e) = e_place e /\ curv (tint l1 l2 t e) = curv e.
Proof.
  unfold centred, conic_refracting, tint, curv, index_after. destruct e as [p r [|[m|] s]]; cbn [e_kind e_place e_radius m_index m_mirror]; intuition.
Qed.
Lemma tint_index l1 l2 l c e n v N : conic_refracting l c e -> 0 < n -> lin N n v ->
  lin (fun t => index_after (tint l1 l2 t e) (N t) l) (index_after e n l) (medium l1 l2 v e) /\ 0 < index_after e n l /\
  near (fun t => 0 < index_after (tint l1 l2 t e) 1 l).
Proof.
  intros (_ & CK) P LN. unfold index_after, tint, medium. destruct e as [p r [|[m|] s]]; cbn [e_kind e_place e_radius m_index m_mirror] in *.
  - split; [exact LN|]. split; [exact P|]. apply near_true. intros; lra.
  - destruct CK as (_ & _ & _ & _ & MP).
    assert (L : forall k, lin (fun t => m_index m l + t * k) (m_index m l) k).
    { intros k. eapply lin_eq; [eapply lin_plus; [apply lin_const|eapply lin_mult; [apply lin_id|apply (lin_const k)]]|ring|ring]. }
    split; [apply L|]. split; [exact MP|]. exact (lin_pos _ _ _ (L _) MP).
  - split; [exact LN|]. split; [exact P|]. apply near_true. intros; lra.
Qed.

Lemma chromatic_open m s y u0 u n0 n v w x : aberration m s y u0 u n0 n v w = Some x ->
  let g := signed m n in let l := fst u * snd y - snd u * fst y in n0 <> 0 /\ l <> 0 /\ exists c, (s_asph s = None -> c = s_c s) /\
  tachc x = - fst y * (c * fst y + fst u0 / n0) / l * (v - n0 / g * w) /\ tchc x = - fst y * (c * snd y + snd u0 / n0) / l * (v - n0 / g * w).
Proof.
  unfold aberration. destruct (departure s) as [[k c]|] eqn:DE; [|discriminate]. cbn [obind]. fold (signed m n). intros E.
  repeat match type of E with obind (fdiv ?a ?b) _ = _ => let H := fresh "D" in destruct (fdiv a b) eqn:H; [|discriminate]; cbn [obind] in E; apply fdiv_inv in H; destruct H as (? & ->) end.
  injection E as <-. cbn [tachc tchc]. cbv zeta. split; [auto|]. split; [auto|]. exists c. split; [|split; reflexivity].
  intros A. unfold departure in DE. rewrite A in DE. congruence.
Qed.

(** the invariant between surfaces: [yd], [ud] are the changes of height and index times slope *)
Definition shift (n v um ym y u yd ud : R) : R := yd * um - (ud - v / n * u) * ym.
Lemma color_step m s d n n1 v v1 v0' um ym y u yd ud c : 0 < n -> 0 < n1 -> c = s_c s ->
  let ym1 := ym + d / n * um in let y1 := y + d / n * u in
  let yd1 := yd + ((0 * n - d * v) / (n * n) * u + d / n * ud) in
  let um1 := um + (n - n1) * c * ym1 in let u1 := u + (n - n1) * c * y1 in
  let ud1 := ud + ((v - v1) * c * y1 + (n - n1) * c * yd1) in
  match (m : option material) with Some _ => v0' = v1 | None => n1 = n /\ v1 = v /\ (ym1 = 0 \/ v0' = v1) end ->
  shift n1 v1 um1 ym1 y1 u1 yd1 ud1 = shift n v um ym y u yd ud + - ym1 * (c * y1 + u / n) * (v - n / n1 * v0').
Proof.
  intros N N1 -> ym1 y1 yd1 um1 u1 ud1 H. unfold shift.
  assert (K : yd1 * um1 - (ud1 - v1 / n1 * u1) * ym1 = yd * um - (ud - v / n * u) * ym + - ym1 * (s_c s * y1 + u / n) * (v - n / n1 * v1)).
  { unfold ud1, u1, um1, yd1, y1, ym1. field. lra. }
  rewrite K. destruct m; [rewrite H; reflexivity|]. destruct H as (_ & _ & [Z| ->]); [rewrite Z; ring|reflexivity].
Qed.

Lemma color_from axis l l1 l2 c es : forall N YM YC UM UC n v w ym yc um uc dym dyc dum duc rs xs,
  Forall centred es -> Forall (conic_refracting l c) es -> 0 < n -> lin N n v ->
  lin YM ym dym -> lin YC yc dyc -> lin UM um dum -> lin UC uc duc ->
  ptrace_from axis l es (V4 ym ym um um) (V4 yc yc uc uc) n = Some rs ->
  aberrations_from l1 l2 es (PRow (ym, yc) (um, uc) n) rs w = Some xs ->
  let L := um * yc - uc * ym in
  exists RS, near (fun t => ptrace_from axis l (map (tint l1 l2 t) es) (V4 (YM t) (YM t) (UM t) (UM t)) (V4 (YC t) (YC t) (UC t) (UC t)) (N t) = Some (RS t)) /\
  forall j r, nth_error rs j = Some r -> w = v -> neutral l1 l2 v (firstn j es) -> fst (ry r) = 0 ->
    fst (ru r) * snd (ry r) = L /\
    exists RM a b, (forall t, nth_error (RS t) j = Some (RM t)) /\ lin (fun t => fst (ry (RM t))) (fst (ry r)) a /\ lin (fun t => snd (ry (RM t))) (snd (ry r)) b /\
      a * fst (ru r) = shift n v um ym ym um dym dum + L * column tachc (firstn (S j) xs) /\
      b * fst (ru r) = shift n v um ym yc uc dyc duc + L * column tchc (firstn (S j) xs).
Proof.
  induction es as [|e es IH]; intros N YM YC UM UC n v w ym yc um uc dym dyc dum duc rs xs FC FR NP LN LYM LYC LUM LUC PT AB L.
  { cbn in PT. injection PT as <-. exists (fun _ => []). split; [apply near_true; reflexivity|]. intros [|j] r H; discriminate. }
  inversion FC as [|? ? CE CS]; subst. inversion FR as [|? ? RE RS0]; subst.
  destruct (matrix_centred e l c n CE RE NP) as (M & PM & MV).
  cbn [ptrace_from] in PT. unfold propagate_paraxial in PT. rewrite PM in PT. cbn [obind] in PT. rewrite !MV in PT. cbv zeta in PT.
  set (d := p_distance (e_place e)) in *. set (n1 := index_after e n l) in *.
  rewrite power_curv in PT. fold n1 in PT.
  set (ym1 := ym + d / n * um) in *. set (yc1 := yc + d / n * uc) in *.
  set (um1 := um + (n - n1) * curv e * ym1) in *. set (uc1 := uc + (n - n1) * curv e * yc1) in *.
  destruct (ptrace_from axis l es (V4 ym1 ym1 um1 um1) (V4 yc1 yc1 uc1 uc1) n1) as [rs1|] eqn:PT1; [|discriminate]. cbn [obind] in PT.
  assert (ROW : forall a b p q k, PRow (row_y axis (V4 a a p p), row_y axis (V4 b b q q)) (row_u axis (V4 a a p p), row_u axis (V4 b b q q)) k = PRow (a, b) (p, q) k) by (intros; destruct axis; reflexivity).
  rewrite ROW in PT. injection PT as <-. cbn [aberrations_from] in AB. cbn [ry ru rn] in AB.
  destruct (element_aberration e _ _ _ _ _ _ _) as [x|] eqn:EA; [|discriminate]. cbn [obind] in AB.
  destruct (aberrations_from l1 l2 es _ rs1 _) as [xs1|] eqn:AB1; [|discriminate]. cbn [obind] in AB. injection AB as <-.
  destruct (tint_index l1 l2 l c e n v N RE NP LN) as (LN1 & N1P & NT). fold n1 in LN1, N1P.
  set (v1 := medium l1 l2 v e) in *. set (N1 := fun t => index_after (tint l1 l2 t e) (N t) l) in *.
  set (YM1 := fun t => YM t + d / N t * UM t). set (YC1 := fun t => YC t + d / N t * UC t).
  set (UM1 := fun t => UM t + (N t - N1 t) * curv e * YM1 t). set (UC1 := fun t => UC t + (N t - N1 t) * curv e * YC1 t).
  set (dym1 := dym + ((0 * n - d * v) / (n * n) * um + d / n * dum)). set (dyc1 := dyc + ((0 * n - d * v) / (n * n) * uc + d / n * duc)).
  set (dum1 := dum + ((v - v1) * curv e * ym1 + (n - n1) * curv e * dym1)). set (duc1 := duc + ((v - v1) * curv e * yc1 + (n - n1) * curv e * dyc1)).
  assert (LD : lin (fun t => d / N t) (d / n) ((0 * n - d * v) / (n * n))).
  { eapply lin_eq; [eapply lin_div; [apply (lin_const d)|exact LN|lra]|reflexivity|field; lra]. }
  assert (LYM1 : lin YM1 ym1 dym1) by (apply lin_plus; [exact LYM|apply lin_mult; [exact LD|exact LUM]]).
  assert (LYC1 : lin YC1 yc1 dyc1) by (apply lin_plus; [exact LYC|apply lin_mult; [exact LD|exact LUC]]).
  assert (LW : lin (fun t => (N t - N1 t) * curv e) ((n - n1) * curv e) ((v - v1) * curv e)).
  { eapply lin_eq; [eapply lin_mult; [eapply lin_minus; [exact LN|exact LN1]|apply (lin_const (curv e))]|reflexivity|ring]. }
  assert (LUM1 : lin UM1 um1 dum1) by (apply lin_plus; [exact LUM|apply lin_mult; [exact LW|exact LYM1]]).
  assert (LUC1 : lin UC1 uc1 duc1) by (apply lin_plus; [exact LUC|apply lin_mult; [exact LW|exact LYC1]]).
  assert (LL : um1 * yc1 - uc1 * ym1 = L) by (unfold um1, uc1, ym1, yc1, L; ring).
  (* the change at this surface *)
  assert (STEP : w = v -> (has_material e = false -> v = 0) \/ ym1 = 0 ->
    shift n1 v1 um1 ym1 ym1 um1 dym1 dum1 = shift n v um ym ym um dym dum + L * tachc x /\
    shift n1 v1 um1 ym1 yc1 uc1 dyc1 duc1 = shift n v um ym yc uc dyc duc + L * tchc x).
  { intros -> OK. destruct RE as (_ & CK). unfold element_aberration in EA. destruct (e_kind e) as [|m s] eqn:EK.
    - injection EA as <-. cbn [tachc tchc no_coefs]. assert (NN : n1 = n) by (unfold n1, index_after; rewrite EK; reflexivity).
      assert (VV : v1 = v) by (unfold v1, medium; rewrite EK; reflexivity). assert (CZ : curv e = 0) by (unfold curv; rewrite EK; reflexivity).
      unfold shift, dum1, duc1, dym1, dyc1, um1, uc1, ym1, yc1. rewrite NN, VV, CZ. split; field; lra.
    - destruct CK as (AS & _ & _ & CM). assert (CU : curv e = s_c s) by (unfold curv; rewrite EK; reflexivity).
      destruct (chromatic_open _ _ _ _ _ _ _ _ _ _ EA) as (_ & LNZ & c' & EC & T1 & T2). specialize (EC AS). cbn [fst snd] in *. rewrite LL in *.
      assert (SG : signed m n1 = n1) by (unfold signed; destruct m as [m|]; [rewrite (proj1 CM)|]; reflexivity). rewrite SG in *. rewrite T1, T2, EC.
      assert (HM : match m with Some _ => element_dispersion e l1 l2 = v1 | None => n1 = n /\ v1 = v /\ (ym1 = 0 \/ element_dispersion e l1 l2 = v1) end).
      { unfold element_dispersion, v1, medium, n1, index_after, has_material in *. rewrite EK in *. destruct m as [m|]; [reflexivity|]. split; [reflexivity|]. split; [reflexivity|]. destruct OK as [OK|OK]; [right; rewrite OK; reflexivity|left; exact OK]. }
      unfold dum1, duc1, um1, uc1. unfold dum1, duc1, um1, uc1 in *. rewrite CU in *.
      split; (etransitivity; [eapply (color_step m s d n n1 v v1 (element_dispersion e l1 l2)); [exact NP|exact N1P|reflexivity|exact HM]|]); fold ym1 yc1; field; split; try exact LNZ; lra. }
  (* the trace of the tinted element *)
  assert (TR : near (fun t => forall tail, ptrace_from axis l (map (tint l1 l2 t) es) (V4 (YM1 t) (YM1 t) (UM1 t) (UM1 t)) (V4 (YC1 t) (YC1 t) (UC1 t) (UC1 t)) (N1 t) = Some tail ->
     ptrace_from axis l (map (tint l1 l2 t) (e :: es)) (V4 (YM t) (YM t) (UM t) (UM t)) (V4 (YC t) (YC t) (UC t) (UC t)) (N t) =
     Some (PRow (YM1 t, YC1 t) (UM1 t, UC1 t) (N1 t) :: tail))).
  { eapply near_impl; [|exact (near_and _ _ NT (lin_pos _ _ _ LN NP))]. intros t (Q1 & Q2) tail TT.
    destruct (tint_facts l1 l2 l c t e CE RE Q1) as (CE' & RE' & PE' & CU').
    destruct (matrix_centred _ l c (N t) CE' RE' Q2) as (M' & PM' & MV').
    cbn [map ptrace_from]. unfold propagate_paraxial. rewrite PM'. cbn [obind]. rewrite !MV'. cbv zeta. rewrite power_curv, PE', CU'.
    fold (N1 t). fold d. fold (YM1 t) (YC1 t). fold (UM1 t) (UC1 t). rewrite TT. cbn [obind]. rewrite ROW. reflexivity. }
  destruct (IH N1 YM1 YC1 UM1 UC1 n1 v1 (element_dispersion e l1 l2) ym1 yc1 um1 uc1 dym1 dyc1 dum1 duc1 rs1 xs1 CS RS0 N1P LN1 LYM1 LYC1 LUM1 LUC1 PT1 AB1) as (RS & NRS & ALL).
  rewrite LL in ALL. exists (fun t => PRow (YM1 t, YC1 t) (UM1 t, UC1 t) (N1 t) :: RS t). split.
  { eapply near_impl; [|exact (near_and _ _ TR NRS)]. intros t (Q1 & Q2). exact (Q1 _ Q2). }
  intros [|j] r RJ WV NE RZ.
  - cbn [nth_error] in RJ. injection RJ as <-. cbn [ry ru fst snd] in *. destruct (STEP WV (or_intror RZ)) as (S1 & S2).
    split; [rewrite <- LL, RZ; ring|]. exists (fun t => PRow (YM1 t, YC1 t) (UM1 t, UC1 t) (N1 t)), dym1, dyc1. split; [reflexivity|]. cbn [ry fst snd].
    split; [exact LYM1|]. split; [exact LYC1|]. unfold column. cbn [firstn fold_right]. rewrite !Rplus_0_r, <- S1, <- S2. unfold shift. rewrite RZ. split; ring.
  - cbn [nth_error firstn neutral] in *. destruct NE as (OK & NE). destruct (STEP WV (or_introl OK)) as (S1 & S2).
    assert (DV : element_dispersion e l1 l2 = v1).
    { unfold element_dispersion, v1, medium, has_material in *. destruct (e_kind e) as [|[m|] s]; auto; symmetry; apply OK; reflexivity. }
    destruct (ALL j r RJ DV NE RZ) as (LR & RM & a & b & H1 & H2 & H3 & H4 & H5). split; [exact LR|]. exists RM, a, b. split; [exact H1|]. split; [exact H2|]. split; [exact H3|].
    rewrite H4, H5, S1, S2. unfold column. cbn [firstn fold_right]. split; ring.
Qed.

(** Behind a centred system of refracting conics, in a plane where the marginal ray crosses the axis: the derivatives
    of the heights of marginal and chief ray with the strength of the dispersion are the summed axial and lateral colour
    times the chief ray height. *)
Theorem C57_chromatic axis l l1 l2 c e0 es n ym yc um uc rs xs j r :
  Forall centred es -> Forall (conic_refracting l c) es -> 0 < n -> um * yc - uc * ym <> 0 ->
  ptrace axis l (e0 :: es) (ym, yc) (um, uc) n = Some rs -> aberrations l1 l2 (e0 :: es) rs = Some xs ->
  neutral l1 l2 0 (firstn j es) -> nth_error rs (S j) = Some r -> fst (ry r) = 0 ->
  exists RM, (exists eps, 0 < eps /\ forall t, Rabs t < eps -> exists rst,
      ptrace axis l (map (tint l1 l2 t) (e0 :: es)) (ym, yc) (um, uc) n = Some rst /\ nth_error rst (S j) = Some (RM t)) /\
    derivable_pt_lim (fun t => fst (ry (RM t))) 0 (snd (ry r) * column tachc (firstn (S (S j)) xs)) /\
    derivable_pt_lim (fun t => snd (ry (RM t))) 0 (snd (ry r) * column tchc (firstn (S (S j)) xs)).
Proof.
  intros FC FR N LN PT AB NE RJ RZ.
  unfold ptrace in PT. destruct (ptrace_from _ _ _ _ _ _) as [rs1|] eqn:PT1; [|discriminate]. cbn [obind] in PT. injection PT as <-.
  unfold aberrations in AB. destruct (aberrations_from _ _ _ _ _ _) as [xs1|] eqn:AB1; [|discriminate]. cbn [obind] in AB. injection AB as <-.
  cbn [fst snd] in PT1. cbn [nth_error] in RJ.
  destruct (color_from axis l l1 l2 c es (fun _ => n) (fun _ => ym) (fun _ => yc) (fun _ => um) (fun _ => uc) n 0 0 ym yc um uc 0 0 0 0 rs1 xs1 FC FR N
    (lin_const n) (lin_const ym) (lin_const yc) (lin_const um) (lin_const uc) PT1 AB1) as (RS & (eps & EP & NR) & ALL).
  destruct (ALL j r RJ eq_refl NE RZ) as (LR & RM & a & b & H1 & (_ & H2) & (_ & H3) & H4 & H5).
  assert (UM : fst (ru r) <> 0) by (intros Z; rewrite Z, Rmult_0_l in LR; auto).
  exists RM. split.
  - exists eps. split; [exact EP|]. intros t T. exists (PRow (ym, yc) (um, uc) n :: RS t). split; [|apply H1].
    unfold ptrace. cbn [map fst snd]. rewrite (NR t T). reflexivity.
  - change (firstn (S (S j)) (no_coefs :: xs1)) with (no_coefs :: firstn (S j) xs1). rewrite !column_cons. cbn [no_coefs tachc tchc]. rewrite !Rplus_0_l.
    assert (SH : forall y u, shift n 0 um ym y u 0 0 = 0) by (intros; unfold shift; field; lra). rewrite SH in H4, H5. rewrite <- LR in H4, H5.
    split.
    + replace (snd (ry r) * column tachc (firstn (S j) xs1)) with a; [exact H2|]. apply (Rmult_eq_reg_r (fst (ru r))); [lra|auto].
    + replace (snd (ry r) * column tchc (firstn (S j) xs1)) with b; [exact H3|]. apply (Rmult_eq_reg_r (fst (ru r))); [lra|auto].
Qed.

(** * one dispersive lens, with and without a stop inside the glass *)
Lemma pstep axis l c e es n ym yc um uc : centred e -> conic_refracting l c e -> 0 < n ->
  let d := p_distance (e_place e) in let n1 := index_after e n l in let ym1 := ym + d / n * um in let yc1 := yc + d / n * uc in
  let um1 := um + (n - n1) * curv e * ym1 in let uc1 := uc + (n - n1) * curv e * yc1 in
  ptrace_from axis l (e :: es) (V4 ym ym um um) (V4 yc yc uc uc) n =
  do rs <- ptrace_from axis l es (V4 ym1 ym1 um1 um1) (V4 yc1 yc1 uc1 uc1) n1; Some (PRow (ym1, yc1) (um1, uc1) n1 :: rs).
Proof.
  intros CE RE N. destruct (matrix_centred e l c n CE RE N) as (M & PM & MV). cbv zeta.
  cbn [ptrace_from]. unfold propagate_paraxial. rewrite PM. cbn [obind]. rewrite !MV. cbv zeta. rewrite power_curv. destruct axis; reflexivity.
Qed.
Definition flint : material := Material (fun l => 1 + l) false true.
Definition vacuum_1 : material := Material (fun _ => 1) false false.
Definition lens (p : placement) : element := El p None (Sph (Some flint) (Surf 1 0 None false)).
Definition window (p : placement) : element := El p None (Sph (Some vacuum_1) (Surf 0 0 None false)).
Definition plane (p : placement) : element := El p None Plain.
Definition first (N : R) := PRow (1, 0) (1 - N, 1) N.
Definition inside (N : R) := PRow (/ N, / N) (1 - N, 1) N.
Definition outside (N : R) := PRow (/ N, / N) (1 - N, 1) 1.
Definition last (N : R) := PRow (/ N - (N - 1) / 2, / N + / 2) (1 - N, 1) 1.
Definition acts (e : element) (d k : R) (i : R -> R) : Prop :=
  centred e /\ conic_refracting 1 true e /\ p_distance (e_place e) = d /\ curv e = k /\ forall n, index_after e n 1 = i n.
Lemma lens_trace N o a w1 w0 q1 q2 : 0 < N -> acts a 0 1 (fun _ => N) -> acts w1 1 0 (fun _ => 1) -> acts w0 0 0 (fun _ => 1) -> acts q1 1 0 (fun n => n) -> acts q2 (/ 2) 0 (fun n => n) ->
  ptrace true 1 [o; a; w1; q2] (1, 0) (0, 1) 1 = Some [PRow (1, 0) (0, 1) 1; first N; outside N; last N] /\
  ptrace true 1 [o; a; q1; w0; q2] (1, 0) (0, 1) 1 = Some [PRow (1, 0) (0, 1) 1; first N; inside N; outside N; last N].
Proof.
  intros P (CA & RA & DA & KA & IA) (CW1 & RW1 & DW1 & KW1 & IW1) (CW0 & RW0 & DW0 & KW0 & IW0) (CQ1 & RQ1 & DQ1 & KQ1 & IQ1) (CQ2 & RQ2 & DQ2 & KQ2 & IQ2).
  unfold first, inside, outside, last. cbn [ptrace fst snd]. split.
  - rewrite (pstep true 1 true a _ 1 1 0 0 1 CA RA Rlt_0_1). rewrite IA, KA, DA.
    rewrite (pstep true 1 true w1 _ N _ _ _ _ CW1 RW1 P). rewrite IW1, KW1, DW1.
    rewrite (pstep true 1 true q2 _ 1 _ _ _ _ CQ2 RQ2 Rlt_0_1). rewrite IQ2, KQ2, DQ2. cbn [ptrace_from obind]. parts; field; lra.
  - rewrite (pstep true 1 true a _ 1 1 0 0 1 CA RA Rlt_0_1). rewrite IA, KA, DA.
    rewrite (pstep true 1 true q1 _ N _ _ _ _ CQ1 RQ1 P). rewrite IQ1, KQ1, DQ1.
    rewrite (pstep true 1 true w0 _ N _ _ _ _ CW0 RW0 P). rewrite IW0, KW0, DW0.
    rewrite (pstep true 1 true q2 _ 1 _ _ _ _ CQ2 RQ2 Rlt_0_1). rewrite IQ2, KQ2, DQ2. cbn [ptrace_from obind]. parts; field; lra.
Qed.
Lemma acts_plane p d : centred (plane p) -> p_distance p = d -> acts (plane p) d 0 (fun n => n).
Proof. intros C D. split; [exact C|]. split; [split; [discriminate|exact I]|]. split; [exact D|]. split; reflexivity. Qed.
Lemma acts_window p d : centred (plane p) -> p_distance p = d -> acts (window p) d 0 (fun _ => 1).
Proof. intros C D. split; [exact C|]. split; [split; [discriminate|]; cbn; split; [auto|]; split; [auto|]; split; [left; lra|]; split; [auto|lra]|]. split; [exact D|]. split; reflexivity. Qed.
Lemma acts_lens p d : centred (plane p) -> p_distance p = d -> acts (lens p) d 1 (fun _ => 2).
Proof. intros C D. split; [exact C|]. split; [split; [discriminate|]; cbn; split; [auto|]; split; [auto|]; split; [right; lra|]; split; [auto|lra]|]. split; [exact D|]. split; [reflexivity|]. intros n. cbn. ring. Qed.
Lemma acts_tint e d k i t l1 l2 : acts e d k i -> 0 < index_after (tint l1 l2 t e) 1 1 -> acts (tint l1 l2 t e) d k (fun n => index_after (tint l1 l2 t e) n 1).
Proof.
  intros (C & Rr & D & K & _) P. destruct (tint_facts l1 l2 1 true t e C Rr P) as (H1 & H2 & H3 & H4).
  split; [exact H1|]. split; [exact H2|]. rewrite H3, H4. auto.
Qed.
Lemma acts_ext e d k i j : acts e d k i -> (forall n, i n = j n) -> acts e d k j.
Proof. intros (C & Rr & D & K & I) E. repeat (split; [assumption|]). intros n. rewrite I. apply E. Qed.

Lemma demo_lens : exists p0 p1 p2, let without := [plane p0; lens p0; window p1; plane p2] in let with_stop := [plane p0; lens p0; plane p1; window p0; plane p2] in
  Forall centred (tl without) /\ Forall (conic_refracting 1 true) (tl without) /\ Forall centred (tl with_stop) /\ Forall (conic_refracting 1 true) (tl with_stop) /\
  ptrace true 1 without (1, 0) (0, 1) 1 = Some [PRow (1, 0) (0, 1) 1; first 2; outside 2; last 2] /\
  ptrace true 1 with_stop (1, 0) (0, 1) 1 = Some [PRow (1, 0) (0, 1) 1; first 2; inside 2; outside 2; last 2] /\
  (forall t, Rabs t < 1 -> ptrace true 1 (map (tint 2 1 t) with_stop) (1, 0) (0, 1) 1 = Some [PRow (1, 0) (0, 1) 1; first (2 + t); inside (2 + t); outside (2 + t); last (2 + t)]).
Proof.
  destruct (centred_axis 0) as (p0 & _ & U0 & D0 & I0 & A0); [lra|]. destruct (centred_axis 1) as (p1 & _ & U1 & D1 & I1 & A1); [lra|]. destruct (centred_axis (/ 2)) as (p2 & _ & U2 & D2 & I2 & A2); [lra|].
  exists p0, p1, p2. cbv zeta.
  assert (C0 : centred (plane p0)) by (split; auto). assert (C1 : centred (plane p1)) by (split; auto). assert (C2 : centred (plane p2)) by (split; auto).
  pose proof (acts_lens p0 0 C0 D0) as L. pose proof (acts_window p1 1 C1 D1) as W1. pose proof (acts_window p0 0 C0 D0) as W0. pose proof (acts_plane p1 1 C1 D1) as Q1. pose proof (acts_plane p2 (/ 2) C2 D2) as Q2.
  cbn [tl]. split; [repeat (apply Forall_cons; [assumption|]); apply Forall_nil|].
  split; [apply Forall_cons; [apply L|]; apply Forall_cons; [apply W1|]; apply Forall_cons; [apply Q2|]; apply Forall_nil|].
  split; [repeat (apply Forall_cons; [assumption|]); apply Forall_nil|].
  split; [apply Forall_cons; [apply L|]; apply Forall_cons; [apply Q1|]; apply Forall_cons; [apply W0|]; apply Forall_cons; [apply Q2|]; apply Forall_nil|].
  destruct (lens_trace 2 (plane p0) _ _ _ _ _ ltac:(lra) L W1 W0 Q1 Q2) as (T1 & T2). split; [exact T1|]. split; [exact T2|].
  intros t T. apply Rabs_def2 in T. cbn [map].
  apply (lens_trace (2 + t) _ (tint 2 1 t (lens p0)) (tint 2 1 t (window p1)) (tint 2 1 t (window p0)) (tint 2 1 t (plane p1)) (tint 2 1 t (plane p2))); [lra| | | | |].
  - eapply acts_ext; [eapply acts_tint; [exact L|cbn; lra]|intros; cbn; ring].
  - eapply acts_ext; [eapply acts_tint; [exact W1|cbn; lra]|intros; cbn; ring].
  - eapply acts_ext; [eapply acts_tint; [exact W0|cbn; lra]|intros; cbn; ring].
  - exact Q1.
  - exact Q2.
Qed.

Ltac colours := unfold aberrations, aberrations_from, element_aberration, element_dispersion, aberration, departure, first, inside, outside, last, lens, window, plane;
  cbn [e_kind ry ru rn s_asph s_c s_k m_mirror m_index flint vacuum_1 fst snd obind];
  repeat (rewrite fdiv_some by lra; cbn [obind]).
(** the lens alone: the coefficients give the derivative -3/4 of 1/n - (n-1)/2 at n = 2 *)
Example C57_chromatic_example : exists e0 es rs xs r, Forall centred es /\ Forall (conic_refracting 1 true) es /\
  ptrace true 1 (e0 :: es) (1, 0) (0, 1) 1 = Some rs /\ aberrations 2 1 (e0 :: es) rs = Some xs /\ neutral 2 1 0 (firstn 2 es) /\
  nth_error rs 3 = Some r /\ fst (ry r) = 0 /\ snd (ry r) * column tachc (firstn 4 xs) = - 3 / 4 /\ snd (ry r) * column tchc (firstn 4 xs) = - 1 / 4.
Proof.
  destruct demo_lens as (p0 & p1 & p2 & FC & FR & _ & _ & PT & _ & _). cbn [tl] in FC, FR. do 5 eexists.
  split; [exact FC|]. split; [exact FR|]. split; [exact PT|]. split; [colours; reflexivity|].
  split; [cbn; split; [discriminate|]; split; [discriminate|exact I]|]. split; [reflexivity|].
  cbn. split; [field|]. split; field.
Qed.

(** A plain element inside the glass makes the coefficients forget its dispersion: all hypotheses of C57_chromatic
    hold except that one, the image moves by -3/4, the coefficients say -1/2. *)
Theorem C57_stop_in_glass_refuted : exists e0 es rs xs r RM, Forall centred es /\ Forall (conic_refracting 1 true) es /\
  ptrace true 1 (e0 :: es) (1, 0) (0, 1) 1 = Some rs /\ aberrations 2 1 (e0 :: es) rs = Some xs /\ nth_error rs 4 = Some r /\ fst (ry r) = 0 /\
  (forall t, Rabs t < 1 -> exists rst, ptrace true 1 (map (tint 2 1 t) (e0 :: es)) (1, 0) (0, 1) 1 = Some rst /\ nth_error rst 4 = Some (RM t)) /\
  derivable_pt_lim (fun t => fst (ry (RM t))) 0 (- 3 / 4) /\ snd (ry r) * column tachc (firstn 5 xs) = - 1 / 2.
Proof.
  destruct demo_lens as (p0 & p1 & p2 & _ & _ & FC & FR & _ & PT & TT). cbn [tl] in FC, FR. do 5 eexists. exists (fun t => last (2 + t)).
  split; [exact FC|]. split; [exact FR|]. split; [exact PT|]. split; [colours; reflexivity|]. split; [reflexivity|].
  split; [cbn; field|]. split; [intros t T; eexists; split; [exact (TT t T)|reflexivity]|]. split; [|cbn; field].
  unfold last. cbn [ry fst].
  assert (L : lin (fun t => 1 / (2 + t) - (2 + t - 1) / 2) (1 / (2 + 0) - (2 + 0 - 1) / 2) (- 3 / 4)).
  { assert (L2 : lin (fun t : R => 2 + t) 2 1) by (eapply lin_eq; [eapply lin_plus; [apply (lin_const 2)|apply lin_id]|ring|ring]).
    eapply lin_eq; [eapply lin_minus; [eapply lin_div; [apply (lin_const 1)|exact L2|lra]|eapply lin_div; [eapply lin_minus; [exact L2|apply (lin_const 1)]|apply (lin_const 2)|lra]]|field|field]. }
  assert (EX : forall t, 1 / (2 + t) - (2 + t - 1) / 2 = / (2 + t) - (2 + t - 1) / 2) by (intros; unfold Rdiv; ring).
  exact (proj2 (lin_ext _ _ _ _ EX L)).
Qed.

Print Assumptions C57_chromatic.
Print Assumptions C57_stop_in_glass_refuted.
