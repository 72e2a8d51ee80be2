(** Property C56: the third order coefficients are the third order of the exact trace. *)
From Coq Require Import Reals List Lra Lia Psatz.
From Verif Require Import Base Vec RotModel PlacementModel PlacementProofs ElementModel ElementProofs TraceProofs
  PropsElement ParaxialModel FirstOrder LimitProofs PropsLimit ThirdOrder ParaxTraceModel SeidelModel SeidelProofs.
Import ListNotations.
Open Scope R_scope.

(** exact ray through the point h*y of the vertex plane with tangents h*t *)
Definition launch_Y (y : R * R) (h : R) : vec := V (h * fst y) (h * snd y) 0.
Definition launch_U (t : R * R) (h : R) : vec :=
  let w := sqrt (1 + h * h * (fst t * fst t + snd t * snd t)) in V (h * fst t / w) (h * snd t / w) (1 / w).
(** combination of the marginal and the chief ray: pupil point [a], field point [b] *)
Definition mix (m c : R) (a b : R * R) : R * R := (m * fst a + c * fst b, m * snd a + c * snd b).
Definition scale2 (s : R) (a : R * R) : R * R := (s * fst a, s * snd a).
Definition inner (a b : R * R) : R := fst a * fst b + snd a * snd b.
(** spherical aberration, coma, astigmatism, field curvature and distortion of pupil point [a], field point [b] *)
Definition error_pattern (sph coma ast petz dist : R) (a b : R * R) : R * R :=
  mix (sph * inner a a + 2 * coma * inner a b + (ast + petz) * inner b b)
      (coma * inner a a + 2 * ast * inner a b + dist * inner b b) a b.
(** sums of the columns *)
Definition column (f : coefs -> R) (xs : list coefs) : R := fold_right (fun x s => f x + s) 0 xs.
(** a reference plane *)
Definition flat (e : element) : Prop := match e_kind e with Plain => True | Sph _ s => s_c s = 0 end.

Lemma launch_third n y t : 0 < n -> third (launch_Y y) (launch_U (scale2 (/ n) t)) n (fst y) (snd y) 0 0 (fst t) (snd t) 0 0.
Proof.
  intros N. destruct y as [y1 y2], t as [t1 t2]. cbn [fst snd]. set (s := scale2 (/ n) (t1, t2)).
  assert (S1 : fst s = t1 / n) by (unfold s, scale2; cbn; field; lra). assert (S2 : snd s = t2 / n) by (unfold s, scale2; cbn; field; lra).
  assert (Q : forall h, 0 < 1 + h * h * (fst s * fst s + snd s * snd s)).
  { intros h. assert (0 <= h * h * (fst s * fst s + snd s * snd s)); [|lra]. apply Rmult_le_pos; [nra|]. nra. }
  assert (QS : forall h, 0 < sqrt (1 + h * h * (fst s * fst s + snd s * snd s))) by (intros h; apply sqrt_lt_R0, Q).
  assert (LW : exists b, lin (fun h => sqrt (1 + h * h * (fst s * fst s + snd s * snd s))) 1 b).
  { eexists. eapply lin_eq; [apply (lin_sqrt _ 1); [eapply lin_eq; [eapply lin_plus; [apply (lin_const 1)|eapply lin_mult; [eapply lin_mult; [apply lin_id|apply lin_id]|apply lin_const]]|ring|reflexivity]|apply Rlt_0_1]|apply sqrt_1|reflexivity]. }
  destruct LW as (b & LW).
  constructor.
  - exists 0. unfold launch_Y. split; [|split]; cbn [vx vy vz v0 fst snd].
    + eapply lin_eq; [eapply lin_mult; [apply lin_id|apply (lin_const y1)]|ring|ring].
    + eapply lin_eq; [eapply lin_mult; [apply lin_id|apply (lin_const y2)]|ring|ring].
    + apply lin_const.
  - exists (- b). unfold launch_U. split; [|split]; cbn [vx vy vz ez].
    + eapply lin_eq; [eapply lin_div; [eapply lin_mult; [apply lin_id|apply (lin_const (fst s))]|exact LW|lra]|field|rewrite S1; field; lra].
    + eapply lin_eq; [eapply lin_div; [eapply lin_mult; [apply lin_id|apply (lin_const (snd s))]|exact LW|lra]|field|rewrite S2; field; lra].
    + eapply lin_eq; [eapply lin_div; [apply (lin_const 1)|exact LW|lra]|field|field].
  - apply near_true. intros h. unfold launch_U, dot. cbn [vx vy vz]. set (w := sqrt _) in *. pose proof (QS h) as W. fold w in W.
    assert (WW : w * w = 1 + h * h * (fst s * fst s + snd s * snd s)) by (apply sqrt_sqrt; pose proof (Q h); lra).
    apply (Rmult_eq_reg_r (w * w)); [|nra]. rewrite Rmult_1_l. rewrite WW at 2. field. lra.
  - eapply jet_ext; [|apply (jet_const y1)]. apply all_nearly. intros h H. unfold launch_Y. cbn [vx vz fst]. rewrite Rmult_0_l, Rminus_0_r. field. auto.
  - eapply jet_ext; [|apply (jet_const y2)]. apply all_nearly. intros h H. unfold launch_Y. cbn [vy vz snd]. rewrite Rmult_0_l, Rminus_0_r. field. auto.
  - eapply jet_ext; [|apply (jet_const t1)]. apply all_nearly. intros h H. unfold launch_U. cbn [vx vz]. pose proof (QS h) as W. set (w := sqrt _) in *. clearbody w. rewrite S1. field. repeat split; lra.
  - eapply jet_ext; [|apply (jet_const t2)]. apply all_nearly. intros h H. unfold launch_U. cbn [vy vz]. pose proof (QS h) as W. set (w := sqrt _) in *. clearbody w. rewrite S2. field. repeat split; lra.
Qed.
Lemma pattern_columns xs A B : error_pattern (column tsc xs) (column cc xs) (column tac xs) (column tpc xs) (column dc xs) A B =
  (total (fun x => pattern x A B fst) xs, total (fun x => pattern x A B snd) xs).
Proof.
  unfold error_pattern, mix. cbn [fst snd]. f_equal.
  - induction xs as [|x xs IH]; [cbn; ring|]. unfold column in *. cbn [fold_right total]. rewrite <- IH. unfold pattern, pdot, inner. ring.
  - induction xs as [|x xs IH]; [cbn; ring|]. unfold column in *. cbn [fold_right total]. rewrite <- IH. unfold pattern, pdot, inner. ring.
Qed.
Lemma column_cons f xs : column f (no_coefs :: xs) = f no_coefs + column f xs. Proof. reflexivity. Qed.

(** Exact rays of a centred system of refracting conic surfaces, aimed at pupil point [A] of field point [B] by the
    paraxial marginal and chief ray and shrunk by h: in the plane where the marginal ray crosses the axis they miss
    the paraxial image point by the error pattern with the summed coefficients, times the chief ray height, times h^3. *)
Theorem C56_third_order newton axis l1 l2 e0 es l c n ym yc um uc A B rs xs j e r :
  centred e0 -> Forall centred es -> Forall (conic_refracting l c) es -> 0 < n -> um * yc - uc * ym <> 0 ->
  ptrace axis l (e0 :: es) (ym, yc) (um, uc) n = Some rs -> aberrations l1 l2 (e0 :: es) rs = Some xs ->
  nth_error es j = Some e -> flat e -> nth_error rs (S j) = Some r -> fst (ry r) = 0 ->
  let E := error_pattern (column tsc (firstn (S (S j)) xs)) (column cc (firstn (S (S j)) xs)) (column tac (firstn (S (S j)) xs))
    (column tpc (firstn (S (S j)) xs)) (column dc (firstn (S (S j)) xs)) A B in
  let H := snd (ry r) in
  exists X1 X2, (exists eps, 0 < eps /\ forall h, Rabs h < eps -> exists s,
      nth_error (geo_trace newton (e0 :: es) (launch_Y (mix ym yc A B) h) (launch_U (scale2 (/ n) (mix um uc A B)) h) n l c) (S j) = Some s /\
      st_y s = Some (V (X1 h) (X2 h) 0)) /\
    limit1_in (fun h => (X1 h - h * (H * fst B)) / h ^ 3) (fun h => h <> 0) (H * fst E) 0 /\
    limit1_in (fun h => (X2 h - h * (H * snd B)) / h ^ 3) (fun h => h <> 0) (H * snd E) 0.
Proof.
  intros C0 FC FR N LN PT AB EJ FL RJ RZ E H.
  unfold ptrace in PT. destruct (ptrace_from _ _ _ _ _ _) as [rs1|] eqn:PT1; [|discriminate]. cbn [obind] in PT. injection PT as <-.
  unfold aberrations in AB. destruct (aberrations_from _ _ _ _ _ _) as [xs1|] eqn:AB1; [|discriminate]. cbn [obind] in AB. injection AB as <-.
  cbn [fst snd] in PT1. cbn [nth_error] in RJ.
  pose proof (launch_third n (mix ym yc A B) (mix um uc A B) N) as TH. unfold mix in TH at 3 4 5 6. cbn [fst snd] in TH.
  destruct (system_third newton axis l1 l2 es l c n _ _ ym yc um uc A B 0 0 0 0 rs1 0 xs1 FC FR N LN TH PT1 AB1 j e r EJ RJ)
    as (LL & Y' & U' & bx & by_ & qx & qy & T' & EX & EY & F & NN).
  fold H in LL, T'. rewrite RZ in *. rewrite Rmult_0_r, Rminus_0_r in *.
  assert (UM : fst (ru r) <> 0) by (intros Z; rewrite Z, Rmult_0_l in LL; auto).
  assert (CZ : curv e = 0) by (unfold flat, curv in *; destruct (e_kind e); auto).
  specialize (F CZ). rewrite <- LL in EX, EY.
  assert (PE : E = (total (fun x => pattern x A B fst) (firstn (S j) xs1), total (fun x => pattern x A B snd) (firstn (S j) xs1))).
  { unfold E. cbn [firstn]. rewrite !column_cons. cbn [no_coefs tsc cc tac tpc dc]. rewrite !Rplus_0_l. apply pattern_columns. }
  assert (BX : bx = H * fst E) by (rewrite PE; cbn [fst]; apply (Rmult_eq_reg_r (fst (ru r))); [lra|auto]).
  assert (BY : by_ = H * snd E) by (rewrite PE; cbn [snd]; apply (Rmult_eq_reg_r (fst (ru r))); [lra|auto]).
  exists (fun h => vx (Y' h)), (fun h => vy (Y' h)). split; [|split].
  - destruct (near_and _ _ F NN) as (eps & P & K). exists eps. split; [auto|]. intros h L. destruct (K h L) as (Z & (s & H1 & H2 & _)).
    exists s. cbn [geo_trace nth_error]. destruct (centred_frame e0 C0) as (_ & _ & _ & FN). rewrite !FN. split; [exact H1|]. rewrite H2. f_equal.
    destruct (Y' h) as [a b z]. cbn in *. rewrite Z. reflexivity.
  - destruct T' as [_ _ _ (_ & J) _ _ _]. rewrite <- BX. eapply tends_ext; [|exact J].
    eapply nearly_impl; [|exact (near_nearly _ F)]. intros h NZ Z. cbn in Z. rewrite Z, Rmult_0_l, Rminus_0_r. field. auto.
  - destruct T' as [_ _ _ _ (_ & J) _ _]. rewrite <- BY. eapply tends_ext; [|exact J].
    eapply nearly_impl; [|exact (near_nearly _ F)]. intros h NZ Z. cbn in Z. rewrite Z, Rmult_0_l, Rminus_0_r. field. auto.
Qed.

(** transverse3 lists these errors in image heights if the image is not inverted with respect to the chief ray *)
Lemma column_scale (f : coefs -> R) H xs : (forall x, f (scale_coefs H x) = f x * H) -> column f (map (scale_coefs H) xs) = H * column f xs.
Proof. intros F. induction xs as [|x xs IH]; [cbn; ring|]. unfold column in *. cbn [map fold_right]. rewrite IH, F. ring. Qed.
Theorem C56_transverse3 rs xs ts r A B : back rs 1 = Some r -> 0 < snd (ry r) -> transverse3 rs xs = Some ts ->
  length ts = length xs /\
  scale2 (snd (ry r)) (error_pattern (column tsc xs) (column cc xs) (column tac xs) (column tpc xs) (column dc xs) A B) =
  error_pattern (column tsc ts) (column cc ts) (column tac ts) (column tpc ts) (column dc ts) A B.
Proof.
  intros BK P T. unfold transverse3 in T. rewrite BK in T. cbn [obind] in T. injection T as <-. rewrite Rabs_pos_eq by lra. split; [apply map_length|].
  rewrite !column_scale by reflexivity. unfold scale2, error_pattern, mix. cbn [fst snd]. f_equal; ring.
Qed.

(** the two chromatic columns are listed in image heights as well *)
Theorem C57_transverse rs xs ts r : back rs 1 = Some r -> transverse3 rs xs = Some ts ->
  column tachc ts = Rabs (snd (ry r)) * column tachc xs /\ column tchc ts = Rabs (snd (ry r)) * column tchc xs.
Proof.
  intros BK T. unfold transverse3 in T. rewrite BK in T. cbn [obind] in T. injection T as <-. rewrite !column_scale by reflexivity. auto.
Qed.
Example C57_transverse_example : exists ts, transverse3 [PRow (1, 0) (0, 1) 1; PRow (0, -3) (-1, 1) 2] [no_coefs; Coefs 2 0 0 0 0 5 7] = Some ts /\
  back [PRow (1, 0) (0, 1) 1; PRow (0, -3) (-1, 1) 2] 1 = Some (PRow (0, -3) (-1, 1) 2) /\ column tachc ts = 15 /\ column tchc ts = 21.
Proof.
  eexists. split; [reflexivity|]. split; [reflexivity|]. cbn [ry snd]. rewrite Rabs_left by lra. cbn. lra.
Qed.
Lemma prow_eq y u n y' u' n' : y = y' -> u = u' -> n = n' -> PRow y u n = PRow y' u' n'. Proof. intros -> -> ->. reflexivity. Qed.
Lemma coefs_eq a b c d e f g a' b' c' d' e' f' g' : a = a' -> b = b' -> c = c' -> d = d' -> e = e' -> f = f' -> g = g' -> Coefs a b c d e f g = Coefs a' b' c' d' e' f' g'.
Proof. intros -> -> -> -> -> -> ->. reflexivity. Qed.
Ltac parts := repeat match goal with
  | |- Some _ = Some _ => apply f_equal | |- @cons _ _ _ = @cons _ _ _ => apply f_equal2; [|try reflexivity]
  | |- PRow _ _ _ = PRow _ _ _ => apply prow_eq | |- Coefs _ _ _ _ _ _ _ = Coefs _ _ _ _ _ _ _ => apply coefs_eq
  | |- (_, _) = (_, _) => apply f_equal2 end.
(** * a single sphere of index 2 with its focus in the glass *)
Definition glass2 : material := Material (fun _ => 2) false true.
Lemma demo_system : exists p0 p1, init 0 ez v0 None = Some p0 /\ init 2 ez v0 None = Some p1 /\
  let e0 := El p0 None Plain in let e1 := El p0 None (Sph (Some glass2) (Surf 1 0 None false)) in let e2 := El p1 None Plain in
  centred e0 /\ Forall centred [e1; e2] /\ Forall (conic_refracting 1 true) [e1; e2] /\
  forall axis uc, uc <> 0 -> let rs := [PRow (1, 0) (0, uc) 1; PRow (1, 0) (-1, uc) 2; PRow (0, uc) (-1, uc) 2] in
    ptrace axis 1 [e0; e1; e2] (1, 0) (0, uc) 1 = Some rs /\
    aberrations 1 1 [e0; e1; e2] rs = Some [no_coefs; Coefs (- 1 / (8 * uc)) (- 1 / 8) (- uc / 8) (- uc / 4) (- 3 * uc ^ 2 / 8) 0 0; no_coefs].
Proof.
  destruct (centred_axis 0) as (p0 & E0 & C0 & D0 & I0 & A0); [lra|]. destruct (centred_axis 2) as (p1 & E1 & C1 & D1 & I1 & A1); [lra|].
  exists p0, p1. split; [auto|]. split; [auto|]. cbv zeta. split; [split; auto|].
  assert (FC : Forall centred [El p0 None (Sph (Some glass2) (Surf 1 0 None false)); El p1 None Plain]) by (apply Forall_cons; [split; auto|apply Forall_cons; [split; auto|apply Forall_nil]]).
  assert (FR : Forall (conic_refracting 1 true) [El p0 None (Sph (Some glass2) (Surf 1 0 None false)); El p1 None Plain]).
  { apply Forall_cons; [|apply Forall_cons; [|apply Forall_nil]]; (split; [discriminate|]); cbn; auto. split; [auto|]. split; [auto|]. split; [right; lra|]. split; [auto|lra]. }
  split; [exact FC|]. split; [exact FR|]. intros axis uc NU. inversion FC as [|? ? CE1 FC2]; subst. inversion FC2 as [|? ? CE2 _]; subst. inversion FR as [|? ? RE1 FR2]; subst. inversion FR2 as [|? ? RE2 _]; subst.
  destruct (matrix_centred _ 1 true 1 CE1 RE1 Rlt_0_1) as (M1 & PM1 & MV1). destruct (matrix_centred _ 1 true 2 CE2 RE2 ltac:(lra)) as (M2 & PM2 & MV2).
  unfold index_after in PM1, PM2. cbn [e_kind m_index glass2] in PM1, PM2. unfold power in MV1, MV2. cbn [e_kind e_place m_index glass2 s_c] in MV1, MV2. rewrite D0 in MV1. rewrite D1 in MV2.
  split.
  - unfold ptrace, ptrace_from, propagate_paraxial. rewrite PM1, PM2. cbn [obind fst snd]. rewrite !MV1. rewrite !MV2. cbn [row_y row_u w0 w1 w2 w3 obind]. destruct axis; cbn [row_y row_u w0 w1 w2 w3]; parts; field.
  - unfold aberrations, aberrations_from, element_aberration, element_dispersion, aberration, departure. cbn [e_kind ry ru rn s_asph s_c s_k m_mirror m_index glass2 fst snd].
    repeat (cbn [obind]; rewrite fdiv_some by (try lra; ring_simplify; lra)). cbn [obind]. unfold no_coefs. parts; try reflexivity; field; auto.
Qed.
(** the exact parallel bundle at height h misses the focus by -h^3/8 in the limit, and the field point 1 by -3/8 h^3 *)
Example C56_third_order_example newton : exists p0 p1, let e0 := El p0 None Plain in let es := [El p0 None (Sph (Some glass2) (Surf 1 0 None false)); El p1 None Plain] in
  exists X1 X2, (exists eps, 0 < eps /\ forall h, Rabs h < eps -> exists s,
      nth_error (geo_trace newton (e0 :: es) (launch_Y (0, 1) h) (launch_U (0, 0) h) 1 1 true) 2 = Some s /\ st_y s = Some (V (X1 h) (X2 h) 0)) /\
    limit1_in (fun h => X2 h / h ^ 3) (fun h => h <> 0) (- 1 / 8) 0.
Proof.
  destruct demo_system as (p0 & p1 & _ & _ & C0 & FC & FR & D). exists p0, p1. cbv zeta. destruct (D true 1 ltac:(lra)) as (PT & AB).
  destruct (C56_third_order newton true 1 1 _ _ 1 true 1 1 0 0 1 (0, 1) (0, 0) _ _ 1%nat _ _ C0 FC FR Rlt_0_1 ltac:(lra) PT AB eq_refl I eq_refl eq_refl) as (X1 & X2 & NN & _ & L2).
  exists X1, X2. split.
  - replace (mix 1 0 (0, 1) (0, 0)) with (0, 1) in NN by (unfold mix; cbn; f_equal; ring).
    replace (scale2 (/ 1) (mix 0 1 (0, 1) (0, 0))) with (0, 0) in NN by (unfold mix, scale2; cbn; f_equal; ring). exact NN.
  - eapply tends_ext; [|eapply tends_eq; [exact L2|]].
    + apply all_nearly. intros h NZ. cbn [fst snd ry]. field. auto.
    + unfold error_pattern, mix, column, inner. cbn [fst snd ry firstn fold_right tsc cc tac tpc dc no_coefs]. field.
Qed.
Example C56_transverse3_example : transverse3 [PRow (1, 0) (0, 1) 1; PRow (0, 3) (-1, 1) 2] [no_coefs; Coefs 2 0 0 0 0 0 0] = Some [scale_coefs (Rabs 3) no_coefs; scale_coefs (Rabs 3) (Coefs 2 0 0 0 0 0 0)] /\ back [PRow (1, 0) (0, 1) 1; PRow (0, 3) (-1, 1) 2] 1 = Some (PRow (0, 3) (-1, 1) 2).
Proof. split; reflexivity. Qed.

(** The axial bundle does not depend on the field, but the spherical aberration listed by transverse3 changes its
    sign with the sign of the chief ray. *)
Theorem C56_transverse3_sign_refuted : exists es a b, a <> 0 /\
  (exists rs xs ts t, ptrace true 1 es (1, 0) (0, 1) 1 = Some rs /\ aberrations 1 1 es rs = Some xs /\ transverse3 rs xs = Some ts /\ nth_error ts 1 = Some t /\ tsc t = a) /\
  (exists rs xs ts t, ptrace true 1 es (1, 0) (0, -1) 1 = Some rs /\ aberrations 1 1 es rs = Some xs /\ transverse3 rs xs = Some ts /\ nth_error ts 1 = Some t /\ tsc t = b) /\ b = - a.
Proof.
  destruct demo_system as (p0 & p1 & _ & _ & C0 & FC & FR & D). eexists. exists (- 1 / 8), (1 / 8). split; [lra|]. split; [|split; [|lra]].
  - destruct (D true 1 ltac:(lra)) as (PT & AB). do 4 eexists. split; [exact PT|]. split; [exact AB|]. split; [reflexivity|]. split; [reflexivity|]. cbn. rewrite Rabs_pos_eq by lra. field.
  - destruct (D true (-1) ltac:(lra)) as (PT & AB). do 4 eexists. split; [exact PT|]. split; [exact AB|]. split; [reflexivity|]. split; [reflexivity|]. cbn. rewrite Rabs_left by lra. field.
Qed.

(** * single surfaces *)
(** index behind the surface, negative behind a mirror *)
Definition signed (m : option material) (n : R) : R := match m with Some m => if m_mirror m then - n else n | None => n end.
Lemma aberration_open m s y u0 u n0 n v w x : aberration m s y u0 u n0 n v w = Some x ->
  exists k c, departure s = Some (k, c) /\ n0 <> 0 /\ n <> 0 /\ fst u * snd y - snd u * fst y <> 0 /\
  let g := signed m n in let mu := n0 / g in let i0 := c * fst y + fst u0 / n0 in let i1 := c * snd y + snd u0 / n0 in
  let l := fst u * snd y - snd u * fst y in
  let s0 := / 2 * fst y * n0 * (1 - mu) / l * (i0 + fst u / g) in
  let q := 4 * k * g * (1 - mu) / l in
  tsc x = s0 * i0 ^ 2 + q * fst y ^ 4 /\ cc x = s0 * i0 * i1 + q * fst y ^ 3 * snd y /\ tpc x = - (mu - 1) / n0 * c * l / 2 /\
  tac x = s0 * i1 ^ 2 + q * fst y ^ 2 * snd y ^ 2.
Proof.
  unfold aberration. destruct (departure s) as [[k c]|]; [|discriminate]. cbn [obind]. fold (signed m n).
  intros E. exists k, c. split; [reflexivity|].
  repeat match type of E with obind (fdiv ?a ?b) _ = _ => let H := fresh "D" in destruct (fdiv a b) eqn:H; [|discriminate]; cbn [obind] in E; apply fdiv_inv in H; destruct H as (? & ->) end.
  injection E as <-. cbn [tsc cc tac tpc].
  assert (N : n <> 0) by (intros ->; unfold signed in *; destruct m as [m|]; [destruct (m_mirror m)|]; lra).
  split; [auto|]. split; [auto|]. split; [auto|]. cbv zeta. split; [reflexivity|]. split; [reflexivity|]. split; reflexivity.
Qed.
(** Petzval contribution: curvature times the change of the reciprocal index, whatever the rays *)
Theorem C56_petzval m s y u0 u n0 n v w x : aberration m s y u0 u n0 n v w = Some x ->
  exists k c, departure s = Some (k, c) /\
  tpc x = (fst u * snd y - snd u * fst y) / 2 * (c * (1 / n0 - 1 / signed m n)).
Proof.
  intros H. destruct (aberration_open _ _ _ _ _ _ _ _ _ _ H) as (k & c & D & N0 & N & L & _ & _ & T & _). exists k, c. split; [exact D|]. rewrite T.
  assert (signed m n <> 0) by (unfold signed; destruct m as [m|]; [destruct (m_mirror m)|]; lra). field. auto.
Qed.
(** light parallel to the axis: a conic is free of spherical aberration exactly if its constant is minus the squared
    index ratio (mirrors: a paraboloid) *)
Theorem C56_conic m s ym yc uc um' uc' n0 n v w x : s_asph s = None -> s_c s <> 0 -> ym <> 0 -> n0 <> signed m n ->
  um' / signed m n = n0 / signed m n * 0 + (n0 / signed m n - 1) * s_c s * ym ->
  aberration m s (ym, yc) (0, uc) (um', uc') n0 n v w = Some x ->
  (tsc x = 0 <-> s_k s = - (n0 / signed m n) ^ 2).
Proof.
  intros AS CN YN ND PR H. destruct (aberration_open _ _ _ _ _ _ _ _ _ _ H) as (k & c & D & N0 & N & L & T & _).
  unfold departure in D. rewrite AS in D. injection D as <- <-. cbn [fst snd] in *. assert (G : signed m n <> 0) by (unfold signed; destruct m as [m|]; [destruct (m_mirror m)|]; lra).
  set (g := signed m n) in *. set (l := um' * yc - uc' * ym) in *. clearbody l.
  assert (E : tsc x = ym ^ 4 * s_c s ^ 3 * (g - n0) / (2 * l) * ((n0 / g) ^ 2 + s_k s)).
  { rewrite T, PR. field. auto. }
  rewrite E. split; [|intros ->; ring].
  intros Z. apply Rmult_integral in Z. destruct Z as [Z|Z]; [|lra]. exfalso. revert Z. unfold Rdiv.
  repeat apply Rmult_integral_contrapositive_currified; try apply pow_nonzero; auto; try lra. apply Rinv_neq_0_compat. lra.
Qed.
(** a refracting sphere: no spherical aberration exactly for objects at the vertex, at the centre of curvature and at the
    aplanatic point; coma vanishes too for the first and the last *)
Theorem C56_aplanatic m s ym yc um uc uc' n0 n v w x : s_asph s = None -> s_k s = 0 -> n0 <> n -> n0 + n <> 0 -> signed m n = n ->
  aberration m s (ym, yc) (um, uc) (um + (n0 - n) * s_c s * ym, uc') n0 n v w = Some x ->
  (tsc x = 0 <-> ym = 0 \/ s_c s * ym = - (um / n0) \/ n0 * s_c s * ym = - (n0 + n) * (um / n0)) /\
  (ym = 0 \/ n0 * s_c s * ym = - (n0 + n) * (um / n0) -> cc x = 0 /\ tac x = 0).
Proof.
  intros AS K ND NS G H. destruct (aberration_open _ _ _ _ _ _ _ _ _ _ H) as (k & c & D & N0 & N & L & T & C & _ & TA).
  unfold departure in D. rewrite AS, K in D. injection D as <- <-. cbn [fst snd] in *. rewrite G in *. clear G.
  set (c := s_c s) in *. set (l := (um + (n0 - n) * c * ym) * yc - uc' * ym) in *. clearbody l.
  set (i := c * ym + um / n0) in *. set (a := n0 * c * ym + (n0 + n) * (um / n0)).
  assert (IU : i + (um + (n0 - n) * c * ym) / n = a / n) by (unfold i, a; field; auto).
  rewrite IU in *.
  assert (E : tsc x = n0 * (n - n0) / (2 * l * n * n) * (ym * (a * (i * i)))) by (rewrite T; field; auto).
  assert (F : n0 * (n - n0) / (2 * l * n * n) <> 0).
  { unfold Rdiv. repeat apply Rmult_integral_contrapositive_currified; auto; try lra. apply Rinv_neq_0_compat. repeat apply Rmult_integral_contrapositive_currified; auto; lra. }
  split.
  - rewrite E. split.
    + intros Z. apply Rmult_integral in Z. destruct Z as [Z|Z]; [contradiction|]. apply Rmult_integral in Z. destruct Z as [Z|Z]; [auto|].
      apply Rmult_integral in Z. destruct Z as [Z|Z]; [right; right; unfold a in Z; lra|]. apply Rmult_integral in Z. right; left. unfold i in Z. lra.
    + intros [Z|[Z|Z]]; [rewrite Z; ring|replace i with 0 by (unfold i; lra); ring|replace a with 0 by (unfold a; lra); ring].
  - intros Z. rewrite C, TA. destruct Z as [Z|Z].
    + rewrite Z. split; field; auto.
    + replace a with 0 by (unfold a; lra). split; field; auto.
Qed.
(** parabolic mirror in air, and the aplanatic point of a sphere *)
Definition mirror_1 : material := Material (fun _ => 1) true false.
Example C56_conic_example : exists x, aberration (Some mirror_1) (Surf 1 (-1) None false) (1, 1) (0, 1) (2, 3) 1 1 0 0 = Some x /\ tsc x = 0 /\ tpc x = -1.
Proof.
  unfold aberration, departure. cbn [s_asph s_c s_k m_mirror mirror_1 fst snd obind]. repeat (rewrite fdiv_some by lra; cbn [obind]). eexists. split; [reflexivity|]. cbn. split; field.
Qed.
Example C56_aplanatic_example : exists x, aberration (Some glass2) (Surf 1 0 None false) (-3, 1) (1, 2) (1 + (1 - 2) * 1 * -3, 1) 1 2 0 0 = Some x /\ tsc x = 0 /\ cc x = 0 /\ 1 * 1 * -3 = - (1 + 2) * (1 / 1).
Proof.
  unfold aberration, departure. cbn [s_asph s_c s_k m_mirror glass2 fst snd obind]. repeat (rewrite fdiv_some by lra; cbn [obind]). eexists. split; [reflexivity|]. cbn. repeat split; field.
Qed.

(** * aspheric surfaces *)
Lemma asph_cons a l r2 : asph_sag (a :: l) r2 = (asph_sag l r2 + a) * r2.
Proof. unfold asph_sag. cbn [rev]. rewrite fold_left_app. reflexivity. Qed.
Lemma asph_tends l : tends (fun h => asph_sag l (h * h)) 0.
Proof.
  induction l as [|a l IH]; [exact (tends_const 0)|]. eapply tends_ext; [|eapply tends_eq; [apply (tends_mult (fun h => asph_sag l (h * h) + a) (fun h => h * h) (0 + a) (0 * 0)); [apply tends_plus; [exact IH|apply tends_const]|apply tends_mult; apply tends_id]|ring]].
  apply all_nearly. intros h _. rewrite asph_cons. reflexivity.
Qed.
Lemma sag_jet s a2 a4 l : ((s_asph s = None \/ s_asph s = Some []) /\ a2 = 0 /\ a4 = 0) \/ s_asph s = Some (a2 :: a4 :: l) ->
  exists f, near (fun r => surface_sag s (V r 0 0) = Some (- f r)) /\
    jet (fun r => f r / (r * r)) (s_c s / 2 + a2) ((1 + s_k s) * s_c s ^ 3 / 8 + a4).
Proof.
  intros AS. set (w := fun r : R => sqrt (1 - r * r * ((1 + s_k s) * s_c s ^ 2))).
  set (p := fun r : R => match s_asph s with None => 0 | Some a => asph_sag a (r * r) end).
  assert (JW : jet w 1 (- ((1 + s_k s) * s_c s ^ 2) / 2)).
  { unfold w. eapply jet_eq; [apply (jet_sqrt _ 1); [eapply jet_eq; [eapply jet_minus; [apply (jet_const 1)|apply jet_h2; apply (tends_const ((1 + s_k s) * s_c s ^ 2))]|ring|reflexivity]|lra]|apply sqrt_1|rewrite sqrt_1; field]. }
  assert (JP : jet (fun r => p r / (r * r)) a2 a4).
  { destruct AS as [([AS|AS] & -> & ->)|AS]; unfold p; rewrite AS.
    - eapply jet_ext; [|apply (jet_const 0)]. apply all_nearly. intros h NZ. field. auto.
    - eapply jet_ext; [|apply (jet_const 0)]. apply all_nearly. intros h NZ. cbn. field. auto.
    - apply (jet_ext (fun h => a2 + h * h * (asph_sag l (h * h) + a4))).
      + apply all_nearly. intros h NZ. rewrite !asph_cons. field. auto.
      + eapply jet_eq; [eapply jet_plus; [apply (jet_const a2)|apply jet_h2; apply tends_plus; [apply asph_tends|apply (tends_const a4)]]|ring|ring]. }
  exists (fun r => s_c s * (r * r) / (1 + w r) + p r). split.
  - assert (POS : near (fun r => 0 < 1 - r * r * ((1 + s_k s) * s_c s ^ 2))).
    { apply (lin_pos (fun r => 1 - r * r * ((1 + s_k s) * s_c s ^ 2)) 1 0); [|lra]. eapply lin_eq; [eapply lin_minus; [apply (lin_const 1)|eapply lin_mult; [eapply lin_mult; apply lin_id|apply lin_const]]|ring|ring]. }
    eapply near_impl; [|exact POS]. intros r P. cbn in P. unfold surface_sag, r2_of. cbn [vx vy vz].
    replace (r * r + 0 * 0) with (r * r) by ring. unfold p, w.
    destruct (Req_EM_T (s_c s) 0) as [C|C].
    + rewrite C. destruct (s_asph s); f_equal; unfold Rdiv; ring.
    + replace (1 - (1 + s_k s) * s_c s ^ 2 * (r * r)) with (1 - r * r * ((1 + s_k s) * s_c s ^ 2)) by ring. rewrite fsqrt_some by lra. cbn [obind].
      pose proof (sqrt_pos (1 - r * r * ((1 + s_k s) * s_c s ^ 2))). rewrite fdiv_some by lra. cbn [obind]. destruct (s_asph s); f_equal; field; lra.
  - apply (jet_ext (fun r => s_c s / (1 + w r) + p r / (r * r))).
    + eapply nearly_impl; [|exact (tends_pos _ _ (proj1 JW) Rlt_0_1)]. intros h NZ W. cbn in W. field. split; first [exact NZ | lra].
    + eapply jet_eq; [eapply jet_plus; [eapply jet_div; [apply (jet_const (s_c s))|eapply jet_plus; [apply (jet_const 1)|exact JW]|lra]|exact JP]|field|field].
Qed.
(** the departure is the fourth order difference between the surface and the sphere of its vertex curvature *)
Theorem C56_departure s k c : departure s = Some (k, c) ->
  exists f g, near (fun r => surface_sag s (V r 0 0) = Some (- f r)) /\
    near (fun r => surface_sag (Surf c 0 None false) (V r 0 0) = Some (- g r)) /\
    limit1_in (fun r => (f r - g r) / r ^ 4) (fun r => r <> 0) k 0.
Proof.
  intros D. assert (H : exists a2 a4 l, (((s_asph s = None \/ s_asph s = Some []) /\ a2 = 0 /\ a4 = 0) \/ s_asph s = Some (a2 :: a4 :: l)) /\ c = s_c s + 2 * a2 /\
      k = s_k s * s_c s ^ 3 / 8 + (a4 - a2 / 4 * (4 * a2 ^ 2 + 6 * s_c s * a2 + 3 * s_c s ^ 2))).
  { unfold departure in D. destruct (s_asph s) as [[|a2 [|a4 l]]|]; try discriminate; injection D as <- <-.
    - exists 0, 0, []. split; [left; auto|]. split; field.
    - exists a2, a4, l. split; [right; reflexivity|]. split; field.
    - exists 0, 0, []. split; [left; auto|]. split; field. }
  destruct H as (a2 & a4 & l & AS & -> & ->). destruct (sag_jet s a2 a4 l AS) as (f & NF & JF).
  destruct (sag_jet (Surf (s_c s + 2 * a2) 0 None false) 0 0 [] (or_introl (conj (or_introl eq_refl) (conj eq_refl eq_refl)))) as (g & NG & JG). cbn [s_c s_k] in JG.
  exists f, g. split; [exact NF|]. split; [exact NG|]. destruct (jet_minus _ _ _ _ _ _ JF JG) as (_ & T).
  eapply tends_ext; [|eapply tends_eq; [exact T|field]]. apply all_nearly. intros h NZ. field. auto.
Qed.
Example C56_departure_example : departure (Surf 2 1 (Some [1; 3; 5]) false) = Some (2 ^ 3 / 8 + (3 - 1 / 4 * (4 * 1 ^ 2 + 6 * 2 * 1 + 3 * 2 ^ 2)), 2 + 2 * 1) .
Proof. unfold departure. cbn [s_asph s_c s_k]. do 3 f_equal. field. Qed.
(** a surface with a single aspheric term has no coefficients at all (unpacking raises), although its paraxial matrix exists *)
Theorem C56_one_term_refuted : exists s, vertex_curvature s = Some 3 /\ (forall m y u0 u n0 n v w, aberration m s y u0 u n0 n v w = None).
Proof. exists (Surf 1 0 (Some [1]) false). split; [cbn; f_equal; ring|reflexivity]. Qed.

Print Assumptions C56_third_order.
Print Assumptions C56_transverse3.
Print Assumptions C56_transverse3_sign_refuted.
Print Assumptions C56_petzval.
Print Assumptions C56_conic.
Print Assumptions C56_aplanatic.
Print Assumptions C56_departure.
Print Assumptions C56_one_term_refuted.
Print Assumptions C57_transverse.
