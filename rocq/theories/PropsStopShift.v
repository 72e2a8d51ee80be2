(** Property C80: moving the stop, scaling aperture and field, reversing the system: what becomes of the third order and
    colour coefficients. *)
From Coq Require Import Reals List Lra Lia Psatz.
From Verif Require Import Base Vec RotModel RotProofs PlacementModel PlacementProofs ElementModel PropsRescale
  ParaxialModel ParaxialProofs LimitProofs PropsLimit PupilModel ParaxTraceModel PropsConjugates SeidelModel PropsSeidel
  ReverseModel PropsReverse PropsInverse.
Import ListNotations.
Open Scope R_scope.

(** ** the rules, stated on seven numbers *)
(** the chief ray replaced by itself plus [q] times the marginal ray *)
Definition stop_shifted (q : R) (x : coefs) : coefs :=
  Coefs (tsc x) (cc x + q * tsc x) (tac x + 2 * q * cc x + q ^ 2 * tsc x) (tpc x)
        (dc x + q * (3 * tac x + tpc x) + 3 * q ^ 2 * cc x + q ^ 3 * tsc x)
        (tachc x) (tchc x + q * tachc x).
(** the marginal ray enlarged [a] times, the chief ray [b] times *)
Definition enlarged (a b : R) (x : coefs) : coefs :=
  Coefs (a ^ 3 / b * tsc x) (a ^ 2 * cc x) (a * b * tac x) (a * b * tpc x) (b ^ 2 * dc x) (a / b * tachc x) (tchc x).
(** the powers of aperture and field in the transverse aberrations *)
Definition powers (a b : R) (x : coefs) : coefs :=
  Coefs (a ^ 3 * tsc x) (a ^ 2 * b * cc x) (a * b ^ 2 * tac x) (a * b ^ 2 * tpc x) (b ^ 3 * dc x) (a * tachc x) (b * tchc x).

(** untilted elements, met in a medium of index [n]; mirrors in vacuum *)
Fixpoint coaxial (l n : R) (es : list element) : Prop :=
  match es with
  | [] => True
  | e :: es => p_angles (e_place e) = v0 /\
      match e_kind e with
      | Sph (Some m) _ => if m_mirror m then n = 1 /\ m_index m l = 1 else 0 < m_index m l
      | _ => True
      end /\ coaxial l (index_after e n l) es
  end.

(** ** one surface *)
Definition sev (k c g n0 v w ym yc um0 uc0 um uc : R) : coefs :=
  let l := um * yc - uc * ym in let mu := n0 / g in
  let i0 := c * ym + um0 / n0 in let i1 := c * yc + uc0 / n0 in
  let s0 := / 2 * ym * n0 * (1 - mu) / l * (i0 + um / g) in let s1 := / 2 * yc * n0 * (1 - mu) / l * (i1 + uc / g) in
  let q := 4 * k * g * (1 - mu) / l in
  Coefs (s0 * i0 ^ 2 + q * ym ^ 4) (s0 * i0 * i1 + q * ym ^ 3 * yc) (s0 * i1 ^ 2 + q * ym ^ 2 * yc ^ 2)
    (- (mu - 1) / n0 * c * l / 2) (s1 * i0 * i1 + / 2 * (uc ^ 2 / g ^ 2 - uc0 ^ 2 / n0 ^ 2) + q * ym * yc ^ 3)
    (- ym * i0 / l * (v - mu * w)) (- ym * i1 / l * (v - mu * w)).
Lemma aberration_sev m s ym yc um0 uc0 um uc n0 n v w x :
  aberration m s (ym, yc) (um0, uc0) (um, uc) n0 n v w = Some x <->
  exists k c, departure s = Some (k, c) /\ n0 <> 0 /\ signed m n <> 0 /\ um * yc - uc * ym <> 0 /\
    x = sev k c (signed m n) n0 v w ym yc um0 uc0 um uc.
Proof.
  unfold aberration. fold (signed m n). cbn [fst snd]. destruct (departure s) as [[k c]|]; cbn [obind].
  2:{ split; [discriminate|]. intros (? & ? & ? & _). discriminate. }
  set (g := signed m n). split.
  - intros E. exists k, c. split; [reflexivity|].
    repeat match type of E with obind (fdiv ?a ?b) _ = _ => let H := fresh "D" in destruct (fdiv a b) eqn:H; [|discriminate]; cbn [obind] in E; apply fdiv_inv in H; destruct H as (? & ->) end.
    injection E as <-. split; [auto|]. split; [auto|]. split; [auto|]. reflexivity.
  - intros (k' & c' & E & A & B & C & ->). injection E as <- <-.
    repeat (rewrite fdiv_some by (auto; apply pow_nonzero; auto); cbn [obind]). reflexivity.
Qed.
Lemma coefs_eq a b : tsc a = tsc b -> cc a = cc b -> tac a = tac b -> tpc a = tpc b -> dc a = dc b -> tachc a = tachc b -> tchc a = tchc b -> a = b.
Proof. destruct a, b; cbn; congruence. Qed.

Lemma sev_shift k c g n0 v w ym yc um0 uc0 q : n0 <> 0 -> g <> 0 ->
  let um := um0 + (n0 - g) * c * ym in let uc := uc0 + (n0 - g) * c * yc in um * yc - uc * ym <> 0 ->
  sev k c g n0 v w ym (yc + q * ym) um0 (uc0 + q * um0) um (uc + q * um) = stop_shifted q (sev k c g n0 v w ym yc um0 uc0 um uc).
Proof.
  intros N0 G um uc L. assert (L' : um * (yc + q * ym) - (uc + q * um) * ym = um * yc - uc * ym) by ring.
  assert (LE : um * yc - uc * ym = um0 * yc - uc0 * ym) by (unfold um, uc; ring).
  apply coefs_eq; unfold sev, stop_shifted; cbn [tsc cc tac tpc dc tachc tchc]; rewrite ?L'; rewrite LE in *;
    unfold um, uc; [field; auto ..].
Qed.
Lemma sev_enlarged k c g n0 v w ym yc um0 uc0 um uc a b : a <> 0 -> b <> 0 -> n0 <> 0 -> g <> 0 -> um * yc - uc * ym <> 0 ->
  sev k c g n0 v w (a * ym) (b * yc) (a * um0) (b * uc0) (a * um) (b * uc) = enlarged a b (sev k c g n0 v w ym yc um0 uc0 um uc).
Proof.
  intros A B N0 G L. assert (L' : a * um * (b * yc) - b * uc * (a * ym) = a * b * (um * yc - uc * ym)) by ring.
  apply coefs_eq; unfold sev, enlarged; cbn [tsc cc tac tpc dc tachc tchc]; rewrite ?L'; set (l := um * yc - uc * ym) in *; clearbody l; field; auto.
Qed.
(** the same surface met from the other side *)
Definition opposite (x : coefs) : coefs :=
  Coefs (- tsc x) (- cc x) (- tac x) (- tpc x) (- dc x) (- tachc x) (- tchc x).
Lemma sev_reverse k c g n0 v w ym yc um0 uc0 um uc : n0 <> 0 -> g <> 0 -> um * yc - uc * ym <> 0 ->
  um = um0 + (n0 - g) * c * ym -> uc = uc0 + (n0 - g) * c * yc ->
  sev (- k) (- c) n0 g w v ym yc (- um) (- uc) (- um0) (- uc0) = opposite (sev k c g n0 v w ym yc um0 uc0 um uc).
Proof.
  intros N0 G L EM EC. assert (L' : - um0 * yc - - uc0 * ym = - (um * yc - uc * ym)) by (subst; ring).
  assert (LE : um * yc - uc * ym = um0 * yc - uc0 * ym) by (subst; ring).
  assert (UM : um0 = um - (n0 - g) * c * ym) by lra. assert (UC : uc0 = uc - (n0 - g) * c * yc) by lra.
  apply coefs_eq; unfold sev, opposite; cbn [tsc cc tac tpc dc tachc tchc]; rewrite ?L'; set (l := um * yc - uc * ym) in *; clearbody l; rewrite ?UM, ?UC; field; auto.
Qed.
Lemma departure_reverse s k c : departure s = Some (k, c) -> departure (reverse_surf s) = Some (- k, - c).
Proof.
  unfold departure, reverse_surf. cbn [s_asph s_c s_k]. destruct (s_asph s) as [[|a2 [|a4 r]]|]; cbn [map]; try discriminate;
    intros E; injection E as <- <-; f_equal; f_equal; field.
Qed.

(** ** whole traces *)
Definition mixed (a b q : R) (p : R * R) : R * R := (a * fst p, b * snd p + q * fst p).
Definition mixed_row (a b q : R) (r : prow) : prow := PRow (mixed a b q (ry r)) (mixed a b q (ru r)) (rn r).
Definition comb (a b : R) (v w : v4) : v4 := V4 (a * w0 v + b * w0 w) (a * w1 v + b * w1 w) (a * w2 v + b * w2 w) (a * w3 v + b * w3 w).
Lemma mv4_comb M a b v w : mv4 M (comb a b v w) = comb a b (mv4 M v) (mv4 M w).
Proof. unfold mv4, comb, dot4; cbn [w0 w1 w2 w3]; apply v4_eq; cbn [w0 w1 w2 w3]; ring. Qed.
Lemma ptrace_from_mixed axis l a b q es : forall m c n rs, ptrace_from axis l es m c n = Some rs ->
  ptrace_from axis l es (comb a 0 m c) (comb b q c m) n = Some (map (mixed_row a b q) rs).
Proof.
  induction es as [|e es IH]; intros m c n rs; cbn [ptrace_from]; [intros E; injection E as <-; reflexivity|].
  unfold propagate_paraxial. destruct (paraxial_matrix e n l) as [n1 [M|]]; cbn [obind]; [|discriminate].
  destruct (ptrace_from axis l es (mv4 M m) (mv4 M c) n1) as [rs'|] eqn:P; cbn [obind]; [|discriminate]. intros E; injection E as <-.
  rewrite !mv4_comb, (IH _ _ _ _ P). cbn [obind map]. unfold mixed_row, mixed. cbn [ry ru rn fst snd].
  f_equal. f_equal. f_equal; f_equal; unfold row_y, row_u, comb; destruct axis; cbn [w0 w1 w2 w3]; ring.
Qed.
Lemma ptrace_mixed axis l a b q es y u n rs : ptrace axis l es y u n = Some rs ->
  ptrace axis l es (mixed a b q y) (mixed a b q u) n = Some (map (mixed_row a b q) rs).
Proof.
  destruct es as [|e es]; [discriminate|]. cbn [ptrace]. destruct (ptrace_from _ _ es _ _ _) as [rs'|] eqn:P; [|discriminate]. cbn [obind].
  intros E; injection E as <-. pose proof (ptrace_from_mixed _ _ a b q _ _ _ _ _ P) as K.
  unfold mixed at 1 2 3 4 5 6 7 8. cbn [fst snd].
  replace (V4 (a * fst y) (a * fst y) (a * fst u) (a * fst u)) with (comb a 0 (V4 (fst y) (fst y) (fst u) (fst u)) (V4 (snd y) (snd y) (snd u) (snd u)))
    by (unfold comb; cbn; apply v4_eq; cbn; ring).
  change (V4 (b * snd y + q * fst y) (b * snd y + q * fst y) (b * snd u + q * fst u) (b * snd u + q * fst u))
    with (comb b q (V4 (snd y) (snd y) (snd u) (snd u)) (V4 (fst y) (fst y) (fst u) (fst u))).
  rewrite K. reflexivity.
Qed.

(** the paraxial law of refraction in terms of the rows *)
Lemma element_rows e n l n1 M : 0 < n -> p_angles (e_place e) = v0 ->
  match e_kind e with Sph (Some m) _ => if m_mirror m then n = 1 /\ m_index m l = 1 else 0 < m_index m l | _ => True end ->
  paraxial_matrix e n l = (n1, Some M) ->
  n1 = index_after e n l /\ 0 < n1 /\ forall axis v,
    row_y axis (mv4 M v) = row_y axis v + p_distance (e_place e) / n * row_u axis v /\
    match e_kind e with
    | Plain => True
    | Sph m s => exists c, vertex_curvature s = Some c /\ row_u axis (mv4 M v) = row_u axis v + (n - signed m n1) * c * row_y axis (mv4 M v)
    end.
Proof.
  intros N A K P. pose proof (paraxial_fst e n l) as F. rewrite P in F. cbn in F. split; [exact F|].
  unfold paraxial_matrix, index_after in P. unfold index_after in F. destruct (e_kind e) as [|m s].
  - unfold transfer_matrix in P. rewrite fdiv_some in P by lra. cbn [obind] in P. injection P as _ <-. subst n1. split; [exact N|]. intros axis [a b p q]. split; [|trivial].
    rewrite transfer_mv. unfold row_y, row_u. destruct axis; reflexivity.
  - rewrite A in P. cbn [vx vz v0] in P. fold flip4 in P. unfold transfer_matrix in P. rewrite fdiv_some in P by lra. cbn [obind] in P.
    destruct (vertex_curvature s) as [c|]; [|discriminate]. cbn [obind] in P. rewrite flip4_T, cos_0 in P. unfold refraction_matrix in P.
    destruct m as [m|]; cbn [obind] in P.
    + unfold signed. destruct (m_mirror m).
      * destruct K as (K1 & K2). rewrite fdiv_some in P by lra. cbn [obind] in P. rewrite K2 in F. injection P as _ <-. subst n1. split; [lra|]. intros axis [a b p q].
        assert (MV : forall a b p q, mv4 (M4 (V4 1 0 0 0) (V4 0 1 0 0) (V4 (2 * c * 1) 0 1 0) (V4 0 (2 * c / 1) 0 1)) (V4 a b p q) = V4 a b (2 * c * 1 * a + p) (2 * c / 1 * b + q)) by (intros; lit4).
        rewrite !mv4_mm4, flip4_mv, transfer_mv, MV, flip4_mv.
        subst n. unfold row_y, row_u. destruct axis; cbn [w0 w1 w2 w3]; (split; [field|exists c; split; [reflexivity|field]]).
      * rewrite fdiv_some in P by lra. cbn [obind] in P. set (k := m_index m l) in *.
        assert (MU : 0 < k / n) by (apply Rdiv_lt_0_compat; auto).
        assert (S : sqrt ((k / n) ^ 2 + 1 ^ 2 - 1) = k / n).
        { replace ((k / n) ^ 2 + 1 ^ 2 - 1) with ((k / n) * (k / n)) by ring. apply sqrt_square. lra. }
        rewrite fsqrt_some in P by nra. cbn [obind] in P. rewrite S in P. rewrite fdiv_some in P by lra. cbn [obind] in P.
        rewrite fdiv_some in P by lra. cbn [obind] in P. replace (k / n / (k / n * 1)) with 1 in P by (field; lra).
        rewrite fdiv_some in P by lra. cbn [obind] in P. injection P as _ <-. subst n1. split; [lra|]. intros axis [a b p q].
        rewrite !mv4_mm4. rewrite flip4_mv, transfer_mv, lens_mv, flip4_mv.
        unfold row_y, row_u. destruct axis; cbn [w0 w1 w2 w3]; (split; [field; lra|exists c; split; [reflexivity|field; lra]]).
    + injection P as _ <-. subst n1. split; [lra|]. intros axis [a b p q]. rewrite mm4_eye_l, !mv4_mm4, flip4_mv, transfer_mv, flip4_mv.
      unfold row_y, row_u, signed. destruct axis; cbn [w0 w1 w2 w3]; (split; [field; lra|exists c; split; [reflexivity|ring]]).
Qed.
Lemma departure_vertex s k c c' : departure s = Some (k, c) -> vertex_curvature s = Some c' -> c' = c.
Proof.
  unfold departure, vertex_curvature. destruct (s_asph s) as [[|a2 [|a4 r]]|]; intros E F; try discriminate; injection E as _ <-; injection F as <-; reflexivity.
Qed.
Lemma shifted_plain q : stop_shifted q no_coefs = no_coefs.
Proof. apply coefs_eq; cbn; ring. Qed.
Lemma enlarged_plain a b : enlarged a b no_coefs = no_coefs.
Proof. apply coefs_eq; cbn; ring. Qed.
Lemma shift_from axis l l1 l2 q es : forall m c n r0 rs v xs, 0 < n -> coaxial l n es -> ptrace_from axis l es m c n = Some rs ->
  ru r0 = (row_u axis m, row_u axis c) -> rn r0 = n -> aberrations_from l1 l2 es r0 rs v = Some xs ->
  aberrations_from l1 l2 es (mixed_row 1 1 q r0) (map (mixed_row 1 1 q) rs) v = Some (map (stop_shifted q) xs).
Proof.
  induction es as [|e es IH]; intros m c n r0 rs v xs N CO; cbn [ptrace_from].
  - intros E; injection E as <-. intros _ _ E; injection E as <-. reflexivity.
  - destruct CO as (AN & KI & CO). unfold propagate_paraxial. destruct (paraxial_matrix e n l) as [n1 [M|]] eqn:PM; cbn [obind]; [|discriminate].
    destruct (element_rows e n l n1 M N AN KI PM) as (IA & N1 & RO).
    destruct (ptrace_from axis l es (mv4 M m) (mv4 M c) n1) as [rs'|] eqn:P; cbn [obind]; [|discriminate]. intros E; injection E as <-.
    set (r := PRow _ _ n1). intros R0 RN. cbn [aberrations_from map].
    destruct (element_aberration e (ry r) (ru r0) (ru r) (rn r0) (rn r) v (element_dispersion e l1 l2)) as [x|] eqn:EA; cbn [obind]; [|discriminate].
    destruct (aberrations_from l1 l2 es r rs' _) as [xs'|] eqn:AF; cbn [obind]; [|discriminate]. intros E; injection E as <-.
    rewrite <- IA in CO. rewrite (IH _ _ _ r _ _ _ N1 CO P eq_refl eq_refl AF).
    enough (K : element_aberration e (ry (mixed_row 1 1 q r)) (ru (mixed_row 1 1 q r0)) (ru (mixed_row 1 1 q r)) (rn (mixed_row 1 1 q r0)) (rn (mixed_row 1 1 q r)) v (element_dispersion e l1 l2) = Some (stop_shifted q x)) by (rewrite K; reflexivity).
    unfold element_aberration in *. destruct (e_kind e) as [|mt s]; [injection EA as <-; rewrite shifted_plain; reflexivity|].
    unfold mixed_row, mixed. rewrite R0, RN in *. subst r. cbn [ry ru rn fst snd] in *.
    destruct (RO axis m) as (_ & k1 & VC & UM). destruct (RO axis c) as (_ & k2 & VC2 & UC). rewrite VC in VC2. injection VC2 as <-.
    apply aberration_sev in EA. destruct EA as (k & c0 & D & A1 & A2 & A3 & ->). rewrite (departure_vertex _ _ _ _ D VC) in *.
    apply aberration_sev. exists k, c0. split; [exact D|]. split; [exact A1|]. split; [exact A2|].
    revert A3. rewrite UM, UC. set (ym := row_y axis (mv4 M m)). set (yc := row_y axis (mv4 M c)).
    intros A3. split; [intros Z; apply A3; rewrite <- Z; ring|].
    rewrite <- (sev_shift k c0 (signed mt n1) n v (element_dispersion e l1 l2) ym yc (row_u axis m) (row_u axis c) q A1 A2 A3).
    f_equal; ring.
Qed.
(** moving the stop of any coaxial system *)
Theorem C80_stop_shift axis l l1 l2 e0 es y u n q rs xs : 0 < n -> coaxial l n es ->
  ptrace axis l (e0 :: es) y u n = Some rs -> aberrations l1 l2 (e0 :: es) rs = Some xs ->
  exists rs', ptrace axis l (e0 :: es) (fst y, snd y + q * fst y) (fst u, snd u + q * fst u) n = Some rs' /\
    aberrations l1 l2 (e0 :: es) rs' = Some (map (stop_shifted q) xs).
Proof.
  intros N CO P A. pose proof (ptrace_mixed _ _ 1 1 q _ _ _ _ _ P) as K. exists (map (mixed_row 1 1 q) rs). split.
  - rewrite <- K. unfold mixed. f_equal; f_equal; ring.
  - clear K. cbn [ptrace] in P. destruct (ptrace_from _ _ es _ _ _) as [rs'|] eqn:Q; [|discriminate]. cbn [obind] in P. injection P as <-.
    cbn [aberrations map] in *. destruct (aberrations_from l1 l2 es _ rs' 0) as [xs'|] eqn:AF; [|discriminate]. cbn [obind] in A. injection A as <-.
    assert (RU : u = (row_u axis (V4 (fst y) (fst y) (fst u) (fst u)), row_u axis (V4 (snd y) (snd y) (snd u) (snd u))))
      by (unfold row_u; destruct axis; cbn; apply surjective_pairing).
    rewrite (shift_from axis l l1 l2 q es _ _ _ (PRow y u n) _ _ xs' N CO Q RU eq_refl AF). cbn [obind map]. rewrite shifted_plain. reflexivity.
Qed.
Lemma enlarged_from l1 l2 a b es : a <> 0 -> b <> 0 -> forall r0 rs v xs, aberrations_from l1 l2 es r0 rs v = Some xs ->
  aberrations_from l1 l2 es (mixed_row a b 0 r0) (map (mixed_row a b 0) rs) v = Some (map (enlarged a b) xs).
Proof.
  intros HA HB. induction es as [|e es IH]; intros r0 rs v xs; cbn [aberrations_from].
  - intros E; injection E as <-. reflexivity.
  - destruct rs as [|r rs]; cbn [map]; [intros E; injection E as <-; reflexivity|].
    destruct (element_aberration e (ry r) (ru r0) (ru r) (rn r0) (rn r) v (element_dispersion e l1 l2)) as [x|] eqn:EA; cbn [obind]; [|discriminate].
    destruct (aberrations_from l1 l2 es r rs _) as [xs'|] eqn:AF; cbn [obind]; [|discriminate]. intros E; injection E as <-.
    rewrite (IH _ _ _ _ AF).
    enough (K : element_aberration e (ry (mixed_row a b 0 r)) (ru (mixed_row a b 0 r0)) (ru (mixed_row a b 0 r)) (rn (mixed_row a b 0 r0)) (rn (mixed_row a b 0 r)) v (element_dispersion e l1 l2) = Some (enlarged a b x)) by (rewrite K; reflexivity).
    unfold element_aberration in *. destruct (e_kind e) as [|mt s]; [injection EA as <-; rewrite enlarged_plain; reflexivity|].
    unfold mixed_row, mixed. destruct r as [[ym yc] [um uc] n], r0 as [y0 [um0 uc0] n0]. cbn [ry ru rn fst snd] in *.
    apply aberration_sev in EA. destruct EA as (k & c0 & D & A1 & A2 & A3 & ->).
    apply aberration_sev. exists k, c0. split; [exact D|]. split; [exact A1|]. split; [exact A2|]. rewrite !Rmult_0_l, !Rplus_0_r.
    split; [|symmetry; apply sev_enlarged; auto].
    replace (a * um * (b * yc) - b * uc * (a * ym)) with (a * b * (um * yc - uc * ym)) by ring. repeat apply Rmult_integral_contrapositive_currified; auto.
Qed.
(** enlarging aperture and field of any system *)
Theorem C80_enlarged axis l l1 l2 es y u n a b rs xs : a <> 0 -> b <> 0 ->
  ptrace axis l es y u n = Some rs -> aberrations l1 l2 es rs = Some xs ->
  exists rs', ptrace axis l es (a * fst y, b * snd y) (a * fst u, b * snd u) n = Some rs' /\
    aberrations l1 l2 es rs' = Some (map (enlarged a b) xs) /\
    forall ts, 0 < b -> transverse3 rs xs = Some ts -> transverse3 rs' (map (enlarged a b) xs) = Some (map (powers a b) ts).
Proof.
  intros HA HB P A. pose proof (ptrace_mixed _ _ a b 0 _ _ _ _ _ P) as K. exists (map (mixed_row a b 0) rs). split; [|split].
  - rewrite <- K. unfold mixed. f_equal; f_equal; ring.
  - destruct es as [|e es]; [discriminate|]. destruct rs as [|r0 rs]; [discriminate|]. cbn [aberrations map] in *.
    destruct (aberrations_from l1 l2 es r0 rs 0) as [xs'|] eqn:AF; [|discriminate]. cbn [obind] in A. injection A as <-.
    rewrite (enlarged_from l1 l2 a b es HA HB _ _ _ _ AF). cbn [obind map]. rewrite enlarged_plain. reflexivity.
  - intros ts B T. unfold transverse3 in *. unfold back in *. rewrite map_length.
    destruct (Nat.leb 1 (length rs)); [|discriminate]. rewrite nth_error_map. destruct (nth_error rs _) as [r|]; [|discriminate]. cbn [obind option_map] in *.
    injection T as <-. f_equal. rewrite !map_map. apply map_ext. intros x. unfold mixed_row, mixed. cbn [ry snd].
    rewrite Rmult_0_l, Rplus_0_r, Rabs_mult, (Rabs_pos_eq b) by lra. apply coefs_eq; unfold scale_coefs, enlarged, powers; cbn [tsc cc tac tpc dc tachc tchc]; field; auto.
Qed.

(** ** what the position of the stop can and cannot change *)
Lemma column_shift xs q :
  column tsc (map (stop_shifted q) xs) = column tsc xs /\
  column cc (map (stop_shifted q) xs) = column cc xs + q * column tsc xs /\
  column tac (map (stop_shifted q) xs) = column tac xs + 2 * q * column cc xs + q ^ 2 * column tsc xs /\
  column tpc (map (stop_shifted q) xs) = column tpc xs /\
  column dc (map (stop_shifted q) xs) = column dc xs + q * (3 * column tac xs + column tpc xs) + 3 * q ^ 2 * column cc xs + q ^ 3 * column tsc xs /\
  column tachc (map (stop_shifted q) xs) = column tachc xs /\
  column tchc (map (stop_shifted q) xs) = column tchc xs + q * column tachc xs.
Proof.
  induction xs as [|x xs IH]; cbn [map column fold_right]; [repeat split; ring|].
  unfold column in *. destruct IH as (-> & -> & -> & -> & -> & -> & ->). unfold stop_shifted. cbn [tsc cc tac tpc dc tachc tchc]. repeat split; ring.
Qed.
(** with spherical aberration there is exactly one stop position without coma, with axial colour exactly one without lateral
    colour; without them coma and lateral colour do not depend on the stop, without both spherical aberration and coma neither
    does astigmatism, and without astigmatism and Petzval sum either, neither does distortion *)
Theorem C80_stop_position axis l l1 l2 e0 es y u n rs xs : 0 < n -> coaxial l n es ->
  ptrace axis l (e0 :: es) y u n = Some rs -> aberrations l1 l2 (e0 :: es) rs = Some xs ->
  exists xs', (forall q, exists rs', ptrace axis l (e0 :: es) (fst y, snd y + q * fst y) (fst u, snd u + q * fst u) n = Some rs' /\
      aberrations l1 l2 (e0 :: es) rs' = Some (xs' q)) /\
    (forall q, column tsc (xs' q) = column tsc xs /\ column tpc (xs' q) = column tpc xs /\ column tachc (xs' q) = column tachc xs) /\
    (column tsc xs <> 0 -> exists q, column cc (xs' q) = 0 /\ forall q', column cc (xs' q') = 0 -> q' = q) /\
    (column tachc xs <> 0 -> exists q, column tchc (xs' q) = 0 /\ forall q', column tchc (xs' q') = 0 -> q' = q) /\
    ((forall q, column cc (xs' q) = column cc xs) <-> column tsc xs = 0) /\
    ((forall q, column tchc (xs' q) = column tchc xs) <-> column tachc xs = 0) /\
    ((forall q, column tac (xs' q) = column tac xs) <-> column tsc xs = 0 /\ column cc xs = 0) /\
    ((forall q, column dc (xs' q) = column dc xs) <-> column tsc xs = 0 /\ column cc xs = 0 /\ 3 * column tac xs + column tpc xs = 0).
Proof.
  intros N CO P A. exists (fun q => map (stop_shifted q) xs). split; [intros q; eapply C80_stop_shift; eauto|].
  pose proof (column_shift xs) as K.
  set (s1 := column tsc xs) in *. set (s2 := column cc xs) in *. set (s3 := column tac xs) in *. set (s4 := column tpc xs) in *. set (s5 := column dc xs) in *.
  set (s6 := column tachc xs) in *. set (s7 := column tchc xs) in *.
  split; [intros q; destruct (K q) as (K1 & _ & _ & K4 & _ & K6 & _); auto|].
  split.
  { intros Z. exists (- s2 / s1). split; [destruct (K (- s2 / s1)) as (_ & -> & _); field; auto|]. intros q. destruct (K q) as (_ & -> & _). intros E.
    apply (Rmult_eq_reg_r s1); [|auto]. field_simplify; [|auto]. lra. }
  split.
  { intros Z. exists (- s7 / s6). split; [destruct (K (- s7 / s6)) as (_ & _ & _ & _ & _ & _ & ->); field; auto|]. intros q. destruct (K q) as (_ & _ & _ & _ & _ & _ & ->). intros E.
    apply (Rmult_eq_reg_r s6); [|auto]. field_simplify; [|auto]. lra. }
  split.
  { split; [intros H; pose proof (H 1) as E; destruct (K 1) as (_ & E2 & _); lra|]. intros Z q. destruct (K q) as (_ & -> & _). rewrite Z. ring. }
  split.
  { split; [intros H; pose proof (H 1) as E; destruct (K 1) as (_ & _ & _ & _ & _ & _ & E2); lra|]. intros Z q. destruct (K q) as (_ & _ & _ & _ & _ & _ & ->). rewrite Z. ring. }
  split.
  { split; [|intros (Z1 & Z2) q; destruct (K q) as (_ & _ & -> & _); rewrite Z1, Z2; ring].
    intros H. pose proof (H 1) as A1. pose proof (H (-1)) as A2. destruct (K 1) as (_ & _ & E1 & _). destruct (K (-1)) as (_ & _ & E2 & _). lra. }
  split; [|intros (Z1 & Z2 & Z3) q; destruct (K q) as (_ & _ & _ & _ & -> & _); rewrite Z1, Z2, Z3; ring].
  intros H. pose proof (H 1) as A1. pose proof (H (-1)) as A2. pose proof (H 2) as A3. destruct (K 1) as (_ & _ & _ & _ & E1 & _). destruct (K (-1)) as (_ & _ & _ & _ & E2 & _). destruct (K 2) as (_ & _ & _ & _ & E3 & _). lra.
Qed.
(** two pupils at the same object, with the same marginal ray: the launched chief rays differ by a multiple of it *)
Theorem C80_launch es l o o' y u y' u' : cj_finite o = cj_finite o' -> cj_val o = cj_val o' -> wideangle o = wideangle o' ->
  prays es l o = Some (y, u) -> prays es l o' = Some (y', u') -> fst y' = fst y -> fst u' = fst u -> (fst y <> 0 \/ fst u <> 0) ->
  exists q, y' = (fst y, snd y + q * fst y) /\ u' = (fst u, snd u + q * fst u).
Proof.
  intros FI VA WA P P' Y U NZ. unfold prays in P, P'. rewrite <- FI, <- ?VA, <- WA in P'. destruct (cj_finite o).
  - destruct (pupil_slope (cj_pupil o)) as [p|]; [|discriminate]. destruct (pupil_slope (cj_pupil o')) as [p'|]; [|discriminate]. cbn [obind] in *.
    destruct (conj_slope o) as [s|]; [|discriminate]. destruct (conj_slope o') as [s'|]; [|discriminate]. cbn [obind] in *.
    injection P as <- <-. injection P' as <- <-. cbn [fst snd] in *. destruct NZ as [NZ|NZ]; [lra|].
    set (n := refractive_index es l 0) in *. exists ((n * s' - n * s) / (n * p)). rewrite U. split; f_equal; field; split; intros ->; apply NZ; ring.
  - destruct (if wideangle o then _ else _) as [c|]; [|discriminate]. cbn [obind] in *.
    destruct (pupil_radius (cj_pupil o)) as [p|]; [|discriminate]. destruct (pupil_radius (cj_pupil o')) as [p'|]; [|discriminate]. cbn [obind] in *.
    destruct (conj_slope o) as [s|]; [|discriminate]. destruct (conj_slope o') as [s'|]; [|discriminate]. cbn [obind] in *.
    injection P as <- <-. injection P' as <- <-. cbn [fst snd] in *. destruct NZ as [NZ|NZ]; [|lra].
    exists ((- s' * pu_distance (cj_pupil o') - - s * pu_distance (cj_pupil o)) / p). rewrite Y. split; f_equal; field; auto.
Qed.
