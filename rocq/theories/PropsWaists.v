(** Property C101: waists of a Gaussian beam behind any system of lenses and mirrors, from the focal points that rays give. *)
From Coq Require Import Reals List Lra Lia Psatz.
From Verif Require Import Base Cx Vec RotModel RotProofs PlacementModel PlacementProofs ElementModel
  ParaxialModel ParaxialProofs PropsParaxial LimitProofs PropsLimit ParaxTraceModel PropsConjugates PropsSolve PropsDesign PropsFolded GaussianModel PropsGaussian PropsBeams PropsResonator.
Import ListNotations.
Open Scope R_scope.

(** ** Specification *)
(** a ray in one section: height, and index times slope *)
Definition ray (axis : bool) (y u : R) : v4 := if axis then V4 0 y 0 u else V4 y 0 u 0.
(** what rays say about a system: power, reduced distance of the front focal point in front, of the back focal point behind *)
Definition focal (axis : bool) (xs : list element) (n0 l n P F B : R) : Prop :=
  (forall y, exists v, behind xs (ray axis y 0) n0 l = (Some v, n) /\ snd (part axis v) = - P * y /\ fst (part axis v) + B * snd (part axis v) = 0) /\
  (forall u, exists v, behind xs (ray axis (F * u) u) n0 l = (Some v, n) /\ snd (part axis v) = 0).
(** all rays from the axial point at reduced distance [s] in front meet at reduced distance [t] behind *)
Definition images (axis : bool) (xs : list element) (n0 l n s t : R) : Prop :=
  forall u, exists v, behind xs (ray axis (s * u) u) n0 l = (Some v, n) /\ fst (part axis v) + t * snd (part axis v) = 0.
(** parallel rays leave parallel, their heights multiplied by [M] *)
Definition afocal (axis : bool) (xs : list element) (n0 l n M : R) : Prop :=
  forall y, exists v, behind xs (ray axis y 0) n0 l = (Some v, n) /\ part axis v = (M * y, 0).
(** beam behind the elements *)
Definition beam_behind (xs : list element) (q : cm) (n l : R) : option cm * R := last (sys_gaussian xs (Some q) n l) (Some q, n).
Definition pick {A} (axis : bool) (p : A * A) : A := if axis then snd p else fst p.
(** waist of radius [w] at reduced distance [t] behind the last element *)
Definition waist (axis : bool) (l n scale w t : R) (q : cm) : Prop := textbook l n scale w (PI * n * w ^ 2 * scale / l) (- (n * t)) axis q.

(** ** Auxiliary: beams of two decoupled sections *)
Definition dq (x y : cx) : cm := CM (cdiv c1 x) c0 c0 (cdiv c1 y).
Definition mob (m : R * R * R * R) (x : cx) : cx := let '(a, b, c, d) := m in cdiv (cadd (cmul (rc a) x) (rc b)) (cadd (cmul (rc c) x) (rc d)).
Lemma cneq x : 0 < im x -> x <> c0.
Proof. intros H ->. cbn in H. lra. Qed.
Lemma mob_den a b c d x : a * d - b * c = 1 -> 0 < im x -> cadd (cmul (rc c) x) (rc d) <> c0 /\ cadd (cmul (rc a) x) (rc b) <> c0.
Proof.
  intros D I. destruct x as [x z]. cbn in I. split; intros E; injection E as E1 E2; cbn in E1, E2.
  - assert (C : c = 0) by (destruct (Req_dec c 0); [auto|exfalso; assert (c * z <> 0) by (apply Rmult_integral_contrapositive_currified; lra); lra]). subst. assert (d = 0) by lra. subst. lra.
  - assert (C : a = 0) by (destruct (Req_dec a 0); [auto|exfalso; assert (a * z <> 0) by (apply Rmult_integral_contrapositive_currified; lra); lra]). subst. assert (b = 0) by lra. subst. lra.
Qed.
Lemma mob_im a b c d x : a * d - b * c = 1 -> 0 < im x -> 0 < im (mob (a, b, c, d) x).
Proof.
  intros D I. destruct (mob_den a b c d x D I) as (N & _). unfold mob. set (w := cadd (cmul (rc c) x) (rc d)) in *.
  assert (A : 0 < cabs2 w). { assert (cabs2 w <> 0) by (intros E; apply N, cabs2_zero; auto). assert (0 <= cabs2 w) by (unfold cabs2; nra). lra. }
  replace (im (cdiv (cadd (cmul (rc a) x) (rc b)) w)) with (im x / cabs2 w); [apply Rdiv_lt_0_compat; auto|].
  unfold cdiv, cinv. set (k := cabs2 w) in *. clearbody k. unfold w. cbn [im re cmul cadd rc]. transitivity ((a * d - b * c) * im x / k); [rewrite D; field; lra|]. field. lra.
Qed.
Lemma act_diag m x y : decoupled m -> conserves m -> 0 < im x -> 0 < im y ->
  beam_act m (dq x y) = Some (dq (mob (block false m) x) (mob (block true m) y)) /\ 0 < im (mob (block false m) x) /\ 0 < im (mob (block true m) y).
Proof.
  intros DC CV X Y. destruct (block false m) as [[[a b] c] d] eqn:B0. destruct (block true m) as [[[a' b'] c'] d'] eqn:B1.
  pose proof (block_det _ _ _ _ _ _ DC CV B0) as D0. pose proof (block_det _ _ _ _ _ _ DC CV B1) as D1.
  split; [|split; apply mob_im; auto].
  destruct (mob_den a b c d x D0 X) as (N0 & P0). destruct (mob_den a' b' c' d' y D1 Y) as (N1 & P1). apply cneq in X, Y.
  destruct m as [[m00 m01 m02 m03] [m10 m11 m12 m13] [m20 m21 m22 m23] [m30 m31 m32 m33]]. unfold decoupled, block in *. cbn [q0 q1 q2 q3 w0 w1 w2 w3] in *.
  destruct DC as (Z1 & Z2 & Z3 & Z4 & Z5 & Z6 & Z7 & Z8). subst. injection B0 as -> -> -> ->. injection B1 as -> -> -> ->.
  apply act_inv. unfold den, num, blk_a, blk_b, blk_c, blk_d, dq, mob, cma, cmm, cdet. cbn [q0 q1 q2 q3 w0 w1 w2 w3 c00 c01 c10 c11]. change (rc 0) with c0.
  split.
  - replace (csub _ _) with (cdiv (cmul (cadd (cmul (rc a) x) (rc b)) (cadd (cmul (rc a') y) (rc b'))) (cmul x y)) by (field; auto).
    intros E. assert (E' : cmul (cadd (cmul (rc a) x) (rc b)) (cadd (cmul (rc a') y) (rc b')) = c0).
    { match goal with |- ?t = _ => transitivity (cmul (cdiv t (cmul x y)) (cmul x y)); [field; auto|rewrite E; ring] end. }
    apply cmul_zero in E'. tauto.
  - apply cm_eq; cbn [c00 c01 c10 c11]; field; auto.
Qed.
Lemma element_conserves e n l n' m : upright e -> paraxial_matrix e n l = (n', Some m) -> decoupled m /\ conserves m.
Proof. intros U P. split; [eapply upright_decoupled; eauto|]. apply (C17_element_symplectic _ _ _ _ _ P), upright_aligned, U. Qed.
Lemma seq_conserves xs l : Forall upright xs -> forall n m, seq_matrix xs n l = Some m -> decoupled m /\ conserves m.
Proof.
  induction 1 as [|e xs U F IH]; intros n m E; [cbn in E; injection E as <-; split; [apply decoupled_eye|]; intros u v; rewrite !mv4_eye; reflexivity|].
  change (e :: xs) with ([e] ++ xs) in E. rewrite seq_app, seq_one in E. destruct (paraxial_matrix e n l) as [n1 [m1|]] eqn:P; cbn [snd obind] in E; [|discriminate].
  destruct (seq_matrix xs (after [e] n l) l) as [m2|] eqn:S; cbn [obind] in E; [|discriminate]. injection E as <-.
  destruct (element_conserves _ _ _ _ _ U P) as (D1 & C1). destruct (IH _ _ S) as (D2 & C2). split; [apply decoupled_mm; auto|]. intros u v. rewrite !mv4_mm4, C2, C1. reflexivity.
Qed.
Lemma beam_run xs l : Forall upright xs -> forall n m x y, seq_matrix xs n l = Some m -> 0 < im x -> 0 < im y -> beam_behind xs (dq x y) n l = (beam_act m (dq x y), after xs n l).
Proof.
  unfold beam_behind. induction 1 as [|e xs U F IH]; intros n m x y E X Y; [cbn in E; injection E as <-; rewrite act_eye; reflexivity|].
  change (e :: xs) with ([e] ++ xs) in E. rewrite seq_app, seq_one in E. pose proof (after_fst e n l) as A. destruct (paraxial_matrix e n l) as [n1 [m1|]] eqn:P; cbn [snd obind] in E; [|discriminate].
  cbn [fst] in A. destruct (seq_matrix xs (after [e] n l) l) as [m2|] eqn:S; cbn [obind] in E; [|discriminate]. injection E as <-.
  change (after [e] n l) with (index_after e n l) in S. rewrite <- A in S. destruct (element_conserves _ _ _ _ _ U P) as (D1 & C1). destruct (act_diag _ _ _ D1 C1 X Y) as (AE & X1 & Y1).
  cbn [sys_gaussian]. unfold propagate_gaussian. rewrite P. cbn [obind]. rewrite AE, last_from, (IH _ _ _ _ S X1 Y1), (C38_composition _ _ _ _ AE).
  unfold after. cbn [fold_left]. rewrite <- A. reflexivity.
Qed.
Lemma behind_inv xs v n0 l v' n : behind xs v n0 l = (Some v', n) -> exists m, seq_matrix xs n0 l = Some m /\ mv4 m v = v' /\ after xs n0 l = n.
Proof. unfold behind. rewrite behind_run. cbn [obind]. destruct (seq_matrix xs n0 l) as [m|]; cbn [obind]; intros E; [|discriminate]. injection E as <- <-. eauto. Qed.
Lemma part_ray axis y u : part axis (ray axis y u) = (y, u).
Proof. destruct axis; reflexivity. Qed.
(** the entries of the matrix that a ray tells *)
Lemma ray_told axis xs n0 l n m y u v : Forall upright xs -> seq_matrix xs n0 l = Some m -> behind xs (ray axis y u) n0 l = (Some v, n) ->
  forall a b c d, block axis m = (a, b, c, d) -> part axis v = (a * y + b * u, c * y + d * u).
Proof.
  intros U S BH a b c d BL. destruct (behind_inv _ _ _ _ _ _ BH) as (m' & S' & <- & _). rewrite S in S'. injection S' as <-.
  destruct (seq_conserves _ _ U _ _ S) as (D & _). rewrite (part_act _ _ _ _ _ _ _ D BL), part_ray. reflexivity.
Qed.
(** a fresh beam behind the elements, section by section *)
Lemma fresh_behind axis xs n0 l n m scale w p : Forall upright xs -> seq_matrix xs n0 l = Some m -> after xs n0 l = n -> 0 < l -> 0 < n0 -> 0 < scale -> 0 < fst w -> 0 < snd w ->
  exists q qn, make_qi l n0 scale w p 0 = Some q /\ beam_behind xs q n0 l = (Some qn, n) /\
    diag axis qn = cdiv c1 (mob (block axis m) (Cx (pick axis p / n0) (PI * pick axis w ^ 2 * scale / l))).
Proof.
  intros U S AF L N SC WX WY. destruct w as [wx wy], p as [px py]. cbn [fst snd] in *.
  destruct (qi_axis_some l n0 scale wx px L N SC WX) as (ZX & QX). destruct (qi_axis_some l n0 scale wy py L N SC WY) as (ZY & QY).
  set (x := Cx (px / n0) (PI * wx ^ 2 * scale / l)) in *. set (y := Cx (py / n0) (PI * wy ^ 2 * scale / l)) in *.
  destruct (seq_conserves _ _ U _ _ S) as (D & C). destruct (act_diag m x y D C ZX ZY) as (AE & _).
  exists (dq x y). eexists. split; [|split; [rewrite (beam_run _ _ U _ _ x y S ZX ZY), AE, AF; reflexivity|destruct axis; reflexivity]].
  unfold make_qi. cbn [fst snd]. rewrite QX. cbn [obind]. rewrite QY. cbn [obind]. f_equal. rewrite cos_0, sin_0, Ropp_0. unfold dq. fold x y. change (rc 1) with c1. change (rc 0) with c0.
  generalize (cdiv c1 x) (cdiv c1 y). intros. cm_ring.
Qed.

(** * C101 *)
(** Any upright system with power: a waist at the (reduced) distance [x] in front of the front focal point, of (reduced)
    Rayleigh length [z], becomes a waist at [x / (P^2 (x^2 + z^2))] behind the back focal point, its radius multiplied by
    [1 / (|P| sqrt (x^2 + z^2))]. *)
Theorem C101_waists axis xs n0 l n P F B scale w p : Forall upright xs -> focal axis xs n0 l n P F B -> P <> 0 ->
  0 < l -> 0 < n0 -> 0 < n -> 0 < scale -> 0 < fst w -> 0 < snd w ->
  let z := PI * pick axis w ^ 2 * scale / l in let x := pick axis p / n0 - F in
  exists q qn, make_qi l n0 scale w p 0 = Some q /\ beam_behind xs q n0 l = (Some qn, n) /\
    waist axis l n scale (pick axis w / (Rabs P * sqrt (x ^ 2 + z ^ 2))) (B + x / (P ^ 2 * (x ^ 2 + z ^ 2))) qn.
Proof.
  intros U (FO1 & FO2) PZ L N0 N SC WX WY z x. destruct (FO1 1) as (v1 & H1 & S1 & T1). destruct (FO2 1) as (v2 & H2 & S2). clear FO1 FO2.
  destruct (behind_inv _ _ _ _ _ _ H1) as (m & S & _ & AF). destruct (block axis m) as [[[a b] c] d] eqn:BL.
  rewrite (ray_told _ _ _ _ _ _ _ _ _ U S H1 _ _ _ _ BL) in S1, T1. rewrite (ray_told _ _ _ _ _ _ _ _ _ U S H2 _ _ _ _ BL) in S2. cbn [fst snd] in S1, T1, S2.
  destruct (seq_conserves _ _ U _ _ S) as (D & C). pose proof (block_det _ _ _ _ _ _ D C BL) as DT.
  destruct (fresh_behind axis xs n0 l n m scale w p U S AF L N0 SC WX WY) as (q & qn & E1 & E2 & E3). exists q, qn. split; [exact E1|]. split; [exact E2|].
  assert (W : 0 < pick axis w) by (unfold pick; destruct axis; auto). set (wa := pick axis w) in *. fold z in E3.
  assert (PP := PI_RGT_0). assert (Z : 0 < z).
  { unfold z. apply Rdiv_lt_0_compat; [|auto]. apply Rmult_lt_0_compat; [|auto]. apply Rmult_lt_0_compat; [auto|]. nra. }
  assert (Q : 0 < x ^ 2 + z ^ 2) by nra. assert (SQ : 0 < sqrt (x ^ 2 + z ^ 2)) by (apply sqrt_lt_R0; auto). assert (AP : 0 < Rabs P) by (apply Rabs_pos_lt; auto).
  unfold waist. apply textbook_axis; auto; [apply Rdiv_lt_0_compat; [auto|apply Rmult_lt_0_compat; auto]|].
  rewrite E3, BL. f_equal. assert (C' : c = - P) by lra. assert (A' : a = B * P) by (subst c; lra). assert (D' : d = P * F) by (subst c; lra).
  assert (B' : b = / P - B * F * P).
  { apply Rmult_eq_reg_l with P; [|auto]. transitivity (1 - a * d); [subst c; lra|subst a d; field; auto]. }
  assert (W2 : PI * (wa / (Rabs P * sqrt (x ^ 2 + z ^ 2))) ^ 2 * scale / l = z / (P ^ 2 * (x ^ 2 + z ^ 2))).
  { transitivity (PI * wa ^ 2 * scale / l / (Rabs P ^ 2 * (sqrt (x ^ 2 + z ^ 2)) ^ 2)); [field; repeat split; lra|]. rewrite RPow_abs, Rabs_pos_eq by nra.
    rewrite pow2_sqrt by lra. reflexivity. }
  rewrite W2. replace (- (n * (B + x / (P ^ 2 * (x ^ 2 + z ^ 2)))) / n) with (- (B + x / (P ^ 2 * (x ^ 2 + z ^ 2)))) by (field; repeat split; try lra; apply Rgt_not_eq; nra).
  assert (X : pick axis p / n0 = F + x) by (unfold x; ring). rewrite X. clearbody x z wa. subst a b c d. unfold mob.
  assert (K : - P * (F + x) + P * F = - (P * x)) by ring.
  apply cx_eq; unfold cdiv, cinv, cabs2; cbn [re im cmul cadd rc]; replace ((- P * (F + x) - 0 * z + P * F) * (- P * (F + x) - 0 * z + P * F) + (- P * z + 0 * (F + x) + 0) * (- P * z + 0 * (F + x) + 0)) with (P ^ 2 * (x ^ 2 + z ^ 2)) by ring; field; repeat split; try lra; apply Rgt_not_eq; nra.
Qed.

(** A waist in the front focal point goes to the back focal point; the two radii multiply to [l / (PI scale |P|)]. *)
Theorem C101_focus axis xs n0 l n P F B scale w p : Forall upright xs -> focal axis xs n0 l n P F B -> P <> 0 ->
  0 < l -> 0 < n0 -> 0 < n -> 0 < scale -> 0 < fst w -> 0 < snd w -> pick axis p = n0 * F ->
  exists q qn w', make_qi l n0 scale w p 0 = Some q /\ beam_behind xs q n0 l = (Some qn, n) /\ waist axis l n scale w' B qn /\
    pick axis w * w' = l / (PI * scale * Rabs P).
Proof.
  intros U FO PZ L N0 N SC WX WY PF. destruct (C101_waists axis xs n0 l n P F B scale w p U FO PZ L N0 N SC WX WY) as (q & qn & E1 & E2 & E3). rewrite PF in E3.
  replace (n0 * F / n0 - F) with 0 in E3 by (field; lra). exists q, qn. eexists. split; [exact E1|]. split; [exact E2|].
  match goal with H : waist _ _ _ _ _ ?t _ |- _ => replace t with B in E3 by (unfold Rdiv; ring) end. split; [exact E3|]. clear E1 E2 E3.
  assert (PP := PI_RGT_0). assert (W : 0 < pick axis w) by (unfold pick; destruct axis; auto). set (wa := pick axis w) in *. assert (AP : 0 < Rabs P) by (apply Rabs_pos_lt; auto).
  assert (Z : 0 < PI * wa ^ 2 * scale / l).
  { apply Rdiv_lt_0_compat; [|auto]. apply Rmult_lt_0_compat; [|auto]. apply Rmult_lt_0_compat; [auto|]. nra. }
  replace (0 ^ 2 + (PI * wa ^ 2 * scale / l) ^ 2) with ((PI * wa ^ 2 * scale / l) * (PI * wa ^ 2 * scale / l)) by ring. rewrite sqrt_square by lra. field. repeat split; lra.
Qed.

Lemma reach P z x : P <> 0 -> 0 < z ->
  Rabs (x / (P ^ 2 * (x ^ 2 + z ^ 2))) <= 1 / (2 * P ^ 2 * z) /\
  (Rabs (x / (P ^ 2 * (x ^ 2 + z ^ 2))) = 1 / (2 * P ^ 2 * z) <-> Rabs x = z).
Proof.
  intros PZ Z. assert (P2 : 0 < P ^ 2) by (cbn [pow]; nra). set (k := P ^ 2) in *. clearbody k. assert (Q : 0 < x ^ 2 + z ^ 2) by nra.
  assert (E : Rabs (x / (k * (x ^ 2 + z ^ 2))) = 1 / (2 * k * z) - (Rabs x - z) ^ 2 / (2 * k * z * (x ^ 2 + z ^ 2))).
  { unfold Rdiv at 1. rewrite Rabs_mult, (Rabs_pos_eq (/ _)) by (left; apply Rinv_0_lt_compat; nra).
    assert (A : x ^ 2 = Rabs x ^ 2) by (rewrite RPow_abs, Rabs_pos_eq; [reflexivity|nra]). rewrite A in *. field. repeat split; try lra. }
  rewrite E. assert (D : 0 < 2 * k * z * (x ^ 2 + z ^ 2)) by (apply Rmult_lt_0_compat; [nra|auto]). split.
  - assert (0 <= (Rabs x - z) ^ 2 / (2 * k * z * (x ^ 2 + z ^ 2))) by (apply Rmult_le_pos; [apply pow2_ge_0|left; apply Rinv_0_lt_compat; auto]). lra.
  - split; intros H.
    + assert (G : (Rabs x - z) ^ 2 / (2 * k * z * (x ^ 2 + z ^ 2)) = 0) by lra. assert (G2 : (Rabs x - z) ^ 2 = 0).
      { transitivity ((Rabs x - z) ^ 2 / (2 * k * z * (x ^ 2 + z ^ 2)) * (2 * k * z * (x ^ 2 + z ^ 2))); [field; repeat split; lra|rewrite G; ring]. }
      nra.
    + rewrite H. unfold Rdiv. ring.
Qed.

(** Wherever its waist is put, a beam has its new waist within [1 / (2 P^2 z)] of the back focal point; that distance is
    reached exactly from one Rayleigh length away from the front focal point. *)
Theorem C101_collimation axis xs n0 l n P F B scale w p : Forall upright xs -> focal axis xs n0 l n P F B -> P <> 0 ->
  0 < l -> 0 < n0 -> 0 < n -> 0 < scale -> 0 < fst w -> 0 < snd w -> let z := PI * pick axis w ^ 2 * scale / l in
  exists q qn t, make_qi l n0 scale w p 0 = Some q /\ beam_behind xs q n0 l = (Some qn, n) /\ waist_position n axis qn = Some (n * t) /\
    Rabs (t - B) <= 1 / (2 * P ^ 2 * z) /\ (Rabs (t - B) = 1 / (2 * P ^ 2 * z) <-> Rabs (pick axis p / n0 - F) = z).
Proof.
  intros U FO PZ L N0 N SC WX WY z. destruct (C101_waists axis xs n0 l n P F B scale w p U FO PZ L N0 N SC WX WY) as (q & qn & E1 & E2 & E3). cbv zeta in E3. fold z in E3.
  set (x := pick axis p / n0 - F) in *. exists q, qn, (B + x / (P ^ 2 * (x ^ 2 + z ^ 2))). split; [exact E1|]. split; [exact E2|].
  destruct E3 as (_ & _ & _ & WP & _). rewrite Ropp_involutive in WP. split; [exact WP|].
  assert (Z : 0 < z).
  { assert (W : 0 < pick axis w) by (unfold pick; destruct axis; auto). assert (PP := PI_RGT_0). unfold z. apply Rdiv_lt_0_compat; [|auto]. apply Rmult_lt_0_compat; [|auto]. apply Rmult_lt_0_compat; [auto|]. nra. }
  replace (B + x / (P ^ 2 * (x ^ 2 + z ^ 2)) - B) with (x / (P ^ 2 * (x ^ 2 + z ^ 2))) by ring. apply reach; auto.
Qed.

(** The waist of a beam does not go where rays image the point of its waist: it lies between that image and the back
    focal point, in the proportion [x^2 / (x^2 + z^2)]. *)
Theorem C101_between axis xs n0 l n P F B scale w p t : Forall upright xs -> focal axis xs n0 l n P F B -> P <> 0 ->
  0 < l -> 0 < n0 -> 0 < n -> 0 < scale -> 0 < fst w -> 0 < snd w -> images axis xs n0 l n (pick axis p / n0) t ->
  let z := PI * pick axis w ^ 2 * scale / l in let x := pick axis p / n0 - F in
  x <> 0 /\ exists q qn, make_qi l n0 scale w p 0 = Some q /\ beam_behind xs q n0 l = (Some qn, n) /\
    waist_position n axis qn = Some (n * (B + x ^ 2 / (x ^ 2 + z ^ 2) * (t - B))) /\ 0 < x ^ 2 / (x ^ 2 + z ^ 2) < 1.
Proof.
  intros U FO PZ L N0 N SC WX WY IM z x. destruct (C101_waists axis xs n0 l n P F B scale w p U FO PZ L N0 N SC WX WY) as (q & qn & E1 & E2 & E3). cbv zeta in E3. fold z x in E3.
  destruct FO as (FO1 & FO2). destruct (FO1 1) as (v1 & H1 & S1 & T1). destruct (FO2 1) as (v2 & H2 & S2). destruct (IM 1) as (v3 & H3 & S3).
  destruct (behind_inv _ _ _ _ _ _ H1) as (m & S & _ & AF). destruct (block axis m) as [[[a b] c] d] eqn:BL.
  rewrite (ray_told _ _ _ _ _ _ _ _ _ U S H1 _ _ _ _ BL) in S1, T1. rewrite (ray_told _ _ _ _ _ _ _ _ _ U S H2 _ _ _ _ BL) in S2. rewrite (ray_told _ _ _ _ _ _ _ _ _ U S H3 _ _ _ _ BL) in S3. cbn [fst snd] in S1, T1, S2, S3.
  destruct (seq_conserves _ _ U _ _ S) as (D & C). pose proof (block_det _ _ _ _ _ _ D C BL) as DT.
  assert (X : pick axis p / n0 = F + x) by (unfold x; ring). rewrite X in S3. clear IM FO1 FO2 H1 H2 H3.
  assert (Z : 0 < z).
  { assert (W : 0 < pick axis w) by (unfold pick; destruct axis; auto). assert (PP := PI_RGT_0). unfold z. apply Rdiv_lt_0_compat; [|auto]. apply Rmult_lt_0_compat; [|auto]. apply Rmult_lt_0_compat; [auto|]. nra. }
  clearbody x z. assert (C' : c = - P) by lra. assert (A' : a = B * P) by (subst c; lra). assert (D' : d = P * F) by (subst c; lra). subst a c d.
  assert (B' : P * b = 1 - B * F * P ^ 2) by lra. assert (K : P ^ 2 * x * (t - B) = 1).
  { assert (G : P * (B * P * ((F + x) * 1) + b * 1 + t * (- P * ((F + x) * 1) + P * F * 1)) = 0) by (rewrite S3; ring). lra. }
  assert (XZ : x <> 0) by (intros ->; lra). split; [exact XZ|]. exists q, qn. split; [exact E1|]. split; [exact E2|].
  assert (Q : 0 < x ^ 2) by (cbn [pow]; nra). assert (Q' : 0 < z ^ 2) by (cbn [pow]; nra). split.
  - destruct E3 as (_ & _ & _ & WP & _). rewrite Ropp_involutive in WP. rewrite WP. do 3 f_equal.
    transitivity (x * (P ^ 2 * x * (t - B)) / (P ^ 2 * (x ^ 2 + z ^ 2))); [rewrite K; unfold Rdiv; ring|field; repeat split; try lra; apply Rgt_not_eq; nra].
  - split; [apply Rdiv_lt_0_compat; lra|]. apply Rmult_lt_reg_r with (x ^ 2 + z ^ 2); [lra|]. unfold Rdiv. rewrite Rmult_assoc, Rinv_l by lra. lra.
Qed.

(** Without power waists behave like points: they go where rays image them, multiplied like heights. *)
Theorem C101_afocal axis xs n0 l n M scale w p t : Forall upright xs -> afocal axis xs n0 l n M ->
  0 < l -> 0 < n0 -> 0 < n -> 0 < scale -> 0 < fst w -> 0 < snd w -> images axis xs n0 l n (pick axis p / n0) t ->
  M <> 0 /\ exists q qn, make_qi l n0 scale w p 0 = Some q /\ beam_behind xs q n0 l = (Some qn, n) /\ waist axis l n scale (Rabs M * pick axis w) t qn.
Proof.
  intros U A L N0 N SC WX WY IM. destruct (A 1) as (v1 & H1 & S1). destruct (IM 1) as (v3 & H3 & S3). clear A IM.
  destruct (behind_inv _ _ _ _ _ _ H1) as (m & S & _ & AF). destruct (block axis m) as [[[a b] c] d] eqn:BL.
  rewrite (ray_told _ _ _ _ _ _ _ _ _ U S H1 _ _ _ _ BL) in S1. rewrite (ray_told _ _ _ _ _ _ _ _ _ U S H3 _ _ _ _ BL) in S3. cbn [fst snd] in S3. injection S1 as S1 S2.
  destruct (seq_conserves _ _ U _ _ S) as (D & C). pose proof (block_det _ _ _ _ _ _ D C BL) as DT.
  assert (C' : c = 0) by lra. assert (A' : a = M) by lra. subst a c. assert (MD : M * d = 1) by lra. assert (MZ : M <> 0) by (intros ->; lra). split; [exact MZ|].
  destruct (fresh_behind axis xs n0 l n m scale w p U S AF L N0 SC WX WY) as (q & qn & E1 & E2 & E3). exists q, qn. split; [exact E1|]. split; [exact E2|].
  assert (W : 0 < pick axis w) by (unfold pick; destruct axis; auto). set (wa := pick axis w) in *. set (z := PI * wa ^ 2 * scale / l) in *. set (s := pick axis p / n0) in *.
  assert (AP : 0 < Rabs M) by (apply Rabs_pos_lt; auto).
  unfold waist. apply textbook_axis; auto; [apply Rmult_lt_0_compat; auto|]. rewrite E3, BL. f_equal.
  assert (W2 : PI * (Rabs M * wa) ^ 2 * scale / l = M ^ 2 * z).
  { rewrite Rpow_mult_distr, RPow_abs, Rabs_pos_eq by nra. unfold z. field. lra. }
  rewrite W2. replace (- (n * t) / n) with (- t) by (field; lra). clearbody z s. assert (DM : d = / M) by (apply Rmult_eq_reg_l with M; [rewrite MD; field; auto|auto]). subst d.
  assert (T : - t = M ^ 2 * s + M * b).
  { transitivity (- (M * (t * / M))); [field; auto|]. replace (t * / M) with (- (M * s + b)) by lra. ring. }
  rewrite T. unfold mob. apply cx_eq; unfold cdiv, cinv, cabs2; cbn [re im cmul cadd rc]; field; auto.
Qed.

(** ** Examples *)
Lemma told_back axis xs n0 l m a b c d y u : Forall upright xs -> seq_matrix xs n0 l = Some m -> block axis m = (a, b, c, d) ->
  exists v, behind xs (ray axis y u) n0 l = (Some v, after xs n0 l) /\ part axis v = (a * y + b * u, c * y + d * u).
Proof.
  intros U S B. exists (mv4 m (ray axis y u)). assert (E : behind xs (ray axis y u) n0 l = (Some (mv4 m (ray axis y u)), after xs n0 l)) by (unfold behind; rewrite behind_run, S; reflexivity).
  split; [exact E|]. exact (ray_told _ _ _ _ _ _ _ _ _ U S E _ _ _ _ B).
Qed.
Lemma mirror_upright l d e s : cavity_mirror l d e s -> upright e.
Proof. intros (mt & K & _ & _ & _ & _ & A & _). unfold upright. rewrite K. exact A. Qed.
Lemma one_mirror axis c : exists e s, cavity_mirror 1 1 e s /\ exists m, paraxial_matrix e 1 1 = (1, Some m) /\ block axis m = (1, 1, 2 * c, 2 * c + 1).
Proof.
  destruct (cavity c) as (e0 & e1 & e2 & s & _ & _ & C & _ & _ & _ & G). destruct (G axis) as (G1 & _). exists e1, s. split; [exact C|].
  destruct (mirror_block axis 1 1 e1 s C) as (m & P & B). exists m. split; [exact P|]. cbv zeta in B. rewrite B. unfold g_factor in G1.
  match goal with |- (_, _, 2 * ?p, _) = _ => assert (E : p = c) by lra; rewrite E end. f_equal. ring.
Qed.
(** a mirror of focal length one, one unit behind the first plane: a waist one Rayleigh length in front of its focal point *)
Example C101_mirror axis : exists xs, Forall upright xs /\ focal axis xs 1 1 1 1 0 1 /\ images axis xs 1 1 1 1 2 /\
  exists q qn, make_qi 1 1 (/ PI) (1, 1) (1, 1) 0 = Some q /\ beam_behind xs q 1 1 = (Some qn, 1) /\ waist axis 1 1 (/ PI) (1 / sqrt 2) (3 / 2) qn.
Proof.
  destruct (one_mirror axis (-1/2)) as (e & s & C & m & PM & BL). exists [e]. assert (U : Forall upright [e]) by (constructor; [eapply mirror_upright; eauto|constructor]).
  assert (S : seq_matrix [e] 1 1 = Some m) by (rewrite seq_one, PM; reflexivity).
  assert (AF : after [e] 1 1 = 1) by (change (after [e] 1 1) with (index_after e 1 1); rewrite <- after_fst, PM; reflexivity).
  assert (FO : focal axis [e] 1 1 1 1 0 1).
  { split; intros y; [destruct (told_back axis [e] 1 1 m _ _ _ _ y 0 U S BL) as (v & E & Q)|destruct (told_back axis [e] 1 1 m _ _ _ _ (0 * y) y U S BL) as (v & E & Q)];
      rewrite AF in E; exists v; (split; [exact E|]); rewrite Q; cbn [fst snd]; [split|]; field. }
  split; [exact U|]. split; [exact FO|]. split.
  { intros u. destruct (told_back axis [e] 1 1 m _ _ _ _ (1 * u) u U S BL) as (v & E & Q). rewrite AF in E. exists v. split; [exact E|]. rewrite Q. cbn [fst snd]. field. }
  assert (PP := PI_RGT_0). destruct (C101_waists axis [e] 1 1 1 1 0 1 (/ PI) (1, 1) (1, 1) U FO ltac:(lra) ltac:(lra) ltac:(lra) ltac:(lra) ltac:(apply Rinv_0_lt_compat; lra) ltac:(cbn; lra) ltac:(cbn; lra)) as (q & qn & E1 & E2 & E3).
  exists q, qn. split; [exact E1|]. split; [exact E2|]. replace (pick axis (1, 1)) with 1 in E3 by (destruct axis; reflexivity).
  replace (PI * 1 ^ 2 * / PI / 1) with 1 in E3 by (field; lra). replace (1 / 1 - 0) with 1 in E3 by field. rewrite Rabs_R1 in E3.
  replace (1 ^ 2 + 1 ^ 2) with 2 in E3 by ring. replace (1 / (1 * sqrt 2)) with (1 / sqrt 2) in E3 by (rewrite Rmult_1_l; reflexivity).
  replace (1 + 1 / (1 ^ 2 * 2)) with (3 / 2) in E3 by field. exact E3.
Qed.
(** two mirrors of a focal length of half a unit each, at a distance of one: a telescope that only inverts *)
Example C101_telescope axis : exists xs, Forall upright xs /\ afocal axis xs 1 1 1 (-1) /\ images axis xs 1 1 1 3 (-3) /\
  exists q qn, make_qi 1 1 1 (2, 2) (3, 3) 0 = Some q /\ beam_behind xs q 1 1 = (Some qn, 1) /\ waist axis 1 1 1 2 (-3) qn.
Proof.
  destruct (one_mirror axis (-1)) as (e & s & C & m & PM & BL). exists [e; e]. pose proof (mirror_upright _ _ _ _ C) as U1. assert (U : Forall upright [e; e]) by (repeat constructor; auto).
  assert (I : index_after e 1 1 = 1) by (rewrite <- after_fst, PM; reflexivity).
  assert (S : seq_matrix [e; e] 1 1 = Some (mm4 m m)).
  { change [e; e] with ([e] ++ [e])%list. rewrite seq_app, seq_one, PM. change (after [e] 1 1) with (index_after e 1 1). rewrite I, seq_one, PM. reflexivity. }
  assert (AF : after [e; e] 1 1 = 1) by (unfold after; cbn [fold_left]; rewrite !I; reflexivity).
  destruct (element_conserves _ _ _ _ _ U1 PM) as (D & _).
  assert (B2 : block axis (mm4 m m) = (-1, 0, 0, -1)) by (rewrite (block_mm axis m m D D), BL; apply quad_eq; ring).
  assert (A : afocal axis [e; e] 1 1 1 (-1)).
  { intros y. destruct (told_back axis _ 1 1 _ _ _ _ _ y 0 U S B2) as (v & E & Q). rewrite AF in E. exists v. split; [exact E|]. rewrite Q. f_equal; ring. }
  assert (IM : images axis [e; e] 1 1 1 3 (-3)).
  { intros u. destruct (told_back axis _ 1 1 _ _ _ _ _ (3 * u) u U S B2) as (v & E & Q). rewrite AF in E. exists v. split; [exact E|]. rewrite Q. cbn [fst snd]. ring. }
  split; [exact U|]. split; [exact A|]. split; [exact IM|].
  destruct (C101_afocal axis [e; e] 1 1 1 (-1) 1 (2, 2) (3, 3) (-3) U A) as (_ & q & qn & E1 & E2 & E3); try (cbn; lra).
  { replace (pick axis (3, 3) / 1) with 3 by (destruct axis; cbn; field). exact IM. }
  exists q, qn. split; [exact E1|]. split; [exact E2|]. replace (Rabs (-1) * pick axis (2, 2)) with 2 in E3; [exact E3|]. rewrite Rabs_left by lra. destruct axis; cbn; ring.
Qed.
