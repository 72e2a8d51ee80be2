(** Property C49: focal lengths, focal points, principal planes and magnification
    reported by the paraxial trace. *)
From Coq Require Import Reals List Lra Lia Psatz.
From Verif Require Import Base Vec RotModel RotProofs PlacementModel PlacementProofs ElementModel PropsRescale
  ParaxialModel ParaxialProofs PropsParaxial LimitProofs PropsLimit ReverseModel PropsReverse PropsInverse
  PupilModel PropsPupil ParaxTraceModel PropsConjugates PropsSolve.
Import ListNotations.
Open Scope R_scope.

Lemma symplectic_block axis m : symplectic m -> decoupled m -> let '(a, b, c, d) := block axis m in a * d - b * c = 1.
Proof.
  intros S (A & B & C & D & E & F & G & H). unfold block. destruct axis.
  - pose proof (S (V4 0 1 0 0) (V4 0 0 0 1)) as X. unfold omega, mv4, dot4 in X. cbn in X. rewrite A, B, E, F in X. lra.
  - pose proof (S (V4 1 0 0 0) (V4 0 0 1 0)) as X. unfold omega, mv4, dot4 in X. cbn in X. rewrite C, D, G, H in X. lra.
Qed.
Lemma upright_aligned e : upright e -> aligned e.
Proof. unfold upright, aligned, azimuth. destruct (e_kind e); intros U; rewrite ?U, ?sin_0; ring. Qed.

(** an untilted surface with usual media on both sides *)
Definition plain_surface (l n0 : R) (e : element) : Prop := p_angles (e_place e) = v0 /\
  (forall m s, e_kind e = Sph (Some m) s -> 0 < m_index m l /\ 0 < n0).
Lemma untilted_block axis e n0 l n m : plain_surface l n0 e -> upright e -> paraxial_matrix e n0 l = (n, Some m) ->
  exists f g, block axis m = (1, p_distance (e_place e) / n0, f, g) /\ n0 <> 0.
Proof.
  intros (AE & MK) U PB. destruct (upright_block axis e n0 l n m U PB) as (k & f & g & BK & NN).
  exists f, g. split; [|auto]. enough (k = 1) by (subst k; rewrite BK; f_equal; f_equal; f_equal; ring).
  revert PB. unfold paraxial_matrix, index_after. unfold transfer_matrix. rewrite fdiv_some by auto. cbn [obind].
  rewrite AE. destruct (e_kind e) as [|mt s] eqn:K.
  - intros E. injection E as _ <-. unfold block in BK. destruct axis; cbn in BK; injection BK as <-; reflexivity.
  - destruct (vertex_curvature s) as [c|]; [|discriminate]. cbn [obind vx vz v0]. rewrite cos_0.
    destruct (refraction_matrix _ _ _ _ _) as [mr|] eqn:RM; [|discriminate]. cbn [obind]. intros E. injection E as _ <-.
    assert (X : forall x y p z, row_y axis (mv4 mr (V4 x y p z)) = row_y axis (V4 x y p z)).
    { intros x y p z. clear BK. unfold refraction_matrix in RM. destruct mt as [mt|].
      2:{ injection RM as <-. rewrite eye_mv. reflexivity. }
      destruct (m_mirror mt).
      - destruct (fdiv _ _); [|discriminate]. cbn [obind] in RM. injection RM as <-. unfold row_y, mv4, dot4. destruct axis; cbn; ring.
      - destruct (MK mt s eq_refl) as [MP RP]. set (n1 := m_index mt l) in *.
        assert (MU : 0 < n1 / n0) by (apply Rdiv_lt_0_compat; auto).
        assert (S : sqrt ((n1 / n0) ^ 2 + 1 ^ 2 - 1) = n1 / n0).
        { replace ((n1 / n0) ^ 2 + 1 ^ 2 - 1) with ((n1 / n0) * (n1 / n0)) by ring. apply sqrt_square. lra. }
        rewrite fdiv_some in RM by lra. cbn [obind] in RM. rewrite fsqrt_some in RM by nra. cbn [obind] in RM. rewrite S in RM.
        rewrite fdiv_some in RM by lra. cbn [obind] in RM. rewrite fdiv_some in RM by lra. cbn [obind] in RM.
        replace (n1 / n0 / (n1 / n0 * 1)) with 1 in RM by (field; lra). rewrite fdiv_some in RM by lra. cbn [obind] in RM.
        injection RM as <-. rewrite lens_mv. unfold row_y. destruct axis; cbn; ring. }
    fold flip4 in BK. rewrite flip4_T in BK. set (t := p_distance (e_place e) / n0) in *.
    assert (Y : row_y axis (mv4 (mm4 flip4 (mm4 (mm4 mr (M4 (V4 1 0 t 0) (V4 0 1 0 t) (V4 0 0 1 0) (V4 0 0 0 1))) flip4)) (V4 1 1 0 0)) = 1).
    { rewrite !mv4_mm4, flip4_mv, transfer_mv.
      match goal with |- context [mv4 mr ?v] => destruct (mv4 mr v) as [x1 x2 x3 x4] eqn:E; pose proof (f_equal (row_y axis) E) as E' end.
      rewrite X in E'. rewrite flip4_mv. unfold row_y in *. destruct axis; cbn in *; lra. }
    assert (Z : forall m, row_y axis (mv4 m (V4 1 1 0 0)) = 1 -> decoupled m -> let '(k, _, _, _) := block axis m in k = 1).
    { clear. intros m E D. pose proof (block_mv axis m 1 0 D) as B. destruct (block axis m) as [[[a b] c] d].
      destruct B as [B _]. rewrite B in E. lra. }
    specialize (Z _ Y). rewrite BK in Z. apply Z.
    apply decoupled_mm; [apply flip_decoupled|]. apply decoupled_mm; [|apply flip_decoupled].
    apply decoupled_mm; [eapply refraction_decoupled; eauto|unfold decoupled; cbn; repeat split; reflexivity].
Qed.

(** all traces of one system share the matrix up to the last but one element *)
Lemma back2 axis l es : Forall upright es -> (3 <= length es)%nat -> forall y u rs,
  ptrace axis l es y u (refractive_index es l 0) = Some rs ->
  exists M r2, back rs 2 = Some r2 /\ snd (sys_matrix es l 1 (Some (length es - 1)%nat)) = Some M /\ decoupled M /\ row_is axis M y u r2 /\
    (let '(a, b, c, d) := block axis M in a * d - b * c = 1) /\ rn r2 = refractive_index es l (length es - 2).
Proof.
  intros U L y u rs TR. pose proof (ptrace_length _ _ _ _ _ _ _ TR) as LN.
  unfold back. rewrite LN. destruct (Nat.leb_spec 2 (length es)); [|lia].
  destruct (length es - 2)%nat as [|j] eqn:J; [lia|]. destruct (nth_error rs (S j)) as [r2|] eqn:N; [|apply nth_error_None in N; lia].
  destruct (ptrace_nth axis l es y u rs j r2 U TR N) as (M & SM & DM & RI & NR).
  exists M, r2. split; [auto|]. replace (length es - 1)%nat with (S (S j)) by lia. split; [auto|]. split; [auto|]. split; [auto|].
  split; [|auto]. apply symplectic_block; [|auto].
  destruct (sys_matrix es l 1 (Some (S (S j)))) as [n m] eqn:E. cbn in SM. subst m. apply conserves_symplectic.
  eapply C17_system_symplectic; [|exact E]. apply Forall_impl with (2 := U). apply upright_aligned.
Qed.
Lemma focal_length_C axis l es y u rs f0 f1 M : Forall upright es -> (3 <= length es)%nat ->
  ptrace axis l es y u (refractive_index es l 0) = Some rs -> focal_length rs = Some (f0, f1) ->
  snd (sys_matrix es l 1 (Some (length es - 1)%nat)) = Some M ->
  let '(a, b, c, d) := block axis M in
  c <> 0 /\ fst u * snd y - snd u * fst y <> 0 /\ f0 = refractive_index es l (length es - 2) / c /\ f1 = - refractive_index es l 0 / c.
Proof.
  intros U L TR FL SM. destruct (back2 axis l es U L y u rs TR) as (M' & r2 & B2 & SM' & DM & RI & _ & NR).
  rewrite SM in SM'. injection SM' as <-. unfold focal_length, lagrange in FL. rewrite (ptrace_0 _ _ _ _ _ _ _ TR), B2 in FL.
  cbn [obind ry ru rn] in FL. unfold row_is in RI. destruct (block axis M) as [[[a b] c] d]. destruct RI as [_ RU].
  rewrite RU, NR in FL. cbn [fst snd] in FL.
  replace (snd u * (c * fst y + d * fst u) - fst u * (c * snd y + d * snd u)) with (- c * (fst u * snd y - snd u * fst y)) in FL by ring.
  destruct (fdiv _ _) as [f|] eqn:F; [|discriminate]. cbn [obind] in FL. apply fdiv_inv in F. destruct F as [NZ ->].
  set (Lg := fst u * snd y - snd u * fst y) in *.
  assert (c <> 0) by (intros ->; apply NZ; ring). assert (Lg <> 0) by (intros E; apply NZ; rewrite E; ring).
  injection FL as <- <-. split; [auto|]. split; [auto|]. split; field; auto.
Qed.

(** ** C49: focal lengths.  Spec: any ray entering parallel to the axis at height h
    leaves with slope -h/f1, and any ray leaving parallel to the axis
    at height h entered with slope -h/f0; with the same medium on both sides. *)
Theorem C49_focal_length axis l es y u rs f0 f1 y' u' rs' r2 :
  Forall upright es -> (3 <= length es)%nat ->
  ptrace axis l es y u (refractive_index es l 0) = Some rs -> focal_length rs = Some (f0, f1) ->
  ptrace axis l es y' u' (refractive_index es l 0) = Some rs' -> back rs' 2 = Some r2 ->
  refractive_index es l 0 <> 0 -> rn r2 = refractive_index es l 0 ->
  (fst u' = 0 -> fst y' = - (fst (ru r2) / rn r2) * f1) /\
  (fst (ru r2) = 0 -> fst (ry r2) = - (fst u' / refractive_index es l 0) * f0).
Proof.
  intros U L TR FL TR' B2 N0 NN. destruct (back2 axis l es U L y' u' rs' TR') as (M & r2' & B2' & SM & DM & RI & DET & NR).
  rewrite B2 in B2'. injection B2' as <-. pose proof (focal_length_C axis l es y u rs f0 f1 M U L TR FL SM) as FC.
  rewrite <- NR, NN in FC. unfold row_is in RI. destruct (block axis M) as [[[a b] c] d]. destruct FC as (C & _ & -> & ->). destruct RI as [-> ->].
  cbn [fst]. rewrite NN. split.
  - intros ->. field. auto.
  - intros Z. apply (Rmult_eq_reg_l c); [|auto].
    transitivity (a * (c * fst y' + d * fst u') - (a * d - b * c) * fst u'); [ring|]. rewrite Z, DET. field. auto.
Qed.

(** ** C49: focal points and principal planes in air.  Spec: a ray entering parallel to the axis leaves through the
    axis point at distance fd1 behind the last surface and meets its entrance height
    in the plane at distance pd1; a ray leaving parallel entered through the axis
    point at distance fd0 from the first surface and meets its exit height at pd0. *)
Theorem C49_focal_points axis l es y u rs fd0 fd1 pd0 pd1 y' u' rs' r1 r2 e1 :
  Forall upright es -> (3 <= length es)%nat -> nth_error es 1 = Some e1 -> plain_surface l 1 e1 ->
  ptrace axis l es y u (refractive_index es l 0) = Some rs -> focal_distance rs = Some (fd0, fd1) ->
  principal_distance rs = Some (pd0, pd1) ->
  ptrace axis l es y' u' (refractive_index es l 0) = Some rs' -> nth_error rs' 1 = Some r1 -> back rs' 2 = Some r2 ->
  refractive_index es l 0 = 1 -> rn r2 = 1 ->
  (fst u' = 0 -> fst (ry r2) + fd1 * fst (ru r2) = 0 /\ fst (ry r2) + pd1 * fst (ru r2) = fst y') /\
  (fst (ru r2) = 0 -> fst (ry r1) + fd0 * fst u' = 0 /\ fst (ry r1) + pd0 * fst u' = fst (ry r2)).
Proof.
  intros U L E1 P1 TR FD PD TR' B1 B2 N0 NN. destruct (back2 axis l es U L y' u' rs' TR') as (M & r2' & B2' & SM & DM & RI & DET & NR).
  rewrite B2 in B2'. injection B2' as <-. rewrite NR in NN.
  destruct (back2 axis l es U L y u rs TR) as (M0 & q2 & Q2 & SM0 & _ & RI0 & _ & NQ). rewrite SM in SM0. injection SM0 as <-.
  assert (B10 : exists q1, nth_error rs 1 = Some q1).
  { destruct (nth_error rs 1) eqn:E; [eauto|]. apply nth_error_None in E. apply ptrace_length in TR. lia. }
  destruct B10 as (q1 & B10).
  destruct (ptrace_nth axis l es y u rs 0 q1 U TR B10) as (M1 & SM1 & DM1 & RI1 & _).
  destruct (ptrace_nth axis l es y' u' rs' 0 r1 U TR' B1) as (M1' & SM1' & _ & RI1' & _). rewrite SM1 in SM1'. injection SM1' as <-.
  assert (BM1 : exists t f g, block axis M1 = (1, t, f, g)).
  { revert SM1. unfold sys_matrix, paraxial_matrices, slice. destruct es as [|e0 [|e1' es]]; [discriminate|discriminate|].
    cbn in E1. injection E1 as ->. cbn [firstn skipn matrices]. rewrite N0.
    destruct (paraxial_matrix e1 1 l) as [n1 m1] eqn:PM. cbn [fold_left snd obind]. destruct m1 as [m1|]; [|discriminate].
    cbn [obind]. rewrite mm4_eye_r. intros E. injection E as <-.
    assert (U1 : upright e1) by (rewrite Forall_forall in U; apply U; right; left; reflexivity).
    destruct (untilted_block axis e1 1 l n1 m1 P1 U1 PM) as (f & g & B & _). eauto. }
  destruct BM1 as (t & f & g & BM1).
  unfold principal_distance in PD. rewrite FD in PD. cbn [obind] in PD.
  destruct (focal_length rs) as [[f0 f1]|] eqn:FL; [|discriminate]. cbn [obind fst snd] in PD. injection PD as <- <-.
  pose proof (focal_length_C axis l es y u rs f0 f1 M U L TR FL SM) as FC. rewrite NN, N0 in FC.
  unfold focal_distance in FD. rewrite FL in FD. unfold lagrange in FD. rewrite (ptrace_0 _ _ _ _ _ _ _ TR), B10, Q2 in FD.
  cbn [obind ry ru rn] in FD. rewrite NQ, NN, N0 in FD. cbn [fst snd] in FD.
  unfold row_is in RI, RI0, RI1, RI1'. rewrite BM1 in RI1, RI1'. destruct (block axis M) as [[[a b] c] d].
  destruct FC as (C & LZ & -> & ->). destruct RI as [-> ->]. destruct RI0 as [RY0 RU0]. destruct RI1 as [RY1 _]. destruct RI1' as [-> _].
  rewrite RY0, RU0, RY1 in FD. cbn [fst snd] in *. set (Lg := fst u * snd y - snd u * fst y) in *.
  rewrite !fdiv_some in FD by (auto; lra). cbn [obind] in FD. rewrite !fdiv_some in FD by (auto; lra). cbn [obind] in FD. injection FD as <- <-.
  assert (X1 : ((a * snd y + b * snd u) * fst u - (a * fst y + b * fst u) * snd u) = a * Lg) by (unfold Lg; ring).
  assert (X0 : ((1 * snd y + t * snd u) * (c * fst y + d * fst u) - (1 * fst y + t * fst u) * (c * snd y + d * snd u)) = (d - c * t) * Lg) by (unfold Lg; ring).
  rewrite X0, X1. clearbody Lg. clear X0 X1 RY0 RU0 RY1. split.
  - intros ->. split; field; auto.
  - intros Z. split.
    + apply (Rmult_eq_reg_l c); [|auto]. rewrite Rmult_0_r, <- Z. field. auto.
    + apply (Rmult_eq_reg_l c); [|auto].
      transitivity ((c * fst y' + d * fst u') - fst u'); [field; auto|].
      transitivity (a * (c * fst y' + d * fst u') - (a * d - b * c) * fst u'); [|ring]. rewrite Z, DET. ring.
Qed.

(** ** C49: transverse magnification of a focused finite object is image height over
    object height (chief ray column) *)
Theorem C49_magnification axis l es y u rs mt ma last r2 el :
  Forall upright es -> (3 <= length es)%nat -> nth_error es (length es - 1) = Some el -> 
  ptrace axis l es y u (refractive_index es l 0) = Some rs -> magnification rs = Some (mt, ma) ->
  back rs 1 = Some last -> back rs 2 = Some r2 -> plain_surface l (rn r2) el ->
  fst y = 0 -> fst (ry last) = 0 ->
  snd (ry last) = mt * snd y.
Proof.
  intros U L EL TR MG BL B2 PL Y0 YL.
  destruct (back2 axis l es U L y u rs TR) as (M & q2 & Q2 & SM & DM & RI & DET & NQ). rewrite B2 in Q2. injection Q2 as <-.
  pose proof (ptrace_length _ _ _ _ _ _ _ TR) as LN.
  unfold back in BL. rewrite LN in BL. destruct (Nat.leb_spec 1 (length es)); [|lia].
  destruct (length es - 1)%nat as [|j] eqn:J; [lia|].
  destruct (ptrace_nth axis l es y u rs j last U TR BL) as (ML & SL & _ & RL & _).
  destruct (C18_compose es l 1 (S j) (S (S j)) ltac:(lia) ltac:(lia)) as [CO _]. rewrite SM, SL in CO. cbn [obind] in CO.
  assert (SE : snd (sys_matrix es l (S j) (Some (S (S j)))) = snd (paraxial_matrix el (rn r2) l)).
  { unfold sys_matrix, paraxial_matrices. rewrite NQ. replace (length es - 2)%nat with j by lia.
    assert (SLI : slice es (S j) (Some (S (S j))) = [el]).
    { unfold slice. rewrite skipn_firstn_comm. replace (S (S j) - S j)%nat with 1%nat by lia.
      assert (SK : skipn (S j) es = el :: skipn (S (S j)) es).
      { clear - EL. revert es EL. induction (S j) as [|k IH]; intros [|x es] E; try discriminate.
        - cbn in E. injection E as ->. reflexivity.
        - cbn in E. apply IH in E. exact E. }
      rewrite SK. reflexivity. }
    rewrite SLI. cbn [matrices]. destruct (paraxial_matrix el _ l) as [n1 m1]. cbn [fold_left snd obind]. destruct m1; cbn [obind]; [rewrite mm4_eye_r|]; reflexivity. }
  rewrite SE in CO. destruct (paraxial_matrix el (rn r2) l) as [n1 m1] eqn:PM. cbn [snd] in CO. destruct m1 as [m1|]; [|discriminate].
  cbn [obind] in CO. injection CO as ->.
  assert (UL : upright el) by (rewrite Forall_forall in U; apply U; eapply nth_error_In; eauto).
  destruct (untilted_block axis el _ l n1 m1 PL UL PM) as (f & g & B & _). set (t := p_distance (e_place el) / rn r2) in *.
  assert (D1 : decoupled m1) by (eapply upright_decoupled; eauto).
  unfold magnification in MG. rewrite (ptrace_0 _ _ _ _ _ _ _ TR), B2 in MG. cbn [obind ry ru rn] in MG.
  destruct (fdiv (fst u) (fst (ru r2))) as [m|] eqn:FM; [|discriminate]. cbn [obind] in MG.
  match type of MG with obind ?x _ = _ => destruct x; [|discriminate] end. cbn [obind] in MG. injection MG as <- _. apply fdiv_inv in FM. destruct FM as [NZ ->].
  unfold row_is in RI, RL. rewrite block_mm, B in RL by auto. destruct (block axis M) as [[[a b] c] d].
  destruct RI as [_ RU]. destruct RL as [RY _]. rewrite RY in *. rewrite RU in *. cbn [fst snd] in *. rewrite Y0 in *.
  apply (Rmult_eq_reg_l (c * 0 + d * fst u)); [|auto].
  transitivity ((a * d - b * c) * (fst u * snd y) + ((1 * a + t * c) * 0 + (1 * b + t * d) * fst u) * (c * snd y + d * snd u)); [ring|].
  rewrite DET, YL. field. destruct (Req_dec (d * fst u) 0) as [Z|Z]; [exfalso; apply NZ; rewrite Z; ring|]. repeat split; auto; try (intros Q; apply Z; rewrite Q; ring).
Qed.

(** Refuted for different media at the two ends: a single surface air to water.  The
    reported rear focal length and focal distance lack the factor n = 4/3. *)
Theorem C49_immersed_refuted : exists es rs f0 f1 fd0 fd1 rs' r2,
  Forall upright es /\ ptrace true 1 es (2, -1) (0, 1/3) (refractive_index es 1 0) = Some rs /\
  focal_length rs = Some (f0, f1) /\ focal_distance rs = Some (fd0, fd1) /\
  ptrace true 1 es (1, 0) (0, 0) (refractive_index es 1 0) = Some rs' /\ back rs' 2 = Some r2 /\
  1 = - (fst (ru r2) / rn r2) * (f1 * (4/3)) /\ 1 <> - (fst (ru r2) / rn r2) * f1 /\
  fst (ry r2) + fd1 * (4/3) * (fst (ru r2) / rn r2) = 0 /\ fst (ry r2) + fd1 * (fst (ru r2) / rn r2) <> 0.
Proof.
  destruct single_facts as (p0 & p3 & _ & _ & _ & F).
  exists (single p0 p3 (Surf (1/20) 0 None false)). change (refractive_index (single p0 p3 (Surf (1/20) 0 None false)) 1 0) with 1.
  destruct (F true (Surf (1/20) 0 None false) (1/20) (2, -1) (0, 1/3) eq_refl) as (U & T).
  destruct (F true (Surf (1/20) 0 None false) (1/20) (1, 0) (0, 0) eq_refl) as (_ & T').
  cbn [fst snd] in T, T'. do 7 eexists. split; [auto|]. split; [exact T|].
  assert (FL : focal_length [PRow (2, -1) (0, 1/3) 1;
       PRow (2 + 3 * 0, -1 + 3 * (1/3)) (0 - 1/3 * (1/20) * (2 + 3 * 0), 1/3 - 1/3 * (1/20) * (-1 + 3 * (1/3))) (4/3);
       PRow (2 + 3 * 0 + 9/4 * (0 - 1/3 * (1/20) * (2 + 3 * 0)), -1 + 3 * (1/3) + 9/4 * (1/3 - 1/3 * (1/20) * (-1 + 3 * (1/3))))
         (0 - 1/3 * (1/20) * (2 + 3 * 0), 1/3 - 1/3 * (1/20) * (-1 + 3 * (1/3))) (4/3)] = Some (-80, 60)).
  { unfold focal_length, lagrange, back. cbn [length Nat.leb Nat.sub nth_error obind ry ru rn fst snd].
    rewrite fdiv_some by lra. cbn [obind]. f_equal. f_equal; field. }
  split; [exact FL|]. split.
  { unfold focal_distance. rewrite FL. unfold lagrange, back. cbn [length Nat.leb Nat.sub nth_error obind ry ru rn fst snd].
    rewrite !fdiv_some by lra. cbn [obind]. rewrite !fdiv_some by lra. cbn [obind]. reflexivity. }
  split; [exact T'|]. split; [reflexivity|]. cbn [ry ru rn fst snd]. repeat split; lra.
Qed.

(** a biconvex air spaced water lens focused at finite distance: hypotheses of the three theorems *)
Definition lens3 (p0 p3 p9 p18 : placement) : list element :=
  [El p0 None (Sph (Some vac) flat); El p9 (Some 4) (Sph (Some water) (Surf (1/3) 0 None false));
   El p3 (Some 4) (Sph (Some vac) (Surf (-1/6) 0 None false)); El p18 None (Sph None flat)].
Example C49_example : exists p0 p3 p9 p18 rs fl fd pd mt ma last r2,
  init 0 ez v0 None = Some p0 /\ init 3 ez v0 None = Some p3 /\ init 9 ez v0 None = Some p9 /\ init 18 ez v0 None = Some p18 /\
  let es := lens3 p0 p3 p9 p18 in
  Forall upright es /\ refractive_index es 1 0 = 1 /\
  (forall e, In e es -> plain_surface 1 1 e) /\
  ptrace true 1 es (0, -1) (1, 1/9) (refractive_index es 1 0) = Some rs /\
  focal_length rs = Some fl /\ focal_distance rs = Some fd /\ principal_distance rs = Some pd /\ magnification rs = Some (mt, ma) /\
  back rs 1 = Some last /\ back rs 2 = Some r2 /\ rn r2 = 1 /\ fst (ry last) = 0 /\ mt = -2 /\ snd fl = 72/11.
Proof.
  destruct (centred_axis 0) as (p0 & E0 & U0 & D0 & _ & A0); [lra|].
  destruct (centred_axis 3) as (p3 & E3 & U3 & D3 & _ & A3); [lra|].
  destruct (centred_axis 9) as (p9 & E9 & U9 & D9 & _ & A9); [lra|].
  destruct (centred_axis 18) as (p18 & E18 & U18 & D18 & _ & A18); [lra|].
  exists p0, p3, p9, p18.
  pose proof (prim (El p9 (Some 4) (Sph (Some water) (Surf (1/3) 0 None false)), None) 1 1 (Some water) (Surf (1/3) 0 None false) (1/3)) as P1.
  pose proof (prim (El p3 (Some 4) (Sph (Some vac) (Surf (-1/6) 0 None false)), None) 1 (4/3) (Some vac) (Surf (-1/6) 0 None false) (-1/6)) as P2.
  pose proof (prim (El p18 None (Sph None flat), None) 1 1 None flat 0) as P3.
  assert (T : exists last, fst (ry last) = 0 /\ ptrace true 1 (lens3 p0 p3 p9 p18) (0, -1) (1, 1/9) 1 =
    Some [PRow (0, -1) (1, 1/9) 1; PRow (9, 0) (0, 1/9) (4/3); PRow (9, 1/4) (-1/2, 7/72) 1; last]).
  { unfold lens3. cbn [ptrace ptrace_from]. unfold propagate_paraxial.
    change (El p9 (Some 4) (Sph (Some water) (Surf (1/3) 0 None false))) with (fst (El p9 (Some 4) (Sph (Some water) (Surf (1/3) 0 None false)), @None material)).
    rewrite P1; auto; [|split; auto|lra|split; [reflexivity|cbn; lra]]. cbn [obind].
    change (El p3 (Some 4) (Sph (Some vac) (Surf (-1/6) 0 None false))) with (fst (El p3 (Some 4) (Sph (Some vac) (Surf (-1/6) 0 None false)), @None material)).
    change (m_index water 1) with (4/3).
    rewrite P2; auto; [|split; auto|lra|split; [reflexivity|cbn; lra]]. cbn [obind].
    change (El p18 None (Sph None flat)) with (fst (El p18 None (Sph None flat), @None material)).
    change (m_index vac 1) with 1.
    rewrite P3; auto; [|split; auto|lra]. cbn [obind].
    unfold dist. cbn [fst snd e_place]. rewrite D3, D9, D18.
    set (m1 := mm4 (Rm _) (Tm (9 / 1))). set (m2 := mm4 (Rm ((4/3 - 1) * _)) _). set (m3 := mm4 (Rm 0) _).
    assert (X1 : forall a p, mv4 m1 (V4 a a p p) = let y := a + 9 * p in let v := p - 1/9 * y in V4 y y v v).
    { intros a p. unfold m1. rewrite mv4_mm4, Tm_mv, Rm_mv. cbv zeta. apply v4_eq; cbn [w0 w1 w2 w3]; field. }
    assert (X2 : forall a p, mv4 m2 (V4 a a p p) = let y := a + 9/4 * p in let v := p - 1/18 * y in V4 y y v v).
    { intros a p. unfold m2. rewrite mv4_mm4, Tm_mv, Rm_mv. cbv zeta. apply v4_eq; cbn [w0 w1 w2 w3]; field. }
    assert (X3 : forall a p, mv4 m3 (V4 a a p p) = let y := a + 18 * p in V4 y y p p).
    { intros a p. unfold m3. rewrite mv4_mm4, Tm_mv, Rm_mv. cbv zeta. apply v4_eq; cbn [w0 w1 w2 w3]; field. }
    rewrite !X1. cbv zeta. rewrite !X2. cbv zeta. rewrite !X3. cbv zeta. unfold row_y, row_u. cbn [w0 w1 w2 w3 fst snd].
    eexists. split; [|apply f_equal; apply f_equal; apply f_equal2; [|apply f_equal2; [|reflexivity]]].
    - cbn. field.
    - f_equal; f_equal; field.
    - f_equal; f_equal; field. }
  destruct T as (last & YL & T).
  assert (FL : focal_length [PRow (0, -1) (1, 1/9) 1; PRow (9, 0) (0, 1/9) (4/3); PRow (9, 1/4) (-1/2, 7/72) 1; last] = Some (-72/11, 72/11)).
  { unfold focal_length, lagrange, back. cbn [length Nat.leb Nat.sub nth_error obind ry ru rn fst snd].
    rewrite fdiv_some by lra. cbn [obind]. f_equal. f_equal; field. }
  assert (FD : exists fd, focal_distance [PRow (0, -1) (1, 1/9) 1; PRow (9, 0) (0, 1/9) (4/3); PRow (9, 1/4) (-1/2, 7/72) 1; last] = Some fd).
  { unfold focal_distance. rewrite FL. unfold lagrange, back. cbn [length Nat.leb Nat.sub nth_error obind ry ru rn fst snd].
    rewrite !fdiv_some by lra. cbn [obind]. rewrite !fdiv_some by lra. cbn [obind]. eauto. }
  destruct FD as (fd & FD). do 8 eexists. do 4 (split; [eassumption|]). cbv zeta.
  split. { unfold lens3. repeat apply Forall_cons; [..|apply Forall_nil]; unfold upright; cbn; rewrite ?A0, ?A3, ?A9, ?A18; reflexivity. }
  split; [reflexivity|]. split.
  { intros e [<-|[<-|[<-|[<-|[]]]]]; (split; [assumption|]); intros m s E; cbn in E; injection E as <- _ || discriminate; cbn; lra. }
  split; [exact T|].
  split; [exact FL|]. split; [exact FD|].
  split. { unfold principal_distance. rewrite FD, FL. cbn [obind]. reflexivity. }
  split. { unfold magnification, back. cbn [length Nat.leb Nat.sub nth_error obind ry ru rn fst snd].
    rewrite fdiv_some by lra. cbn [obind]. rewrite fdiv_some by lra. cbn [obind]. reflexivity. }
  split; [reflexivity|]. split; [reflexivity|]. cbn. split; [reflexivity|]. split; [exact YL|]. split; lra.
Qed.

Print Assumptions C49_focal_length.
Print Assumptions C49_focal_points.
Print Assumptions C49_magnification.
Print Assumptions C49_immersed_refuted.
