(** Property C73: restarted propagations, track length, eigenrays, the second focal length solve, classification and
    resizing by beams, freshness of cached pupils. *)
From Coq Require Import Reals List ZArith Bool Lia Lra Psatz.
From Verif Require Import Base Cx Vec RotModel RotProofs PlacementModel PlacementProofs ElementModel ParaxialModel ParaxialProofs PropsParaxial
  PropsRescale LimitProofs PropsLimit ReverseModel PropsReverse PropsInverse PupilModel PropsPupil ParaxTraceModel PropsConjugates PropsSolve PropsCardinal
  GaussianModel PropsGaussian PropsBeams LayoutModel PropsLayout CacheModel PropsCache SampleModel TraceRestModel.
Import ListNotations.
Open Scope R_scope.

(** * restarting in the middle *)
(** the rows of a beam trace started with row [r0] *)
Definition beam_rows (es : list element) (l : R) (r0 : option cm * R) : list (option cm * R) := r0 :: sys_gaussian (tl es) (fst r0) (snd r0) l.
Lemma sys_gaussian_length es : forall q n l, length (sys_gaussian es q n l) = length es.
Proof. induction es as [|e es IH]; intros q n l; cbn [sys_gaussian]; [auto|]. destruct (propagate_gaussian e q n l). cbn. rewrite IH. auto. Qed.
Lemma beam_rows_length es l r0 : es <> [] -> length (beam_rows es l r0) = length es.
Proof. intros H. destruct es; [contradiction|]. cbn. rewrite sys_gaussian_length. auto. Qed.
(** rows from [k] on are the trace of the remaining elements started with row [k - 1] *)
Lemma beam_rows_split es : forall l r0 k r, (1 <= k <= length es)%nat -> nth_error (beam_rows es l r0) (k - 1) = Some r ->
  skipn k (beam_rows es l r0) = sys_gaussian (skipn k es) (fst r) (snd r) l.
Proof.
  destruct es as [|e0 es]; intros l r0 k r K N; [cbn in K; lia|]. unfold beam_rows in *. cbn [tl] in *.
  destruct k as [|k]; [lia|]. cbn [skipn]. replace (S k - 1)%nat with k in N by lia. cbn [length] in K. clear e0.
  assert (K' : (k <= length es)%nat) by lia. clear K. revert r0 k r K' N. induction es as [|e es IH]; intros r0 k r K N.
  - cbn in K. assert (k = O) by lia. subst k. cbn in *. injection N as <-. auto.
  - destruct k as [|k]; cbn [skipn nth_error] in *; [injection N as <-; auto|].
    cbn [sys_gaussian] in *. destruct (propagate_gaussian e (fst r0) (snd r0) l) as [q n]. apply (IH (q, n)); [cbn in K; lia|auto].
Qed.
Lemma beam_rows_firstn es es' : forall l r0 k, firstn k es = firstn k es' -> firstn k (beam_rows es l r0) = firstn k (beam_rows es' l r0).
Proof.
  intros l r0 [|k] F; [reflexivity|]. unfold beam_rows. cbn [firstn]. f_equal.
  assert (F' : firstn k (tl es) = firstn k (tl es')).
  { destruct es, es'; cbn in F; try discriminate; [reflexivity|]. injection F. auto. }
  clear F. revert F'. generalize (tl es) (tl es') (fst r0) (snd r0). clear. intros xs. induction k as [|k IH] in xs |- *; intros ys q n F; [reflexivity|].
  destruct xs as [|x xs], ys as [|y ys]; cbn in F; try discriminate; [reflexivity|]. injection F as <- F. cbn [sys_gaussian].
  destruct (propagate_gaussian x q n l) as [q' n']. cbn [firstn]. f_equal. auto.
Qed.
Lemma skipn_skipn {A} (l : list A) : forall i j, skipn i (skipn j l) = skipn (j + i) l.
Proof. induction l as [|a l IH]; intros i [|j]; cbn; auto using skipn_nil. Qed.
Lemma slice_none es k : slice es k None = skipn k es. Proof. reflexivity. Qed.
(** after elements from [k] on have been exchanged, a propagation restarted at [k] gives the rows of a full one;
    restarted over any range of an unchanged system it changes nothing *)
Theorem C73_beam_restart es es' l r0 k stop : (1 <= k <= length es)%nat -> length es' = length es -> firstn k es' = firstn k es ->
  gauss_propagate es' l (beam_rows es l r0) k None = Some (beam_rows es' l r0) /\
  gauss_propagate es l (beam_rows es l r0) k stop = Some (beam_rows es l r0).
Proof.
  intros K L F. assert (NE : es <> []) by (intros ->; cbn in K; lia). assert (NE' : es' <> []) by (intros ->; cbn in L; destruct es; [contradiction|discriminate]).
  destruct (nth_error (beam_rows es l r0) (k - 1)) as [r|] eqn:N.
  2:{ apply nth_error_None in N. rewrite beam_rows_length in N by auto. lia. }
  assert (N' : nth_error (beam_rows es' l r0) (k - 1) = Some r).
  { rewrite <- (firstn_skipn k (beam_rows es' l r0)), (beam_rows_firstn es' es l r0 k F), nth_error_app1.
    - rewrite <- N. rewrite <- (firstn_skipn k (beam_rows es l r0)) at 2. rewrite nth_error_app1; [auto|]. rewrite firstn_length, beam_rows_length by auto. lia.
    - rewrite firstn_length, beam_rows_length by auto. lia. }
  unfold gauss_propagate. rewrite N. cbn [obind]. unfold overwrite. split; f_equal.
  - rewrite slice_none, (beam_rows_firstn es es' l r0 k (eq_sym F)). rewrite <- (beam_rows_split es' l r0 k r) by (auto; lia).
    match goal with |- _ ++ _ ++ skipn ?n ?r = _ => rewrite (@skipn_all2 _ n r) end; [rewrite app_nil_r; apply firstn_skipn|]. rewrite skipn_length, !beam_rows_length by auto. lia.
  - pose proof (beam_rows_split es l r0 k r K N) as SP. destruct stop as [b|].
    2:{ rewrite slice_none, <- SP. match goal with |- _ ++ _ ++ skipn ?n ?r = _ => rewrite (@skipn_all2 _ n r) end; [rewrite app_nil_r; apply firstn_skipn|]. rewrite skipn_length, !beam_rows_length by auto. lia. }
    assert (SL : exists m, slice es k (Some b) = firstn m (skipn k es)).
    { exists (b - k)%nat. unfold slice. rewrite firstn_skipn_comm. destruct (Nat.le_ge_cases k b); [do 2 f_equal; lia|].
      rewrite !skipn_all2; [auto|rewrite firstn_length; lia|rewrite firstn_length; lia]. }
    destruct SL as (m & ->).
    assert (SG : sys_gaussian (firstn m (skipn k es)) (fst r) (snd r) l = firstn m (skipn k (beam_rows es l r0))).
    { rewrite SP. clear. generalize (skipn k es), (fst r), (snd r). intros xs q n. revert xs q n. induction m as [|m IH]; intros [|x xs] q n; cbn [firstn sys_gaussian]; auto.
      destruct (propagate_gaussian x q n l). cbn [firstn]. f_equal. auto. }
    rewrite SG. set (rows := beam_rows es l r0). rewrite firstn_length, skipn_length.
    transitivity (firstn k rows ++ skipn k rows); [f_equal|apply firstn_skipn].
    transitivity (firstn m (skipn k rows) ++ skipn m (skipn k rows)); [f_equal|apply firstn_skipn].
    rewrite skipn_skipn. destruct (Nat.le_ge_cases m (length rows - k)).
    + f_equal. lia.
    + rewrite !skipn_all2 by lia. auto.
Qed.

(** the same for paraxial rays if the two axes do not mix *)
Lemma axis_rows axis m v v' : decoupled m -> row_y axis v = row_y axis v' -> row_u axis v = row_u axis v' ->
  row_y axis (mv4 m v) = row_y axis (mv4 m v') /\ row_u axis (mv4 m v) = row_u axis (mv4 m v').
Proof.
  intros (Z0 & Z1 & Z2 & Z3 & Z4 & Z5 & Z6 & Z7) Y U. unfold row_y, row_u, mv4, dot4 in *. destruct axis; cbn [w0 w1 w2 w3] in *;
    rewrite Z0, Z1, Z2, Z3, Z4, Z5, Z6, Z7 || idtac; rewrite Y, U; split; rewrite ?Z0, ?Z1, ?Z2, ?Z3, ?Z4, ?Z5, ?Z6, ?Z7; ring.
Qed.
Lemma ptrace_from_axis axis l es : forall m c m' c' n, Forall upright es -> row_y axis m = row_y axis m' -> row_u axis m = row_u axis m' ->
  row_y axis c = row_y axis c' -> row_u axis c = row_u axis c' -> ptrace_from axis l es m c n = ptrace_from axis l es m' c' n.
Proof.
  induction es as [|e es IH]; intros m c m' c' n F A B C D; [reflexivity|]. inversion F as [|? ? F0 FS]; subst.
  cbn [ptrace_from]. unfold propagate_paraxial. destruct (paraxial_matrix e n l) as [n1 [M|]] eqn:P; cbn [obind]; [|reflexivity].
  pose proof (upright_decoupled _ _ _ _ _ F0 P) as DM. destruct (axis_rows axis M m m' DM A B) as (A1 & B1). destruct (axis_rows axis M c c' DM C D) as (C1 & D1).
  rewrite (IH _ _ (mv4 M m') (mv4 M c') n1 FS A1 B1 C1 D1), A1, B1, C1, D1. reflexivity.
Qed.
Definition both (axis : bool) (r : prow) : v4 * v4 := (V4 (fst (ry r)) (fst (ry r)) (fst (ru r)) (fst (ru r)), V4 (snd (ry r)) (snd (ry r)) (snd (ru r)) (snd (ru r))).
Lemma ptrace_from_app axis l xs ys : forall m c n, Forall upright ys ->
  ptrace_from axis l (xs ++ ys) m c n = do a <- ptrace_from axis l xs m c n;
    let r := last a (PRow (row_y axis m, row_y axis c) (row_u axis m, row_u axis c) n) in
    do b <- ptrace_from axis l ys (fst (both axis r)) (snd (both axis r)) (rn r); Some (a ++ b).
Proof.
  induction xs as [|x xs IH]; intros m c n F.
  - cbn [app ptrace_from obind last]. cbv zeta. unfold both. cbn [fst snd ry ru rn].
    rewrite (ptrace_from_axis axis l ys m c (V4 (row_y axis m) (row_y axis m) (row_u axis m) (row_u axis m)) (V4 (row_y axis c) (row_y axis c) (row_u axis c) (row_u axis c)) n F)
      by (unfold row_y, row_u; destruct axis; reflexivity).
    match goal with |- _ = obind ?x _ => destruct x end; reflexivity.
  - cbn [app ptrace_from]. unfold propagate_paraxial. destruct (paraxial_matrix x n l) as [n1 [M|]]; cbn [obind]; [|reflexivity].
    rewrite IH by auto. destruct (ptrace_from axis l xs (mv4 M m) (mv4 M c) n1) as [a|]; cbn [obind]; [|reflexivity].
    set (r0 := PRow (row_y axis (mv4 M m), row_y axis (mv4 M c)) (row_u axis (mv4 M m), row_u axis (mv4 M c)) n1).
    assert (E : forall d, last (r0 :: a) d = last a r0) by (intros d; destruct a; [reflexivity|]; cbn [last]; clear; generalize p; induction a as [|b a IH]; intros q; cbn in *; auto).
    cbv zeta. rewrite E. match goal with |- obind (obind ?x _) _ = obind ?y _ => change y with x; destruct x end; reflexivity.
Qed.
Lemma ptrace_from_length axis l xs : forall m c n rs, ptrace_from axis l xs m c n = Some rs -> length rs = length xs.
Proof.
  induction xs as [|x xs IH]; intros m c n rs; cbn [ptrace_from]; [intros E; injection E as <-; auto|].
  unfold propagate_paraxial. destruct (paraxial_matrix x n l) as [n1 [M|]]; cbn [obind]; [|discriminate].
  destruct (ptrace_from axis l xs _ _ n1) as [r|] eqn:E; cbn [obind]; [|discriminate]. intros H. injection H as <-. cbn. f_equal. eauto.
Qed.
Theorem C73_ray_restart axis l es es' y u n0 rs k : (1 <= k <= length es)%nat -> length es' = length es -> firstn k es' = firstn k es ->
  Forall upright es' -> ptrace axis l es y u n0 = Some rs -> parax_propagate axis es' l rs k None = ptrace axis l es' y u n0.
Proof.
  intros K L F U T. destruct es as [|e0 xs]; [cbn in K; lia|]. destruct es' as [|e0' xs']; [discriminate|].
  destruct k as [|k]; [lia|]. cbn [firstn] in F. injection F as -> F. cbn [length] in *. injection L as L.
  inversion U as [|? ? _ U']; subst. cbn [ptrace] in *.
  set (m := V4 (fst y) _ _ _) in *. set (c := V4 (snd y) _ _ _) in *.
  assert (RM : row_y axis m = fst y /\ row_u axis m = fst u /\ row_y axis c = snd y /\ row_u axis c = snd u) by (unfold row_y, row_u; destruct axis; auto).
  destruct RM as (R1 & R2 & R3 & R4).
  assert (SPLIT : forall zs, Forall upright (skipn k zs) -> ptrace_from axis l zs m c n0 = ptrace_from axis l (firstn k zs ++ skipn k zs) m c n0) by (intros; rewrite firstn_skipn; auto).
  destruct (ptrace_from axis l xs m c n0) as [rs0|] eqn:T0; cbn [obind] in T; [|discriminate]. injection T as <-.
  (* the first part, common to both *)
  assert (A : ptrace_from axis l (firstn k xs) m c n0 = Some (firstn k rs0)).
  { clear - T0. clearbody m c. revert k m c n0 rs0 T0. induction xs as [|x xs IH]; intros k m c n0 rs0 T0.
    - cbn in T0. injection T0 as <-. rewrite !firstn_nil. reflexivity.
    - destruct k as [|k]; [reflexivity|]. cbn [firstn ptrace_from] in *. unfold propagate_paraxial in *.
      destruct (paraxial_matrix x n0 l) as [n1 [M|]]; cbn [obind] in *; [|discriminate].
      destruct (ptrace_from axis l xs (mv4 M m) (mv4 M c) n1) as [r|] eqn:E; cbn [obind] in *; [|discriminate]. injection T0 as <-.
      rewrite (IH k _ _ _ _ E). reflexivity. }
  pose proof (ptrace_from_length _ _ _ _ _ _ _ T0) as LR.
  rewrite <- (firstn_skipn k xs') at 2. rewrite ptrace_from_app.
  2:{ apply Forall_forall. intros e I. rewrite Forall_forall in U'. apply U'. rewrite <- (firstn_skipn k xs'). apply in_or_app. auto. }
  rewrite F, A. cbn [obind]. unfold parax_propagate. replace (S k - 1)%nat with k by lia.
  set (r0 := PRow (row_y axis m, row_y axis c) (row_u axis m, row_u axis c) n0).
  assert (R0 : r0 = PRow y u n0) by (unfold r0; rewrite R1, R2, R3, R4, <- !surjective_pairing; auto).
  assert (N : nth_error (PRow y u n0 :: rs0) k = Some (last (firstn k rs0) r0)).
  { rewrite <- R0. clearbody r0. clear - K LR. assert (KL : (k <= length rs0)%nat) by lia. clear K LR. revert r0 k KL. induction rs0 as [|a rs IH]; intros r0 [|k] KL; cbn in KL; try lia; try reflexivity.
    cbn [nth_error]. rewrite (IH a k) by lia. cbn [firstn]. generalize (firstn k rs). clear. intros b. cbn [last]. destruct b as [|p b]; [reflexivity|].
    generalize p. induction b as [|q b IH]; intros p'; cbn in *; auto. }
  rewrite N. cbn [obind]. set (r := last (firstn k rs0) r0). cbv zeta. rewrite slice_none. cbn [skipn]. unfold both. cbn [fst snd].
  destruct (ptrace_from axis l (skipn k xs') _ _ (rn r)) as [new|] eqn:NW; cbn [obind]; [|reflexivity].
  f_equal. unfold overwrite. cbn [firstn app]. f_equal.
  pose proof (ptrace_from_length _ _ _ _ _ _ _ NW) as LNW. rewrite skipn_length in LNW.
  cbn [Nat.add skipn]. rewrite skipn_all2 by lia. rewrite app_nil_r. reflexivity.
Qed.
(** a system for the examples: object, glass surface, air surface, image; another one with a different last lens surface *)
Definition chain4 (p0 p3 p9 p18 : placement) (c : R) : list element :=
  [El p0 None (Sph (Some vac) flat); El p9 (Some 4) (Sph (Some water) (Surf (1/3) 0 None false));
   El p3 (Some 4) (Sph (Some vac) (Surf c 0 None false)); El p18 None (Sph None flat)].
Example C73_restart_example : exists p0 p3 p9 p18 rs rs', Forall upright (chain4 p0 p3 p9 p18 0) /\
  firstn 2 (chain4 p0 p3 p9 p18 0) = firstn 2 (chain4 p0 p3 p9 p18 (-1/6)) /\
  ptrace true 1 (chain4 p0 p3 p9 p18 (-1/6)) (0, -1) (1, 1/9) 1 = Some rs /\
  parax_propagate true (chain4 p0 p3 p9 p18 0) 1 rs 2 None = Some rs' /\ rs' <> rs.
Proof.
  destruct (centred_axis 0) as (p0 & E0 & U0 & D0 & _ & A0); [lra|]. destruct (centred_axis 3) as (p3 & E3 & U3 & D3 & _ & A3); [lra|].
  destruct (centred_axis 9) as (p9 & E9 & U9 & D9 & _ & A9); [lra|]. destruct (centred_axis 18) as (p18 & E18 & U18 & D18 & _ & A18); [lra|].
  assert (UP : forall c, Forall upright (chain4 p0 p3 p9 p18 c)).
  { intros c. unfold chain4. repeat apply Forall_cons; [..|apply Forall_nil]; unfold upright; cbn; rewrite ?A0, ?A3, ?A9, ?A18; reflexivity. }
  assert (TR : forall c, exists rs, ptrace true 1 (chain4 p0 p3 p9 p18 c) (0, -1) (1, 1/9) 1 = Some rs /\
    option_map (fun r => fst (ru r)) (nth_error rs 2) = Some (3 * c)).
  { intros c.
    pose proof (prim (El p9 (Some 4) (Sph (Some water) (Surf (1/3) 0 None false)), None) 1 1 (Some water) (Surf (1/3) 0 None false) (1/3)) as P1.
    pose proof (prim (El p3 (Some 4) (Sph (Some vac) (Surf c 0 None false)), None) 1 (4/3) (Some vac) (Surf c 0 None false) c) as P2.
    pose proof (prim (El p18 None (Sph None flat), None) 1 1 None flat 0) as P3. cbn [fst] in P1, P2, P3.
    unfold chain4. cbn [ptrace ptrace_from]. unfold propagate_paraxial.
    rewrite P1; auto; [|split; auto|lra|split; [reflexivity|cbn; lra]]. cbn [obind]. change (m_index water 1) with (4/3).
    rewrite P2; auto; [|split; auto|lra|split; [reflexivity|cbn; lra]]. cbn [obind]. change (m_index vac 1) with 1.
    rewrite P3; auto; [|split; auto|lra]. cbn [obind]. unfold dist. cbn [fst snd e_place]. rewrite D3, D9, D18.
    eexists. split; [reflexivity|]. cbn [nth_error option_map ru fst]. f_equal. unfold row_u. rewrite !mv4_mm4, !Tm_mv, !Rm_mv, Tm_mv, Rm_mv. cbn [w0 w1 w2 w3]. field. }
  destruct (TR (-1/6)) as (rs & T & V). destruct (TR 0) as (rs' & T' & V'). exists p0, p3, p9, p18, rs, rs'.
  split; [apply UP|]. split; [reflexivity|]. split; [auto|]. split.
  - rewrite (C73_ray_restart true 1 (chain4 p0 p3 p9 p18 (-1/6)) (chain4 p0 p3 p9 p18 0) (0, -1) (1, 1/9) 1 rs 2); auto. cbn. lia.
  - intros ->. rewrite V in V'. injection V'. lra.
Qed.
Example C73_beam_restart_example : exists p0 p3 p9 p18, let es c := chain4 p0 p3 p9 p18 c in
  gauss_propagate (es 0) 1 (beam_rows (es (-1/6)) 1 (Some (CM (Cx 0 (-1)) c0 c0 (Cx 0 (-1))), 1)) 2 None = Some (beam_rows (es 0) 1 (Some (CM (Cx 0 (-1)) c0 c0 (Cx 0 (-1))), 1)).
Proof.
  destruct (centred_axis 0) as (p0 & _); [lra|]. exists p0, p0, p0, p0. cbv zeta.
  refine (proj1 (C73_beam_restart (chain4 p0 p0 p0 p0 (-1/6)) _ 1 _ 2 None _ _ _)); [cbn; lia|reflexivity|reflexivity].
Qed.
Lemma mv4_simple a b c d e f g h i j k l' m n o p x y z w : mv4 (M4 (V4 a b c d) (V4 e f g h) (V4 i j k l') (V4 m n o p)) (V4 x y z w) =
  V4 (a * x + b * y + c * z + d * w) (e * x + f * y + g * z + h * w) (i * x + j * y + k * z + l' * w) (m * x + n * y + o * z + p * w).
Proof. reflexivity. Qed.
Lemma azimuth_mv phi a b c d : mv4 (azimuth_matrix phi) (V4 a b c d) =
  V4 (cos phi * a - sin phi * b) (sin phi * a - cos phi * b) (cos phi * c - sin phi * d) (sin phi * c - cos phi * d).
Proof. unfold azimuth_matrix. cbv zeta. rewrite mv4_simple. apply v4_eq; cbn [w0 w1 w2 w3]; ring. Qed.
Lemma azimuthT_mv phi a b c d : mv4 (mT4 (azimuth_matrix phi)) (V4 a b c d) =
  V4 (cos phi * a + sin phi * b) (- (sin phi * a) - cos phi * b) (cos phi * c + sin phi * d) (- (sin phi * c) - cos phi * d).
Proof. unfold azimuth_matrix, mT4. cbn [q0 q1 q2 q3 w0 w1 w2 w3]. rewrite mv4_simple. apply v4_eq; cbn [w0 w1 w2 w3]; ring. Qed.
(** finding: with elements at an azimuth a restart continues a different ray, even if nothing was changed *)
Theorem C73_ray_restart_refuted : exists es rs, ptrace false 1 es (1, 0) (0, 0) 1 = Some rs /\ parax_propagate false es 1 rs 2 None <> Some rs.
Proof.
  assert (PL : forall a, exists p, p_distance p = 0 /\ p_angles p = a).
  { intros a. destruct (init_spec 0 ez a None) as (p & E & _). exists p. unfold init in E. destruct (update_spec 0 ez a) as (q & U & _ & _ & A & D & _).
    rewrite U in E. cbn [obind] in E. injection E as <-. rewrite Rabs_R0 in D. auto. }
  destruct (PL (V (PI / 3) 0 0)) as (p & PD & PA). destruct (PL (V 0 0 (PI / 4))) as (q & QD & QA).
  set (e1 := El p None (Sph (Some (Material (fun _ => 1) true false)) (Surf (1/2) 0 None false))). set (e2 := El q None (Sph None (Surf 0 0 None false))).
  assert (M1 : exists m, paraxial_matrix e1 1 1 = (1, Some m) /\ forall a b c d, mv4 m (V4 a b c d) = V4 a b (c + a / 2) (d + 2 * b)).
  { unfold paraxial_matrix, e1, transfer_matrix, vertex_curvature, refraction_matrix, index_after. cbn [e_place e_kind s_asph s_c m_mirror m_index].
    rewrite PD, PA. cbn [vx vz]. rewrite cos_PI3, fdiv_some by lra. cbn [obind]. rewrite fdiv_some by lra. cbn [obind]. eexists. split; [reflexivity|].
    intros a b c d. rewrite !mv4_mm4, azimuthT_mv, cos_0, sin_0, !mv4_simple, azimuth_mv, cos_0, sin_0. apply v4_eq; cbn [w0 w1 w2 w3]; field. }
  assert (C4 : cos (PI / 4) * cos (PI / 4) = 1 / 2 /\ sin (PI / 4) = cos (PI / 4)).
  { rewrite cos_PI4, sin_PI4. split; [|auto]. assert (S : sqrt 2 * sqrt 2 = 2) by (apply sqrt_sqrt; lra). assert (sqrt 2 <> 0) by (intros Z; rewrite Z in S; lra).
    unfold Rdiv. rewrite !Rmult_1_l, <- Rinv_mult, S. auto. }
  destruct C4 as (CC & CS).
  assert (M2 : exists m, paraxial_matrix e2 1 1 = (1, Some m) /\ forall a b c d, mv4 m (V4 a b c d) = V4 (a + b) (a + b) (c + d) (c + d)).
  { unfold paraxial_matrix, e2, transfer_matrix, vertex_curvature, refraction_matrix, index_after. cbn [e_place e_kind s_asph s_c m_mirror m_index].
    rewrite QD, QA. cbn [vx vz]. rewrite fdiv_some by lra. cbn [obind]. eexists. split; [reflexivity|].
    intros a b c d. rewrite !mv4_mm4, azimuthT_mv, CS. unfold eye4. rewrite !mv4_simple, azimuth_mv, CS. set (k := cos (PI / 4)) in *. clearbody k.
    apply v4_eq; cbn [w0 w1 w2 w3].
    - transitivity (2 * (k * k) * (a + b) + 2 * (k * k) * (0 / 1) * (c + d)); [field|rewrite CC; field].
    - transitivity (2 * (k * k) * (a + b) + 2 * (k * k) * (0 / 1) * (c + d)); [field|rewrite CC; field].
    - transitivity (2 * (k * k) * (c + d)); [field|rewrite CC; field].
    - transitivity (2 * (k * k) * (c + d)); [field|rewrite CC; field]. }
  destruct M1 as (m1 & M1 & A1). destruct M2 as (m2 & M2 & A2).
  exists [e1; e1; e2]. eexists. cbn [ptrace ptrace_from]. unfold propagate_paraxial. rewrite M1. cbn [obind]. rewrite M2. cbn [obind fst snd]. split; [reflexivity|].
  unfold parax_propagate. cbn [nth_error Nat.sub obind]. unfold slice. cbn [skipn ry ru rn fst snd ptrace_from]. unfold propagate_paraxial. rewrite M2. cbn [obind].
  rewrite !A1, !A2. unfold row_y, row_u. cbn [w0 w1 w2 w3]. rewrite ?A2. cbn [w0 w1 w2 w3]. unfold overwrite. cbn [length firstn app skipn Nat.add].
  intros E. injection E. intros. lra.
Qed.

(** * track length *)
(** it is the separation along z of the first and the last surface, at most their distance, which is at most the path;
    for a straight system it is the path *)
Theorem C73_track s t : Forall normal_form s -> (3 <= length s)%nat -> track_length s = Some t -> exists o1 o2 p1 p2,
  nth_error (origins s) 1 = Some o1 /\ nth_error (origins s) (length s - 2) = Some o2 /\ nth_error (path s) 1 = Some p1 /\ nth_error (path s) (length s - 2) = Some p2 /\
  t = vz o2 - vz o1 /\ Rabs t <= norm (vsub3 o2 o1) <= p2 - p1 /\ (Forall (fun p => p_direction p = ez) s -> t = p2 - p1).
Proof.
  intros F L T. destruct (C41_origins s 1) as (A1 & B1 & T1 & LO); [lia|]. destruct (C41_origins s (length s - 2)) as (A2 & B2 & T2 & _); [lia|].
  unfold track_length in T. assert (LT : length (track s) = length s) by (unfold track; rewrite map_length; auto).
  assert (P : position (length (track s)) (-2) = Some (length s - 2)%nat).
  { unfold position. rewrite LT. cbn [Z.ltb Z.compare]. destruct (Z.leb_spec 0 (-2 + Z.of_nat (length s))); [|lia]. destruct (Z.ltb_spec (-2 + Z.of_nat (length s)) (Z.of_nat (length s))); [|lia].
    cbn [andb]. f_equal. lia. }
  rewrite P in T. cbn [obind] in T. rewrite T1, T2 in T. cbn [obind] in T. apply some_inj in T. subst t.
  do 4 eexists. split; [exact A1|]. split; [exact A2|]. split; [exact B1|]. split; [exact B2|]. split; [reflexivity|].
  pose proof (C41_bound s 1 (length s - 2) _ _ _ _ F ltac:(lia) A1 A2 B1 B2) as BD. split; [split; [|exact BD]|].
  - set (a := vsum _). set (b := vsum _). clear. pose proof (norm_sqr (vsub3 a b)) as N. pose proof (norm_nonneg (vsub3 a b)) as NN.
    rewrite <- (Rabs_pos_eq (norm _) NN). apply Rsqr_le_abs_0. unfold Rsqr. rewrite N. unfold dot, vsub3. cbn [vx vy vz].
    pose proof (Rle_0_sqr (vx a - vx b)). pose proof (Rle_0_sqr (vy a - vy b)). unfold Rsqr in *. lra.
  - intros D. assert (ST : forall k, vz (PropsLayout.vsum (map p_offset (firstn k s))) = PropsLayout.rsum (map p_distance (firstn k s))).
    { intros k. rewrite Forall_forall in D, F. assert (I : forall p, In p (firstn k s) -> In p s) by (intros p I; rewrite <- (firstn_skipn k s); apply in_or_app; auto).
      revert I. generalize (firstn k s). intros xs. induction xs as [|x xs IH]; intros I; [reflexivity|].
      change (vz (vadd3 (p_offset x) (PropsLayout.vsum (map p_offset xs))) = p_distance x + PropsLayout.rsum (map p_distance xs)). cbn [vadd3 vz]. rewrite IH by (intros; apply I; right; auto). f_equal.
      destruct (F x (I x (or_introl eq_refl))) as (_ & _ & ->). rewrite (D x (I x (or_introl eq_refl))). cbn. ring. }
    rewrite !ST. reflexivity.
Qed.
Example C73_track_example : exists p t, init 3 ez v0 None = Some p /\ Forall normal_form [p; p; p; p] /\ track_length [p; p; p; p] = Some t /\ t = 3.
Proof.
  destruct (init_spec 3 ez v0 None) as (p & E & NF & _). destruct (centred_axis 3) as (p' & E' & _ & D & DI & _); [lra|]. assert (p' = p) by congruence. subst p'.
  exists p. assert (NF' := NF). destruct NF as (N1 & N2 & N3). assert (O : p_offset p = V 0 0 3) by (rewrite N3, D, DI; apply vec_eq; cbn; ring).
  eexists. split; [auto|]. split; [repeat (apply Forall_cons; [exact NF'|]); apply Forall_nil|]. unfold track_length, track, LayoutModel.origins, position. cbn [map]. rewrite O. cbn. split; [reflexivity|]. cbn. ring.
Qed.
(** finding: it is documented as the distance from the first to the last surface, but a folded path does not count *)
Theorem C73_track_refuted : exists s o1 o2, Forall normal_form s /\ nth_error (origins s) 1 = Some o1 /\ nth_error (origins s) (length s - 2) = Some o2 /\
  track_length s = Some 0 /\ norm (vsub3 o2 o1) = 1.
Proof.
  destruct (update_spec 1 (V 0 1 0) v0) as (p & _ & NF' & _ & _ & _ & u & U & O & _).
  destruct (unit_or_axis_spec (V 0 1 0)) as (u' & U' & _ & _ & _ & H). assert (u' = u) by congruence. subst u'. rewrite H in O by (unfold dot; cbn; ring).
  replace (vmul3 1 (V 0 1 0)) with (V 0 1 0) in O by (apply vec_eq; cbn; ring).
  exists [p; p; p; p]. unfold track_length, track, LayoutModel.origins, position. cbn [map]. rewrite O. cbn. do 2 eexists. split; [repeat (apply Forall_cons; [exact NF'|]); apply Forall_nil|]. split; [reflexivity|]. split; [reflexivity|].
  split; [transitivity (Some (0 + 0 + 0 + 0 - (0 + 0 + 0))); [reflexivity|f_equal; ring]|]. transitivity (sqrt 1); [|apply sqrt_1]. unfold norm. f_equal. unfold dot. cbn. ring.
Qed.

(** * eigenrays *)
(** spec: product of a complex number and a complex ray, and the product of two complex rays conserved by a system *)
Definition rot4 (e : cx) (v : cray) : cray :=
  let '(a, b) := v in
  (V4 (re e * w0 a - im e * w0 b) (re e * w1 a - im e * w1 b) (re e * w2 a - im e * w2 b) (re e * w3 a - im e * w3 b),
   V4 (re e * w0 b + im e * w0 a) (re e * w1 b + im e * w1 a) (re e * w2 b + im e * w2 a) (re e * w3 b + im e * w3 a)).
Definition eigen (m : m4) (e : cx) (v : cray) : Prop := (mv4 m (fst v), mv4 m (snd v)) = rot4 e v.
Definition lagrange_c (v w : cray) : cx :=
  Cx (lagrange2 (fst v) (fst w) - lagrange2 (snd v) (snd w)) (lagrange2 (fst v) (snd w) + lagrange2 (snd v) (fst w)).
(** a ray reported as eigenray leaves the system as the multiple of itself given by its eigenvalue *)
Theorem C73_eigenrays eig es l rs e v : (forall m e v, In (e, v) (eig m) -> eigen m e v) -> (2 <= length es)%nat ->
  eigenrays eig es l = Some rs -> In (e, v) rs -> let n0 := refractive_index es l 0 in exists n,
  nth_error (sys_paraxial (tl es) (Some (fst v)) n0 l) (length es - 2) = Some (Some (fst (rot4 e v)), n) /\
  nth_error (sys_paraxial (tl es) (Some (snd v)) n0 l) (length es - 2) = Some (Some (snd (rot4 e v)), n).
Proof.
  intros C L E I n0. unfold eigenrays in E. destruct (snd (sys_matrix es l 1 None)) as [m|] eqn:M; cbn [obind] in E; [|discriminate]. injection E as <-.
  apply C in I. exists (refractive_index es l (1 + (length es - 2))).
  assert (SL : slice es 1 (Some (1 + S (length es - 2))%nat) = slice es 1 None) by (unfold slice; rewrite firstn_all2 by lia; auto).
  assert (X : forall y, nth_error (sys_paraxial (tl es) (Some y) n0 l) (length es - 2) = Some (Some (mv4 m y), refractive_index es l (1 + (length es - 2)))).
  { intros y. assert (LN : forall xs q n, length (sys_paraxial xs q n l) = length xs).
    { clear. induction xs as [|x xs IH]; intros q n; cbn [sys_paraxial]; [auto|]. destruct (propagate_paraxial x q n l). cbn. auto. }
    destruct (nth_error (sys_paraxial (tl es) (Some y) n0 l) (length es - 2)) as [x|] eqn:N.
    2:{ apply nth_error_None in N. rewrite LN in N. destruct es; cbn in *; lia. }
    destruct (C18_ray_is_matrix es l 1 (length es - 2) y x ltac:(lia)) as (A & B).
    - unfold slice. destruct es; [cbn in L; lia|]. exact N.
    - destruct x as [q n]. cbn [fst snd] in *. rewrite B. f_equal. f_equal. rewrite A. unfold sys_matrix, paraxial_matrices in *. rewrite SL, M. reflexivity. }
  rewrite !X. unfold eigen in I. rewrite <- I. auto.
Qed.
(** in an aligned system two eigenrays that are not conjugate to each other belong to reciprocal eigenvalues *)
Theorem C73_eigenvalues es l a b n m e v f w : Forall aligned es -> sys_matrix es l a b = (n, Some m) -> eigen m e v -> eigen m f w ->
  lagrange_c v w <> c0 -> cmul e f = c1.
Proof.
  intros AL M E F NZ. pose proof (C17_system_symplectic es l a b n m AL M) as CV. unfold eigen in *.
  assert (K : lagrange_c v w = cmul (cmul e f) (lagrange_c v w)).
  { transitivity (lagrange_c (mv4 m (fst v), mv4 m (snd v)) (mv4 m (fst w), mv4 m (snd w))).
    - unfold lagrange_c. cbn [fst snd]. rewrite !CV. reflexivity.
    - rewrite E, F. destruct v as [v1 v2], w as [u1 u2]. unfold lagrange_c, rot4, lagrange2. cbn [fst snd w0 w1 w2 w3]. apply cx_eq; cbn; ring. }
  set (z := lagrange_c v w) in *. clearbody z. transitivity (cdiv (cmul (cmul e f) z) z); [field; auto|]. rewrite <- K. field. auto.
Qed.
Example C73_eigenrays_example : exists p, let es := [El p None Plain; El p None Plain] in
  Forall aligned es /\ (exists n m, sys_matrix es 1 1 None = (n, Some m) /\ eigen m c1 (V4 1 2 0 0, V4 0 0 0 0)).
Proof.
  destruct (centred_axis 3) as (p & _ & _ & D & _ & A); [lra|]. exists p. cbv zeta. split.
  - repeat (apply Forall_cons; [unfold aligned, azimuth; cbn [e_kind e_place]; rewrite ?A; cbn [v0 vz]; rewrite ?sin_0; ring|]). apply Forall_nil.
  - unfold sys_matrix, paraxial_matrices, slice, refractive_index. cbn [skipn firstn rev app first_index e_kind matrices fold_left].
    unfold paraxial_matrix, transfer_matrix. cbn [e_kind e_place]. rewrite D, fdiv_some by lra. cbn [obind]. do 2 eexists. split; [reflexivity|].
    unfold eigen, rot4, c1. cbn [fst snd re im]. rewrite !mv4_mm4. unfold eye4. rewrite !mv4_simple. f_equal; apply v4_eq; cbn [w0 w1 w2 w3]; field.
Qed.
Example C73_eigenvalues_example : exists (e f : cx) (v w : cray), let m := M4 (V4 2 0 0 0) (V4 0 1 0 0) (V4 0 0 (1/2) 0) (V4 0 0 0 1) in
  eigen m e v /\ eigen m f w /\ lagrange_c v w <> c0 /\ e = Cx 2 0 /\ f = Cx (1/2) 0.
Proof.
  exists (Cx 2 0), (Cx (1/2) 0), (V4 1 0 0 0, V4 0 0 0 0), (V4 0 0 1 0, V4 0 0 0 0). cbv zeta. unfold eigen, rot4. cbn [fst snd re im]. rewrite !mv4_simple.
  split; [f_equal; apply v4_eq; cbn [w0 w1 w2 w3]; field|]. split; [f_equal; apply v4_eq; cbn [w0 w1 w2 w3]; field|]. split; [|auto].
  intros E. apply (f_equal re) in E. unfold lagrange_c, lagrange2 in E. cbn in E. lra.
Qed.

(** * the second focal length solve *)
(** finding: for every plano-convex lens in air the solve gives the index of the lens times the requested focal length *)
Theorem C73_second_solve_refuted axis l p0 p1 p2 p3 r1 r2 air glass k c k2 n f y u rs :
  let e0 := El p0 None (Sph (Some air) flat) in let e1 := El p1 r1 (Sph (Some glass) (Surf 0 k None false)) in
  let e2 c := El p2 r2 (Sph (Some air) (Surf c k2 None false)) in let e3 := El p3 None (Sph None flat) in
  Forall (fun p => updated p /\ p_angles p = v0) [p1; p2; p3] -> m_index air l = 1 -> m_mirror air = false -> m_index glass l = n -> m_mirror glass = false ->
  0 < n -> n <> 1 -> f <> 0 -> fst u * snd y - snd u * fst y <> 0 ->
  ptrace axis l [e0; e1; e2 c; e3] y u 1 = Some rs ->
  exists es' rs', focal_length_solve_at axis l [e0; e1; e2 c; e3] rs f None = Some es' /\ ptrace axis l es' y u 1 = Some rs' /\
    focal_length rs' = Some (- (n * f), n * f).
Proof.
  intros e0 e1 e2 e3 FP AI AM GI GM N0 N1 F0 LG TR.
  assert (U : forall x, In x [p1; p2; p3] -> updated x /\ p_angles x = v0) by (apply Forall_forall; auto).
  assert (M1 : paraxial_matrix e1 1 l = (n, Some (mm4 (Rm 0) (Tm (p_distance p1 / 1))))).
  { pose proof (prim (e1, None) l 1 (Some glass) (Surf 0 k None false) 0) as P. cbn [fst] in P. rewrite P; [|split; apply U; cbn; auto|reflexivity|reflexivity|lra|rewrite GI; auto].
    rewrite GI. unfold dist. cbn [fst e_place e1]. rewrite Rmult_0_r. reflexivity. }
  assert (M2 : forall c, paraxial_matrix (e2 c) n l = (1, Some (mm4 (Rm ((n - 1) * c)) (Tm (p_distance p2 / n))))).
  { intros c'. pose proof (prim (e2 c', None) l n (Some air) (Surf c' k2 None false) c') as P. cbn [fst] in P. rewrite P; [|split; apply U; cbn; auto|reflexivity|reflexivity|lra|rewrite AI; split; [auto|lra]].
    rewrite AI. reflexivity. }
  assert (M3 : paraxial_matrix e3 1 l = (1, Some (mm4 (Rm 0) (Tm (p_distance p3 / 1))))).
  { pose proof (prim (e3, None) l 1 None flat 0) as P. cbn [fst] in P. rewrite P; [|split; apply U; cbn; auto|reflexivity|reflexivity|lra|auto]. reflexivity. }
  assert (TRC : forall c, exists rs, ptrace axis l [e0; e1; e2 c; e3] y u 1 = Some rs /\ map rn rs = [1; n; 1; 1] /\
    nth_error rs 0 = Some (PRow y u 1) /\ exists r, nth_error rs 2 = Some r /\
      fst (ru r) = fst u + (n - 1) * c * (fst y + (p_distance p1 / 1 + p_distance p2 / n) * fst u) /\
      snd (ru r) = snd u + (n - 1) * c * (snd y + (p_distance p1 / 1 + p_distance p2 / n) * snd u) /\ length rs = 4%nat).
  { intros c'. cbn [ptrace ptrace_from]. unfold propagate_paraxial. rewrite M1. cbn [obind]. rewrite M2. cbn [obind]. rewrite M3. cbn [obind].
    eexists. split; [reflexivity|]. split; [reflexivity|]. split; [reflexivity|]. eexists. split; [reflexivity|]. cbn [ru fst snd length].
    unfold row_u. rewrite !mv4_mm4, !Tm_mv, !Rm_mv, !Tm_mv, !Rm_mv. destruct axis; cbn [w2 w3]; repeat split; ring. }
  destruct (TRC c) as (rs1 & T1 & IX & R0 & r & R2 & UA & UB & LN). rewrite TR in T1. injection T1 as <-.
  set (c' := - (1 / (n * f)) / (n - 1)).
  exists [e0; e1; e2 c'; e3]. destruct (TRC c') as (rs2 & T2 & IX2 & R02 & r' & R22 & UA2 & UB2 & LN2). exists rs2. split; [|split; [auto|]].
  - unfold focal_length_solve_at. cbn [length Nat.sub Nat.add].
    assert (RI : refractive_index [e0; e1; e2 c; e3] l 0 = 1 /\ refractive_index [e0; e1; e2 c; e3] l 1 = n /\ refractive_index [e0; e1; e2 c; e3] l 2 = 1).
    { unfold refractive_index. cbn. auto. }
    destruct RI as (I0 & I1 & I2).
    unfold sys_matrix, paraxial_matrices. rewrite I0, I1, I2. unfold slice. cbn [firstn skipn matrices]. rewrite M1, M2, M3. cbn [fold_left obind snd].
    rewrite !mm4_eye_r, !RT_block.
    destruct rs as [|a0 [|a1 [|a2 [|a3 [|]]]]]; try discriminate. cbn [map] in IX. injection IX as X0 X1 X2 X3. cbn [nth_error obind]. rewrite X1, X2.
    rewrite fdiv_some by nra. cbn [obind]. rewrite fdiv_some by lra. cbn [obind]. rewrite fdiv_some by lra. cbn [obind].
    unfold set_curvature. cbn [nth_error obind e_kind e2 e_place e_radius set_nth s_k s_asph s_alt]. do 6 f_equal. unfold e2. do 3 f_equal. unfold c'. field. split; lra.
  - unfold focal_length, lagrange, back. rewrite LN2. cbn [Nat.leb Nat.sub]. rewrite R02, R22. cbn [obind ru ry rn].
    destruct rs2 as [|a0 [|a1 [|a2 [|a3 [|]]]]]; try discriminate. cbn [map] in IX2. injection IX2 as X0 X1 X2 X3. cbn [nth_error] in R22. injection R22 as ->.
    rewrite UA2, UB2, X2. set (t := p_distance p1 / 1 + p_distance p2 / n). set (L := fst u * snd y - snd u * fst y) in *.
    replace (snd u * (fst u + (n - 1) * c' * (fst y + t * fst u)) - fst u * (snd u + (n - 1) * c' * (snd y + t * snd u))) with (- ((n - 1) * c') * L) by (unfold L; ring).
    assert (PC : (n - 1) * c' = - (1 / (n * f))) by (unfold c'; field; split; lra). rewrite PC.
    assert (1 / (n * f) <> 0) by (apply Rmult_integral_contrapositive_currified; [lra|apply Rinv_neq_0_compat; nra]).
    rewrite fdiv_some by (apply Rmult_integral_contrapositive_currified; [lra|auto]). cbn [obind]. f_equal. f_equal; field; repeat split; auto; lra.
Qed.
Example C73_second_solve_example : exists p air glass rs, updated p /\ p_angles p = v0 /\ m_index air 1 = 1 /\ m_index glass 1 = 4/3 /\
  ptrace true 1 [El p None (Sph (Some air) flat); El p None (Sph (Some glass) (Surf 0 0 None false)); El p None (Sph (Some air) (Surf 0 0 None false)); El p None (Sph None flat)] (1, 0) (0, 1) 1 = Some rs.
Proof.
  destruct (centred_axis 3) as (p & _ & U & D & _ & A); [lra|]. exists p, vac, water.
  pose proof (prim (El p None (Sph (Some water) (Surf 0 0 None false)), None) 1 1 (Some water) (Surf 0 0 None false) 0) as P1.
  pose proof (prim (El p None (Sph (Some vac) (Surf 0 0 None false)), None) 1 (4/3) (Some vac) (Surf 0 0 None false) 0) as P2.
  pose proof (prim (El p None (Sph None flat), None) 1 1 None flat 0) as P3. cbn [fst] in P1, P2, P3.
  cbn [ptrace ptrace_from]. unfold propagate_paraxial.
  rewrite P1; auto; [|split; auto|lra|split; [reflexivity|cbn; lra]]. cbn [obind]. change (m_index water 1) with (4/3).
  rewrite P2; auto; [|split; auto|lra|split; [reflexivity|cbn; lra]]. cbn [obind]. change (m_index vac 1) with 1.
  rewrite P3; auto; [|split; auto|lra]. cbn [obind]. eexists. repeat (split; [first [exact U|exact A|reflexivity]|]). reflexivity.
Qed.

(** * classification of beams *)
Lemma make_qi_0 l n scale wx wy px py : 0 < l -> 0 < n -> 0 < scale -> 0 < wx -> 0 < wy -> exists q, make_qi l n scale (wx, wy) (px, py) 0 = Some q /\
  forall t, exists q', free_space q (t / n) = Some q' /\ (t = 0 -> q' = q) /\
    textbook l n scale wx (PI * n * wx ^ 2 * scale / l) (px + t) false q' /\ textbook l n scale wy (PI * n * wy ^ 2 * scale / l) (py + t) true q'.
Proof.
  intros L N SC WX WY. destruct (C38_textbook l n scale wx wy px py 0 L N SC WX WY) as (q & _ & Q & _). exists q. split; [exact Q|]. intros t.
  destruct (C38_textbook l n scale wx wy px py t L N SC WX WY) as (q1 & q' & Q1 & F & A & B). rewrite Q in Q1. injection Q1 as <-. exists q'. repeat split; try apply A; try apply B; auto.
  intros ->. replace (0 / n) with 0 in F by (field; lra). unfold free_space in F. unfold make_qi in Q.
  destruct (qi_axis l n scale (fst (wx, wy)) (fst (px, py))) as [x|]; [|discriminate]. destruct (qi_axis l n scale (snd (wx, wy)) (snd (px, py))) as [y|]; [|discriminate].
  cbn [obind] in Q. apply some_inj in Q. subst q. rewrite cos_0, sin_0, Ropp_0 in F |- *. unfold cmm, cmT in *. cbn [c00 c01 c10 c11] in *. change (rc 0) with c0 in *. change (rc 1) with c1 in *. change (rc (0 ^ 2)) with (rc (0 * (0 * 1))) in F. rewrite Rmult_0_l in F. change (rc 0) with c0 in F.
  assert (NC : c1 <> c0) by (intros E; apply (f_equal re) in E; cbn in E; lra).
  match type of F with (do n <- fcdiv c1 ?e ; _) = _ => replace e with c1 in F by ring end. rewrite fcdiv_some in F by auto. cbn [obind] in F. apply some_inj in F. subst q'.
  apply cm_eq; cbn [c00 c01 c10 c11]; field; auto.
Qed.
Lemma spot_order w zr z z' : 0 < w -> 0 < zr -> Rabs z < Rabs z' -> w * sqrt (1 + (z / zr) ^ 2) < w * sqrt (1 + (z' / zr) ^ 2).
Proof.
  intros W Z H. apply Rmult_lt_compat_l; [auto|]. assert (K : forall x, (x / zr) ^ 2 = Rabs x * Rabs x * (/ zr * / zr)).
  { intros x. rewrite <- Rabs_mult, (Rabs_pos_eq (x * x)) by nra. field. lra. }
  rewrite !K. assert (0 < / zr * / zr) by (apply Rmult_lt_0_compat; apply Rinv_0_lt_compat; auto). pose proof (Rabs_pos z). pose proof (Rabs_pos z').
  set (k := / zr * / zr) in *. clearbody k. set (a := Rabs z) in *. set (b := Rabs z') in *. clearbody a b.
  assert (0 <= a * a) by nra. assert (a * a < b * b) by nra. apply sqrt_lt_1; nra.
Qed.
(** a beam [p] behind its waist is called diverging when the spot will only grow, not diverging when it shrinks up to the waist and
    is smaller up to the mirror image of the current position; in the waist itself the radius is infinite; every fresh beam is confined *)
Theorem C73_diverging l n scale wx wy px py : 0 < l -> 0 < n -> 0 < scale -> 0 < wx -> 0 < wy ->
  exists q, make_qi l n scale (wx, wy) (px, py) 0 = Some q /\ forall axis : bool, let p := if axis then py else px in
    confined n axis q = Some true /\ exists s, spot_radius l scale axis q = Some s /\
    (0 < p -> diverging n axis q = Some true /\ forall t, 0 < t -> exists q' s', free_space q (t / n) = Some q' /\ spot_radius l scale axis q' = Some s' /\ s < s') /\
    (p < 0 -> diverging n axis q = Some false /\ forall t, 0 < t -> exists q' s', free_space q (t / n) = Some q' /\ spot_radius l scale axis q' = Some s' /\ (s' < s <-> t < - 2 * p)) /\
    (p = 0 -> diverging n axis q = None).
Proof.
  intros L N SC WX WY. destruct (make_qi_0 l n scale wx wy px py L N SC WX WY) as (q & Q & F). exists q. split; [exact Q|].
  assert (P := PI_RGT_0). assert (ZP : forall w, 0 < w -> 0 < PI * n * w ^ 2 * scale / l).
  { intros w W. apply Rdiv_lt_0_compat; [|auto]. assert (0 < w ^ 2) by nra. assert (0 < PI * n) by nra. assert (0 < PI * n * w ^ 2) by (apply Rmult_lt_0_compat; auto). nra. }
  assert (G : forall (axis : bool) w p, 0 < w -> (forall t, exists q', free_space q (t / n) = Some q' /\ (t = 0 -> q' = q) /\ textbook l n scale w (PI * n * w ^ 2 * scale / l) (p + t) axis q') ->
    confined n axis q = Some true /\ exists s, spot_radius l scale axis q = Some s /\
    (0 < p -> diverging n axis q = Some true /\ forall t, 0 < t -> exists q' s', free_space q (t / n) = Some q' /\ spot_radius l scale axis q' = Some s' /\ s < s') /\
    (p < 0 -> diverging n axis q = Some false /\ forall t, 0 < t -> exists q' s', free_space q (t / n) = Some q' /\ spot_radius l scale axis q' = Some s' /\ (s' < s <-> t < - 2 * p)) /\
    (p = 0 -> diverging n axis q = None)).
  { clear F Q WX WY. intros axis w p W F. destruct (F 0) as (q0 & _ & E & SP & C1 & C2 & _ & RR & _). rewrite (E eq_refl), Rplus_0_r in *. clear E q0.
    specialize (ZP w W). set (zr := PI * n * w ^ 2 * scale / l) in *.
    split. { unfold confined. rewrite RR. cbn [obind]. destruct (Rlt_dec 0 zr); [auto|lra]. }
    eexists. split; [exact SP|].
    assert (CR : 0 < zr ^ 2) by nra. repeat apply conj.
    - intros PP. split.
      + unfold diverging. rewrite C1 by lra. cbn [obind]. assert (0 < zr ^ 2 / p) by (apply Rdiv_lt_0_compat; auto). destruct (Rlt_dec 0 (p + zr ^ 2 / p)); [auto|lra].
      + intros t T. destruct (F t) as (q' & FS & _ & SP' & _). do 2 eexists. split; [exact FS|]. split; [exact SP'|]. apply spot_order; auto. rewrite !Rabs_pos_eq by lra. lra.
    - intros PP. split.
      + unfold diverging. rewrite C1 by lra. cbn [obind]. assert (0 < zr ^ 2 / - p) by (apply Rdiv_lt_0_compat; lra).
        replace (zr ^ 2 / - p) with (- (zr ^ 2 / p)) in * by (field; lra). destruct (Rlt_dec 0 (p + zr ^ 2 / p)); [lra|auto].
      + intros t T. destruct (F t) as (q' & FS & _ & SP' & _). do 2 eexists. split; [exact FS|]. split; [exact SP'|]. split; intros H.
        * destruct (Rlt_dec t (- 2 * p)) as [|G]; [auto|exfalso]. destruct (Req_dec t (- 2 * p)) as [->|].
          -- replace (p + - 2 * p) with (- p) in H by ring. replace ((- p / zr) ^ 2) with ((p / zr) ^ 2) in H by (field; lra). lra.
          -- apply (Rlt_asym _ _ H). apply spot_order; auto. rewrite (Rabs_left p), Rabs_pos_eq by lra. lra.
        * apply spot_order; auto. rewrite (Rabs_left p) by lra. apply Rabs_def1; lra.
    - intros PP. unfold diverging. rewrite C2 by auto. reflexivity. }
  intros [] p.
  - apply (G true wy py WY). intros t. destruct (F t) as (q' & FS & E & A & B). exists q'. auto.
  - apply (G false wx px WX). intros t. destruct (F t) as (q' & FS & E & A & B). exists q'. auto.
Qed.
Example C73_diverging_example : exists q, make_qi PI 1 1 (1, 2) (-3, 1) 0 = Some q /\ diverging 1 false q = Some false /\ diverging 1 true q = Some true.
Proof.
  assert (P := PI_RGT_0). destruct (C73_diverging PI 1 1 1 2 (-3) 1) as (q & Q & H); try lra. exists q. split; [exact Q|].
  destruct (H false) as (_ & s & _ & _ & A & _). destruct (H true) as (_ & s' & _ & B & _). split; [apply A; lra|apply B; lra].
Qed.
(** confined means exactly that there is a spot *)
Theorem C73_confined l n scale axis q : 0 < l -> 0 < n -> 0 < scale -> diag axis q <> c0 ->
  (confined n axis q = Some true <-> exists s, spot_radius l scale axis q = Some s) /\ confined n axis q <> None.
Proof.
  intros L N SC D. assert (P := PI_RGT_0). unfold confined, rayleigh_range, spot_radius. rewrite fcdiv_some by auto. cbn [obind].
  rewrite fdiv_some by nra. cbn [obind]. assert (C : 0 < l / (scale * PI)) by (apply Rdiv_lt_0_compat; nra). set (c := l / (scale * PI)) in *. clearbody c.
  set (z := diag axis q) in *. assert (A : 0 < cabs2 z).
  { destruct z as [x y]. unfold cabs2. cbn. destruct (Req_dec x 0); [|nra]. destruct (Req_dec y 0); [|nra]. exfalso. apply D. subst. reflexivity. }
  assert (I : im (cdiv c1 z) * n = (- im z) * (n / cabs2 z)) by (cbn; field; lra). rewrite I.
  assert (K : 0 < n / cabs2 z) by (apply Rdiv_lt_0_compat; auto). set (k := n / cabs2 z) in *. clearbody k. split.
  - destruct (Rlt_dec 0 (- im z * k)) as [H|H].
    + assert (0 < - im z) by nra. split; [intros _|auto]. rewrite fdiv_some by lra. cbn [obind]. rewrite fsqrt_some; [eauto|]. apply Rlt_le, Rdiv_lt_0_compat; auto.
    + split; [discriminate|]. intros (s & E). exfalso. destruct (Req_dec (- im z) 0) as [Z|Z]; [rewrite Z, fdiv_zero in E; discriminate|]. rewrite fdiv_some in E by auto. cbn [obind] in E.
      assert (- im z < 0) by nra. rewrite fsqrt_none in E; [discriminate|]. unfold Rdiv. assert (/ - im z < 0) by (apply Rinv_lt_0_compat; auto). nra.
  - discriminate.
Qed.
Example C73_confined_example : diag true (CM c1 c0 c0 (Cx 1 (-1))) <> c0 /\ confined 1 true (CM c1 c0 c0 (Cx 1 (-1))) = Some true /\ confined 1 true (CM c1 c0 c0 (Cx 1 1)) = Some false.
Proof.
  split; [intros E; apply (f_equal re) in E; cbn in E; lra|]. unfold confined, rayleigh_range. cbn [diag c11].
  rewrite !fcdiv_some by (intros E; apply (f_equal re) in E; cbn in E; lra). cbn [obind]. unfold cdiv. split; match goal with |- context [Rlt_dec 0 ?e] => destruct (Rlt_dec 0 e) as [H|H]; try reflexivity; exfalso; revert H; cbn; unfold cabs2; cbn; lra end.
Qed.

(** * rotational symmetry *)
(** spec: a ray turned about the axis *)
Definition turned (t : R) (v : v4) : v4 :=
  V4 (cos t * w0 v - sin t * w1 v) (sin t * w0 v + cos t * w1 v) (cos t * w2 v - sin t * w3 v) (sin t * w2 v + cos t * w3 v).
Definition rotational (m : m4) : Prop := forall t v, mv4 m (turned t v) = turned t (mv4 m v).
(** among matrices not mixing the axes the ones with equal sections are those that do not care about turning, and pass the test *)
Theorem C73_stigmatic m : (is_stigmatic m = true <->
    within_tol (w0 (q0 m)) (w1 (q1 m)) /\ within_tol (w2 (q0 m)) (w3 (q1 m)) /\ within_tol (w0 (q2 m)) (w1 (q3 m)) /\ within_tol (w2 (q2 m)) (w3 (q3 m))) /\
  (decoupled m -> (rotational m <-> w0 (q0 m) = w1 (q1 m) /\ w2 (q0 m) = w3 (q1 m) /\ w0 (q2 m) = w1 (q3 m) /\ w2 (q2 m) = w3 (q3 m))) /\
  (rotational m -> is_stigmatic m = true).
Proof.
  assert (T : is_stigmatic m = true <->
    within_tol (w0 (q0 m)) (w1 (q1 m)) /\ within_tol (w2 (q0 m)) (w3 (q1 m)) /\ within_tol (w0 (q2 m)) (w1 (q3 m)) /\ within_tol (w2 (q2 m)) (w3 (q3 m))).
  { unfold is_stigmatic, block. rewrite !andb_true_iff, !isclose_within. tauto. }
  assert (R : rotational m -> w0 (q0 m) = w1 (q1 m) /\ w2 (q0 m) = w3 (q1 m) /\ w0 (q2 m) = w1 (q3 m) /\ w2 (q2 m) = w3 (q3 m)).
  { intros H. destruct m as [[a0 a1 a2 a3] [b0 b1 b2 b3] [d0 d1 d2 d3] [e0 e1 e2 e3]].
    pose proof (H (PI / 2) (V4 1 0 0 0)) as H1. pose proof (H (PI / 2) (V4 0 0 1 0)) as H2. clear H. unfold turned in H1, H2. rewrite cos_PI2, sin_PI2 in H1, H2. cbn [w0 w1 w2 w3] in *.
    rewrite !mv4_simple in H1, H2. cbn [w0 w1 w2 w3 q0 q1 q2 q3] in *. injection H1 as A1 A2 A3 A4. injection H2 as B1 B2 B3 B4. repeat split; lra. }
  split; [exact T|]. split.
  - intros D. split; [exact R|]. destruct D as (D1 & D2 & D3 & D4 & D5 & D6 & D7 & D8). intros (E1 & E2 & E3 & E4) t v.
    destruct m as [[a0 a1 a2 a3] [b0 b1 b2 b3] [d0 d1 d2 d3] [e0 e1 e2 e3]]. destruct v as [v0 v1 v2 v3]. cbn [w0 w1 w2 w3 q0 q1 q2 q3] in *. subst. unfold turned.
    rewrite !mv4_simple. cbn [w0 w1 w2 w3]. apply v4_eq; cbn [w0 w1 w2 w3]; ring.
  - intros H. apply T. apply R in H. destruct H as (-> & -> & -> & ->). repeat apply conj; unfold within_tol; rewrite Rminus_eq_0, Rabs_R0;
    match goal with |- _ <= _ + _ * Rabs ?x => pose proof (Rabs_pos x) end; lra.
Qed.
Example C73_stigmatic_example : let m := M4 (V4 1 0 2 0) (V4 0 1 0 2) (V4 0 0 1 0) (V4 0 0 0 1) in decoupled m /\ rotational m.
Proof.
  intros m. assert (D : decoupled m) by (unfold decoupled; cbn; auto 10). split; [exact D|]. destruct (C73_stigmatic m) as (_ & H & _). apply (H D). cbn. auto.
Qed.
(** finding: the entries mixing the axes are not looked at, a cylinder lens at 45 degrees crossed with its opposite counts as symmetric *)
Theorem C73_stigmatic_refuted : exists m, conserves m /\ is_stigmatic m = true /\ ~ rotational m /\
  exists q q', c00 q = c11 q /\ c01 q = c0 /\ c10 q = c0 /\ physical q /\ beam_act m q = Some q' /\ c01 q' = Cx 1 0.
Proof.
  exists (M4 (V4 1 0 0 0) (V4 0 1 0 0) (V4 0 1 1 0) (V4 1 0 0 1)). split; [|split; [|split]].
  - intros [a0 a1 a2 a3] [b0 b1 b2 b3]. rewrite !mv4_simple. unfold lagrange2. cbn [w0 w1 w2 w3]. ring.
  - refine (proj2 (proj1 (C73_stigmatic _)) _). unfold within_tol. cbn [w0 w1 w2 w3 q0 q1 q2 q3]. rewrite !Rminus_eq_0, !Rabs_R0. pose proof (Rabs_pos 1). lra.
  - intros H. specialize (H (PI / 2) (V4 1 0 0 0)). unfold turned in H. rewrite cos_PI2, sin_PI2 in H. cbn [w0 w1 w2 w3] in H. rewrite !mv4_simple in H. cbn [w0 w1 w2 w3] in H. injection H as H1 H2 H3. lra.
  - exists (CM (Cx 0 (-1)) c0 c0 (Cx 0 (-1))), (CM (Cx 0 (-1)) (Cx 1 0) (Cx 1 0) (Cx 0 (-1))). repeat (split; [reflexivity|]).
    split; [split; [reflexivity|]; intros x y XY; cbn; destruct XY; nra|]. split; [|reflexivity].
    unfold beam_act, blk_a, blk_b, blk_c, blk_d. cbn [w0 w1 w2 w3 q0 q1 q2 q3]. unfold cma, cmm. cbn [c00 c01 c10 c11].
    match goal with |- (do i <- cminv ?e; _) = _ => replace e with ceye by (apply cm_eq; cbn [c00 c01 c10 c11]; apply cx_eq; cbn; ring) end.
    destruct (cminv_some ceye) as (i & -> & _ & I); [intros E; apply (f_equal re) in E; cbn in E; lra|]. cbn [obind].
    assert (i = ceye) by (rewrite <- I; destruct i; cm_ring). subst i. f_equal. apply cm_eq; apply cx_eq; cbn; ring.
Qed.

(** * sizing elements by the beam *)
(** spec: power density of the beam at a point relative to the axis *)
Definition profile (l scale : R) (q : cm) (x y : R) : R := exp (2 * PI * scale / l * im (form q x y)).
Lemma set_radii_nth waists es ws j e w : nth_error es j = Some e -> nth_error ws j = Some w ->
  nth_error (set_radii waists es ws) j = Some (El (e_place e) (Some (w * waists)) (e_kind e)).
Proof.
  revert ws j. induction es as [|a es IH]; intros [|b ws] [|j] E W; try discriminate; cbn in *; [injection E as <-; injection W as <-; auto|auto].
Qed.
Lemma set_radii_length waists es ws : length (set_radii waists es ws) = length es.
Proof. revert ws. induction es as [|a es IH]; intros [|b ws]; cbn; auto. Qed.
(** every element but the first is given [waists] times the larger of the two spot radii of the beam behind it, and the power density at and beyond
    that radius is at most exp(-2 waists^2) of that on the axis *)
Theorem C73_resize l scale waists es rows : 0 < l -> 0 < scale -> 0 <= waists -> length rows = length es ->
  Forall (fun r => exists q, fst r = Some q /\ im (c00 q) < 0 /\ im (c11 q) < 0 /\ im (c01 q) = 0 /\ c10 q = c01 q) rows ->
  exists es', gauss_resize l scale waists es rows = Some es' /\ length es' = length es /\ nth_error es' 0 = nth_error es 0 /\
  forall j e r q, nth_error es (S j) = Some e -> nth_error rows (S j) = Some r -> fst r = Some q ->
    exists s0 s1, spot_radius l scale false q = Some s0 /\ spot_radius l scale true q = Some s1 /\
      nth_error es' (S j) = Some (El (e_place e) (Some (waists * Rmax s0 s1)) (e_kind e)) /\
      forall x y, (waists * Rmax s0 s1) ^ 2 <= x ^ 2 + y ^ 2 -> profile l scale q x y <= exp (- 2 * waists ^ 2).
Proof.
  intros L SC W LN F. set (f := fun r : option cm * R => do q <- fst r; do s <- spot_radius_normal l scale q; let '(x, y, _) := s in Some (Rmax x y)).
  assert (M : exists ws, mapo f rows = Some ws /\ forall j r q, nth_error rows j = Some r -> fst r = Some q -> exists s0 s1,
    spot_radius l scale false q = Some s0 /\ spot_radius l scale true q = Some s1 /\ nth_error ws j = Some (Rmax s0 s1)).
  { clear LN. induction F as [|r rows (q & E & I0 & I1 & I2 & _) F (ws & M & IH)]; [exists []; split; [auto|intros [|j]; discriminate]|].
    destruct (C38_normal_spot l scale q L SC I0 I1 I2) as (x & y & SN & S0 & S1 & _). cbn [mapo].
    assert (FR : f r = Some (Rmax x y)) by (unfold f; rewrite E; cbn [obind]; rewrite SN; reflexivity). rewrite FR. cbn [obind]. rewrite M. cbn [obind].
    eexists. split; [reflexivity|]. intros [|j] r' q' N E'; cbn in N.
    - injection N as <-. rewrite E in E'. injection E' as <-. exists x, y. auto.
    - apply (IH j r' q'); auto. }
  destruct M as (ws & M & H). unfold gauss_resize. fold f. rewrite M. cbn [obind]. destruct es as [|e0 es].
  - eexists. repeat (split; [reflexivity|]). intros j e r q N. discriminate.
  - eexists. split; [reflexivity|]. split; [cbn; rewrite set_radii_length; auto|]. split; [reflexivity|]. intros j e r q NE NR E.
    destruct (H (S j) r q NR E) as (s0 & s1 & S0 & S1 & NW). exists s0, s1. split; [auto|]. split; [auto|]. split.
    + cbn [nth_error] in *. rewrite (Rmult_comm waists). apply set_radii_nth; auto. destruct ws; [discriminate|exact NW].
    + intros x y B. rewrite Forall_forall in F. destruct (F r (nth_error_In _ _ NR)) as (q' & E' & I0 & I1 & I2 & SY). rewrite E in E'. injection E' as <-.
      destruct (C38_normal_spot l scale q L SC I0 I1 I2) as (a & b & _ & A0 & B0 & AP & BP & AE & BE). rewrite S0 in A0. rewrite S1 in B0. injection A0 as <-. injection B0 as <-.
      unfold profile. assert (X : 2 * PI * scale / l * im (form q x y) <= - 2 * waists ^ 2); [|destruct (Rle_lt_or_eq_dec _ _ X) as [X'|X']; [left; apply exp_increasing; auto|right; rewrite X'; auto]].
      unfold form. rewrite SY. cbn [im re rc cadd cmul]. rewrite I2. set (k := PI * scale / l) in *.
      match goal with |- ?g <= _ => replace g with (2 * (k * im (c00 q) * (x * x) + k * im (c11 q) * (y * y))) by (unfold k; field; lra) end.
      assert (KA : k * im (c00 q) = - / s0 ^ 2) by (apply (Rmult_eq_reg_r (s0 ^ 2)); [|nra]; rewrite <- Ropp_mult_distr_l, Rinv_l by nra; lra).
      assert (KB : k * im (c11 q) = - / s1 ^ 2) by (apply (Rmult_eq_reg_r (s1 ^ 2)); [|nra]; rewrite <- Ropp_mult_distr_l, Rinv_l by nra; lra).
      rewrite KA, KB. set (mx := Rmax s0 s1) in *. pose proof (Rmax_l s0 s1) as ML. pose proof (Rmax_r s0 s1) as MR. fold mx in ML, MR.
      assert (GA : / mx ^ 2 <= / s0 ^ 2) by (apply Rinv_le_contravar; nra). assert (GB : / mx ^ 2 <= / s1 ^ 2) by (apply Rinv_le_contravar; nra).
      assert (GM : 0 < / mx ^ 2) by (apply Rinv_0_lt_compat; nra).
      assert (GC : waists ^ 2 <= / mx ^ 2 * (x * x + y * y)).
      { apply Rle_trans with (/ mx ^ 2 * (waists * mx) ^ 2); [right; field; lra|]. apply Rmult_le_compat_l; lra. }
      pose proof (Rle_0_sqr x) as XX. pose proof (Rle_0_sqr y) as YY. unfold Rsqr in XX, YY.
      set (i := / mx ^ 2) in *. set (i0 := / s0 ^ 2) in *. set (i1 := / s1 ^ 2) in *. set (xx := x * x) in *. set (yy := y * y) in *. clearbody i i0 i1 xx yy. nra.
Qed.
Example C73_resize_example : exists p es', let q := CM (Cx 3 (-1)) c0 c0 (Cx 0 (-4)) in let es := [El p None Plain; El p None Plain] in
  gauss_resize PI 1 3 es [(Some q, 1); (Some q, 1)] = Some es' /\ map e_radius es' = [None; Some (3 * 1)].
Proof.
  destruct (centred_axis 3) as (p & _); [lra|]. exists p. assert (P := PI_RGT_0). cbv zeta.
  destruct (C73_resize PI 1 3 [El p None Plain; El p None Plain] [(Some (CM (Cx 3 (-1)) c0 c0 (Cx 0 (-4))), 1); (Some (CM (Cx 3 (-1)) c0 c0 (Cx 0 (-4))), 1)]) as (es' & E & LN & N0 & H); try lra; auto.
  { repeat constructor; (eexists; split; [reflexivity|]; cbn; repeat split; lra). }
  exists es'. split; [exact E|]. destruct (H O _ _ _ eq_refl eq_refl eq_refl) as (s0 & s1 & S0 & S1 & N1 & _).
  destruct (C38_normal_spot PI 1 (CM (Cx 3 (-1)) c0 c0 (Cx 0 (-4)))) as (x & y & _ & A0 & B0 & X & Y & A & B); cbn; try lra.
  rewrite S0 in A0. rewrite S1 in B0. injection A0 as <-. injection B0 as <-. cbn [c00 c11 im] in A, B. replace (PI * 1 / PI) with 1 in A, B by (field; lra).
  assert (s0 = 1) by nra. assert (s1 = 1 / 2) by nra. subst. rewrite Rmax_left in N1 by lra.
  destruct es' as [|a [|b [|]]]; try discriminate. cbn in N0, N1. injection N0 as ->. injection N1 as ->. reflexivity.
Qed.

(** * cached pupils *)
Lemma oR_eqb_eq a b : oR_eqb a b = true <-> a = b.
Proof. destruct a, b; cbn; try (destruct (Req_EM_T _ _)); split; intros H; congruence. Qed.
Lemma oZ_eqb_eq a b : oZ_eqb a b = true <-> a = b.
Proof. destruct a, b; cbn; rewrite ?Z.eqb_eq; split; intros H; congruence. Qed.
Lemma pkey_eqb_eq a b : pkey_eqb a b = true <-> a = b.
Proof. destruct a, b. unfold pkey_eqb. cbn [fst snd]. rewrite andb_true_iff, oR_eqb_eq, oZ_eqb_eq. split; [intros [-> ->]; auto|intros E; injection E as -> ->; auto]. Qed.
Section PupilProofs.
Variables (K Sys : Type) (aim : Sys -> pkey -> K -> key -> option arr -> option arr * arr) (f : Sys -> pkey -> K -> key -> option arr) (kw : K).
(** the result of aiming does not depend on the start value *)
Hypothesis guess_free : forall s k kw yo g, fst (aim s k kw yo g) = f s k kw yo.
(** spec: all requests carry the same keywords and none comes between a change and the next update *)
Fixpoint tidy (dirty : bool) (es : list (pevent K Sys)) : Prop :=
  match es with
  | [] => True
  | PPupil _ _ _ _ k' :: es => dirty = false /\ k' = kw /\ tidy dirty es
  | PChange _ _ _ :: es => tidy true es
  | PUpdate _ _ _ :: es => tidy false es
  end.
Definition valid (s : pst K Sys) : Prop := forall k kw' c, pfind K (p_cache _ _ s) k = Some (kw', c) ->
  kw' = kw /\ forall yo v, lookup (entries c) yo = Some v -> f (p_sys _ _ s) k kw yo = Some v.
Lemma pfind_pset (c : list (pkey * (K * cst))) k v k' : pfind K (pset K c k v) k' = if pkey_eqb k' k then Some v else pfind K c k'.
Proof.
  induction c as [|[a w] c IH]; cbn; [auto|]. destruct (pkey_eqb k a) eqn:E.
  - apply pkey_eqb_eq in E. subst a. cbn. destruct (pkey_eqb k' k); auto.
  - cbn. destruct (pkey_eqb k' a) eqn:E'; [|auto]. apply pkey_eqb_eq in E'. subst a. destruct (pkey_eqb k' k) eqn:E'; [|auto].
    apply pkey_eqb_eq in E'. subst k'. rewrite (proj2 (pkey_eqb_eq k k) eq_refl) in E. discriminate.
Qed.
Lemma ccall_valid (g : key -> option arr) sv c yo : (forall yo gs, fst (sv yo gs) = g yo) -> (forall yo v, lookup (entries c) yo = Some v -> g yo = Some v) ->
  fst (ccall sv c yo) = g yo /\ forall yo' v, lookup (entries (snd (ccall sv c yo))) yo' = Some v -> g yo' = Some v.
Proof.
  intros SV H. unfold ccall. destruct (lookup (entries c) yo) as [v|] eqn:L; [cbn; split; [symmetry; apply H; auto|auto]|].
  match goal with |- context[let '(_, _) := ?x in _] => destruct x as [gs w] end. specialize (SV yo gs). destruct (sv yo gs) as [[u|] g'] eqn:E; cbn in *; [|auto].
  split; [auto|]. intros yo' v LV. destruct (lookup (entries c) yo') as [u'|] eqn:L'.
  - rewrite (lookup_app_some _ _ _ _ L') in LV. injection LV as <-. apply H; auto.
  - rewrite lookup_app_none in LV by auto. cbn in LV. destruct (key_eqb yo' yo) eqn:KE; [|discriminate]. apply key_eqb_eq in KE. subst yo'. injection LV as <-. auto.
Qed.
Lemma pupil_valid s yo k : valid s -> fst (pupil K Sys aim s yo k kw) = f (p_sys _ _ s) k kw yo /\ valid (snd (pupil K Sys aim s yo k kw)) /\ p_sys _ _ (snd (pupil K Sys aim s yo k kw)) = p_sys _ _ s.
Proof.
  intros V. unfold pupil. assert (X : exists c, match pfind K (p_cache _ _ s) k with Some v => v | None => (kw, new None) end = (kw, c) /\
    forall yo v, lookup (entries c) yo = Some v -> f (p_sys _ _ s) k kw yo = Some v).
  { destruct (pfind K (p_cache _ _ s) k) as [[kw' c]|] eqn:P; [destruct (V k kw' c P) as (-> & H); eauto|]. exists (new None). split; [auto|]. cbn. discriminate. }
  destruct X as (c & -> & H). destruct (ccall_valid (f (p_sys _ _ s) k kw) (aim (p_sys _ _ s) k kw) c yo (guess_free _ _ _) H) as (A & B).
  destruct (ccall (aim (p_sys _ _ s) k kw) c yo) as [q c']. cbn [fst snd p_sys p_cache] in *. split; [exact A|]. split; [|reflexivity].
  intros k' kw' c'' P. cbn [p_cache p_sys] in *. rewrite pfind_pset in P. destruct (pkey_eqb k' k) eqn:E.
  - apply pkey_eqb_eq in E. subst k'. injection P as <- <-. auto.
  - apply (V k'); auto.
Qed.
(** in tidy use every cached pupil is the pupil of the system as it is, for the wavelength, stop and keywords asked for *)
Theorem C73_pupil_fresh es s : tidy false es ->
  Forall (fun a => let '(sys, (yo, k, kw'), q) := a in q = f sys k kw' yo) (fst (phistory K Sys aim (Pst K Sys s []) es)).
Proof.
  assert (G : forall es s dirty, (dirty = false -> valid s) -> tidy dirty es ->
    Forall (fun a => let '(sys, (yo, k, kw'), q) := a in q = f sys k kw' yo) (fst (phistory K Sys aim s es))).
  { clear es s. induction es as [|e es IH]; intros s dirty V T; [constructor|]. destruct e as [yo k k'|g|g]; cbn [tidy phistory] in *.
    - destruct T as (-> & -> & T). destruct (pupil_valid s yo k (V eq_refl)) as (A & B & C).
      destruct (pupil K Sys aim s yo k kw) as [q s'] eqn:E. cbn [fst snd] in *. specialize (IH s' false (fun _ => B) T).
      destruct (phistory K Sys aim s' es) as [l s'']. cbn [fst] in *. constructor; auto.
    - apply (IH _ true); auto. discriminate.
    - apply (IH _ false); auto. intros _ k kw' c P. discriminate. }
  intros T. apply (G es _ false); auto. intros _ k kw' c P. discriminate.
Qed.
(** finding: otherwise the old answer is given for the changed system and for other keywords *)
Theorem C73_pupil_stale_refuted s s' yo k kw1 kw2 v : f s k kw1 yo = Some v ->
  fst (phistory K Sys aim (Pst K Sys s []) [PPupil K Sys yo k kw1; PChange K Sys (fun _ => s'); PPupil K Sys yo k kw2]) =
    [(s, (yo, k, kw1), Some v); (s', (yo, k, kw2), Some v)].
Proof.
  intros E. cbn [phistory]. unfold pupil at 1. cbn [p_cache p_sys pfind]. unfold ccall at 1. cbn [new clear entries lookup table cguess].
  pose proof (guess_free s k kw1 yo None) as G. destruct (aim s k kw1 yo None) as [o g'] eqn:AE. cbn [fst] in G. rewrite E in G. subst o. cbn [app pset p_cache p_sys phistory].
  unfold pupil. cbn [p_cache p_sys pfind]. rewrite (proj2 (pkey_eqb_eq k k) eq_refl). unfold ccall. cbn [entries lookup]. rewrite key_eqb_refl. reflexivity.
Qed.
End PupilProofs.
(** systems and keywords are numbers here; the aimed pupil is [field, system, keyword] *)
Definition toy_aim (s : R) (k : pkey) (kw : R) (yo : key) (g : option arr) : option arr * arr := (Some [fst yo; s; kw], []).
Example C73_pupil_example : tidy R R 5 false [PPupil R R (1, 0) (None, None) 5; PChange R R (fun s => s + 1); PUpdate R R (fun s => s); PPupil R R (1, 0) (None, None) 5] /\
  (forall s k kw yo g, fst (toy_aim s k kw yo g) = Some [fst yo; s; kw]) /\
  fst (phistory R R toy_aim (Pst R R 2 []) [PPupil R R (1, 0) (None, None) 5; PChange R R (fun s => s + 1); PPupil R R (1, 0) (None, None) 6]) =
    [(2, ((1, 0), (None, None), 5), Some [1; 2; 5]); (2 + 1, ((1, 0), (None, None), 6), Some [1; 2; 5])].
Proof.
  split; [cbn; auto|]. split; [reflexivity|].
  cbn [phistory]. unfold pupil. cbn [pfind p_cache p_sys]. unfold ccall. cbn [new clear entries lookup table cguess toy_aim fst snd app pset p_cache p_sys pfind].
  change (pkey_eqb (None, None) (None, None)) with true. cbn [phistory]. unfold ccall. cbn [entries lookup]. rewrite key_eqb_refl. reflexivity.
Qed.
