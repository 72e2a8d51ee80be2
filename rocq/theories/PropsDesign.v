(** Property C86: the textbook formulas of first order design, for the focal lengths, focal points and principal
    planes that the paraxial trace reports: the sum of surface powers weighted with the ray heights, the lens of two
    surfaces, two lens groups one behind the other, Newton's and Gauss' conjugate equations. *)
From Coq Require Import Reals List Lra Lia Psatz.
From Verif Require Import Base Vec RotModel RotProofs PlacementModel PlacementProofs ElementModel PropsRescale
  ParaxialModel ParaxialProofs PropsParaxial LimitProofs PropsLimit ReverseModel PropsReverse PropsInverse
  PupilModel PropsPupil ParaxTraceModel PropsConjugates PropsSolve PropsCardinal.
Import ListNotations.
Open Scope R_scope.

(** ** Specification *)
(** an untilted refracting surface between media of positive index *)
Definition lens_surface (l : R) (e : element) : Prop := p_angles (e_place e) = v0 /\
  forall mt s, e_kind e = Sph mt s -> s_asph s <> Some [] /\ forall m, mt = Some m -> m_mirror m = false /\ 0 < m_index m l.
(** curvature at the vertex *)
Definition bend (s : surf) : R := match s_asph s with Some (a :: _) => s_c s + 2 * a | _ => s_c s end.
(** index step times curvature; [n0] is the index in front *)
Definition surface_power (l n0 : R) (e : element) : R :=
  match e_kind e with Sph (Some m) s => (m_index m l - n0) * bend s | _ => 0 end.
(** power of each surface times the height of the ray there *)
Fixpoint weighted (l n0 : R) (es : list element) (hs : list R) : R :=
  match es, hs with
  | e :: es, h :: hs => surface_power l n0 e * h + weighted l (index_after e n0 l) es hs
  | _, _ => 0
  end.

(** ** Auxiliary lemmas *)
Lemma lens_upright l e : lens_surface l e -> upright e.
Proof. intros (A & _). unfold upright. destruct (e_kind e); rewrite ?A; [exact I|reflexivity]. Qed.
Lemma lens_uprights l es : Forall (lens_surface l) es -> Forall upright es.
Proof. apply Forall_impl. apply lens_upright. Qed.
Lemma lens_index l e n0 : lens_surface l e -> 0 < n0 -> 0 < index_after e n0 l.
Proof. intros (_ & K) N. unfold index_after. destruct (e_kind e) as [|[m|] s]; auto. apply (K _ _ eq_refl). reflexivity. Qed.
Lemma lens_after l es : Forall (lens_surface l) es -> forall n0, 0 < n0 -> 0 < after es n0 l.
Proof. induction 1 as [|e es E _ IH]; intros n0 N; [exact N|]. apply IH. apply lens_index; auto. Qed.

Lemma lens_block axis l e n0 : lens_surface l e -> 0 < n0 -> exists m,
  paraxial_matrix e n0 l = (index_after e n0 l, Some m) /\ decoupled m /\
  let t := p_distance (e_place e) / n0 in let p := surface_power l n0 e in block axis m = (1, t, - p, 1 - p * t).
Proof.
  intros E N. pose proof (lens_upright l e E) as U. destruct E as (A & K).
  assert (X : exists m, snd (paraxial_matrix e n0 l) = Some m /\
    let t := p_distance (e_place e) / n0 in let p := surface_power l n0 e in block axis m = (1, t, - p, 1 - p * t)).
  { unfold paraxial_matrix, surface_power. unfold transfer_matrix. rewrite fdiv_some by lra. cbn [obind]. set (t := p_distance (e_place e) / n0).
    destruct (e_kind e) as [|mt s] eqn:KE.
    - cbn [snd]. eexists. split; [reflexivity|]. cbn. unfold block. destruct axis; cbn; apply quad_eq; ring.
    - destruct (K _ _ eq_refl) as (SA & KM). cbn [snd].
      assert (VC : vertex_curvature s = Some (bend s)) by (unfold vertex_curvature, bend; destruct (s_asph s) as [[|]|]; congruence).
      rewrite VC. cbn [obind]. rewrite A. cbn [vx vz v0]. rewrite cos_0.
      assert (RM : exists f, refraction_matrix mt (bend s) 1 n0 (index_after e n0 l) = Some (M4 (V4 1 0 0 0) (V4 0 1 0 0) (V4 (- f) 0 1 0) (V4 0 (- f) 0 1)) /\
                   f = match mt with Some m => (m_index m l - n0) * bend s | None => 0 end).
      { destruct mt as [m|].
        2:{ exists 0. split; [|reflexivity]. cbn. rewrite Ropp_0. reflexivity. }
        destruct (KM m eq_refl) as (MI & MP). unfold index_after. rewrite KE. set (n1 := m_index m l) in *. exists ((n1 - n0) * bend s). split; [|reflexivity].
        unfold refraction_matrix. rewrite MI.
        assert (MU : 0 < n1 / n0) by (apply Rdiv_lt_0_compat; auto).
        assert (S : sqrt ((n1 / n0) ^ 2 + 1 ^ 2 - 1) = n1 / n0).
        { replace ((n1 / n0) ^ 2 + 1 ^ 2 - 1) with ((n1 / n0) * (n1 / n0)) by ring. apply sqrt_square. lra. }
        rewrite fdiv_some by lra. cbn [obind]. rewrite fsqrt_some by nra. cbn [obind]. rewrite S.
        rewrite fdiv_some by lra. cbn [obind]. rewrite fdiv_some by lra. cbn [obind].
        replace (n1 / n0 / (n1 / n0 * 1)) with 1 by (field; lra). rewrite fdiv_some by lra. cbn [obind]. do 2 f_equal; f_equal; field; lra. }
      destruct RM as (f & RM & EF). rewrite RM. cbn [obind]. eexists. split; [reflexivity|]. cbv zeta.
      fold flip4. rewrite flip4_T.
      set (mr := M4 (V4 1 0 0 0) (V4 0 1 0 0) (V4 (- f) 0 1 0) (V4 0 (- f) 0 1)).
      set (mt' := M4 (V4 1 0 t 0) (V4 0 1 0 t) (V4 0 0 1 0) (V4 0 0 0 1)).
      assert (DR : decoupled mr) by (unfold decoupled; cbn; repeat split; reflexivity).
      assert (DT : decoupled mt') by (unfold decoupled; cbn; repeat split; reflexivity).
      assert (BF : block axis flip4 = (if axis then (-1, 0, 0, -1) else (1, 0, 0, 1))).
      { unfold flip4, azimuth_matrix, block. rewrite sin_0, cos_0. destruct axis; cbn; apply quad_eq; ring. }
      rewrite block_mm; [|apply flip_decoupled|apply decoupled_mm; [apply decoupled_mm; auto|apply flip_decoupled]].
      rewrite (block_mm _ (mm4 mr _)); [|apply decoupled_mm; auto|apply flip_decoupled].
      rewrite block_mm by auto. rewrite BF.
      replace (block axis mr) with (1, 0, - f, 1) by (unfold mr, block; destruct axis; reflexivity).
      replace (block axis mt') with (1, t, 0, 1) by (unfold mt', block; destruct axis; reflexivity).
      replace (match mt with Some m => (m_index m l - n0) * bend s | None => 0 end) with f.
      destruct axis; cbv beta iota; apply quad_eq; ring. }
  destruct X as (m & X & B). exists m. pose proof (paraxial_fst e n0 l) as F. destruct (paraxial_matrix e n0 l) as [n1 m1] eqn:PM. cbn [fst snd] in *. subst n1 m1.
  split; [reflexivity|]. split; [|exact B]. eapply upright_decoupled; eauto.
Qed.

(** the 2x2 block of a sequence of elements *)
Definition seq_matrix (xs : list element) (n l : R) : option m4 := snd (mfold (n, Some eye4) (matrices xs n l)).
Lemma seq_app xs ys n l : seq_matrix (xs ++ ys) n l = do m <- seq_matrix xs n l; do m' <- seq_matrix ys (after xs n l) l; Some (mm4 m' m).
Proof.
  unfold seq_matrix. rewrite matrices_app, mfold_app. destruct (mfold (n, Some eye4) (matrices xs n l)) as [k m] eqn:E.
  rewrite mfold_acc. cbn [snd]. destruct m as [m|]; [|reflexivity]. cbn [obind].
  destruct (matrices ys (after xs n l) l) as [|q qs] eqn:M; [reflexivity|].
  cbn [mfold fold_left]. reflexivity.
Qed.
Lemma seq_sys e0 xs img l : (1 <= length xs)%nat ->
  snd (sys_matrix (e0 :: xs ++ [img]) l 1 (Some (length (e0 :: xs ++ [img]) - 1)%nat)) = seq_matrix xs (refractive_index (e0 :: xs ++ [img]) l 0) l.
Proof.
  intros L. rewrite sys_matrix_mfold. unfold paraxial_matrices, slice. cbn [length]. rewrite app_length. cbn [length].
  replace (S (length xs + 1) - 1)%nat with (S (length xs)) by lia. cbn [firstn skipn]. rewrite firstn_pre.
  unfold seq_matrix. rewrite (mfold_acc _ 1), (mfold_acc _ (refractive_index _ _ _)). cbn [obind].
  destruct xs as [|x xs]; [cbn in L; lia|]. cbn [matrices]. destruct (paraxial_matrix x _ l) as [n1 m1]. reflexivity.
Qed.
Lemma seq_some axis l xs : Forall (lens_surface l) xs -> forall n0, 0 < n0 -> exists m, seq_matrix xs n0 l = Some m /\ decoupled m /\
  let '(a, b, c, d) := block axis m in a * d - b * c = 1.
Proof.
  induction 1 as [|x xs X _ IH]; intros n0 N.
  - exists eye4. split; [reflexivity|]. split; [apply decoupled_eye|]. unfold block; destruct axis; cbn; ring.
  - destruct (IH (index_after x n0 l)) as (m & E & D & B); [apply lens_index; auto|].
    destruct (lens_block axis l x n0 X N) as (mx & PM & DX & BX). cbv zeta in BX.
    exists (mm4 m mx). split; [|split; [apply decoupled_mm; auto|]].
    + change (x :: xs) with ([x] ++ xs). rewrite seq_app. change (after [x] n0 l) with (index_after x n0 l). rewrite E.
      unfold seq_matrix. cbn [matrices]. rewrite PM. cbn. rewrite mm4_eye_r. reflexivity.
    + rewrite block_mm by auto. rewrite BX. destruct (block axis m) as [[[a b] c] d].
      match goal with |- ?x = 1 => replace x with (a * d - b * c) by ring end. exact B.
Qed.
Lemma seq_cons axis l x xs n0 m : lens_surface l x -> 0 < n0 -> Forall (lens_surface l) xs -> seq_matrix (x :: xs) n0 l = Some m ->
  exists mx m', paraxial_matrix x n0 l = (index_after x n0 l, Some mx) /\ decoupled mx /\
    (let t := p_distance (e_place x) / n0 in let p := surface_power l n0 x in block axis mx = (1, t, - p, 1 - p * t)) /\
    seq_matrix xs (index_after x n0 l) l = Some m' /\ decoupled m' /\ m = mm4 m' mx.
Proof.
  intros X N F E. destruct (lens_block axis l x n0 X N) as (mx & PM & DX & BX).
  destruct (seq_some axis l xs F (index_after x n0 l)) as (m' & E' & D' & _); [apply lens_index; auto|].
  exists mx, m'. split; [exact PM|]. split; [exact DX|]. split; [exact BX|]. split; [exact E'|]. split; [exact D'|].
  change (x :: xs) with ([x] ++ xs) in E. rewrite seq_app in E. change (after [x] n0 l) with (index_after x n0 l) in E. rewrite E' in E.
  unfold seq_matrix in E. cbn [matrices] in E. rewrite PM in E. cbn in E. rewrite mm4_eye_r in E. congruence.
Qed.
(** the reported figures in terms of the block of the surfaces *)
Lemma reported axis l e0 x xs img y u rs : Forall (lens_surface l) (e0 :: x :: xs ++ [img]) -> let es := e0 :: x :: xs ++ [img] in
  ptrace axis l es y u (refractive_index es l 0) = Some rs -> 0 < refractive_index es l 0 ->
  exists M, seq_matrix (x :: xs) (refractive_index es l 0) l = Some M /\ decoupled M /\
  (let '(a, b, c, d) := block axis M in a * d - b * c = 1) /\
  refractive_index es l (length es - 2) = after (x :: xs) (refractive_index es l 0) l /\
  forall f0 f1, focal_length rs = Some (f0, f1) -> let '(a, b, c, d) := block axis M in
    c <> 0 /\ fst u * snd y - snd u * fst y <> 0 /\ f0 = after (x :: xs) (refractive_index es l 0) l / c /\ f1 = - refractive_index es l 0 / c.
Proof.
  intros F es TR N. pose proof (lens_uprights _ _ F) as U.
  assert (L : (3 <= length es)%nat) by (unfold es; cbn; rewrite app_length; cbn; lia).
  assert (FX : Forall (lens_surface l) (x :: xs)).
  { inversion F as [|? ? _ F']; subst. inversion F' as [|? ? A B]; subst. apply Forall_app in B. constructor; [exact A|apply B]. }
  destruct (seq_some axis l (x :: xs) FX (refractive_index es l 0) N) as (M & SM & DM & DET).
  assert (SY : snd (sys_matrix es l 1 (Some (length es - 1)%nat)) = Some M).
  { unfold es. change (e0 :: x :: xs ++ [img]) with (e0 :: (x :: xs) ++ [img]). rewrite seq_sys by (cbn; lia). exact SM. }
  assert (NL : refractive_index es l (length es - 2) = after (x :: xs) (refractive_index es l 0) l).
  { rewrite !refractive_index_after. unfold es. cbn [length]. rewrite app_length. cbn [length]. replace (S (S (length xs + 1)) - 2)%nat with (S (length xs)) by lia.
    cbn [firstn]. rewrite firstn_pre. reflexivity. }
  exists M. split; [exact SM|]. split; [exact DM|]. split; [exact DET|]. split; [exact NL|].
  intros f0 f1 FL. rewrite <- NL. exact (focal_length_C axis l es y u rs f0 f1 M U L TR FL SY).
Qed.

(** ** C86: the power of a system is the sum of the powers of its surfaces, each weighted with the height at
    which a ray that entered parallel to the axis passes it *)
Lemma heights_sum axis l xs : Forall (lens_surface l) xs -> forall n0 (m c : v4) rs, 0 < n0 -> ptrace_from axis l xs m c n0 = Some rs ->
  row_u axis m - weighted l n0 xs (map (fun r => fst (ry r)) rs) = match rs with [] => row_u axis m | _ => fst (ru (last rs (PRow (0, 0) (0, 0) 0))) end.
Proof.
  induction 1 as [|x xs X _ IH]; intros n0 m c rs N E; cbn [ptrace_from] in E.
  - injection E as <-. cbn. ring.
  - destruct (lens_block axis l x n0 X N) as (mx & PM & DX & BX). unfold propagate_paraxial in E. rewrite PM in E. cbn [obind] in E.
    destruct (ptrace_from axis l xs (mv4 mx m) (mv4 mx c) (index_after x n0 l)) as [rs'|] eqn:E'; [|discriminate]. cbn [obind] in E. injection E as <-.
    specialize (IH _ _ _ _ (lens_index _ _ _ X N) E'). cbn [map weighted ry fst].
    assert (ST : row_u axis (mv4 mx m) = row_u axis m - surface_power l n0 x * row_y axis (mv4 mx m)).
    { clear - BX DX. destruct m as [a b p q]. destruct DX as (A & B & C & D & E & F & G & H). unfold block in BX. unfold row_u, row_y, mv4, dot4.
      destruct axis; cbv zeta in BX; injection BX as B1 B2 B3 B4; cbn; rewrite ?A, ?B, ?C, ?D, ?E, ?F, ?G, ?H, ?B1, ?B2, ?B3, ?B4; ring. }
    destruct rs' as [|r rs'].
    + cbn [last ru fst] in *. destruct xs as [|x' xs]; [|cbn [ptrace_from] in E'; unfold propagate_paraxial in E'; destruct (paraxial_matrix x' (index_after x n0 l) l) as [? [?|]]; cbn [obind] in E'; [|discriminate]; destruct (ptrace_from _ _ _ _ _ _); discriminate]. cbn [weighted map]. lra.
    + change (last (PRow (row_y axis (mv4 mx m), row_y axis (mv4 mx c)) (row_u axis (mv4 mx m), row_u axis (mv4 mx c)) (index_after x n0 l) :: r :: rs') (PRow (0, 0) (0, 0) 0)) with (last (r :: rs') (PRow (0, 0) (0, 0) 0)).
      rewrite <- IH. lra.
Qed.
Lemma ptrace_from_app axis l xs ys : forall m c n rs, ptrace_from axis l (xs ++ ys) m c n = Some rs ->
  exists rs1 rs2, rs = rs1 ++ rs2 /\ length rs1 = length xs /\ ptrace_from axis l xs m c n = Some rs1.
Proof.
  induction xs as [|x xs IH]; intros m c n rs E.
  - exists [], rs. auto.
  - cbn [app ptrace_from] in *. unfold propagate_paraxial in *. destruct (paraxial_matrix x n l) as [n1 [mx|]]; [|discriminate]. cbn [obind] in *.
    destruct (ptrace_from axis l (xs ++ ys) _ _ _) as [rs'|] eqn:E'; [|discriminate]. cbn [obind] in E. injection E as <-.
    destruct (IH _ _ _ _ E') as (rs1 & rs2 & -> & L & E1). rewrite E1. cbn [obind]. eexists (_ :: rs1), rs2. split; [reflexivity|]. split; [cbn; lia|reflexivity].
Qed.
Lemma weighted_app l xs : forall n hs hs', length hs = length xs -> weighted l n xs (hs ++ hs') = weighted l n xs hs.
Proof. induction xs as [|x xs IH]; intros n [|h hs] hs' L; try discriminate; cbn in *; [destruct hs'; reflexivity|]. rewrite IH by lia. reflexivity. Qed.

Theorem C86_power_sum axis l e0 x xs img y u rs f0 f1 y' u' rs' : let es := e0 :: x :: xs ++ [img] in Forall (lens_surface l) es ->
  0 < refractive_index es l 0 ->
  ptrace axis l es y u (refractive_index es l 0) = Some rs -> focal_length rs = Some (f0, f1) ->
  ptrace axis l es y' u' (refractive_index es l 0) = Some rs' -> fst u' = 0 ->
  refractive_index es l 0 * fst y' = f1 * weighted l (refractive_index es l 0) (x :: xs) (map (fun r => fst (ry r)) (tl rs')).
Proof.
  intros es F N TR FL TR' U0. destruct (reported axis l e0 x xs img y u rs F TR N) as (M & SM & DM & _ & NL & FF). specialize (FF _ _ FL).
  pose proof (lens_uprights _ _ F) as U.
  assert (L : (3 <= length es)%nat) by (unfold es; cbn; rewrite app_length; cbn; lia).
  destruct (back2 axis l es U L y' u' rs' TR') as (M' & r2 & B2 & SM' & _ & RI & _ & _).
  assert (MM : M' = M).
  { unfold es in SM'. change (e0 :: x :: xs ++ [img]) with (e0 :: (x :: xs) ++ [img]) in SM'. rewrite seq_sys in SM' by (cbn; lia). fold es in SM, SM'.
    change (e0 :: (x :: xs) ++ [img]) with es in SM'. congruence. }
  subst M'. fold es in FF. set (n0 := refractive_index es l 0) in *. clearbody n0.
  unfold ptrace, es in TR'. change (x :: xs ++ [img]) with ((x :: xs) ++ [img]) in TR'.
  destruct (ptrace_from axis l ((x :: xs) ++ [img]) _ _ n0) as [rs0|] eqn:P; [|discriminate]. cbn [obind] in TR'. injection TR' as <-.
  destruct (ptrace_from_app _ _ _ _ _ _ _ _ P) as (rs1 & rs2 & -> & L1 & P1).
  pose proof (ptrace_from_app axis l (x :: xs) [img]) as _.
  assert (L2 : length rs2 = 1%nat).
  { pose proof (ptrace_length axis l es y' u' n0 (PRow y' u' n0 :: rs1 ++ rs2)) as Q. unfold ptrace, es in Q. change (x :: xs ++ [img]) with ((x :: xs) ++ [img]) in Q. rewrite P in Q.
    specialize (Q eq_refl). cbn [length] in *. rewrite !app_length in Q. cbn [length] in *. lia. }
  destruct rs2 as [|ri [|]]; try discriminate.
  assert (FX : Forall (lens_surface l) (x :: xs)).
  { inversion F as [|? ? _ F']; subst. inversion F' as [|? ? A B]; subst. apply Forall_app in B. constructor; [exact A|apply B]. }
  pose proof (heights_sum axis l (x :: xs) FX n0 _ _ _ N P1) as HS.
  assert (R2 : last rs1 (PRow (0, 0) (0, 0) 0) = r2).
  { destruct (exists_last (l := rs1)) as (rs1' & r & ->); [intros ->; discriminate|]. rewrite last_last.
    unfold back in B2. cbn [length] in B2. rewrite !app_length in B2. cbn [length] in B2. destruct (Nat.leb_spec 2 (S (length rs1' + 1 + 1))); [|lia].
    replace (S (length rs1' + 1 + 1) - 2)%nat with (S (length rs1')) in B2 by lia. cbn [nth_error] in B2. rewrite <- app_assoc in B2. cbn [app] in B2. rewrite nth_error_mid in B2. congruence. }
  rewrite R2 in HS. destruct rs1 as [|r0 rs1]; [discriminate|].
  replace (row_u axis (V4 (fst y') (fst y') (fst u') (fst u'))) with (fst u') in HS by (unfold row_u; destruct axis; reflexivity).
  rewrite U0 in HS. cbn [tl]. rewrite map_app, weighted_app by (rewrite map_length; exact L1).
  unfold row_is in RI. destruct (block axis M) as [[[a b] c] d]. destruct RI as [_ RU]. rewrite RU in HS. cbn [fst] in HS. rewrite U0 in HS. destruct FF as (C & _ & _ & ->).
  replace (weighted l n0 (x :: xs) (map (fun r => fst (ry r)) (r0 :: rs1))) with (- (c * fst y')) by lra. field. exact C.
Qed.

Lemma over_1 x : x / 1 = x.
Proof. field. Qed.
(** the cardinal points in air in terms of the block of the surfaces *)
Lemma cardinals axis l e0 x xs img y u rs f0 f1 fd0 fd1 : let es := e0 :: x :: xs ++ [img] in Forall (lens_surface l) es ->
  refractive_index es l 0 = 1 -> after (x :: xs) 1 l = 1 ->
  ptrace axis l es y u 1 = Some rs -> focal_length rs = Some (f0, f1) -> focal_distance rs = Some (fd0, fd1) ->
  exists M, seq_matrix (x :: xs) 1 l = Some M /\ decoupled M /\ let '(a, b, c, d) := block axis M in
    a * d - b * c = 1 /\ c <> 0 /\ f0 = 1 / c /\ f1 = - 1 / c /\ fd1 = - a / c /\ fd0 = (d - c * p_distance (e_place x)) / c.
Proof.
  intros es F N0 N1 TR FL FD. pose proof (lens_uprights _ _ F) as U.
  assert (TR0 := TR). rewrite <- N0 in TR0. assert (NP : 0 < refractive_index es l 0) by (rewrite N0; lra).
  destruct (reported axis l e0 x xs img y u rs F TR0 NP) as (M & SM & DM & DET & NL & FF). specialize (FF _ _ FL).
  cbv zeta in SM, NL, FF. fold es in SM, NL, FF. rewrite N0 in SM, NL, FF. rewrite N1 in NL, FF.
  exists M. split; [exact SM|]. split; [exact DM|].
  assert (L : (3 <= length es)%nat) by (unfold es; cbn; rewrite app_length; cbn; lia). rewrite <- N0 in TR.
  destruct (back2 axis l es U L y u rs TR) as (M0 & q2 & Q2 & SM0 & _ & RI0 & _ & NQ).
  assert (MM : M0 = M).
  { unfold es in SM0. change (e0 :: x :: xs ++ [img]) with (e0 :: (x :: xs) ++ [img]) in SM0. rewrite seq_sys in SM0 by (cbn; lia).
    change (e0 :: (x :: xs) ++ [img]) with es in SM0. rewrite N0 in SM0. congruence. }
  subst M0. rewrite NL in NQ.
  assert (LX : lens_surface l x) by (inversion F as [|? ? _ F']; subst; inversion F'; auto).
  destruct (lens_block axis l x 1 LX Rlt_0_1) as (mx & PM & DX & BX). cbv zeta in BX. rewrite over_1 in BX.
  assert (B10 : exists q1, nth_error rs 1 = Some q1).
  { destruct (nth_error rs 1) eqn:E; [eauto|]. apply nth_error_None in E. apply ptrace_length in TR. lia. }
  destruct B10 as (q1 & B10). destruct (ptrace_nth axis l es y u rs 0 q1 U TR B10) as (M1 & SM1 & DM1 & RI1 & _).
  assert (MX : M1 = mx).
  { revert SM1. unfold sys_matrix, paraxial_matrices, slice, es. cbn [firstn skipn matrices].
    change (e0 :: x :: xs ++ [img]) with es. rewrite N0, PM. cbn [fold_left snd obind]. rewrite mm4_eye_r. congruence. }
  subst M1. unfold row_is in RI0, RI1. rewrite BX in RI1.
  unfold focal_distance in FD. rewrite FL in FD. unfold lagrange in FD. rewrite (ptrace_0 _ _ _ _ _ _ _ TR), B10, Q2 in FD.
  cbn [obind ry ru rn] in FD. rewrite NQ, N0 in FD. cbn [fst snd] in FD.
  destruct (block axis M) as [[[a b] c] d]. destruct FF as (C & LZ & E0 & E1). destruct RI0 as [RY0 RU0]. destruct RI1 as [RY1 _].
  rewrite RY0, RU0, RY1 in FD. cbn [fst snd] in FD. set (Lg := fst u * snd y - snd u * fst y) in *.
  rewrite !fdiv_some in FD by (auto; lra). cbn [obind] in FD. rewrite !fdiv_some in FD by (auto; lra). cbn [obind] in FD. injection FD as <- <-.
  set (t := p_distance (e_place x)) in *.
  assert (X1 : ((a * snd y + b * snd u) * fst u - (a * fst y + b * fst u) * snd u) = a * Lg) by (unfold Lg; ring).
  assert (X0 : ((1 * snd y + t * snd u) * (c * fst y + d * fst u) - (1 * fst y + t * fst u) * (c * snd y + d * snd u)) = (d - c * t) * Lg) by (unfold Lg; ring).
  rewrite X0, X1, E0, E1. clearbody Lg. split; [exact DET|]. split; [exact C|]. split; [reflexivity|]. split; [reflexivity|]. split; field; auto.
Qed.

(** ** C86: the lens of two surfaces in air.  [n] index, [c1], [c2] curvatures, [t] thickness. *)
Theorem C86_lens axis l e0 e1 e2 img y u rs f0 f fd0 fd1 pd0 pd1 m1 s1 m2 s2 : let es := [e0; e1; e2; img] in Forall (lens_surface l) es ->
  refractive_index es l 0 = 1 -> e_kind e1 = Sph (Some m1) s1 -> e_kind e2 = Sph (Some m2) s2 -> m_index m2 l = 1 ->
  ptrace axis l es y u 1 = Some rs -> focal_length rs = Some (f0, f) -> focal_distance rs = Some (fd0, fd1) -> principal_distance rs = Some (pd0, pd1) ->
  let n := m_index m1 l in let c1 := bend s1 in let c2 := bend s2 in let t := p_distance (e_place e2) in
  1 / f = (n - 1) * (c1 - c2 + (n - 1) * t * c1 * c2 / n) /\ f0 = - f /\
  fd1 = f * (1 - (n - 1) * t * c1 / n) /\ fd0 = - f * (1 + (n - 1) * t * c2 / n) /\
  pd1 = - f * (n - 1) * t * c1 / n /\ pd0 = - f * (n - 1) * t * c2 / n.
Proof.
  intros es F N0 K1 K2 M2 TR FL FD PD n c1 c2 t.
  assert (A1 : index_after e1 1 l = n) by (unfold index_after; rewrite K1; reflexivity).
  assert (A2 : after [e1; e2] 1 l = 1) by (cbn; unfold index_after at 1; rewrite K2; exact M2).
  destruct (cardinals axis l e0 e1 [e2] img y u rs f0 f fd0 fd1 F N0 A2 TR FL FD) as (M & SM & DM & FF).
  inversion F as [|? ? _ F1]; subst. inversion F1 as [|? ? L1 F2]; subst. inversion F2 as [|? ? L2 _]; subst. clear F1 F2.
  assert (NN : 0 < n) by (rewrite <- A1; apply lens_index; [auto|lra]).
  destruct (seq_cons axis l e1 [e2] 1 M L1 Rlt_0_1 (Forall_cons _ L2 (Forall_nil _)) SM) as (ma & mb & _ & DA & BA & SB & DB & ->).
  rewrite A1 in *. destruct (seq_cons axis l e2 [] n mb L2 NN (Forall_nil _) SB) as (mc & md & _ & DC & BC & SD & DD & ->).
  cbn in SD. injection SD as <-. rewrite mm4_eye_l in *. cbv zeta in BA, BC.
  assert (P1 : surface_power l 1 e1 = (n - 1) * c1) by (unfold surface_power; rewrite K1; reflexivity).
  assert (P2 : surface_power l n e2 = (1 - n) * c2) by (unfold surface_power; rewrite K2, M2; reflexivity).
  rewrite P1 in BA. rewrite P2 in BC. fold t in BC. rewrite over_1 in BA.
  rewrite block_mm, BA, BC in FF by auto. cbv beta iota in FF. destruct FF as (_ & C & E0 & E1 & D1 & D0).
  unfold principal_distance in PD. rewrite FL, FD in PD. cbn [obind fst snd] in PD. injection PD as <- <-.
  set (k := - ((1 - n) * c2) * 1 + (1 - (1 - n) * c2 * (t / n)) * - ((n - 1) * c1)) in *.
  set (t1 := p_distance (e_place e1)) in *. clearbody t1 t c1 c2 n.
  assert (KK : k = - ((n - 1) * (c1 - c2 + (n - 1) * t * c1 * c2 / n))) by (unfold k; field; lra).
  assert (Q1 : fd1 = f * (1 - (n - 1) * t * c1 / n)) by (rewrite D1, E1; clearbody k; field; split; first [exact C|lra]).
  assert (Q0 : fd0 = - f * (1 + (n - 1) * t * c2 / n)).
  { rewrite D0, E1. match goal with |- (?x - k * t1) / k = _ => replace (x - k * t1) with (1 + (n - 1) * t * c2 / n) by (unfold k; field; lra) end. clearbody k. field. split; first [exact C|lra]. }
  assert (QF : f0 = - f) by (rewrite E0, E1; field; exact C).
  split; [transitivity (- k); [rewrite E1; field; exact C|rewrite KK; ring]|]. split; [exact QF|]. split; [exact Q1|]. split; [exact Q0|].
  rewrite QF, Q1, Q0. split; field; lra.
Qed.

(** ** C86: two groups of lenses in air, one behind the other.  The first group has the surfaces [xa :: xas], the second
    [xb :: xbs]; each was traced alone; [xj] is the first surface of the second group put behind the first group.  The
    principal planes that face each other are [sep] apart. *)
Theorem C86_combination axis l oa xa xas ia ya ua rsa fa0 fa pda0 pda1 ob xb xbs ib yb ub rsb fb0 fb pdb0 pdb1 xj y u rs f0 f :
  let A := oa :: xa :: xas ++ [ia] in let B := ob :: xb :: xbs ++ [ib] in let es := oa :: xa :: (xas ++ xj :: xbs) ++ [ib] in
  Forall (lens_surface l) A -> Forall (lens_surface l) B ->
  refractive_index A l 0 = 1 -> refractive_index B l 0 = 1 -> after (xa :: xas) 1 l = 1 -> after (xb :: xbs) 1 l = 1 ->
  e_kind xj = e_kind xb -> p_angles (e_place xj) = v0 ->
  ptrace axis l A ya ua 1 = Some rsa -> focal_length rsa = Some (fa0, fa) -> principal_distance rsa = Some (pda0, pda1) ->
  ptrace axis l B yb ub 1 = Some rsb -> focal_length rsb = Some (fb0, fb) -> principal_distance rsb = Some (pdb0, pdb1) ->
  ptrace axis l es y u 1 = Some rs -> focal_length rs = Some (f0, f) ->
  let sep := p_distance (e_place xj) - pda1 + pdb0 in
  1 / f = 1 / fa + 1 / fb - sep / (fa * fb).
Proof.
  intros A B es FA FB NA NB AA AB KJ PJ TA LA DA TB LB DB TR FL sep.
  unfold principal_distance in DA, DB. rewrite LA in DA. rewrite LB in DB.
  destruct (focal_distance rsa) as [[fda0 fda1]|] eqn:FDA; [|discriminate]. destruct (focal_distance rsb) as [[fdb0 fdb1]|] eqn:FDB; [|discriminate].
  cbn [obind fst snd] in DA, DB. injection DA as <- <-. injection DB as <- <-.
  destruct (cardinals axis l oa xa xas ia ya ua rsa fa0 fa fda0 fda1 FA NA AA TA LA FDA) as (MA & SA & DA & CA).
  destruct (cardinals axis l ob xb xbs ib yb ub rsb fb0 fb fdb0 fdb1 FB NB AB TB LB FDB) as (MB & SB & DB & CB).
  assert (FXA : lens_surface l oa /\ Forall (lens_surface l) (xa :: xas)).
  { inversion FA as [|? ? O FA']; subst. inversion FA' as [|? ? P Q]; subst. apply Forall_app in Q. split; [exact O|]. constructor; [exact P|apply Q]. }
  assert (FXB : lens_surface l xb /\ Forall (lens_surface l) xbs /\ Forall (lens_surface l) [ib]).
  { inversion FB as [|? ? O FB']; subst. inversion FB' as [|? ? P Q]; subst. apply Forall_app in Q. tauto. }
  destruct FXA as (FO & FXA). destruct FXB as (FXB & FXS & FI).
  assert (FJ : lens_surface l xj) by (destruct FXB as (_ & Q); split; [exact PJ|rewrite KJ; exact Q]).
  assert (FE : Forall (lens_surface l) es).
  { inversion FXA as [|? ? P Q]; subst. unfold es. constructor; [exact FO|]. constructor; [exact P|]. apply Forall_app. split; [|exact FI]. apply Forall_app. split; [exact Q|]. constructor; auto. }
  assert (NE : refractive_index es l 0 = 1) by (rewrite <- NA; reflexivity).
  assert (TR0 := TR). rewrite <- NE in TR0. assert (NP : 0 < refractive_index es l 0) by (rewrite NE; lra).
  destruct (reported axis l oa xa (xas ++ xj :: xbs) ib y u rs FE TR0 NP) as (M & SM & DM & _ & _ & FF). specialize (FF _ _ FL). cbv zeta in SM, FF. fold es in SM, FF. rewrite NE in SM, FF.
  change (xa :: xas ++ xj :: xbs) with ((xa :: xas) ++ xj :: xbs) in SM. rewrite seq_app, SA, AA in SM. cbn [obind] in SM.
  destruct (seq_matrix (xj :: xbs) 1 l) as [MJ|] eqn:SJ; [|discriminate]. cbn [obind] in SM. injection SM as <-.
  destruct (seq_cons axis l xj xbs 1 MJ FJ Rlt_0_1 FXS SJ) as (mj & mr & _ & DJ & BJ & SR & DR & ->).
  destruct (seq_cons axis l xb xbs 1 MB FXB Rlt_0_1 FXS SB) as (mb & mr' & _ & DB' & BB & SR' & _ & ->).
  assert (IJ : index_after xj 1 l = index_after xb 1 l) by (unfold index_after; rewrite KJ; reflexivity).
  assert (PW : surface_power l 1 xj = surface_power l 1 xb) by (unfold surface_power; rewrite KJ; reflexivity).
  rewrite IJ in SR. rewrite SR in SR'. injection SR' as <-. cbv zeta in BJ, BB. rewrite PW, over_1 in BJ. rewrite over_1 in BB.
  rewrite block_mm in FF by (auto using decoupled_mm). rewrite block_mm in FF by auto. rewrite BJ in FF. rewrite block_mm, BB in CB by auto.
  destruct (block axis mr) as [[[ar br] cr] dr]. destruct (block axis MA) as [[[a b] c] d].
  set (p := surface_power l 1 xb) in *. set (tj := p_distance (e_place xj)) in *. set (tb := p_distance (e_place xb)) in *.
  destruct CA as (_ & CA & _ & -> & -> & ->). destruct CB as (_ & CB & -> & -> & -> & ->). destruct FF as (C & _ & _ & ->).
  unfold sep. set (cb := cr * 1 + dr * - p) in *.
  replace (cr * tb + dr * (1 - p * tb) - cb * tb) with dr by (unfold cb; ring).
  transitivity (- (cb * a + (cb * tj + dr) * c)).
  - replace (cr * tj + dr * (1 - p * tj)) with (cb * tj + dr) in * by (unfold cb; ring). clearbody cb. field. exact C.
  - clearbody cb. field. auto.
Qed.

(** ** C86: conjugate planes.  A plane [x] in front of the front focal point and a plane [x'] behind the rear focal
    point: height and slope of every ray at the second in terms of those at the first.  Newton: the second is the image
    of the first exactly if x x' = f^2. *)
Lemma ray_rows axis l e0 x xs img y' u' rs' r1 r2 M : let es := e0 :: x :: xs ++ [img] in Forall (lens_surface l) es -> refractive_index es l 0 = 1 ->
  ptrace axis l es y' u' 1 = Some rs' -> nth_error rs' 1 = Some r1 -> back rs' 2 = Some r2 -> seq_matrix (x :: xs) 1 l = Some M ->
  let '(a, b, c, d) := block axis M in
  fst (ry r1) = fst y' + p_distance (e_place x) * fst u' /\ fst (ry r2) = a * fst y' + b * fst u' /\ fst (ru r2) = c * fst y' + d * fst u'.
Proof.
  intros es F N0 TR B1 B2 SM. pose proof (lens_uprights _ _ F) as U. rewrite <- N0 in TR.
  assert (L : (3 <= length es)%nat) by (unfold es; cbn; rewrite app_length; cbn; lia).
  destruct (back2 axis l es U L y' u' rs' TR) as (M0 & q2 & Q2 & SM0 & _ & RI0 & _ & _). rewrite B2 in Q2. injection Q2 as <-.
  assert (MM : M0 = M).
  { unfold es in SM0. change (e0 :: x :: xs ++ [img]) with (e0 :: (x :: xs) ++ [img]) in SM0. rewrite seq_sys in SM0 by (cbn; lia).
    change (e0 :: (x :: xs) ++ [img]) with es in SM0. rewrite N0 in SM0. congruence. }
  subst M0.
  assert (LX : lens_surface l x) by (inversion F as [|? ? _ F']; subst; inversion F'; auto).
  destruct (lens_block axis l x 1 LX Rlt_0_1) as (mx & PM & DX & BX). cbv zeta in BX. rewrite over_1 in BX.
  destruct (ptrace_nth axis l es y' u' rs' 0 r1 U TR B1) as (M1 & SM1 & DM1 & RI1 & _).
  assert (MX : M1 = mx).
  { revert SM1. unfold sys_matrix, paraxial_matrices, slice, es. cbn [firstn skipn matrices].
    change (e0 :: x :: xs ++ [img]) with es. rewrite N0, PM. cbn [fold_left snd obind]. rewrite mm4_eye_r. congruence. }
  subst M1. unfold row_is in RI0, RI1. rewrite BX in RI1. destruct (block axis M) as [[[a b] c] d].
  destruct RI0 as [-> ->]. destruct RI1 as [-> _]. cbn [fst]. split; [ring|]. split; reflexivity.
Qed.
Theorem C86_newton axis l e0 x1 xs img y u rs f0 f fd0 fd1 y' u' rs' r1 r2 x x' : let es := e0 :: x1 :: xs ++ [img] in Forall (lens_surface l) es ->
  refractive_index es l 0 = 1 -> after (x1 :: xs) 1 l = 1 ->
  ptrace axis l es y u 1 = Some rs -> focal_length rs = Some (f0, f) -> focal_distance rs = Some (fd0, fd1) ->
  ptrace axis l es y' u' 1 = Some rs' -> nth_error rs' 1 = Some r1 -> back rs' 2 = Some r2 ->
  let h := fst (ry r1) + (fd0 - x) * fst u' in let h' := fst (ry r2) + (fd1 + x') * fst (ru r2) in
  h' = - (x' / f) * h + (f * f - x * x') / f * fst u' /\ fst (ru r2) = - (h + x * fst u') / f /\
  (x * x' = f * f -> h' = - (f / x) * h).
Proof.
  intros es F N0 N1 TR FL FD TR' B1 B2 h h'.
  destruct (cardinals axis l e0 x1 xs img y u rs f0 f fd0 fd1 F N0 N1 TR FL FD) as (M & SM & DM & CA).
  pose proof (ray_rows axis l e0 x1 xs img y' u' rs' r1 r2 M F N0 TR' B1 B2 SM) as RR.
  unfold h, h'. clear h h'. destruct (block axis M) as [[[a b] c] d]. destruct CA as (DET & C & E0 & E1 & -> & ->). destruct RR as (-> & -> & ->).
  set (t := p_distance (e_place x1)). set (v := fst u'). set (w := fst y'). clearbody t v w.
  assert (FC : f * c = - 1) by (rewrite E1; field; exact C). assert (FN : f <> 0) by nra.
  assert (EC : c = - (1 / f)) by (apply (Rmult_eq_reg_l f); [rewrite FC; field; exact FN|exact FN]).
  assert (HH : w + t * v + ((d - c * t) / c - x) * v = w + (d / c - x) * v) by (field; exact C). rewrite HH.
  assert (S : c * w + d * v = - (w + (d / c - x) * v + x * v) / f).
  { transitivity (c * (w + d / c * v)); [field; exact C|]. rewrite EC at 1. field. auto. }
  assert (H1 : a * w + b * v + (- a / c + x') * (c * w + d * v) = - (x' / f) * (w + (d / c - x) * v) + (f * f - x * x') / f * v).
  { replace (f * f - x * x') with (f * f - x' * x) by ring. transitivity ((b - a * d / c) * v + x' * (c * w + d * v)); [field; exact C|].
    replace (b - a * d / c) with (- (a * d - b * c) / c) by (field; exact C). rewrite DET, S. rewrite E1. field. auto. }
  split; [exact H1|]. split; [exact S|]. intros X. rewrite H1. assert (XN : x <> 0) by (intros ->; nra).
  replace (f * f - x * x') with 0 by lra. replace (x' / f) with (f / x); [field; auto|].
  apply (Rmult_eq_reg_l (x * f)); [|nra]. transitivity (f * f); [field; auto|]. rewrite <- X. field. auto.
Qed.
(** Gauss: an object [s] in front of the front principal plane and an image [s'] behind the rear one *)
Theorem C86_gauss axis l e0 x1 xs img y u rs f0 f pd0 pd1 y' u' rs' r1 r2 s s' : let es := e0 :: x1 :: xs ++ [img] in Forall (lens_surface l) es ->
  refractive_index es l 0 = 1 -> after (x1 :: xs) 1 l = 1 ->
  ptrace axis l es y u 1 = Some rs -> focal_length rs = Some (f0, f) -> principal_distance rs = Some (pd0, pd1) ->
  ptrace axis l es y' u' 1 = Some rs' -> nth_error rs' 1 = Some r1 -> back rs' 2 = Some r2 ->
  s <> 0 -> s' <> 0 -> 1 / s + 1 / s' = 1 / f ->
  fst (ry r2) + (pd1 + s') * fst (ru r2) = - (s' / s) * (fst (ry r1) + (pd0 - s) * fst u').
Proof.
  intros es F N0 N1 TR FL PD TR' B1 B2 SZ SZ' G.
  unfold principal_distance in PD. rewrite FL in PD. destruct (focal_distance rs) as [[fd0 fd1]|] eqn:FD; [|discriminate].
  cbn [obind fst snd] in PD. injection PD as <- <-.
  destruct (cardinals axis l e0 x1 xs img y u rs f0 f fd0 fd1 F N0 N1 TR FL FD) as (M & SM & _ & CA).
  destruct (C86_newton axis l e0 x1 xs img y u rs f0 f fd0 fd1 y' u' rs' r1 r2 (s - f) (s' - f) F N0 N1 TR FL FD TR' B1 B2) as (H & _ & _).
  destruct (block axis M) as [[[a b] c] d]. destruct CA as (_ & C & E0 & E1 & _ & _).
  assert (F0 : f0 = - f) by (rewrite E0, E1; field; exact C).
  assert (FC : f * c = - 1) by (rewrite E1; field; exact C). assert (FN : f <> 0) by (intros Z; rewrite Z in FC; lra).
  assert (Q : s * f + s' * f = s * s'). { transitivity (s * s' * f * (1 / s + 1 / s')); [field; auto|]. rewrite G. field. exact FN. }
  replace (fd1 - f + s') with (fd1 + (s' - f)) by ring. replace (fd0 - f0 - s) with (fd0 - (s - f)) by (rewrite F0; ring).
  rewrite H. replace (f * f - (s - f) * (s' - f)) with 0 by nra. replace ((s' - f) / f) with (s' / s).
  - field. auto.
  - apply (Rmult_eq_reg_l (s * f)); [|nra]. transitivity (s' * f); [field; auto|]. transitivity (s * (s' - f)); [nra|field; auto].
Qed.

(** ** Example: two biconvex water lenses (index 4/3, curvatures 1/3 and -1/6, thickness 3), 5 apart *)
Fixpoint blocks2 (l n0 : R) (xs : list element) : R * R * R * R :=
  match xs with
  | [] => (1, 0, 0, 1)
  | x :: xs => let '(a, b, c, d) := blocks2 l (index_after x n0 l) xs in
      let t := p_distance (e_place x) / n0 in let p := surface_power l n0 x in
      (a * 1 + b * - p, a * t + b * (1 - p * t), c * 1 + d * - p, c * t + d * (1 - p * t))
  end.
Lemma seq_block axis l xs : Forall (lens_surface l) xs -> forall n0, 0 < n0 -> exists M, seq_matrix xs n0 l = Some M /\ decoupled M /\ block axis M = blocks2 l n0 xs.
Proof.
  induction 1 as [|x xs X F IH]; intros n0 N.
  - exists eye4. split; [reflexivity|]. split; [apply decoupled_eye|]. unfold block. destruct axis; reflexivity.
  - destruct (IH (index_after x n0 l)) as (m & E & D & B); [apply lens_index; auto|].
    destruct (lens_block axis l x n0 X N) as (mx & PM & DX & BX). cbv zeta in BX.
    exists (mm4 m mx). split; [|split; [apply decoupled_mm; auto|]].
    + change (x :: xs) with ([x] ++ xs). rewrite seq_app. change (after [x] n0 l) with (index_after x n0 l). rewrite E.
      unfold seq_matrix. cbn [matrices]. rewrite PM. cbn. rewrite mm4_eye_r. reflexivity.
    + rewrite block_mm by auto. rewrite BX, B. cbn [blocks2]. destruct (blocks2 l (index_after x n0 l) xs) as [[[a b] c] d]. reflexivity.
Qed.
Lemma lens_traceable l xs : Forall (lens_surface l) xs -> forall n0, 0 < n0 -> traceable xs n0 l.
Proof.
  induction 1 as [|x xs X F IH]; intros n0 N; [constructor|]. unfold traceable. cbn [matrices].
  destruct (lens_block true l x n0 X N) as (mx & PM & _). rewrite PM. constructor; [discriminate|]. apply IH. apply lens_index; auto.
Qed.
Lemma available axis l e0 x xs img y u : let es := e0 :: x :: xs ++ [img] in Forall (lens_surface l) es ->
  refractive_index es l 0 = 1 -> after (x :: xs) 1 l = 1 -> fst u * snd y - snd u * fst y <> 0 -> (let '(_, _, c, _) := blocks2 l 1 (x :: xs) in c <> 0) ->
  exists rs f0 f1 fd0 fd1 pd0 pd1, ptrace axis l es y u 1 = Some rs /\ focal_length rs = Some (f0, f1) /\ focal_distance rs = Some (fd0, fd1) /\ principal_distance rs = Some (pd0, pd1).
Proof.
  intros es F N0 N1 LZ C. pose proof (lens_uprights _ _ F) as U.
  assert (FT : Forall (lens_surface l) (x :: xs ++ [img])) by (inversion F; auto).
  assert (FX : Forall (lens_surface l) (x :: xs)) by (inversion FT as [|? ? P Q]; subst; apply Forall_app in Q; constructor; [exact P|apply Q]).
  destruct (proj1 (ptrace_some axis l e0 (x :: xs ++ [img]) y u 1) (lens_traceable l _ FT 1 Rlt_0_1)) as (rs & TR). fold es in TR. exists rs.
  assert (L : (3 <= length es)%nat) by (unfold es; cbn; rewrite app_length; cbn; lia).
  assert (TR0 := TR). rewrite <- N0 in TR0.
  destruct (back2 axis l es U L y u rs TR0) as (M0 & q2 & Q2 & SM0 & _ & RI0 & _ & NQ).
  destruct (seq_block axis l _ FX 1 Rlt_0_1) as (M & SM & DM & BM).
  assert (MM : M0 = M).
  { unfold es in SM0. change (e0 :: x :: xs ++ [img]) with (e0 :: (x :: xs) ++ [img]) in SM0. rewrite seq_sys in SM0 by (cbn; lia).
    change (e0 :: (x :: xs) ++ [img]) with es in SM0. rewrite N0 in SM0. congruence. }
  subst M0. unfold row_is in RI0. rewrite BM in RI0. destruct (blocks2 l 1 (x :: xs)) as [[[a b] c] d]. destruct RI0 as [RY RU].
  assert (NL : rn q2 = 1).
  { rewrite NQ, <- N1. rewrite refractive_index_after in N0. rewrite refractive_index_after. unfold es in *. cbn [length]. rewrite app_length. cbn [length]. replace (S (S (length xs + 1)) - 2)%nat with (S (length xs)) by lia.
    cbn [firstn] in *. rewrite firstn_pre. change (after (e0 :: x :: xs) 1 l) with (after (x :: xs) (after [e0] 1 l) l). rewrite N0. reflexivity. }
  assert (B10 : exists q1, nth_error rs 1 = Some q1).
  { destruct (nth_error rs 1) eqn:E; [eauto|]. apply nth_error_None in E. apply ptrace_length in TR. lia. }
  destruct B10 as (q1 & B10).
  assert (FL : exists f0 f1, focal_length rs = Some (f0, f1)).
  { unfold focal_length, lagrange. rewrite (ptrace_0 _ _ _ _ _ _ _ TR), Q2. cbn [obind ry ru rn]. rewrite RU. cbn [fst snd].
    rewrite fdiv_some. { cbn [obind]. eauto. }
    replace (snd u * (c * fst y + d * fst u) - fst u * (c * snd y + d * snd u)) with (- c * (fst u * snd y - snd u * fst y)) by ring.
    intros Z. apply Rmult_integral in Z. destruct Z as [Z|Z]; [apply C; lra|exact (LZ Z)]. }
  destruct FL as (f0 & f1 & FL).
  assert (FD : exists fd0 fd1, focal_distance rs = Some (fd0, fd1)).
  { unfold focal_distance. rewrite FL. unfold lagrange. rewrite (ptrace_0 _ _ _ _ _ _ _ TR), B10, Q2. cbn [obind ry ru rn]. rewrite NL.
    rewrite !fdiv_some by (exact LZ || lra). cbn [obind]. rewrite !fdiv_some by (exact LZ || lra). cbn [obind]. eauto. }
  destruct FD as (fd0 & fd1 & FD). exists f0, f1, fd0, fd1. do 2 eexists. split; [exact TR|]. split; [exact FL|]. split; [exact FD|].
  unfold principal_distance. rewrite FL, FD. cbn [obind]. reflexivity.
Qed.
Definition doublet (p0 p3 p5 p9 p18 : placement) : list element :=
  [El p0 None (Sph (Some vac) flat); El p9 (Some 4) (Sph (Some water) (Surf (1/3) 0 None false)); El p3 (Some 4) (Sph (Some vac) (Surf (-1/6) 0 None false));
   El p5 (Some 4) (Sph (Some water) (Surf (1/3) 0 None false)); El p3 (Some 4) (Sph (Some vac) (Surf (-1/6) 0 None false)); El p18 None (Sph None flat)].
Lemma plain_lens l p r m c k : p_angles p = v0 -> (forall m', m = Some m' -> m_mirror m' = false /\ 0 < m_index m' l) -> lens_surface l (El p r (Sph m (Surf c k None false))).
Proof. intros A K. split; [exact A|]. intros mt s E. cbn in E. injection E as <- <-. split; [discriminate|exact K]. Qed.
Example C86_example : exists p0 p3 p5 p9 p18 rs f0 f1 fd0 fd1 pd0 pd1 rs' g0 g1, let A := lens3 p0 p3 p9 p18 in let es := doublet p0 p3 p5 p9 p18 in
  Forall (lens_surface 1) A /\ Forall (lens_surface 1) es /\
  ptrace true 1 A (1, 1) (0, 1/9) 1 = Some rs /\ focal_length rs = Some (f0, f1) /\ focal_distance rs = Some (fd0, fd1) /\ principal_distance rs = Some (pd0, pd1) /\
  f1 = 72 / 11 /\ fd1 = 54 / 11 /\ pd1 = - 18 / 11 /\ pd0 = 9 / 11 /\
  ptrace true 1 es (1, 1) (0, 1/9) 1 = Some rs' /\ focal_length rs' = Some (g0, g1) /\ 1 / g1 = 341 / 2592.
Proof.
  destruct (centred_axis 0) as (p0 & _ & _ & D0 & _ & A0); [lra|]. destruct (centred_axis 3) as (p3 & _ & _ & D3 & _ & A3); [lra|].
  destruct (centred_axis 5) as (p5 & _ & _ & D5 & _ & A5); [lra|]. destruct (centred_axis 9) as (p9 & _ & _ & D9 & _ & A9); [lra|].
  destruct (centred_axis 18) as (p18 & _ & _ & D18 & _ & A18); [lra|].
  assert (V : forall m', Some vac = Some m' -> m_mirror m' = false /\ 0 < m_index m' 1) by (intros m' E; injection E as <-; cbn; split; [reflexivity|lra]).
  assert (W : forall m', Some water = Some m' -> m_mirror m' = false /\ 0 < m_index m' 1) by (intros m' E; injection E as <-; cbn; split; [reflexivity|lra]).
  assert (FA : Forall (lens_surface 1) (lens3 p0 p3 p9 p18)).
  { unfold lens3, flat. repeat apply Forall_cons; [..|apply Forall_nil]; apply plain_lens; auto; discriminate. }
  assert (FE : Forall (lens_surface 1) (doublet p0 p3 p5 p9 p18)).
  { unfold doublet, flat. repeat apply Forall_cons; [..|apply Forall_nil]; apply plain_lens; auto; discriminate. }
  destruct (available true 1 _ _ [_] _ (1, 1) (0, 1/9) FA eq_refl eq_refl) as (rs & f0 & f1 & fd0 & fd1 & pd0 & pd1 & TR & FL & FD & PD).
  { cbn. lra. } { cbn. rewrite ?D3, ?D9. intros Z. field_simplify in Z. lra. }
  destruct (available true 1 _ _ [_; _; _] _ (1, 1) (0, 1/9) FE eq_refl eq_refl) as (rs' & g0 & g1 & gd0 & gd1 & qd0 & qd1 & TR' & FL' & FD' & PD').
  { cbn. lra. } { cbn. rewrite ?D3, ?D5, ?D9. intros Z. field_simplify in Z. lra. }
  exists p0, p3, p5, p9, p18, rs, f0, f1, fd0, fd1, pd0, pd1, rs', g0, g1. cbv zeta. split; [exact FA|]. split; [exact FE|]. split; [exact TR|]. split; [exact FL|]. split; [exact FD|]. split; [exact PD|].
  destruct (C86_lens true 1 _ _ _ _ (1, 1) (0, 1/9) rs f0 f1 fd0 fd1 pd0 pd1 water (Surf (1/3) 0 None false) vac (Surf (-1/6) 0 None false) FA eq_refl eq_refl eq_refl eq_refl TR FL FD PD) as (E & _ & E1 & _ & E2 & E3).
  cbn in E, E1, E2, E3. rewrite D3 in E, E1, E2, E3.
  assert (NF : f1 <> 0) by (intros Z; rewrite Z in E; unfold Rdiv at 1 in E; rewrite Rinv_0 in E; lra).
  assert (EF : f1 = 72 / 11) by (replace f1 with (1 / (1 / f1)) by (field; exact NF); rewrite E; field).
  split; [exact EF|]. split; [rewrite E1, EF; field|]. split; [rewrite E2, EF; field|]. split; [rewrite E3, EF; field|]. split; [exact TR'|]. split; [exact FL'|].
  pose proof (C86_combination true 1 _ _ [_] _ (1, 1) (0, 1/9) rs f0 f1 pd0 pd1 _ _ [_] _ (1, 1) (0, 1/9) rs f0 f1 pd0 pd1 (El p5 (Some 4) (Sph (Some water) (Surf (1/3) 0 None false))) (1, 1) (0, 1/9) rs' g0 g1
    FA FA eq_refl eq_refl eq_refl eq_refl eq_refl A5 TR FL PD TR FL PD TR' FL') as Q. cbn in Q. rewrite D5 in Q. rewrite Q, E2, E3, EF. field.
Qed.
