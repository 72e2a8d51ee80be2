(** The exact trace near the axis of a centred system. *)
From Coq Require Import Reals List Lra Lia Psatz.
From Verif Require Import Base Vec RotModel RotProofs PlacementModel PlacementProofs ElementModel ElementProofs TraceProofs
  PropsRescale ParaxialModel ParaxialProofs FirstOrder.
Import ListNotations.
Open Scope R_scope.

Ltac lin_value := eapply lin_eq; [solve [lin_auto]| |reflexivity].

Lemma intercept_lin s d Y U dy du : s_alt s = false -> (s_c s = 0 \/ 1 + s_k s <> 0) ->
  vlin Y (V 0 0 (- d)) dy -> vlin U ez du ->
  exists t', olin (fun e => conic_intercept s (Y e) (U e)) d t'.
Proof.
  intros AL NP (Yx & Yy & Yz) (Ux & Uy & Uz). cbn [vx vy vz ez] in *. unfold conic_intercept. rewrite AL.
  destruct (Req_EM_T (s_c s) 0) as [C|C].
  - eexists. eapply olin_eq; [eapply olin_fdiv; [eapply lin_opp; exact Yz|exact Uz|lra]|field|reflexivity].
  - assert (K : 1 + s_k s <> 0) by tauto.
    destruct (Req_EM_T (s_k s) 0) as [Z|Z].
    + unfold dot. cbv zeta. eexists.
      eapply olin_eq; [eapply olin_bind|..].
      * eapply olin_eq; [eapply olin_fsqrt; [eapply lin_eq; [solve [lin_auto]| |reflexivity]|]|..]; [instantiate (1 := 1); ring|lra|apply sqrt_1|reflexivity].
      * intros g G. eapply olin_fdiv; [solve [lin_auto]|apply lin_const|]. lra.
      * field. auto.
      * reflexivity.
    + cbv zeta. eexists. eapply olin_eq; [eapply olin_bind|..].
      * eapply olin_eq; [eapply olin_fsqrt; [eapply lin_eq; [solve [lin_auto]| |reflexivity]|]|..]; [instantiate (1 := 1); ring|lra|apply sqrt_1|reflexivity].
      * intros g G. eapply olin_fdiv; [solve [lin_auto]|eapply lin_eq; [solve [lin_auto]| |reflexivity]|]; [instantiate (1 := s_c s * (1 + s_k s)); ring|].
        apply Rmult_integral_contrapositive. auto.
      * field. auto.
      * reflexivity.
Qed.

Lemma plane_lin d Y U dy du : vlin Y (V 0 0 (- d)) dy -> vlin U ez du ->
  exists t', olin (fun e => plane_intercept (Y e) (U e)) d t'.
Proof.
  intros (Yx & Yy & Yz) (Ux & Uy & Uz). cbn [vx vy vz ez] in *. eexists. unfold plane_intercept.
  eapply olin_eq; [eapply olin_fdiv; [eapply lin_opp; exact Yz|exact Uz|lra]|field|reflexivity].
Qed.

Lemma at_ray_lin d T t' Y U dy du : lin T d t' -> vlin Y (V 0 0 (- d)) dy -> vlin U ez du ->
  exists z, vlin (fun e => at_ray (Y e) (U e) (T e)) v0 (V (vx dy + d * vx du) (vy dy + d * vy du) z).
Proof.
  intros LT (Yx & Yy & Yz) (Ux & Uy & Uz). cbn [vx vy vz ez] in *. unfold at_ray, vadd3, vmul3.
  eexists. split; [|split]; cbn [vx vy vz v0].
  - eapply lin_eq; [solve [lin_auto]|ring|ring].
  - eapply lin_eq; [solve [lin_auto]|ring|ring].
  - eapply lin_eq; [solve [lin_auto]|ring|reflexivity].
Qed.

Lemma normal_lin s Y dy : s_asph s = None -> vlin Y v0 dy ->
  exists z, ovlin (fun e => surface_normal s (Y e)) ez (V (- s_c s * vx dy) (- s_c s * vy dy) z).
Proof.
  intros A (Yx & Yy & Yz). cbn [vx vy vz v0] in *. unfold surface_normal. rewrite A. exists 0.
  destruct (Req_EM_T (s_c s) 0) as [C|C].
  - rewrite C. apply ovlin_some. split; [|split]; cbn [vx vy vz ez]; (eapply lin_eq; [apply lin_const|ring|ring]).
  - unfold r2_of. cbv zeta.
    eapply ovlin_olin_bind.
    + eapply olin_eq; [eapply olin_fsqrt; [eapply lin_eq; [solve [lin_auto]| |reflexivity]|]|..];
        [instantiate (1 := 1); ring|lra|apply sqrt_1|reflexivity].
    + intros w W. eapply ovlin_olin_bind.
      * eapply olin_fdiv; [apply lin_const|exact W|lra].
      * intros q Q. apply ovlin_some. split; [|split]; cbn [vx vy vz ez].
        -- eapply lin_eq; [solve [lin_auto]|ring|field; rewrite ?sqrt_1; lra].
        -- eapply lin_eq; [solve [lin_auto]|ring|field; rewrite ?sqrt_1; lra].
        -- apply lin_const.
Qed.

Lemma refract_lin N U dn du mu : 0 < mu -> vlin N ez dn -> vlin U ez du ->
  exists z, ovlin (fun e => refract_normal (U e) (N e) mu) ez
    (V (mu * vx du + (1 - mu) * vx dn) (mu * vy du + (1 - mu) * vy dn) z).
Proof.
  intros M (Nx & Ny & Nz) (Ux & Uy & Uz). cbn [vx vy vz ez] in *. unfold refract_normal.
  rewrite Rabs_pos_eq by lra. destruct (Req_EM_T mu (-1)); [lra|].
  assert (S : sign mu = 1) by (unfold sign; destruct (Rlt_dec 0 mu); lra). rewrite S.
  unfold dot. cbv zeta. eexists.
  eapply ovlin_olin_bind.
  { eapply olin_eq; [eapply olin_fdiv; [solve [lin_auto]|solve [lin_auto]|lra]|..].
    - instantiate (1 := mu). field.
    - reflexivity. }
  intros a A. eapply ovlin_olin_bind.
  { eapply olin_eq; [eapply olin_fdiv; [apply lin_const|solve [lin_auto]|lra]|..].
    - instantiate (1 := mu ^ 2 - 1). field.
    - reflexivity. }
  intros b B. eapply ovlin_olin_bind.
  { eapply olin_eq; [eapply olin_fsqrt; [eapply lin_eq; [solve [lin_auto]| |reflexivity]|]|..];
        [instantiate (1 := 1); ring|lra|apply sqrt_1|reflexivity]. }
  intros q Q. apply ovlin_some. unfold vadd3, vmul3. split; [|split]; cbn [vx vy vz ez].
  - eapply lin_eq; [solve [lin_auto]|ring|ring].
  - eapply lin_eq; [solve [lin_auto]|ring|ring].
  - eapply lin_eq; [solve [lin_auto]|ring|reflexivity].
Qed.

Lemma reflect_lin N U dn du : vlin N ez dn -> vlin U ez du ->
  exists z, ovlin (fun e => refract_normal (U e) (N e) (-1)) (V 0 0 (-1))
    (V (vx du - 2 * vx dn) (vy du - 2 * vy dn) z).
Proof.
  intros (Nx & Ny & Nz) (Ux & Uy & Uz). cbn [vx vy vz ez] in *. unfold refract_normal.
  replace (Rabs (-1)) with 1 by (rewrite Rabs_left; lra). destruct (Req_EM_T (-1) (-1)); [|lra].
  unfold dot. cbv zeta. eexists.
  eapply ovlin_olin_bind.
  { eapply olin_eq; [eapply olin_fdiv; [solve [lin_auto]|solve [lin_auto]|lra]|..].
    - instantiate (1 := 1). field.
    - reflexivity. }
  intros a A. apply ovlin_some. unfold vsub3, vmul3. split; [|split]; cbn [vx vy vz].
  - eapply lin_eq; [solve [lin_auto]|ring|ring].
  - eapply lin_eq; [solve [lin_auto]|ring|ring].
  - eapply lin_eq; [solve [lin_auto]|ring|reflexivity].
Qed.

(** ** centred refracting systems *)
Definition centred (e : element) : Prop :=
  updated (e_place e) /\ p_direction (e_place e) = ez /\ p_angles (e_place e) = v0.
(** conic refracting surface (or plain element) with a finite axial intersection
    and, if rays are clipped, a non-zero aperture *)
Definition conic_refracting (l : R) (c : bool) (e : element) : Prop :=
  (c = true -> e_radius e <> Some 0) /\
  match e_kind e with
  | Plain => True
  | Sph m s => s_asph s = None /\ s_alt s = false /\ (s_c s = 0 \/ 1 + s_k s <> 0) /\
      match m with None => True | Some m => m_mirror m = false /\ 0 < m_index m l end
  end.

Lemma allclose_refl_ez : allclose ez ez = true.
Proof.
  apply allclose_ez. unfold ez, tol; cbn [vx vy vz]. rewrite Rabs_R0. unfold Rminus.
  rewrite Rplus_opp_r, Rabs_R0. lra.
Qed.
Lemma allclose_refl_v0 : allclose v0 v0 = true.
Proof. apply allclose_v0. unfold v0, tol; cbn [vx vy vz]. rewrite Rabs_R0. lra. Qed.

Lemma centred_frame e : centred e -> 0 <= p_distance (e_place e) /\
  p_offset (e_place e) = V 0 0 (p_distance (e_place e)) /\
  (forall y, to_normal (e_place e) y = Some y) /\ (forall y, from_normal (e_place e) y = Some y).
Proof.
  intros (U & D & A). destruct (updated_fix _ U) as ((P & _ & O) & (S & N & _) & _).
  rewrite D in S. rewrite A in N. rewrite allclose_refl_ez in S. rewrite allclose_refl_v0 in N.
  split; [auto|]. split; [rewrite O, D; apply vec_eq; unfold ez; cbn; ring|].
  assert (R : p_rotated (e_place e) = false) by (unfold p_rotated; rewrite N, S; reflexivity).
  unfold to_normal, from_normal, do_rotate. rewrite R. auto.
Qed.

Lemma clip_lin r c Y U dy : (c = true -> r <> Some 0) -> vlin Y v0 dy ->
  near (fun e => (if c then clip r (Some (Y e)) (Some (U e)) else Some (U e)) = Some (U e)).
Proof.
  intros R (Yx & Yy & Yz). cbn [vx vy vz v0] in *. destruct c; [|apply near_true; auto].
  unfold clip. destruct r as [r|]; [|apply near_true; auto].
  assert (RR : 0 < r * r). { assert (r <> 0) by (intros ->; apply R; auto). apply Rsqr_pos_lt in H. exact H. }
  eapply near_impl; [|eapply (lin_bound (fun e => r2_of (Y e)) 0 _ (r * r))].
  - intros e H. cbn beta in H. destruct (Rle_dec _ _); [auto|lra].
  - unfold r2_of. eapply lin_eq; [solve [lin_auto]|ring|reflexivity].
  - auto.
Qed.

(** refraction term, zero if there is no material *)
Definition power (e : element) (n0 l : R) : R :=
  match e_kind e with
  | Sph (Some m) s => (n0 - m_index m l) * s_c s
  | _ => 0
  end.

Lemma element_lin newton e l c n0 Y U dy du : centred e -> conic_refracting l c e -> 0 < n0 ->
  let d := p_distance (e_place e) in
  vlin Y (V 0 0 (- d)) dy -> vlin U ez du ->
  exists Y' U' T dz uz, near (fun h => propagate newton e (Some (Y h)) (Some (U h)) n0 l c =
      (Some (Y' h), Some (U' h), index_after e n0 l, Some (T h))) /\
    vlin Y' v0 (V (vx dy + d * vx du) (vy dy + d * vy du) dz) /\
    vlin U' ez (V ((n0 * vx du + power e n0 l * (vx dy + d * vx du)) / index_after e n0 l)
                  ((n0 * vy du + power e n0 l * (vy dy + d * vy du)) / index_after e n0 l) uz) /\
    0 < index_after e n0 l.
Proof.
  intros CE (CR & CK) N0 d LY LU. unfold propagate, power, index_after.
  assert (INT : exists t', olin (fun h => match e_kind e with
      | Plain => plane_intercept (Y h) (U h) | Sph _ s => intercept newton s (Y h) (U h) end) d t').
  { destruct (e_kind e) as [|m s].
    - eapply plane_lin; eauto.
    - destruct CK as (A & AL & NP & _). unfold intercept. rewrite A. eapply intercept_lin; eauto. }
  destruct INT as (t' & T & LT & NT).
  destruct (at_ray_lin d T t' Y U dy du LT LY LU) as (dz & LY').
  set (Y' := fun h => at_ray (Y h) (U h) (T h)) in *.
  pose proof (clip_lin (e_radius e) c Y' U _ CR LY') as NC.
  destruct (e_kind e) as [|m s].
  - exists Y', U, (fun h => T h * n0), dz, (vz du). split; [|split; [|split]]; auto.
    + eapply near_impl; [|exact (near_and _ _ NT NC)]. intros h (H1 & H2). cbn [obind] in *.
      rewrite H1. cbn [obind]. fold (Y' h). rewrite H2. reflexivity.
    + replace (V _ _ _) with du; [auto|]. apply vec_eq; cbn; field; lra.
  - destruct CK as (A & AL & NP & CM). destruct m as [m|].
    + destruct CM as (MI & MP). unfold get_n_mu. rewrite MI, fdiv_some by lra.
      assert (MU : 0 < n0 / m_index m l) by (apply Rdiv_lt_0_compat; auto).
      destruct (Req_EM_T (n0 / m_index m l) 1) as [E1|E1].
      * assert (EN : n0 = m_index m l).
        { apply (f_equal (fun z => z * m_index m l)) in E1.
          replace (n0 / m_index m l * m_index m l) with n0 in E1 by (field; lra). lra. }
        exists Y', U, (fun h => T h * n0), dz, (vz du). split; [|split; [|split]]; auto.
        -- eapply near_impl; [|exact (near_and _ _ NT NC)]. intros h (H1 & H2). cbn [obind] in *.
           rewrite H1. cbn [obind]. fold (Y' h). rewrite H2.
           destruct (Req_EM_T (n0 / m_index m l) 0); [lra|]. unfold refract.
           destruct (Req_EM_T (n0 / m_index m l) 1); [|contradiction]. reflexivity.
        -- replace (V _ _ _) with du; [auto|]. rewrite <- EN. apply vec_eq; cbn; field; lra.
      * destruct (normal_lin s Y' _ A LY') as (nz & NN & LN & NNear).
        destruct (refract_lin NN U _ du (n0 / m_index m l) MU LN LU) as (uz & U' & LU' & UNear).
        exists Y', U', (fun h => T h * n0), dz, uz. split; [|split; [|split]]; auto.
        -- eapply near_impl; [|exact (near_and _ _ (near_and _ _ NT NC) (near_and _ _ NNear UNear))].
           intros h ((H1 & H2) & (H3 & H4)). cbn [obind] in *.
           rewrite H1. cbn [obind]. fold (Y' h). rewrite H2.
           destruct (Req_EM_T (n0 / m_index m l) 0); [lra|]. unfold refract.
           destruct (Req_EM_T (n0 / m_index m l) 1); [contradiction|]. cbn [obind]. rewrite H3. cbn [obind].
           rewrite H4. reflexivity.
        -- match goal with H : vlin U' ez ?a |- vlin U' ez ?b => replace b with a; [exact H|] end.
           apply vec_eq; cbn [vx vy vz]; [field; lra|field; lra|reflexivity].
    + exists Y', U, (fun h => T h * n0), dz, (vz du). split; [|split; [|split]]; auto.
      * eapply near_impl; [|exact (near_and _ _ NT NC)]. intros h (H1 & H2). cbn [obind get_n_mu] in *.
        rewrite H1. cbn [obind]. fold (Y' h). rewrite H2.
        destruct (Req_EM_T 1 0); [lra|]. unfold refract. destruct (Req_EM_T 1 1); [reflexivity|lra].
      * replace (V _ _ _) with du; [auto|]. apply vec_eq; cbn; field; lra.
Qed.

Definition flip4 : m4 := azimuth_matrix 0.
Ltac lit4 := unfold mv4, dot4; cbn [q0 q1 q2 q3 w0 w1 w2 w3]; apply v4_eq; cbn [w0 w1 w2 w3]; ring.
Lemma flip4_mv a b p q : mv4 flip4 (V4 a b p q) = V4 a (- b) p (- q).
Proof. unfold flip4, azimuth_matrix. rewrite sin_0, cos_0. lit4. Qed.
Lemma flip4_T : mT4 flip4 = flip4.
Proof.
  unfold flip4, azimuth_matrix. rewrite sin_0, cos_0. unfold mT4. cbn [q0 q1 q2 q3 w0 w1 w2 w3].
  apply m4_eq; cbn [q0 q1 q2 q3]; apply v4_eq; cbn [w0 w1 w2 w3]; ring.
Qed.
Lemma transfer_mv t a b p q :
  mv4 (M4 (V4 1 0 t 0) (V4 0 1 0 t) (V4 0 0 1 0) (V4 0 0 0 1)) (V4 a b p q) = V4 (a + t * p) (b + t * q) p q.
Proof. lit4. Qed.
Lemma lens_mv f g i k a b p q :
  mv4 (M4 (V4 1 0 0 0) (V4 0 f 0 0) (V4 g 0 1 0) (V4 0 i 0 k)) (V4 a b p q) = V4 a (f * b) (g * a + p) (i * b + k * q).
Proof. lit4. Qed.

Lemma matrix_centred e l c n0 : centred e -> conic_refracting l c e -> 0 < n0 ->
  exists m, paraxial_matrix e n0 l = (index_after e n0 l, Some m) /\
  forall a b p q, 
    let a' := a + p_distance (e_place e) / n0 * p in let b' := b + p_distance (e_place e) / n0 * q in
    mv4 m (V4 a b p q) = V4 a' b' (p + power e n0 l * a') (q + power e n0 l * b').
Proof.
  destruct e as [pl rad kd]. intros (_ & _ & AN) (_ & CK) N0. cbn [e_place e_kind] in *.
  unfold paraxial_matrix, power, transfer_matrix, index_after. cbn [e_place e_kind].
  rewrite fdiv_some by lra. cbn [obind].
  destruct kd as [|mt s].
  - eexists; split; [reflexivity|]. intros. rewrite transfer_mv.
    apply v4_eq; cbn [w0 w1 w2 w3]; cbn [e_place]; ring.
  - destruct CK as (A & AL & NP & CM). unfold vertex_curvature. rewrite A. cbn [obind]. rewrite AN. cbn [vx vz v0].
    fold flip4. rewrite flip4_T, cos_0. unfold refraction_matrix. destruct mt as [mt|].
    + destruct CM as (MI & MP). rewrite MI. set (n := m_index mt l) in *.
      assert (MU : 0 < n / n0) by (apply Rdiv_lt_0_compat; auto).
      assert (S : sqrt ((n / n0) ^ 2 + 1 ^ 2 - 1) = n / n0).
      { replace ((n / n0) ^ 2 + 1 ^ 2 - 1) with ((n / n0) * (n / n0)) by ring. apply sqrt_square. lra. }
      rewrite fdiv_some by lra. cbn [obind]. rewrite fsqrt_some by nra. cbn [obind]. rewrite S.
      rewrite fdiv_some by lra. cbn [obind]. rewrite fdiv_some by lra. cbn [obind].
      replace (n / n0 / (n / n0 * 1)) with 1 by (field; lra). rewrite fdiv_some by lra. cbn [obind].
      eexists; split; [reflexivity|]. intros. rewrite !mv4_mm4.
      rewrite flip4_mv, transfer_mv, lens_mv, flip4_mv.
      apply v4_eq; cbn [w0 w1 w2 w3]; cbn [e_place e_kind]; field; lra.
    + cbn [obind]. eexists; split; [reflexivity|]. intros. rewrite mm4_eye_l, !mv4_mm4.
      rewrite flip4_mv, transfer_mv, flip4_mv.
      apply v4_eq; cbn [w0 w1 w2 w3]; cbn [e_place]; ring.
Qed.

(** the whole system *)
Lemma system_lin newton es : forall l c n Y U dy du, Forall centred es -> Forall (conic_refracting l c) es -> 0 < n ->
  vlin Y v0 dy -> vlin U ez du ->
  forall j, (j < length es)%nat ->
  exists a b p q nj, nth_error (sys_paraxial es (Some (V4 (vx dy) (vy dy) (n * vx du) (n * vy du))) n l) j
      = Some (Some (V4 a b p q), nj) /\ 0 < nj /\
    exists Yj Uj dz uz, vlin Yj v0 (V a b dz) /\ vlin Uj ez (V (p / nj) (q / nj) uz) /\
      near (fun h => exists s, nth_error (sys_propagate newton es (Some (Y h)) (Some (U h)) n l c) j = Some s /\
        st_y s = Some (Yj h) /\ st_u s = Some (Uj h) /\ st_n s = nj).
Proof.
  induction es as [|e es IH]; intros l c n Y U dy du FC FR N LY LU j J; [cbn in J; lia|].
  inversion FC as [|? ? CE CS]; subst. inversion FR as [|? ? RE RS]; subst.
  destruct (centred_frame e CE) as (DP & OF & TN & FN).
  set (d := p_distance (e_place e)) in *.
  set (Y1 := fun h => vsub3 (Y h) (V 0 0 d)).
  assert (LY1 : vlin Y1 (V 0 0 (- d)) dy).
  { destruct LY as (Yx & Yy & Yz). unfold Y1, vsub3. cbn [vx vy vz v0] in *.
    split; [|split]; cbn [vx vy vz]; (eapply lin_eq; [solve [lin_auto]|ring|ring]). }
  destruct (element_lin newton e l c n Y1 U dy du CE RE N LY1 LU) as (Y' & U' & T & dz & uz & NE & LY' & LU' & NP).
  fold d in LY', LU'.
  destruct (matrix_centred e l c n CE RE N) as (m & PM & MV).
  cbn [sys_paraxial]. unfold propagate_paraxial. rewrite PM. cbn [obind]. rewrite MV. cbv zeta. fold d.
  set (n1 := index_after e n l) in *.
  set (a' := vx dy + d / n * (n * vx du)). set (b' := vy dy + d / n * (n * vy du)).
  assert (EA : vx dy + d * vx du = a') by (unfold a'; field; lra).
  assert (EB : vy dy + d * vy du = b') by (unfold b'; field; lra).
  rewrite EA, EB in *.
  assert (STEP : forall h, propagate newton e (Some (Y1 h)) (Some (U h)) n l c = (Some (Y' h), Some (U' h), n1, Some (T h)) ->
    sys_propagate newton (e :: es) (Some (Y h)) (Some (U h)) n l c =
    Step (Some (Y' h)) (Some (U' h)) n1 (Some (U h)) (Some (T h)) :: sys_propagate newton es (Some (Y' h)) (Some (U' h)) n1 l c).
  { intros h H. cbn [sys_propagate onormal obind]. rewrite OF, !TN. fold (Y1 h). cbn [obind]. rewrite H.
    cbn [onormal obind]. rewrite !FN. reflexivity. }
  destruct j as [|j].
  - cbn [nth_error]. do 5 eexists. split; [reflexivity|]. split; [auto|].
    exists Y', U', dz, uz. split; [auto|]. split; [auto|].
    eapply near_impl; [|exact NE]. intros h H. cbn beta in H. rewrite (STEP h H).
    cbn [nth_error]. eexists; split; [reflexivity|]. cbn. auto.
  - cbn [nth_error]. cbn [length] in J.
    destruct (IH l c n1 Y' U' _ _ CS RS NP LY' LU' j ltac:(lia)) as (a & b & p & q & nj & SP & NJ & Yj & Uj & dz' & uz' & L1 & L2 & NN).
    cbn [vx vy vz] in SP.
    replace (n1 * ((n * vx du + power e n l * a') / n1)) with (n * vx du + power e n l * a') in SP by (field; lra).
    replace (n1 * ((n * vy du + power e n l * b') / n1)) with (n * vy du + power e n l * b') in SP by (field; lra).
    exists a, b, p, q, nj. split; [exact SP|]. split; [auto|].
    exists Yj, Uj, dz', uz'. split; [auto|]. split; [auto|].
    eapply near_impl; [|exact (near_and _ _ NE NN)]. intros h (H1 & (s & H2 & H3)). cbn beta in H1.
    rewrite (STEP h H1). exists s. auto.
Qed.
