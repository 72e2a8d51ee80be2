(** Third order expansion of the exact trace through a centred conic surface. *)
From Coq Require Import Reals List Lra Lia Psatz.
From Verif Require Import Base Vec RotModel PlacementModel PlacementProofs ElementModel ElementProofs TraceProofs
  PropsElement ParaxialModel FirstOrder LimitProofs ThirdOrder ParaxTraceModel SeidelModel.
Import ListNotations.
Open Scope R_scope.

Definition curv (e : element) : R := match e_kind e with Plain => 0 | Sph _ s => s_c s end.
Definition coni (e : element) : R := match e_kind e with Plain => 0 | Sph _ s => s_k s end.
Lemma fsqrt_val x w : fsqrt x = Some w -> w = sqrt x.
Proof. unfold fsqrt. destruct (Rle_dec 0 x); intros H; inversion H; auto. Qed.
(** slope of the surface over the radius, negative *)
Definition grade (c k : R) (p : vec) : R := - (c / sqrt (1 - (1 + k) * c ^ 2 * r2_of p)).

Lemma power_curv e n l : power e n l = (n - index_after e n l) * curv e.
Proof. unfold power, index_after, curv. destruct (e_kind e) as [|[m|] s]; ring. Qed.

(** what one successful propagation says *)
Lemma propagate_facts newton e l c n Y U Y' U' T : conic_refracting l c e -> 0 < n -> dot U U = 1 ->
  propagate newton e (Some Y) (Some U) n l c = (Some Y', Some U', index_after e n l, Some T) ->
  (exists t, Y' = at_ray Y U t) /\ conic_set (curv e) (coni e) Y' /\ dot U' U' = 1 /\
  index_after e n l * vx U' - n * vx U = (index_after e n l * vz U' - n * vz U) * (grade (curv e) (coni e) Y' * vx Y') /\
  index_after e n l * vy U' - n * vy U = (index_after e n l * vz U' - n * vz U) * (grade (curv e) (coni e) Y' * vy Y').
Proof.
  intros (_ & CK) N UU E.
  assert (CL : forall r Y u x, (if c then clip r Y (Some u) else Some u) = Some x -> x = u).
  { intros r Z u x. destruct c; [|intros H; injection H; auto]. unfold clip. destruct Z; [|discriminate]. destruct r as [r|]; [|intros H; injection H; auto]. destruct (Rle_dec _ _); [intros H; injection H; auto|discriminate]. }
  unfold propagate, index_after, curv, coni in *. cbn [obind] in E. destruct (e_kind e) as [|m s].
  - destruct (plane_intercept Y U) as [t|] eqn:P; [|cbn [obind] in E; congruence]. cbn [obind] in E. injection E as E1 E2 E3. subst Y'. apply (CL (e_radius e) (Some (at_ray Y U t)) U U') in E2. subst U'.
    unfold plane_intercept in P. apply fdiv_inv in P. destruct P as (P & ->).
    split; [eauto|]. split; [unfold conic_set, at_ray, vadd3, vmul3; cbn; field; auto|]. split; [auto|]. split; ring.
  - destruct CK as (A & AL & NP & CM). unfold intercept in E. rewrite A in E.
    destruct (conic_intercept s Y U) as [t|] eqn:P; [|destruct (get_n_mu m n l); cbn [obind] in E; congruence]. cbn [obind] in E.
    pose proof (C13_on_surface s Y U t UU P) as ON.
    assert (SAME : forall n', n' = n -> U' = U -> dot U' U' = 1 /\
      n' * vx U' - n * vx U = (n' * vz U' - n * vz U) * (grade (s_c s) (s_k s) (at_ray Y U t) * vx (at_ray Y U t)) /\
      n' * vy U' - n * vy U = (n' * vz U' - n * vz U) * (grade (s_c s) (s_k s) (at_ray Y U t) * vy (at_ray Y U t))).
    { intros n' -> ->. split; [auto|]. split; ring. }
    destruct m as [m|]; cbn [get_n_mu] in E.
    + destruct CM as (MI & MP). rewrite MI in E. rewrite fdiv_some in E by lra.
      assert (MU : 0 < n / m_index m l) by (apply Rdiv_lt_0_compat; auto). destruct (Req_EM_T (n / m_index m l) 0); [lra|].
      injection E as E1 E2 E3. subst Y'. split; [eauto|]. split; [auto|]. unfold refract in E2. destruct (Req_EM_T (n / m_index m l) 1) as [E1|E1].
      * apply (CL (e_radius e) (Some (at_ray Y U t)) U U') in E2. apply SAME; [|auto]. apply (f_equal (fun z => z * m_index m l)) in E1. replace (n / m_index m l * m_index m l) with n in E1 by (field; lra). lra.
      * cbn [obind] in E2. destruct (if c then _ else _) as [u|] eqn:CU; [|discriminate]. apply (CL (e_radius e) (Some (at_ray Y U t)) U u) in CU. subst u. cbn [obind] in E2.
        destruct (surface_normal s (at_ray Y U t)) as [r|] eqn:SN; [|discriminate]. cbn [obind] in E2.
        assert (R : r = V (vx (at_ray Y U t) * grade (s_c s) (s_k s) (at_ray Y U t)) (vy (at_ray Y U t) * grade (s_c s) (s_k s) (at_ray Y U t)) 1).
        { unfold surface_normal in SN. rewrite A in SN. destruct (Req_EM_T (s_c s) 0) as [C|C].
          - injection SN as <-. unfold grade. rewrite C. unfold Rdiv. apply vec_eq; cbn [vx vy vz]; ring.
          - destruct (fsqrt _) as [w|] eqn:W; [|discriminate]. cbn [obind] in SN. apply fsqrt_val in W. subst w.
            destruct (fdiv _ _) as [q|] eqn:Q; [|discriminate]. cbn [obind] in SN. apply fdiv_inv in Q. destruct Q as (Q1 & ->).
            apply (f_equal (fun o => match o with Some x => x | None => r end)) in SN. cbv beta iota in SN. rewrite <- SN.
            unfold grade. apply vec_eq; cbn [vx vy vz]; ring. }
        assert (RN : r <> v0) by (rewrite R; intros H; apply (f_equal vz) in H; cbn in H; lra).
        destruct (refract_normal_pos U r (n / m_index m l) UU RN MU) as (H1 & H2).
        destruct (Rle_lt_dec ((n / m_index m l) ^ 2 * dot (cross U r) (cross U r)) (dot r r)) as [LE|LT]; [|rewrite (H2 LT) in E2; discriminate].
        destruct (H1 LE) as (q & Q0 & QQ & RF). rewrite RF in E2. injection E2 as <-.
        assert (RR : dot r r <> 0).
        { rewrite R. unfold dot; cbn [vx vy vz]. match goal with |- ?a * ?a + ?b * ?b + 1 * 1 <> 0 => pose proof (Rle_0_sqr a); pose proof (Rle_0_sqr b) end. unfold Rsqr in *. lra. }
        split; [apply (proj1 (refracted_unit U r (n / m_index m l) q UU RR QQ))|].
        set (g := - (n / m_index m l * dot U r / dot r r) + q). clearbody g. unfold vadd3, vmul3. rewrite R. cbn [vx vy vz]. split; field; lra.
    + destruct (Req_EM_T 1 0); [lra|]. unfold refract in E. destruct (Req_EM_T 1 1); [|lra]. injection E as E1 E2 E3. subst Y'. apply (CL (e_radius e) (Some (at_ray Y U t)) U U') in E2.
      split; [eauto|]. split; [auto|]. apply SAME; auto.
Qed.

(** expansion coefficients behind the surface, one transverse component; [r2], [w2], [w2'] are the squared
    heights and slopes times index of the first order ray *)
Section Component.
Variables (n n' c k r2 w2 w2' : R).
Definition z_coef := c * r2 / 2.
Definition a_coef := - w2 / (2 * n * n).
Definition a_coef' := - w2' / (2 * n' * n').
Definition s_coef (p1 v0 : R) := p1 + z_coef * v0 / n.
Definition new_v0 (p0 v0 : R) := v0 + (n - n') * c * p0.
Definition q_coef (p0 p1 v0 v1 : R) :=
  (n * (v1 / n + v0 / n * a_coef) - (n' - n) * c * s_coef p1 v0
   - (n' - n) * (c * ((1 + k) * c ^ 2 * r2 / 2)) * p0 - (n' * a_coef' - n * a_coef) * c * p0) / n'.
Definition new_v1 (p0 p1 v0 v1 : R) := n' * q_coef p0 p1 v0 v1 - new_v0 p0 v0 * a_coef'.
Definition new_p1 (p0 p1 v0 : R) := s_coef p1 v0 - z_coef * new_v0 p0 v0 / n'.

Lemma comp_jet (P W Z UZ UZ' G Q' : R -> R) p0 p1 v0 v1 : 0 < n -> 0 < n' ->
  jet P p0 p1 -> jet W v0 v1 -> tends (fun h => Z h / (h * h)) z_coef -> jet UZ 1 a_coef -> jet UZ' 1 a_coef' ->
  jet G (- c) (- (c * ((1 + k) * c ^ 2 * r2 / 2))) ->
  let S := fun h => P h + Z h * W h / n in
  nearly (fun h => n' * Q' h - W h * UZ h = (n' * UZ' h - n * UZ h) * (G h * S h)) ->
  let W' := fun h => n' * Q' h / UZ' h in
  jet S p0 (s_coef p1 v0) /\ jet W' (new_v0 p0 v0) (new_v1 p0 p1 v0 v1) /\
  jet (fun h => S h - Z h * W' h / n') p0 (new_p1 p0 p1 v0).
Proof.
  intros N N' JP JW TZ JU JU' JG S SN W'.
  assert (JZ : jet Z 0 z_coef).
  { eapply jet_ext; [|apply (jet_h2 _ _ TZ)]. apply all_nearly. intros h H. cbn. field. auto. }
  assert (JS : jet S p0 (s_coef p1 v0)).
  { unfold S. eapply jet_eq; [eapply jet_plus; [exact JP|eapply jet_div; [eapply jet_mult; [exact JZ|exact JW]|apply (jet_const n)|lra]]|field; lra|unfold s_coef; field; lra]. }
  assert (JQ : jet Q' (new_v0 p0 v0 / n') (q_coef p0 p1 v0 v1)).
  { apply (jet_ext (fun h => ((n' * UZ' h - n * UZ h) * (G h * S h) + W h * UZ h) / n')).
    - eapply nearly_impl; [|exact SN]. intros h _ H. cbn in H. rewrite <- H. field. lra.
    - eapply jet_eq; [eapply jet_div; [solve [jet_auto]|apply (jet_const n')|lra]| |].
      + unfold new_v0. field. lra.
      + unfold q_coef. field. lra. }
  assert (JW' : jet W' (new_v0 p0 v0) (new_v1 p0 p1 v0 v1)).
  { unfold W'. eapply jet_eq; [eapply jet_div; [eapply jet_mult; [apply (jet_const n')|exact JQ]|exact JU'|lra]|field; lra|unfold new_v1; field; lra]. }
  split; [exact JS|]. split; [exact JW'|].
  eapply jet_eq; [eapply jet_minus; [exact JS|eapply jet_div; [eapply jet_mult; [exact JZ|exact JW']|apply (jet_const n')|lra]]|field; lra|unfold new_p1; field; lra].
Qed.
End Component.

(** ray family through the vertex plane: height over h is [a + b h^2], index times tangent over h is [p + q h^2] *)
Record third (Y U : R -> vec) (n ax ay bx by_ px py qx qy : R) : Prop := Third {
  th_y : exists dz, vlin Y v0 (V ax ay dz);
  th_u : exists uz, vlin U ez (V (px / n) (py / n) uz);
  th_unit : near (fun h => dot (U h) (U h) = 1);
  th_px : jet (fun h => (vx (Y h) - vz (Y h) * (vx (U h) / vz (U h))) / h) ax bx;
  th_py : jet (fun h => (vy (Y h) - vz (Y h) * (vy (U h) / vz (U h))) / h) ay by_;
  th_vx : jet (fun h => n * (vx (U h) / vz (U h)) / h) px qx;
  th_vy : jet (fun h => n * (vy (U h) / vz (U h)) / h) py qy }.

Lemma unit_z x y z : x * x + y * y + z * z = 1 -> 0 < z -> z = / sqrt (1 + (x / z) * (x / z) + (y / z) * (y / z)) /\ z = sqrt (1 - (x * x + y * y)).
Proof.
  intros E P. split.
  - replace (1 + (x / z) * (x / z) + (y / z) * (y / z)) with (/ z * / z).
    + rewrite sqrt_square; [field; lra|]. apply Rlt_le, Rinv_0_lt_compat; auto.
    + apply (Rmult_eq_reg_r (z * z)); [|nra]. transitivity 1; [field; lra|]. transitivity (x * x + y * y + z * z); [auto|field; lra].
  - replace (1 - (x * x + y * y)) with (z * z) by lra. rewrite sqrt_square; lra.
Qed.
Lemma tends_zero_div f b : tends (fun h => (f h - 0) / h) b -> tends (fun h => f h / h) b.
Proof. intros H. eapply tends_ext; [|exact H]. apply all_nearly. intros h N. rewrite Rminus_0_r. reflexivity. Qed.

Lemma element_third newton e l c n Y U ax ay bx by_ px py qx qy : centred e -> conic_refracting l c e -> 0 < n ->
  third Y U n ax ay bx by_ px py qx qy ->
  let d := p_distance (e_place e) in let n' := index_after e n l in let C := curv e in let K := coni e in
  let ax1 := ax + d / n * px in let ay1 := ay + d / n * py in let bx1 := bx + d / n * qx in let by1 := by_ + d / n * qy in
  let px' := new_v0 n n' C ax1 px in let py' := new_v0 n n' C ay1 py in
  let r2 := ax1 * ax1 + ay1 * ay1 in let w2 := px * px + py * py in let w2' := px' * px' + py' * py' in
  exists Y' U' T, near (fun h => propagate newton e (Some (vsub3 (Y h) (V 0 0 d))) (Some (U h)) n l c =
      (Some (Y' h), Some (U' h), n', Some (T h))) /\ 0 < n' /\
    (C = 0 -> near (fun h => vz (Y' h) = 0)) /\
    third Y' U' n' ax1 ay1 (new_p1 n n' C r2 ax1 bx1 px) (new_p1 n n' C r2 ay1 by1 py)
      px' py' (new_v1 n n' C K r2 w2 w2' ax1 bx1 px qx) (new_v1 n n' C K r2 w2 w2' ay1 by1 py qy).
Proof.
  intros CE RE N [(dz0 & LY) (uz0 & LU) UU JPx JPy JVx JVy] d n' C K ax1 ay1 bx1 by1 px' py' r2 w2 w2'.
  set (Y1 := fun h => vsub3 (Y h) (V 0 0 d)).
  assert (LY1 : vlin Y1 (V 0 0 (- d)) (V ax ay dz0)).
  { destruct LY as (Yx & Yy & Yz). unfold Y1, vsub3. cbn [vx vy vz v0] in *.
    split; [|split]; cbn [vx vy vz]; (eapply lin_eq; [solve [lin_auto]|ring|ring]). }
  destruct (element_lin newton e l c n Y1 U _ _ CE RE N LY1 LU) as (Y' & U' & T & dz & uz & NE & LY' & LU' & NP).
  fold d n' in NE, LY', LU', NP. cbn [vx vy vz] in LY', LU'. rewrite power_curv in LU'. fold n' C in LU'.
  replace (ax + d * (px / n)) with ax1 in * by (unfold ax1; field; lra). replace (ay + d * (py / n)) with ay1 in * by (unfold ay1; field; lra).
  assert (LU2 : vlin U' ez (V (px' / n') (py' / n') uz)).
  { match goal with H : vlin U' ez ?a |- vlin U' ez ?b => replace b with a; [exact H|] end. unfold px', py', new_v0. apply vec_eq; cbn [vx vy vz]; field; lra. }
  clear LU'.
  assert (FACT : near (fun h => (exists t, Y' h = at_ray (Y1 h) (U h) t) /\ conic_set C K (Y' h) /\ dot (U' h) (U' h) = 1 /\
     n' * vx (U' h) - n * vx (U h) = (n' * vz (U' h) - n * vz (U h)) * (grade C K (Y' h) * vx (Y' h)) /\
     n' * vy (U' h) - n * vy (U h) = (n' * vz (U' h) - n * vz (U h)) * (grade C K (Y' h) * vy (Y' h)))).
  { eapply near_impl; [|exact (near_and _ _ NE UU)]. intros h (H1 & H2). exact (propagate_facts newton e l c n _ _ _ _ _ RE N H2 H1). }
  pose proof LU as (LUx & LUy & LUz). pose proof LU2 as (LUx' & LUy' & LUz'). pose proof LY' as (LYx & LYy & LYz). cbn [vx vy vz ez v0] in *.
  pose proof (lin_pos _ _ _ LUz Rlt_0_1) as PZ. pose proof (lin_pos _ _ _ LUz' Rlt_0_1) as PZ'.
  (* transferred heights *)
  set (P := fun (g : vec -> R) h => (g (Y1 h) - vz (Y1 h) * (g (U h) / vz (U h))) / h).
  set (W := fun (g : vec -> R) h => n * (g (U h) / vz (U h)) / h).
  assert (JPx1 : jet (P vx) ax1 bx1).
  { eapply jet_ext; [|eapply jet_eq; [eapply jet_plus; [exact JPx|eapply jet_mult; [apply (jet_const (d / n))|exact JVx]]|reflexivity|unfold bx1; ring]].
    apply near_nearly in PZ. eapply nearly_impl; [|exact PZ]. intros h NZ H. cbn in H. unfold P, Y1, vsub3. cbn [vx vy vz]. field. repeat split; lra. }
  assert (JPy1 : jet (P vy) ay1 by1).
  { eapply jet_ext; [|eapply jet_eq; [eapply jet_plus; [exact JPy|eapply jet_mult; [apply (jet_const (d / n))|exact JVy]]|reflexivity|unfold by1; ring]].
    apply near_nearly in PZ. eapply nearly_impl; [|exact PZ]. intros h NZ H. cbn in H. unfold P, Y1, vsub3. cbn [vx vy vz]. field. repeat split; lra. }
  (* heights on the surface *)
  destruct (lin_tends _ _ _ LYx) as (_ & Tx). destruct (lin_tends _ _ _ LYy) as (_ & Ty). destruct (lin_tends _ _ _ LYz) as (Tz & _).
  apply tends_zero_div in Tx. apply tends_zero_div in Ty.
  assert (TZ : tends (fun h => vz (Y' h) / (h * h)) (z_coef C r2)).
  { apply (tends_ext (fun h => C * (vx (Y' h) / h * (vx (Y' h) / h) + vy (Y' h) / h * (vy (Y' h) / h)) / (2 - C * (1 + K) * vz (Y' h)))).
    - assert (D2 : tends (fun h => 2 - C * (1 + K) * vz (Y' h)) 2).
      { apply (tends_eq _ (2 - C * (1 + K) * 0)); [|ring]. apply tends_minus; [apply tends_const|]. apply tends_mult; [apply tends_const|exact Tz]. }
      eapply nearly_impl; [|exact (nearly_and _ _ (near_nearly _ FACT) (tends_nonzero _ _ D2 ltac:(lra)))].
      intros h NZ ((_ & ON & _) & ND). cbn in ND. unfold conic_set in ON. apply (Rmult_eq_reg_r (h * h * (2 - C * (1 + K) * vz (Y' h)))).
      + transitivity (C * (vx (Y' h) * vx (Y' h) + vy (Y' h) * vy (Y' h))); [field; auto|]. transitivity (vz (Y' h) * (2 - C * (1 + K) * vz (Y' h))); [|field; auto]. lra.
      + repeat apply Rmult_integral_contrapositive_currified; auto.
    - apply (tends_eq _ (C * (ax1 * ax1 + ay1 * ay1) / (2 - C * (1 + K) * 0))); [|unfold z_coef, r2; field].
      apply tends_div; [|apply tends_minus; [apply tends_const|apply tends_mult; [apply tends_const|exact Tz]]|lra].
      apply tends_mult; [apply tends_const|]. apply tends_plus; apply tends_mult; auto. }
  (* vertical direction cosines *)
  assert (JU : jet (fun h => vz (U h)) 1 (a_coef n w2)).
  { apply (jet_ext (fun h => 1 / sqrt (1 + h * h * ((W vx h * W vx h + W vy h * W vy h) / (n * n))))).
    - eapply nearly_impl; [|exact (near_nearly _ (near_and _ _ UU PZ))]. intros h NZ (H1 & H2). cbn in H2. unfold dot in H1.
      destruct (unit_z _ _ _ H1 H2) as (HZ & _). rewrite HZ at 1. unfold Rdiv at 1. rewrite Rmult_1_l. f_equal. f_equal. unfold W. field. repeat split; lra.
    - eapply jet_eq.
      + eapply jet_div; [apply (jet_const 1)| |].
        * apply (jet_sqrt _ 1 (w2 / (n * n))); [|lra]. eapply jet_eq; [eapply jet_plus; [apply (jet_const 1)|apply jet_h2]|ring|].
          -- eapply tends_div; [apply tends_plus; apply tends_mult; [exact (proj1 JVx)|exact (proj1 JVx)|exact (proj1 JVy)|exact (proj1 JVy)]|apply (tends_const (n * n))|nra].
          -- unfold w2. field. lra.
        * rewrite sqrt_1. lra.
      + rewrite sqrt_1. field.
      + rewrite sqrt_1. unfold a_coef. field. lra. }
  destruct (lin_tends _ _ _ LUx') as (_ & Tux). destruct (lin_tends _ _ _ LUy') as (_ & Tuy). apply tends_zero_div in Tux. apply tends_zero_div in Tuy.
  assert (JU' : jet (fun h => vz (U' h)) 1 (a_coef' n' w2')).
  { apply (jet_ext (fun h => sqrt (1 - h * h * (vx (U' h) / h * (vx (U' h) / h) + vy (U' h) / h * (vy (U' h) / h))))).
    - eapply nearly_impl; [|exact (near_nearly _ (near_and _ _ FACT PZ'))]. intros h NZ ((_ & _ & H1 & _) & H2). cbn in H2. unfold dot in H1.
      destruct (unit_z _ _ _ H1 H2) as (_ & HZ). rewrite HZ at 1. f_equal. field. auto.
    - eapply jet_eq.
      + apply jet_sqrt; [|apply Rlt_0_1]. eapply jet_eq; [eapply jet_minus; [apply (jet_const 1)|apply jet_h2; apply tends_plus; apply tends_mult; [exact Tux|exact Tux|exact Tuy|exact Tuy]]|ring|reflexivity].
      + apply sqrt_1.
      + rewrite sqrt_1. unfold a_coef', w2'. field. lra. }
  (* slope of the surface *)
  assert (JG : jet (fun h => grade C K (Y' h)) (- C) (- (C * ((1 + K) * C ^ 2 * r2 / 2)))).
  { apply (jet_ext (fun h => 0 - C / sqrt (1 - h * h * ((1 + K) * C ^ 2 * (vx (Y' h) / h * (vx (Y' h) / h) + vy (Y' h) / h * (vy (Y' h) / h)))))).
    - apply all_nearly. intros h NZ. unfold grade. rewrite Rminus_0_l. f_equal. f_equal. f_equal. unfold r2_of. field. auto.
    - eapply jet_eq.
      + eapply jet_minus; [apply (jet_const 0)|]. eapply jet_div; [apply (jet_const C)| |].
        * apply jet_sqrt; [|apply Rlt_0_1]. eapply jet_eq; [eapply jet_minus; [apply (jet_const 1)|apply jet_h2; apply tends_mult; [apply tends_const|]; apply tends_plus; apply tends_mult; [exact Tx|exact Tx|exact Ty|exact Ty]]|ring|reflexivity].
        * rewrite sqrt_1. lra.
      + rewrite sqrt_1. field.
      + rewrite sqrt_1. unfold r2. field. }
  (* one component *)
  assert (SURF : forall g : vec -> R, (forall a b, g (vadd3 a b) = g a + g b) -> (forall t a, g (vmul3 t a) = t * g a) -> nearly (fun h => g (Y' h) / h = P g h + vz (Y' h) * W g h / n)).
  { intros g GA GM. eapply nearly_impl; [|exact (near_nearly _ (near_and _ _ FACT PZ))]. intros h NZ (((t & ->) & _) & H2). cbn in H2. unfold at_ray, P, W. rewrite GA, GM.
    unfold vadd3, vmul3. cbn [vz]. field. repeat split; lra. }
  assert (COMP : forall g : vec -> R, (forall a b, g (vadd3 a b) = g a + g b) -> (forall t a, g (vmul3 t a) = t * g a) ->
     near (fun h => n' * g (U' h) - n * g (U h) = (n' * vz (U' h) - n * vz (U h)) * (grade C K (Y' h) * g (Y' h))) ->
     forall p0 p1 v0 v1, jet (P g) p0 p1 -> jet (W g) v0 v1 ->
     jet (fun h => (g (Y' h) - vz (Y' h) * (g (U' h) / vz (U' h))) / h) p0 (new_p1 n n' C r2 p0 p1 v0) /\
     jet (fun h => n' * (g (U' h) / vz (U' h)) / h) (new_v0 n n' C p0 v0) (new_v1 n n' C K r2 w2 w2' p0 p1 v0 v1)).
  { intros g GA GM SN p0 p1 v0 v1 JP JV. pose proof (SURF g GA GM) as SU.
    destruct (comp_jet n n' C K r2 w2 w2' (P g) (W g) (fun h => vz (Y' h)) (fun h => vz (U h)) (fun h => vz (U' h)) (fun h => grade C K (Y' h)) (fun h => g (U' h) / h)
      p0 p1 v0 v1 N NP JP JV TZ JU JU' JG) as (_ & J1 & J2).
    - eapply nearly_impl; [|exact (nearly_and _ _ (near_nearly _ (near_and _ _ SN PZ)) SU)]. intros h NZ ((H1 & H2) & H3). cbn in H1, H2, H3. rewrite <- H3.
      transitivity ((n' * g (U' h) - n * g (U h)) / h); [unfold W; field; split; lra|]. rewrite H1. field. auto.
    - split.
      + eapply jet_ext; [|exact J2]. eapply nearly_impl; [|exact (nearly_and _ _ (near_nearly _ PZ') SU)]. intros h NZ (H1 & H2). cbn in H1, H2. rewrite <- H2. field. repeat split; lra.
      + eapply jet_ext; [|exact J1]. eapply nearly_impl; [|exact (near_nearly _ PZ')]. intros h NZ H1. cbn in H1. field. split; lra. }
  destruct (COMP vx ltac:(reflexivity) ltac:(reflexivity)) with (p0 := ax1) (p1 := bx1) (v0 := px) (v1 := qx) as (JX1 & JX2); auto.
  { eapply near_impl; [|exact FACT]. intros h H. apply H. }
  destruct (COMP vy ltac:(reflexivity) ltac:(reflexivity)) with (p0 := ay1) (p1 := by1) (v0 := py) (v1 := qy) as (JY1 & JY2); auto.
  { eapply near_impl; [|exact FACT]. intros h H. apply H. }
  exists Y', U', T. split; [exact NE|]. split; [exact NP|]. split.
  { intros CZ. eapply near_impl; [|exact FACT]. intros h (_ & ON & _). unfold conic_set in ON. rewrite CZ in ON. lra. }
  constructor; eauto. eapply near_impl; [|exact FACT]. intros h H. apply H.
Qed.

(** transverse error pattern of one set of coefficients for the pupil point [a] and the field point [b] *)
Definition pdot (a b : R * R) : R := fst a * fst b + snd a * snd b.
Definition pattern (x : coefs) (a b : R * R) (pick : R * R -> R) : R :=
  tsc x * pdot a a * pick a + cc x * (2 * pdot a b * pick a + pdot a a * pick b) +
  2 * tac x * pdot a b * pick b + (tac x + tpc x) * pdot b b * pick a + dc x * pdot b b * pick b.

Lemma seidel_step m s ym yc um uc n n' v v' x A B (pick : R * R -> R) b q :
  s_asph s = None -> match m with Some m => m_mirror m = false | None => True end -> 0 < n -> 0 < n' ->
  let c := s_c s in let um' := um + (n - n') * c * ym in let uc' := uc + (n - n') * c * yc in
  let L := um * yc - uc * ym in L <> 0 ->
  aberration m s (ym, yc) (um, uc) (um', uc') n n' v v' = Some x ->
  (pick = fst \/ pick = snd) ->
  let h z := ym * z A + yc * z B in let w z := um * z A + uc * z B in let w' z := um' * z A + uc' * z B in
  let r2 := h fst * h fst + h snd * h snd in let w2 := w fst * w fst + w snd * w snd in let w2' := w' fst * w' fst + w' snd * w' snd in
  new_p1 n n' c r2 (h pick) b (w pick) * um' - new_v1 n n' c (s_k s) r2 w2 w2' (h pick) b (w pick) q * ym =
  b * um - q * ym + L * pattern x A B pick.
Proof.
  intros AS MI N N' c um' uc' L LN E PK h w w' r2 w2 w2'.
  assert (EL : um' * yc - uc' * ym = L) by (unfold um', uc', L; ring).
  unfold aberration, departure in E. rewrite AS in E. cbn [obind fst snd] in E. fold c in E. rewrite EL in E.
  assert (MN : (match m with Some m => if m_mirror m then - n' else n' | None => n' end) = n') by (destruct m as [m|]; [rewrite MI|]; reflexivity).
  rewrite MN in E. rewrite !fdiv_some in E by (try apply pow_nonzero; auto; lra). cbn [obind] in E.
  repeat (rewrite fdiv_some in E by (try apply pow_nonzero; auto; lra); cbn [obind] in E).
  injection E as <-.
  destruct A as [a1 a2], B as [b1 b2]. unfold pattern, pdot. cbn [tsc cc tac tpc dc fst snd] in *.
  subst h w w' r2 w2 w2'. unfold new_p1, new_v1, q_coef, s_coef, new_v0, z_coef, a_coef, a_coef'. cbn [fst snd].
  clear EL MN. set (i0 := c * ym + um / n). set (i1 := c * yc + uc / n).
  set (t0 := / 2 * ym * n * (1 - n / n') * (i0 + um' / n')). set (t1 := / 2 * yc * n * (1 - n / n') * (i1 + uc' / n')).
  set (tw := 4 * (s_k s * c ^ 3 / 8) * n' * (1 - n / n')).
  set (aa := a1 * a1 + a2 * a2). set (ab := a1 * b1 + a2 * b2). set (bb := b1 * b1 + b2 * b2). set (pa := pick (a1, a2)). set (pb := pick (b1, b2)).
  transitivity (b * um - q * ym +
    ((t0 * i0 ^ 2 + tw * ym ^ 4) * aa * pa + (t0 * i0 * i1 + tw * ym ^ 3 * yc) * (2 * ab * pa + aa * pb) + 2 * (t0 * i1 ^ 2 + tw * ym ^ 2 * yc ^ 2) * ab * pb +
     (t0 * i1 ^ 2 + tw * ym ^ 2 * yc ^ 2 + - (n / n' - 1) / n * c * (L * L) / 2) * bb * pa +
     (t1 * i0 * i1 + L * (/ 2 * (uc' ^ 2 / n' ^ 2 - uc ^ 2 / n ^ 2)) + tw * ym * yc ^ 3) * bb * pb)).
  - subst L aa ab bb t0 t1 tw i0 i1 pa pb um' uc'. clear -N N' PK. destruct PK as [-> | ->]; cbn [fst snd]; field; lra.
  - clearbody aa ab bb pa pb um' uc'. subst t0 t1 tw. clearbody i0 i1 L. field. lra.
Qed.

Fixpoint total (f : coefs -> R) (xs : list coefs) : R := match xs with [] => 0 | x :: xs => f x + total f xs end.

Lemma system_third newton axis l1 l2 es : forall l c n Y U ym yc um uc A B bx by_ qx qy rs v xs,
  Forall centred es -> Forall (conic_refracting l c) es -> 0 < n ->
  um * yc - uc * ym <> 0 ->
  third Y U n (ym * fst A + yc * fst B) (ym * snd A + yc * snd B) bx by_ (um * fst A + uc * fst B) (um * snd A + uc * snd B) qx qy ->
  ptrace_from axis l es (V4 ym ym um um) (V4 yc yc uc uc) n = Some rs ->
  aberrations_from l1 l2 es (PRow (ym, yc) (um, uc) n) rs v = Some xs ->
  forall j e r, nth_error es j = Some e -> nth_error rs j = Some r ->
  fst (ru r) * snd (ry r) - snd (ru r) * fst (ry r) = um * yc - uc * ym /\
  exists Y' U' bx' by' qx' qy',
    third Y' U' (rn r) (fst (ry r) * fst A + snd (ry r) * fst B) (fst (ry r) * snd A + snd (ry r) * snd B) bx' by'
      (fst (ru r) * fst A + snd (ru r) * fst B) (fst (ru r) * snd A + snd (ru r) * snd B) qx' qy' /\
    bx' * fst (ru r) - qx' * fst (ry r) = bx * um - qx * ym + (um * yc - uc * ym) * total (fun x => pattern x A B fst) (firstn (S j) xs) /\
    by' * fst (ru r) - qy' * fst (ry r) = by_ * um - qy * ym + (um * yc - uc * ym) * total (fun x => pattern x A B snd) (firstn (S j) xs) /\
    (curv e = 0 -> near (fun h => vz (Y' h) = 0)) /\
    near (fun h => exists s, nth_error (sys_propagate newton es (Some (Y h)) (Some (U h)) n l c) j = Some s /\
        st_y s = Some (Y' h) /\ st_u s = Some (U' h) /\ st_n s = rn r).
Proof.
  induction es as [|e0 es IH]; intros l c n Y U ym yc um uc A B bx by_ qx qy rs v xs FC FR N LN TH PT AB j e r EJ RJ; [destruct j; discriminate|].
  inversion FC as [|? ? CE CS]; subst. inversion FR as [|? ? RE RS]; subst.
  destruct (matrix_centred e0 l c n CE RE N) as (M & PM & MV).
  cbn [ptrace_from] in PT. unfold propagate_paraxial in PT. rewrite PM in PT. cbn [obind] in PT. rewrite !MV in PT. cbv zeta in PT.
  set (d := p_distance (e_place e0)) in *. set (n1 := index_after e0 n l) in *.
  rewrite power_curv in PT. fold n1 in PT.
  set (ym1 := ym + d / n * um) in *. set (yc1 := yc + d / n * uc) in *.
  set (um1 := um + (n - n1) * curv e0 * ym1) in *. set (uc1 := uc + (n - n1) * curv e0 * yc1) in *.
  destruct (ptrace_from axis l es (V4 ym1 ym1 um1 um1) (V4 yc1 yc1 uc1 uc1) n1) as [rs1|] eqn:PT1; [|discriminate]. cbn [obind] in PT.
  assert (ROW : PRow (row_y axis (V4 ym1 ym1 um1 um1), row_y axis (V4 yc1 yc1 uc1 uc1)) (row_u axis (V4 ym1 ym1 um1 um1), row_u axis (V4 yc1 yc1 uc1 uc1)) n1 = PRow (ym1, yc1) (um1, uc1) n1) by (destruct axis; reflexivity).
  rewrite ROW in PT. injection PT as <-. cbn [aberrations_from] in AB. cbn [ry ru rn] in AB.
  destruct (element_aberration e0 _ _ _ _ _ _ _) as [x|] eqn:EA; [|discriminate]. cbn [obind] in AB.
  destruct (aberrations_from l1 l2 es _ rs1 _) as [xs1|] eqn:AB1; [|discriminate]. cbn [obind] in AB. injection AB as <-.
  assert (LL : um1 * yc1 - uc1 * ym1 = um * yc - uc * ym) by (unfold um1, uc1, ym1, yc1; ring).
  assert (LL0 : um * yc1 - uc * ym1 = um * yc - uc * ym) by (unfold ym1, yc1; ring).
  destruct (element_third newton e0 l c n Y U _ _ _ _ _ _ _ _ CE RE N TH) as (Y' & U' & T & NE & NP & FL & TH').
  fold d n1 in NE, NP, TH'.
  replace (ym * fst A + yc * fst B + d / n * (um * fst A + uc * fst B)) with (ym1 * fst A + yc1 * fst B) in TH' by (unfold ym1, yc1; ring).
  replace (ym * snd A + yc * snd B + d / n * (um * snd A + uc * snd B)) with (ym1 * snd A + yc1 * snd B) in TH' by (unfold ym1, yc1; ring).
  assert (NV : forall z, new_v0 n n1 (curv e0) (ym1 * z A + yc1 * z B) (um * z A + uc * z B) = um1 * z A + uc1 * z B) by (intros z; unfold new_v0, um1, uc1; ring).
  rewrite (NV fst), (NV snd) in TH'.
  set (r2 := (ym1 * fst A + yc1 * fst B) * (ym1 * fst A + yc1 * fst B) + (ym1 * snd A + yc1 * snd B) * (ym1 * snd A + yc1 * snd B)) in *.
  set (w2 := (um * fst A + uc * fst B) * (um * fst A + uc * fst B) + (um * snd A + uc * snd B) * (um * snd A + uc * snd B)) in *.
  set (w2' := (um1 * fst A + uc1 * fst B) * (um1 * fst A + uc1 * fst B) + (um1 * snd A + uc1 * snd B) * (um1 * snd A + uc1 * snd B)) in *.
  set (bx1 := new_p1 n n1 (curv e0) r2 (ym1 * fst A + yc1 * fst B) (bx + d / n * qx) (um * fst A + uc * fst B)) in *.
  set (by1 := new_p1 n n1 (curv e0) r2 (ym1 * snd A + yc1 * snd B) (by_ + d / n * qy) (um * snd A + uc * snd B)) in *.
  set (qx1 := new_v1 n n1 (curv e0) (coni e0) r2 w2 w2' (ym1 * fst A + yc1 * fst B) (bx + d / n * qx) (um * fst A + uc * fst B) qx) in *.
  set (qy1 := new_v1 n n1 (curv e0) (coni e0) r2 w2 w2' (ym1 * snd A + yc1 * snd B) (by_ + d / n * qy) (um * snd A + uc * snd B) qy) in *.
  assert (STEP : bx1 * um1 - qx1 * ym1 = bx * um - qx * ym + (um * yc - uc * ym) * pattern x A B fst /\
                 by1 * um1 - qy1 * ym1 = by_ * um - qy * ym + (um * yc - uc * ym) * pattern x A B snd).
  { destruct RE as (_ & CK). unfold element_aberration in EA. unfold bx1, by1, qx1, qy1, um1, uc1 in *. clear bx1 by1 qx1 qy1. clear NE TH' TH FL NV.
    unfold curv, coni in *. destruct (e_kind e0) as [|m s] eqn:EK.
    - injection EA as <-. unfold pattern, no_coefs. cbn [tsc cc tac tpc dc]. assert (NN : n1 = n) by (unfold n1, index_after; rewrite EK; reflexivity). rewrite NN.
      unfold new_p1, new_v1, new_v0, q_coef, s_coef, z_coef, a_coef, a_coef', w2', w2. unfold ym1. split; field; lra.
    - destruct CK as (AS & _ & _ & CM).
      assert (MI : match m with Some m => m_mirror m = false | None => True end) by (destruct m; [apply CM|auto]).
      assert (LN1 : um * yc1 - uc * ym1 <> 0) by (rewrite LL0; auto).
      split.
      + pose proof (seidel_step m s ym1 yc1 um uc n n1 _ _ x A B fst (bx + d / n * qx) qx AS MI N NP LN1 EA (or_introl eq_refl)) as H. cbv zeta in H.
        eapply eq_trans; [exact H|]. rewrite LL0. unfold ym1. field. lra.
      + pose proof (seidel_step m s ym1 yc1 um uc n n1 _ _ x A B snd (by_ + d / n * qy) qy AS MI N NP LN1 EA (or_intror eq_refl)) as H. cbv zeta in H.
        eapply eq_trans; [exact H|]. rewrite LL0. unfold ym1. field. lra. }
  destruct STEP as (SX & SY).
  destruct (centred_frame e0 CE) as (DP & OF & TN & FN). fold d in OF.
  assert (STEP : forall h, propagate newton e0 (Some (vsub3 (Y h) (V 0 0 d))) (Some (U h)) n l c = (Some (Y' h), Some (U' h), n1, Some (T h)) ->
    sys_propagate newton (e0 :: es) (Some (Y h)) (Some (U h)) n l c =
    Step (Some (Y' h)) (Some (U' h)) n1 (Some (U h)) (Some (T h)) :: sys_propagate newton es (Some (Y' h)) (Some (U' h)) n1 l c).
  { intros h H. cbn [sys_propagate onormal obind]. rewrite OF, !TN. cbn [obind]. rewrite H. cbn [onormal obind]. rewrite !FN. reflexivity. }
  destruct j as [|j].
  - cbn [nth_error] in EJ, RJ. injection EJ as <-. injection RJ as <-. cbn [ry ru rn fst snd]. split; [exact LL|].
    exists Y', U', bx1, by1, qx1, qy1. split; [exact TH'|]. cbn [firstn total]. rewrite !Rplus_0_r. split; [exact SX|]. split; [exact SY|]. split; [exact FL|].
    eapply near_impl; [|exact NE]. intros h H. cbn beta in H. rewrite (STEP h H). cbn [nth_error]. eexists; split; [reflexivity|]. cbn. auto.
  - cbn [nth_error] in EJ, RJ.
    assert (LN1 : um1 * yc1 - uc1 * ym1 <> 0) by (rewrite LL; auto).
    destruct (IH l c n1 Y' U' ym1 yc1 um1 uc1 A B bx1 by1 qx1 qy1 rs1 _ xs1 CS RS NP LN1 TH' PT1 AB1 j e r EJ RJ) as (HL & Y2 & U2 & bx2 & by2 & qx2 & qy2 & T2 & EX & EY & F2 & N2).
    split; [congruence|]. exists Y2, U2, bx2, by2, qx2, qy2. split; [exact T2|]. split; [|split; [|split; [exact F2|]]].
    + rewrite EX, SX, LL. cbn [firstn total]. ring.
    + rewrite EY, SY, LL. cbn [firstn total]. ring.
    + eapply near_impl; [|exact (near_and _ _ NE N2)]. intros h (H1 & (s & H2 & H3)). cbn beta in H1. rewrite (STEP h H1). exists s. auto.
Qed.
