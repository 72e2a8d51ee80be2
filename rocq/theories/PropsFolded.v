(** C85: the paraxial matrices of folded systems against the exact trace. *)
From Coq Require Import Reals ZArith Lra Lia Psatz List.
From Verif Require Import Base Vec RotModel RotProofs PlacementModel PlacementProofs ElementModel ElementProofs ParaxialModel ParaxialProofs TraceProofs
  PropsElement PropsTrace PropsOpd FirstOrder Hamilton Smooth LimitProofs PropsLimit PropsStigmatic PropsCoddington.
Import ListNotations.
Open Scope R_scope.

(** ** elements placed and tilted in the y-z plane, exactly: no tilt and no bend below the tolerance of [numpy.allclose] *)
Definition in_plane (p : placement) : Prop :=
  good_place p /\ vx (p_direction p) = 0 /\ vy (p_angles p) = 0 /\ vz (p_angles p) = 0 /\
  (p_normal p = true -> vx (p_angles p) = 0) /\ (p_straight p = true -> p_direction p = ez) /\
  (allclose (cross (p_direction p) ez) v0 = true -> vy (p_direction p) = 0).

Definition xturn (a b : R) : mat := M (V 1 0 0) (V 0 a (- b)) (V 0 b a).
Lemma xturn_mm a b c d : mm (xturn a b) (xturn c d) = xturn (a * c - b * d) (a * d + b * c).
Proof. unfold xturn. vec_simpl. apply mat_eq; cbn [row0 row1 row2]; apply vec_eq; cbn; ring. Qed.
Lemma axis_xturn u r : dot u u = 1 -> vx u = 0 -> axis_rotation u = Some r -> (allclose (cross u ez) v0 = true -> vy u = 0) -> r = xturn (vz u) (vy u).
Proof.
  intros D X E AC.
  assert (NF : forall s a, s * s = 1 -> rodrigues a (V s 0 0) = xturn (cos a) (s * sin a)) by (intros s a S; unfold rodrigues, xturn; cbn [vx vy vz]; apply mat_eq; cbn [row0 row1 row2]; apply vec_eq; cbn [vx vy vz]; rewrite ?S; ring).
  assert (UX : forall t, t <> 0 -> exists s, s * s = 1 /\ unit_vector (V t 0 0) = Some (V s 0 0)).
  { intros t T. destruct (unit_vector_some (V t 0 0)) as (n & U & N & _ & En); [intros Z; injection Z; exact T|]. exists (vx n).
    assert (vy n = 0 /\ vz n = 0) as (Y & Z) by (rewrite En; cbn; split; ring).
    split; [unfold dot in N; rewrite Y, Z in N; lra|]. rewrite U. f_equal. apply vec_eq; cbn; auto. }
  destruct (axis_rotation_spec u D) as (r' & E' & _ & H1 & H2). assert (r' = r) by congruence. subst r'.
  assert (ZZ : vm ez r = u).
  { destruct (allclose (cross u ez) v0) eqn:AL; [|apply H1; reflexivity]. rewrite (H2 eq_refl), X, (AC eq_refl). replace (0 * 0 + 0 * 0) with 0 by ring. rewrite sqrt_0. apply vec_eq; cbn; solve [reflexivity|symmetry; auto]. }
  assert (XT : exists a b, r = xturn a b).
  { unfold axis_rotation in E. destruct (allclose (cross u ez) v0) eqn:AL.
    - destruct (UX 1 ltac:(lra)) as (s & S & U). change (V 1 0 0) with ex in U. rewrite (rotation_matrix_rodrigues _ _ _ U), NF in E by exact S. injection E as <-. eauto.
    - assert (CX : cross u ez = V (vy u) 0 0) by (unfold cross, ez; apply vec_eq; cbn; rewrite ?X; ring). rewrite CX in E, AL.
      assert (vy u <> 0).
      { intros Z. rewrite Z in AL. assert (allclose (V 0 0 0) v0 = true); [|congruence]. apply allclose_v0. cbn. rewrite Rabs_R0. unfold tol. repeat split; lra. }
      destruct (UX (vy u) ltac:(assumption)) as (s & S & U). rewrite (rotation_matrix_rodrigues _ _ _ U), NF in E by exact S. injection E as <-. eauto. }
  destruct XT as (a & b & ->). pose proof (f_equal vy ZZ) as A. pose proof (f_equal vz ZZ) as B. unfold xturn, ez, vm, dot, col1, col2 in A, B. cbn in A, B.
  unfold xturn. f_equal; f_equal; lra.
Qed.
(** frame changes of such an element: turns about the x axis; the direction comes in under the tilt angle *)
Lemma in_plane_frame p : in_plane p -> exists r, rotation r /\ vm ex r = ex /\ vm ex (mT r) = ex /\
  (forall y, from_normal p y = Some (vm y r)) /\ (forall y, to_normal p y = Some (vm y (mT r))) /\
  vx (vm (p_direction p) (mT r)) = 0 /\ vz (vm (p_direction p) (mT r)) = cos (vx (p_angles p)).
Proof.
  intros (G & X & A1 & A2 & TN & TS & TA). pose proof (proj1 G) as (_ & DD & _). pose proof (proj2 G) as (ST & NO & FA & FR).
  assert (E2 : euler_matrix (vx (p_angles p)) (vy (p_angles p)) (vz (p_angles p)) rxyz = xturn (cos (vx (p_angles p))) (sin (vx (p_angles p)))).
  { rewrite (euler_product _ _ _ rxyz rxyz_ok). change (mm (axis_rot 0 (vx (p_angles p))) (mm (axis_rot 1 (vy (p_angles p))) (axis_rot 2 (vz (p_angles p)))) = xturn (cos (vx (p_angles p))) (sin (vx (p_angles p)))).
    rewrite A1, A2. unfold axis_rot. rewrite sin_0, cos_0. unfold xturn. vec_simpl. apply mat_eq; cbn [row0 row1 row2]; apply vec_eq; cbn; ring. }
  assert (R1 : exists a b, p_direction p = V 0 b a /\ (if p_straight p then eye = xturn a b else p_rot_axis p = Some (xturn a b)) /\ a * a + b * b = 1).
  { exists (vz (p_direction p)), (vy (p_direction p)). split; [apply vec_eq; cbn; auto|]. split; [|unfold dot in DD; rewrite X in DD; lra].
    destruct (p_straight p) eqn:S; [rewrite (TS eq_refl); unfold xturn, eye, ex, ey, ez; cbn; f_equal; f_equal; lra|]. destruct (FA eq_refl) as (r1 & -> & AR). f_equal. exact (axis_xturn _ _ DD X AR TA). }
  destruct R1 as (a & b & ED & R1 & AB).
  assert (R2 : exists c d, c = cos (vx (p_angles p)) /\ (if p_normal p then eye = xturn c d else euler_matrix (vx (p_angles p)) (vy (p_angles p)) (vz (p_angles p)) rxyz = xturn c d) /\ c * c + d * d = 1).
  { exists (cos (vx (p_angles p))), (sin (vx (p_angles p))). split; [reflexivity|]. split; [|pose proof (circle (vx (p_angles p))); lra]. destruct (p_normal p); [rewrite (TN eq_refl), cos_0, sin_0; unfold xturn, eye, ex, ey, ez; cbn; f_equal; f_equal; lra|exact E2]. }
  destruct R2 as (c & d & CC & R2 & CD).
  assert (RR : exists r, r = xturn (a * c - b * d) (a * d + b * c) /\ rotation r /\ (forall y, from_normal p y = Some (vm y r)) /\ (forall y, to_normal p y = Some (vm y (mT r)))).
  { destruct (normal_maps p G) as (r & RO & F & T). destruct (p_rotated p) eqn:PR.
    - destruct (FR eq_refl) as (r' & ER & _ & r1 & r2 & E & E1 & E3).
      assert (RQ : r' = r). { assert (Q : forall y, vm y r' = vm y r) by (intros y; specialize (F y); unfold from_normal, do_rotate in F; rewrite PR, ER in F; congruence).
        pose proof (Q ex) as Q1. pose proof (Q ey) as Q2. pose proof (Q ez) as Q3. revert Q1 Q2 Q3. clear. destruct r as [[] [] []], r' as [[] [] []]. vec_simpl. unfold ex, ey, ez. cbn. intros Q1 Q2 Q3.
        injection Q1 as ? ? ?. injection Q2 as ? ? ?. injection Q3 as ? ? ?. f_equal; f_equal; lra. }
      rewrite RQ in E. exists r. split; [|split; [exact RO|split; assumption]]. rewrite E.
      assert (r1 = xturn a b) by (destruct (p_straight p); congruence). assert (r2 = xturn c d) by (destruct (p_normal p); congruence). transitivity (mm (xturn a b) (xturn c d)); [congruence|apply xturn_mm].
    - pose proof PR as PR0. unfold p_rotated in PR. destruct (p_normal p); destruct (p_straight p); try discriminate. exists r.
      assert (r = eye). { assert (Q : forall y, vm y eye = vm y r) by (intros y; specialize (F y); unfold from_normal, do_rotate in F; rewrite PR0 in F; rewrite vm_eye; congruence).
        pose proof (Q ex) as Q1. pose proof (Q ey) as Q2. pose proof (Q ez) as Q3. revert Q1 Q2 Q3. clear. destruct r as [[] [] []]. vec_simpl. unfold ex, ey, ez. cbn. intros Q1 Q2 Q3.
        injection Q1 as ? ? ?. injection Q2 as ? ? ?. injection Q3 as ? ? ?. f_equal; f_equal; lra. }
      split; [|split; [exact RO|split; assumption]]. rewrite <- xturn_mm, <- R1, <- R2. subst r. symmetry. vec_simpl. apply mat_eq; cbn [row0 row1 row2]; apply vec_eq; cbn; ring. }
  destruct RR as (r & ER & RO & F & T). exists r. split; [exact RO|]. split; [rewrite ER; unfold xturn, ex; vec_simpl; apply vec_eq; cbn; ring|]. split; [rewrite ER; unfold xturn, ex; vec_simpl; apply vec_eq; cbn; ring|].
  split; [exact F|]. split; [exact T|]. rewrite ED, ER. unfold xturn. vec_simpl. cbn. split; [ring|]. rewrite <- CC.
  transitivity (c * (a * a + b * b)); [ring|rewrite AB; ring].
Qed.

(** ** one surface: transverse coordinates of a neighbouring ray, x and the direction across x and the ray, with their slopes times the index *)
Definition lateral (sg : R) (u : vec) (n : R) (dy du : vec) : v4 :=
  V4 (vx dy) (sg * dot (cross u ex) dy) (n * vx du) (n * (sg * dot (cross u ex) du)).
(** mirrors turn the hand of the coordinates *)
Definition hand (e : element) : R := match e_kind e with Sph (Some m) _ => if m_mirror m then -1 else 1 | _ => 1 end.

Lemma side newton e m s y u n0 l c p v n t N : good_element l e -> 0 < n0 -> e_kind e = Sph m s -> dot u u = 1 ->
  propagate newton e (Some y) (Some u) n0 l c = (Some p, Some v, n, t) -> surface_normal s p = Some N ->
  match m with None => n = n0 /\ v = u | Some m => if m_mirror m then n = n0 /\ dot v N = - dot u N else n = m_index m l /\ (v = u /\ n = n0 \/ 0 <= dot v N) end.
Proof.
  intros G N0 K U PR SN. destruct G as (_ & GM). rewrite K in GM. destruct (good_n_mu m n0 l N0 GM) as (n' & mu & NM & N' & MC & M1 & M2).
  unfold propagate in PR. rewrite K, NM in PR. cbn [obind] in PR.
  destruct (intercept newton s y u) as [tt|]; [|discriminate]. cbn [obind] in PR.
  assert (EP : at_ray y u tt = p) by congruence. rewrite EP in PR. assert (EN : n' = n) by congruence. subst n'.
  set (uu := if c then clip (e_radius e) (Some p) (Some u) else Some u) in *.
  assert (UU : uu = None \/ uu = Some u) by (unfold uu, clip; destruct c; auto; destruct (e_radius e); auto; destruct (Rle_dec _ _); auto).
  assert (MZ : mu <> 0) by (destruct MC as [->|[->|]]; lra). destruct (Req_EM_T mu 0); [contradiction|].
  assert (RF : refract s (Some p) uu mu = Some v) by congruence. clear PR. unfold refract in RF.
  destruct UU as [UU|UU]; rewrite UU in RF; [destruct (Req_EM_T mu 1); discriminate|].
  cbn [obind] in RF. rewrite SN in RF. cbn [obind] in RF. pose proof (surface_normal_nz _ _ _ SN) as NZ.
  assert (R2 : dot N N <> 0) by (intros Z; apply dot_zero in Z; contradiction).
  destruct m as [m|].
  - specialize (M2 m eq_refl). destruct (m_mirror m).
    + destruct M2 as (-> & ->). split; [reflexivity|]. destruct (Req_EM_T (-1) 1); [lra|]. rewrite reflect_normal in RF by exact NZ. injection RF as <-.
      transitivity (dot u N - 2 * (dot u N / dot N N) * dot N N); [generalize (2 * (dot u N / dot N N)); intros; vec_ring|field; exact R2].
    + destruct M2 as (-> & MN). split; [reflexivity|]. destruct (Req_EM_T mu 1) as [->|E1]; [left; split; [congruence|lra]|right].
      destruct MC as [->|[->|MC]]; [lra|nra|]. destruct (refr_form u N mu v NZ MC RF) as (h & _ & P). exact P.
  - destruct (M1 eq_refl) as (-> & ->). destruct (Req_EM_T 1 1); [|lra]. split; [reflexivity|congruence].
Qed.

Lemma vertex_clean s : s_asph s = None -> surface_sag s v0 = Some 0 /\ surface_normal s v0 = Some ez.
Proof.
  intros A. assert (Z : (1 + s_k s) * s_c s ^ 2 * r2_of v0 = 0) by (unfold r2_of; cbn; ring). split.
  - rewrite surface_sag_spec by lra. unfold sag_spec. rewrite A. f_equal. unfold r2_of. cbn. unfold Rdiv. ring.
  - rewrite conic_normal by (auto; lra). f_equal. unfold sheet_normal, ez. cbn. apply vec_eq; cbn [vx vy vz]; unfold Rdiv; ring.
Qed.

(** what an element asks of a ray on the axis: a conic, met from the front; mirrors only in air *)
Definition on_axis (l : R) (c : bool) (n : R) (e : element) : Prop :=
  in_plane (e_place e) /\ good_element l e /\ (c = true -> e_radius e <> Some 0) /\
  match e_kind e with
  | Plain => True
  | Sph m s => s_asph s = None /\ 0 < cos (vx (p_angles (e_place e))) /\
      match m with None => True | Some m => if m_mirror m then n = 1 /\ m_index m l = 1 else True end
  end.

Ltac m4_calc := unfold mm4, mT4, mv4, dot4; cbn [w0 w1 w2 w3 q0 q1 q2 q3]; f_equal; f_equal; ring.
Definition blocks (a b c d e f g h : R) : m4 := M4 (V4 a 0 b 0) (V4 0 c 0 d) (V4 e 0 f 0) (V4 0 g 0 h).
Lemma blocks_mm a b c d e f g h a' b' c' d' e' f' g' h' : mm4 (blocks a b c d e f g h) (blocks a' b' c' d' e' f' g' h') =
  blocks (a * a' + b * e') (a * b' + b * f') (c * c' + d * g') (c * d' + d * h') (e * a' + f * e') (e * b' + f * f') (g * c' + h * g') (g * d' + h * h').
Proof. unfold blocks. m4_calc. Qed.
Lemma flat_azimuth a b c d e f g h : mm4 (azimuth_matrix 0) (mm4 (blocks a b c d e f g h) (mT4 (azimuth_matrix 0))) = blocks a b c d e f g h.
Proof.
  assert (E : azimuth_matrix 0 = blocks 1 0 (-1) 0 0 1 0 (-1)) by (unfold azimuth_matrix, blocks; rewrite cos_0, sin_0; f_equal; f_equal; ring).
  assert (T : mT4 (azimuth_matrix 0) = blocks 1 0 (-1) 0 0 1 0 (-1)) by (rewrite E; reflexivity).
  rewrite T, E, !blocks_mm. unfold blocks. f_equal; f_equal; ring.
Qed.

Lemma surface_step newton e m s l c n Y U dy u du v n1 t sg : on_axis l c n e -> 0 < n -> e_kind e = Sph m s ->
  let d := p_distance (e_place e) in
  vx u = 0 -> vz u = cos (vx (p_angles (e_place e))) -> sg * sg = 1 ->
  vlin Y (vmul3 (- d) u) dy -> vlin U u du -> near (fun h => dot (U h) (U h) = 1) ->
  propagate newton e (Some (vmul3 (- d) u)) (Some u) n l c = (Some v0, Some v, n1, t) -> vz v <> 0 ->
  exists P W dp dv mx, near (fun h => exists t, propagate newton e (Some (Y h)) (Some (U h)) n l c = (Some (P h), Some (W h), n1, t)) /\
    vlin P v0 dp /\ vlin W v dv /\ near (fun h => dot (W h) (W h) = 1) /\ 0 < n1 /\ vx v = 0 /\
    paraxial_matrix e n l = (n1, Some mx) /\ lateral (sg * hand e) v n1 dp dv = mv4 mx (lateral sg u n dy du).
Proof.
  intros (IP & GE & CR & OK) NP K d UX UZ SG LY LU UN PR VZ. rewrite K in OK. destruct OK as (A & CT & MM). destruct (vertex_clean s A) as (SAG & SN).
  assert (CL : clean_hit e u v0 v).
  { unfold clean_hit. rewrite K. split; [exact A|]. split; [exact SAG|]. exists ez. split; [exact SN|]. unfold dot, ez. cbn. split; lra. }
  assert (IN : c = true -> well_inside e v0) by (intros C r E; specialize (CR C); unfold r2_of; cbn; assert (r <> 0) by congruence; nra).
  pose proof (near_0 _ UN) as UU. cbn beta in UU. rewrite (vlin_at0 _ _ _ LU) in UU.
  destruct (pencil newton e m s Y U (vmul3 (- d) u) dy u du n l c v0 v n1 t GE NP K LY LU UN PR CL IN) as (P & W & dp & dv & tt & t' & g & NR & LP & LV & _ & VV & UD & VD & N1 & EP & EDP & H). cbv zeta in H.
  destruct H as (_ & _ & _ & _ & GD & _ & _ & LAW & DLAW).
  pose proof (side newton e m s _ u n l c v0 v n1 t ez GE NP K UU PR SN) as SD.
  assert (GZ : gradient (s_c s) (s_k s) v0 = ez) by (unfold gradient, ez; apply vec_eq; cbn; ring). rewrite GZ in *.
  assert (TD : tt = d).
  { assert (E : vmul3 (tt - d) u = v0) by (transitivity (at_ray (vmul3 (- d) u) u tt); [unfold at_ray; apply vec_eq; cbn; ring|symmetry; exact EP]).
    apply (f_equal vz) in E. cbn in E. assert (vz u <> 0) by lra. apply Rmult_integral in E. lra. }
  subst tt.
  pose proof (f_equal vx LAW) as L1. pose proof (f_equal vy LAW) as L2. pose proof (f_equal vz LAW) as L3. cbn in L1, L2, L3. rewrite UX in L1.
  assert (VX : vx v = 0) by (apply (Rmult_eq_reg_l n1); [lra|lra]).
  pose proof (f_equal vx DLAW) as X1. pose proof (f_equal vy DLAW) as X2. cbn in X1, X2. unfold dot in GD, UU, VV, UD, VD. cbn in GD.
  rewrite UX in UU, UD. rewrite VX in VV, VD.
  set (C := vz u) in *. set (C' := vz v) in *. set (S := vy u) in *. set (S' := vy v) in *.
  (* matrix *)
  assert (WU : near (fun h => dot (W h) (W h) = 1)).
  { eapply near_impl; [|exact (near_and _ _ NR UN)]. intros h ((th & E) & UH). cbn beta in *.
    destruct (propagate_spec newton e (Some (Y h)) (Some (U h)) n l c _ _ _ _ GE NP ltac:(intros q Q; injection Q as <-; exact UH) E) as (X & _). apply X. reflexivity. }
  (* sizes before: transferred height eta, slope beta *)
  set (eta := sg * (C * vy dy - S * vz dy) + d * (sg * (C * vy du - S * vz du))). set (beta := sg * (C * vy du - S * vz du)) in *.
  assert (CP : C <> 0) by lra.
  assert (DZ : vz dp = 0) by lra.
  assert (HX : vx dp = vx dy + d * vx du) by (rewrite EDP; cbn; rewrite UX; ring).
  assert (HY : C * vy dp = sg * eta).
  { assert (E : C * vy dp - S * vz dp = C * vy dy - S * vz dy + d * (C * vy du - S * vz du)) by (rewrite EDP; cbn; fold C S; ring).
    rewrite DZ in E. transitivity (sg * sg * (C * vy dp - S * 0)); [rewrite SG; ring|]. rewrite E. unfold eta, beta. ring. }
  destruct (plane_turn S C (vy du) (vz du) ltac:(lra) ltac:(lra)) as (B1 & B2).
  destruct (plane_turn S' C' (vy dv) (vz dv) ltac:(lra) ltac:(lra)) as (D1 & D2).
  set (om := vy du * C - vz du * S) in *. set (om' := vy dv * C' - vz dv * S') in *.
  assert (BO : om = sg * beta) by (unfold beta, om; transitivity (sg * sg * (C * vy du - S * vz du)); [rewrite SG; ring|ring]).
  assert (SX : n1 * vx dv = n * vx du - g * s_c s * vx dp) by lra.
  assert (SY : n1 * om' * C' = n * om * C - g * s_c s * vy dp).
  { transitivity (n1 * vy dv); [rewrite D1; ring|]. rewrite DZ in X1. transitivity (n * vy du - g * s_c s * vy dp); [lra|rewrite B1; ring]. }
  assert (GG : g = n1 * C' - n * C) by lra.
  assert (LB : lateral sg u n dy du = V4 (vx dy) (sg * (C * vy dy - S * vz dy)) (n * vx du) (n * beta)).
  { unfold lateral, cross, dot, ex, beta, C, S. cbn. rewrite UX. f_equal; ring. }
  assert (LA : forall sh, lateral sh v n1 dp dv = V4 (vx dp) (sh * (C' * vy dp)) (n1 * vx dv) (n1 * (sh * om'))).
  { intros sh. unfold lateral, cross, dot, ex, om', C', S'. cbn. rewrite VX, DZ. f_equal; ring. }
  (* heights and slopes after *)
  assert (QY : C' * vy dp = sg * (C' / C) * eta) by (transitivity (C' / C * (C * vy dp)); [field; exact CP|rewrite HY; ring]).
  assert (QS : n1 * om' = sg * (C / C' * (n * beta) - g * s_c s / (C * C') * eta)).
  { apply (Rmult_eq_reg_r C'); [|exact VZ]. rewrite SY, BO. transitivity (n * (sg * beta) * C - g * s_c s / C * (C * vy dp)); [field; exact CP|]. rewrite HY. field. split; [exact VZ|exact CP]. }
  exists P, W, dp, dv. unfold paraxial_matrix, transfer_matrix, index_after, hand. rewrite K, fdiv_some by lra. cbn [obind]. unfold vertex_curvature. rewrite A. cbn [obind].
  rewrite <- UZ. fold C. fold d. destruct IP as (_ & _ & _ & PHI & _). rewrite PHI.
  assert (FIN : forall mr a3 a4 a5 a6 sh, mr = M4 (V4 1 0 0 0) (V4 0 a3 0 0) (V4 a4 0 1 0) (V4 0 a5 0 a6) ->
     sh * sh = 1 -> sh * C' / C = a3 -> - g * s_c s = a4 -> - sh * g * s_c s / (C * C') = a5 -> sh * C / C' = a6 ->
     exists mx, mx = mm4 (azimuth_matrix 0) (mm4 (mm4 mr (M4 (V4 1 0 (d / n) 0) (V4 0 1 0 (d / n)) (V4 0 0 1 0) (V4 0 0 0 1))) (mT4 (azimuth_matrix 0))) /\
       lateral (sg * sh) v n1 dp dv = mv4 mx (lateral sg u n dy du)).
  { intros mr a3 a4 a5 a6 sh -> SH H3 H4 H5 H6. eexists. split; [reflexivity|]. rewrite LA, LB.
    change (M4 (V4 1 0 0 0) (V4 0 a3 0 0) (V4 a4 0 1 0) (V4 0 a5 0 a6)) with (blocks 1 0 a3 0 a4 1 a5 a6). change (M4 (V4 1 0 (d / n) 0) (V4 0 1 0 (d / n)) (V4 0 0 1 0) (V4 0 0 0 1)) with (blocks 1 (d / n) 1 (d / n) 0 1 0 1).
    rewrite blocks_mm, flat_azimuth. unfold blocks, mv4, dot4. cbn [w0 w1 w2 w3 q0 q1 q2 q3].
    assert (EE : eta = sg * (C * vy dy - S * vz dy) + d * beta) by reflexivity. clearbody beta eta om om'.
    f_equal.
    - rewrite HX. field. lra.
    - rewrite <- H3. transitivity (sh * sg * (sg * (C' / C) * eta)); [rewrite <- QY; ring|]. rewrite EE. transitivity (sg * sg * (sh * (C' / C) * (sg * (C * vy dy - S * vz dy) + d * beta))); [ring|]. rewrite SG. field. lra.
    - rewrite SX, HX, <- H4. field. lra.
    - transitivity (sg * sh * (n1 * om')); [ring|]. rewrite QS, <- H5, <- H6, EE. transitivity (sg * sg * (sh * (C / C' * (n * beta) - g * s_c s / (C * C') * (sg * (C * vy dy - S * vz dy) + d * beta)))); [ring|]. rewrite SG. field. lra. }
  destruct m as [m|]; [destruct (m_mirror m) eqn:MI|].
  - destruct MM as (-> & MX). destruct SD as (-> & SD). unfold dot, ez in SD. cbn in SD. assert (CC : C' = - C) by (unfold C, C'; lra).
    unfold refraction_matrix. rewrite MI, fdiv_some by exact CP. cbn [obind].
    destruct (FIN _ 1 (2 * s_c s * C) (2 * s_c s / C) 1 (-1) eq_refl) as (mx & EM & EL); try (rewrite ?GG, CC; field; lra); try lra.
    exists mx. split; [exact NR|]. split; [exact LP|]. split; [exact LV|]. split; [exact WU|]. split; [exact N1|]. split; [exact VX|]. split; [rewrite EM, MX; reflexivity|exact EL].
  - destruct SD as (N1E & SD). assert (CP' : 0 < C').
    { destruct SD as [(-> & _)|SD]; [unfold C'; fold C; lra|]. unfold dot, ez in SD. cbn in SD. unfold C' in *. lra. }
    unfold refraction_matrix. rewrite MI, <- N1E. rewrite fdiv_some by lra. cbn [obind].
    assert (PP : (n1 / n) ^ 2 + C ^ 2 - 1 = n1 / n * C' * (n1 / n * C')).
    { assert (SS : n1 * S' = n * S) by (fold S S' in L2; lra). assert (C2 : C ^ 2 = 1 - S * S) by lra. assert (C2' : C' * C' = 1 - S' * S') by lra.
      apply (Rmult_eq_reg_r (n * n)); [|nra]. transitivity (n1 * n1 + (C ^ 2 - 1) * (n * n)); [field; lra|]. transitivity (n1 * n1 * (C' * C')); [|field; lra]. rewrite C2, C2'.
      transitivity (n1 * n1 - (n * S) * (n * S)); [ring|]. rewrite <- SS. ring. }
    assert (QP : 0 < n1 / n * C') by (apply Rmult_lt_0_compat; [apply Rdiv_lt_0_compat; lra|lra]).
    rewrite PP, fsqrt_some by nra. rewrite sqrt_square by lra. cbn [obind].
    assert (Q2 : 0 < n1 / n * C) by (apply Rmult_lt_0_compat; [apply Rdiv_lt_0_compat; lra|lra]).
    rewrite fdiv_some by lra. cbn [obind]. assert (Q3 : 0 < C * (n1 / n * C')) by (apply Rmult_lt_0_compat; lra). rewrite fdiv_some by lra. cbn [obind].
    assert (Q4 : n1 / n * C' / (n1 / n * C) = C' / C) by (field; lra). rewrite Q4. assert (Q5 : 0 < C' / C) by (apply Rdiv_lt_0_compat; lra). rewrite fdiv_some by lra. cbn [obind].
    destruct (FIN _ (C' / C) (n * s_c s * (C - n1 / n * C')) (n1 / n * (n * s_c s * (C - n1 / n * C')) / (C * (n1 / n * C'))) (1 / (C' / C)) 1 eq_refl) as (mx & EM & EL); [lra| | | | |]; cycle 4.
    + exists mx. split; [exact NR|]. split; [exact LP|]. split; [exact LV|]. split; [exact WU|]. split; [exact N1|]. split; [exact VX|]. split; [rewrite EM; reflexivity|exact EL].
    + field. lra.
    + rewrite GG. field. lra.
    + rewrite GG. field. lra.
    + field. lra.
  - destruct SD as (-> & SD). assert (CC : C' = C) by (unfold C', C; rewrite SD; reflexivity). assert (G0 : g = 0) by (rewrite GG, CC; ring).
    unfold refraction_matrix. cbn [obind]. destruct (FIN eye4 1 0 0 1 1 eq_refl) as (mx & EM & EL); try (rewrite ?G0, ?CC; field; lra); try lra.
    exists mx. split; [exact NR|]. split; [exact LP|]. split; [exact LV|]. split; [exact WU|]. split; [exact N1|]. split; [exact VX|]. split; [rewrite EM; reflexivity|exact EL].
Qed.

Lemma plain_step newton e l c n Y U dy u du v n1 t sg : on_axis l c n e -> 0 < n -> e_kind e = Plain ->
  let d := p_distance (e_place e) in
  vx u = 0 -> vz u <> 0 -> vlin Y (vmul3 (- d) u) dy -> vlin U u du -> near (fun h => dot (U h) (U h) = 1) ->
  propagate newton e (Some (vmul3 (- d) u)) (Some u) n l c = (Some v0, Some v, n1, t) ->
  exists P W dp dv mx, near (fun h => exists t, propagate newton e (Some (Y h)) (Some (U h)) n l c = (Some (P h), Some (W h), n1, t)) /\
    vlin P v0 dp /\ vlin W v dv /\ near (fun h => dot (W h) (W h) = 1) /\ 0 < n1 /\ vx v = 0 /\
    paraxial_matrix e n l = (n1, Some mx) /\ lateral (sg * hand e) v n1 dp dv = mv4 mx (lateral sg u n dy du).
Proof.
  intros (IP & GE & CR & _) NP K d UX UZ LY LU UN PR.
  assert (CL : clean_hit e u v0 v) by (unfold clean_hit; rewrite K; exact I).
  assert (IN : c = true -> well_inside e v0) by (intros C r E; specialize (CR C); unfold r2_of; cbn; assert (r <> 0) by congruence; nra).
  assert (THRU : forall y w p x k tt, propagate newton e (Some y) (Some w) n l c = (Some p, Some x, k, tt) -> x = w /\ k = n /\ exists s, p = at_ray y w s).
  { intros y w p x k tt E. unfold propagate in E. rewrite K in E. cbn [obind] in E. destruct (plane_intercept y w) as [s|]; cbn [obind] in E; [|discriminate].
    assert (EX : (if c then clip (e_radius e) (Some (at_ray y w s)) (Some w) else Some w) = Some x) by congruence.
    split; [|split; [congruence|exists s; congruence]]. unfold clip in EX. destruct c; [|congruence]. destruct (e_radius e); [|congruence]. destruct (Rle_dec _ _); congruence. }
  destruct (THRU _ _ _ _ _ _ PR) as (-> & -> & s & EP).
  destruct (propagate_smooth newton e n l c Y U _ dy u du v0 u n t GE NP LY LU UN PR CL IN) as (P & W & FT & dp & dv & NR & LP & LV & _).
  assert (SAME : near (fun h => W h = U h /\ P h = vadd3 (Y h) (vmul3 (dot (vsub3 (P h) (Y h)) (U h)) (U h)))).
  { eapply near_impl; [|exact (near_and _ _ NR UN)]. intros h (E & UH). cbn beta in *. destruct (THRU _ _ _ _ _ _ E) as (EW & _ & x & EX). split; [exact EW|].
    assert (X : dot (vsub3 (P h) (Y h)) (U h) = x * dot (U h) (U h)) by (rewrite EX; unfold at_ray; generalize (Y h) (U h); intros a b; vec_ring). rewrite X, UH, EX. unfold at_ray. f_equal. f_equal. ring. }
  assert (LW : vlin W u du) by (refine (vlin_near U W _ _ _ LU); eapply near_impl; [|exact SAME]; intros h (X & _); symmetry; exact X).
  pose proof (vlin_dot _ _ _ _ _ _ (vlin_sub _ _ _ _ _ _ LP LY) LU) as LT. set (tt := dot (vsub3 v0 (vmul3 (- d) u)) u) in LT. set (t' := dot (vsub3 dp dy) u + dot (vsub3 v0 (vmul3 (- d) u)) du) in LT.
  pose proof (near_0 _ UN) as UU. cbn beta in UU. rewrite (vlin_at0 _ _ _ LU) in UU.
  assert (TD : tt = d) by (unfold tt; transitivity (d * dot u u); [vec_ring|rewrite UU; ring]). rewrite TD in LT.
  destruct (vlin_unique _ _ _ _ _ LP (vlin_near (fun h => vadd3 (Y h) (vmul3 (dot (vsub3 (P h) (Y h)) (U h)) (U h))) P _ _ ltac:(eapply near_impl; [|exact SAME]; intros x (_ & X); symmetry; exact X) (vlin_add _ _ _ _ _ _ LY (vlin_scale _ _ _ _ _ _ LT LU)))) as (_ & ED).
  exists P, W, dp, du. unfold paraxial_matrix, index_after, transfer_matrix, hand. rewrite K, fdiv_some by lra. cbn [obind]. eexists.
  split; [eapply near_impl; [|exact NR]; intros x X; cbn beta in *; eauto|]. split; [exact LP|]. split; [exact LW|].
  split; [eapply near_impl; [|exact (near_and _ _ SAME UN)]; intros h ((X & _) & UH); cbn beta in *; rewrite X; exact UH|].
  split; [exact NP|]. split; [exact UX|]. split; [reflexivity|]. clearbody t'. rewrite ED. unfold lateral, mv4, dot4, cross, dot, ex. cbn. rewrite UX. fold d. f_equal; field; lra.
Qed.

(** ** the system: the axis ray, traced, goes from vertex to vertex along the directions of the elements *)
Section System.
Context (newton : (R -> option R) -> (R -> option R) -> option R -> option R) (l : R) (c : bool).
Fixpoint axis_ray (n : R) (w : vec) (es : list element) : Prop :=
  match es with
  | [] => True
  | e :: es => on_axis l c n e /\ p_direction (e_place e) = w /\
      exists u v n1 t w1, to_normal (e_place e) w = Some u /\ vz u <> 0 /\ vz v <> 0 /\
        propagate newton e (Some (vmul3 (- p_distance (e_place e)) u)) (Some u) n l c = (Some v0, Some v, n1, t) /\
        from_normal (e_place e) v = Some w1 /\ axis_ray n1 w1 es
  end.
(** number of mirrors up to element j, as a sign *)
Fixpoint hands (es : list element) (j : nat) : R :=
  match es, j with
  | [], _ => 1
  | e :: _, O => hand e
  | e :: es, S j => hand e * hands es j
  end.

Lemma rotation_T r : rotation r -> rotation (mT r).
Proof.
  intros (A & B & D). unfold rotation. rewrite mT_mT. split; [exact B|]. split; [exact A|]. transitivity (det r); [clear; destruct r as [[] [] []]; vec_simpl; cbn; ring|exact D].
Qed.
Lemma cross_ex_turn u r : rotation r -> vm ex r = ex -> cross (vm u r) ex = vm (cross u ex) r.
Proof. intros R E. rewrite <- E at 1. apply rotation_cross. exact R. Qed.
Lemma lateral_turn sg u n dy du r : rotation r -> vm ex r = ex -> lateral sg (vm u r) n (vm dy r) (vm du r) = lateral sg u n dy du.
Proof.
  intros R E. unfold lateral. rewrite cross_ex_turn by assumption. rewrite !Hamilton.dot_vm by exact R.
  assert (X : forall a, vx (vm a r) = vx a).
  { intros a. transitivity (dot (vm a r) (vm ex r)); [rewrite E; unfold dot, ex; cbn; ring|]. rewrite Hamilton.dot_vm by exact R. unfold dot, ex. cbn. ring. }
  rewrite !X. reflexivity.
Qed.
Lemma hand_sq e : hand e * hand e = 1.
Proof. unfold hand. destruct (e_kind e) as [|[m|] s]; try lra. destruct (m_mirror m); lra. Qed.

Lemma chain es : forall n w Y U dy du sg, axis_ray n w es -> 0 < n -> sg * sg = 1 ->
  vlin Y v0 dy -> vlin U w du -> near (fun h => dot (U h) (U h) = 1) ->
  forall j, (j < length es)%nat ->
  exists nj P W v dp dv, nth_error (sys_paraxial es (Some (lateral sg w n dy du)) n l) j = Some (Some (lateral (sg * hands es j) v nj dp dv), nj) /\
    vlin P v0 dp /\ vlin W v dv /\
    near (fun h => exists s, nth_error (sys_propagate newton es (Some (Y h)) (Some (U h)) n l c) j = Some s /\
      st_y s = Some (P h) /\ st_u s = Some (W h) /\ st_n s = nj).
Proof.
  induction es as [|e es IH]; intros n w Y U dy du sg AX NP SG LY LU UN j J; [cbn in J; lia|].
  destruct AX as (OA & DW & u & v & n1 & t & w1 & TU & UZ & VZ & PR & FV & AX).
  pose proof OA as (IP & _). pose proof (proj1 (proj1 IP)) as (_ & _ & OFF). destruct (in_plane_frame _ IP) as (r & RO & E1 & E2 & FN & TN & UX & UC).
  rewrite DW in UX, UC, OFF. rewrite TN in TU. rewrite FN in FV. injection TU as EU. injection FV as EV. rewrite EU in UX, UC.
  set (Y1 := fun h => vm (vsub3 (Y h) (p_offset (e_place e))) (mT r)). set (U1 := fun h => vm (U h) (mT r)).
  pose proof (rotation_T r RO) as ROT.
  assert (LY1 : vlin Y1 (vmul3 (- p_distance (e_place e)) u) (vm dy (mT r))).
  { pose proof (vlin_vm _ _ _ (mT r) (vlin_sub _ _ _ _ _ _ LY (vlin_const (p_offset (e_place e))))) as L. unfold Y1.
    replace (vmul3 (- p_distance (e_place e)) u) with (vm (vsub3 v0 (p_offset (e_place e))) (mT r)); [replace (vm dy (mT r)) with (vm (vsub3 dy v0) (mT r)); [exact L|f_equal; apply vec_eq; cbn; ring]|].
    rewrite OFF, <- EU. generalize (mT r) (p_distance (e_place e)). intros; vec_ring. }
  pose proof (vlin_vm _ _ _ (mT r) LU) as LU1. fold U1 in LU1. rewrite EU in LU1.
  assert (UN1 : near (fun h => dot (U1 h) (U1 h) = 1)) by (eapply near_impl; [|exact UN]; intros h H; unfold U1; rewrite Hamilton.dot_vm by exact ROT; exact H).
  assert (ST : exists P W dp dv mx, near (fun h => exists t, propagate newton e (Some (Y1 h)) (Some (U1 h)) n l c = (Some (P h), Some (W h), n1, t)) /\
    vlin P v0 dp /\ vlin W v dv /\ near (fun h => dot (W h) (W h) = 1) /\ 0 < n1 /\ vx v = 0 /\
    paraxial_matrix e n l = (n1, Some mx) /\ lateral (sg * hand e) v n1 dp dv = mv4 mx (lateral sg u n (vm dy (mT r)) (vm du (mT r)))).
  { destruct (e_kind e) as [|m s] eqn:K.
    - exact (plain_step newton e l c n Y1 U1 _ u _ v n1 t sg OA NP K UX UZ LY1 LU1 UN1 PR).
    - exact (surface_step newton e m s l c n Y1 U1 _ u _ v n1 t sg OA NP K UX UC SG LY1 LU1 UN1 PR VZ). }
  destruct ST as (P & W & dp & dv & mx & NR & LP & LW & WU & N1 & VX & PM & LAT).
  rewrite <- EU, lateral_turn in LAT by assumption.
  cbn [sys_paraxial]. unfold propagate_paraxial. rewrite PM. cbn [obind]. rewrite <- LAT.
  assert (STEP : forall h tt, propagate newton e (Some (Y1 h)) (Some (U1 h)) n l c = (Some (P h), Some (W h), n1, tt) ->
    sys_propagate newton (e :: es) (Some (Y h)) (Some (U h)) n l c =
    Step (Some (P h)) (Some (W h)) n1 (Some (U1 h)) tt :: sys_propagate newton es (Some (vm (P h) r)) (Some (vm (W h) r)) n1 l c).
  { intros h tt H. cbn [sys_propagate onormal obind]. rewrite !TN. fold (Y1 h) (U1 h). cbn [obind]. rewrite H. cbn [onormal obind]. rewrite !FN. reflexivity. }
  destruct j as [|j].
  - exists n1, P, W, v, dp, dv. cbn [nth_error hands]. split; [reflexivity|]. split; [exact LP|]. split; [exact LW|].
    eapply near_impl; [|exact NR]. intros h (tt & H). cbn beta in H. rewrite (STEP h tt H). cbn [nth_error]. eexists; split; [reflexivity|]. cbn. auto.
  - cbn [nth_error hands]. cbn [length] in J.
    assert (LP' : vlin (fun h => vm (P h) r) v0 (vm dp r)) by (pose proof (vlin_vm _ _ _ r LP) as L; replace (vm v0 r) with v0 in L by (clear; destruct r as [[] [] []]; vec_simpl; apply vec_eq; cbn; ring); exact L).
    pose proof (vlin_vm _ _ _ r LW) as LW'. rewrite EV in LW'.
    destruct (IH n1 w1 (fun h => vm (P h) r) (fun h => vm (W h) r) (vm dp r) (vm dv r) (sg * hand e) AX N1) with (j := j) as (nj & Pj & Wj & vj & dpj & dvj & SP & L1 & L2 & NN); try lia; try assumption.
    + transitivity (sg * sg * (hand e * hand e)); [ring|rewrite SG, hand_sq; ring].
    + eapply near_impl; [|exact WU]. intros h H. cbn beta in *. rewrite Hamilton.dot_vm by exact RO. exact H.
    + rewrite <- EV, lateral_turn in SP by assumption. exists nj, Pj, Wj, vj, dpj, dvj. split; [replace (sg * (hand e * hands es j)) with (sg * hand e * hands es j) by ring; exact SP|]. split; [exact L1|]. split; [exact L2|].
      eapply near_impl; [|exact (near_and _ _ NR NN)]. intros h ((tt & H1) & (s & H2 & H3)). cbn beta in *. rewrite (STEP h tt H1). exists s. auto.
Qed.

(** for the neighbours of the axis ray the traced heights and directions change, to first order, as the matrices of the elements say: x and
    y' are counted along the x axis and across x and the traced ray, turned over by each mirror *)
Theorem C85_folded es n w Y U dy du : axis_ray n w es -> 0 < n ->
  vlin Y v0 dy -> vlin U w du -> near (fun h => dot (U h) (U h) = 1) ->
  forall j, (j < length es)%nat ->
  exists nj P W v dp dv, vlin P v0 dp /\ vlin W v dv /\
    near (fun h => exists s, nth_error (sys_propagate newton es (Some (Y h)) (Some (U h)) n l c) j = Some s /\
      st_y s = Some (P h) /\ st_u s = Some (W h) /\ st_n s = nj) /\
    nth_error (sys_paraxial es (Some (lateral 1 w n dy du)) n l) j = Some (Some (lateral (hands es j) v nj dp dv), nj).
Proof.
  intros AX NP LY LU UN j J. destruct (chain es n w Y U dy du 1 AX NP ltac:(lra) LY LU UN j J) as (nj & P & W & v & dp & dv & SP & L1 & L2 & NN).
  exists nj, P, W, v, dp, dv. split; [exact L1|]. split; [exact L2|]. split; [exact NN|]. rewrite Rmult_1_l in SP. exact SP.
Qed.
End System.
Print Assumptions C85_folded.

(** ** a concave mirror under the angle with cosine 4/5 and a screen across the reflected axis *)
Definition tilt : R := acos (4/5).
Lemma cos_tilt : cos tilt = 4/5. Proof. apply cos_acos. lra. Qed.
Lemma tilt_large : tol < tilt.
Proof.
  unfold tol. assert (B : 0 <= tilt <= PI) by apply acos_bound. destruct (Rlt_dec (/ 100000000) tilt) as [H|H]; [exact H|]. exfalso.
  pose proof (circle tilt) as C. rewrite cos_tilt in C. assert (S : sin tilt <= tilt).
  { destruct (Req_dec tilt 0) as [->|Z]; [rewrite sin_0; lra|]. left. apply sin_lt_x. lra. }
  assert (0 <= sin tilt) by (apply sin_ge_0; lra). nra.
Qed.
Definition silver_mirror (p : placement) : element := El p None (Sph (Some silver) (Surf (- (1/10)) 0 None false)).
Lemma far_in_plane d w : 0 <= d -> dot w w = 1 -> vx w = 0 -> vz w = - (7/25) -> exists p, update d w v0 = Some p /\ in_plane p /\ p_direction p = w /\ p_distance p = d /\ p_angles p = v0.
Proof.
  intros D W X Z. destruct (update_spec d w v0) as (p & E & NF & FO & A & DI & u & HU & OF & DU). exists p. split; [exact E|].
  destruct (unit_or_axis_spec w) as (u' & HU' & _ & _ & _ & UW). assert (u' = u) by congruence. subst u'. specialize (UW W). subst u.
  assert (PW : p_direction p = w) by (rewrite DU; destruct (Rlt_dec d 0); [lra|reflexivity]).
  split; [|split; [exact PW|split; [rewrite DI; apply Rabs_right; lra|exact A]]].
  unfold in_plane. rewrite PW, A. cbn [vx vy vz v0]. split; [split; assumption|]. split; [exact X|]. split; [reflexivity|]. split; [reflexivity|]. split; [reflexivity|].
  unfold dot in W. rewrite X, Z in W. split.
  - intros S. exfalso. destruct FO as (ST & _). rewrite ST, PW in S. apply allclose_ez in S. destruct S as (_ & _ & S). rewrite Z in S. rewrite Rabs_left in S by lra. unfold tol in S. lra.
  - intros S. exfalso. apply allclose_v0 in S. destruct S as (S & _). unfold cross, ez, tol in S. cbn in S. rewrite Rmult_1_r, Rmult_0_r, Rminus_0_r in S. apply Rabs_def2b in S. nra.
Qed.
Lemma tilted_in_plane : exists p, update 3 ez (V tilt 0 0) = Some p /\ in_plane p /\ p_direction p = ez /\ p_distance p = 3 /\ p_angles p = V tilt 0 0.
Proof.
  destruct (update_spec 3 ez (V tilt 0 0)) as (p & E & NF & FO & A & DI & u & HU & OF & DU). exists p. split; [exact E|].
  destruct (unit_or_axis_spec ez) as (u' & HU' & _ & _ & _ & UW). assert (u' = u) by congruence. subst u'. specialize (UW ez_unit). subst u.
  assert (PW : p_direction p = ez) by (rewrite DU; destruct (Rlt_dec 3 0); [lra|reflexivity]).
  split; [|split; [exact PW|split; [rewrite DI; apply Rabs_right; lra|exact A]]].
  unfold in_plane. rewrite PW, A. cbn [vx vy vz ez]. split; [split; assumption|]. split; [reflexivity|]. split; [reflexivity|]. split; [reflexivity|]. split; [|split; auto].
  intros S. exfalso. destruct FO as (_ & NO & _). rewrite NO, A in S. apply allclose_v0 in S. destruct S as (S & _). cbn in S. pose proof tilt_large. apply Rabs_def2b in S. lra.
Qed.
Example C85_folded_example newton : exists es, length es = 2%nat /\ axis_ray newton 1 false 1 ez es /\ hands es 1 = -1 /\
  exists e, nth_error es 0 = Some e /\ cos (vx (p_angles (e_place e))) = 4/5 /\ e = silver_mirror (e_place e).
Proof.
  destruct tilted_in_plane as (p & _ & IP & PD & DI & AN).
  destruct (in_plane_frame p IP) as (r & RO & E1 & E2 & FN & TN & UX & UZ). rewrite PD in UX, UZ. rewrite AN in UZ. cbn [vx] in UZ. rewrite cos_tilt in UZ. set (u := vm ez (mT r)) in *.
  assert (UU : dot u u = 1) by (unfold u; rewrite Hamilton.dot_vm by (apply rotation_T; exact RO); apply ez_unit).
  set (s := vy u). assert (EU : u = V 0 s (4/5)) by (apply vec_eq; cbn; auto). assert (SS : s * s = 9/25) by (unfold dot in UU; rewrite UX, UZ in UU; unfold s; lra).
  set (v := V 0 s (- (4/5))). set (w1 := vm v r).
  clearbody s. assert (VV : dot v v = 1) by (unfold v, dot; cbn; lra).
  assert (WW : dot w1 w1 = 1) by (unfold w1; rewrite Hamilton.dot_vm by exact RO; exact VV).
  assert (UR : vm u r = ez) by (unfold u; apply rotation_inv_l; exact RO).
  assert (WZ : vz w1 = - (7/25)).
  { transitivity (dot w1 (vm u r)); [rewrite UR; unfold dot, ez; cbn; ring|]. unfold w1. rewrite Hamilton.dot_vm by exact RO. rewrite EU. unfold v, dot. cbn. lra. }
  assert (WX : vx w1 = 0).
  { transitivity (dot w1 (vm ex r)); [rewrite E1; unfold dot, ex; cbn; ring|]. unfold w1. rewrite Hamilton.dot_vm by exact RO. unfold v, dot, ex. cbn. ring. }
  destruct (far_in_plane 5 w1 ltac:(lra) WW WX WZ) as (p2 & _ & IP2 & PD2 & DI2 & AN2).
  destruct (in_plane_frame p2 IP2) as (r2 & RO2 & E12 & E22 & FN2 & TN2 & UX2 & UZ2). rewrite PD2 in UX2, UZ2. rewrite AN2 in UZ2. cbn [vx v0] in UZ2. rewrite cos_0 in UZ2.
  assert (W2 : vm w1 (mT r2) = ez).
  { assert (Q : dot (vm w1 (mT r2)) (vm w1 (mT r2)) = 1) by (rewrite Hamilton.dot_vm by (apply rotation_T; exact RO2); exact WW). clear TN2 FN2. set (x := vm w1 (mT r2)) in *. clearbody x. unfold dot in Q. rewrite UX2, UZ2 in Q. apply vec_eq; cbn; [exact UX2| |exact UZ2]. assert (Z : vy x * vy x = 0) by lra. apply Rmult_integral in Z. lra. }
  exists [silver_mirror p; El p2 None Plain]. split; [reflexivity|]. split.
  2: { split; [cbn; ring|]. exists (silver_mirror p). split; [reflexivity|]. split; [cbn [e_place silver_mirror]; rewrite AN; exact cos_tilt|reflexivity]. }
  cbn [axis_ray e_place silver_mirror]. split.
  { split; [exact IP|]. split; [split; [exact (proj1 IP)|cbn; intros; discriminate]|]. split; [discriminate|]. cbn [e_kind silver_mirror s_asph e_place]. split; [reflexivity|]. split; [rewrite AN; cbn [vx]; rewrite cos_tilt; lra|]. cbn. split; reflexivity. }
  split; [exact PD|]. exists u, v, 1, (Some (3 * 1)), w1. split; [apply TN|]. split; [rewrite UZ; lra|]. split; [cbn; lra|]. split; [|split; [apply FN|]].
  - assert (E : at_ray (vmul3 (- (3)) u) u 3 = v0) by (rewrite EU; unfold at_ray; apply vec_eq; cbn; lra).
    rewrite DI, <- E. unfold silver_mirror. destruct (vertex_clean (Surf (- (1/10)) 0 None false) eq_refl) as (_ & SN). rewrite conic_normal in SN; [|reflexivity|unfold r2_of; cbn; lra]. assert (SE : sheet_normal (- (1/10)) 0 v0 = ez) by (cbn [s_c s_k] in SN; congruence).
    apply meets_step; cbn [s_asph s_c s_alt s_k]; try reflexivity; try lra.
    + unfold meets. rewrite E, SE. split; [|rewrite EU; unfold r2_of, lead, dot, ez; cbn; split; [lra|split; nra]].
      unfold sheet. cbn. split; [lra|]. unfold Rdiv. ring.
    + cbn [m_mirror silver]. rewrite E, SE, reflect_normal by (intros Z; injection Z; lra). f_equal. rewrite EU. unfold v, dot, ez. apply vec_eq; cbn; field.
  - cbn [axis_ray e_place]. split; [|split; [exact PD2|]].
    { split; [exact IP2|]. split; [split; [exact (proj1 IP2)|exact I]|]. split; [discriminate|exact I]. }
    exists ez, ez, 1, (Some (5 * 1)), w1. split; [rewrite TN2, W2; reflexivity|]. split; [cbn; lra|]. split; [cbn; lra|].
    split; [|split; [rewrite FN2, <- W2, rotation_inv_l by exact RO2; reflexivity|exact I]].
    rewrite DI2. unfold propagate. cbn [e_kind obind]. unfold plane_intercept. rewrite fdiv_some by (cbn; lra). cbn [obind].
    assert (E : - vz (vmul3 (- (5)) ez) / vz ez = 5) by (cbn; field). rewrite E. f_equal. f_equal. f_equal. f_equal. unfold at_ray, ez. apply vec_eq; cbn; lra.
Qed.

(** ** tilts by the second angle are not in the matrices: the same mirror turned by that angle has the power of the mirror without tilt *)
Theorem C85_other_tilt_refuted newton : exists p, update 3 ez (V 0 tilt 0) = Some p /\
  exists P W v dp dv, vlin P v0 dp /\ vlin W v dv /\
    near (fun h => exists i t, sys_propagate newton [silver_mirror p] (Some (V 0 h 0)) (Some ez) 1 1 false = [Step (Some (P h)) (Some (W h)) 1 i t]) /\
    vy dp = 1 /\ vy dv = - (4/25) /\
    sys_paraxial [silver_mirror p] (Some (V4 0 1 0 0)) 1 1 = [(Some (V4 0 1 0 (- (1/5))), 1)].
Proof.
  destruct (update_spec 3 ez (V 0 tilt 0)) as (p & E & NF & FO & A & DI & u' & HU & OF & DU). exists p. split; [exact E|].
  assert (GP : good_place p) by (split; assumption).
  destruct (unit_or_axis_spec ez) as (u2 & HU' & _ & _ & _ & UW). assert (u2 = u') by congruence. subst u2. specialize (UW ez_unit). subst u'.
  rewrite Rabs_right in DI by lra.
  assert (MAPS : exists r, rotation r /\ r = axis_rot 1 tilt /\ (forall y, from_normal p y = Some (vm y r)) /\ (forall y, to_normal p y = Some (vm y (mT r)))).
  { assert (PW : p_direction p = ez) by (rewrite DU; destruct (Rlt_dec 3 0); [lra|reflexivity]).
    destruct FO as (ST & NO & _ & FR). rewrite PW, allclose_refl_ez in ST.
    assert (NO' : p_normal p = false).
    { destruct (p_normal p) eqn:N; [|reflexivity]. exfalso. rewrite A in NO. symmetry in NO. apply allclose_v0 in NO. destruct NO as (_ & S & _). cbn in S. pose proof tilt_large. apply Rabs_def2b in S. lra. }
    assert (PR : p_rotated p = true) by (unfold p_rotated; rewrite NO'; reflexivity). destruct (FR PR) as (r & ER & RO & r1 & r2 & E0 & E1 & E2). rewrite ST in E1. rewrite NO', A in E2.
    rewrite (euler_product _ _ _ rxyz rxyz_ok) in E2. change (r2 = mm (axis_rot 0 0) (mm (axis_rot 1 tilt) (axis_rot 2 0))) in E2.
    exists r. split; [exact RO|]. split; [|unfold from_normal, to_normal, do_rotate; rewrite PR, ER; split; reflexivity].
    assert (A0 : axis_rot 0 0 = eye) by (unfold axis_rot, eye, ex, ey, ez; rewrite sin_0, cos_0; f_equal; f_equal; ring). assert (A2 : axis_rot 2 0 = eye) by (unfold axis_rot, eye, ex, ey, ez; rewrite sin_0, cos_0; f_equal; f_equal; ring).
    rewrite E0, E1, E2, A0, A2, mm_eye_r, !mm_eye_l. reflexivity. }
  destruct MAPS as (r & RO & ER & FN & TN).
  pose proof cos_tilt as CT. pose proof (circle tilt) as SC. rewrite CT in SC. set (s := sin tilt) in *.
  assert (EU : vm ez (mT r) = V s 0 (4/5)) by (rewrite ER; unfold axis_rot; fold s; rewrite CT; vec_simpl; apply vec_eq; cbn; ring).
  set (u := vm ez (mT r)) in *. set (v := V s 0 (- (4/5))).
  assert (UU : dot u u = 1) by (rewrite EU; unfold dot; cbn; lra).
  assert (SN : surface_normal (Surf (- (1/10)) 0 None false) v0 = Some ez) by (apply vertex_clean; reflexivity).
  assert (PR : propagate newton (silver_mirror p) (Some (vmul3 (-3) u)) (Some u) 1 1 false = (Some v0, Some v, 1, Some (3 * 1))).
  { assert (EE : at_ray (vmul3 (-3) u) u 3 = v0) by (rewrite EU; unfold at_ray; apply vec_eq; cbn; lra).
    rewrite <- EE. unfold silver_mirror. rewrite conic_normal in SN; [|reflexivity|unfold r2_of; cbn; lra]. assert (SE : sheet_normal (- (1/10)) 0 v0 = ez) by (cbn [s_c s_k] in SN; congruence).
    apply meets_step; cbn [s_asph s_c s_alt s_k]; try reflexivity; try lra.
    + unfold meets. rewrite EE, SE. split; [|rewrite EU; unfold r2_of, lead, dot, ez; cbn; split; [lra|split; nra]].
      unfold sheet. cbn. split; [lra|]. unfold Rdiv. ring.
    + cbn [m_mirror silver]. rewrite EE, SE, reflect_normal by (intros Z; injection Z; lra). f_equal. rewrite EU. unfold v, dot, ez. apply vec_eq; cbn; field. }
  assert (GE : good_element 1 (silver_mirror p)) by (split; [exact GP|cbn; intros; discriminate]).
  set (Y1 := fun h => vadd3 (vmul3 (-3) u) (vmul3 h ey)).
  assert (LY : vlin Y1 (vmul3 (-3) u) ey).
  { unfold Y1. pose proof (vlin_add _ _ _ _ _ _ (vlin_const (vmul3 (-3) u)) (vlin_scale _ _ _ _ _ _ lin_id (vlin_const ey))) as L.
    replace (vadd3 (vmul3 (-3) u) (vmul3 0 ey)) with (vmul3 (-3) u) in L by (apply vec_eq; cbn; ring). replace (vadd3 v0 (vadd3 (vmul3 1 ey) (vmul3 0 v0))) with ey in L by (apply vec_eq; cbn; ring). exact L. }
  assert (CL : clean_hit (silver_mirror p) u v0 v).
  { unfold clean_hit. cbn [e_kind silver_mirror]. split; [reflexivity|]. split; [apply vertex_clean; reflexivity|]. exists ez. split; [exact SN|]. rewrite EU. unfold v, dot, ez. cbn. split; lra. }
  destruct (pencil newton (silver_mirror p) (Some silver) (Surf (- (1/10)) 0 None false) Y1 (fun _ => u) (vmul3 (-3) u) ey u v0 1 1 false v0 v 1 _ GE ltac:(lra) eq_refl LY (vlin_const u) ltac:(apply near_true; intros; exact UU) PR CL ltac:(discriminate))
    as (P & W & dp & dv & tt & t' & g & NR & LP & LV & _ & _ & _ & _ & _ & _ & EDP & H). cbv zeta in H. destruct H as (_ & _ & _ & _ & GD & _ & _ & LAW & DLAW).
  assert (GZ : gradient (s_c (Surf (- (1/10)) 0 None false)) (s_k (Surf (- (1/10)) 0 None false)) v0 = ez) by (unfold gradient, ez; apply vec_eq; cbn; ring). rewrite GZ in *.
  assert (DP : dp = vadd3 ey (vmul3 t' u)) by (rewrite EDP; apply vec_eq; cbn; ring). rewrite EU in DP.
  assert (T0 : t' = 0) by (rewrite DP in GD; unfold dot in GD; cbn in GD; lra). rewrite T0 in DP.
  assert (Dy : vy dp = 1) by (rewrite DP; cbn; ring). assert (Dz : vz dp = 0) by (rewrite DP; cbn; ring).
  assert (G1 : g = - (8/5)) by (apply (f_equal vz) in LAW; rewrite EU in LAW; cbn in LAW; lra).
  exists P, W, v, dp, dv. split; [exact LP|]. split; [exact LV|]. split; [|split; [exact Dy|split]].
  - eapply near_impl; [|exact NR]. intros h (t & H). cbn beta in H. exists (Some u), t. cbn [sys_propagate onormal obind e_place silver_mirror]. rewrite !TN. cbn [obind]. fold u.
    replace (vm (vsub3 (V 0 h 0) (p_offset p)) (mT r)) with (Y1 h).
    + rewrite H. reflexivity.
    + unfold Y1. rewrite OF, EU, ER. unfold axis_rot. fold s. rewrite CT. vec_simpl. unfold ez, ey. apply vec_eq; cbn; ring.
  - apply (f_equal vx) in DLAW. cbn in DLAW. rewrite Dy, Dz, G1 in DLAW. lra.
  - cbn [sys_paraxial]. unfold propagate_paraxial, paraxial_matrix, transfer_matrix, vertex_curvature, refraction_matrix, index_after. cbn [e_kind silver_mirror e_place s_asph s_c m_mirror silver m_index obind].
    rewrite A. cbn [vx vz]. rewrite cos_0, !fdiv_some by lra. cbn [obind]. rewrite DI.
    change (M4 (V4 1 0 0 0) (V4 0 1 0 0) (V4 (2 * - (1 / 10) * 1) 0 1 0) (V4 0 (2 * - (1 / 10) / 1) 0 1)) with (blocks 1 0 1 0 (2 * - (1 / 10) * 1) 1 (2 * - (1 / 10) / 1) 1).
    change (M4 (V4 1 0 (3 / 1) 0) (V4 0 1 0 (3 / 1)) (V4 0 0 1 0) (V4 0 0 0 1)) with (blocks 1 (3/1) 1 (3/1) 0 1 0 1). rewrite blocks_mm, flat_azimuth.
    unfold blocks, mv4, dot4. cbn [q0 q1 q2 q3 w0 w1 w2 w3]. do 3 f_equal. f_equal; lra.
Qed.
Print Assumptions C85_other_tilt_refuted.
