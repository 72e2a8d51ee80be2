(** Property C19: the paraxial trace is the first order of the exact trace. *)
From Coq Require Import Reals List Lra Lia Psatz.
From Verif Require Import Base Vec RotModel RotProofs PlacementModel PlacementProofs ElementModel ElementProofs TraceProofs
  PropsTrace PropsRescale ParaxialModel ParaxialProofs FirstOrder LimitProofs.
Import ListNotations.
Open Scope R_scope.

(** specification vocabulary: a family of vectors with value [a] and derivative
    [b] at parameter 0 (derivative in the sense of the standard library) *)
Definition family (Y : R -> vec) (a b : vec) : Prop :=
  Y 0 = a /\ derivable_pt_lim (fun h => vx (Y h)) 0 (vx b) /\ derivable_pt_lim (fun h => vy (Y h)) 0 (vy b) /\
  derivable_pt_lim (fun h => vz (Y h)) 0 (vz b).
Lemma family_vlin Y a b : family Y a b <-> vlin Y a b.
Proof.
  unfold family, vlin, lin. split.
  - intros (-> & X & Y' & Z). auto.
  - intros ((X & X') & (Y0 & Y') & (Z & Z')). split; [|auto]. apply vec_eq; auto.
Qed.

(** Any family of exact rays through the axis of a centred system of refracting conic
    surfaces: at every element the exact trace succeeds for all small parameters, and
    the derivatives of its transverse position and of index times transverse direction are
    the paraxial ray launched with the derivatives of the family. *)
Theorem C19_paraxial_limit newton e0 es l c n Y U dy du :
  centred e0 -> Forall centred es -> Forall (conic_refracting l c) es -> 0 < n ->
  family Y v0 dy -> family U ez du ->
  forall j, (j < length es)%nat ->
  exists a b p q nj, nth_error (sys_paraxial es (Some (V4 (vx dy) (vy dy) (n * vx du) (n * vy du))) n l) j
      = Some (Some (V4 a b p q), nj) /\
    exists Yj Uj dz uz, family Yj v0 (V a b dz) /\
      family (fun h => vmul3 nj (Uj h)) (vmul3 nj ez) (V p q uz) /\
      exists eps, 0 < eps /\ forall h, Rabs h < eps ->
        exists s, nth_error (geo_trace newton (e0 :: es) (Y h) (U h) n l c) (S j) = Some s /\
          st_y s = Some (Yj h) /\ st_u s = Some (Uj h) /\ st_n s = nj.
Proof.
  intros C0 CS RS N LY LU j J. apply family_vlin in LY. apply family_vlin in LU.
  destruct (system_lin newton es l c n Y U dy du CS RS N LY LU j J)
    as (a & b & p & q & nj & SP & NJ & Yj & Uj & dz & uz & L1 & L2 & (eps & EP & NN)).
  exists a, b, p, q, nj. split; [auto|]. exists Yj, Uj, dz, (nj * uz). split; [apply family_vlin; auto|]. split.
  - apply family_vlin. destruct L2 as (Lx & Ly & Lz). unfold vmul3. cbn [vx vy vz ez] in *.
    split; [|split]; cbn [vx vy vz]; (eapply lin_eq; [solve [lin_auto]|ring|field; lra]).
  - exists eps. split; [auto|]. intros h H. destruct (NN h H) as (s & H1 & H2). exists s. split; [|auto].
    cbn [geo_trace nth_error]. destruct (centred_frame e0 C0) as (_ & _ & _ & FN). rewrite !FN. exact H1.
Qed.

(** a centred conic mirror *)
Definition conic_mirror (l : R) (c : bool) (e : element) : Prop :=
  (c = true -> e_radius e <> Some 0) /\
  exists m s, e_kind e = Sph (Some m) s /\ s_asph s = None /\ s_alt s = false /\ (s_c s = 0 \/ 1 + s_k s <> 0) /\
    m_mirror m = true /\ m_index m l = 1.

(** at a mirror in a medium of index n the first order of the exact reflected direction
    differs from the paraxial slope by (n - 1) times the incident slope, and the index
    after it is n instead of 1: they agree for all rays exactly if n = 1 *)
Theorem C19_mirror_defect newton e l c n Y U dy du :
  centred e -> conic_mirror l c e -> 0 < n ->
  family Y v0 dy -> family U ez du ->
  exists a b p q, sys_paraxial [e] (Some (V4 (vx dy) (vy dy) (n * vx du) (n * vy du))) n l = [(Some (V4 a b p q), 1)] /\
    exists Y' U' dz uz, family Y' v0 (V a b dz) /\
      family U' (V 0 0 (-1)) (V (p - (n - 1) * vx du) (q - (n - 1) * vy du) uz) /\
      exists eps, 0 < eps /\ forall h, Rabs h < eps ->
        exists t, sys_propagate newton [e] (Some (Y h)) (Some (U h)) n l c =
          [Step (Some (Y' h)) (Some (U' h)) n (Some (U h)) (Some t)].
Proof.
  intros CE (CR & m & s & EK & A & AL & NP & MI & M1) N LY LU. apply family_vlin in LY. apply family_vlin in LU.
  destruct (centred_frame e CE) as (DP & OF & TN & FN).
  set (d := p_distance (e_place e)) in *.
  set (Y1 := fun h => vsub3 (Y h) (V 0 0 d)).
  assert (LY1 : vlin Y1 (V 0 0 (- d)) dy).
  { destruct LY as (Yx & Yy & Yz). unfold Y1, vsub3. cbn [vx vy vz v0] in *.
    split; [|split]; cbn [vx vy vz]; (eapply lin_eq; [solve [lin_auto]|ring|ring]). }
  destruct (intercept_lin s d Y1 U dy du AL NP LY1 LU) as (t' & T & LT & NT).
  destruct (at_ray_lin d T t' Y1 U dy du LT LY1 LU) as (dz & LY').
  set (Y' := fun h => at_ray (Y1 h) (U h) (T h)) in *.
  pose proof (clip_lin (e_radius e) c Y' U _ CR LY') as NC.
  destruct (normal_lin s Y' _ A LY') as (nz & NN & LN & NNear).
  destruct (reflect_lin NN U _ du LN LU) as (uz & U' & LU' & UNear).
  assert (PX : exists a b p q, sys_paraxial [e] (Some (V4 (vx dy) (vy dy) (n * vx du) (n * vy du))) n l = [(Some (V4 a b p q), 1)] /\
     a = vx dy + d * vx du /\ b = vy dy + d * vy du /\ p = n * vx du + 2 * s_c s * a /\ q = n * vy du + 2 * s_c s * b).
  { do 4 eexists. split.
    - cbn [sys_paraxial]. unfold propagate_paraxial, paraxial_matrix, index_after. rewrite EK. unfold transfer_matrix.
      fold d. rewrite fdiv_some by lra. cbn [obind]. unfold vertex_curvature. rewrite A. cbn [obind].
      destruct CE as (_ & _ & AN). rewrite AN. cbn [vx vz v0]. fold flip4. rewrite flip4_T, cos_0.
      unfold refraction_matrix. rewrite MI. rewrite fdiv_some by lra. cbn [obind].
      rewrite !mv4_mm4, flip4_mv, transfer_mv, lens_mv, flip4_mv, M1. reflexivity.
    - repeat split; field; lra. }
  destruct PX as (a & b & p & q & PX & -> & -> & -> & ->).
  do 4 eexists. split; [exact PX|]. exists Y', U', dz, uz. split; [apply family_vlin; auto|]. split.
  - apply family_vlin. match goal with H : vlin U' ?z ?a |- vlin U' ?z' ?b => replace b with a; [exact H|] end.
    apply vec_eq; cbn [vx vy vz]; ring.
  - destruct (near_and _ _ (near_and _ _ NT NC) (near_and _ _ NNear UNear)) as (eps & EP & NE).
    exists eps. split; [auto|]. intros h H. destruct (NE h H) as ((H1 & H2) & (H3 & H4)). clear NE.
    exists (T h * n). cbn [sys_propagate onormal obind]. rewrite OF, !TN. fold (Y1 h).
    unfold propagate. rewrite EK. unfold intercept. rewrite A. unfold get_n_mu. rewrite MI. cbn [obind].
    rewrite H1. cbn [obind]. fold (Y' h). rewrite H2. destruct (Req_EM_T (-1) 0); [lra|].
    unfold refract. destruct (Req_EM_T (-1) 1); [lra|]. cbn [obind]. rewrite H3. cbn [obind]. rewrite H4. reflexivity.
Qed.

Lemma centred_axis d : 0 <= d -> exists p, init d ez v0 None = Some p /\ updated p /\ p_distance p = d /\
  p_direction p = ez /\ p_angles p = v0.
Proof.
  intros D. destruct (init_spec d ez v0 None) as (p & E & NF & FO). exists p. split; [auto|].
  split; [exists d, ez, v0; unfold init in E; destruct (update d ez v0); auto|].
  unfold init in E.
  assert (U : unit_or_axis ez = Some ez).
  { destruct (unit_or_axis_spec ez) as (u & -> & _ & _ & _ & H). rewrite H; auto. unfold dot, ez; cbn; ring. }
  unfold update in E. rewrite U in E. cbn [obind] in E. destruct (Rlt_dec d 0); [lra|].
  rewrite allclose_refl_ez, allclose_refl_v0 in E. cbn [andb obind] in E. injection E as <-. cbn. auto.
Qed.

Definition water : material := Material (fun _ => 4/3) false true.
Definition silver : material := Material (fun _ => 1) true false.
(** the ray (0, h, 0) with direction (0, sin h, cos h) *)
Definition demo_Y (h : R) := V 0 h 0.
Definition demo_U (h : R) := V 0 (sin h) (cos h).
Lemma demo_family : family demo_Y v0 (V 0 1 0) /\ family demo_U ez (V 0 1 0).
Proof.
  unfold family, demo_Y, demo_U. cbn [vx vy vz]. rewrite sin_0, cos_0.
  split; (split; [reflexivity|]); (split; [apply derivable_pt_lim_const|]).
  - split; [apply derivable_pt_lim_id|apply derivable_pt_lim_const].
  - split; [|].
    + replace 1 with (cos 0) by apply cos_0. apply derivable_pt_lim_sin.
    + replace 0 with (- sin 0) at 2 by (rewrite sin_0; ring). apply derivable_pt_lim_cos.
Qed.

(** a mirror under water: the exact slope and index times slope both differ from the
    paraxial ones *)
Theorem C19_immersed_mirror_refuted newton : exists e, centred e /\ conic_mirror 1 false e /\
  family demo_Y v0 (V 0 1 0) /\ family demo_U ez (V 0 1 0) /\
  exists a b p q, sys_paraxial [e] (Some (V4 0 1 (4/3 * 0) (4/3 * 1))) (4/3) 1 = [(Some (V4 a b p q), 1)] /\
    exists Y' U' sx sy sz, (exists eps, 0 < eps /\ forall h, Rabs h < eps ->
        exists t, sys_propagate newton [e] (Some (demo_Y h)) (Some (demo_U h)) (4/3) 1 false =
          [Step (Some (Y' h)) (Some (U' h)) (4/3) (Some (demo_U h)) (Some t)]) /\
      family U' (V 0 0 (-1)) (V sx sy sz) /\ sy <> q / 1 /\ 4/3 * sy <> q.
Proof.
  destruct (centred_axis 0) as (p0 & _ & UP & PD & DI & AN); [lra|].
  set (e := El p0 None (Sph (Some silver) (Surf (1/10) 0 None false))).
  assert (CE : centred e) by (split; auto).
  assert (CM : conic_mirror 1 false e).
  { split; [discriminate|]. exists silver, (Surf (1/10) 0 None false). cbn. repeat split; auto. right; lra. }
  destruct demo_family as (FY & FU).
  exists e. split; [auto|]. split; [auto|]. split; [auto|]. split; [auto|].
  destruct (C19_mirror_defect newton e 1 false (4/3) demo_Y demo_U _ _ CE CM ltac:(lra) FY FU)
    as (a & b & p & q & PX & Y' & U' & dz & uz & L1 & L2 & NE).
  cbn [vx vy vz] in *. exists a, b, p, q. split; [auto|]. exists Y', U'. do 3 eexists.
  split; [exact NE|]. split; [exact L2|].
  assert (Q : q = 4/3 + 2/10).
  { clear NE L1 L2. revert PX. cbn [sys_paraxial]. unfold propagate_paraxial, paraxial_matrix, index_after. cbn [e_kind e_place e].
    unfold transfer_matrix. rewrite fdiv_some by lra. cbn [obind]. unfold vertex_curvature. cbn [s_asph s_c obind].
    rewrite AN. cbn [vx vz v0]. fold flip4. rewrite flip4_T, cos_0.
    unfold refraction_matrix. cbn [m_mirror silver]. rewrite fdiv_some by lra. cbn [obind].
    rewrite !mv4_mm4, flip4_mv, transfer_mv, lens_mv, flip4_mv, PD. intros E. injection E as _ _ _ <- . field. }
  rewrite Q. split; lra.
Qed.

(** a lens of water between a centred object plane and an image plane *)
Example C19_example : exists p0 p1 p2 p3, init 0 ez v0 None = Some p0 /\ init 5 ez v0 None = Some p1 /\
  init 2 ez v0 None = Some p2 /\ init 7 ez v0 None = Some p3 /\
  let es := [El p1 (Some 10) (Sph (Some water) (Surf (1/50) 0 None false));
             El p2 (Some 10) (Sph (Some (Material (fun _ => 1) false false)) (Surf (-1/30) (1/2) None false));
             El p3 None Plain] in
  centred (El p0 None Plain) /\ Forall centred es /\ Forall (conic_refracting 1 true) es /\ 0 < 1 /\
  family demo_Y v0 (V 0 1 0) /\ family demo_U ez (V 0 1 0).
Proof.
  destruct (centred_axis 0) as (p0 & E0 & C0 & ? & ?); [lra|].
  destruct (centred_axis 5) as (p1 & E1 & C1 & ? & ?); [lra|].
  destruct (centred_axis 2) as (p2 & E2 & C2 & ? & ?); [lra|].
  destruct (centred_axis 7) as (p3 & E3 & C3 & ? & ?); [lra|].
  exists p0, p1, p2, p3. split; [auto|]. split; [auto|]. split; [auto|]. split; [auto|]. cbv zeta.
  split; [split; auto|]. split; [repeat apply Forall_cons; [..|apply Forall_nil]; split; auto|].
  split; [|split; [lra|exact demo_family]].
  repeat apply Forall_cons; [..|apply Forall_nil]; (split; [cbn; intros _; try discriminate; intros E; injection E; lra|]); cbn; auto.
  - repeat split; auto; [right|]; lra.
  - repeat split; auto; [right|]; lra.
Qed.

Print Assumptions C19_paraxial_limit.
Print Assumptions C19_mirror_defect.
Print Assumptions C19_immersed_mirror_refuted.
