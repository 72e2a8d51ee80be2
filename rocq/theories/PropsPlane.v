(** Property C79: systems of plane surfaces whose action is known in closed form:
    plane mirrors image every point sharply, mirrors at right angles reverse the
    ray, two mirrors deviate by a fixed angle, a stack of plane layers keeps the
    tangential optical direction. *)
From Coq Require Import Reals List Lra Lia Psatz.
From Verif Require Import Base Vec RotModel RotProofs RotEuler PlacementModel PlacementProofs ElementModel ElementProofs TraceProofs PropsElement PropsTrace PropsPlacement.
Import ListNotations.
Open Scope R_scope.

(** * Specification: lab-frame plane geometry *)
(** mirror image of a direction in a plane with unit normal [N], and of a point in the
    plane through [q] *)
Definition turned (N U : vec) : vec := vsub3 U (vmul3 (2 * dot U N) N).
Definition imaged (q N A : vec) : vec := vsub3 A (vmul3 (2 * dot (vsub3 A q) N) N).
(** part of a vector along the plane *)
Definition along (N U : vec) : vec := vsub3 U (vmul3 (dot U N) N).

(** lab direction of the local z axis of an element *)
Definition normal_of (e : element) : vec :=
  match from_normal (e_place e) ez with Some N => N | None => ez end.
Definition flat (s : surf) : Prop := s_c s = 0 /\ s_asph s = None.
Definition is_mirror (e : element) : bool :=
  match e_kind e with Sph (Some m) _ => m_mirror m | _ => false end.
(** a plane mirror, or something that does not act on the direction *)
Definition plane_mirror (e : element) : Prop :=
  match e_kind e with
  | Plain | Sph None _ => True
  | Sph (Some m) s => m_mirror m = true /\ flat s
  end.
(** successive images of a point / a direction *)
Fixpoint images (l : list (element * vec)) (A : vec) : vec :=
  match l with
  | [] => A
  | (e, o) :: l => images l (if is_mirror e then imaged o (normal_of e) A else A)
  end.
Fixpoint turns (l : list element) (U : vec) : vec :=
  match l with
  | [] => U
  | e :: l => turns l (if is_mirror e then turned (normal_of e) U else U)
  end.
(** total of the reported paths, undefined if one of them is *)
Fixpoint total (l : list step) : option R :=
  match l with
  | [] => Some 0
  | s :: l => do t <- st_t s; do r <- total l; Some (t + r)
  end.

Lemma dot_normal x r : rotation r -> vz (vm x (mT r)) = dot x (vm ez r).
Proof. intros _. unfold ez. vec_ring. Qed.
Lemma normal_unit l e : good_element l e -> dot (normal_of e) (normal_of e) = 1.
Proof.
  intros (G & _). destruct (normal_maps _ G) as (r & R & F & _). unfold normal_of. rewrite F, rotation_dot by auto.
  unfold dot, ez; cbn; ring.
Qed.
Lemma imaged_ray q N A U t : imaged q N (vadd3 A (vmul3 t U)) = vadd3 (imaged q N A) (vmul3 t (turned N U)).
Proof. unfold imaged, turned. vec_ring. Qed.
Lemma imaged_fix q N A : dot (vsub3 A q) N = 0 -> imaged q N A = A.
Proof. intros H. unfold imaged. rewrite H. vec_ring. Qed.

Lemma turns_filter l : forall U, turns l U = turns (filter is_mirror l) U.
Proof.
  induction l as [|e l IH]; intros U; [reflexivity|]. cbn [turns filter]. destruct (is_mirror e) eqn:E; [|apply IH].
  cbn [turns]. rewrite E. apply IH.
Qed.
Lemma images_filter l : forall U, images l U = images (filter (fun x => is_mirror (fst x)) l) U.
Proof.
  induction l as [|[e o] l IH]; intros U; [reflexivity|]. cbn [images filter fst]. destruct (is_mirror e) eqn:E; [|apply IH].
  cbn [images]. rewrite E. apply IH.
Qed.
Lemma filter_fst (l : list (element * vec)) : filter is_mirror (map fst l) = map fst (filter (fun x => is_mirror (fst x)) l).
Proof. induction l as [|[e o] l IH]; [reflexivity|]. cbn [map fst filter]. destruct (is_mirror e); cbn [map fst]; rewrite IH; reflexivity. Qed.
Lemma combine_fst (es : list element) : forall l : list vec, length l = length es -> map fst (combine es l) = es.
Proof. induction es as [|e es IH]; intros [|x l] H; try discriminate; [reflexivity|]. cbn [combine map fst]. rewrite IH; auto. Qed.
Lemma planes_fst es i : firstn i (tl es) = map fst (firstn i (tl (combine es (origins es)))).
Proof.
  rewrite <- firstn_map. f_equal. transitivity (tl (map fst (combine es (origins es)))); [|destruct (combine es (origins es)); reflexivity].
  rewrite combine_fst; [reflexivity|]. unfold origins. rewrite length_cumsum, map_length. reflexivity.
Qed.
Lemma filter_all (l m : list element) e : filter is_mirror l = m -> In e m -> is_mirror e = true.
Proof. intros <- H. apply filter_In in H. apply H. Qed.

(** three directions at right angles *)
Definition right_angled (a b c : vec) : Prop :=
  dot a a = 1 /\ dot b b = 1 /\ dot c c = 1 /\ dot a b = 0 /\ dot a c = 0 /\ dot b c = 0.

Lemma rows_eye a b c : right_angled a b c -> mm (M a b c) (mT (M a b c)) = eye.
Proof.
  intros (AA & BB & CC & AB & AC & BC). destruct a as [a1 a2 a3], b as [b1 b2 b3], c as [c1 c2 c3]; unfold dot in *; cbn in *.
  unfold eye, ex, ey, ez. apply mat_eq; apply vec_eq; cbv [mm vm mT col0 col1 col2 dot vx vy vz row0 row1 row2]; lra.
Qed.
(** such a triple resolves every vector *)
Lemma resolve a b c x : right_angled a b c -> x = vadd3 (vadd3 (vmul3 (dot x a) a) (vmul3 (dot x b) b)) (vmul3 (dot x c) c).
Proof.
  assert (K : forall a b c, right_angled a b c -> det (M a b c) = 1 -> x = vadd3 (vadd3 (vmul3 (dot x a) a) (vmul3 (dot x b) b)) (vmul3 (dot x c) c)).
  { clear. intros a b c H D. pose proof (rotation_intro _ (rows_eye _ _ _ H) D) as (_ & R & _).
    transitivity (vm x (mm (mT (M a b c)) (M a b c))); [rewrite R; clear; unfold eye, ex, ey, ez; vec_ring|]. clear. vec_ring. }
  intros H. assert (D : det (M a b c) * det (M a b c) = 1).
  { transitivity (det (mm (M a b c) (mT (M a b c)))); [rewrite det_mm, det_mT; ring|]. rewrite (rows_eye _ _ _ H). apply det_eye. }
  destruct (Req_dec (det (M a b c)) 1) as [E|E]; [apply K; auto|].
  assert (D1 : det (M a b c) = - (1)) by nra.
  transitivity (vadd3 (vadd3 (vmul3 (dot x a) a) (vmul3 (dot x b) b)) (vmul3 (dot x (vneg c)) (vneg c))).
  - apply K.
    + destruct H as (A1 & A2 & A3 & A4 & A5 & A6). destruct a as [a1 a2 a3], b as [b1 b2 b3], c as [c1 c2 c3]. unfold right_angled, dot, vneg in *; cbn in *. repeat split; lra.
    + transitivity (- det (M a b c)); [clear; vec_ring|]. lra.
  - clear. vec_ring.
Qed.

Section Plane.
Variable newton : (R -> option R) -> (R -> option R) -> option R -> option R.
Notation trace := (geo_trace newton).
Notation sysp := (sys_propagate newton).

(** one element in the lab frame *)
Lemma mirror_step e P0 U0 n l c y u n' t p v : good_element l e -> plane_mirror e -> 0 < n -> dot U0 U0 = 1 ->
  propagate newton e (do y <- P0; to_normal (e_place e) (vsub3 y (p_offset (e_place e))))
    (onormal (to_normal (e_place e)) (Some U0)) n l c = (y, u, n', t) ->
  y = Some p -> u = Some v ->
  exists Q P U k, P0 = Some Q /\ from_normal (e_place e) p = Some P /\ from_normal (e_place e) v = Some U /\ t = Some (k * n) /\ n' = n /\
    vadd3 P (p_offset (e_place e)) = vadd3 Q (vmul3 k U0) /\
    U = (if is_mirror e then turned (normal_of e) U0 else U0) /\
    (is_mirror e = true -> dot P (normal_of e) = 0).
Proof.
  intros G M N UU P Yp Uv.
  assert (OU : ounit (Some U0)) by (intros w E; injection E as <-; auto).
  destruct (lab_step newton e P0 (Some U0) n l c _ _ _ _ G N OU P) as (_ & _ & _ & K).
  destruct (K p Yp) as (Q & U0' & PP & k & -> & E & FP & -> & LIN & S1 & _). injection E as <-.
  destruct G as (G & _). destruct (normal_maps _ G) as (r & R & F & T).
  rewrite F in FP. injection FP as <-.
  exists Q, (vm p r), (vm v r), k. rewrite !F. unfold normal_of. rewrite F.
  split; [auto|]. split; [auto|]. split; [auto|]. split; [auto|].
  cbn [obind onormal] in P. rewrite !T in P. unfold propagate in P. cbn [obind] in P.
  match type of P with context [if c then clip _ ?a _ else _] => set (yy := a) in * end.
  assert (UC : forall w, (if c then clip (e_radius e) yy (Some (vm U0 (mT r))) else Some (vm U0 (mT r))) = Some w -> w = vm U0 (mT r)).
  { intros w. destruct c; [|congruence]. unfold clip. destruct yy; [|discriminate].
    destruct (e_radius e); [|congruence]. destruct (Rle_dec _ _); [congruence|discriminate]. }
  unfold plane_mirror in M. unfold is_mirror.
  destruct (e_kind e) as [|[m|] s].
  - injection P as P1 P2 P3 P4. split; [auto|]. split; [auto|]. split; [|discriminate].
    rewrite Uv in P2. apply UC in P2. subst v. rewrite rotation_inv_l by auto. reflexivity.
  - destruct M as (M & C & A). unfold get_n_mu in P. rewrite M in P. rewrite M.
    destruct (Req_EM_T (-1) 0) as [Z|_]; [lra|]. injection P as P1 P2 P3 P4. split; [auto|]. split; [auto|].
    specialize (S1 A). destruct (Req_EM_T (s_c s) 0); [|contradiction].
    split.
    + rewrite Uv in P2. unfold refract in P2. destruct (Req_EM_T (-1) 1); [lra|].
      destruct yy; [|discriminate]. cbn [obind] in P2.
      destruct (if c then _ else _) as [w|]; [|discriminate]. specialize (UC _ eq_refl). subst w. cbn [obind] in P2.
      unfold surface_normal in P2. destruct (Req_EM_T (s_c s) 0); [|contradiction]. rewrite A in P2. cbn [obind] in P2.
      rewrite reflect_normal in P2 by (intros Z; injection Z; intros; lra). injection P2 as <-.
      change (V 0 0 1) with ez.
      replace (dot (vm U0 (mT r)) ez / dot ez ez) with (dot U0 (vm ez r)).
      2:{ replace (dot ez ez) with 1 by (unfold dot, ez; cbn; ring). rewrite <- dot_normal by auto. unfold ez, dot; cbn. field. }
      unfold turned. set (d := dot U0 (vm ez r)).
      replace (vsub3 (vm U0 (mT r)) (vmul3 (2 * d) ez)) with (vadd3 (vm U0 (mT r)) (vmul3 (- (2 * d)) ez)) by (clear; vec_ring).
      rewrite vm_add, vm_scale, rotation_inv_l by auto. clear. generalize (vm ez r). intros z. vec_ring.
    + intros _. rewrite rotation_dot by auto. unfold dot, ez; cbn. rewrite S1. ring.
  - unfold get_n_mu in P. destruct (Req_EM_T 1 0); [lra|]. unfold refract in P.
    destruct (Req_EM_T 1 1); [|lra]. injection P as P1 P2 P3 P4. split; [auto|]. split; [auto|]. split; [|discriminate].
    rewrite Uv in P2. apply UC in P2. subst v. rewrite rotation_inv_l by auto. reflexivity.
Qed.

(** the invariant along the elements after the first one *)
Lemma mirror_run es : forall O P0 U0 n l c i s e o p v A a, Forall (good_element l) es -> Forall plane_mirror (firstn (S i) es) ->
  0 < n -> dot U0 U0 = 1 -> vadd3 O P0 = vadd3 A (vmul3 a U0) ->
  nth_error (sysp es (Some P0) (Some U0) n l c) i = Some s -> nth_error es i = Some e ->
  nth_error (cumsum3 O (map (fun e => p_offset (e_place e)) es)) i = Some o ->
  st_y s = Some p -> st_u s = Some v ->
  exists P U L, from_normal (e_place e) p = Some P /\ from_normal (e_place e) v = Some U /\ st_n s = n /\
    total (firstn (S i) (sysp es (Some P0) (Some U0) n l c)) = Some (n * L) /\
    U = turns (firstn (S i) es) U0 /\
    vadd3 o P = vadd3 (images (firstn (S i) (combine es (cumsum3 O (map (fun e => p_offset (e_place e)) es)))) A) (vmul3 (a + L) U).
Proof.
  induction es as [|e0 es IH]; intros O P0 U0 n l c i s e o p v A a G M N UU L Hs He Ho Hp Hv.
  { destruct i; discriminate. }
  assert (G0 : good_element l e0) by (inversion G; auto). assert (GS : Forall (good_element l) es) by (inversion G; auto).
  cbn [firstn] in M. assert (M0 : plane_mirror e0) by (inversion M; auto). assert (MS : Forall plane_mirror (firstn i es)) by (inversion M; auto).
  clear G M. cbn [sys_propagate] in *.
  destruct (propagate newton e0 _ _ n l c) as [[[y1 u1] n1] t1] eqn:P.
  assert (LIVE : exists p1 v1, y1 = Some p1 /\ u1 = Some v1).
  { destruct i as [|i].
    - cbn [nth_error] in Hs. injection Hs as <-. cbn in Hp, Hv. eauto.
    - cbn [nth_error] in Hs. destruct y1 as [p1|]; [destruct u1 as [v1|]; [eauto|]|]; exfalso.
      + destruct (dead_stays newton es _ _ _ _ _ _ _ (or_intror eq_refl) Hs) as (D & _). congruence.
      + destruct (dead_stays newton es _ _ _ _ _ _ _ (or_introl eq_refl) Hs) as (D & _). congruence. }
  destruct LIVE as (p1 & v1 & -> & ->).
  destruct (mirror_step _ _ _ _ _ _ _ _ _ _ _ _ G0 M0 N UU P eq_refl eq_refl) as (Q & P1 & U1 & k & EQ & FP & FU & -> & -> & LIN & HU & HN).
  injection EQ as <-.
  set (O1 := vadd3 O (p_offset (e_place e0))) in *.
  set (A1 := if is_mirror e0 then imaged O1 (normal_of e0) A else A).
  assert (L1 : vadd3 O1 P1 = vadd3 A1 (vmul3 (a + k) U1)).
  { assert (B : vadd3 O1 P1 = vadd3 A (vmul3 (a + k) U0)).
    { transitivity (vadd3 O (vadd3 P1 (p_offset (e_place e0)))); [unfold O1; clear; generalize (p_offset (e_place e0)); intros; vec_ring|].
      rewrite LIN. transitivity (vadd3 (vadd3 O P0) (vmul3 k U0)); [clear; vec_ring|]. rewrite L. clear; vec_ring. }
    unfold A1. destruct (is_mirror e0); [|subst U1; exact B]. subst U1. rewrite <- imaged_ray, <- B.
    symmetry. apply imaged_fix. rewrite <- (HN eq_refl). clear. f_equal. vec_ring. }
  assert (UU1 : dot U1 U1 = 1).
  { subst U1. destruct (is_mirror e0); [|auto]. pose proof (normal_unit _ _ G0) as NN. clear - UU NN.
    revert NN. generalize (normal_of e0). intros z NN.
    transitivity (dot U0 U0 - 4 * dot U0 z * dot U0 z + 4 * dot U0 z * dot U0 z * dot z z); [unfold turned; vec_ring|]. rewrite NN, UU. ring. }
  cbn [map cumsum3] in Ho. fold O1 in Ho.
  destruct i as [|i].
  - cbn [nth_error] in Hs, He, Ho. injection Hs as <-. injection He as <-. injection Ho as <-. cbn [st_y st_u] in Hp, Hv.
    injection Hp as ->. injection Hv as ->. exists P1, U1, k. split; [auto|]. split; [auto|]. split; [reflexivity|].
    split; [cbn [firstn total st_t obind]; f_equal; ring|]. split; [exact HU|].
    cbn [map cumsum3 combine firstn images]. exact L1.
  - cbn [nth_error] in Hs, He, Ho. cbn [onormal obind] in Hs. rewrite FP, FU in Hs.
    destruct (IH O1 P1 U1 n l c i s e o p v A1 (a + k) GS MS N UU1 L1 Hs He Ho Hp Hv) as (P2 & U2 & L2 & F2 & F3 & SN & TT & TU & IM).
    exists P2, U2, (k + L2). split; [auto|]. split; [auto|]. split; [auto|]. split; [|split].
    + change (firstn (S (S i)) (?x :: ?l)) with (x :: firstn (S i) l). cbn [total st_t obind onormal]. rewrite FP, FU, TT. cbn [obind]. f_equal. ring.
    + change (firstn (S (S i)) (e0 :: es)) with (e0 :: firstn (S i) es). cbn [turns]. rewrite <- HU. exact TU.
    + cbn [map cumsum3 combine]. fold O1. change (firstn (S (S i)) (?x :: ?l)) with (x :: firstn (S i) l). cbn [images]. fold A1.
      rewrite IM. f_equal. f_equal. ring.
Qed.

(** * Plane mirrors, in any number and at any tilts, image every point sharply: all rays
    whose line holds the point [A] at signed distance [a] before the start leave on lines
    through one and the same point, at the same signed distance plus the path travelled *)
Theorem C79_mirrors_image es y u n l c i s e o p v e0 o0 P0 U0 A a : physical l es -> 0 < n -> dot u u = 1 ->
  Forall plane_mirror (firstn i (tl es)) ->
  nth_error es 0 = Some e0 -> nth_error (origins es) 0 = Some o0 ->
  from_normal (e_place e0) y = Some P0 -> from_normal (e_place e0) u = Some U0 -> vadd3 o0 P0 = vadd3 A (vmul3 a U0) ->
  nth_error (trace es y u n l c) i = Some s -> nth_error es i = Some e -> nth_error (origins es) i = Some o ->
  st_y s = Some p -> st_u s = Some v ->
  exists P U L, from_normal (e_place e) p = Some P /\ from_normal (e_place e) v = Some U /\ st_n s = n /\
    total (firstn (S i) (trace es y u n l c)) = Some (n * L) /\
    U = turns (firstn i (tl es)) U0 /\
    vadd3 o P = vadd3 (images (firstn i (tl (combine es (origins es)))) A) (vmul3 (a + L) U).
Proof.
  intros G N UU M E0 O0 FP FU LIN Hs He Ho Hp Hv. destruct es as [|x es]; [discriminate|].
  cbn [nth_error] in E0. injection E0 as ->. cbn [tl] in M.
  assert (G0 : good_element l e0) by (inversion G; auto). assert (GS : Forall (good_element l) es) by (inversion G; auto).
  unfold origins in *. cbn [map cumsum3 nth_error combine tl] in *. injection O0 as O0. rewrite O0 in *.
  cbn [geo_trace] in *. rewrite FP, FU in *.
  destruct i as [|i].
  - cbn [nth_error] in *. injection Hs as <-. injection He as <-. injection Ho as <-. cbn [st_y st_u] in *. injection Hp as <-. injection Hv as <-.
    exists P0, U0, 0. split; [auto|]. split; [auto|]. split; [reflexivity|].
    split; [cbn [firstn total st_t obind]; f_equal; ring|]. split; [reflexivity|]. cbn [firstn images]. rewrite Rplus_0_r. exact LIN.
  - cbn [nth_error] in *.
    assert (UU0 : dot U0 U0 = 1).
    { destruct (normal_maps _ (proj1 G0)) as (r & R & F & _). rewrite F in FU. injection FU as <-. rewrite rotation_dot; auto. }
    destruct (mirror_run es o0 P0 U0 n l c i s e o p v A a GS M N UU0 LIN Hs He Ho Hp Hv) as (P & U & L & A1 & A2 & A3 & A4 & A5 & A6).
    exists P, U, L. split; [auto|]. split; [auto|]. split; [auto|]. split; [|split; auto].
    change (firstn (S (S i)) (?x :: ?l)) with (x :: firstn (S i) l). cbn [total st_t obind]. rewrite A4. cbn [obind]. f_equal. ring.
Qed.

(** * Three mirrors at right angles send every ray back: the direction is reversed, and if
    the planes meet in [C] the whole outgoing path is the point reflection in [C] of the
    incoming line continued by the same length *)
Theorem C79_corner_cube es y u n l c i s e o p v e0 o0 P0 U0 a b d oa ob od C : physical l es -> 0 < n -> dot u u = 1 ->
  Forall plane_mirror (firstn i (tl es)) ->
  filter (fun x => is_mirror (fst x)) (firstn i (tl (combine es (origins es)))) = [(a, oa); (b, ob); (d, od)] ->
  right_angled (normal_of a) (normal_of b) (normal_of d) ->
  dot (vsub3 C oa) (normal_of a) = 0 -> dot (vsub3 C ob) (normal_of b) = 0 -> dot (vsub3 C od) (normal_of d) = 0 ->
  nth_error es 0 = Some e0 -> nth_error (origins es) 0 = Some o0 ->
  from_normal (e_place e0) y = Some P0 -> from_normal (e_place e0) u = Some U0 ->
  nth_error (trace es y u n l c) i = Some s -> nth_error es i = Some e -> nth_error (origins es) i = Some o ->
  st_y s = Some p -> st_u s = Some v ->
  exists P L, from_normal (e_place e) p = Some P /\ from_normal (e_place e) v = Some (vneg U0) /\
    total (firstn (S i) (trace es y u n l c)) = Some (n * L) /\
    vadd3 (vadd3 o P) (vadd3 (vadd3 o0 P0) (vmul3 L U0)) = vmul3 2 C.
Proof.
  intros G N UU M FM RA Ca Cb Cd E0 O0 FP FU Hs He Ho Hp Hv.
  assert (LIN : vadd3 o0 P0 = vadd3 (vadd3 o0 P0) (vmul3 0 U0)) by (clear; vec_ring).
  destruct (C79_mirrors_image es y u n l c i s e o p v e0 o0 P0 U0 _ 0 G N UU M E0 O0 FP FU LIN Hs He Ho Hp Hv) as (P & U & L & FP' & FU' & _ & T & TU & IM).
  assert (FE : filter is_mirror (firstn i (tl es)) = [a; b; d]).
  { rewrite planes_fst, filter_fst, FM. reflexivity. }
  assert (Ma : is_mirror a = true) by (eapply filter_all; [exact FE|cbn; auto]).
  assert (Mb : is_mirror b = true) by (eapply filter_all; [exact FE|cbn; auto]).
  assert (Md : is_mirror d = true) by (eapply filter_all; [exact FE|cbn; auto]).
  rewrite turns_filter, FE in TU. rewrite images_filter, FM in IM. cbn [turns images] in TU, IM. rewrite Ma, Mb, Md in TU, IM.
  set (x := normal_of a) in *. set (w := normal_of b) in *. set (z := normal_of d) in *. clearbody x w z.
  set (A := vadd3 o0 P0) in *. clearbody A. destruct RA as (XX & WW & ZZ & XW & XZ & WZ).
  assert (TURN : forall X, turned z (turned w (turned x X)) = vneg X).
  { clear - XX WW ZZ XW XZ WZ. intros X.
    assert (T2 : dot (turned x X) w = dot X w).
    { transitivity (dot X w - 2 * dot X x * dot x w); [unfold turned; vec_ring|]. rewrite XW. ring. }
    assert (T3 : dot (turned w (turned x X)) z = dot X z).
    { transitivity (dot X z - 2 * dot X x * dot x z - 2 * dot (turned x X) w * dot w z); [unfold turned; vec_ring|]. rewrite XZ, WZ. ring. }
    unfold turned at 1. rewrite T3. unfold turned at 1. rewrite T2. unfold turned.
    pose proof (resolve x w z X (conj XX (conj WW (conj ZZ (conj XW (conj XZ WZ)))))) as E.
    transitivity (vsub3 X (vmul3 2 (vadd3 (vadd3 (vmul3 (dot X x) x) (vmul3 (dot X w) w)) (vmul3 (dot X z) z)))); [clear; generalize (dot X x) (dot X w) (dot X z); intros; vec_ring|].
    rewrite <- E. clear; vec_ring. }
  rewrite TURN in TU. subst U.
  assert (CEN : forall q N B, dot (vsub3 C q) N = 0 -> imaged q N B = vadd3 C (turned N (vsub3 B C))).
  { clear. intros q N B H. transitivity (vsub3 (vadd3 C (turned N (vsub3 B C))) (vmul3 (2 * dot (vsub3 C q) N) N)); [unfold imaged, turned; vec_ring|]. rewrite H. clear; vec_ring. }
  rewrite (CEN od z _ Cd), (CEN ob w _ Cb), (CEN oa x _ Ca) in IM.
  assert (SH : forall X, vsub3 (vadd3 C X) C = X) by (clear; intros; vec_ring). rewrite !SH, TURN in IM.
  exists P, L. split; [auto|]. split; [auto|]. split; [auto|]. rewrite IM. clear. vec_ring.
Qed.

(** * Two mirrors: the component along their common edge is kept and the deviation depends
    on the angle between the mirrors only, not on how the pair is turned *)
Theorem C79_two_mirrors es y u n l c i s e p v e0 U0 a b : physical l es -> 0 < n -> dot u u = 1 ->
  Forall plane_mirror (firstn i (tl es)) -> filter is_mirror (firstn i (tl es)) = [a; b] ->
  nth_error es 0 = Some e0 -> from_normal (e_place e0) u = Some U0 ->
  nth_error (trace es y u n l c) i = Some s -> nth_error es i = Some e -> st_y s = Some p -> st_u s = Some v ->
  let edge := cross (normal_of a) (normal_of b) in
  exists U, from_normal (e_place e) v = Some U /\ dot U edge = dot U0 edge /\
    dot U U0 = 2 * dot (normal_of a) (normal_of b) ^ 2 - 1 + 2 * dot U0 edge ^ 2.
Proof.
  intros G N UU M FE E0 FU Hs He Hp Hv edge.
  destruct es as [|x es]; [discriminate|]. cbn [nth_error] in E0. injection E0 as ->.
  assert (G0 : good_element l e0) by (inversion G; auto).
  destruct (normal_maps _ (proj1 G0)) as (r & RR & F & _).
  assert (O : exists o, nth_error (origins (e0 :: es)) i = Some o).
  { destruct (nth_error (origins (e0 :: es)) i) eqn:E; [eauto|]. apply nth_error_None in E. unfold origins in E.
    rewrite length_cumsum, map_length in E. assert (X := proj1 (nth_error_Some (e0 :: es) i)). rewrite He in X. specialize (X ltac:(discriminate)). lia. }
  destruct O as (o & Ho).
  assert (LIN : vadd3 (vadd3 v0 (p_offset (e_place e0))) (vm y r) = vadd3 (vadd3 (vadd3 v0 (p_offset (e_place e0))) (vm y r)) (vmul3 0 U0)).
  { generalize (vadd3 (vadd3 v0 (p_offset (e_place e0))) (vm y r)). clear. intros. vec_ring. }
  destruct (C79_mirrors_image (e0 :: es) y u n l c i s e o p v e0 _ _ U0 _ 0 G N UU M eq_refl eq_refl (F y) FU LIN Hs He Ho Hp Hv) as (P & U & L & _ & FU' & _ & _ & TU & _).
  exists U. split; [auto|].
  assert (Ma : is_mirror a = true) by (eapply filter_all; [exact FE|cbn; auto]).
  assert (Mb : is_mirror b = true) by (eapply filter_all; [exact FE|cbn; auto]).
  rewrite turns_filter, FE in TU. cbn [turns] in TU. rewrite Ma, Mb in TU.
  assert (GA : forall k, is_mirror k = true -> In k (filter is_mirror (firstn i (tl (e0 :: es)))) -> dot (normal_of k) (normal_of k) = 1).
  { intros k _ IN. apply filter_In in IN. destruct IN as (IN & _). apply (normal_unit l). unfold physical in G.
    rewrite Forall_forall in G. apply G. cbn [tl] in IN. right. revert IN. clear. revert i. induction es as [|q es IH]; intros [|i]; cbn; try tauto.
    intros [H|H]; eauto. }
  assert (XX : dot (normal_of a) (normal_of a) = 1) by (apply GA; auto; rewrite FE; cbn; auto).
  assert (WW : dot (normal_of b) (normal_of b) = 1) by (apply GA; auto; rewrite FE; cbn; auto).
  assert (VV : dot U0 U0 = 1) by (rewrite F in FU; injection FU as <-; rewrite rotation_dot; auto).
  clear - TU XX WW VV. unfold edge. clear edge. set (x := normal_of a) in *. set (w := normal_of b) in *. clearbody x w. subst U.
  assert (E1 : turned w (turned x U0) = vsub3 (vsub3 U0 (vmul3 (2 * dot U0 x) x)) (vmul3 (2 * (dot U0 w - 2 * dot U0 x * dot x w)) w)).
  { unfold turned at 1. replace (dot (turned x U0) w) with (dot U0 w - 2 * dot U0 x * dot x w) by (unfold turned; clear; vec_ring). reflexivity. }
  rewrite E1. split.
  - generalize (2 * dot U0 x) (2 * (dot U0 w - 2 * dot U0 x * dot x w)). clear. intros. vec_ring.
  - assert (GR : dot U0 (cross x w) ^ 2 = dot U0 U0 * dot x x * dot w w + 2 * dot U0 x * dot x w * dot U0 w - dot U0 U0 * dot x w ^ 2 - dot x x * dot U0 w ^ 2 - dot w w * dot U0 x ^ 2).
    { clear. vec_ring. }
    rewrite XX, WW, VV in GR.
    transitivity (dot U0 U0 - 2 * dot U0 x * dot U0 x - 2 * (dot U0 w - 2 * dot U0 x * dot x w) * dot U0 w).
    { generalize (2 * (dot U0 w - 2 * dot U0 x * dot x w)). intros k. rewrite (dot_comm U0 x) at 2. transitivity (dot U0 U0 - 2 * dot U0 x * dot x U0 - k * dot w U0); [clear; generalize (dot U0 x); intros; vec_ring|]. rewrite (dot_comm w U0). ring. }
    rewrite VV, GR. ring.
Qed.

Lemma mirror_live e U0 Q n l y u n' t : good_element l e -> plane_mirror e -> is_mirror e = true ->
  propagate newton e (do y <- Some Q; to_normal (e_place e) (vsub3 y (p_offset (e_place e))))
    (onormal (to_normal (e_place e)) (Some U0)) n l false = (y, u, n', t) ->
  (y <> None /\ u <> None) <-> dot U0 (normal_of e) <> 0.
Proof.
  intros (G & _) M IM P. destruct (normal_maps _ G) as (r & R & F & T). unfold normal_of. rewrite F.
  unfold plane_mirror in M. unfold is_mirror in IM. unfold propagate in P. cbn [obind onormal] in P. rewrite !T in P. cbn [obind] in P.
  destruct (e_kind e) as [|[m|] s]; try discriminate. destruct M as (_ & C & A). unfold intercept in P. rewrite A in P. unfold conic_intercept in P.
  destruct (Req_EM_T (s_c s) 0); [|contradiction]. unfold get_n_mu in P. rewrite IM in P. destruct (Req_EM_T (-1) 0); [lra|].
  unfold refract in P. destruct (Req_EM_T (-1) 1); [lra|].
  replace (vz (vm U0 (mT r))) with (dot U0 (vm ez r)) in P by (symmetry; apply dot_normal; auto).
  destruct (Req_dec (dot U0 (vm ez r)) 0) as [Z|Z].
  - rewrite Z, fdiv_zero in P. cbn [obind] in P. injection P as <- <- <- <-. split; [intros (X & _); congruence|intros X; congruence].
  - rewrite fdiv_some in P by auto. cbn [obind] in P. unfold surface_normal in P. destruct (Req_EM_T (s_c s) 0); [|contradiction]. rewrite A in P. cbn [obind] in P.
    rewrite reflect_normal in P by (intros W; injection W; intros; lra). injection P as <- <- <- <-. split; [auto|intros _; split; discriminate].
Qed.

Lemma mirror_survive es : forall P0 U0 n l i s, Forall (good_element l) es -> Forall plane_mirror (firstn (S i) es) ->
  Forall (fun e => is_mirror e = true) (firstn (S i) es) -> 0 < n -> dot U0 U0 = 1 ->
  nth_error (sysp es (Some P0) (Some U0) n l false) i = Some s ->
  (st_y s <> None /\ st_u s <> None) <-> (forall k e, (k <= i)%nat -> nth_error es k = Some e -> dot (turns (firstn k es) U0) (normal_of e) <> 0).
Proof.
  induction es as [|e0 es IH]; intros P0 U0 n l i s G M IM N UU Hs. { destruct i; discriminate. }
  assert (G0 : good_element l e0) by (inversion G; auto). assert (GS : Forall (good_element l) es) by (inversion G; auto).
  cbn [firstn] in M, IM. assert (M0 : plane_mirror e0) by (inversion M; auto). assert (MS : Forall plane_mirror (firstn i es)) by (inversion M; auto).
  assert (I0 : is_mirror e0 = true) by (inversion IM; auto). assert (IS : Forall (fun e => is_mirror e = true) (firstn i es)) by (inversion IM; auto).
  clear G M IM. cbn [sys_propagate] in Hs. destruct (propagate newton e0 _ _ n l false) as [[[y1 u1] n1] t1] eqn:P.
  pose proof (mirror_live _ _ _ _ _ _ _ _ _ G0 M0 I0 P) as LV.
  destruct (Req_dec (dot U0 (normal_of e0)) 0) as [Z|Z].
  { split; [|intros K; exfalso; apply (K 0%nat e0 (Nat.le_0_l _) eq_refl); exact Z]. intros (A & B). exfalso.
    destruct i as [|i]; cbn [nth_error] in Hs.
    - injection Hs as <-. cbn [st_y st_u] in A, B. apply (proj1 LV (conj A B)); exact Z.
    - destruct y1 as [p1|]; [destruct u1 as [v1|]|].
      + apply (proj1 LV); [split; discriminate|exact Z].
      + destruct (dead_stays newton es _ _ _ _ _ _ _ (or_intror eq_refl) Hs) as (D & _). congruence.
      + destruct (dead_stays newton es _ _ _ _ _ _ _ (or_introl eq_refl) Hs) as (D & _). congruence. }
  destruct (proj2 LV Z) as (Y & V). destruct y1 as [p1|]; [|contradiction]. destruct u1 as [v1|]; [|contradiction].
  destruct (mirror_step _ _ _ _ _ _ _ _ _ _ _ _ G0 M0 N UU P eq_refl eq_refl) as (Q & P1 & U1 & k & EQ & FP & FU & -> & -> & LIN & HU & HN).
  assert (UU1 : dot U1 U1 = 1).
  { subst U1. rewrite I0. pose proof (normal_unit _ _ G0) as NN. clear - UU NN.
    revert NN. generalize (normal_of e0). intros z NN.
    transitivity (dot U0 U0 - 4 * dot U0 z * dot U0 z + 4 * dot U0 z * dot U0 z * dot z z); [unfold turned; vec_ring|]. rewrite NN, UU. ring. }
  destruct i as [|i]; cbn [nth_error] in Hs.
  - injection Hs as <-. cbn [st_y st_u]. split; [intros _|intros _; split; discriminate]. intros [|j] e K E; [|lia]. injection E as <-. exact Z.
  - cbn [onormal obind] in Hs. rewrite FP, FU in Hs. rewrite (IH _ _ _ _ _ _ GS MS IS N UU1 Hs). split.
    + intros K [|j] e J E; [injection E as <-; exact Z|]. cbn [firstn turns]. rewrite <- HU. apply K; [lia|exact E].
    + intros K j e J E. specialize (K (S j) e ltac:(lia) E). cbn [firstn turns] in K. rewrite <- HU in K. exact K.
Qed.

(** * Which rays get through: without apertures exactly those that are nowhere parallel to
    the next mirror *)
Theorem C79_mirrors_survive es y u n l i s e0 U0 : physical l es -> 0 < n -> dot u u = 1 ->
  Forall plane_mirror (firstn i (tl es)) -> Forall (fun e => is_mirror e = true) (firstn i (tl es)) ->
  nth_error es 0 = Some e0 -> from_normal (e_place e0) u = Some U0 ->
  nth_error (trace es y u n l false) i = Some s ->
  (st_y s <> None /\ st_u s <> None) <-> (forall k e, (k < i)%nat -> nth_error (tl es) k = Some e -> dot (turns (firstn k (tl es)) U0) (normal_of e) <> 0).
Proof.
  intros G N UU M IM E0 FU Hs. destruct es as [|x es]; [discriminate|]. cbn [nth_error] in E0. injection E0 as ->. cbn [tl] in *.
  assert (G0 : good_element l e0) by (inversion G; auto). assert (GS : Forall (good_element l) es) by (inversion G; auto).
  destruct (normal_maps _ (proj1 G0)) as (r & R & F & _).
  assert (UU0 : dot U0 U0 = 1) by (rewrite F in FU; injection FU as <-; rewrite rotation_dot; auto).
  cbn [geo_trace] in Hs. rewrite F, FU in Hs. destruct i as [|i]; cbn [nth_error] in Hs.
  - injection Hs as <-. cbn [st_y st_u]. split; [intros _ k e K; lia|intros _; split; discriminate].
  - rewrite (mirror_survive es _ U0 n l i s GS M IM N UU0 Hs). split; intros K k e J; apply K; lia.
Qed.
End Plane.

(** an element whose vertex lies [d] along the unit direction [D] and which faces along it *)
Lemma placed d D : 0 <= d -> dot D D = 1 -> (/ 100000000 < Rabs (vx D) \/ / 100000000 < Rabs (vy D)) \/ D = ez ->
  exists p, init d D v0 None = Some p /\ good_place p /\ p_offset p = vmul3 d D /\ from_normal p ez = Some D.
Proof.
  intros DP DD SZ. destruct (C08_frames_rigid d D v0 None []) as (p & q & I & RN & _ & _ & NA & a & FA & BIG & SM & _). cbn [run] in RN. injection RN as <-.
  destruct (init_spec d D v0 None) as (p' & I' & NF & FO). rewrite I in I'. injection I' as <-.
  exists p. split; [auto|]. split; [split; auto|].
  unfold init in I. destruct (update d D v0) as [p'|] eqn:UP; [|discriminate]. cbn [obind] in I. injection I as <-.
  unfold update in UP. assert (U : unit_or_axis D = Some D).
  { destruct (unit_or_axis_spec D) as (u & -> & _ & _ & _ & H). rewrite H; auto. }
  rewrite U in UP. cbn [obind] in UP. destruct (Rlt_dec d 0); [lra|].
  assert (S2 : allclose v0 v0 = true) by (apply allclose_v0; unfold v0, tol; cbn [vx vy vz]; rewrite Rabs_R0; lra).
  rewrite S2 in UP.
  assert (FLD : p_offset p' = vmul3 d D /\ p_direction p' = D /\ p_normal p' = true).
  { cbn [andb] in UP. destruct (allclose D ez).
    - injection UP as <-. auto.
    - destruct (axis_rotation D); [|discriminate]. cbn [obind] in UP. injection UP as <-. auto. }
  destruct FLD as (F1 & F2 & F3). split; [auto|]. rewrite (NA F3 ez), FA. f_equal. rewrite F2 in *. destruct SZ as [SZ|SZ]; [apply BIG; auto|]. rewrite SZ. apply SM; auto.
Qed.
