(** Property C113: lenses made of a rear half and its reverse in front of the stop; exact ray trace. *)
From Coq Require Import Reals List Lra Lia Psatz.
From Verif Require Import Base Vec RotModel RotProofs PlacementModel PlacementProofs ElementModel ElementProofs TraceProofs
  PropsElement PropsRescale LimitProofs ReverseModel PropsReverse PolyChain PropsStigmatic PropsConcentric PropsSymmetry PropsRetrace.
Import ListNotations.
Open Scope R_scope.

(** a centred system turned by half a turn about the axis is the same system *)
Lemma turned_axis : about_axis turned.
Proof. unfold about_axis, turned. split; [intros; vec_ring|]. split; [intros; vec_ring|]. split; intros; vec_ring. Qed.
Definition turn_step (s : step) : step := Step (PropsSymmetry.omap turned (st_y s)) (PropsSymmetry.omap turned (st_u s)) (st_n s) (PropsSymmetry.omap turned (st_i s)) (st_t s).
Section Lens.
Variable newton : (R -> option R) -> (R -> option R) -> option R -> option R.
Lemma onormal_id (f : vec -> option vec) v : (forall y, f y = Some y) -> onormal f v = v.
Proof. intros F. destruct v as [v|]; [apply F|reflexivity]. Qed.
Lemma sys_turned es : forall y u n l c, Forall centred es ->
  sys_propagate newton es (PropsSymmetry.omap turned y) (PropsSymmetry.omap turned u) n l c = map turn_step (sys_propagate newton es y u n l c).
Proof.
  induction es as [|e es IH]; intros y u n l c C; [reflexivity|]. inversion C as [|? ? CE CS]; subst. destruct (centred_frame e CE) as (_ & O & T & F). cbn [sys_propagate].
  assert (Q : (do y <- PropsSymmetry.omap turned y; to_normal (e_place e) (vsub3 y (p_offset (e_place e)))) = PropsSymmetry.omap turned (do y <- y; to_normal (e_place e) (vsub3 y (p_offset (e_place e))))).
  { destruct y as [y|]; [|reflexivity]. cbn [PropsSymmetry.omap obind]. rewrite !T. cbn [obind]. rewrite O. apply (f_equal Some). unfold turned. vec_ring. }
  rewrite Q, !(onormal_id (to_normal (e_place e)) _ T), (map_propagate turned turned_axis).
  destruct (propagate newton e _ u n l c) as [[[y1 u1] n1] t1]. cbn [map]. f_equal. rewrite !(onormal_id (from_normal (e_place e)) _ F). apply IH. exact CS.
Qed.
Lemma last_from {A} (a : A) l : forall d, last (a :: l) d = last l a.
Proof. revert a. induction l as [|b l IH]; intros a d; [reflexivity|]. rewrite last_cons2, IH, IH. reflexivity. Qed.
(** the trace goes on where the first part ended *)
Lemma sys_joined A B : forall y u n l c i t, Forall centred A ->
  let F := sys_propagate newton A y u n l c in let z := last F (Step y u n i t) in
  sys_propagate newton (A ++ B) y u n l c = F ++ sys_propagate newton B (st_y z) (st_u z) (st_n z) l c.
Proof.
  induction A as [|e A IH]; intros y u n l c i t C; [reflexivity|]. inversion C as [|? ? CE CS]; subst. destruct (centred_frame e CE) as (_ & O & T & F). cbn [app sys_propagate].
  destruct (propagate newton e _ _ n l c) as [[[y1 u1] n1] t1]. rewrite !(onormal_id (from_normal (e_place e)) _ F). cbv zeta. cbn [app]. f_equal.
  rewrite (IH y1 u1 n1 l c (onormal (to_normal (e_place e)) u) t1 CS). rewrite last_from. reflexivity.
Qed.
Lemma reverse_centred es es1 : Forall (fun e => centred (fst e)) es -> reverse es = Some es1 -> Forall centred (map fst es1).
Proof.
  intros CS RV. assert (PL : placed es) by (eapply Forall_impl; [|exact CS]; intros a (Q & _); exact Q).
  rewrite (reverse_rgen _ PL) in RV. injection RV as <-. apply Forall_map. clear PL. generalize (@None material). induction CS as [|e es C CS IH]; intros mp; [constructor|]. cbn [rgen]. apply Forall_app. split; [apply IH|].
  constructor; [|constructor]. destruct C as (U & X & Y).
  assert (DD : 0 <= match es with [] => 0 | f :: _ => dist f end) by (destruct CS as [|f ? (Q & _)]; [lra|apply dist_nonneg, Q]).
  unfold revd. destruct (e_kind (fst e)); (split; [|split]); cbn [fst e_place with_distance p_direction p_angles]; auto; apply set_distance_updated; auto.
Qed.
Lemma path_join F G : forall s s', path_sum F = Some s -> path_sum G = Some s' -> path_sum (F ++ G) = Some (s + s').
Proof.
  induction F as [|a F IH]; intros s s' H H'; cbn [path_sum app] in *.
  - injection H as <-. rewrite H'. f_equal. ring.
  - destruct (st_t a) as [x|]; [|discriminate]. cbn [obind] in *. destruct (path_sum F) as [sf|]; [|discriminate]. cbn [obind] in H. injection H as <-.
    rewrite (IH sf s' eq_refl H'). cbn [obind]. f_equal. ring.
Qed.
Lemma path_turned F : path_sum (map turn_step F) = path_sum F.
Proof. induction F as [|a F IH]; [reflexivity|]. cbn [map path_sum turn_step st_t]. rewrite IH. reflexivity. Qed.
End Lens.

(** * C113 *)
(** [es] is the half behind the stop [e0], [es1] the half in front of it.  The ray that crosses the stop at [y] and the one that crosses it at the opposite point in the
    same direction [u] reach the image plane, through the rear half, at [p] and [p'].  Then the ray of the whole lens that is launched at [p] mirrored crosses the stop at [y] and arrives at [p'] turned *)
Theorem C113_opposite newton e0 es es1 y u l c n s0 m0 p s p' i' s' :
  Forall (fun e => centred (fst e)) (e0 :: es) -> Forall (refracting l) (removelast es) -> es <> [] ->
  e_kind (fst e0) = Sph (Some m0) s0 -> m_mirror m0 = false -> m_index m0 l = n -> 0 < n -> s_asph s0 = None -> s_alt s0 = false ->
  dot u u = 1 -> vz y = 0 -> (forall a, c = true -> e_radius (fst e0) = Some a -> r2_of y <= a * a) ->
  let none := Step None None 0 None None in
  let F := geo_trace newton (map fst (e0 :: es)) y u n l c in let F' := geo_trace newton (map fst (e0 :: es)) (V (- vx y) (- vy y) 0) u n l c in
  crossed (map fst (e0 :: es)) F -> st_y (last F none) = Some p -> path_sum F = Some s ->
  st_y (last F' none) = Some p' -> st_i (last F' none) = Some i' -> path_sum F' = Some s' ->
  reverse (e0 :: es) = Some es1 ->
  exists i, st_i (last F none) = Some i /\
  let G := geo_trace newton (map fst es1 ++ map fst es) (mirrored p) (turned i) (before n F) l c in
  (exists z, nth_error G (length es) = Some z /\ st_y z = Some y /\ st_u z = Some (turned u) /\ st_n z = n) /\
  st_y (last G none) = Some (turned p') /\ st_i (last G none) = Some (turned i') /\ path_sum G = Some (s + s').
Proof.
  intros CS RS NE K M MN N A AL U ZY CLP none F F' CR PN PS PN' IN' PS' RV.
  destruct (C90_returns newton e0 es y u l c n s0 m0 p s CS RS NE K M MN N A AL U CLP CR PN PS) as (es1' & i & RV' & LI & ZZ). rewrite RV in RV'. injection RV' as <-.
  exists i. split; [exact LI|]. cbv zeta in ZZ |- *. fold F in ZZ.
  assert (MY : mirrored y = y) by (apply vec_eq; unfold mirrored; cbn [vx vy vz]; try reflexivity; rewrite ZY; ring).
  pose proof (reverse_centred _ _ CS RV) as RC.
  assert (LEN : length es1 = S (length es)).
  { assert (PL : placed (e0 :: es)) by (eapply Forall_impl; [|exact CS]; intros a (Q & _); exact Q). rewrite (reverse_rgen _ PL) in RV. assert (E : es1 = rgen None (e0 :: es)) by congruence. rewrite E, rgen_length. reflexivity. }
  destruct es1 as [|h R]; [discriminate|]. cbn [map app] in *. inversion RC as [|? ? CH CR']; subst x l0. destruct (centred_frame _ CH) as (_ & _ & _ & FH).
  cbn [geo_trace] in *. rewrite !FH in *.
  set (B := sys_propagate newton (map fst R) (Some (mirrored p)) (Some (turned i)) (before n F) l c) in *.
  rewrite (sys_joined newton (map fst R) (map fst es) (Some (mirrored p)) (Some (turned i)) (before n F) l c (Some (turned i)) (Some 0) CR'). fold B.
  assert (LB : length B = length es). { unfold B; rewrite length_sys, map_length; cbn [length] in LEN. injection LEN as LEN. exact LEN. }
  set (st := Step (Some (mirrored p)) (Some (turned i)) (before n F) (Some (turned i)) (Some 0)) in *.
  assert (LS : last (st :: B) (Step None None 0 None None) = last B st) by apply last_from.
  rewrite LS in ZZ. destruct ZZ as (Z1 & Z2 & Z3 & Z4). rewrite MY in Z1. rewrite Z1, Z2, Z3.
  inversion CS as [|? ? C0 CS']; subst x l0. destruct (centred_frame _ C0) as (_ & _ & _ & F0).
  set (H := sys_propagate newton (map fst es) (Some (V (- vx y) (- vy y) 0)) (Some u) n l c).
  assert (FT : F' = Step (Some (V (- vx y) (- vy y) 0)) (Some u) n (Some u) (Some 0) :: H) by (unfold F', H; cbn [map geo_trace]; rewrite !F0; reflexivity).
  assert (TH : sys_propagate newton (map fst es) (Some y) (Some (turned u)) n l c = map turn_step H).
  { unfold H. rewrite <- sys_turned by (apply Forall_map; exact CS'). cbn [PropsSymmetry.omap obind]. f_equal. f_equal. apply vec_eq; unfold turned; cbn [vx vy vz]; try ring. exact ZY. }
  rewrite TH. rewrite FT in PN', IN', PS'.
  assert (LH : length H = length es) by (unfold H; rewrite length_sys, map_length; reflexivity).
  destruct H as [|h0 H]; [destruct es; [contradiction|discriminate LH]|]. rewrite last_cons2 in PN', IN'.
  cbn [path_sum st_t obind] in PS'. assert (PH : path_sum (h0 :: H) = Some s').
  { cbn [path_sum]. destruct (st_t h0) as [x|]; [|discriminate]. cbn [obind] in *. destruct (path_sum H) as [x'|]; [|discriminate]. cbn [obind] in *. rewrite <- PS'. f_equal. ring. }
  assert (LL : last (st :: B ++ map turn_step (h0 :: H)) none = turn_step (last (h0 :: H) none)).
  { destruct (exists_last (l := h0 :: H) ltac:(discriminate)) as (H' & x & E). rewrite E, map_app, last_last, app_assoc, app_comm_cons. apply last_last. }
  rewrite LL. split.
  - exists (last B st). split; [|auto]. destruct (exists_last (l := B)) as (B' & x & E). { intros E. rewrite E in LB. destruct es; [contradiction|discriminate LB]. }
    rewrite E in LB |- *. rewrite last_last. rewrite app_length in LB. cbn [length] in LB. replace (length es) with (S (length B')) by lia. cbn [nth_error]. rewrite <- app_assoc. rewrite nth_error_app2 by lia. rewrite Nat.sub_diag. reflexivity.
  - unfold turn_step. cbn [st_y st_i]. rewrite PN', IN'. split; [reflexivity|]. split; [reflexivity|]. rewrite app_comm_cons. apply path_join; [exact Z4|]. rewrite path_turned. exact PH.
Qed.

(** with the image at a plane: the image of every object point, along the ray through the centre of the stop, is the opposite point, and the ray leaves parallel to itself *)
Theorem C113_undistorted newton e0 es es1 u l c n s0 m0 p i s :
  Forall (fun e => centred (fst e)) (e0 :: es) -> Forall (refracting l) (removelast es) -> es <> [] ->
  e_kind (fst e0) = Sph (Some m0) s0 -> m_mirror m0 = false -> m_index m0 l = n -> 0 < n -> s_asph s0 = None -> s_alt s0 = false ->
  dot u u = 1 ->
  let none := Step None None 0 None None in let F := geo_trace newton (map fst (e0 :: es)) v0 u n l c in
  crossed (map fst (e0 :: es)) F -> st_y (last F none) = Some p -> st_i (last F none) = Some i -> path_sum F = Some s ->
  vz p = 0 -> reverse (e0 :: es) = Some es1 ->
  let G := geo_trace newton (map fst es1 ++ map fst es) p (V (- vx i) (- vy i) (vz i)) (before n F) l c in
  (exists z, nth_error G (length es) = Some z /\ st_y z = Some v0) /\
  st_y (last G none) = Some (vneg p) /\ st_i (last G none) = Some (V (- vx i) (- vy i) (vz i)) /\ path_sum G = Some (2 * s).
Proof.
  intros CS RS NE K M MN N A AL U none F CR PN IN PS ZP RV G.
  assert (V00 : V (- vx v0) (- vy v0) 0 = v0) by (unfold v0; cbn [vx vy]; rewrite Ropp_0; reflexivity).
  assert (CLP : forall a, c = true -> e_radius (fst e0) = Some a -> r2_of v0 <= a * a) by (intros a _ _; unfold r2_of, v0; cbn [vx vy]; nra).
  pose proof (C113_opposite newton e0 es es1 v0 u l c n s0 m0 p s p i s CS RS NE K M MN N A AL U eq_refl CLP) as Q. cbv zeta in Q. rewrite V00 in Q. fold F none in Q.
  destruct (Q CR PN PS PN IN PS RV) as (i1 & LI & (z & Z1 & Z2 & _) & L1 & L2 & L3). rewrite IN in LI. injection LI as <-.
  assert (MP : mirrored p = p) by (apply vec_eq; unfold mirrored; cbn [vx vy vz]; try reflexivity; rewrite ZP; ring).
  assert (TP : turned p = vneg p) by (apply vec_eq; unfold turned, vneg; cbn [vx vy vz]; try reflexivity; rewrite ZP; ring).
  rewrite MP in *. rewrite TP in L1. change (turned i) with (V (- vx i) (- vy i) (vz i)) in *. fold G in L1, L2, L3, Z1.
  split; [exists z; auto|]. split; [exact L1|]. split; [exact L2|]. rewrite L3. f_equal. ring.
Qed.
(** rays that cross the stop at opposite points in the same direction, launched at [p] and [p']: each arrives opposite to where the other one was launched, so they miss
    the points opposite to their own by opposite vectors *)
Theorem C113_exchanged newton e0 es es1 y u l c n s0 m0 p s p' s' :
  Forall (fun e => centred (fst e)) (e0 :: es) -> Forall (refracting l) (removelast es) -> es <> [] ->
  e_kind (fst e0) = Sph (Some m0) s0 -> m_mirror m0 = false -> m_index m0 l = n -> 0 < n -> s_asph s0 = None -> s_alt s0 = false ->
  dot u u = 1 -> vz y = 0 -> (forall a, c = true -> e_radius (fst e0) = Some a -> r2_of y <= a * a) ->
  let none := Step None None 0 None None in
  let F := geo_trace newton (map fst (e0 :: es)) y u n l c in let F' := geo_trace newton (map fst (e0 :: es)) (vneg y) u n l c in
  crossed (map fst (e0 :: es)) F -> st_y (last F none) = Some p -> path_sum F = Some s ->
  crossed (map fst (e0 :: es)) F' -> st_y (last F' none) = Some p' -> path_sum F' = Some s' ->
  vz p = 0 -> vz p' = 0 -> reverse (e0 :: es) = Some es1 ->
  exists i i' q q', let G := geo_trace newton (map fst es1 ++ map fst es) p (turned i) (before n F) l c in
  let G' := geo_trace newton (map fst es1 ++ map fst es) p' (turned i') (before n F') l c in
  (exists z z', nth_error G (length es) = Some z /\ nth_error G' (length es) = Some z' /\ st_y z = Some y /\ st_y z' = Some (vneg y) /\
    st_u z = Some (turned u) /\ st_u z' = Some (turned u)) /\
  st_y (last G none) = Some q /\ st_y (last G' none) = Some q' /\ q = vneg p' /\ q' = vneg p /\ vadd3 q p = vneg (vadd3 q' p') /\
  st_i (last G none) = Some (turned i') /\ st_i (last G' none) = Some (turned i) /\ path_sum G = path_sum G'.
Proof.
  intros CS RS NE K M MN N A AL U ZY CLP none F F' CR PN PS CR' PN' PS' ZP ZP' RV.
  assert (VY : V (- vx y) (- vy y) 0 = vneg y) by (apply vec_eq; unfold vneg; cbn [vx vy vz]; try reflexivity; rewrite ZY; ring).
  assert (VV : V (- vx (vneg y)) (- vy (vneg y)) 0 = y) by (apply vec_eq; unfold vneg; cbn [vx vy vz]; try ring; rewrite ZY; ring).
  assert (ZY' : vz (vneg y) = 0) by (unfold vneg; cbn [vz]; rewrite ZY; ring).
  assert (CLP' : forall a, c = true -> e_radius (fst e0) = Some a -> r2_of (vneg y) <= a * a).
  { intros a C E. replace (r2_of (vneg y)) with (r2_of y) by (unfold r2_of, vneg; cbn [vx vy]; ring). exact (CLP a C E). }
  destruct (C90_returns newton e0 es y u l c n s0 m0 p s CS RS NE K M MN N A AL U CLP CR PN PS) as (_ & i & _ & LI & _).
  destruct (C90_returns newton e0 es (vneg y) u l c n s0 m0 p' s' CS RS NE K M MN N A AL U CLP' CR' PN' PS') as (_ & i' & _ & LI' & _).
  pose proof (C113_opposite newton e0 es es1 y u l c n s0 m0 p s p' i' s' CS RS NE K M MN N A AL U ZY CLP) as Q. cbv zeta in Q. rewrite VY in Q.
  destruct (Q CR PN PS PN' LI' PS' RV) as (i1 & LI1 & (z & Z1 & Z2 & Z3 & _) & L1 & L2 & L3). clear Q. assert (i1 = i) by congruence. subst i1.
  pose proof (C113_opposite newton e0 es es1 (vneg y) u l c n s0 m0 p' s' p i s CS RS NE K M MN N A AL U ZY' CLP') as Q. cbv zeta in Q. rewrite VV in Q.
  destruct (Q CR' PN' PS' PN LI PS RV) as (i2 & LI2 & (z' & Z1' & Z2' & Z3' & _) & L1' & L2' & L3'). clear Q. assert (i2 = i') by congruence. subst i2.
  assert (MP : forall v, vz v = 0 -> mirrored v = v) by (intros v V0; apply vec_eq; unfold mirrored; cbn [vx vy vz]; try reflexivity; rewrite V0; ring).
  assert (TP : forall v, vz v = 0 -> turned v = vneg v) by (intros v V0; apply vec_eq; unfold turned, vneg; cbn [vx vy vz]; try reflexivity; rewrite V0; ring).
  rewrite (MP p ZP) in *. rewrite (MP p' ZP') in *. rewrite (TP p ZP) in L1'. rewrite (TP p' ZP') in L1.
  exists i, i', (vneg p'), (vneg p). cbv zeta. split; [exists z, z'; auto 10|]. split; [exact L1|]. split; [exact L1'|]. split; [reflexivity|]. split; [reflexivity|]. split; [vec_ring|].
  split; [exact L2|]. split; [exact L2'|]. etransitivity; [exact L3|]. etransitivity; [|symmetry; exact L3']. f_equal. ring.
Qed.

(** * example: a stop in water, 4 behind it the air, 3 further the plane of the image *)
Definition water_els : list relem := [(sphere_el 0 0 (4/3), None); (sphere_el 4 0 1, None); (sphere_el 3 0 1, None)].
Lemma water_traced newton x : geo_trace newton (map fst water_els) (V x 0 0) (V (3/5) 0 (4/5)) (4/3) 1 false =
  [Step (Some (V x 0 0)) (Some (V (3/5) 0 (4/5))) (4/3) (Some (V (3/5) 0 (4/5))) (Some 0);
   Step (Some (V (x + 3) 0 0)) (Some (V (4/5) 0 (3/5))) 1 (Some (V (3/5) 0 (4/5))) (Some (20/3));
   Step (Some (V (x + 7) 0 0)) (Some (V (4/5) 0 (3/5))) 1 (Some (V (4/5) 0 (3/5))) (Some 5)].
Proof.
  unfold water_els. cbn [map fst geo_trace]. change (from_normal (e_place (sphere_el ?d ?c ?n)) ?y) with (Some y). cbn [sys_propagate onormal obind].
  change (to_normal (e_place (sphere_el ?d ?c ?n)) ?y) with (Some y). change (p_offset (e_place (sphere_el ?d ?c ?n))) with (V 0 0 d).
  assert (S1 : propagate newton (sphere_el 4 0 1) (Some (vsub3 (V x 0 0) (V 0 0 4))) (Some (V (3/5) 0 (4/5))) (4/3) 1 false = (Some (V (x + 3) 0 0), Some (V (4/5) 0 (3/5)), 1, Some (20/3))).
  { unfold propagate. cbn [obind sphere_el e_kind intercept s_asph]. unfold conic_intercept. cbn [s_c]. destruct (Req_EM_T 0 0); [|lra]. rewrite fdiv_some by (cbn [vz]; lra). cbn [obind].
    match goal with |- context [at_ray _ _ ?t] => replace t with 5 by (unfold vsub3; cbn [vx vy vz]; field) end.
    replace (at_ray (vsub3 (V x 0 0) (V 0 0 4)) (V (3/5) 0 (4/5)) 5) with (V (x + 3) 0 0) by (apply vec_eq; unfold at_ray, vsub3, vadd3, vmul3; cbn [vx vy vz]; field).
    unfold get_n_mu. cbn [m_mirror m_index]. rewrite ?fdiv_some by lra. cbn [obind]. destruct (Req_EM_T (4 / 3 / 1) 0); [lra|]. unfold refract. destruct (Req_EM_T (4 / 3 / 1) 1); [lra|]. cbn [obind].
    unfold surface_normal. cbn [s_c s_asph]. destruct (Req_EM_T 0 0); [|lra]. cbn [obind]. unfold refract_normal, dot. cbv zeta. cbn [vx vy vz]. rewrite (Rabs_right (4 / 3 / 1)) by lra.
    rewrite fdiv_some by lra. cbn [obind]. destruct (Req_EM_T (4 / 3 / 1) (-1)); [lra|]. rewrite ?fdiv_some by lra. cbn [obind].
    match goal with |- context [fsqrt ?y] => replace y with ((3/5) * (3/5)) by field end. rewrite fsqrt_some by lra. rewrite sqrt_square by lra. cbn [obind].
    replace (sign (4 / 3 / 1)) with 1 by (unfold sign; destruct (Rlt_dec 0 (4 / 3 / 1)); lra).
    replace (vadd3 _ _) with (V (4/5) 0 (3/5)) by (apply vec_eq; unfold vadd3, vmul3; cbn [vx vy vz]; field). replace (5 * (4 / 3)) with (20 / 3) by field. reflexivity. }
  assert (S2 : propagate newton (sphere_el 3 0 1) (Some (vsub3 (V (x + 3) 0 0) (V 0 0 3))) (Some (V (4/5) 0 (3/5))) 1 1 false = (Some (V (x + 7) 0 0), Some (V (4/5) 0 (3/5)), 1, Some 5)).
  { unfold propagate. cbn [obind sphere_el e_kind intercept s_asph]. unfold conic_intercept. cbn [s_c]. destruct (Req_EM_T 0 0); [|lra]. rewrite fdiv_some by (cbn [vz]; lra). cbn [obind].
    match goal with |- context [at_ray _ _ ?t] => replace t with 5 by (unfold vsub3; cbn [vx vy vz]; field) end.
    replace (at_ray (vsub3 (V (x + 3) 0 0) (V 0 0 3)) (V (4/5) 0 (3/5)) 5) with (V (x + 7) 0 0) by (apply vec_eq; unfold at_ray, vsub3, vadd3, vmul3; cbn [vx vy vz]; field).
    unfold get_n_mu. cbn [m_mirror m_index]. rewrite fdiv_some by lra. cbn [obind]. destruct (Req_EM_T (1 / 1) 0); [lra|]. unfold refract. destruct (Req_EM_T (1 / 1) 1); [|lra].
    replace (5 * 1) with 5 by ring. reflexivity. }
  rewrite S1. cbn [obind onormal]. change (from_normal (e_place (sphere_el 4 0 1))) with (fun y : vec => Some y). change (to_normal (e_place (sphere_el 3 0 1))) with (fun y : vec => Some y). cbn [obind onormal].
  change (p_offset (e_place (sphere_el ?d ?c ?n))) with (V 0 0 d). rewrite S2. reflexivity.
Qed.
Lemma water_good : Forall (fun e => centred (fst e)) water_els /\ Forall (refracting 1) (removelast (tl water_els)).
Proof.
  split; [repeat constructor; apply sphere_el_centred; lra|]. constructor; [|constructor]. do 2 eexists. split; [reflexivity|]. cbn. repeat split; lra.
Qed.
Lemma water_crossed newton x : crossed (map fst water_els) (geo_trace newton (map fst water_els) (V x 0 0) (V (3/5) 0 (4/5)) (4/3) 1 false).
Proof.
  rewrite water_traced. cbn [water_els map fst crossed st_y st_i st_u].
  assert (CX : forall v n d i w, 0 < vz i -> vz w <> 0 -> crosses (sphere_el d 0 n) (V v 0 0) i w).
  { intros v n d i w I W m s K. injection K as _ <-. unfold sheet, sheet_normal, lead, dot, r2_of. cbn [s_c s_k vx vy vz].
    replace (1 - (1 + 0) * 0 ^ 2 * (v * v + 0 * 0)) with 1 by ring. rewrite sqrt_1. repeat split; try lra; try field. }
  split; [|split; [|exact I]]; do 3 eexists; (split; [reflexivity|]; split; [reflexivity|]; split; [reflexivity|]); apply CX; cbn [vz]; lra.
Qed.
(** the ray through the centre of the stop goes from 7 to -7 *)
Example C113_undistorted_example newton : exists es1, reverse water_els = Some es1 /\ Forall (fun e => centred (fst e)) water_els /\ Forall (refracting 1) (removelast (tl water_els)) /\
  let F := geo_trace newton (map fst water_els) v0 (V (3/5) 0 (4/5)) (4/3) 1 false in
  crossed (map fst water_els) F /\ before (4/3) F = 1 /\
  let G := geo_trace newton (map fst es1 ++ map fst (tl water_els)) (V 7 0 0) (V (- (4/5)) (- 0) (3/5)) 1 1 false in
  st_y (last G (Step None None 0 None None)) = Some (vneg (V 7 0 0)) /\ path_sum G = Some (2 * (0 + (20/3 + (5 + 0)))).
Proof.
  destruct water_good as (C & Rf). assert (PL : placed water_els) by (eapply Forall_impl; [|exact C]; intros a (Q & _); exact Q).
  exists (rgen None water_els). split; [exact (reverse_rgen _ PL)|]. split; [exact C|]. split; [exact Rf|]. cbv zeta.
  pose proof (water_crossed newton 0) as CR. change (V 0 0 0) with v0 in CR. split; [exact CR|].
  pose proof (water_traced newton 0) as T. change (V 0 0 0) with v0 in T.
  assert (B : before (4/3) (geo_trace newton (map fst water_els) v0 (V (3/5) 0 (4/5)) (4/3) 1 false) = 1) by (rewrite T; reflexivity).
  split; [exact B|].
  pose proof (C113_undistorted newton (sphere_el 0 0 (4/3), None) (tl water_els) (rgen None water_els) (V (3/5) 0 (4/5)) 1 false (4/3) (Surf 0 0 None false) (Material (fun _ => 4/3) false true)
    (V 7 0 0) (V (4/5) 0 (3/5)) (0 + (20/3 + (5 + 0))) C Rf ltac:(discriminate) eq_refl eq_refl eq_refl ltac:(lra) eq_refl eq_refl ltac:(unfold dot; cbn [vx vy vz]; field)) as Q.
  cbv zeta in Q. change ((sphere_el 0 0 (4/3), None) :: tl water_els) with water_els in Q. rewrite B in Q. specialize (Q CR). rewrite T in Q. cbn [last st_y st_i path_sum st_t obind] in Q.
  replace (0 + 7) with 7 in Q by ring. destruct (Q eq_refl eq_refl eq_refl eq_refl (reverse_rgen _ PL)) as (_ & Q1 & _ & Q2). split; [exact Q1|exact Q2].
Qed.
(** rays through the stop at 1 and -1: launched at 8 and 6, they arrive at -6 and -8 *)
Example C113_exchanged_example newton : let none := Step None None 0 None None in
  let F := geo_trace newton (map fst water_els) (V 1 0 0) (V (3/5) 0 (4/5)) (4/3) 1 false in let F' := geo_trace newton (map fst water_els) (vneg (V 1 0 0)) (V (3/5) 0 (4/5)) (4/3) 1 false in
  crossed (map fst water_els) F /\ st_y (last F none) = Some (V 8 0 0) /\ crossed (map fst water_els) F' /\ st_y (last F' none) = Some (V 6 0 0) /\ path_sum F = path_sum F' /\ path_sum F <> None.
Proof.
  cbv zeta. replace (vneg (V 1 0 0)) with (V (-1) 0 0) by (apply vec_eq; unfold vneg; cbn [vx vy vz]; ring). split; [apply water_crossed|]. rewrite !water_traced. cbn [last st_y path_sum st_t obind].
  split; [f_equal; apply vec_eq; cbn [vx vy vz]; ring|]. rewrite <- (water_traced newton (-1)). split; [apply water_crossed|]. split; [f_equal; apply vec_eq; cbn [vx vy vz]; ring|]. split; [reflexivity|discriminate].
Qed.
Print Assumptions C113_opposite.
Print Assumptions C113_undistorted.
Print Assumptions C113_exchanged.
