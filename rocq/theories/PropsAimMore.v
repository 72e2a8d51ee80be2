(** Further properties of launching (C27), aiming (C40), refraction (C10) and placement (C09). *)
From Coq Require Import Reals Bool List Lra Lia Psatz.
From Verif Require Import Base Vec RotModel RotProofs PlacementModel PlacementProofs ElementModel ElementProofs TraceProofs
  PropsElement PropsTrace PupilModel AimModel PropsAim AimSolveModel PropsAimSolve.
Import ListNotations.
Open Scope R_scope.

(** * C27: whole bundles *)
(** spec: m is the largest absolute value among four numbers *)
Definition largest4 (a b c d m : R) : Prop :=
  (Rabs a <= m /\ Rabs b <= m /\ Rabs c <= m /\ Rabs d <= m) /\ (m = Rabs a \/ m = Rabs b \/ m = Rabs c \/ m = Rabs d).
Lemma largest4_max a b c d : largest4 a b c d (Rmax (Rmax (Rabs a) (Rabs b)) (Rmax (Rabs c) (Rabs d))).
Proof.
  unfold largest4, Rmax. destruct (Rle_dec (Rabs a) (Rabs b)); destruct (Rle_dec (Rabs c) (Rabs d)); destruct (Rle_dec _ _); split; repeat apply conj; try lra; auto.
Qed.
(** an unfiltered pupil grid is scaled by the largest rim coordinate, so that the whole
    vignetted rim is covered *)
Theorem C27_scale ys a : exists m, largest4 (lo_s a) (lo_m a) (hi_s a) (hi_m a) m /\
  pupil_map ys a false = map (fun y => (fst y * m, snd y * m)) ys.
Proof.
  exists (corners_max a). split; [apply largest4_max|reflexivity].
Qed.
Example C27_scale_example : largest4 (-2) (-1) 1 1 2.
Proof. unfold largest4. rewrite (Rabs_left (-2)), (Rabs_left (-1)), (Rabs_pos_eq 1) by lra. lra. Qed.

Lemma angle_corners r z : 0 < r -> 0 < z -> corners_angle (corners_of r) z = corners_of (atan (r / z)).
Proof.
  intros H Z. unfold corners_angle, corners_of, atan2. cbn. destruct (Rlt_dec 0 z); [|contradiction].
  rewrite Ropp_div, atan_opp. reflexivity.
Qed.
Lemma Forall2_map_r {A B} (P : A -> B -> Prop) (f : A -> B) l : (forall x, In x l -> P x (f x)) -> Forall2 P l (map f l).
Proof. induction l as [|x l IH]; intros H; cbn; constructor; [apply H; left; auto|apply IH; intros; apply H; right; auto]. Qed.

(** every ray of a bundle from a finite object goes through the pupil point at the
    angle that is the given fraction of the marginal angle, one ray per pupil coordinate *)
Theorem C27_finite_bundle c surface yo ys z r : 0 < r -> 0 < z ->
  Forall2 (fun p ray => forall y u, ray = Some (y, u) ->
      starts_at (cj_val c) surface yo y /\
      let chief := if pu_telecentric (cj_pupil c) then V 0 0 z else vsub3 (V 0 0 z) y in
      exists s m, frame chief s m /\
        goes_through y u (vadd3 (vadd3 y chief)
          (vadd3 (vmul3 (z * tan (fst p * atan (r / z))) s) (vmul3 (z * tan (snd p * atan (r / z))) m))) z)
    ys (finite_aim c surface yo (Some ys) z (corners_of r) false) /\
  (surface = None -> Forall (fun ray => ray <> None) (finite_aim c surface yo (Some ys) z (corners_of r) false)).
Proof.
  intros H Z. unfold finite_aim, finite_pupil. rewrite (angle_corners r z H Z).
  assert (A : 0 <= atan (r / z)).
  { left. rewrite <- atan_0. apply atan_increasing. apply Rdiv_lt_0_compat; auto. }
  unfold pupil_map. rewrite (corners_max_of _ A). rewrite !map_map. cbn [fst snd]. split.
  - apply Forall2_map_r. intros p _ y u E.
    destruct (C27_finite c surface yo (z * tan (fst p * atan (r / z))) (z * tan (snd p * atan (r / z))) z ltac:(lra)) as (F & _).
    apply F. exact E.
  - intros S0. apply Forall_map, Forall_forall. intros p _. apply C27_finite; [lra|auto].
Qed.
(** without pupil coordinates there is exactly the chief ray *)
Theorem C27_finite_bundle_chief c surface yo z a filter ray : z <> 0 -> pu_telecentric (cj_pupil c) = false ->
  In ray (finite_aim c surface yo None z a filter) ->
  forall y u, ray = Some (y, u) -> starts_at (cj_val c) surface yo y /\ goes_through y u (V 0 0 z) z.
Proof.
  intros Z T I y u E. destruct I as [I|[]]. subst ray. eapply C27_finite_chief; eauto.
Qed.
Theorem C27_infinite_bundle newton c surface yo ys z r : 0 < r -> z <> 0 ->
  Forall2 (fun p ray => forall y u, ray = Some (y, u) -> dot u u = 1 ->
      direction_map (cj_projection c) yo (cj_val c) = Some u /\
      exists s m, frame u s m /\ exists t, at_ray y u t = vadd3 (V 0 0 z) (vadd3 (vmul3 (fst p * r) s) (vmul3 (snd p * r) m)))
    ys (infinite_aim newton c surface yo (Some ys) z (corners_of r) false) /\
  (forall f ray, In ray (infinite_aim newton c surface yo None z (corners_of r) f) -> forall y u, ray = Some (y, u) ->
     direction_map (cj_projection c) yo (cj_val c) = Some u /\ exists t, at_ray y u t = V 0 0 z).
Proof.
  intros H Z. split.
  - unfold infinite_aim. rewrite (proj1 (C27_disc ys r H)), map_map. cbn [fst snd]. apply Forall2_map_r. intros p _ y u E U.
    destruct (C27_infinite newton c surface yo _ _ z y u Z E U) as (A & B & _). auto.
  - intros f ray [I|[]] y u E. subst ray. unfold infinite_ray in E.
    destruct (direction_map _ _ _) as [d|]; cbn [obind] in E; [|discriminate].
    destruct surface as [s|].
    + destruct (intercept newton s _ d) as [t|]; cbn [obind] in E; [|discriminate]. injection E as <- <-. split; [auto|].
      exists (z - t). unfold at_ray, vadd3, vmul3, vsub3. apply vec_eq; cbn; ring.
    + injection E as <- <-. split; [auto|]. exists z. unfold at_ray, vadd3, vmul3, vsub3. apply vec_eq; cbn; ring.
Qed.
Example C27_finite_bundle_example : let c := Conjugate true 1 (Pupil RadiusPupil 1 4 true true false false 1 Rectilinear) Rectilinear false in
  length (finite_aim c None (0, -3) (Some [(0, 0); (0, 1)]) 4 (corners_of 1) false) = 2%nat /\
  Forall (fun ray => ray <> None) (finite_aim c None (0, -3) (Some [(0, 0); (0, 1)]) 4 (corners_of 1) false).
Proof. cbv zeta. split; [reflexivity|]. apply C27_finite_bundle; [lra|lra|reflexivity]. Qed.

(** * C40: merits *)
(** a merit of the marginal search is never below -1, and reaches -1 only for a ray on the axis or an unlimited surface *)
Lemma excess_bound h r f : excess h r = Some f -> -1 <= f.
Proof.
  unfold excess. destruct h as [y|]; cbn [obind]; [|discriminate]. destruct r as [r|]; [|intros E; injection E; lra].
  destruct (fdiv _ _) as [q|] eqn:Q; cbn [obind]; [|discriminate]. intros E. injection E as <-.
  apply fdiv_inv in Q. destruct Q as (N & ->).
  assert (0 <= (fst y * fst y + snd y * snd y) / (r * r)).
  { apply Rmult_le_pos; [nra|]. left. apply Rinv_0_lt_compat. nra. }
  lra.
Qed.
Lemma maximum_in d f : maximum d = Some f -> In (Some f) d.
Proof.
  revert f. induction d as [|x d IH]; intros f; [discriminate|]. destruct d as [|y d]; [intros E; left; exact E|].
  change (maximum (x :: y :: d)) with (do x <- x; do m <- maximum (y :: d); Some (Rmax x m)).
  destruct x as [x|]; cbn [obind]; [|discriminate]. destruct (maximum (y :: d)) as [m|]; cbn [obind]; [|discriminate].
  intros E. injection E as <-. unfold Rmax. destruct (Rle_dec x m); [right; auto|left; auto].
Qed.
Lemma last_in {A} (d : list A) x : d <> [] -> In (last d x) d.
Proof. induction d as [|y d IH]; intros N; [contradiction|]. destruct d; [left; auto|right; apply IH; discriminate]. Qed.
Theorem C40_merit_bound marginal radii rim yp z p stop a f : marginal_merit marginal radii rim yp z p stop a = Some f -> -1 <= f.
Proof.
  unfold marginal_merit. intros E.
  assert (I : In (Some f) (excesses (marginal yp z (a * p)) (firstn (stop - 1) (tl radii)))).
  { destruct rim; [apply maximum_in; auto|]. destruct (excesses _ _) eqn:D; [discriminate|]. rewrite <- E. apply last_in. discriminate. }
  unfold excesses in I. apply in_map_iff in I. destruct I as ([h r] & X & _). apply excess_bound in X. auto.
Qed.
Example C40_merit_bound_example : marginal_merit (fun _ _ _ => [Some (0, 0)]) [None; Some 1; Some 1] true (0, 1) 0 1 2 0 = Some (-1).
Proof. unfold marginal_merit, excesses, excess. cbn. rewrite fdiv_some by lra. cbn. f_equal. lra. Qed.
(** a surface without limit never decides: dropping it leaves the rim merit as it was *)
Lemma maximum_cons x d : d <> [] -> maximum (x :: d) = do x <- x; do m <- maximum d; Some (Rmax x m).
Proof. destruct d; [contradiction|reflexivity]. Qed.
Lemma maximum_drop d1 d2 : d1 ++ d2 <> [] -> (forall f, In (Some f) (d1 ++ d2) -> -1 <= f) -> maximum (d1 ++ Some (-1) :: d2) = maximum (d1 ++ d2).
Proof.
  induction d1 as [|x d1 IH]; cbn [app]; intros N B.
  - rewrite maximum_cons by auto. cbn [obind]. destruct (maximum d2) as [m|] eqn:M; cbn [obind]; [|auto].
    f_equal. apply Rmax_right. apply B. apply maximum_in. auto.
  - rewrite maximum_cons by (destruct d1; discriminate).
    assert (D : d1 ++ d2 = [] \/ d1 ++ d2 <> []) by (destruct (d1 ++ d2); [left; auto|right; discriminate]).
    destruct D as [D|D].
    + apply app_eq_nil in D. destruct D as [-> ->]. cbn. destruct x as [x|]; cbn; [|auto].
      f_equal. apply Rmax_left. apply B. left. auto.
    + rewrite IH by (auto; intros f F; apply B; right; auto). rewrite maximum_cons by auto. reflexivity.
Qed.
Lemma combine_app {A B} (l1 l2 : list A) (m1 m2 : list B) : length l1 = length m1 -> combine (l1 ++ l2) (m1 ++ m2) = combine l1 m1 ++ combine l2 m2.
Proof. revert m1. induction l1 as [|x l1 IH]; intros [|y m1] E; try discriminate; [reflexivity|]. cbn. rewrite IH by auto. reflexivity. Qed.
Theorem C40_unlimited h1 y h2 r1 r2 : length h1 = length r1 -> length h2 = length r2 -> r1 ++ r2 <> [] ->
  maximum (excesses (h1 ++ Some y :: h2) (r1 ++ None :: r2)) = maximum (excesses (h1 ++ h2) (r1 ++ r2)).
Proof.
  intros L1 L2 N. unfold excesses. rewrite !combine_app by auto. rewrite !map_app. cbn [combine map fst snd].
  change (excess (Some y) None) with (Some (0 - 1)). replace (0 - 1) with (-1) by ring.
  apply maximum_drop.
  - intros E. apply app_eq_nil in E. destruct E as [E1 E2]. apply map_eq_nil in E1. apply map_eq_nil in E2.
    destruct r1; [|destruct h1; [discriminate|discriminate]]. destruct r2; [contradiction N; auto|destruct h2; discriminate].
  - intros f I. rewrite <- map_app in I. apply in_map_iff in I. destruct I as ([h r] & X & _). apply excess_bound in X. auto.
Qed.
Example C40_unlimited_example : maximum (excesses [Some (0, 3); Some (0, 1)] [None; Some 2]) = Some (1 / 4 - 1).
Proof.
  change [Some (0, 3); Some (0, 1)] with (([] : list (option (R * R))) ++ Some (0, 3) :: [Some (0, 1)]).
  change [None; Some 2] with (([] : list (option R)) ++ None :: [Some 2]).
  rewrite C40_unlimited by (reflexivity || discriminate). unfold excesses, excess. cbn. rewrite fdiv_some by lra. cbn. f_equal. lra.
Qed.
(** with an unlimited stop surface there is nothing to aim at: the pupil stays where it was as long as its chief ray exists *)
Theorem C40_unlimited_stop chief newton sys_stop radii yo z p tol maxiter y :
  List.nth sys_stop radii None = None -> p <> 0 -> 0 <= tol -> chief sys_stop (z + 0 * p) = Some y ->
  aim_chief chief newton false true sys_stop radii yo z p NoStop tol maxiter = Some z.
Proof.
  intros N P T C. unfold aim_chief. destruct (Req_EM_T p 0); [contradiction|]. cbn [orb negb]. rewrite N. cbv zeta.
  unfold solve_newton, find_start. rewrite C. cbn [obind fst snd].
  assert (W : within (Some 0) tol = true) by (apply within_true; exists 0; split; [auto|rewrite Rabs_R0; auto]).
  rewrite W. cbn [obind]. f_equal. ring.
Qed.
Example C40_unlimited_stop_example : aim_chief (fun _ z => Some (0, z)) (fun _ _ => None) false true 1 [None; None] (0, 1) 3 1 NoStop 0 5 = Some 3.
Proof. apply (C40_unlimited_stop _ _ _ _ _ _ _ _ _ (0, 3 + 0 * 1)); try reflexivity; lra. Qed.
(** off axis the chief ray is aimed first, in steps of the largest pupil rim coordinate *)
Theorem C40_pupil_step chief marginal newton brentq telecentric aiming sys_stop radii finite guess yo z a stop tol maxiter z' b :
  aim_pupil chief marginal newton brentq telecentric aiming sys_stop radii finite guess yo false z a stop tol maxiter = Some (z', b) ->
  exists p, largest4 (a00 a) (a01 a) (a10 a) (a11 a) p /\
    aim_chief chief newton telecentric aiming sys_stop radii yo z p stop tol maxiter = Some z'.
Proof.
  intros E. exists (Rmax (Rmax (Rabs (a00 a)) (Rabs (a01 a))) (Rmax (Rabs (a10 a)) (Rabs (a11 a)))). split; [apply largest4_max|].
  unfold aim_pupil in E. cbv zeta in E. destruct (aim_chief _ _ _ _ _ _ _ _ _ _ _ _) as [z1|]; cbn [obind] in E; [|discriminate].
  assert (X : forall w, (do za <- w; do t <- aim_marginal marginal brentq aiming sys_stop radii (0, 1) (fst za) (a11 (snd za)) stop tol maxiter;
     let a := if guess then Box (a00 (snd za)) (- t) (a10 (snd za)) t else Box (- t) (- t) t t in
     do t <- aim_marginal marginal brentq aiming sys_stop radii (0, -1) (fst za) (a01 a) stop tol maxiter;
     let a := Box (a00 a) t (a10 a) (a11 a) in
     do t <- aim_marginal marginal brentq aiming sys_stop radii (1, 0) (fst za) (a10 a) stop tol maxiter;
     let a := Box (- t) (a01 a) t (a11 a) in
     do t <- aim_marginal marginal brentq aiming sys_stop radii (-1, 0) (fst za) (a00 a) stop tol maxiter;
     Some (fst za, Box t (a01 a) (a10 a) (a11 a))) = Some (z', b) -> exists za : R * box, w = Some za /\ fst za = z').
  { intros [za|] H; cbn [obind] in H; [|discriminate]. exists za. split; [auto|]. cbv zeta in H.
    repeat (match type of H with obind ?x _ = _ => destruct x; cbn [obind] in H; [|discriminate] end). injection H. auto. }
  cbv zeta in X. apply X in E. destruct E as (za & W & <-). destruct finite.
  - destruct (fdiv z1 z); cbn [obind] in W; [|discriminate]. injection W as <-. reflexivity.
  - injection W as <-. reflexivity.
Qed.
Example C40_pupil_step_example : aim_pupil (fun _ _ => None) (fun _ _ _ => []) (fun _ _ => None) (fun _ _ _ => None) false false 1 [None; None]
  false true (0, 1) false 3 (Box (-1) (-2) 1 2) NoStop 0 5 = Some (3, Box (-1) (-2) 1 2).
Proof.
  destruct (largest4_max (-1) (-2) 1 2) as ((A & _) & _). rewrite (Rabs_left (-1)) in A at 1 by lra.
  unfold aim_pupil. cbn [a00 a01 a10 a11 fst snd obind]. unfold aim_chief. destruct (Req_EM_T _ 0); [lra|]. cbn [obind negb orb].
  unfold aim_marginal. cbn [negb andb]. cbn [obind a00 a01 a10 a11 fst snd].
  repeat (match goal with |- context [Req_EM_T ?x 0] => destruct (Req_EM_T x 0); [lra|]; cbn [obind negb andb a00 a01 a10 a11 fst snd] end).
  reflexivity.
Qed.

(** * C10: ratios of index of either sign *)
(** refraction by any ratio keeps the direction a unit vector, scales its part along the
    surface by the magnitude of the ratio, and leaves on the side given by its sign *)
Theorem C10_any_ratio u0 N mu u : mu <> 0 -> mu <> -1 -> dot u0 u0 = 1 -> N <> v0 ->
  refract_normal u0 N mu = Some u ->
  dot u u = 1 /\ cross u N = vmul3 (Rabs mu) (cross u0 N) /\ 0 <= mu * dot u N.
Proof.
  intros M0 M1 U NZ E. assert (R2 : dot N N <> 0) by (intros Z; apply dot_zero in Z; contradiction).
  assert (RP : 0 < dot N N) by (pose proof (dot_nonneg N); lra).
  unfold refract_normal in E. rewrite !fdiv_some in E by auto. cbn [obind] in E.
  destruct (Req_EM_T mu (-1)); [contradiction|]. destruct (fsqrt _) as [q|] eqn:Q; cbn [obind] in E; [|discriminate].
  apply fsqrt_inv in Q. destruct Q as (Q1 & Q2 & Q3). injection E as <-.
  set (a := Rabs mu * dot u0 N / dot N N) in *. set (g := - a + sign mu * q).
  assert (A : a * dot N N = Rabs mu * dot u0 N) by (unfold a; field; auto).
  assert (SM : Rabs mu * Rabs mu = mu * mu) by (rewrite <- Rabs_mult; apply Rabs_pos_eq; nra).
  assert (SG : sign mu * sign mu = 1 /\ 0 <= mu * sign mu).
  { unfold sign. destruct (Rlt_dec 0 mu); [lra|]. destruct (Rlt_dec mu 0); lra. }
  assert (D : dot (vadd3 (vmul3 (Rabs mu) u0) (vmul3 g N)) N = sign mu * q * dot N N).
  { rewrite dot_lin. unfold g. rewrite Rmult_plus_distr_r. rewrite Ropp_mult_distr_l_reverse, A. ring. }
  split; [|split].
  - rewrite norm_lin, U. 
    assert (Q4 : q * q * dot N N = a * a * dot N N - (mu * mu - 1)).
    { transitivity ((a * a - (mu ^ 2 - 1) / dot N N) * dot N N); [rewrite <- Q3; ring|field; auto]. }
    transitivity (Rabs mu * Rabs mu + 2 * (- a + sign mu * q) * (Rabs mu * dot u0 N) + (- a + sign mu * q) * (- a + sign mu * q) * dot N N); [unfold g; ring|].
    rewrite <- A, SM.
    transitivity (mu * mu - a * a * dot N N + sign mu * sign mu * (q * q * dot N N)); [ring|]. rewrite (proj1 SG), Q4. ring.
  - apply cross_self_lin.
  - rewrite D. destruct SG as [_ SG]. replace (mu * (sign mu * q * dot N N)) with (mu * sign mu * (q * dot N N)) by ring.
    apply Rmult_le_pos; [auto|]. apply Rmult_le_pos; lra.
Qed.
Example C10_any_ratio_example : refract_normal (V 0 0 1) (V 0 0 1) (-2) = Some (V 0 0 (-1)).
Proof.
  unfold refract_normal, dot. cbn [vx vy vz]. rewrite (Rabs_left (-2)) by lra. rewrite !fdiv_some by lra. cbn [obind].
  destruct (Req_EM_T (-2) (-1)); [lra|]. cbn [obind]. rewrite fsqrt_some by (cbn; lra). cbn [obind].
  match goal with |- context [sqrt ?e] => replace e with 1 by field end. rewrite sqrt_1.
  unfold sign. destruct (Rlt_dec 0 (-2)); [lra|]. destruct (Rlt_dec (-2) 0); [|lra].
  f_equal. apply vec_eq; cbn; field.
Qed.

(** * C09: when rotations are skipped *)
(** an element counts as straight exactly if the unit direction is within 1e-8 of the axis
    sideways and 1e-8 + 1e-5 along it, as untilted exactly if every angle is within 1e-8 *)
Theorem C09_flags distance direction angles p : update distance direction angles = Some p ->
  (p_straight p = true <->
     Rabs (vx (p_direction p)) <= 1 / 10 ^ 8 /\ Rabs (vy (p_direction p)) <= 1 / 10 ^ 8 /\
     Rabs (vz (p_direction p) - 1) <= 1 / 10 ^ 8 + 1 / 10 ^ 5) /\
  (p_normal p = true <->
     Rabs (vx angles) <= 1 / 10 ^ 8 /\ Rabs (vy angles) <= 1 / 10 ^ 8 /\ Rabs (vz angles) <= 1 / 10 ^ 8) /\
  p_angles p = angles /\
  (p_rot_axis p = None <-> p_straight p = true) /\
  (p_rot_normal p = None <-> p_straight p = true /\ p_normal p = true).
Proof.
  assert (IC : forall a b, isclose a b = true <-> Rabs (a - b) <= 1 / 10 ^ 8 + 1 / 10 ^ 5 * Rabs b).
  { intros a b. unfold isclose, tol. replace (1 / 10 ^ 8) with (/ 100000000) by (cbn; field). replace (1 / 10 ^ 5) with (/ 100000) by (cbn; field).
    destruct (Rle_dec _ _); split; auto; try discriminate; contradiction. }
  assert (AZ : forall v, allclose v v0 = true <-> Rabs (vx v) <= 1 / 10 ^ 8 /\ Rabs (vy v) <= 1 / 10 ^ 8 /\ Rabs (vz v) <= 1 / 10 ^ 8).
  { intros v. unfold allclose. rewrite !andb_true_iff, !IC. cbn [v0 vx vy vz]. rewrite !Rminus_0_r, Rabs_R0, Rmult_0_r, Rplus_0_r. tauto. }
  assert (AE : forall v, allclose v ez = true <-> Rabs (vx v) <= 1 / 10 ^ 8 /\ Rabs (vy v) <= 1 / 10 ^ 8 /\ Rabs (vz v - 1) <= 1 / 10 ^ 8 + 1 / 10 ^ 5).
  { intros v. unfold allclose. rewrite !andb_true_iff, !IC. cbn [ez vx vy vz]. rewrite !Rminus_0_r, Rabs_R0, Rabs_R1, Rmult_0_r, Rplus_0_r, Rmult_1_r. tauto. }
  unfold update. destruct (unit_or_axis direction) as [u|]; cbn [obind]; [|discriminate].
  destruct (if Rlt_dec distance 0 then _ else _) as [d w]. cbv zeta.
  rewrite <- AZ. destruct (allclose angles v0) eqn:NA; destruct (allclose w ez) eqn:ST; cbn [andb].
  all: try (destruct (axis_rotation w) as [m|]; cbn [obind]; [|discriminate]).
  all: intros E; injection E as <-; cbn [p_straight p_normal p_direction p_angles p_rot_axis p_rot_normal]; rewrite <- AE, ST;
    repeat apply conj; try split; try tauto; try discriminate; intros [? ?]; discriminate.
Qed.
Example C09_flags_example : exists p, update 1 (V 1 0 0) v0 = Some p /\ p_straight p = false /\ p_normal p = true.
Proof.
  destruct (update_spec 1 (V 1 0 0) v0) as (p & E & _ & _ & _ & _ & u & HU & _ & DR). exists p. split; [auto|].
  destruct (unit_or_axis_spec (V 1 0 0)) as (u' & HU' & _ & _ & _ & UN). rewrite HU' in HU. injection HU as <-.
  rewrite (UN ltac:(unfold dot; cbn; ring)) in DR. destruct (Rlt_dec 1 0); [lra|].
  destruct (C09_flags _ _ _ _ E) as ((ST & _) & (_ & NO) & _). rewrite DR in ST. cbn [vx vy vz v0] in *. split.
  - destruct (p_straight p); [|auto]. destruct (ST eq_refl) as (X & _). rewrite Rabs_R1 in X. cbn in X. lra.
  - apply NO. rewrite Rabs_R0. cbn. lra.
Qed.
Print Assumptions C27_scale.
Print Assumptions C27_finite_bundle.
Print Assumptions C27_finite_bundle_chief.
Print Assumptions C27_infinite_bundle.
Print Assumptions C40_merit_bound.
Print Assumptions C40_unlimited.
Print Assumptions C40_unlimited_stop.
Print Assumptions C40_pupil_step.
Print Assumptions C10_any_ratio.
Print Assumptions C09_flags.
