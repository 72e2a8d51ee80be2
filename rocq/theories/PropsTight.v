(** Further theorems of C27, C29, C30, C40 and C58: f-numbers of a collimated image space, defaults of the constructors,
    projection names, equidistant fields, flat pupils, aiming at an unlimited stop. *)
From Coq Require Import Reals String List Lra Lia Psatz.
From Verif Require Import Base Vec RotModel RotProofs PlacementModel PlacementProofs ElementModel
  ParaxialModel ParaxialProofs PropsParaxial LimitProofs PropsLimit ReverseModel PropsReverse PropsInverse
  PropsTrace PupilModel PropsPupil ParaxTraceModel PropsConjugates PropsSolve PropsCardinal PropsPupils ResolutionModel PropsResolution
  AimModel PropsAim AimSolveModel PropsAimSolve DictModel.
Import ListNotations.
Open Scope R_scope.

(** ** C58: light leaving parallel to the axis: working f-number of the object side and f-number of the image side *)
Theorem C58_f_number_image axis l es y u rs r2 f w : Forall upright es -> (3 <= length es)%nat ->
  ptrace axis l es y u (refractive_index es l 0) = Some rs -> back rs 2 = Some r2 -> fst (ru r2) = 0 -> refractive_index es l 0 > 0 ->
  f_number_image rs = Some f -> working_object rs = Some w -> w ^ 2 = f ^ 2 + / 4 /\ 0 < f /\ 0 < w.
Proof.
  intros U L TR B2 U2 N0 F W. destruct (back2 axis l es U L y u rs TR) as (M & r2' & B2' & _ & _ & RI & DET & _). rewrite B2 in B2'. injection B2' as <-.
  pose proof (ptrace_0 _ _ _ _ _ _ _ TR) as Z. set (n0 := refractive_index es l 0) in *.
  assert (LG : fst u * snd y - snd u * fst y = - (snd (ru r2) * fst (ry r2))).
  { unfold row_is in RI. destruct (block axis M) as [[[a b] c] d]. destruct RI as [RY RU]. rewrite RY, RU in *. cbn [fst snd] in *. clear - DET U2.
    transitivity ((a * d - b * c) * (fst u * snd y - snd u * fst y)); [rewrite DET; ring|]. transitivity ((c * fst y + d * fst u) * (a * snd y + b * snd u) - (c * snd y + d * snd u) * (a * fst y + b * fst u)); [ring|]. rewrite U2. ring. }
  unfold working_object, na_object in W. rewrite Z in W. cbn [obind rn ru] in W. unfold na_side in W. rewrite fdiv_some in W by lra. cbn [obind] in W. apply fdiv_inv in W. destruct W as (W0 & ->).
  unfold f_number_image, focal_length, ppupil_height, ppupil_distance, lagrange in F. rewrite Z, B2 in F. cbn [obind rn ru ry] in F. rewrite U2, Rmult_0_r, Rminus_0_l, LG in F.
  destruct (fdiv _ (- (fst u * snd (ru r2)))) as [g|] eqn:FG; [|discriminate]. cbn [obind fst snd] in F. apply fdiv_inv in FG. destruct FG as (G0 & ->).
  destruct (nth_error rs 1) as [r1|]; cbn [obind] in F; [|discriminate].
  destruct (fdiv (- snd (ry r1)) (snd u)) as [a|]; cbn [obind fst snd] in F; [|discriminate]. destruct (fdiv (- snd (ry r2)) (snd (ru r2))) as [b|]; cbn [obind fst snd] in F; [|discriminate].
  destruct (fdiv _ n0) as [q|]; cbn [obind fst snd] in F; [|discriminate]. rewrite Rmult_0_r in F. destruct (fdiv 0 (rn r2)) as [q'|] eqn:FQ; cbn [obind fst snd] in F; [|discriminate]. apply fdiv_inv in FQ. destruct FQ as (N2 & ->).
  match type of F with obind ?o _ = _ => destruct o as [v|] eqn:FV; [|discriminate] end. cbn [obind] in F. injection F as <-. apply fdiv_inv in FV. destruct FV as (V0 & ->).
  replace (0 / rn r2) with 0 in * by (field; auto). rewrite Rplus_0_r in *.
  assert (UM : fst u <> 0) by (intros E; apply G0; rewrite E; ring). assert (UC : snd (ru r2) <> 0) by (intros E; apply G0; rewrite E; ring).
  assert (Y2 : fst (ry r2) <> 0) by (intros E; apply V0; rewrite E, Rabs_R0; ring).
  replace (- (snd (ru r2) * fst (ry r2)) / - (fst u * snd (ru r2)) * n0 * 1) with (n0 * fst (ry r2) / fst u) by (field; auto).
  set (t := fst u / n0) in *. assert (T0 : t <> 0) by (unfold t, Rdiv; apply Rmult_integral_contrapositive_currified; [auto|apply Rinv_neq_0_compat; lra]).
  assert (F2 : forall x, Rabs x ^ 2 = x ^ 2) by (intros ?; rewrite <- !Rsqr_pow2; symmetry; apply Rsqr_abs).
  assert (FP : n0 * fst (ry r2) / fst u = fst (ry r2) / t) by (unfold t; field; split; [lra|exact UM]). rewrite FP.
  assert (E1 : (fst (ry r2) / t / (2 * Rabs (fst (ry r2)))) ^ 2 = / (4 * (t * t))).
  { replace ((fst (ry r2) / t / (2 * Rabs (fst (ry r2)))) ^ 2) with (fst (ry r2) ^ 2 / (t * t) / (4 * Rabs (fst (ry r2)) ^ 2)) by (field; repeat split; first [assumption|apply Rabs_no_R0; assumption]).
    rewrite F2. field. auto. }
  pose proof (root_pos t) as R. pose proof (root_sq t) as Q. unfold sinarctan in *. set (q' := sqrt (1 + t * t)) in *. clearbody q'.
  assert (S0 : n0 * (t * (1 / q')) <> 0) by (apply Rmult_integral_contrapositive_currified; [lra|]; apply Rmult_integral_contrapositive_currified; [auto|]; unfold Rdiv; rewrite Rmult_1_l; apply Rinv_neq_0_compat; lra).
  split; [|split].
  - rewrite F2, E1. replace ((n0 / (2 * Rabs (n0 * (t * (1 / q'))))) ^ 2) with (n0 ^ 2 / (4 * Rabs (n0 * (t * (1 / q'))) ^ 2)) by (field; apply Rabs_no_R0; exact S0).
    rewrite F2. replace ((n0 * (t * (1 / q'))) ^ 2) with (n0 ^ 2 * (t * t) / (q' * q')) by (field; lra). rewrite Q.
    assert (TT : 1 + t * t <> 0) by (pose proof (Rle_0_sqr t); unfold Rsqr in *; lra). field. repeat split; first [assumption|lra].
  - apply Rabs_pos_lt. unfold Rdiv. repeat apply Rmult_integral_contrapositive_currified; try assumption; try (apply Rinv_neq_0_compat; assumption).
  - apply Rdiv_lt_0_compat; [lra|]. apply Rmult_lt_0_compat; [lra|]. apply Rabs_pos_lt. exact S0.
Qed.
(** the water lens with the object in its front focus: f-number 1/22 *)
Example C58_f_number_image_example : exists es rs r2 w, Forall upright es /\ (3 <= length es)%nat /\ ptrace true 1 es (-36, -9) (11, 1) (refractive_index es 1 0) = Some rs /\
  back rs 2 = Some r2 /\ fst (ru r2) = 0 /\ refractive_index es 1 0 = 1 /\ f_number_image rs = Some (/ 22) /\ working_object rs = Some w.
Proof.
  destruct (centred_axis 0) as (p0 & E0 & _); [lra|]. destruct (centred_axis 3) as (p3 & E3 & _); [lra|].
  destruct (centred_axis 9) as (p9 & E9 & _); [lra|]. destruct (centred_axis 18) as (p18 & E18 & _); [lra|].
  destruct (lens3_trace p0 p3 p9 p18 E0 E3 E9 E18) as (U & PS & _ & T). specialize (T (-36, -9) (11, 1)). cbn [fst snd] in T.
  do 3 eexists. exists (1 / (2 * Rabs (1 * sinarctan (11 / 1)))). split; [exact U|]. split; [cbn; lia|]. split; [exact T|]. split; [reflexivity|]. split; [cbn [ru fst]; field|]. split; [reflexivity|].
  unfold f_number_image, focal_length, lagrange, ppupil_height, ppupil_distance, working_object, na_object, na_side, back. cbn [length Nat.leb Nat.sub nth_error obind ry ru rn fst snd]. split.
  - repeat (rewrite fdiv_some by lra; cbn [obind fst snd]).
    match goal with |- context [2 * Rabs ?x] => replace x with 72 by field end. rewrite (Rabs_pos_eq 72) by lra. rewrite fdiv_some by lra. cbn [obind]. f_equal.
    match goal with |- Rabs ?x = _ => replace x with (/ 22) by field end. apply Rabs_pos_eq. lra.
  - rewrite fdiv_some by lra. cbn [obind]. rewrite fdiv_some; [reflexivity|]. apply Rmult_integral_contrapositive_currified; [lra|]. apply Rabs_no_R0. unfold sinarctan. pose proof (root_pos (11 / 1)).
    apply Rmult_integral_contrapositive_currified; [lra|]. apply Rmult_integral_contrapositive_currified; [lra|]. unfold Rdiv. rewrite Rmult_1_l. apply Rinv_neq_0_compat. lra.
Qed.

(** ** C27: fields of the equidistant projection point backwards exactly beyond the right angle *)
Theorem C27_equidistant_side ea eb rho a : ea * ea + eb * eb = 1 -> exists u, direction_map Equidistant (rho * ea, rho * eb) a = Some u /\
  vx u = sin (rho * ea * a) /\ vy u = sin (rho * eb * a) /\ vz u * vz u = vx u * vx u + vy u * vy u /\
  (Rabs (rho * a) <= PI / 2 -> 0 <= vz u) /\ (PI / 2 < Rabs (rho * a) -> vz u <= 0).
Proof.
  intros E. unfold direction_map. cbn [fst snd]. eexists. split; [reflexivity|]. cbn [vx vy vz]. split; [reflexivity|]. split; [reflexivity|].
  set (s := sin (rho * ea * a) * sin (rho * ea * a) + sin (rho * eb * a) * sin (rho * eb * a)). assert (P : 0 <= s) by (unfold s; nra). pose proof (sqrt_pos s) as SP. pose proof (sqrt_sqrt s P) as SS.
  pose proof PI_RGT_0 as PP. replace (rho * ea * a * (rho * ea * a) + rho * eb * a * (rho * eb * a)) with ((rho * a) * (rho * a) * (ea * ea + eb * eb)) by ring. rewrite E, Rmult_1_r.
  replace (rho * a * (rho * a)) with (Rabs (rho * a) * Rabs (rho * a)) by (rewrite <- Rabs_mult; apply Rabs_pos_eq; nra). pose proof (Rabs_pos (rho * a)).
  destruct (Rlt_dec _ _) as [Q|Q]; (split; [nra|]); (split; intros K; [nra|nra]).
Qed.
Example C27_equidistant_side_example : 3/5 * (3/5) + 4/5 * (4/5) = 1 /\ PI / 2 < Rabs (1 * PI).
Proof. split; [lra|]. pose proof PI_RGT_0. rewrite Rmult_1_l, Rabs_pos_eq; lra. Qed.
(** finding: a pupil without extent in one direction passes no ray at all, not even the chief ray *)
Theorem C27_flat_pupil_refuted ys a : lo_s a = hi_s a \/ lo_m a = hi_m a -> pupil_map ys a true = [].
Proof.
  intros H. unfold pupil_map. generalize (map (fun y : R * R => (fst y * corners_max a, snd y * corners_max a)) ys) as l. induction l as [|y l IH]; [reflexivity|]. cbn [filter].
  replace (inside a y) with false; [exact IH|]. unfold inside. destruct H as [-> | ->].
  - replace ((hi_s a - hi_s a) / 2) with 0 by lra. rewrite pow_i by lia. rewrite fdiv_zero. reflexivity.
  - replace ((hi_m a - hi_m a) / 2) with 0 by lra. rewrite pow_i by lia. rewrite fdiv_zero. destruct (fdiv _ _); reflexivity.
Qed.
Example C27_flat_pupil_refuted_example : pupil_map [(0, 0)] (Corners 0 (-1) 0 1) true = [] /\ pupil_map [(0, 0)] (Corners 0 (-1) 0 1) false <> [].
Proof. split; [apply C27_flat_pupil_refuted; auto|discriminate]. Qed.

(** ** C40: an unlimited stop: any chief ray will do, but it exists *)
Theorem C40_unlimited_chief chief newton sys_stop radii yo z p tol maxiter z' : (forall f a r, newton f a = Some r -> exists v, f r = Some v) ->
  List.nth sys_stop radii None = None -> aim_chief chief newton false true sys_stop radii yo z p NoStop tol maxiter = Some z' ->
  p <> 0 /\ chief sys_stop z' <> None.
Proof.
  intros NW RD H. unfold aim_chief in H. destruct (Req_EM_T p 0) as [|P]; [discriminate|]. split; [exact P|]. cbn [orb negb] in H. rewrite RD in H. cbv zeta in H.
  destruct (solve_newton _ _ 0 tol maxiter) as [a|] eqn:E; [|discriminate]. cbn [obind] in H. injection H as <-.
  assert (K : exists v, (do y <- chief sys_stop (z + a * p); Some 0) = Some v).
  { apply C40_newton in E. destruct E as [[f [F _]]|[x [f [_ [_ N]]]]]; [eauto|]. eapply (NW (fun a => do y <- chief sys_stop (z + a * p); Some 0)); exact N. }
  destruct K as [v K]. destruct (chief sys_stop (z + a * p)); [discriminate|]. cbn in K. discriminate.
Qed.
(** the chief ray exists only for pupils at least 3/2 away: the search steps there *)
Example C40_unlimited_chief_example : exists chief, aim_chief chief (fun _ _ => None) false true 1 [None; None] (0, 1) 1 1 NoStop 0 5 = Some 2 /\ chief 1%nat 1 = None.
Proof.
  exists (fun _ z => if Rle_dec (3/2) z then Some (0, z) else None). split; [|destruct (Rle_dec (3/2) 1); [lra|reflexivity]].
  unfold aim_chief. destruct (Req_EM_T 1 0); [lra|]. cbn [orb negb List.nth]. unfold solve_newton, find_start. destruct (Rle_dec (3/2) (1 + 0 * 1)); [lra|]. cbn [obind].
  cbn [try_starts Nat.sub INR]. destruct (Rle_dec (3/2) (1 + (0 + - (1)) * 1)); [lra|]. cbn [obind]. destruct (Rle_dec (3/2) (1 + (0 + 1) * 1)); [|lra]. cbn [obind fst snd].
  replace (within (Some 0) 0) with true by (unfold within; rewrite Rabs_R0; destruct (Rle_dec 0 0); [reflexivity|lra]). cbn [obind]. f_equal. lra.
Qed.

(** ** C29: what a constructor fills in, and which projections there are *)
Open Scope string_scope.
(** nothing but the size: at distance one, following the paraxial pupil in place but not in size, no aiming, not telecentric, in vacuum *)
Definition plain_pupil (p : pupil) : Prop := pu_distance p = 1 /\ pu_update_distance p = true /\ pu_update_radius p = false /\ pu_aim p = false /\
  pu_telecentric p = false /\ pu_index p = 1 /\ pu_projection p = Rectilinear.
Theorem C29_defaults x :
  (forall t k, In (t, k) [("na", NaPupil); ("slope", SlopePupil); ("radius", RadiusPupil); ("fno", FnoPupil)] ->
    exists p, fst (pupil_make [("type", VStr t); (t, VNum x)]) = Ok p /\ pu_kind p = k /\ pu_val p = x /\ plain_pupil p) /\
  (exists p, fst (pupil_make [("radius", VNum x)]) = Ok p /\ pu_kind p = RadiusPupil /\ pu_val p = x /\ plain_pupil p) /\
  (exists c, conjugate_make [] = (Ok c, []) /\ cj_finite c = false /\ cj_val c = 0 /\ cj_projection c = Rectilinear /\ cj_update_radius c = false /\
    pu_kind (cj_pupil c) = RadiusPupil /\ pu_val (cj_pupil c) = 0 /\ plain_pupil (cj_pupil c)) /\
  (exists c, conjugate_make [("type", VStr "finite")] = (Ok c, []) /\ cj_finite c = true /\ cj_val c = 0 /\ cj_projection c = Rectilinear /\ cj_update_radius c = false /\
    pu_kind (cj_pupil c) = RadiusPupil /\ pu_val (cj_pupil c) = 0 /\ plain_pupil (cj_pupil c)).
Proof.
  unfold plain_pupil. split; [|split; [|split]].
  - intros t k I. cbn in I. repeat (destruct I as [I|I]; [injection I as <- <-; eexists; split; [reflexivity|]; cbn; repeat split|]). contradiction.
  - eexists. split; [reflexivity|]. cbn. repeat split.
  - eexists. split; [reflexivity|]. cbn. repeat split.
  - eexists. split; [reflexivity|]. cbn. repeat split.
Qed.
Definition projections : list (string * projection) := [("rectilinear", Rectilinear); ("stereographic", Stereographic); ("equisolid", Equisolid); ("orthographic", Orthographic); ("equidistant", Equidistant)].
(** a projection is accepted exactly if it is one of the five *)
Theorem C29_projections x s :
  (forall j, In (s, j) projections <-> exists p, fst (pupil_make [("radius", VNum x); ("projection", VStr s)]) = Ok p /\ pu_projection p = j) /\
  (forall j, In (s, j) projections <-> exists c, fst (conjugate_make [("angle", VNum x); ("projection", VStr s)]) = Ok c /\ cj_projection c = j).
Proof.
  assert (A : forall j, In (s, j) projections <-> as_proj (VStr s) = Ok j).
  { intros j. unfold projections, as_proj. cbn [In]. split.
    - intros I. repeat (destruct I as [I|I]; [injection I as <- <-; reflexivity|]). contradiction.
    - repeat match goal with |- (if ?b then _ else _) = _ -> _ => destruct b eqn:?E end; try discriminate; intros H; injection H as <-;
        match goal with E : (_ =? _)%string = true |- _ => apply String.eqb_eq in E; subst s end; auto 10. }
  split; intros j; rewrite A.
  - unfold pupil_make, pop_type, kw, pupil_init, kw_required. cbn [dget ddel String.eqb Ascii.eqb Bool.eqb pupil_types kind_name rbind no_more as_num as_bool fst]. unfold kw. cbn [dget ddel String.eqb Ascii.eqb Bool.eqb no_more rbind as_num as_bool].
    destruct (as_proj (VStr s)) as [j'|e]; cbn [rbind]; split.
    + intros H. injection H as <-. eexists. split; [reflexivity|]. reflexivity.
    + intros (p & H & <-). injection H as <-. reflexivity.
    + discriminate.
    + intros (p & H & _). discriminate.
  - unfold conjugate_make, pop_type, kw, conjugate_init. cbn [dget ddel String.eqb Ascii.eqb Bool.eqb]. unfold kw. cbn [dget ddel String.eqb Ascii.eqb Bool.eqb no_more rbind as_num as_bool fst].
    destruct (as_proj (VStr s)) as [j'|e]; cbn [rbind fst]; split.
    + intros H. injection H as <-. eexists. split; [reflexivity|]. reflexivity.
    + intros (p & H & <-). injection H as <-. reflexivity.
    + discriminate.
    + intros (p & H & _). discriminate.
Qed.
Example C29_projections_example : In ("equisolid", Equisolid) projections /\ ~ In ("fisheye", Equisolid) projections.
Proof. split; [cbn; auto|]. cbn. intros H. repeat (destruct H as [H|H]; [discriminate|]). contradiction. Qed.

(** ** C30: also the pupil inside the dictionary of a conjugate loses its type *)
Theorem C30_nested t pd : In t ["finite"; "infinite"] ->
  snd (conjugate_make [("type", VStr t); ("pupil", VDict pd)]) = [("pupil", VDict (ddel "type" pd))].
Proof.
  intros I. assert (P : snd (pupil_make pd) = ddel "type" pd) by reflexivity.
  cbn in I. destruct I as [<-|[<-|[]]]; unfold conjugate_make, pop_type, kw, conjugate_init; cbn [dget ddel String.eqb Ascii.eqb Bool.eqb]; unfold kw; cbn [dget ddel String.eqb Ascii.eqb Bool.eqb no_more];
    destruct (pupil_make pd) as [p r]; cbn [snd] in *; rewrite P; reflexivity.
Qed.
Example C30_nested_example : ddel "type" (pupil_dict None (Pupil NaPupil (1/10) 5 true false false false 1 Rectilinear)) <> pupil_dict None (Pupil NaPupil (1/10) 5 true false false false 1 Rectilinear).
Proof. cbn. discriminate. Qed.

(** ** C42: the conversion of a matrix of trace zero or less returns uninitialised memory: the first component of the result is
    whatever [numpy.empty] contained, and the others are not those of the quaternion (indices are one too large) *)
Theorem C42_uninitialised_refuted junk m q : mget m 0 0 + mget m 1 1 + mget m 2 2 <= 0 -> quaternion_from_matrix_precise junk m = Some q ->
  exists s a b c t, 4 * s * s * t = 1 /\ q = Q (s * qw junk) (s * a) (s * b) (s * c) /\
  (mget m 1 1 <= mget m 0 0 -> mget m 2 2 <= mget m 1 1 -> t = mget m 1 1 - mget m 2 2 /\ a = t /\ b = mget m 1 2 + mget m 2 1 /\ c = 0) /\
  (mget m 1 1 <= mget m 0 0 -> mget m 1 1 < mget m 2 2 -> t = 2 - (mget m 1 1 + mget m 2 2) /\ a = 0 /\ b = 0 /\ c = mget m 2 1 - mget m 1 2) /\
  (mget m 0 0 < mget m 1 1 -> t = mget m 2 2 - mget m 1 1 /\ a = mget m 1 2 + mget m 2 1 /\ b = t /\ c = 0).
Proof.
  intros T H. unfold quaternion_from_matrix_precise in H. destruct (Rlt_dec 1 _) as [X|_]; [lra|].
  assert (FIN : forall t a b c, (do s <- fsqrt (t * 1); do f <- fdiv (1 / 2) s; Some (if Rlt_dec (qw (qscale f (Q (qw junk) a b c))) 0 then qscale (-1) (qscale f (Q (qw junk) a b c)) else qscale f (Q (qw junk) a b c))) = Some q ->
    exists s, 4 * s * s * t = 1 /\ q = Q (s * qw junk) (s * a) (s * b) (s * c)).
  { intros t a b c E. rewrite Rmult_1_r in E. unfold fsqrt in E. destruct (Rle_dec 0 t) as [P|]; [|discriminate]. cbn [obind] in E. destruct (fdiv (1 / 2) (sqrt t)) as [f|] eqn:F; [|discriminate]. apply fdiv_inv in F. destruct F as (S0 & F). cbn [obind] in E.
    assert (4 * f * f * t = 1) by (rewrite F; rewrite <- (sqrt_sqrt t P) at 3; field; exact S0).
    destruct (Rlt_dec _ 0); injection E as <-; [exists (- f)|exists f]; (split; [lra|]); unfold qscale; cbn [qw qx qy qz]; f_equal; ring. }
  destruct (Rlt_dec (mget m 0 0) (mget m 1 1)) as [L|L].
  - cbn [hget] in H. destruct (Rlt_dec (mget m 2 2) (mget m 2 2)) as [Y|_]; [lra|]. cbn [hget qset qw qx qy qz] in H.
    apply FIN in H. destruct H as (s & S & ->). do 5 eexists. split; [exact S|]. split; [reflexivity|]. split; [intros; lra|]. split; [intros; lra|]. intros _. repeat split; ring.
  - cbn [hget] in H. destruct (Rlt_dec (mget m 1 1) (mget m 2 2)) as [Y|Y]; cbn [hget qset qw qx qy qz] in H; apply FIN in H; destruct H as (s & S & ->); do 5 eexists; (split; [exact S|]); (split; [reflexivity|]).
    + split; [intros; lra|]. split; [|intros; lra]. intros _ _. repeat split; ring.
    + split; [|split; intros; lra]. intros _ _. repeat split; ring.
Qed.
(** the half turn about (2, 2, 1) *)
Example C42_uninitialised_refuted_example junk : let m := M (V (-1/9) (8/9) (4/9)) (V (8/9) (-1/9) (4/9)) (V (4/9) (4/9) (-7/9)) in rotation m /\
  mget m 0 0 + mget m 1 1 + mget m 2 2 <= 0 /\ mget m 1 1 <= mget m 0 0 /\ mget m 2 2 <= mget m 1 1 /\ quaternion_from_matrix_precise junk m <> None.
Proof.
  intros m. unfold m. split; [apply rotation_intro; vec_simpl; repeat (apply mat_eq || apply vec_eq); cbn; field|].
  split; [cbn; lra|]. split; [cbn; lra|]. split; [cbn; lra|]. unfold quaternion_from_matrix_precise. cbn [mget mrow vget row0 row1 row2 vx vy vz].
  destruct (Rlt_dec 1 _); [lra|]. destruct (Rlt_dec (-1/9) (-1/9)); [lra|]. cbn [hget mget mrow vget row0 row1 row2 vx vy vz]. destruct (Rlt_dec (-1/9) (-7/9)); [lra|].
  cbn [hget mget mrow vget row0 row1 row2 vx vy vz]. unfold fsqrt. destruct (Rle_dec _ _) as [|N]; [|exfalso; apply N; lra]. cbn [obind]. rewrite fdiv_some; [discriminate|]. apply Rgt_not_eq, sqrt_lt_R0. lra.
Qed.
