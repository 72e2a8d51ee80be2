(** Property C26: pupil specifications. *)
From Coq Require Import Reals List Lra Psatz.
From Verif Require Import Base Vec RotModel PupilModel.
Import ListNotations.
Open Scope R_scope.

(** specification: sine of the angle whose tangent is t, and back, by the library's
    trigonometric functions *)
Lemma sinarctan_spec t : sinarctan t = sin (atan t).
Proof.
  unfold sinarctan. pose proof (atan_bound t) as B. assert (C : 0 < cos (atan t)) by (apply cos_gt_0; lra).
  assert (T : sin (atan t) = t * cos (atan t)).
  { rewrite <- (atan_right_inv t) at 2. unfold tan. field. lra. }
  pose proof (sin2_cos2 (atan t)) as S. unfold Rsqr in S.
  assert (E : 1 + t * t = / (cos (atan t) * cos (atan t))).
  { apply (Rmult_eq_reg_r (cos (atan t) * cos (atan t))); [|nra]. rewrite Rinv_l by nra. rewrite T in S. nra. }
  rewrite E. rewrite T. f_equal. rewrite sqrt_inv, sqrt_square by lra. unfold Rdiv. rewrite Rinv_inv. ring.
Qed.
Lemma sinarctan_sq t : 1 - sinarctan t * sinarctan t = / (1 + t * t).
Proof.
  unfold sinarctan. assert (P : 0 < 1 + t * t) by nra.
  pose proof (sqrt_sqrt (1 + t * t) ltac:(lra)) as S. pose proof (sqrt_lt_R0 _ P) as Q.
  set (w := sqrt (1 + t * t)) in *.
  apply (Rmult_eq_reg_r (1 + t * t)); [|lra]. rewrite Rinv_l by lra.
  replace ((1 - t * (1 / w) * (t * (1 / w))) * (1 + t * t)) with ((1 + t * t) - t * t * ((1 + t * t) / (w * w))) by (field; lra).
  rewrite S. field. lra.
Qed.
Lemma tanarcsin_sinarctan t : tanarcsin (sinarctan t) = Some t.
Proof.
  unfold tanarcsin. rewrite sinarctan_sq. assert (P : 0 < 1 + t * t) by nra.
  pose proof (Rinv_0_lt_compat _ P) as PI. rewrite fsqrt_some by lra. cbn [obind].
  pose proof (sqrt_lt_R0 _ PI) as Q. rewrite fdiv_some by lra. f_equal.
  unfold sinarctan. rewrite sqrt_inv. pose proof (sqrt_lt_R0 _ P). field. lra.
Qed.
Lemma tanarcsin_inv x t : tanarcsin x = Some t -> x = sinarctan t /\ -1 < x < 1.
Proof.
  unfold tanarcsin. destruct (fsqrt (1 - x * x)) as [s|] eqn:F; [|discriminate]. cbn [obind].
  apply fsqrt_inv in F. destruct F as (P & Q & S). intros E. apply fdiv_inv in E. destruct E as [Z ->].
  split; [|nra]. unfold sinarctan. assert (0 < s) by lra.
  assert (E : 1 + x / s * (x / s) = / s * / s).
  { apply (Rmult_eq_reg_r (s * s)); [|nra]. replace ((1 + x / s * (x / s)) * (s * s)) with (s * s + x * x) by (field; lra).
    replace (/ s * / s * (s * s)) with 1 by (field; lra). lra. }
  rewrite E, sqrt_square; [field; lra|]. left. apply Rinv_0_lt_compat; auto.
Qed.
Lemma sinarctan_0 t : sinarctan t = 0 <-> t = 0.
Proof.
  unfold sinarctan. assert (P : 0 < 1 + t * t) by nra. pose proof (sqrt_lt_R0 _ P) as Q.
  split; [|intros ->; ring]. intros E. apply Rmult_integral in E. destruct E as [E|E]; [auto|].
  exfalso. unfold Rdiv in E. rewrite Rmult_1_l in E. pose proof (Rinv_0_lt_compat _ Q). lra.
Qed.

Lemma fno_of x f : fdiv 1 (2 * x) = Some f -> 2 * x * f = 1.
Proof. intros E. apply fdiv_inv in E. destruct E as [Z ->]. field. lra. Qed.

(** * C26 *)
(** the four quantities of one light cone of slope [t] and pupil distance [d] in
    index [n] *)
Definition cone (n d t radius na : R) (fno : option R) : Prop :=
  radius = t * d /\ na = n * sin (atan t) /\ (forall f, fno = Some f -> 2 * na * f = 1) /\ (na <> 0 -> fno <> None).

(** For every pupil class: whenever the slope can be read, all other quantities can be
    read and describe the same cone. *)
Theorem C26_consistent p t : 0 < pu_index p -> pu_distance p <> 0 -> pupil_slope p = Some t ->
  exists r na, pupil_radius p = Some r /\ pupil_na p = Some na /\ cone (pu_index p) (pu_distance p) t r na (pupil_fno p).
Proof.
  intros N D S. unfold cone, pupil_fno, pupil_na, pupil_radius. rewrite <- sinarctan_spec.
  unfold pupil_slope in *. destruct (pu_kind p).
  - rewrite S. destruct (fdiv (pu_val p) (pu_index p)) as [q|] eqn:F; [|discriminate]. cbn [obind] in *.
    apply fdiv_inv in F. destruct F as [_ ->]. apply tanarcsin_inv in S. destruct S as [S _].
    do 2 eexists. split; [reflexivity|]. split; [reflexivity|]. split; [reflexivity|].
    split; [rewrite <- S; field; lra|]. split.
    + apply fno_of.
    + intros NZ. rewrite fdiv_some by lra. discriminate.
  - injection S as ->. cbn [obind].
    do 2 eexists. split; [reflexivity|]. split; [reflexivity|]. split; [reflexivity|].
    split; [ring|]. split.
    + apply fno_of.
    + intros NZ. rewrite fdiv_some by lra. discriminate.
  - rewrite S. cbn [obind]. apply fdiv_inv in S. destruct S as [_ ->].
    do 2 eexists. split; [reflexivity|]. split; [reflexivity|]. split; [field; lra|].
    split; [ring|]. split.
    + apply fno_of.
    + intros NZ. rewrite fdiv_some by lra. discriminate.
  - destruct (fno_na p) as [na|] eqn:F; [|discriminate]. cbn [obind] in *.
    destruct (fdiv na (pu_index p)) as [q|] eqn:G; [|discriminate]. cbn [obind] in *. rewrite S. cbn [obind].
    apply fdiv_inv in G. destruct G as [_ ->]. apply tanarcsin_inv in S. destruct S as [S _].
    do 2 eexists. split; [reflexivity|]. split; [reflexivity|]. split; [reflexivity|].
    split; [rewrite <- S; field; lra|]. unfold fno_na in F. apply fdiv_inv in F. destruct F as [Z ->]. split.
    + intros f E. injection E as <-. field. lra.
    + discriminate.
Qed.

(** Assigning a radius and reading it back (an f-number cannot express radius zero). *)
Theorem C26_set_radius p r : 0 < pu_index p -> pu_distance p <> 0 -> (pu_kind p = FnoPupil -> r <> 0) ->
  exists p', set_radius p r = Some p' /\ pupil_radius p' = Some r /\ pupil_slope p' = Some (r / pu_distance p) /\
    pu_kind p' = pu_kind p /\ pu_distance p' = pu_distance p /\ pu_index p' = pu_index p.
Proof.
  intros N D F. unfold set_radius, pupil_radius, pupil_slope, fno_na.
  destruct (pu_kind p) eqn:K.
  - rewrite fdiv_some by auto. cbn [obind]. eexists. split; [reflexivity|]. cbn [pu_kind pu_val pu_distance pu_index with_val].
    rewrite K. rewrite fdiv_some by lra. cbn [obind].
    replace (pu_index p * sinarctan (r / pu_distance p) / pu_index p) with (sinarctan (r / pu_distance p)) by (field; lra).
    rewrite tanarcsin_sinarctan. cbn [obind]. split; [f_equal; field; auto|]. auto.
  - rewrite fdiv_some by auto. cbn [obind]. eexists. split; [reflexivity|]. cbn [pu_kind pu_val pu_distance pu_index with_val].
    rewrite K. cbn [obind]. split; [f_equal; field; auto|]. auto.
  - eexists. split; [reflexivity|]. cbn [pu_kind pu_val pu_distance pu_index with_val].
    rewrite K, fdiv_some by auto. auto.
  - specialize (F eq_refl). rewrite fdiv_some by auto. cbn [obind].
    assert (S : sinarctan (r / pu_distance p) <> 0).
    { intros E. apply (proj1 (sinarctan_0 _)) in E. unfold Rdiv in E. apply Rmult_integral in E. destruct E as [E|E]; [auto|].
      apply Rinv_neq_0_compat in D. auto. }
    set (q := sinarctan (r / pu_distance p)) in *.
    assert (NQ : 2 * pu_index p * q <> 0) by (apply Rmult_integral_contrapositive; split; [lra|auto]).
    rewrite fdiv_some by auto. cbn [obind]. eexists. split; [reflexivity|].
    cbn [pu_kind pu_val pu_distance pu_index with_val]. rewrite K.
    assert (DZ : 2 * (1 / (2 * pu_index p * q)) <> 0).
    { apply Rmult_integral_contrapositive. split; [lra|]. unfold Rdiv. rewrite Rmult_1_l. apply Rinv_neq_0_compat; auto. }
    rewrite fdiv_some by auto. cbn [obind]. rewrite fdiv_some by lra. cbn [obind].
    replace (1 / (2 * (1 / (2 * pu_index p * q))) / pu_index p) with q by (field; repeat split; lra || auto).
    unfold q. rewrite tanarcsin_sinarctan. cbn [obind]. split; [f_equal; field; auto|]. auto.
Qed.

(** Assigning the quantity the class stores and reading it back, and nothing else can
    be assigned. *)
Theorem C26_set_own p v :
  (forall p', set_slope p v = Some p' -> pupil_slope p' = Some v) /\
  (forall p', set_na p v = Some p' -> pupil_na p' = Some v) /\
  (forall p', set_fno p v = Some p' -> pupil_fno p' = Some v) /\
  (pu_kind p = SlopePupil <-> set_slope p v <> None) /\ (pu_kind p = NaPupil <-> set_na p v <> None) /\
  (pu_kind p = FnoPupil <-> set_fno p v <> None).
Proof.
  unfold set_slope, set_na, set_fno, pupil_slope, pupil_na, pupil_fno.
  destruct (pu_kind p) eqn:K; repeat split; intros; try discriminate; try congruence;
    match goal with H : Some _ = Some _ |- _ => injection H as <- end; cbn; rewrite K; reflexivity.
Qed.

(** [update]: with both flags the pupil afterwards has exactly the requested distance and
    radius; without the radius flag the slope of a cone-type pupil is kept. *)
Theorem C26_update p d r : 0 < pu_index p -> d <> 0 -> pu_update_distance p = true -> pu_update_radius p = true ->
  (pu_kind p = FnoPupil -> r <> 0) ->
  exists p', pupil_update p d r = Some p' /\ pupil_radius p' = Some r /\ pu_distance p' = d /\ pupil_slope p' = Some (r / d) /\
    pu_index p' = pu_index p.
Proof.
  intros N D UD UR F. unfold pupil_update. rewrite UD. cbn [pu_update_radius with_pdist]. rewrite UR.
  destruct (C26_set_radius (with_pdist p d) r N D F) as (p' & E & R & S & K & DD & NN).
  exists p'. cbn in *. auto.
Qed.
Theorem C26_update_kept p d r : pu_update_distance p = true -> pu_update_radius p = false ->
  exists p', pupil_update p d r = Some p' /\ pu_distance p' = d /\
    (pu_kind p <> RadiusPupil -> pupil_slope p' = pupil_slope p) /\
    (pu_kind p = RadiusPupil -> pupil_radius p' = pupil_radius p).
Proof.
  intros UD UR. unfold pupil_update. rewrite UD. cbn [pu_update_radius with_pdist]. rewrite UR.
  eexists. split; [reflexivity|]. split; [reflexivity|]. unfold pupil_slope, pupil_radius, fno_na. cbn.
  split; destruct (pu_kind p); intros; try reflexivity; try discriminate; contradiction.
Qed.

(** Rescaling scales radius and distance and keeps slope, NA and f-number. *)
Theorem C26_rescale p k : k <> 0 -> pu_distance p <> 0 ->
  pu_distance (pupil_rescale p k) = pu_distance p * k /\
  pupil_radius (pupil_rescale p k) = (do r <- pupil_radius p; Some (r * k)) /\
  pupil_slope (pupil_rescale p k) = pupil_slope p /\
  pupil_na (pupil_rescale p k) = pupil_na p /\ pupil_fno (pupil_rescale p k) = pupil_fno p.
Proof.
  intros K D. assert (S : pupil_slope (pupil_rescale p k) = pupil_slope p).
  { unfold pupil_rescale, pupil_slope, fno_na. cbn. destruct (pu_kind p) eqn:E; cbn; rewrite ?E; try reflexivity.
    rewrite (fdiv_some _ (pu_distance p)) by auto. rewrite fdiv_some by (apply Rmult_integral_contrapositive; auto).
    f_equal; field; auto. }
  split; [unfold pupil_rescale; cbn; destruct (pu_kind p); reflexivity|].
  assert (NA : pupil_na (pupil_rescale p k) = pupil_na p).
  { unfold pupil_na. rewrite S. unfold pupil_rescale, fno_na. cbn. destruct (pu_kind p) eqn:E; cbn; rewrite ?E; reflexivity. }
  split; [|split; [auto|split; [auto|]]].
  - unfold pupil_radius. rewrite S. unfold pupil_rescale. cbn. destruct (pu_kind p) eqn:E; cbn; rewrite ?E; try reflexivity;
    destruct (pupil_slope p); cbn; try reflexivity; f_equal; ring.
  - unfold pupil_fno. rewrite NA. unfold pupil_rescale. cbn. destruct (pu_kind p) eqn:E; cbn; rewrite ?E; reflexivity.
Qed.

(** field slope of conjugates *)
Theorem C26_conjugate_slope c s : (cj_finite c = true -> pu_distance (cj_pupil c) <> 0) ->
  conj_slope (set_conj_slope c s) = Some s.
Proof.
  intros D. unfold conj_slope, set_conj_slope. destruct (cj_finite c) eqn:F; cbn; rewrite F.
  - rewrite fdiv_some by auto. f_equal. field. auto.
  - unfold ftan. pose proof (atan_bound s). assert (C : 0 < cos (atan s)) by (apply cos_gt_0; lra).
    rewrite fdiv_some by lra. f_equal. change (tan (atan s) = s). apply atan_right_inv.
Qed.

(** an f/4 pupil in water at distance 10 *)
Example C26_example : exists t, pupil_slope (Pupil FnoPupil 4 10 true true false false (4/3) Rectilinear) = Some t /\ 0 < t.
Proof.
  unfold pupil_slope, fno_na. cbn. rewrite fdiv_some by lra. cbn [obind]. rewrite fdiv_some by lra. cbn [obind].
  unfold tanarcsin. rewrite fsqrt_some by lra. cbn [obind].
  assert (P : 0 < 1 - 1 / (2 * 4) / (4 / 3) * (1 / (2 * 4) / (4 / 3))) by lra.
  pose proof (sqrt_lt_R0 _ P) as Q. rewrite fdiv_some by lra. eexists. split; [reflexivity|].
  apply Rdiv_lt_0_compat; lra.
Qed.

Print Assumptions C26_consistent.
Print Assumptions C26_set_radius.
Print Assumptions C26_set_own.
Print Assumptions C26_update.
Print Assumptions C26_update_kept.
Print Assumptions C26_rescale.
Print Assumptions C26_conjugate_slope.
