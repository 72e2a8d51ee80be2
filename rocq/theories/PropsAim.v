(** Properties C46 (sagittal/meridional frame) and C27 (launched rays). *)
From Coq Require Import Reals List Lra Lia Psatz.
From Verif Require Import Base Vec RotModel RotProofs PlacementModel PlacementProofs ElementModel ElementProofs TraceProofs
  PropsElement PropsTrace PupilModel AimModel.
Import ListNotations.
Open Scope R_scope.

(** * C46 *)
(** spec: s, m and the direction of u are a right handed orthonormal frame *)
Definition frame (u s m : vec) : Prop :=
  dot s s = 1 /\ dot m m = 1 /\ dot s m = 0 /\ dot s u = 0 /\ dot m u = 0 /\ vmul3 (norm u) (cross s m) = u.

Lemma fnormalize_some u : u <> v0 -> fnormalize u = Some (vmul3 (/ norm u) u).
Proof.
  intros H. unfold fnormalize. assert (N : norm u <> 0) by (rewrite norm_zero; auto).
  rewrite !fdiv_some by auto. cbn [obind]. f_equal. unfold vmul3. apply vec_eq; cbn; field; auto.
Qed.
Lemma fnormalize_v0 : fnormalize v0 = None.
Proof. unfold fnormalize. rewrite (proj2 (norm_zero v0) eq_refl), fdiv_zero. reflexivity. Qed.
Lemma fnormalize_inv u w : fnormalize u = Some w -> u <> v0 /\ w = vmul3 (/ norm u) u /\ dot w w = 1.
Proof.
  intros E. assert (H : u <> v0) by (intros ->; rewrite fnormalize_v0 in E; discriminate).
  rewrite fnormalize_some in E by auto. injection E as <-. split; [auto|]. split; [reflexivity|].
  rewrite dot_scale_l, dot_scale_r, <- norm_sqr. field. rewrite norm_zero. auto.
Qed.
Lemma veqb_true a b : veqb a b = true <-> a = b.
Proof.
  unfold veqb. destruct (Req_EM_T (vx a) (vx b)); [|split; intros E; [discriminate|subst; contradiction]].
  destruct (Req_EM_T (vy a) (vy b)); [|split; intros E; [discriminate|subst; contradiction]].
  destruct (Req_EM_T (vz a) (vz b)); [|split; intros E; [discriminate|subst; contradiction]].
  split; [intros _; apply vec_eq; auto|auto].
Qed.
(** the frame built from any vector perpendicular to u *)
Lemma frame_of u s0 : u <> v0 -> s0 <> v0 -> dot s0 u = 0 ->
  exists s m, fnormalize s0 = Some s /\ fnormalize (cross u s0) = Some m /\ frame u s m /\ s = vmul3 (/ norm s0) s0.
Proof.
  intros U S P.
  assert (NU : 0 < norm u) by (pose proof (norm_nonneg u); assert (norm u <> 0) by (rewrite norm_zero; auto); lra).
  assert (NS : 0 < norm s0) by (pose proof (norm_nonneg s0); assert (norm s0 <> 0) by (rewrite norm_zero; auto); lra).
  assert (CC : dot (cross u s0) (cross u s0) = (norm u * norm s0) * (norm u * norm s0)).
  { transitivity (dot u u * dot s0 s0 - dot s0 u * dot s0 u); [vec_ring|]. rewrite P, <- !norm_sqr. ring. }
  assert (NC : norm (cross u s0) = norm u * norm s0).
  { unfold norm at 1. rewrite CC. apply sqrt_square. nra. }
  assert (C : cross u s0 <> v0) by (rewrite <- norm_zero, NC; apply Rgt_not_eq; nra).
  rewrite !fnormalize_some by auto. do 2 eexists. split; [reflexivity|]. split; [reflexivity|]. split; [|reflexivity].
  rewrite NC. set (a := norm u) in *. set (b := norm s0) in *.
  assert (AA : dot u u = a * a) by (symmetry; apply norm_sqr). assert (BB : dot s0 s0 = b * b) by (symmetry; apply norm_sqr).
  unfold frame. rewrite ?dot_scale_l, ?dot_scale_r, ?dot_scale_l, CC, BB, P. fold a.
  replace (dot s0 (cross u s0)) with 0 by vec_ring. replace (dot (cross u s0) u) with 0 by vec_ring.
  repeat split; try (field; lra).
  transitivity (vmul3 (a * (/ b * / (a * b))) (vsub3 (vmul3 (dot s0 s0) u) (vmul3 (dot s0 u) s0))).
  { clear. vec_ring. }
  rewrite BB, P. destruct u as [x y z], s0 as [p q r]. unfold vmul3, vsub3. cbn [vx vy vz]. apply vec_eq; cbn [vx vy vz]; field; lra.
Qed.
Lemma cross_perp u z : dot (cross u z) u = 0.
Proof. vec_ring. Qed.

(** for any direction u <> 0 and reference axis not parallel to it, or along z *)
Theorem C46_frame u z : u <> v0 -> (cross u z <> v0 \/ (vx u = 0 /\ vy u = 0)) ->
  exists s m, sagittal_meridional u z = Some (s, m) /\ frame u s m /\
    (cross u z = v0 -> s = ex) /\ (cross u z <> v0 -> dot s z = 0).
Proof.
  intros U H. unfold sagittal_meridional. destruct (veqb (cross u z) v0) eqn:E.
  - apply veqb_true in E. destruct H as [H|[A B]]; [contradiction|].
    destruct (frame_of u ex U) as (s & m & S & M & F & ES).
    + unfold ex, v0. intros X. injection X as X. lra.
    + unfold dot, ex. cbn. rewrite A. ring.
    + rewrite S, M. cbn [obind]. exists s, m. split; [reflexivity|]. split; [auto|]. split.
      * intros _. rewrite ES. replace (norm ex) with 1. { unfold vmul3, ex. cbn. apply vec_eq; cbn; field. }
        symmetry. apply norm_unit. unfold dot, ex; cbn; ring.
      * intros X. contradiction.
  - assert (C : cross u z <> v0) by (intros X; apply veqb_true in X; congruence).
    destruct (frame_of u (cross u z) U C (cross_perp u z)) as (s & m & S & M & F & ES).
    rewrite S, M. cbn [obind]. exists s, m. split; [reflexivity|]. split; [auto|]. split; [contradiction|].
    intros _. rewrite ES, dot_scale_l. replace (dot (cross u z) z) with 0 by vec_ring. ring.
Qed.
Example C46_example : V 1 2 3 <> v0 /\ cross (V 1 2 3) ez <> v0 /\ cross (V 0 0 (-2)) ez = v0 /\ V 0 0 (-2) <> v0.
Proof.
  repeat split.
  - intros E; injection E; lra.
  - unfold cross, ez, v0; cbn. intros E; injection E; lra.
  - unfold cross, ez, v0; cbn. apply vec_eq; cbn; ring.
  - intros E; injection E; lra.
Qed.
(** Refuted for rays parallel to a reference axis other than z: the fallback sagittal
    vector is the x axis although the ray is not perpendicular to it. *)
Theorem C46_axis_refuted : exists u z s m, u <> v0 /\ sagittal_meridional u z = Some (s, m) /\ ~ frame u s m /\
  sagittal_meridional ex ex = None.
Proof.
  exists (V 1 1 0), (V 1 1 0).
  assert (E : sagittal_meridional (V 1 1 0) (V 1 1 0) = Some (V 1 0 0, V 0 0 (-1))).
  { unfold sagittal_meridional. replace (cross (V 1 1 0) (V 1 1 0)) with v0 by (unfold cross, v0; cbn; apply vec_eq; cbn; ring).
    replace (veqb v0 v0) with true by (symmetry; apply veqb_true; auto).
    replace (cross (V 1 1 0) ex) with (V 0 0 (-1)) by (unfold cross, ex; cbn; apply vec_eq; cbn; ring).
    rewrite !fnormalize_some; [|intros X; injection X; lra|unfold ex; intros X; injection X; lra].
    replace (norm ex) with 1 by (symmetry; apply norm_unit; unfold dot, ex; cbn; ring).
    replace (norm (V 0 0 (-1))) with 1 by (symmetry; apply norm_unit; unfold dot; cbn; ring).
    cbn [obind]. f_equal. f_equal; unfold vmul3, ex; cbn; apply vec_eq; cbn; field. }
  do 2 eexists. split; [intros X; injection X; lra|]. split; [exact E|]. split.
  - intros (_ & _ & _ & P & _). unfold dot in P. cbn in P. lra.
  - unfold sagittal_meridional. replace (cross ex ex) with v0 by (unfold cross, v0, ex; cbn; apply vec_eq; cbn; ring).
    replace (veqb v0 v0) with true by (symmetry; apply veqb_true; auto).
    replace (cross ex ex) with v0 by (unfold cross, v0, ex; cbn; apply vec_eq; cbn; ring).
    rewrite fnormalize_v0. destruct (fnormalize ex); reflexivity.
Qed.

(** * C27 *)
Lemma sag_shift s x y z e : surface_sag s (V x y z) = Some e -> surface_sag s (V x y (z - e)) = Some 0.
Proof.
  unfold surface_sag, r2_of. cbn [vx vy vz]. destruct (Req_EM_T (s_c s) 0).
  - destruct (s_asph s); intros E; injection E as E; f_equal; lra.
  - destruct (fsqrt _) as [w|]; cbn [obind]; [|discriminate]. destruct (fdiv _ _) as [q|]; cbn [obind]; [|discriminate].
    destruct (s_asph s); intros E; injection E as E; f_equal; lra.
Qed.
Lemma off_axis u s m ps pm : frame u s m -> u <> v0 -> vadd3 u (vadd3 (vmul3 ps s) (vmul3 pm m)) <> v0.
Proof.
  intros (A & B & C & D & E & F) U X.
  assert (Y : dot (vadd3 u (vadd3 (vmul3 ps s) (vmul3 pm m))) u = 0) by (rewrite X; unfold dot, v0; cbn; ring).
  rewrite !dot_add_l, !dot_scale_l, D, E in Y. apply U, dot_zero. lra.
Qed.

(** spec: the place a finite ray starts at: on the object surface, at the field point *)
Definition starts_at (radius : R) (surface : option surf) (yo : R * R) (y : vec) : Prop :=
  vx y = - fst yo * radius /\ vy y = - snd yo * radius /\
  match surface with None => vz y = 0 | Some s => surface_sag s y = Some 0 end.
(** spec: unit direction; travelling along +u the point P is met ahead iff z > 0 *)
Definition goes_through (y u P : vec) (z : R) : Prop :=
  dot u u = 1 /\ exists t, at_ray y u t = P /\ 0 < t * z.

Lemma start_ok c surface yo y :
  match surface with
  | None => Some (V (- fst yo * cj_val c) (- snd yo * cj_val c) 0)
  | Some s => do e <- surface_sag s (V (- fst yo * cj_val c) (- snd yo * cj_val c) 0);
              Some (V (- fst yo * cj_val c) (- snd yo * cj_val c) (- e))
  end = Some y -> starts_at (cj_val c) surface yo y.
Proof.
  unfold starts_at. destruct surface as [s|].
  - destruct (surface_sag s _) as [e|] eqn:E; cbn [obind]; [|discriminate]. intros X. injection X as <-. cbn [vx vy vz].
    split; [reflexivity|]. split; [reflexivity|]. apply sag_shift in E. rewrite <- E. repeat f_equal. ring.
  - intros X. injection X as <-. auto.
Qed.
Lemma through_ok y d z w : z <> 0 -> fnormalize d = Some w ->
  goes_through y (if Rlt_dec z 0 then vneg w else w) (vadd3 y d) z.
Proof.
  intros Z N. apply fnormalize_inv in N. destruct N as (D & -> & U).
  assert (P : 0 < norm d) by (pose proof (norm_nonneg d); assert (norm d <> 0) by (rewrite norm_zero; auto); lra).
  assert (X : vmul3 (norm d) (vmul3 (/ norm d) d) = d).
  { destruct d as [a b c]. set (n := norm _) in *. unfold vmul3; cbn. apply vec_eq; cbn; field; lra. }
  destruct (Rlt_dec z 0); split.
  - rewrite dot_neg. auto.
  - exists (- norm d). split; [|nra]. unfold at_ray. f_equal. transitivity (vmul3 (norm d) (vmul3 (/ norm d) d)); [|auto].
    generalize (norm d), (vmul3 (/ norm d) d). clear. intros n d. vec_ring.
  - auto.
  - exists (norm d). split; [|nra]. unfold at_ray. f_equal. auto.
Qed.

(** finite conjugate: the ray starts on the object surface at minus the field point, is
    normalised and passes through the requested point of the pupil plane perpendicular
    to the chief ray; every such request succeeds unless the object point is the pupil *)
Theorem C27_finite c surface yo ps pm z : z <> 0 ->
  (forall y u, finite_ray c surface yo (Some (ps, pm)) z = Some (y, u) ->
     starts_at (cj_val c) surface yo y /\
     let chief := if pu_telecentric (cj_pupil c) then V 0 0 z else vsub3 (V 0 0 z) y in
     exists s m, frame chief s m /\
       goes_through y u (vadd3 (vadd3 y chief) (vadd3 (vmul3 ps s) (vmul3 pm m))) z) /\
  (surface = None -> finite_ray c surface yo (Some (ps, pm)) z <> None).
Proof.
  intros Z. split.
  - intros y u E. unfold finite_ray in E. cbv zeta in E.
    match type of E with obind ?x _ = _ => destruct x as [y0|] eqn:Y end; cbn [obind] in E; [|discriminate].
    apply start_ok in Y.
    set (ch := if pu_telecentric (cj_pupil c) then V 0 0 z else vsub3 (V 0 0 z) y0) in *.
    destruct (sagittal_meridional ch (V 0 0 z)) as [[s m]|] eqn:S; cbn [obind fst snd] in E; [|discriminate].
    destruct (fnormalize (vadd3 ch (vadd3 (vmul3 ps s) (vmul3 pm m)))) as [w|] eqn:N; cbn [obind] in E; [|discriminate].
    injection E as <- <-. split; [auto|]. cbv zeta. fold ch.
    assert (U : ch <> v0).
    { intros X. rewrite X in S. unfold sagittal_meridional in S.
      replace (cross v0 (V 0 0 z)) with v0 in S by (unfold cross, v0; cbn; apply vec_eq; cbn; ring).
      replace (veqb v0 v0) with true in S by (symmetry; apply veqb_true; auto).
      replace (cross v0 ex) with v0 in S by (unfold cross, v0, ex; cbn; apply vec_eq; cbn; ring).
      rewrite fnormalize_v0 in S. destruct (fnormalize ex); discriminate. }
    assert (H : cross ch (V 0 0 z) <> v0 \/ (vx ch = 0 /\ vy ch = 0)).
    { destruct (Req_dec (vx ch) 0) as [A|A]; [destruct (Req_dec (vy ch) 0) as [B|B]|]; [auto| |]; left; intros X.
      - assert (Q := f_equal vx X). unfold cross, v0 in Q. cbn in Q.
        apply B. apply (Rmult_eq_reg_r z); [lra|auto].
      - assert (Q := f_equal vy X). unfold cross, v0 in Q. cbn in Q.
        apply A. apply (Rmult_eq_reg_r z); [lra|auto]. }
    destruct (C46_frame ch (V 0 0 z) U H) as (s' & m' & S' & F & _). rewrite S in S'. injection S' as <- <-.
    exists s, m. split; [auto|].
    replace (vadd3 (vadd3 y0 ch) (vadd3 (vmul3 ps s) (vmul3 pm m))) with (vadd3 y0 (vadd3 ch (vadd3 (vmul3 ps s) (vmul3 pm m)))) by (clear; vec_ring).
    apply through_ok; auto.
  - intros ->. unfold finite_ray. cbv zeta. cbn [obind].
    set (y0 := V (- fst yo * cj_val c) (- snd yo * cj_val c) 0).
    set (ch := if pu_telecentric (cj_pupil c) then V 0 0 z else vsub3 (V 0 0 z) y0).
    assert (VZ : vz ch = z) by (unfold ch; destruct (pu_telecentric _); cbn; ring).
    assert (U : ch <> v0) by (intros X; rewrite X in VZ; cbn in VZ; auto).
    assert (H : cross ch (V 0 0 z) <> v0 \/ (vx ch = 0 /\ vy ch = 0)).
    { destruct (Req_dec (vx ch) 0) as [A|A]; [destruct (Req_dec (vy ch) 0) as [B|B]|]; [auto| |]; left; intros X.
      - assert (Q := f_equal vx X). unfold cross, v0 in Q. cbn in Q.
        apply B. apply (Rmult_eq_reg_r z); [lra|auto].
      - assert (Q := f_equal vy X). unfold cross, v0 in Q. cbn in Q.
        apply A. apply (Rmult_eq_reg_r z); [lra|auto]. }
    destruct (C46_frame ch (V 0 0 z) U H) as (s & m & S & F & _). rewrite S. cbn [obind fst snd].
    rewrite fnormalize_some by (apply off_axis; auto). cbn [obind]. discriminate.
Qed.
(** without pupil coordinates: the chief ray, through the pupil centre *)
Theorem C27_finite_chief c surface yo z y u : z <> 0 -> pu_telecentric (cj_pupil c) = false ->
  finite_ray c surface yo None z = Some (y, u) ->
  starts_at (cj_val c) surface yo y /\ goes_through y u (V 0 0 z) z.
Proof.
  intros Z T E. unfold finite_ray in E. cbv zeta in E. rewrite T in E.
  match type of E with obind ?x _ = _ => destruct x as [y0|] eqn:Y end; cbn [obind] in E; [|discriminate].
  apply start_ok in Y. destruct (fnormalize (vsub3 (V 0 0 z) y0)) as [w|] eqn:N; cbn [obind] in E; [|discriminate].
  injection E as <- <-. split; [auto|].
  replace (V 0 0 z) with (vadd3 y0 (vsub3 (V 0 0 z) y0)) by (clear; vec_ring). apply through_ok; auto.
Qed.
(** finding: for a telecentric pupil the chief ray direction is not normalised *)
Theorem C27_telecentric_chief_refuted : exists c z y u, 0 < z /\ pu_telecentric (cj_pupil c) = true /\
  finite_ray c None (0, 1) None z = Some (y, u) /\ dot u u <> 1.
Proof.
  exists (Conjugate true 1 (Pupil RadiusPupil 1 2 true true false true 1 Rectilinear) Rectilinear false), 2.
  do 2 eexists. split; [lra|]. split; [reflexivity|]. unfold finite_ray. cbn [obind pu_telecentric cj_pupil].
  destruct (Rlt_dec 2 0); [lra|]. split; [reflexivity|]. unfold dot. cbn. lra.
Qed.

(** ** pupil coordinates *)
Lemma corners_max_of r : 0 <= r -> corners_max (corners_of r) = r.
Proof.
  intros H. unfold corners_max, corners_of. cbn. rewrite Rabs_Ropp, (Rabs_pos_eq r H). rewrite !(Rmax_left r r); lra.
Qed.
Lemma inside_of r x y : 0 < r -> inside (corners_of r) (x * r, y * r) = true <-> x * x + y * y <= 1.
Proof.
  intros H. unfold inside, corners_of. cbn [lo_s lo_m hi_s hi_m fst snd].
  replace ((- r + r) / 2) with 0 by lra. replace ((r - - r) / 2) with r by lra.
  rewrite !fdiv_some by (cbn; nra).
  replace ((x * r - 0) ^ 2 / r ^ 2 + (y * r - 0) ^ 2 / r ^ 2) with (x * x + y * y) by (field; lra).
  destruct (Rle_dec _ _); split; intros; auto; try discriminate; contradiction.
Qed.
(** the unvignetted circular pupil: exactly the points of the unit disc are kept, and
    the rim of the disc goes to the rim of the pupil *)
Theorem C27_disc ys r : 0 < r ->
  pupil_map ys (corners_of r) false = map (fun y => (fst y * r, snd y * r)) ys /\
  forall p, In p (pupil_map ys (corners_of r) true) <->
    exists x y, In (x, y) ys /\ x * x + y * y <= 1 /\ p = (x * r, y * r).
Proof.
  intros H. unfold pupil_map. rewrite corners_max_of by lra. split; [reflexivity|].
  intros p. rewrite filter_In, in_map_iff. split.
  - intros (([x y] & <- & I) & K). cbn [fst snd] in *. apply inside_of in K; [|auto]. exists x, y. auto.
  - intros (x & y & I & K & ->). split; [exists (x, y); auto|]. apply inside_of; auto.
Qed.
(** vignetted pupils: whatever is kept lies in the ellipse through the four corners *)
Theorem C27_vignetted ys a p : In p (pupil_map ys a true) ->
  let cs := (lo_s a + hi_s a) / 2 in let cm := (lo_m a + hi_m a) / 2 in
  lo_s a < hi_s a -> lo_m a < hi_m a ->
  lo_s a <= fst p <= hi_s a /\ lo_m a <= snd p <= hi_m a /\
  ((fst p - cs) / (hi_s a - cs)) ^ 2 + ((snd p - cm) / (hi_m a - cm)) ^ 2 <= 1.
Proof.
  intros I cs cm A B. unfold pupil_map in I. apply filter_In in I. destruct I as (_ & I). unfold inside in I. fold cs cm in I.
  set (ds := (hi_s a - lo_s a) / 2) in *. set (dm := (hi_m a - lo_m a) / 2) in *.
  assert (DS : 0 < ds) by (unfold ds; lra). assert (DM : 0 < dm) by (unfold dm; lra).
  rewrite !fdiv_some in I by (cbn; nra). destruct (Rle_dec _ 1) as [L|]; [|discriminate].
  replace (hi_s a - cs) with ds by (unfold ds, cs; lra). replace (hi_m a - cm) with dm by (unfold dm, cm; lra).
  assert (S : ((fst p - cs) / ds) ^ 2 + ((snd p - cm) / dm) ^ 2 <= 1).
  { eapply Rle_trans; [|exact L]. right. field. lra. }
  assert (SQ : forall q, q ^ 2 <= 1 -> -1 <= q <= 1) by (intros q Q; nra).
  set (qs := (fst p - cs) / ds) in *. set (qm := (snd p - cm) / dm) in *.
  assert (P1 : fst p = cs + qs * ds) by (unfold qs; field; lra). assert (P2 : snd p = cm + qm * dm) by (unfold qm; field; lra).
  destruct (SQ qs); [clear - S; nra|]. destruct (SQ qm); [clear - S; nra|].
  assert (lo_s a = cs - ds /\ hi_s a = cs + ds) by (unfold cs, ds; lra). assert (lo_m a = cm - dm /\ hi_m a = cm + dm) by (unfold cm, dm; lra).
  repeat split; auto; rewrite ?P1, ?P2; clearbody cs cm ds dm qs qm; clear - DS DM H H0 H1 H2 H3 H4; nra.
Qed.
Example C27_vignetted_example : let a := Corners (-1) (-1/2) 1 1 in
  lo_s a < hi_s a /\ lo_m a < hi_m a /\ In (0, 1 / 2) (pupil_map [(0, 1 / 2)] a true).
Proof.
  cbn [lo_s hi_s lo_m hi_m]. split; [lra|]. split; [lra|]. unfold pupil_map.
  replace (corners_max (Corners (-1) (-1/2) 1 1)) with 1.
  2:{ unfold corners_max. cbn [lo_s lo_m hi_s hi_m].
      rewrite (Rabs_pos_eq 1), (Rabs_left (-1)), (Rabs_left (-1 / 2)) by lra. unfold Rmax.
      repeat (destruct (Rle_dec _ _)); lra. }
  apply filter_In. split; [left; cbn; f_equal; lra|]. unfold inside. cbn [lo_s hi_s lo_m hi_m fst snd].
  rewrite !fdiv_some by (cbn; lra). destruct (Rle_dec _ _) as [|N]; [auto|]. exfalso. apply N. lra.
Qed.

Lemma tan_atan_scale r z p : 0 < r -> 0 < z -> Rabs p <= 1 -> Rabs (z * tan (p * atan (r / z))) <= r.
Proof.
  intros H Z P. assert (Q : 0 < r / z) by (apply Rdiv_lt_0_compat; auto).
  assert (A : 0 < atan (r / z)) by (rewrite <- atan_0; apply atan_increasing; auto).
  pose proof (atan_bound (r / z)) as B. set (t := atan (r / z)) in *.
  assert (T : z * tan t = r) by (unfold t; rewrite tan_atan; field; lra).
  assert (M : forall x y, - PI / 2 < x -> y < PI / 2 -> x <= y -> tan x <= tan y).
  { intros x y X Y [L|E]; [left; apply tan_increasing; auto|rewrite E; lra]. }
  assert (P' : -1 <= p <= 1) by (unfold Rabs in P; destruct (Rcase_abs p); lra).
  assert (U : tan (p * t) <= tan t) by (apply M; [nra|lra|nra]).
  assert (L : tan (- t) <= tan (p * t)) by (apply M; [lra|nra|nra]). rewrite tan_neg in L.
  apply Rabs_le. split; nra.
Qed.
(** finite conjugate, pupil ahead: fractions of the angular aperture; the rim goes to
    the rim and the inside stays inside *)
Theorem C27_finite_pupil r z px py : 0 < r -> 0 < z ->
  exists qx qy, finite_pupil [(px, py)] (corners_of r) z false = [(qx, qy)] /\
    (Rabs px <= 1 -> Rabs qx <= r) /\ (Rabs py <= 1 -> Rabs qy <= r) /\
    (px = 1 -> qx = r) /\ (px = -1 -> qx = - r) /\ (py = 1 -> qy = r) /\ (py = -1 -> qy = - r) /\
    (px = 0 -> qx = 0) /\ (py = 0 -> qy = 0).
Proof.
  intros H Z. unfold finite_pupil, pupil_map. replace (corners_angle (corners_of r) z) with (corners_of (atan (r / z))).
  2:{ unfold corners_angle, corners_of, atan2. cbn. destruct (Rlt_dec 0 z); [|contradiction].
      replace (- r / z) with (- (r / z)) by (field; lra). rewrite atan_opp. reflexivity. }
  assert (Q : 0 < r / z) by (apply Rdiv_lt_0_compat; auto).
  assert (A : 0 < atan (r / z)) by (rewrite <- atan_0; apply atan_increasing; auto).
  rewrite corners_max_of by lra. cbn [map fst snd].
  do 2 eexists. split; [reflexivity|].
  assert (ONE : z * tan (1 * atan (r / z)) = r) by (rewrite Rmult_1_l, tan_atan; field; lra).
  assert (NEG : z * tan (-1 * atan (r / z)) = - r).
  { replace (-1 * atan (r / z)) with (- atan (r / z)) by ring. rewrite tan_neg, tan_atan. field. lra. }
  repeat split; intros X; try (apply tan_atan_scale; auto); subst; auto; rewrite Rmult_0_l, tan_0; ring.
Qed.
(** finding: with the pupil behind the object (z < 0) fractions inside the pupil are
    sent outside of it *)
Theorem C27_finite_pupil_behind_refuted : exists r z p q, 0 < r /\ z < 0 /\ 0 < p < 1 /\
  finite_pupil [(0, p)] (corners_of r) z true = [(0, q)] /\ r < Rabs q.
Proof.
  exists 1, (-1), (4 / 9), (- sqrt 3). split; [lra|]. split; [lra|]. split; [lra|].
  assert (P0 := PI_RGT_0).
  assert (S3 : 1 < sqrt 3) by (rewrite <- sqrt_1 at 1; apply sqrt_lt_1; lra).
  split; [|rewrite Rabs_Ropp, Rabs_pos_eq; lra].
  unfold finite_pupil. replace (corners_angle (corners_of 1) (-1)) with (corners_of (3 * PI / 4)).
  2:{ assert (A1 : atan2 (- (1)) (-1) = - (3 * PI / 4)).
      { unfold atan2. destruct (Rlt_dec 0 (-1)); [lra|]. destruct (Rlt_dec (-1) 0); [|lra].
        destruct (Rle_dec 0 (- (1))); [lra|]. replace (- (1) / -1) with 1 by field. rewrite atan_1. field. }
      assert (A2 : atan2 1 (-1) = 3 * PI / 4).
      { unfold atan2. destruct (Rlt_dec 0 (-1)); [lra|]. destruct (Rlt_dec (-1) 0); [|lra].
        destruct (Rle_dec 0 1); [|lra]. replace (1 / -1) with (- (1)) by field. rewrite atan_opp, atan_1. field. }
      unfold corners_angle, corners_of. cbn [lo_s lo_m hi_s hi_m]. rewrite A1, A2. reflexivity. }
  unfold pupil_map. rewrite corners_max_of by lra. cbn [map fst snd List.filter].
  replace (inside (corners_of (3 * PI / 4)) (0 * (3 * PI / 4), 4 / 9 * (3 * PI / 4))) with true.
  2:{ symmetry. apply inside_of; lra. }
  cbn [map fst snd]. replace (4 / 9 * (3 * PI / 4)) with (PI / 3) by field. rewrite Rmult_0_l, tan_0, tan_PI3.
  f_equal. f_equal; ring.
Qed.

(** ** infinite conjugate *)
(** spec: angle-to-height laws of the projections, field fraction rho of half angle a *)
Definition projected (p : projection) (rho a theta : R) : Prop :=
  match p with
  | Rectilinear => 0 < cos theta /\ cos a <> 0 /\ rho * tan a = tan theta
  | Stereographic => cos (theta / 2) <> 0 /\ cos (a / 2) <> 0 /\ rho * tan (a / 2) = tan (theta / 2)
  | Equisolid => 0 <= cos (theta / 2) /\ rho * sin (a / 2) = sin (theta / 2)
  | _ => False
  end.
Lemma sc2 t : sin t * sin t + cos t * cos t = 1.
Proof. pose proof (sin2_cos2 t) as H. unfold Rsqr in H. auto. Qed.
Lemma half_angle t : sin t = 2 * sin (t / 2) * cos (t / 2) /\ cos t = 1 - 2 * (sin (t / 2) * sin (t / 2)).
Proof.
  assert (E : t = 2 * (t / 2)) by field. pose proof (sc2 (t / 2)).
  split; [rewrite E at 1; apply sin_2a|rewrite E at 1; rewrite cos_2a; nra].
Qed.
(** the direction of field point rho (ea, eb) is at angle theta from the axis in the
    azimuth (ea, eb), with theta given by the projection *)
Theorem C27_projection p ea eb rho a theta : ea * ea + eb * eb = 1 -> projected p rho a theta ->
  direction_map p (rho * ea, rho * eb) a = Some (V (ea * sin theta) (eb * sin theta) (cos theta)) /\
  dot (V (ea * sin theta) (eb * sin theta) (cos theta)) (V (ea * sin theta) (eb * sin theta) (cos theta)) = 1.
Proof.
  intros E H. split.
  2:{ unfold dot. cbn [vx vy vz]. pose proof (sc2 theta). transitivity (sin theta * sin theta * (ea * ea + eb * eb) + cos theta * cos theta); [ring|]. rewrite E. lra. }
  destruct p; cbn [projected] in H; try contradiction; unfold direction_map; cbn [fst snd].
  - destruct H as (C & A & T). unfold ftan. rewrite fdiv_some by auto. cbn [obind]. fold (tan a).
    replace (rho * ea * tan a) with (ea * tan theta) by (rewrite <- T; ring).
    replace (rho * eb * tan a) with (eb * tan theta) by (rewrite <- T; ring).
    set (u := V _ _ 1). assert (N : norm u = / cos theta).
    { unfold norm, u, dot. cbn [vx vy vz]. replace (ea * tan theta * (ea * tan theta) + eb * tan theta * (eb * tan theta) + 1 * 1) with (/ cos theta * / cos theta).
      - apply sqrt_square. left. apply Rinv_0_lt_compat. auto.
      - transitivity ((ea * ea + eb * eb) * (tan theta * tan theta) + 1); [|ring]. rewrite E. unfold tan. pose proof (sc2 theta).
        set (c := cos theta) in *. set (s := sin theta) in *. clearbody c s.
        transitivity ((s * s + c * c) / (c * c)); [rewrite H; field; lra|field; lra]. }
    rewrite fnormalize_some. 2:{ unfold u, v0. intros X. injection X. intros. lra. }
    rewrite N, Rinv_inv. unfold vmul3, u. cbn [vx vy vz]. f_equal. unfold tan. apply vec_eq; cbn [vx vy vz]; field; lra.
  - destruct H as (C & A & T). unfold ftan. rewrite fdiv_some by auto. cbn [obind]. fold (tan (a / 2)).
    replace (rho * ea * (2 * tan (a / 2))) with (2 * ea * tan (theta / 2)) by (rewrite <- T; ring).
    replace (rho * eb * (2 * tan (a / 2))) with (2 * eb * tan (theta / 2)) by (rewrite <- T; ring).
    destruct (half_angle theta) as (-> & ->). pose proof (sc2 (theta / 2)) as SC.
    replace ((2 * ea * tan (theta / 2) * (2 * ea * tan (theta / 2)) + 2 * eb * tan (theta / 2) * (2 * eb * tan (theta / 2))) / 4)
      with (tan (theta / 2) * tan (theta / 2)) by (transitivity ((ea * ea + eb * eb) * (tan (theta / 2) * tan (theta / 2))); [rewrite E; ring|field]).
    assert (D : tan (theta / 2) * tan (theta / 2) + 1 = / (cos (theta / 2) * cos (theta / 2))).
    { unfold tan. set (c := cos (theta / 2)) in *. set (s := sin (theta / 2)) in *. clearbody c s.
      transitivity ((s * s + c * c) / (c * c)); [field; auto|]. rewrite SC. field. auto. }
    rewrite D. assert (I : / (cos (theta / 2) * cos (theta / 2)) <> 0) by (apply Rinv_neq_0_compat; nra).
    rewrite !fdiv_some by auto. cbn [obind]. f_equal. unfold tan. set (c := cos (theta / 2)) in *. set (s := sin (theta / 2)) in *. clearbody c s.
    apply vec_eq; cbn [vx vy vz].
    + field. auto.
    + field. auto.
    + transitivity (c * c - s * s); [field; auto|lra].
  - destruct H as (C & T). destruct (half_angle theta) as (-> & ->). pose proof (sc2 (theta / 2)) as SC.
    set (c := cos (theta / 2)) in *. set (s := sin (theta / 2)) in *.
    replace (rho * ea * (2 * sin (a / 2))) with (2 * ea * s) by (rewrite <- T; ring).
    replace (rho * eb * (2 * sin (a / 2))) with (2 * eb * s) by (rewrite <- T; ring).
    replace (2 * ea * s * (2 * ea * s) + 2 * eb * s * (2 * eb * s)) with (4 * (s * s)).
    2:{ transitivity (4 * (s * s) * (ea * ea + eb * eb)); [rewrite E; ring|ring]. }
    replace (1 - 4 * (s * s) / 4) with (c * c) by lra.
    rewrite fsqrt_some by (clearbody c s; nra). rewrite sqrt_square by auto. cbn [obind]. f_equal. apply vec_eq; cbn [vx vy vz]; field.
Qed.
Example C27_projection_example : projected Rectilinear 1 (PI / 4) (PI / 4) /\ projected Stereographic 1 (2 * PI / 3) (2 * PI / 3) /\
  projected Equisolid 1 (2 * PI / 3) (2 * PI / 3) /\ 3 / 5 * (3 / 5) + 4 / 5 * (4 / 5) = 1.
Proof.
  assert (C3 : cos (PI / 3) <> 0) by (rewrite cos_PI3; lra). assert (P := PI_RGT_0).
  assert (C4 : 0 < cos (PI / 4)) by (apply cos_gt_0; lra).
  unfold projected. replace (2 * PI / 3 / 2) with (PI / 3) by field. rewrite !Rmult_1_l. repeat split; auto; try lra.
  rewrite cos_PI3. lra.
Qed.
(** findings: equidistant directions are not unit vectors (zero on axis); orthographic raises *)
Theorem C27_equidistant_refuted : direction_map Equidistant (0, 0) (PI / 4) = Some v0 /\
  (exists u, direction_map Equidistant (0, 1) (PI / 3) = Some u /\ dot u u <> 1) /\
  (forall yo a, direction_map Orthographic yo a = None).
Proof.
  assert (P := PI_RGT_0). split; [|split; [|reflexivity]].
  - unfold direction_map. cbn [fst snd]. rewrite !Rmult_0_l, sin_0, Rmult_0_l, Rplus_0_l, sqrt_0.
    destruct (Rlt_dec _ 0) as [X|]; [exfalso; nra|reflexivity].
  - unfold direction_map. cbn [fst snd]. rewrite !Rmult_0_l, Rmult_1_l, sin_0. destruct (Rlt_dec _ _) as [X|_].
    { exfalso. nra. }
    eexists. split; [reflexivity|]. rewrite sin_PI3. unfold dot. cbn [vx vy vz].
    assert (S : sqrt 3 * sqrt 3 = 3) by (apply sqrt_sqrt; lra).
    assert (Q : 0 * 0 + sqrt 3 / 2 * (sqrt 3 / 2) = 3 / 4) by lra. rewrite sqrt_sqrt; lra.
Qed.

Section Newton.
Variable newton : (R -> option R) -> (R -> option R) -> option R -> option R.
(** infinite conjugate: a collimated bundle; the ray through the pupil coordinate (ps, pm)
    is parallel to the chief ray and starts on the first surface *)
Theorem C27_infinite c surface yo ps pm z y u : z <> 0 ->
  infinite_ray newton c surface yo (Some (ps, pm)) z = Some (y, u) -> dot u u = 1 ->
  direction_map (cj_projection c) yo (cj_val c) = Some u /\
  (exists s m, frame u s m /\ exists t, at_ray y u t = vadd3 (V 0 0 z) (vadd3 (vmul3 ps s) (vmul3 pm m))) /\
  match surface with
  | None => True
  | Some s => s_asph s = None -> conic_set (s_c s) (s_k s) y
  end.
Proof.
  intros Z E U. unfold infinite_ray in E. cbv zeta in E.
  destruct (direction_map _ _ _) as [u0|]; cbn [obind] in E; [|discriminate].
  destruct (sagittal_meridional u0 (V 0 0 z)) as [[s m]|] eqn:S; cbn [obind fst snd] in E; [|discriminate].
  assert (u0 = u) as ->.
  { destruct surface as [f|]; [destruct (intercept _ _ _ _); [cbn [obind] in E|discriminate]|]; injection E; auto. }
  split; [reflexivity|].
  assert (UN : u <> v0) by (intros X; rewrite X in U; unfold dot, v0 in U; cbn in U; lra).
  assert (H : cross u (V 0 0 z) <> v0 \/ (vx u = 0 /\ vy u = 0)).
  { destruct (Req_dec (vx u) 0) as [A|A]; [destruct (Req_dec (vy u) 0) as [B|B]|]; [auto| |]; left; intros X.
    - assert (Q := f_equal vx X). unfold cross, v0 in Q. cbn in Q.
      apply B. apply (Rmult_eq_reg_r z); [lra|auto].
    - assert (Q := f_equal vy X). unfold cross, v0 in Q. cbn in Q.
      apply A. apply (Rmult_eq_reg_r z); [lra|auto]. }
  destruct (C46_frame u (V 0 0 z) UN H) as (s' & m' & S' & F & _). rewrite S in S'. injection S' as <- <-.
  destruct surface as [f|].
  - destruct (intercept _ _ _ _) as [t|] eqn:I; cbn [obind] in E; [|discriminate]. injection E as <-. split.
    + exists s, m. split; [auto|]. exists (z - t). unfold at_ray. clear. vec_ring.
    + intros A. unfold intercept in I. rewrite A in I. apply C13_on_surface in I; auto.
  - injection E as <-. split; [|auto]. exists s, m. split; [auto|]. exists z. unfold at_ray. clear. vec_ring.
Qed.
End Newton.
Example C27_infinite_example : let c := Conjugate false (PI / 4) (Pupil RadiusPupil 1 2 true true false false 1 Rectilinear) Rectilinear false in
  infinite_ray (fun _ _ _ => None) c None (0, 0) (Some (1 / 2, 1)) 2 = Some (V (1 / 2) 1 0, V 0 0 1) /\ dot (V 0 0 1) (V 0 0 1) = 1.
Proof.
  cbv zeta. split; [|unfold dot; cbn; ring].
  assert (C4 : 0 < cos (PI / 4)) by (apply cos_gt_0; pose proof PI_RGT_0; lra).
  assert (N1 : norm (V 0 0 1) = 1) by (apply norm_unit; unfold dot; cbn; ring).
  assert (NX : norm ex = 1) by (apply norm_unit; unfold dot, ex; cbn; ring).
  assert (NY : norm (V 0 1 0) = 1) by (apply norm_unit; unfold dot; cbn; ring).
  unfold infinite_ray, direction_map. cbn [cj_projection cj_val fst snd]. unfold ftan. rewrite fdiv_some by lra. cbn [obind].
  rewrite !Rmult_0_l. rewrite fnormalize_some by (unfold v0; intros X; injection X; lra). rewrite N1. cbn [obind].
  replace (vmul3 (/ 1) (V 0 0 1)) with (V 0 0 1) by (unfold vmul3; cbn; apply vec_eq; cbn; field).
  unfold sagittal_meridional. replace (cross (V 0 0 1) (V 0 0 2)) with v0 by (unfold cross, v0; cbn; apply vec_eq; cbn; ring).
  replace (veqb v0 v0) with true by (symmetry; apply veqb_true; auto).
  replace (cross (V 0 0 1) ex) with (V 0 1 0) by (unfold cross, ex; cbn; apply vec_eq; cbn; ring).
  rewrite !fnormalize_some; [|intros X; injection X; lra|unfold ex; intros X; injection X; lra].
  rewrite NX, NY. cbn [obind fst snd]. f_equal. f_equal. unfold vadd3, vsub3, vmul3, ex. cbn [vx vy vz]. apply vec_eq; cbn [vx vy vz]; field.
Qed.
Example C27_finite_example : let c := Conjugate true 1 (Pupil RadiusPupil 1 4 true true false false 1 Rectilinear) Rectilinear false in
  finite_ray c None (0, -3) None 4 = Some (V 0 3 0, V 0 (-3/5) (4/5)) /\ finite_ray c None (0, -3) (Some (1, 2)) 4 <> None.
Proof.
  cbv zeta. split; [|apply C27_finite; [lra|reflexivity]].
  unfold finite_ray. cbn [obind cj_pupil pu_telecentric cj_val fst snd].
  replace (- (0) * 1) with 0 by ring. replace (- -3 * 1) with 3 by ring.
  replace (vsub3 (V 0 0 4) (V 0 3 0)) with (V 0 (-3) 4) by (unfold vsub3; cbn; apply vec_eq; cbn; ring).
  rewrite fnormalize_some by (unfold v0; intros X; injection X; lra).
  assert (N : norm (V 0 (-3) 4) = 5).
  { unfold norm, dot. cbn. replace (0 * 0 + -3 * -3 + 4 * 4) with (5 * 5) by ring. apply sqrt_square. lra. }
  rewrite N. cbn [obind]. destruct (Rlt_dec 4 0); [lra|]. f_equal. f_equal. unfold vmul3; cbn. apply vec_eq; cbn; field.
Qed.
(** finding: when the entrance pupil lies at the object vertex plane (z = 0) and the
    field point has a sagittal component, the offsets are not perpendicular to the ray *)
Theorem C27_pupil_at_vertex_refuted newton : exists c yo y u,
  infinite_ray newton c None yo (Some (1, 0)) 0 = Some (y, u) /\ dot u u = 1 /\ dot y u <> 0 /\ y = ex.
Proof.
  exists (Conjugate false (PI / 4) (Pupil RadiusPupil 1 0 true true false false 1 Rectilinear) Rectilinear false), (4 / 3, 0), ex, (V (4/5) 0 (3/5)).
  assert (C4 : 0 < cos (PI / 4)) by (apply cos_gt_0; pose proof PI_RGT_0; lra).
  assert (T4 : tan (PI / 4) = 1) by apply tan_PI4.
  split; [|split; [unfold dot; cbn; lra|split; [unfold dot, ex; cbn; lra|reflexivity]]].
  assert (NX : norm ex = 1) by (apply norm_unit; unfold dot, ex; cbn; ring).
  unfold infinite_ray, direction_map. cbn [cj_projection cj_val fst snd]. unfold ftan. rewrite fdiv_some by lra. cbn [obind].
  fold (tan (PI / 4)). rewrite T4.
  replace (4 / 3 * 1) with (4 / 3) by ring. rewrite Rmult_0_l.
  rewrite fnormalize_some by (unfold v0; intros X; injection X; lra).
  assert (N : norm (V (4 / 3) 0 1) = 5 / 3).
  { unfold norm, dot. cbn. replace (4 / 3 * (4 / 3) + 0 * 0 + 1 * 1) with (5 / 3 * (5 / 3)) by lra. apply sqrt_square. lra. }
  rewrite N. cbn [obind]. replace (vmul3 (/ (5 / 3)) (V (4 / 3) 0 1)) with (V (4/5) 0 (3/5)) by (unfold vmul3; cbn; apply vec_eq; cbn; field).
  unfold sagittal_meridional. replace (cross (V (4/5) 0 (3/5)) (V 0 0 0)) with v0 by (unfold cross, v0; cbn; apply vec_eq; cbn; ring).
  replace (veqb v0 v0) with true by (symmetry; apply veqb_true; auto).
  replace (cross (V (4/5) 0 (3/5)) ex) with (V 0 (3/5) 0) by (unfold cross, ex; cbn; apply vec_eq; cbn; ring).
  rewrite !fnormalize_some; [|intros X; injection X; lra|unfold ex; intros X; injection X; lra].
  rewrite NX. cbn [obind fst snd]. f_equal. f_equal. generalize (/ norm (V 0 (3/5) 0)). intros n. unfold vadd3, vsub3, vmul3, ex. cbn [vx vy vz]. apply vec_eq; cbn [vx vy vz]; field_simplify; lra.
Qed.

Print Assumptions C46_frame.
Print Assumptions C46_axis_refuted.
Print Assumptions C27_finite.
Print Assumptions C27_finite_chief.
Print Assumptions C27_telecentric_chief_refuted.
Print Assumptions C27_disc.
Print Assumptions C27_vignetted.
Print Assumptions C27_finite_pupil.
Print Assumptions C27_finite_pupil_behind_refuted.
Print Assumptions C27_projection.
Print Assumptions C27_equidistant_refuted.
Print Assumptions C27_infinite.
Print Assumptions C27_pupil_at_vertex_refuted.
