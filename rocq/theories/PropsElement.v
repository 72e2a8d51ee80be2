(** Properties C10-C14: Snell's law, reflection, intersection, normals. *)
From Coq Require Import Reals List Lra Lia Psatz.
From Verif Require Import Base Vec RotModel RotProofs RotEuler PlacementModel PlacementProofs ElementModel ElementProofs TraceProofs.
Import ListNotations.
Open Scope R_scope.

(** * C10 *)
(** Snell's law for the vector form: indices [n0] before, [n] after, normal [N]. *)
Definition snell (n0 n : R) (u0 u N : vec) : Prop :=
  dot u u = 1 /\ vmul3 n (cross u N) = vmul3 n0 (cross u0 N) /\ dot (cross u0 N) u = 0.
(** sine of the refraction angle would exceed one *)
Definition total_reflection (n0 n : R) (u0 N : vec) : Prop := n * norm N < n0 * norm (cross u0 N).

Lemma tir_iff n0 n u0 N : 0 < n0 -> 0 < n ->
  (~ total_reflection n0 n u0 N) <-> (n0 / n) ^ 2 * dot (cross u0 N) (cross u0 N) <= dot N N.
Proof.
  intros A B. unfold total_reflection.
  pose proof (norm_nonneg N) as P1. pose proof (norm_nonneg (cross u0 N)) as P2.
  rewrite <- (norm_sqr N), <- (norm_sqr (cross u0 N)).
  set (x := norm N) in *. set (y := norm (cross u0 N)) in *.
  replace ((n0 / n) ^ 2 * (y * y)) with ((n0 * y) * (n0 * y) / (n * n)) by (field; lra).
  assert (NN : 0 < n * n) by nra.
  assert (X : 0 <= n * x) by nra. assert (Y : 0 <= n0 * y) by nra.
  split; intros H.
  - apply Rmult_le_reg_r with (n * n); [auto|]. unfold Rdiv. rewrite Rmult_assoc, Rinv_l by lra.
    replace (x * x * (n * n)) with ((n * x) * (n * x)) by ring. rewrite Rmult_1_r.
    apply Rmult_le_compat; lra.
  - intros L. assert (H2 : (n0 * y) * (n0 * y) <= x * x * (n * n)).
    { apply Rmult_le_compat_r with (r := n * n) in H; [|lra].
      unfold Rdiv in H. rewrite Rmult_assoc, Rinv_l in H by lra. lra. }
    replace (x * x * (n * n)) with ((n * x) * (n * x)) in H2 by ring. nra.
Qed.

(** pure vector law, any unnormalised normal *)
Theorem C10_snell n0 n u0 N : 0 < n0 -> 0 < n -> dot u0 u0 = 1 -> N <> v0 ->
  (refract_normal u0 N (n0 / n) = None <-> total_reflection n0 n u0 N) /\
  (forall u, refract_normal u0 N (n0 / n) = Some u -> snell n0 n u0 u N).
Proof.
  intros A B U NZ. assert (M : 0 < n0 / n) by (apply Rdiv_lt_0_compat; auto).
  assert (R2 : dot N N <> 0) by (intros Z; apply dot_zero in Z; contradiction).
  destruct (refract_normal_pos u0 N (n0 / n) U NZ M) as [H1 H2].
  pose proof (tir_iff n0 n u0 N A B) as T.
  destruct (Rle_dec ((n0 / n) ^ 2 * dot (cross u0 N) (cross u0 N)) (dot N N)) as [L|L].
  - destruct (H1 L) as (q & Q0 & Q & E). rewrite E. split.
    + split; [discriminate|]. intros X. exfalso. apply T in L. contradiction.
    + intros u X. injection X as <-. split; [|split].
      * apply (refracted_unit u0 N (n0 / n) q U R2 Q).
      * rewrite cross_self_lin. apply vec_eq; cbn; field; lra.
      * apply triple_lin.
  - rewrite H2 by lra. split; [|discriminate]. split; [|reflexivity]. intros _.
    unfold total_reflection. apply Rnot_le_lt. intros X. apply L, T. unfold total_reflection. lra.
Qed.

(** at a surface with a material: the direction leaving element obeys the law with the
    indices of the media before and after, at the surface's normal; identical
    media leave the ray untouched *)
Theorem C10_snell_surface s m n0 l y u0 :
  0 < n0 -> 0 < m_index m l -> m_mirror m = false -> dot u0 u0 = 1 ->
  exists n mu, get_n_mu (Some m) n0 l = (n, Some mu) /\ n = m_index m l /\
  (n = n0 -> refract s (Some y) (Some u0) mu = Some u0) /\
  (forall N, surface_normal s y = Some N -> n <> n0 ->
    (refract s (Some y) (Some u0) mu = None <-> total_reflection n0 n u0 N) /\
    (forall u, refract s (Some y) (Some u0) mu = Some u -> snell n0 n u0 u N)).
Proof.
  intros A B M U. exists (m_index m l), (n0 / m_index m l).
  unfold get_n_mu. rewrite M, fdiv_some by lra.
  split; [reflexivity|]. split; [reflexivity|]. split.
  - intros E. unfold refract. destruct (Req_EM_T _ 1) as [|NE]; [reflexivity|].
    exfalso. apply NE. rewrite E. field. lra.
  - intros N HN NE. unfold refract. destruct (Req_EM_T (n0 / m_index m l) 1) as [E|_].
    + exfalso. apply NE. apply (f_equal (fun z => z * m_index m l)) in E.
      replace (n0 / m_index m l * m_index m l) with n0 in E by (field; lra). lra.
    + cbn [obind]. rewrite HN. cbn [obind].
      apply C10_snell; auto. eapply surface_normal_nz; eauto.
Qed.

Example C10_example : dot (V 0 (3/5) (4/5)) (V 0 (3/5) (4/5)) = 1 /\ V 0 0 2 <> v0 /\
  ~ total_reflection 1 (3/2) (V 0 (3/5) (4/5)) (V 0 0 2) /\
  total_reflection 2 1 (V 0 (3/5) (4/5)) (V 0 0 2).
Proof.
  split; [unfold dot; cbn; field|]. split; [intros H; injection H; lra|].
  assert (E1 : norm (V 0 0 2) = 2).
  { unfold norm, dot; cbn [vx vy vz]. replace (0*0+0*0+2*2) with (2*2) by ring. apply sqrt_square; lra. }
  assert (E2 : norm (cross (V 0 (3/5) (4/5)) (V 0 0 2)) = 6/5).
  { unfold norm, dot, cross; cbn [vx vy vz].
    match goal with |- sqrt ?x = _ => replace x with ((6/5)*(6/5)) by field end. apply sqrt_square; lra. }
  unfold total_reflection. rewrite E1, E2. lra.
Qed.

(** * C11 *)
(** mirror law: same tangential part, opposite normal part (both relative to N) *)
Definition mirrored (u0 u N : vec) : Prop :=
  dot u u = 1 /\ dot u N = - dot u0 N /\ cross u N = cross u0 N /\ dot (cross u0 N) u = 0.

Theorem C11_reflection u0 N : dot u0 u0 = 1 -> N <> v0 ->
  exists u, refract_normal u0 N (-1) = Some u /\ mirrored u0 u N /\
    refract_normal u N (-1) = Some u0.
Proof.
  intros U NZ. assert (R2 : dot N N <> 0) by (intros Z; apply dot_zero in Z; contradiction).
  rewrite reflect_normal by auto. eexists; split; [reflexivity|].
  set (a := dot u0 N / dot N N). assert (A : a * dot N N = dot u0 N) by (unfold a; field; auto).
  assert (D : dot (vsub3 u0 (vmul3 (2 * a) N)) N = - dot u0 N).
  { transitivity (dot u0 N - 2 * (a * dot N N)); [vec_ring|]. rewrite A. ring. }
  split; [split; [|split; [|split]]|].
  - transitivity (dot u0 u0 - 4 * a * dot u0 N + 4 * a * (a * dot N N)); [vec_ring|]. rewrite A, U. ring.
  - exact D.
  - vec_ring.
  - vec_ring.
  - rewrite reflect_normal by auto. rewrite D.
    replace (- dot u0 N / dot N N) with (- a) by (unfold a; field; auto). f_equal. vec_ring.
Qed.

(** the mirror flag selects the reflection and keeps the medium *)
Theorem C11_mirror_surface s m n0 l y u0 N : m_mirror m = true -> dot u0 u0 = 1 ->
  surface_normal s y = Some N ->
  exists mu u, get_n_mu (Some m) n0 l = (n0, Some mu) /\
    refract s (Some y) (Some u0) mu = Some u /\ mirrored u0 u N.
Proof.
  intros M U HN. destruct (C11_reflection u0 N U (surface_normal_nz _ _ _ HN)) as (u & H1 & H2 & _).
  exists (-1), u. unfold get_n_mu. rewrite M. split; [auto|]. split; auto.
  unfold refract. destruct (Req_EM_T (-1) 1); [lra|]. cbn [obind]. rewrite HN. exact H1.
Qed.

Example C11_example : exists u, refract_normal (V 0 (3/5) (4/5)) (V 0 0 2) (-1) = Some u /\ u = V 0 (3/5) (-(4/5)).
Proof.
  rewrite reflect_normal by (intros H; injection H; lra). eexists; split; [reflexivity|].
  apply vec_eq; unfold dot; cbn; field.
Qed.

(** * C12 *)
Theorem C12_other_side_reversible u0 N mu u : 0 < mu -> dot u0 u0 = 1 -> N <> v0 ->
  refract_normal u0 N mu = Some u ->
  0 <= dot u N /\
  (0 <= dot u0 N ->
   mu <> 1 -> refract_normal (vneg u) (vneg N) (/ mu) = Some (vneg u0)).
Proof.
  intros M U NZ H. assert (R2 : dot N N <> 0) by (intros Z; apply dot_zero in Z; contradiction).
  assert (RP : 0 < dot N N) by (pose proof (dot_nonneg N); lra).
  destruct (refract_normal_pos u0 N mu U NZ M) as [H1 H2].
  destruct (Rle_dec (mu ^ 2 * dot (cross u0 N) (cross u0 N)) (dot N N)) as [L|L]; [|rewrite H2 in H by lra; discriminate].
  destruct (H1 L) as (q & Q0 & Q & E). rewrite E in H. injection H as <-. clear E H1 H2.
  destruct (refracted_unit u0 N mu q U R2 Q) as [UU UN].
  set (u := vadd3 _ _) in *. split; [rewrite UN; nra|].
  intros P NM.
  assert (MI : 0 < / mu) by (apply Rinv_0_lt_compat; auto).
  assert (NZ' : vneg N <> v0).
  { intros Z. apply NZ. apply (f_equal vneg) in Z. replace N with (vneg (vneg N)) by vec_ring.
    rewrite Z. vec_ring. }
  assert (UU' : dot (vneg u) (vneg u) = 1) by (rewrite dot_neg; auto).
  assert (CR : cross (vneg u) (vneg N) = vmul3 mu (cross u0 N)).
  { transitivity (cross u N); [vec_ring|]. apply cross_self_lin. }
  destruct (refract_normal_pos (vneg u) (vneg N) (/ mu) UU' NZ' MI) as [K _].
  rewrite CR, !dot_neg, !dot_scale_l, !dot_scale_r in K.
  assert (LG : dot (cross u0 N) (cross u0 N) = dot N N - dot u0 N * dot u0 N).
  { rewrite <- lagrange, U. ring. }
  assert (S : (/ mu) ^ 2 * (mu * (mu * dot (cross u0 N) (cross u0 N))) = dot N N - dot u0 N * dot u0 N).
  { rewrite LG. field. lra. }
  rewrite S in K. destruct K as (q' & Q0' & Q' & ->); [nra|].
  assert (EQ : q' = dot u0 N / dot N N).
  { apply Rsqr_inj; auto.
    - apply Rmult_le_pos; auto. left; apply Rinv_0_lt_compat; auto.
    - unfold Rsqr. rewrite Q'. field. auto. }
  f_equal. rewrite EQ, UN.
  replace (- (/ mu * (q * dot N N) / dot N N) + dot u0 N / dot N N)
    with (/ mu * (- (mu * dot u0 N / dot N N)  + q) * -1 + 2 * (/ mu * 0)).
  2:{ field_simplify; [|lra|lra]. field; lra. } 
  unfold u. apply vec_eq; cbn; field; auto with real; lra.
Qed.

Example C12_example : exists u, refract_normal (V 0 0 1) (V 0 0 2) (2/3) = Some u /\
  0 <= dot (V 0 0 1) (V 0 0 2) /\ u = V 0 0 1.
Proof.
  assert (U : dot (V 0 0 1) (V 0 0 1) = 1) by (unfold dot; cbn; ring).
  assert (NZ : V 0 0 2 <> v0) by (intros H; injection H; lra).
  assert (M : 0 < 2/3) by lra.
  destruct (refract_normal_pos (V 0 0 1) (V 0 0 2) (2/3) U NZ M) as [H _].
  destruct H as (q & Q0 & Q & ->); [unfold dot, cross; cbn; lra|].
  eexists; split; [reflexivity|]. split; [unfold dot; cbn; lra|].
  assert (q = 1/2).
  { assert (X : q * q = (1/2) * (1/2)). { rewrite Q. unfold dot, cross; cbn. field. }
    nra. }
  subst q. apply vec_eq; unfold dot; cbn; field.
Qed.

(** a ray travelling against the surface normal is not refracted but sent back:
    it enters with u0.N < 0 and leaves with u.N > 0 although the index ratio is
    positive (no mirror) *)
Theorem C12_against_normal_refuted :
  exists u0 N mu u, 0 < mu /\ dot u0 u0 = 1 /\ N <> v0 /\ dot u0 N < 0 /\
    refract_normal u0 N mu = Some u /\ 0 < dot u N /\ u = vneg u0.
Proof.
  exists (V 0 0 (-1)), (V 0 0 1), (2/3).
  assert (U : dot (V 0 0 (-1)) (V 0 0 (-1)) = 1) by (unfold dot; cbn; ring).
  assert (NZ : V 0 0 1 <> v0) by (intros H; injection H; lra).
  assert (M : 0 < 2/3) by lra.
  destruct (refract_normal_pos (V 0 0 (-1)) (V 0 0 1) (2/3) U NZ M) as [H _].
  destruct H as (q & Q0 & Q & E); [unfold dot, cross; cbn; lra|].
  assert (q = 1).
  { assert (X : q * q = 1 * 1). { rewrite Q. unfold dot, cross; cbn. field. }
    nra. }
  subst q. eexists. split; [lra|]. split; [auto|]. split; [auto|].
  split; [unfold dot; cbn; lra|]. split; [exact E|].
  split; [unfold dot; cbn; lra|]. apply vec_eq; unfold dot; cbn; field.
Qed.

(** * C13 *)
(** the conic of revolution with vertex at the origin, curvature c and conic
    constant k, as a set: c(x^2+y^2+(1+k)z^2) = 2z *)
Definition conic_set (c k : R) (p : vec) : Prop :=
  c * (vx p * vx p + vy p * vy p + (1 + k) * (vz p * vz p)) = 2 * vz p.
(** its sheet through the vertex: the graph of the sag *)
Definition sheet (c k : R) (p : vec) : Prop :=
  let r2 := vx p * vx p + vy p * vy p in
  0 <= 1 - (1 + k) * c ^ 2 * r2 /\ vz p = c * r2 / (1 + sqrt (1 - (1 + k) * c ^ 2 * r2)).
(** outward gradient of [z - sag] scaled: the direction the surface normal takes *)
Definition sheet_normal (c k : R) (p : vec) : vec :=
  let w := sqrt (1 - (1 + k) * c ^ 2 * (vx p * vx p + vy p * vy p)) in
  V (- c * vx p / w) (- c * vy p / w) 1.

Lemma quadric_set c k p : quadric c k p = 0 <-> conic_set c k p.
Proof. unfold quadric, conic_set, r2_of. split; intros H; nra. Qed.

Lemma sheet_sag s p : s_asph s = None -> sheet (s_c s) (s_k s) p <-> 
  (surface_sag s p = Some 0).
Proof.
  intros A. split.
  - intros (W & Z). rewrite surface_sag_spec by exact W. f_equal. unfold sag_spec. rewrite A.
    rewrite Z. unfold r2_of. lra.
  - intros H. unfold sheet. destruct (Req_EM_T (s_c s) 0) as [C|C].
    + unfold surface_sag in H. rewrite A in H. destruct (Req_EM_T (s_c s) 0); [|contradiction].
      injection H as H. rewrite C, H. split; [ring_simplify; lra|]. unfold Rdiv. ring.
    + destruct (sheet_root _ _ C A H) as (W & _ & Z & _). unfold r2_of in *. split; [auto|].
      pose proof (sqrt_pos (1 - (1 + s_k s) * s_c s ^ 2 * (vx p * vx p + vy p * vy p))).
      apply Rmult_eq_reg_r with (1 + sqrt (1 - (1 + s_k s) * s_c s ^ 2 * (vx p * vx p + vy p * vy p))); [|lra].
      rewrite Z. field. lra.
Qed.

(** whatever is returned lies on the conic (for c = 0: the plane), for both roots *)
Theorem C13_on_surface s y u t : dot u u = 1 -> conic_intercept s y u = Some t ->
  conic_set (s_c s) (s_k s) (at_ray y u t).
Proof.
  intros U H. destruct (Req_EM_T (s_c s) 0) as [C|C].
  - unfold conic_intercept in H. destruct (Req_EM_T (s_c s) 0); [|contradiction].
    apply fdiv_inv in H. destruct H as (H & ->). unfold conic_set. rewrite C.
    unfold at_ray, vadd3, vmul3. cbn [vx vy vz]. field. auto.
  - apply quadric_set. apply conic_on_quadric; auto.
Qed.

(** leading coefficient of the quadratic along the ray *)
Definition lead (k : R) (u : vec) : R := vx u * vx u + vy u * vy u + (1 + k) * (vz u * vz u).

(** if the ray meets the vertex sheet with its direction along (alternate: against)
    the surface normal, that point is returned *)
Theorem C13_found s y u t : s_asph s = None -> s_c s <> 0 -> dot u u = 1 -> lead (s_k s) u <> 0 ->
  sheet (s_c s) (s_k s) (at_ray y u t) ->
  0 < 1 - (1 + s_k s) * s_c s ^ 2 * r2_of (at_ray y u t) ->
  (if s_alt s then dot u (sheet_normal (s_c s) (s_k s) (at_ray y u t)) <= 0
   else 0 <= dot u (sheet_normal (s_c s) (s_k s) (at_ray y u t))) ->
  conic_intercept s y u = Some t.
Proof.
  intros A C U L S P D. apply sheet_sag in S; auto.
  apply conic_finds_sheet with (n := sheet_normal (s_c s) (s_k s) (at_ray y u t)); auto.
  - unfold qe. unfold lead in L. intros Z. apply L. 
    apply Rmult_eq_reg_l with (s_c s); auto. rewrite Rmult_0_r. rewrite <- Z. unfold r2_of. ring.
  - rewrite surface_normal_spec by auto. rewrite A. cbv zeta. f_equal. unfold sheet_normal.
    apply vec_eq; cbn [vx vy vz]; unfold r2_of, Rdiv; ring.
Qed.

(** a ray is reported as missing exactly when it does not meet the conic at all *)
Theorem C13_missed s y u : s_c s <> 0 -> dot u u = 1 -> lead (s_k s) u <> 0 ->
  (conic_intercept s y u = None <-> forall t, ~ conic_set (s_c s) (s_k s) (at_ray y u t)).
Proof.
  intros C U L. assert (Q : qe (s_c s) (s_k s) u <> 0).
  { unfold qe. unfold lead in L. intros Z. apply L. 
    apply Rmult_eq_reg_l with (s_c s); auto. rewrite Rmult_0_r. rewrite <- Z. unfold r2_of. ring. }
  rewrite (conic_none s y u C) by auto. split; intros H t K; apply (H t); apply quadric_set; auto.
Qed.

Example C13_example : let s := Surf (1/10) 0 None false in
  s_c s <> 0 /\ dot ez ez = 1 /\ lead (s_k s) ez <> 0 /\
  sheet (s_c s) (s_k s) (at_ray (V 6 0 (-5)) ez 7) /\
  0 < 1 - (1 + s_k s) * s_c s ^ 2 * r2_of (at_ray (V 6 0 (-5)) ez 7) /\
  0 <= dot ez (sheet_normal (s_c s) (s_k s) (at_ray (V 6 0 (-5)) ez 7)) /\
  conic_intercept s (V 6 0 (-5)) ez = Some 7.
Proof.
  set (s := Surf (1/10) 0 None false).
  assert (W : sqrt (1 - (1 + 0) * (1/10) ^ 2 * ((6 + 7 * 0) * (6 + 7 * 0) + (0 + 7 * 0) * (0 + 7 * 0))) = 8/10).
  { match goal with |- sqrt ?x = _ => replace x with ((8/10)*(8/10)) by field end. apply sqrt_square; lra. }
  assert (A1 : s_c s <> 0) by (cbn; lra).
  assert (A2 : dot ez ez = 1) by (unfold dot, ez; cbn; ring).
  assert (A3 : lead (s_k s) ez <> 0) by (unfold lead, ez; cbn; lra).
  assert (A4 : sheet (s_c s) (s_k s) (at_ray (V 6 0 (-5)) ez 7)).
  { unfold sheet, at_ray, vadd3, vmul3, ez. cbn [vx vy vz s_c s_k s]. rewrite W. split; [lra|field]. }
  assert (A5 : 0 < 1 - (1 + s_k s) * s_c s ^ 2 * r2_of (at_ray (V 6 0 (-5)) ez 7)).
  { unfold r2_of, at_ray, vadd3, vmul3, ez. cbn [vx vy vz s_c s_k s]. lra. }
  assert (A6 : 0 <= dot ez (sheet_normal (s_c s) (s_k s) (at_ray (V 6 0 (-5)) ez 7))).
  { unfold sheet_normal, dot, ez. cbn [vx vy vz]. lra. }
  repeat (split; [assumption|]).
  exact (C13_found s (V 6 0 (-5)) ez 7 eq_refl A1 A2 A3 A4 A5 A6).
Qed.

(** paraboloid, ray parallel to the axis: the ray meets the sheet, the code says no *)
Theorem C13_paraboloid_refuted :
  exists s y u t, s_asph s = None /\ s_c s <> 0 /\ dot u u = 1 /\
    sheet (s_c s) (s_k s) (at_ray y u t) /\
    0 < 1 - (1 + s_k s) * s_c s ^ 2 * r2_of (at_ray y u t) /\
    0 <= dot u (sheet_normal (s_c s) (s_k s) (at_ray y u t)) /\
    conic_intercept s y u = None.
Proof.
  exists (Surf 1 (-1) None false), (V 1 0 (-1)), ez, (3/2).
  assert (W : 1 - (1 + -1) * 1 ^ 2 * ((1 + 3/2 * 0) * (1 + 3/2 * 0) + (0 + 3/2 * 0) * (0 + 3/2 * 0)) = 1) by field.
  split; [reflexivity|]. split; [cbn; lra|]. split; [unfold dot, ez; cbn; ring|].
  split.
  { unfold sheet, at_ray, vadd3, vmul3, ez. cbn [vx vy vz s_c s_k]. rewrite W, sqrt_1. split; lra. }
  split.
  { unfold r2_of, at_ray, vadd3, vmul3, ez. cbn [vx vy vz s_c s_k]. lra. }
  split.
  { unfold sheet_normal, dot, ez. cbn [vx vy vz]. lra. }
  unfold conic_intercept, ez. cbn [vx vy vz s_c s_k s_alt].
  destruct (Req_EM_T 1 0); [lra|]. destruct (Req_EM_T (-1) 0); [lra|].
  match goal with |- obind (fsqrt ?a) _ = _ => destruct (fsqrt a) as [g|]; [|reflexivity] end.
  cbn [obind]. match goal with |- fdiv _ ?b = _ => replace b with 0 by ring end. apply fdiv_zero.
Qed.

(** * C14 *)
(** sag written as a formula of the point: z - conic - even polynomial *)
Fixpoint asph_terms (l : list R) (j : nat) (r2 : R) : R :=
  match l with [] => 0 | a :: l => a * r2 ^ j + asph_terms l (S j) r2 end.
Definition sag_formula (c k : R) (a : list R) (p : vec) : R :=
  let r2 := vx p * vx p + vy p * vy p in
  vz p - c * r2 / (1 + sqrt (1 - (1 + k) * c ^ 2 * r2)) - asph_terms a 1 r2.
Definition coeffs (s : surf) : list R := match s_asph s with None => [] | Some a => a end.

Lemma asph_terms_even l : forall j x, asph_terms l (S j) x = even_poly j l x.
Proof.
  induction l as [|a l IH]; intros; cbn [asph_terms even_poly]; [reflexivity|].
  rewrite IH. replace (j + 1)%nat with (S j) by lia. ring.
Qed.

Lemma sag_formula_spec s p : sag_formula (s_c s) (s_k s) (coeffs s) p = sag_spec s p.
Proof.
  unfold sag_formula, sag_spec, coeffs, r2_of. cbv zeta. f_equal. 
  destruct (s_asph s) as [l|]; [apply asph_terms_even|reflexivity].
Qed.

Theorem C14_normal_is_gradient s p :
  0 < 1 - (1 + s_k s) * s_c s ^ 2 * r2_of p ->
  surface_sag s p = Some (sag_formula (s_c s) (s_k s) (coeffs s) p) /\
  exists N, surface_normal s p = Some N /\ forall v,
    derivable_pt_lim (fun t => sag_formula (s_c s) (s_k s) (coeffs s) (vadd3 p (vmul3 t v))) 0 (dot N v).
Proof.
  intros H. split.
  - rewrite sag_formula_spec. apply surface_sag_spec. lra.
  - destruct (sag_gradient s p ez H) as (N & E & _). exists N. split; [auto|]. intros v.
    destruct (sag_gradient s p v H) as (N' & E' & D). rewrite E in E'. injection E' as <-.
    eapply derivable_pt_lim_ext; [|exact D]. intros t. symmetry. apply sag_formula_spec.
Qed.

(** outside the domain the normal is NaN *)
Theorem C14_domain s p : s_c s <> 0 -> 1 - (1 + s_k s) * s_c s ^ 2 * r2_of p < 0 ->
  surface_normal s p = None /\ surface_sag s p = None.
Proof.
  intros C H. unfold surface_normal, surface_sag. destruct (Req_EM_T (s_c s) 0); [contradiction|].
  cbv zeta. rewrite fsqrt_none by auto. auto.
Qed.

Example C14_example : let s := Surf (1/10) (-1/2) (Some [1/1000; 1/10000]) false in
  0 < 1 - (1 + s_k s) * s_c s ^ 2 * r2_of (V 2 1 0) /\
  1 - (1 + s_k s) * s_c s ^ 2 * r2_of (V 20 0 0) < 0.
Proof. unfold r2_of. cbn. lra. Qed.

Print Assumptions C10_snell.
Print Assumptions C10_snell_surface.
Print Assumptions C11_reflection.
Print Assumptions C11_mirror_surface.
Print Assumptions C12_other_side_reversible.
Print Assumptions C12_against_normal_refuted.
Print Assumptions C13_on_surface.
Print Assumptions C13_found.
Print Assumptions C13_missed.
Print Assumptions C13_paraboloid_refuted.
Print Assumptions C14_normal_is_gradient.
Print Assumptions C14_domain.
