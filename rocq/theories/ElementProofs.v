(** Refraction, reflection, intersection and normals. *)
From Coq Require Import Reals List Lra Lia Psatz.
From Verif Require Import Base Vec RotModel RotEuler PlacementModel ElementModel.
Import ListNotations.
Open Scope R_scope.

(** ** vector refraction *)
Lemma lagrange u r : dot u u * dot r r - dot u r * dot u r = dot (cross u r) (cross u r).
Proof. vec_ring. Qed.

Lemma refract_disc u0 r mu : dot u0 u0 = 1 -> dot r r <> 0 -> 0 < mu ->
  (mu * dot u0 r / dot r r) * (mu * dot u0 r / dot r r) - (mu ^ 2 - 1) / dot r r
  = (dot r r - mu ^ 2 * dot (cross u0 r) (cross u0 r)) / (dot r r * dot r r).
Proof.
  intros U N M. rewrite <- lagrange, U. field. auto.
Qed.

Lemma refract_normal_pos u0 r mu : dot u0 u0 = 1 -> r <> v0 -> 0 < mu ->
  (mu ^ 2 * dot (cross u0 r) (cross u0 r) <= dot r r ->
   exists q, 0 <= q /\ q * q = (dot r r - mu ^ 2 * dot (cross u0 r) (cross u0 r)) / (dot r r * dot r r) /\
   refract_normal u0 r mu =
     Some (vadd3 (vmul3 mu u0) (vmul3 (- (mu * dot u0 r / dot r r) + q) r))) /\
  (dot r r < mu ^ 2 * dot (cross u0 r) (cross u0 r) -> refract_normal u0 r mu = None).
Proof.
  intros U N M.
  assert (R2 : 0 < dot r r).
  { pose proof (dot_nonneg r). destruct (Req_EM_T (dot r r) 0) as [Z|Z]; [|lra].
    apply dot_zero in Z. contradiction. }
  pose proof (refract_disc u0 r mu U ltac:(lra) M) as D.
  unfold refract_normal. rewrite Rabs_right by lra. rewrite !fdiv_some by lra. cbn [obind].
  destruct (Req_EM_T mu (-1)); [lra|]. cbn [obind]. rewrite D.
  assert (RR : 0 < dot r r * dot r r) by (apply Rmult_lt_0_compat; auto).
  assert (SG : sign mu = 1) by (unfold sign; destruct (Rlt_dec 0 mu); [auto|contradiction]).
  rewrite SG.
  split; intros H.
  - assert (P : 0 <= (dot r r - mu ^ 2 * dot (cross u0 r) (cross u0 r)) / (dot r r * dot r r)).
    { apply Rmult_le_pos; [lra|]. apply Rlt_le, Rinv_0_lt_compat; auto. }
    exists (sqrt ((dot r r - mu ^ 2 * dot (cross u0 r) (cross u0 r)) / (dot r r * dot r r))).
    split; [apply sqrt_pos|]. split; [apply sqrt_sqrt; auto|].
    rewrite fsqrt_some by auto. cbn [obind]. rewrite Rmult_1_l. reflexivity.
  - rewrite fsqrt_none; [reflexivity|].
    apply (Rmult_lt_reg_r (dot r r * dot r r)); auto. unfold Rdiv. rewrite Rmult_assoc, Rinv_l by lra. lra.
Qed.

Lemma cross_self_lin a b u r : cross (vadd3 (vmul3 a u) (vmul3 b r)) r = vmul3 a (cross u r).
Proof. vec_ring. Qed.
Lemma triple_lin a b u r : dot (cross u r) (vadd3 (vmul3 a u) (vmul3 b r)) = 0.
Proof. vec_ring. Qed.
Lemma dot_lin a b u r : dot (vadd3 (vmul3 a u) (vmul3 b r)) r = a * dot u r + b * dot r r.
Proof. vec_ring. Qed.
Lemma norm_lin a b u r : dot (vadd3 (vmul3 a u) (vmul3 b r)) (vadd3 (vmul3 a u) (vmul3 b r)) =
  a * a * dot u u + 2 * a * b * dot u r + b * b * dot r r.
Proof. vec_ring. Qed.

Lemma refracted_unit u0 r mu q : dot u0 u0 = 1 -> dot r r <> 0 ->
  q * q = (dot r r - mu ^ 2 * dot (cross u0 r) (cross u0 r)) / (dot r r * dot r r) ->
  let u := vadd3 (vmul3 mu u0) (vmul3 (- (mu * dot u0 r / dot r r) + q) r) in
  dot u u = 1 /\ dot u r = q * dot r r.
Proof.
  intros U N Q u. unfold u. rewrite <- lagrange, U in Q. rewrite norm_lin, dot_lin, U. split.
  - transitivity (mu * mu - mu * mu * (dot u0 r * dot u0 r) / dot r r + q * q * dot r r); [field; auto|].
    rewrite Q. field. auto.
  - field. auto.
Qed.

(** ** conic intersection *)
(** quadric of the conic surface (specification) *)
Definition quadric (c k : R) (p : vec) : R :=
  c * (vx p * vx p + vy p * vy p + (1 + k) * (vz p * vz p)) - 2 * vz p.

Definition qd (c k : R) (y u : vec) := c * (vx u * vx y + vy u * vy y + (1 + k) * (vz u * vz y)) - vz u.
Definition qe (c k : R) (u : vec) := c * (vx u * vx u + vy u * vy u + (1 + k) * (vz u * vz u)).

Lemma quadric_ray c k y u s : quadric c k (at_ray y u s) =
  qe c k u * (s * s) + 2 * qd c k y u * s + quadric c k y.
Proof. unfold quadric, qe, qd, at_ray. vec_ring. Qed.

Lemma conic_intercept_eq s y u : s_c s <> 0 -> (s_k s = 0 -> dot u u = 1) ->
  conic_intercept s y u =
  (do g <- fsqrt (qd (s_c s) (s_k s) y u * qd (s_c s) (s_k s) y u - qe (s_c s) (s_k s) u * quadric (s_c s) (s_k s) y);
   fdiv (- (qd (s_c s) (s_k s) y u + (if s_alt s then g * -1 else g))) (qe (s_c s) (s_k s) u)).
Proof.
  intros C U. unfold conic_intercept. destruct (Req_EM_T (s_c s) 0); [contradiction|].
  destruct (Req_EM_T (s_k s) 0) as [K|K].
  - assert (D : s_c s * dot u y - vz u = qd (s_c s) (s_k s) y u) by (unfold qd, dot; rewrite K; ring).
    assert (E : s_c s * 1 = qe (s_c s) (s_k s) u).
    { rewrite <- (U K). unfold qe, dot. rewrite K. ring. }
    assert (F : s_c s * dot y y - 2 * vz y = quadric (s_c s) (s_k s) y) by (unfold quadric, dot; rewrite K; ring).
    rewrite D, E, F. reflexivity.
  - match goal with |- obind (fsqrt (?a*?a - ?b*?c)) _ = _ =>
      replace a with (qd (s_c s) (s_k s) y u) by (unfold qd; ring);
      replace b with (qe (s_c s) (s_k s) u) by (unfold qe; ring);
      replace c with (quadric (s_c s) (s_k s) y) by (unfold quadric; ring) end. reflexivity.
Qed.

Lemma conic_on_quadric s y u t : s_c s <> 0 -> (s_k s = 0 -> dot u u = 1) ->
  conic_intercept s y u = Some t -> quadric (s_c s) (s_k s) (at_ray y u t) = 0.
Proof.
  intros C U. rewrite conic_intercept_eq by auto.
  set (d := qd _ _ y u). set (e := qe _ _ u). set (f := quadric _ _ y).
  destruct (fsqrt (d * d - e * f)) as [g|] eqn:G; cbn [obind]; [|discriminate].
  apply fsqrt_inv in G. destruct G as (G1 & G2 & G3). intros H.
  apply fdiv_inv in H. destruct H as (E & ->).
  rewrite quadric_ray. fold d e f.
  destruct (s_alt s).
  - transitivity ((g * g - (d * d - e * f)) / e); [field; auto|]. rewrite G3. field; auto.
  - transitivity ((g * g - (d * d - e * f)) / e); [field; auto|]. rewrite G3. field; auto.
Qed.

(** on the sheet of the sag the square root is 1 - (1+k) c z *)
Lemma sheet_root s p : s_c s <> 0 -> s_asph s = None -> surface_sag s p = Some 0 ->
  0 <= 1 - (1 + s_k s) * s_c s ^ 2 * r2_of p /\
  sqrt (1 - (1 + s_k s) * s_c s ^ 2 * r2_of p) = 1 - (1 + s_k s) * s_c s * vz p /\
  vz p * (1 + sqrt (1 - (1 + s_k s) * s_c s ^ 2 * r2_of p)) = s_c s * r2_of p /\
  quadric (s_c s) (s_k s) p = 0.
Proof.
  intros C A. unfold surface_sag. rewrite A. destruct (Req_EM_T (s_c s) 0); [contradiction|].
  destruct (fsqrt _) as [w|] eqn:W; cbn [obind]; [|discriminate].
  pose proof W as W'. apply fsqrt_inv in W. destruct W as (W1 & W2 & W3).
  assert (WS : w = sqrt (1 - (1 + s_k s) * s_c s ^ 2 * r2_of p)).
  { unfold fsqrt in W'. destruct (Rle_dec _ _); congruence. }
  rewrite fdiv_some by lra. cbn [obind]. intros H. injection H as H.
  assert (Z : vz p * (1 + w) = s_c s * r2_of p).
  { assert (vz p = s_c s * r2_of p / (1 + w)) by lra. rewrite H0. field. lra. }
  split; [auto|]. rewrite <- WS.
  assert (E : w = 1 - (1 + s_k s) * s_c s * vz p).
  { apply (Rmult_eq_reg_r (1 + w)); [|lra].
    transitivity (1 + w - (1 + s_k s) * s_c s * (vz p * (1 + w))); [|ring].
    rewrite Z. transitivity (w + w * w); [ring|]. rewrite W3. ring. }
  split; [auto|]. split; [auto|].
  unfold quadric. unfold r2_of in *.
  transitivity (s_c s * (vx p * vx p + vy p * vy p) - vz p * (2 - (1 + s_k s) * s_c s * vz p)); [ring|].
  rewrite <- Z, E. ring.
Qed.

(** conversely a point of the quadric on the near side is on the sheet *)
Lemma sheet_of_quadric s p : s_asph s = None -> s_c s <> 0 ->
  quadric (s_c s) (s_k s) p = 0 -> 0 <= 1 - (1 + s_k s) * s_c s * vz p -> surface_sag s p = Some 0.
Proof.
  intros A C Q W. unfold surface_sag. rewrite A. destruct (Req_EM_T (s_c s) 0); [contradiction|].
  assert (E : 1 - (1 + s_k s) * s_c s ^ 2 * r2_of p =
    (1 - (1 + s_k s) * s_c s * vz p) * (1 - (1 + s_k s) * s_c s * vz p)).
  { unfold quadric in Q. unfold r2_of.
    transitivity (1 - (1 + s_k s) * s_c s * (s_c s * (vx p * vx p + vy p * vy p))); [ring|].
    replace (s_c s * (vx p * vx p + vy p * vy p)) with (2 * vz p - s_c s * (1 + s_k s) * (vz p * vz p)) by lra.
    ring. }
  rewrite E, fsqrt_some by (apply Rle_0_sqr). rewrite sqrt_square by auto. cbn [obind].
  rewrite fdiv_some by lra. cbn [obind]. f_equal.
  assert (s_c s * r2_of p = vz p * (1 + (1 - (1 + s_k s) * s_c s * vz p))).
  { unfold quadric in Q. unfold r2_of. lra. }
  rewrite H. field. lra.
Qed.

Lemma conic_normal s p : s_c s <> 0 -> s_asph s = None -> forall n, surface_normal s p = Some n ->
  let w := sqrt (1 - (1 + s_k s) * s_c s ^ 2 * r2_of p) in
  0 < w /\ n = V (- s_c s * vx p / w) (- s_c s * vy p / w) 1.
Proof.
  intros C A n. unfold surface_normal. rewrite A. destruct (Req_EM_T (s_c s) 0); [contradiction|].
  destruct (fsqrt _) as [w|] eqn:W; cbn [obind]; [|discriminate].
  pose proof W as W'. apply fsqrt_inv in W. destruct W as (W1 & W2 & W3).
  assert (WS : w = sqrt (1 - (1 + s_k s) * s_c s ^ 2 * r2_of p)).
  { unfold fsqrt in W'. destruct (Rle_dec _ _); congruence. }
  destruct (fdiv (s_c s) w) as [q|] eqn:Q; cbn [obind]; [|discriminate].
  apply fdiv_inv in Q. destruct Q as (Q1 & ->). intros H. injection H as <-.
  rewrite <- WS. split; [lra|]. apply vec_eq; cbn [vx vy vz]; field; auto.
Qed.

(** slope of the quadric along the ray at a sheet point *)
Lemma sheet_slope s y u t n : s_c s <> 0 -> s_asph s = None ->
  surface_sag s (at_ray y u t) = Some 0 -> surface_normal s (at_ray y u t) = Some n ->
  exists w, 0 < w /\ qe (s_c s) (s_k s) u * t + qd (s_c s) (s_k s) y u = - w * dot u n.
Proof.
  intros C A S N. destruct (sheet_root _ _ C A S) as (_ & W & _ & Q).
  destruct (conic_normal _ _ C A _ N) as (WP & ->). rewrite W in *.
  exists (1 - (1 + s_k s) * s_c s * vz (at_ray y u t)). split; [auto|].
  unfold qe, qd, dot, at_ray, vadd3, vmul3 in *. cbn [vx vy vz] in *. field. lra.
Qed.

Lemma conic_finds_sheet s y u t n : s_c s <> 0 -> s_asph s = None -> (s_k s = 0 -> dot u u = 1) ->
  qe (s_c s) (s_k s) u <> 0 ->
  surface_sag s (at_ray y u t) = Some 0 -> surface_normal s (at_ray y u t) = Some n ->
  (if s_alt s then dot u n <= 0 else 0 <= dot u n) ->
  conic_intercept s y u = Some t.
Proof.
  intros C A U E S N DN. rewrite conic_intercept_eq by auto.
  destruct (sheet_slope s y u t n C A S N) as (w & W & SL).
  destruct (sheet_root _ _ C A S) as (_ & _ & _ & Q). rewrite quadric_ray in Q.
  set (d := qd _ _ y u) in *. set (e := qe _ _ u) in *. set (f := quadric _ _ y) in *.
  assert (D : d * d - e * f = (e * t + d) * (e * t + d)).
  { transitivity (d * d - e * f + e * (e * (t * t) + 2 * d * t + f)); [rewrite Q; ring|ring]. }
  rewrite D. rewrite fsqrt_some by apply Rle_0_sqr. cbn [obind].
  change ((e * t + d) * (e * t + d)) with (Rsqr (e * t + d)). rewrite sqrt_Rsqr_abs, SL.
  assert (AB : (if s_alt s then Rabs (- w * dot u n) * -1 else Rabs (- w * dot u n)) = w * dot u n).
  { destruct (s_alt s).
    - rewrite Rabs_right by nra. ring.
    - rewrite Rabs_left1 by nra. ring. }
  rewrite AB, fdiv_some by auto. f_equal.
  replace (w * dot u n) with (- (e * t + d)) by (rewrite SL; ring). field. auto.
Qed.

Lemma conic_none s y u : s_c s <> 0 -> (s_k s = 0 -> dot u u = 1) -> qe (s_c s) (s_k s) u <> 0 ->
  (conic_intercept s y u = None <-> forall t, quadric (s_c s) (s_k s) (at_ray y u t) <> 0).
Proof.
  intros C U E. split.
  - intros H t Q. rewrite conic_intercept_eq in H by auto. rewrite quadric_ray in Q.
    set (d := qd _ _ y u) in *. set (e := qe _ _ u) in *. set (f := quadric _ _ y) in *.
    assert (D : d * d - e * f = (e * t + d) * (e * t + d)).
    { transitivity (d * d - e * f + e * (e * (t * t) + 2 * d * t + f)); [rewrite Q; ring|ring]. }
    rewrite D in H. rewrite fsqrt_some in H by apply Rle_0_sqr. cbn [obind] in H.
    rewrite fdiv_some in H by auto. discriminate.
  - intros H. destruct (conic_intercept s y u) as [t|] eqn:I; auto.
    exfalso. apply (H t). apply conic_on_quadric; auto.
Qed.

(** which sheet the returned point is on *)
Lemma conic_found_slope s y u t : s_c s <> 0 -> (s_k s = 0 -> dot u u = 1) ->
  conic_intercept s y u = Some t ->
  (if s_alt s then 0 <= qe (s_c s) (s_k s) u * t + qd (s_c s) (s_k s) y u
   else qe (s_c s) (s_k s) u * t + qd (s_c s) (s_k s) y u <= 0).
Proof.
  intros C U. rewrite conic_intercept_eq by auto.
  set (d := qd _ _ y u). set (e := qe _ _ u). set (f := quadric _ _ y).
  destruct (fsqrt (d * d - e * f)) as [g|] eqn:G; cbn [obind]; [|discriminate].
  apply fsqrt_inv in G. destruct G as (G1 & G2 & G3). intros H.
  apply fdiv_inv in H. destruct H as (E & ->). destruct (s_alt s).
  - replace (e * (- (d + g * -1) / e) + d) with g by (field; auto). auto.
  - replace (e * (- (d + g) / e) + d) with (- g) by (field; auto). lra.
Qed.

(** ** the normal is the gradient *)
Lemma asph_sag_sum l r2 : asph_sag l r2 =
  fold_right (fun ai d => (d + ai) * r2) 0 l.
Proof. unfold asph_sag. rewrite <- fold_left_rev_right, rev_involutive. reflexivity. Qed.

(** specification: sum a_i r2^(j+1), j from [j] *)
Fixpoint even_poly (j : nat) (l : list R) (r2 : R) : R :=
  match l with [] => 0 | a :: l => a * r2 ^ (j + 1) + even_poly (S j) l r2 end.
Fixpoint even_slope (j : nat) (l : list R) (r2 : R) : R :=
  match l with [] => 0 | a :: l => 2 * (INR j + 1) * a * r2 ^ j + even_slope (S j) l r2 end.

Lemma even_poly_shift l : forall j r2, even_poly (S j) l r2 = r2 * even_poly j l r2.
Proof.
  induction l as [|a l IH]; intros; cbn [even_poly]; [ring|].
  rewrite IH. replace (S j + 1)%nat with (S (j + 1)) by lia. cbn [pow]. ring.
Qed.
Lemma asph_sag_spec l r2 : asph_sag l r2 = even_poly 0 l r2.
Proof.
  rewrite asph_sag_sum. induction l as [|a l IH]; cbn [fold_right even_poly]; [reflexivity|].
  rewrite even_poly_shift, <- IH. cbn [Nat.add pow]. ring.
Qed.

Lemma asph_slope_fr l r2 : asph_slope l r2 =
  fold_right (fun '(i, ai) d => d * r2 + 2 * (INR i + 1) * ai) 0 (combine (seq 0 (length l)) l).
Proof.
  unfold asph_slope. rewrite <- fold_left_rev_right, rev_involutive.
  induction (combine (seq 0 (length l)) l) as [|[i a] x IH]; cbn; [reflexivity|]. rewrite IH. reflexivity.
Qed.
Lemma asph_slope_spec_gen l : forall j r2,
  r2 ^ j * fold_right (fun '(i, ai) d => d * r2 + 2 * (INR i + 1) * ai) 0 (combine (seq j (length l)) l)
  = even_slope j l r2.
Proof.
  induction l as [|a l IH]; intros j r2; cbn [length seq combine fold_right even_slope]; [ring|].
  rewrite <- IH. cbn [pow]. ring.
Qed.
Lemma asph_slope_spec l r2 : asph_slope l r2 = even_slope 0 l r2.
Proof. rewrite asph_slope_fr, <- asph_slope_spec_gen. cbn [pow]. ring. Qed.

(** sag as a real function, sum form (specification) *)
Definition sag_spec (s : surf) (p : vec) : R :=
  vz p - s_c s * r2_of p / (1 + sqrt (1 - (1 + s_k s) * s_c s ^ 2 * r2_of p))
  - match s_asph s with None => 0 | Some l => even_poly 0 l (r2_of p) end.

Lemma surface_sag_spec s p : 0 <= 1 - (1 + s_k s) * s_c s ^ 2 * r2_of p ->
  surface_sag s p = Some (sag_spec s p).
Proof.
  intros H. unfold surface_sag, sag_spec. pose proof (sqrt_pos (1 - (1 + s_k s) * s_c s ^ 2 * r2_of p)) as P.
  destruct (Req_EM_T (s_c s) 0) as [C|C].
  - rewrite C. destruct (s_asph s); rewrite ?asph_sag_spec; f_equal; unfold Rdiv; ring.
  - rewrite fsqrt_some by auto. cbn [obind]. rewrite fdiv_some by lra. cbn [obind].
    destruct (s_asph s); rewrite ?asph_sag_spec; f_equal; ring.
Qed.

Lemma surface_normal_spec s p : 0 < 1 - (1 + s_k s) * s_c s ^ 2 * r2_of p ->
  surface_normal s p = Some (
    let e := - s_c s / sqrt (1 - (1 + s_k s) * s_c s ^ 2 * r2_of p)
      - match s_asph s with None => 0 | Some l => even_slope 0 l (r2_of p) end in
    V (vx p * e) (vy p * e) 1).
Proof.
  intros H. unfold surface_normal. pose proof (sqrt_lt_R0 _ H) as P.
  destruct (Req_EM_T (s_c s) 0) as [C|C].
  - rewrite C. destruct (s_asph s); rewrite ?asph_slope_spec; cbv zeta; do 2 f_equal; unfold Rdiv; ring.
  - rewrite fsqrt_some by lra. cbn [obind]. rewrite fdiv_some by lra. cbn [obind].
    destruct (s_asph s); rewrite ?asph_slope_spec; cbv zeta; do 2 f_equal; f_equal; field; lra.
Qed.

Lemma deriv_even l : forall j x, derivable_pt_lim (even_poly j l) x (even_slope j l x / 2).
Proof.
  induction l as [|a l IH]; intros j x; cbn [even_poly even_slope].
  - replace (0 / 2) with 0 by field. apply derivable_pt_lim_const.
  - replace ((2 * (INR j + 1) * a * x ^ j + even_slope (S j) l x) / 2)
      with (a * (INR (j + 1) * x ^ pred (j + 1)) + even_slope (S j) l x / 2).
    2:{ rewrite plus_INR. cbn [INR]. replace (pred (j + 1)) with j by lia. field. }
    apply (derivable_pt_lim_plus (fun x => a * x ^ (j + 1))); [|apply IH].
    apply (derivable_pt_lim_scal (fun x => x ^ (j + 1))). apply derivable_pt_lim_pow.
Qed.

Lemma deriv_conic c k x : 0 < 1 - (1 + k) * c ^ 2 * x ->
  derivable_pt_lim (fun x => c * x / (1 + sqrt (1 - (1 + k) * c ^ 2 * x))) x
    (c / sqrt (1 - (1 + k) * c ^ 2 * x) / 2).
Proof.
  intros H. pose proof (sqrt_lt_R0 _ H) as P. pose proof (sqrt_sqrt _ (Rlt_le _ _ H)) as Q.
  set (w := sqrt (1 - (1 + k) * c ^ 2 * x)) in *.
  assert (D1 : derivable_pt_lim (fun x => 1 - (1 + k) * c ^ 2 * x) x (- ((1 + k) * c ^ 2))).
  { replace (- ((1 + k) * c ^ 2)) with (0 - (1 + k) * c ^ 2 * 1) by ring.
    apply (derivable_pt_lim_minus (fun _ => 1) (fun x => (1 + k) * c ^ 2 * x)).
    - apply derivable_pt_lim_const.
    - apply (derivable_pt_lim_scal (fun x => x)). apply derivable_pt_lim_id. }
  assert (D2 : derivable_pt_lim (fun x => 1 + sqrt (1 - (1 + k) * c ^ 2 * x)) x
     (0 + / (2 * w) * (- ((1 + k) * c ^ 2)))).
  { apply (derivable_pt_lim_plus (fun _ => 1) (fun x => sqrt (1 - (1 + k) * c ^ 2 * x))).
    - apply derivable_pt_lim_const.
    - apply (derivable_pt_lim_comp (fun x => 1 - (1 + k) * c ^ 2 * x) sqrt); auto.
      apply derivable_pt_lim_sqrt; auto. }
  assert (D3 : derivable_pt_lim (fun x => c * x) x (c * 1)).
  { apply (derivable_pt_lim_scal (fun x => x)). apply derivable_pt_lim_id. }
  pose proof (derivable_pt_lim_div _ _ x _ _ D3 D2) as D. cbv beta in D. fold w in D.
  assert (W1 : 1 + w <> 0) by lra. specialize (D W1).
  match type of D with derivable_pt_lim _ _ ?l => replace (c / w / 2) with l; [exact D|] end.
  assert (E : (1 + k) * c ^ 2 * x = 1 - w * w) by lra.
  unfold Rsqr.
  transitivity ((c * (1 + w) + c * ((1 + k) * c ^ 2 * x) / (2 * w)) / ((1 + w) * (1 + w))); [field; lra|].
  rewrite E. field. lra.
Qed.

Lemma sag_gradient s p v : 0 < 1 - (1 + s_k s) * s_c s ^ 2 * r2_of p ->
  exists n, surface_normal s p = Some n /\
  derivable_pt_lim (fun t => sag_spec s (vadd3 p (vmul3 t v))) 0 (dot n v).
Proof.
  intros H. rewrite (surface_normal_spec s p H). eexists; split; [reflexivity|]. cbv zeta.
  set (rr := fun t => r2_of (vadd3 p (vmul3 t v))).
  assert (R0 : rr 0 = r2_of p) by (unfold rr, r2_of, vadd3, vmul3; cbn [vx vy vz]; ring).
  set (dr := 2 * (vx p * vx v + vy p * vy v)).
  assert (DR : derivable_pt_lim rr 0 dr).
  { apply (derivable_pt_lim_ext (fun t => r2_of p + dr * t + r2_of v * (t * t))).
    { intros t. unfold rr, dr, r2_of, vadd3, vmul3; cbn [vx vy vz]. ring. }
    enough (K : derivable_pt_lim (fun t => r2_of p + dr * t + r2_of v * (t * t)) 0 (0 + dr * 1 + r2_of v * (1 * 0 + 0 * 1))).
    { replace (0 + dr * 1 + r2_of v * (1 * 0 + 0 * 1)) with dr in K by ring. exact K. }
    apply (derivable_pt_lim_plus (fun t => r2_of p + dr * t) (fun t => r2_of v * (t * t))).
    - apply (derivable_pt_lim_plus (fun t => r2_of p) (fun t => dr * t)).
      + apply derivable_pt_lim_const.
      + apply (derivable_pt_lim_scal (fun t => t)), derivable_pt_lim_id.
    - apply (derivable_pt_lim_scal (fun t => t * t)).
      apply (derivable_pt_lim_mult (fun t => t) (fun t => t)); apply derivable_pt_lim_id. }
  assert (DZ : derivable_pt_lim (fun t => vz (vadd3 p (vmul3 t v))) 0 (vz v)).
  { unfold vadd3, vmul3; cbn [vz].
    enough (K : derivable_pt_lim (fun t => vz p + t * vz v) 0 (0 + (1 * vz v + 0 * 0))).
    { replace (0 + (1 * vz v + 0 * 0)) with (vz v) in K by ring. exact K. }
    apply (derivable_pt_lim_plus (fun _ => vz p) (fun t => t * vz v)); [apply derivable_pt_lim_const|].
    apply (derivable_pt_lim_mult (fun t => t) (fun _ => vz v));
    [apply derivable_pt_lim_id|apply derivable_pt_lim_const]. }
  assert (DC : derivable_pt_lim (fun t => s_c s * rr t / (1 + sqrt (1 - (1 + s_k s) * s_c s ^ 2 * rr t))) 0
     (s_c s / sqrt (1 - (1 + s_k s) * s_c s ^ 2 * rr 0) / 2 * dr)).
  { apply (derivable_pt_lim_comp rr (fun x => s_c s * x / (1 + sqrt (1 - (1 + s_k s) * s_c s ^ 2 * x)))); auto.
    apply deriv_conic. rewrite R0. auto. }
  assert (DA : derivable_pt_lim (fun t => match s_asph s with None => 0 | Some l => even_poly 0 l (rr t) end) 0
     (match s_asph s with None => 0 | Some l => even_slope 0 l (rr 0) / 2 * dr end)).
  { destruct (s_asph s) as [l|].
    - apply (derivable_pt_lim_comp rr (even_poly 0 l)); auto. apply deriv_even.
    - apply derivable_pt_lim_const. }
  pose proof (derivable_pt_lim_minus _ _ _ _ _ (derivable_pt_lim_minus _ _ _ _ _ DZ DC) DA) as D.
  cbv beta in D. rewrite R0 in D. unfold minus_fct in D.
  match type of D with derivable_pt_lim _ _ ?l =>
    match goal with |- derivable_pt_lim _ _ ?m => replace m with l end end.
  - exact D.
  - unfold dot, dr. cbn [vx vy vz]. pose proof (sqrt_lt_R0 _ H). destruct (s_asph s); unfold Rdiv; field; lra.
Qed.
