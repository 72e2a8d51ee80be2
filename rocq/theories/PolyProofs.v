(** The polynomial trace through refracting spheres: exact counterpart of one step, its Taylor
    coefficients, and its relation to the geometric trace. *)
From Coq Require Import Reals List Arith ZArith Lia Lra Psatz.
From Verif Require Import Base Vec RotModel PlacementModel ElementModel SimplexModel SimplexPowModel PolyModel TaylorProofs.
Import ListNotations.
Open Scope R_scope.

(** * exact counterpart *)
Record xst := XS { x_f : R; x_n : R; x_r : R; x_p : R; x_k : R; x_s : R; x_t : R; x_v : R; x_w : R; x_o : R }.
(** intermediate quantities of a step: sag, slope factor and normal of the sphere *)
Definition xfd (off : R) (X : xst) := off - x_f X.
Definition xkt off X := x_k X + xfd off X * x_p X.
Definition xrt off X := x_r X + xfd off X * (2 * x_k X + xfd off X * x_p X).
Definition xdisc (c off : R) X := (1 - c * xkt off X) * (1 - c * xkt off X) - c ^ 2 * ((x_p X + 1) * xrt off X).
Definition xa c off X := (1 - c * xkt off X - sqrt (xdisc c off X)) * / (x_p X + 1).
Definition xf c off X := if Req_EM_T c 0 then 0 else xa c off X / c.
Definition xg c off X := if Req_EM_T c 0 then 1 else 1 - xa c off X.
Definition xfr c off X := if Req_EM_T c 0 then 0 else / 2 * c * / xg c off X.
Definition xmun (mu : R) X := mu * / sqrt (x_p X + 1).
Definition xct c off mu X := xg c off X * xmun mu X * (-2 * (xkt off X + xf c off X * x_p X) * xfr c off X + 1).
Definition xrad c off mu X := xct c off mu X * xct c off mu X + (1 - mu ^ 2).
Definition xgd c off mu X := xg c off X * (sqrt (xrad c off mu X) - xct c off mu X).
Definition xn1 c off mu X := xmun mu X + xgd c off mu X.
Definition xnext (c off mu n : R) (X : xst) : xst :=
  let a := xf c off X + xfd off X in
  let i := / xn1 c off mu X in
  let b := -2 * i * xgd c off mu X * xfr c off X in
  let cc := xmun mu X * i in
  let r := x_r X + a * (2 * x_k X + a * x_p X) in
  let s := x_s X + a * x_v X in
  let t := x_t X + a * x_w X in
  XS (xf c off X) n r (i * i + -1) (b * r + cc * (x_k X + a * x_p X)) s t (b * s + cc * x_v X) (b * t + cc * x_w X)
     (x_o X + x_n X * a * sqrt (x_p X + 1)).
(** the ray exists and does not run backwards *)
Definition xgood (c off mu : R) (X : xst) : Prop :=
  0 < xdisc c off X /\ 0 < xg c off X /\ 0 < xct c off mu X /\ 0 < xrad c off mu X /\ 0 < xn1 c off mu X.

(** * geometry of a step *)
(** the ray ([y], [u]) is the one with transverse position s X + t A and slopes v X + w A *)
Definition carries (X1 X2 A1 A2 : R) (X : xst) (y u : vec) : Prop :=
  y = V (x_s X * X1 + x_t X * A1) (x_s X * X2 + x_t X * A2) (x_f X) /\
  u = V ((x_v X * X1 + x_w X * A1) / sqrt (x_p X + 1)) ((x_v X * X2 + x_w X * A2) / sqrt (x_p X + 1)) (1 / sqrt (x_p X + 1)) /\
  x_r X = (x_s X * X1 + x_t X * A1) ^ 2 + (x_s X * X2 + x_t X * A2) ^ 2 /\
  x_p X = (x_v X * X1 + x_w X * A1) ^ 2 + (x_v X * X2 + x_w X * A2) ^ 2 /\
  x_k X = (x_s X * X1 + x_t X * A1) * (x_v X * X1 + x_w X * A1) + (x_s X * X2 + x_t X * A2) * (x_v X * X2 + x_w X * A2).

Lemma vec_eq a b : vx a = vx b -> vy a = vy b -> vz a = vz b -> a = b.
Proof. destruct a, b. cbn. intros -> -> ->. auto. Qed.

(** what one step does to a ray given by position P and slopes W *)
Lemma disc_eq c fd r p k : (1 - c * (k + fd * p)) * (1 - c * (k + fd * p)) - c ^ 2 * ((p + 1) * (r + fd * (2 * k + fd * p)))
  = (1 - c * (k - fd)) ^ 2 - c * (c * (r + fd ^ 2) + 2 * fd) * (1 + p).
Proof. ring. Qed.

Section Step.
Variables (P1 P2 W1 W2 f off c : R).
Let p := W1 ^ 2 + W2 ^ 2.
Let r := P1 ^ 2 + P2 ^ 2.
Let k := P1 * W1 + P2 * W2.
Variables (s t v w o n0 : R).
Let X := XS f n0 r p k s t v w o.
Let q := sqrt (p + 1).
Let a := xf c off X + xfd off X.
Lemma q_sq : q * q = p + 1.
Proof. unfold q. apply sqrt_sqrt. unfold p. nra. Qed.
Lemma q_pos : 0 < q.
Proof. unfold q. apply sqrt_lt_R0. unfold p. nra. Qed.
Definition ray_u : vec := V (W1 / q) (W2 / q) (1 / q).
Definition ray_y : vec := V P1 P2 (f - off).
Lemma step_intercept alt : alt = false -> 0 < xdisc c off X -> conic_intercept (Surf c 0 None alt) ray_y ray_u = Some (a * q).
Proof.
  intros -> D. pose proof q_pos as Q. pose proof q_sq as QQ. unfold conic_intercept. cbn [s_c s_k s_alt]. unfold a, xf. destruct (Req_EM_T c 0) as [Z|Z].
  - unfold ray_y, ray_u, xfd. cbn [vz x_f X]. rewrite fdiv_some by (apply Rgt_not_eq, Rdiv_lt_0_compat; lra). f_equal. field. lra.
  - destruct (Req_EM_T 0 0); [|lra]. cbn zeta iota beta.
    set (d := c * dot ray_u ray_y - vz ray_u). set (F := c * dot ray_y ray_y - 2 * vz ray_y).
    assert (Ed : d = (c * (k - xfd off X) - 1) / q) by (unfold d, ray_u, ray_y, dot, xfd, k; cbn; field; lra).
    assert (EF : F = c * (r + xfd off X ^ 2) + 2 * xfd off X) by (unfold F, ray_y, dot, xfd, r; cbn; ring).
    assert (G : d * d - c * 1 * F = xdisc c off X / (q * q)).
    { unfold xdisc, xkt, xrt. cbn [x_r x_p x_k X]. fold p r k. rewrite disc_eq. rewrite Ed, EF. replace (1 + p) with (q * q) by (rewrite QQ; ring). field. lra. }
    rewrite G. assert (QQ0 : 0 < q * q) by nra. rewrite fsqrt_some by (apply Rlt_le, Rdiv_lt_0_compat; lra). cbn [obind]. rewrite sqrt_div by (lra). rewrite sqrt_square by lra.
    rewrite fdiv_some by lra. f_equal. rewrite Ed. unfold xa, xkt. cbn [x_p x_k X]. fold p k. rewrite <- QQ.
    set (w' := sqrt (xdisc c off X)). field_simplify; [|lra|lra]. replace p with (q * q - 1) by lra. field. lra.
Qed.
Lemma step_sphere : 0 < xdisc c off X -> c * ((P1 + a * W1) ^ 2 + (P2 + a * W2) ^ 2 + xf c off X ^ 2) = 2 * xf c off X.
Proof.
  intros D. pose proof q_pos as Q. pose proof q_sq as QQ. unfold a, xf. destruct (Req_EM_T c 0) as [Z|Z]; [rewrite Z; ring|].
  assert (E : (P1 + (xa c off X / c + xfd off X) * W1) ^ 2 + (P2 + (xa c off X / c + xfd off X) * W2) ^ 2 = xrt off X + 2 * (xa c off X / c) * xkt off X + (xa c off X / c) ^ 2 * p) by (unfold xrt, xkt; cbn [x_r x_p x_k X]; unfold r, p, k; ring).
  rewrite E. set (A := xa c off X) in *. assert (PP : 0 < p + 1) by (rewrite <- QQ; nra). assert (EA : (p + 1) * A = 1 - c * xkt off X - sqrt (xdisc c off X)) by (unfold A, xa; cbn [x_p X]; fold p; field; lra).
  assert (SD : sqrt (xdisc c off X) * sqrt (xdisc c off X) = xdisc c off X) by (apply sqrt_sqrt; lra). set (w' := sqrt (xdisc c off X)) in *. unfold xdisc in SD. cbn [x_p X] in SD. fold p in SD.
  assert (EW : w' = 1 - c * xkt off X - (p + 1) * A) by lra. rewrite EW in SD.
  apply Rmult_eq_reg_l with (c * (p + 1)); [|apply Rmult_integral_contrapositive; lra]. field_simplify; [|lra|lra]. nra.
Qed.
Let Q1 := P1 + a * W1.
Let Q2 := P2 + a * W2.
Let fr := xfr c off X.
Let g := xg c off X.
Lemma step_normal : 0 < xdisc c off X -> 0 < g -> surface_normal (Surf c 0 None false) (V Q1 Q2 (xf c off X)) = Some (V (-2 * fr * Q1) (-2 * fr * Q2) 1) /\ g * g * (4 * fr * fr * (Q1 ^ 2 + Q2 ^ 2) + 1) = 1.
Proof.
  intros D G. pose proof (step_sphere D) as S. fold Q1 Q2 in S. unfold surface_normal. cbn [s_c s_k s_asph]. unfold fr, xfr. destruct (Req_EM_T c 0) as [Z|Z].
  - split; [f_equal; apply vec_eq; cbn; ring|]. unfold g, xg. destruct (Req_EM_T c 0); [ring|contradiction].
  - fold g. assert (EG : g = 1 - c * xf c off X) by (unfold g, xg, xf; destruct (Req_EM_T c 0); [contradiction|field; auto]).
    assert (E : 1 - (1 + 0) * c ^ 2 * r2_of (V Q1 Q2 (xf c off X)) = g * g). { unfold r2_of. cbn [vx vy]. rewrite EG. transitivity (1 - c * (c * (Q1 ^ 2 + Q2 ^ 2 + xf c off X ^ 2)) + c ^ 2 * xf c off X ^ 2); [ring|]. rewrite S. ring. }
    rewrite E, fsqrt_some by nra. cbn [obind]. rewrite sqrt_square by lra. rewrite fdiv_some by lra. cbn [obind]. split.
    + f_equal. apply vec_eq; cbn; field; lra.
    + unfold r2_of in E. cbn [vx vy] in E. replace (g * g * (4 * (/ 2 * c * / g) * (/ 2 * c * / g) * (Q1 ^ 2 + Q2 ^ 2) + 1)) with (c ^ 2 * (Q1 ^ 2 + Q2 ^ 2) + g * g) by (field; lra). rewrite <- E. ring.
Qed.
Variable mu : R.
Let gd := xgd c off mu X.
Let n1 := xn1 c off mu X.
Let ct := xct c off mu X.
Definition next_b := -2 * / n1 * gd * fr.
Definition next_c := xmun mu X * / n1.
Lemma step_refract : 0 < mu -> xgood c off mu X -> refract (Surf c 0 None false) (Some (V Q1 Q2 (xf c off X))) (Some ray_u) mu =
  Some (V (n1 * (next_b * Q1 + next_c * W1)) (n1 * (next_b * Q2 + next_c * W2)) n1) /\
  (next_b * Q1 + next_c * W1) ^ 2 + (next_b * Q2 + next_c * W2) ^ 2 = / n1 * / n1 + -1.
Proof.
  intros Mu (D & G & CT & RD & N1). fold g in G. fold ct in CT. fold n1 in N1. destruct (step_normal D G) as [SN NN]. pose proof q_pos as Q. pose proof q_sq as QQ.
  assert (MUN : xmun mu X = mu / q) by reflexivity.
  assert (PW : xkt off X + xf c off X * p = Q1 * W1 + Q2 * W2) by (unfold xkt, Q1, Q2, a; cbn [x_k x_p X]; unfold k, p; ring).
  assert (ECT : ct = g * (mu / q) * (1 - 2 * fr * (Q1 * W1 + Q2 * W2))) by (unfold ct, xct; fold g; rewrite MUN; cbn [x_p X]; fold p; rewrite PW; fold fr; ring).
  assert (EN : n1 = mu / q + gd) by reflexivity.
  assert (EGD : gd = g * (sqrt (xrad c off mu X) - ct)) by reflexivity.
  set (W := sqrt (xrad c off mu X)) in *. assert (WW : W * W = ct * ct + (1 - mu ^ 2)) by (unfold W; rewrite sqrt_sqrt by lra; reflexivity).
  assert (W0 : 0 < W) by (apply sqrt_lt_R0; auto).
  assert (UX : forall Qi Wi, n1 * (next_b * Qi + next_c * Wi) = mu * (Wi / q) + gd * (-2 * fr * Qi)) by (intros Qi Wi; unfold next_b, next_c; rewrite MUN; field; lra).
  assert (UN : (mu * (W1 / q) + gd * (-2 * fr * Q1)) ^ 2 + (mu * (W2 / q) + gd * (-2 * fr * Q2)) ^ 2 + n1 ^ 2 = 1).
  { rewrite EN. transitivity (mu ^ 2 * ((p + 1) / (q * q)) + 2 * gd * (mu / q * (1 - 2 * fr * (Q1 * W1 + Q2 * W2))) + gd * gd * (4 * fr * fr * (Q1 ^ 2 + Q2 ^ 2) + 1)); [unfold p; field; lra|].
    rewrite <- QQ. replace (q * q / (q * q)) with 1 by (field; lra). assert (K1 : mu / q * (1 - 2 * fr * (Q1 * W1 + Q2 * W2)) = ct / g) by (rewrite ECT; field; lra). assert (K2 : 4 * fr * fr * (Q1 ^ 2 + Q2 ^ 2) + 1 = / (g * g)) by (apply Rmult_eq_reg_l with (g * g); [rewrite NN; field; lra|nra]). rewrite K1, K2, EGD.
    transitivity (mu ^ 2 + W * W - ct * ct); [field; lra|]. rewrite WW. ring. }
  split.
  - rewrite !UX. unfold refract. destruct (Req_EM_T mu 1) as [E1|E1].
    + assert (WC : W = ct) by (assert (H : W * W = ct * ct) by (rewrite WW, E1; ring); nra). assert (GZ : gd = 0) by (rewrite EGD, WC; ring). f_equal. unfold ray_u. rewrite EN, GZ, E1. apply vec_eq; cbn; lra.
    + cbn [obind]. rewrite SN. cbn [obind]. unfold refract_normal. set (N := V (-2 * fr * Q1) (-2 * fr * Q2) 1).
      assert (R2 : dot N N = / (g * g)) by (unfold N, dot; cbn; apply Rmult_eq_reg_l with (g * g); [rewrite Rinv_r by nra; etransitivity; [|exact NN]; ring|nra]).
      assert (UD : dot ray_u N = (1 - 2 * fr * (Q1 * W1 + Q2 * W2)) / q) by (unfold N, ray_u, dot; cbn; field; lra).
      rewrite R2, UD, Rabs_pos_eq by lra. assert (GG : 0 < / (g * g)) by (apply Rinv_0_lt_compat; nra). rewrite !fdiv_some by lra. cbn [obind]. destruct (Req_EM_T mu (-1)); [lra|].
      replace (mu * ((1 - 2 * fr * (Q1 * W1 + Q2 * W2)) / q) / / (g * g)) with (g * ct) by (rewrite ECT; field; split; lra). replace (g * ct * (g * ct) - (mu ^ 2 - 1) / / (g * g)) with ((g * W) * (g * W)) by (transitivity (g * g * (W * W)); [ring|rewrite WW; field; lra]).
      rewrite fsqrt_some by nra. cbn [obind]. rewrite sqrt_square by nra. unfold sign. destruct (Rlt_dec 0 mu); [|lra]. replace (- (g * ct) + 1 * (g * W)) with gd by (rewrite EGD; ring). f_equal. unfold N, ray_u. rewrite EN. apply vec_eq; cbn; field; lra.
  - apply Rmult_eq_reg_l with (n1 ^ 2); [|nra]. transitivity ((n1 * (next_b * Q1 + next_c * W1)) ^ 2 + (n1 * (next_b * Q2 + next_c * W2)) ^ 2); [ring|]. rewrite !UX. transitivity (1 - n1 ^ 2); [lra|]. field. lra.
Qed.
Lemma step_reflect : mu = -1 -> 0 < xdisc c off X /\ 0 < g /\ ct < 0 /\ 0 < xrad c off mu X /\ 0 < n1 -> refract (Surf c 0 None false) (Some (V Q1 Q2 (xf c off X))) (Some ray_u) mu =
  Some (vmul3 (-1) (V (n1 * (next_b * Q1 + next_c * W1)) (n1 * (next_b * Q2 + next_c * W2)) n1)) /\
  (next_b * Q1 + next_c * W1) ^ 2 + (next_b * Q2 + next_c * W2) ^ 2 = / n1 * / n1 + -1.
Proof.
  intros Em (D & G & CT & RD & N1). destruct (step_normal D G) as [SN NN]. pose proof q_pos as Q. pose proof q_sq as QQ.
  assert (MUN : xmun mu X = mu / q) by reflexivity.
  assert (PW : xkt off X + xf c off X * p = Q1 * W1 + Q2 * W2) by (unfold xkt, Q1, Q2, a; cbn [x_k x_p X]; unfold k, p; ring).
  assert (ECT : ct = g * (mu / q) * (1 - 2 * fr * (Q1 * W1 + Q2 * W2))) by (unfold ct, xct; fold g; rewrite MUN; cbn [x_p X]; fold p; rewrite PW; fold fr; ring).
  assert (EN : n1 = mu / q + gd) by reflexivity.
  assert (EGD : gd = g * (sqrt (xrad c off mu X) - ct)) by reflexivity.
  set (W := sqrt (xrad c off mu X)) in *. assert (WW : W * W = ct * ct + (1 - mu ^ 2)) by (unfold W; rewrite sqrt_sqrt by lra; reflexivity).
  assert (W0 : 0 < W) by (apply sqrt_lt_R0; auto).
  assert (UX : forall Qi Wi, n1 * (next_b * Qi + next_c * Wi) = mu * (Wi / q) + gd * (-2 * fr * Qi)) by (intros Qi Wi; unfold next_b, next_c; rewrite MUN; field; lra).
  assert (UN : (mu * (W1 / q) + gd * (-2 * fr * Q1)) ^ 2 + (mu * (W2 / q) + gd * (-2 * fr * Q2)) ^ 2 + n1 ^ 2 = 1).
  { rewrite EN. transitivity (mu ^ 2 * ((p + 1) / (q * q)) + 2 * gd * (mu / q * (1 - 2 * fr * (Q1 * W1 + Q2 * W2))) + gd * gd * (4 * fr * fr * (Q1 ^ 2 + Q2 ^ 2) + 1)); [unfold p; field; lra|].
    rewrite <- QQ. replace (q * q / (q * q)) with 1 by (field; lra). assert (K1 : mu / q * (1 - 2 * fr * (Q1 * W1 + Q2 * W2)) = ct / g) by (rewrite ECT; field; lra). assert (K2 : 4 * fr * fr * (Q1 ^ 2 + Q2 ^ 2) + 1 = / (g * g)) by (apply Rmult_eq_reg_l with (g * g); [rewrite NN; field; lra|nra]). rewrite K1, K2, EGD.
    transitivity (mu ^ 2 + W * W - ct * ct); [field; lra|]. rewrite WW. ring. }
  split.
  - rewrite !UX. unfold refract. destruct (Req_EM_T mu 1) as [E1|E1]; [lra|].
    assert (WC : W = - ct) by (assert (H : W * W = (- ct) * (- ct)) by (rewrite WW, Em; ring); nra). assert (GZ : gd = -2 * g * ct) by (rewrite EGD, WC; ring).
    cbn [obind]. rewrite SN. cbn [obind]. unfold refract_normal. set (N := V (-2 * fr * Q1) (-2 * fr * Q2) 1).
    assert (R2 : dot N N = / (g * g)) by (unfold N, dot; cbn; apply Rmult_eq_reg_l with (g * g); [rewrite Rinv_r by nra; etransitivity; [|exact NN]; ring|nra]).
    assert (UD : dot ray_u N = (1 - 2 * fr * (Q1 * W1 + Q2 * W2)) / q) by (unfold N, ray_u, dot; cbn; field; lra).
    assert (AM : Rabs mu = 1) by (rewrite Em, Rabs_left by lra; ring).
    rewrite R2, UD, AM. assert (GG : 0 < / (g * g)) by (apply Rinv_0_lt_compat; nra). rewrite fdiv_some by lra. cbn [obind]. destruct (Req_EM_T mu (-1)); [|lra].
    replace (1 * ((1 - 2 * fr * (Q1 * W1 + Q2 * W2)) / q) / / (g * g)) with (- g * ct) by (rewrite ECT, Em; field; split; lra).
    f_equal. unfold N, ray_u. rewrite EN, GZ, Em. apply vec_eq; cbn; field; lra.
  - apply Rmult_eq_reg_l with (n1 ^ 2); [|nra]. transitivity ((n1 * (next_b * Q1 + next_c * W1)) ^ 2 + (n1 * (next_b * Q2 + next_c * W2)) ^ 2); [ring|]. rewrite !UX. transitivity (1 - n1 ^ 2); [lra|]. field. lra.
Qed.
End Step.

(** the ray moves forwards or backwards along the axis *)
Definition carries_dir (back : bool) X1 X2 A1 A2 X y u : Prop :=
  exists u', carries X1 X2 A1 A2 X y u' /\ u = if back then vmul3 (-1) u' else u'.
(** good surface hits: refraction with 0 < mu or reflection *)
Definition xfine (c off mu : R) (X : xst) : Prop :=
  0 < xdisc c off X /\ 0 < xg c off X /\ 0 < mu * xct c off mu X /\ 0 < xrad c off mu X /\ 0 < xn1 c off mu X.
Definition is_mirror (mu : R) : bool := if Req_EM_T mu (-1) then true else false.

Lemma local_step newton l e mat c d n mu X1 X2 A1 A2 X y u : e_kind e = Sph mat (Surf c 0 None false) -> get_n_mu mat (x_n X) l = (n, Some mu) -> 0 < mu \/ mu = -1 ->
  carries X1 X2 A1 A2 X y u -> xfine c d mu X ->
  exists y' u' t, propagate newton e (Some (vsub3 y (V 0 0 d))) (Some u) (x_n X) l false = (Some y', Some u', n, Some t) /\
    carries_dir (is_mirror mu) X1 X2 A1 A2 (xnext c d mu n X) y' u' /\ t = x_o (xnext c d mu n X) - x_o X.
Proof.
  intros K GM MU (Ey & Eu & Er & Ep & Ek) FI. destruct X as [f n0 r p k s t v w o]. cbn [x_f x_n x_r x_p x_k x_s x_t x_v x_w x_o] in *.
  set (P1 := s * X1 + t * A1) in *. set (P2 := s * X2 + t * A2) in *. set (W1 := v * X1 + w * A1) in *. set (W2 := v * X2 + w * A2) in *. subst r p k. set (X := XS f n0 _ _ _ s t v w o) in *.
  assert (YE : vsub3 y (V 0 0 d) = ray_y P1 P2 f d) by (subst y; unfold ray_y; apply vec_eq; cbn; ring).
  assert (UE : u = ray_u W1 W2) by (subst u; reflexivity).
  pose proof (step_intercept P1 P2 W1 W2 f d c s t v w o n0 false eq_refl (proj1 FI)) as I. fold X in I.
  set (a := xf c d X + xfd d X) in *. set (n1 := xn1 c d mu X) in *.
  set (b := next_b P1 P2 W1 W2 f d c s t v w o n0 mu) in *. set (cc := next_c P1 P2 W1 W2 f d c s t v w o n0 mu) in *.
  assert (RF : refract (Surf c 0 None false) (Some (V (P1 + a * W1) (P2 + a * W2) (xf c d X))) (Some (ray_u W1 W2)) mu =
    Some (let u' := V (n1 * (b * (P1 + a * W1) + cc * W1)) (n1 * (b * (P2 + a * W2) + cc * W2)) n1 in if is_mirror mu then vmul3 (-1) u' else u') /\
    (b * (P1 + a * W1) + cc * W1) ^ 2 + (b * (P2 + a * W2) + cc * W2) ^ 2 = / n1 * / n1 + -1).
  { destruct FI as (D & G & CT & RD & N1). unfold is_mirror. destruct (Req_EM_T mu (-1)) as [Em|Em].
    - subst mu. apply (step_reflect P1 P2 W1 W2 f d c s t v w o n0). repeat split; auto. fold X. lra.
    - destruct MU as [MU|MU]; [|contradiction]. apply (step_refract P1 P2 W1 W2 f d c s t v w o n0 mu MU). repeat split; auto. fold X. nra. }
  destruct RF as [RF PN]. pose proof (q_pos W1 W2) as QP. set (q := sqrt (W1 ^ 2 + W2 ^ 2 + 1)) in *.
  assert (AT : at_ray (ray_y P1 P2 f d) (ray_u W1 W2) (a * q) = V (P1 + a * W1) (P2 + a * W2) (xf c d X)).
  { unfold at_ray, ray_y, ray_u. fold q. apply vec_eq; cbn; try (field; lra). unfold a, xfd. cbn [x_f X]. field. lra. }
  unfold propagate. rewrite K. cbn [obind]. rewrite YE, UE. unfold intercept. cbn [s_asph]. rewrite I. cbn [obind]. fold q. fold a. rewrite AT. rewrite GM. destruct (Req_EM_T mu 0) as [Z0|Z0]; [lra|]. rewrite RF.
  destruct FI as (_ & _ & _ & _ & N1). fold n1 in N1.
  assert (SQ : sqrt (/ n1 * / n1 + -1 + 1) = / n1) by (replace (/ n1 * / n1 + -1 + 1) with (/ n1 * / n1) by ring; apply sqrt_square, Rlt_le, Rinv_0_lt_compat; auto).
  do 3 eexists. split; [reflexivity|]. split.
  - eexists. split; [|reflexivity]. unfold carries. unfold xnext. cbn [x_f x_n x_r x_p x_k x_s x_t x_v x_w x_o]. fold a n1. change (-2 * / n1 * xgd c d mu X * xfr c d X) with b. change (xmun mu X * / n1) with cc. cbn [x_f x_n x_r x_p x_k x_s x_t x_v x_w x_o X].
    assert (H1 : (s + a * v) * X1 + (t + a * w) * A1 = P1 + a * W1) by (unfold P1, W1; ring). assert (H2 : (s + a * v) * X2 + (t + a * w) * A2 = P2 + a * W2) by (unfold P2, W2; ring).
    assert (H3 : (b * (s + a * v) + cc * v) * X1 + (b * (t + a * w) + cc * w) * A1 = b * (P1 + a * W1) + cc * W1) by (unfold P1, W1; ring).
    assert (H4 : (b * (s + a * v) + cc * v) * X2 + (b * (t + a * w) + cc * w) * A2 = b * (P2 + a * W2) + cc * W2) by (unfold P2, W2; ring).
    rewrite H1, H2, H3, H4, SQ. split; [auto|]. split; [apply vec_eq; cbn; field; lra|]. split; [ring|]. split; [exact (eq_sym PN)|]. ring.
  - unfold xnext. cbn [x_o X x_n x_p]. fold a. fold q. ring.
Qed.

(** * the frame of an element behind a mirror *)
(** coordinates in a frame turned by half a turn about the x axis *)
Definition turn (v : vec) : vec := V (vx v) (- vy v) (- vz v).
Definition flip (X : xst) : xst := XS (- x_f X) (x_n X) (x_r X) (x_p X) (- x_k X) (x_s X) (- x_t X) (- x_v X) (x_w X) (x_o X).
Lemma flip_carries X1 X2 A1 A2 X y u : carries X1 X2 A1 A2 X y u -> carries X1 (- X2) (- A1) A2 (flip X) (turn y) (turn (vmul3 (-1) u)).
Proof.
  intros (-> & -> & Er & Ep & Ek). unfold carries, flip, turn. cbn [x_f x_n x_r x_p x_k x_s x_t x_v x_w x_o vx vy vz vmul3]. rewrite Er, Ek. repeat split.
  - f_equal; ring.
  - f_equal; unfold Rdiv; ring.
  - ring.
  - rewrite Ep. ring.
  - ring.
Qed.
Lemma unflip X : flip (flip X) = X.
Proof. destruct X. unfold flip. cbn [x_f x_n x_r x_p x_k x_s x_t x_v x_w x_o]. f_equal; ring. Qed.
Lemma flip_parts c d mu X : xdisc c d (flip X) = xdisc (- c) (- d) X /\ xf c d (flip X) = - xf (- c) (- d) X /\ xg c d (flip X) = xg (- c) (- d) X /\
  xfr c d (flip X) = - xfr (- c) (- d) X /\ xct c d mu (flip X) = xct (- c) (- d) mu X /\ xfd d (flip X) = - xfd (- d) X.
Proof.
  destruct X as [f n r p k s t v w o]. unfold flip. cbn [x_f x_n x_r x_p x_k x_s x_t x_v x_w x_o].
  assert (FD : xfd d (XS (- f) n r p (- k) s (- t) (- v) w o) = - xfd (- d) (XS f n r p k s t v w o)) by (unfold xfd; cbn [x_f]; ring).
  assert (KT : xkt d (XS (- f) n r p (- k) s (- t) (- v) w o) = - xkt (- d) (XS f n r p k s t v w o)) by (unfold xkt; rewrite FD; cbn [x_k x_p]; ring).
  assert (RT : xrt d (XS (- f) n r p (- k) s (- t) (- v) w o) = xrt (- d) (XS f n r p k s t v w o)) by (unfold xrt; rewrite FD; cbn [x_k x_p x_r]; ring).
  assert (DI : xdisc c d (XS (- f) n r p (- k) s (- t) (- v) w o) = xdisc (- c) (- d) (XS f n r p k s t v w o)) by (unfold xdisc; rewrite KT, RT; cbn [x_p]; ring).
  assert (A : xa c d (XS (- f) n r p (- k) s (- t) (- v) w o) = xa (- c) (- d) (XS f n r p k s t v w o)) by (unfold xa; rewrite KT, DI; cbn [x_p]; ring).
  assert (F : xf c d (XS (- f) n r p (- k) s (- t) (- v) w o) = - xf (- c) (- d) (XS f n r p k s t v w o)). { unfold xf. rewrite A. destruct (Req_EM_T c 0), (Req_EM_T (- c) 0); try (exfalso; lra); [ring|]. field. lra. }
  assert (G : xg c d (XS (- f) n r p (- k) s (- t) (- v) w o) = xg (- c) (- d) (XS f n r p k s t v w o)). { unfold xg. rewrite A. destruct (Req_EM_T c 0), (Req_EM_T (- c) 0); lra. }
  assert (FR : xfr c d (XS (- f) n r p (- k) s (- t) (- v) w o) = - xfr (- c) (- d) (XS f n r p k s t v w o)). { unfold xfr. rewrite G. destruct (Req_EM_T c 0), (Req_EM_T (- c) 0); try (exfalso; lra); ring. }
  repeat split; auto. unfold xct. rewrite G, KT, F, FR. unfold xmun. cbn [x_p]. ring.
Qed.
Lemma flip_next c d mu n X : xnext c d mu n (flip X) = let Y := flip (xnext (- c) (- d) mu n X) in
  XS (x_f Y) (x_n Y) (x_r Y) (x_p Y) (x_k Y) (x_s Y) (x_t Y) (x_v Y) (x_w Y) (2 * x_o X - x_o Y).
Proof.
  destruct (flip_parts c d mu X) as (DI & F & G & FR & CT & FD). cbv zeta.
  assert (GD : xgd c d mu (flip X) = xgd (- c) (- d) mu X) by (unfold xgd, xrad; rewrite G, CT; reflexivity).
  assert (MN : xmun mu (flip X) = xmun mu X) by reflexivity. assert (N1 : xn1 c d mu (flip X) = xn1 (- c) (- d) mu X) by (unfold xn1; rewrite GD, MN; reflexivity).
  unfold xnext. rewrite F, FD, N1, GD, FR, MN. destruct X as [f n' r p k s t v w o]. unfold flip. cbn [x_f x_n x_r x_p x_k x_s x_t x_v x_w x_o]. f_equal; ring.
Qed.
Lemma flip_fine c d mu X : xfine (- c) (- d) mu X -> xfine c d mu (flip X).
Proof.
  destruct (flip_parts c d mu X) as (DI & F & G & FR & CT & FD). unfold xfine, xrad, xn1, xgd, xrad. rewrite DI, G, CT. change (xmun mu (flip X)) with (xmun mu X). auto.
Qed.

(** * Taylor coefficients of a step *)
Section Simplex.
Variables (m : nat) (idx : itable) (jdx : list (list nat)) (abi : list row).
Hypothesis Hm : (1 <= m)%nat.
Hypothesis Hs : (Z.of_nat (simplex_size 3 m) <= 65536)%Z.
Hypothesis Hi : simplex_idx 3 m = Some (idx, jdx, abi).
Notation q := (simplex_size 3 m).
Notation taylor := (taylor m).
Record tstate (F : pt -> xst) (st : pstate) : Prop := {
  ts_f : taylor (fun x => x_f (F x)) (ps_f st); ts_r : taylor (fun x => x_r (F x)) (ps_r st);
  ts_p : taylor (fun x => x_p (F x)) (ps_p st); ts_k : taylor (fun x => x_k (F x)) (ps_k st);
  ts_s : taylor (fun x => x_s (F x)) (ps_s st); ts_t : taylor (fun x => x_t (F x)) (ps_t st);
  ts_v : taylor (fun x => x_v (F x)) (ps_v st); ts_w : taylor (fun x => x_w (F x)) (ps_w st);
  ts_o : taylor (fun x => x_o (F x)) (ps_o st); ts_n : forall x, x_n (F x) = ps_n st }.
Definition on_axis (X : xst) : Prop := x_r X = 0 /\ x_p X = 0 /\ x_k X = 0.

Lemma taylor_pos F a v : taylor F a -> F origin = v -> 0 < v -> near (fun x => 0 < F x).
Proof.
  intros T E P. apply (taylor_cont m Hm) in T. rewrite E in T. generalize (order_small 0 _ v T P). apply near_imp. intros x H. apply Rabs_def2 in H. lra.
Qed.
Local Ltac tay := repeat first [ eassumption | apply (taylor_add m) | apply (taylor_sub m Hm) | apply (taylor_mul m idx jdx abi Hm Hs Hi) | apply (taylor_scale m) | apply (taylor_shift m Hm Hs) | apply (taylor_neg m) | apply (taylor_div m) ].
Local Ltac like G := match goal with |- taylor _ ?a => apply (taylor_ext m G); [apply near_all; intros ?x; cbv beta|] end.

Lemma on_axis_step c d mu n X : on_axis X -> xf c d X = 0 /\ xg c d X = 1 /\ xdisc c d X = 1 /\ xmun mu X = mu /\ xct c d mu X = mu /\ xrad c d mu X = 1 /\ xn1 c d mu X = 1 /\ on_axis (xnext c d mu n X).
Proof.
  intros (R0 & P0 & K0). assert (KT : xkt d X = 0) by (unfold xkt; rewrite K0, P0; ring). assert (RT : xrt d X = 0) by (unfold xrt; rewrite R0, K0, P0; ring).
  assert (D : xdisc c d X = 1) by (unfold xdisc; rewrite KT, RT; ring). assert (A : xa c d X = 0) by (unfold xa; rewrite D, KT, P0, sqrt_1; field).
  assert (F : xf c d X = 0) by (unfold xf; destruct (Req_EM_T c 0); [auto|rewrite A; field; auto]). assert (G : xg c d X = 1) by (unfold xg; destruct (Req_EM_T c 0); [auto|rewrite A; ring]).
  assert (MU : xmun mu X = mu) by (unfold xmun; rewrite P0, Rplus_0_l, sqrt_1; field). assert (CT : xct c d mu X = mu) by (unfold xct; rewrite G, MU, KT, F; ring).
  assert (RD : xrad c d mu X = 1) by (unfold xrad; rewrite CT; ring). assert (N1 : xn1 c d mu X = 1) by (unfold xn1, xgd; rewrite MU, G, RD, CT, sqrt_1; ring).
  repeat split; auto; unfold xnext; cbn [x_r x_p x_k]; rewrite ?N1, ?R0, ?P0, ?K0; try field; ring.
Qed.
(** what is returned for the squared radius at the surface *)
Definition xrr c off X := if Req_EM_T c 0 then xrt off X else xa c off X * (- xa c off X + 2).
Lemma intercept_taylor s d F st : s_asph s = None -> tstate F st -> on_axis (F origin) ->
  let c := s_c s * sign d in
  let '(fd, rt, kt) := transfer_poly abi d st in
  taylor (fun x => xfd d (F x)) fd /\ taylor (fun x => xkt d (F x)) kt /\ taylor (fun x => xrt d (F x)) rt /\
  exists r f fr g, intercept_poly abi m q s d rt (ps_p st) kt = Some (r, f, fr, g) /\
    taylor (fun x => xf c d (F x)) f /\ taylor (fun x => xfr c d (F x)) fr /\ taylor (fun x => xg c d (F x)) g /\ near (fun x => 0 < xdisc c d (F x)) /\ taylor (fun x => xrr c d (F x)) r.
Proof.
  intros SA T AX. set (c := s_c s * sign d). cbv zeta. destruct T as [Tf Tr Tp Tk Ts Tt Tv Tw To Tn]. unfold transfer_poly. cbv zeta.
  set (fd := pshift (pneg (ps_f st)) d). set (fdp := pmul abi fd (ps_p st)). set (rt := rvadd (ps_r st) (pmul abi fd (rvadd (rvscale 2 (ps_k st)) fdp))). set (kt := rvadd (ps_k st) fdp).
  assert (Tfd : taylor (fun x => xfd d (F x)) fd) by (like (fun x => - x_f (F x) + d); [unfold xfd; ring|unfold fd; tay]).
  assert (Tkt : taylor (fun x => xkt d (F x)) kt) by (unfold kt, fdp, xkt; tay).
  assert (Trt : taylor (fun x => xrt d (F x)) rt) by (unfold rt, fdp, xrt; tay).
  split; [auto|]. split; [auto|]. split; [auto|]. unfold intercept_poly. rewrite SA. fold c. cbv zeta.
  destruct (on_axis_step c d 1 1 _ AX) as (F0 & G0 & D0 & _).
  assert (Tdisc : taylor (fun x => xdisc c d (F x)) (psub (pmul abi (pshift (rvscale (- c) kt) 1) (pshift (rvscale (- c) kt) 1)) (rvscale (c ^ 2) (pmul abi (pshift (ps_p st) 1) rt)))).
  { like (fun x => (- c * xkt d (F x) + 1) * (- c * xkt d (F x) + 1) - c ^ 2 * ((x_p (F x) + 1) * xrt d (F x))); [unfold xdisc; ring|]. tay. }
  assert (DN : near (fun x => 0 < xdisc c d (F x))) by (eapply taylor_pos; [exact Tdisc|exact D0|lra]).
  unfold xf, xfr, xg, xrr. destruct (Req_EM_T c 0) as [Z|Z]; cbn [obind].
  - unfold plane_intercept_poly. do 4 eexists. split; [reflexivity|]. split; [apply taylor_zero|]. split; [apply taylor_zero|]. split; [apply (taylor_const m Hm Hs)|]. split; auto.
  - unfold sphere_intercept_poly. destruct (powers m idx jdx abi Hm Hs Hi _ _ Tdisc D0) as (_ & (w & -> & Tw') & _). cbn [obind].
    assert (Tp1 : taylor (fun x => x_p (F x) + 1) (pshift (ps_p st) 1)) by tay. assert (P1 : x_p (F origin) + 1 = 1) by (destruct AX as (_ & -> & _); ring).
    destruct (powers m idx jdx abi Hm Hs Hi _ _ Tp1 P1) as ((p1i & -> & Tpi) & _ & _). cbn [obind].
    set (a := pmul abi (psub (pshift (rvscale (- c) kt) 1) w) p1i). assert (Ta : taylor (fun x => xa c d (F x)) a). { like (fun x => ((- c * xkt d (F x) + 1) - sqrt (xdisc c d (F x))) * / (x_p (F x) + 1)); [unfold xa; ring|]. unfold a. tay. }
    assert (Tg : taylor (fun x => 1 - xa c d (F x)) (pshift (pneg a) 1)) by (like (fun x => - xa c d (F x) + 1); [ring|tay]).
    assert (G1 : 1 - xa c d (F origin) = 1) by (unfold xg in G0; destruct (Req_EM_T c 0); [contradiction|auto]).
    destruct (powers m idx jdx abi Hm Hs Hi _ _ Tg G1) as ((gi & -> & Tgi) & _ & _). cbn [obind]. do 4 eexists. split; [reflexivity|]. split; [tay|]. split; [tay|]. split; [tay|]. split; [auto|tay].
Qed.
(** any surface without aspherics, mirrors and light going backwards included *)
Lemma step_taylor e mat s l n mu F st : let d := vz (p_offset (e_place e)) in let c := s_c s * sign d in
  e_kind e = Sph mat s -> s_asph s = None -> get_n_mu mat (ps_n st) l = (n, Some mu) -> tstate F st -> on_axis (F origin) ->
  exists st', propagate_poly abi m q e l st = Some st' /\ tstate (fun x => xnext c d mu n (F x)) st' /\ on_axis (xnext c d mu n (F origin)) /\
    near (fun x => 0 < xdisc c d (F x) /\ 0 < xg c d (F x) /\ 0 < xrad c d mu (F x) /\ 0 < xn1 c d mu (F x)) /\ near (fun x => 0 < mu * xct c d mu (F x) \/ mu = 0).
Proof.
  intros d c K SA GM T AX.
  pose proof (intercept_taylor s d F st SA T AX) as IT. cbv zeta in IT. fold c in IT. destruct T as [Tf Tr Tp Tk Ts Tt Tv Tw To Tn].
  destruct (on_axis_step c d mu n _ AX) as (F0 & G0 & D0 & M0 & C0 & R0 & N1 & AX').
  unfold propagate_poly. rewrite K. fold d. destruct (transfer_poly abi d st) as [[fd rt] kt] eqn:TP. destruct IT as (Tfd & Tkt & _ & r & f & fr & g & -> & Tff & Tfr & Tg & DN & _). cbn [obind].
  rewrite GM. cbn [obind].
  assert (Tp1 : taylor (fun x => x_p (F x) + 1) (pshift (ps_p st) 1)) by tay. assert (P1 : x_p (F origin) + 1 = 1) by (destruct AX as (_ & -> & _); ring).
  destruct (powers m idx jdx abi Hm Hs Hi _ _ Tp1 P1) as (_ & (p1s & Es & Tps) & (p1rs & Er & Tpr)). rewrite Er. cbn [obind].
  set (mun := rvscale mu p1rs). assert (Tmun : taylor (fun x => xmun mu (F x)) mun) by (unfold mun, xmun; tay).
  set (ct := pmul abi (pmul abi g mun) (pshift (pmul abi (rvscale (-2) (rvadd kt (pmul abi f (ps_p st)))) fr) 1)). assert (Tct : taylor (fun x => xct c d mu (F x)) ct) by (unfold ct, xct; tay).
  assert (Trad : taylor (fun x => xrad c d mu (F x)) (pshift (pmul abi ct ct) (1 - mu ^ 2))) by (unfold xrad; tay).
  destruct (powers m idx jdx abi Hm Hs Hi _ _ Trad R0) as (_ & (w & -> & Tw') & _). cbn [obind].
  set (gd := pmul abi g (psub w ct)). assert (Tgd : taylor (fun x => xgd c d mu (F x)) gd) by (unfold gd, xgd; tay).
  assert (Tn1 : taylor (fun x => xn1 c d mu (F x)) (rvadd mun gd)) by (unfold xn1; tay).
  destruct (powers m idx jdx abi Hm Hs Hi _ _ Tn1 N1) as ((n1i & -> & Tni) & _ & _). cbn [obind]. rewrite Es. cbn [obind]. eexists. split; [reflexivity|]. split; [|split; [auto|split]].
  - constructor; unfold xnext; cbn [x_f x_n x_r x_p x_k x_s x_t x_v x_w x_o ps_f ps_n ps_r ps_p ps_k ps_s ps_t ps_v ps_w ps_o]; try (tay; fail); [|auto].
    like (fun x => x_o (F x) + ps_n st * (xf c d (F x) + xfd d (F x)) * sqrt (x_p (F x) + 1)); [rewrite Tn; ring|]. tay.
  - repeat apply near_and; auto; [eapply taylor_pos; [exact Tg|exact G0|lra]|eapply taylor_pos; [exact Trad|exact R0|lra]|eapply taylor_pos; [exact Tn1|exact N1|lra]].
  - destruct (Req_dec mu 0) as [MZ|MZ]; [apply near_all; auto|]. assert (T2 : taylor (fun x => mu * xct c d mu (F x)) (rvscale mu ct)) by tay.
    apply (near_imp (fun x => 0 < mu * xct c d mu (F x))); [auto|]. eapply taylor_pos; [exact T2|rewrite C0; reflexivity|nra].
Qed.
End Simplex.
