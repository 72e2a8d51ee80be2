(** Property C38, second part: fresh beams, waists, principal axes, resonator modes. *)
From Coq Require Import Reals List Lra Lia Psatz.
From Verif Require Import Base Cx Vec RotModel PlacementModel PlacementProofs ElementModel ParaxialModel ParaxialProofs ParaxTraceModel
  PropsParaxial PropsConjugates PropsCardinal GaussianModel PropsGaussian.
Import ListNotations.
Open Scope R_scope.

(** * fresh beams *)
Lemma ccase (z : cx) : z = c0 \/ z <> c0.
Proof. destruct (ceqb z c0) eqn:E; [left; apply ceqb_true; auto|right; intros ->; rewrite (proj2 (ceqb_true c0 c0) eq_refl) in E; discriminate]. Qed.
Lemma im_nz a b : b <> 0 -> Cx a b <> c0.
Proof. intros H E. injection E. auto. Qed.
(** inverse complex radius of a waist at reduced distance z, reduced Rayleigh length z0 *)
Lemma qi_axis_some l n scale w p : 0 < l -> 0 < n -> 0 < scale -> 0 < w ->
  let z0 := PI * w ^ 2 * scale / l in 0 < z0 /\ qi_axis l n scale w p = Some (cdiv c1 (Cx (p / n) z0)).
Proof.
  intros L N SC W z0. assert (P := PI_RGT_0). assert (Z : 0 < z0).
  { unfold z0. apply Rdiv_lt_0_compat; [|auto]. apply Rmult_lt_0_compat; [|auto]. apply Rmult_lt_0_compat; [auto|]. nra. }
  split; [auto|]. unfold qi_axis. rewrite fdiv_some by lra. cbn [obind]. rewrite fdiv_some by lra. cbn [obind].
  rewrite fcdiv_some by (apply im_nz; fold z0; lra). reflexivity.
Qed.
Lemma free_diag x y dz : im x <> 0 -> im y <> 0 ->
  free_space (CM (cdiv c1 x) c0 c0 (cdiv c1 y)) dz = Some (CM (cdiv c1 (cadd x (rc dz))) c0 c0 (cdiv c1 (cadd y (rc dz)))).
Proof.
  intros X Y. unfold free_space. cbn [c00 c01 c10 c11]. set (t := rc dz).
  assert (X0 : x <> c0) by (intros ->; apply X; reflexivity). assert (Y0 : y <> c0) by (intros ->; apply Y; reflexivity).
  assert (X1 : cadd x t <> c0) by (intros E; apply (f_equal im) in E; unfold t in E; cbn in E; lra).
  assert (Y1 : cadd y t <> c0) by (intros E; apply (f_equal im) in E; unfold t in E; cbn in E; lra).
  match goal with |- context [fcdiv c1 ?e] => replace e with (cmul (cdiv (cadd x t) x) (cdiv (cadd y t) y)) end.
  2:{ field. auto. }
  assert (NZ : cmul (cdiv (cadd x t) x) (cdiv (cadd y t) y) <> c0).
  { intros E. apply cmul_zero in E. destruct E as [E|E].
    - apply X1. transitivity (cmul (cdiv (cadd x t) x) x); [field; auto|rewrite E; ring].
    - apply Y1. transitivity (cmul (cdiv (cadd y t) y) y); [field; auto|rewrite E; ring]. }
  rewrite fcdiv_some by auto. cbn [obind]. f_equal. apply cm_eq; cbn [c00 c01 c10 c11]; field; auto.
Qed.
Lemma inv_parts a b : b <> 0 -> re (cdiv c1 (Cx a b)) = a / (a * a + b * b) /\ im (cdiv c1 (Cx a b)) = - b / (a * a + b * b).
Proof. intros B. cbn. unfold cabs2. cbn. split; field; nra. Qed.
Lemma sq_pos a b : b <> 0 -> 0 < a * a + b * b.
Proof. intros. nra. Qed.
(** spec: what a beam with waist radius w and Rayleigh length zr looks like at distance z behind its waist *)
Definition textbook (l n scale w zr z : R) (axis : bool) (q : cm) : Prop :=
  spot_radius l scale axis q = Some (w * sqrt (1 + (z / zr) ^ 2)) /\
  (z <> 0 -> curvature_radius n axis q = Some (z + zr ^ 2 / z)) /\
  (z = 0 -> curvature_radius n axis q = None) /\
  waist_position n axis q = Some (- z) /\ rayleigh_range n axis q = Some zr /\ waist_radius l n scale axis q = Some w.
Lemma textbook_axis l n scale w z axis q : 0 < l -> 0 < n -> 0 < scale -> 0 < w ->
  diag axis q = cdiv c1 (Cx (z / n) (PI * w ^ 2 * scale / l)) -> textbook l n scale w (PI * n * w ^ 2 * scale / l) z axis q.
Proof.
  intros L N SC W D. assert (P := PI_RGT_0). set (z0 := PI * w ^ 2 * scale / l) in *.
  assert (Z0 : 0 < z0).
  { unfold z0. apply Rdiv_lt_0_compat; [|auto]. apply Rmult_lt_0_compat; [|auto]. apply Rmult_lt_0_compat; [auto|]. nra. }
  assert (ZR : PI * n * w ^ 2 * scale / l = n * z0) by (unfold z0; field; lra). rewrite ZR.
  destruct (inv_parts (z / n) z0 ltac:(lra)) as (RE & IM). pose proof (sq_pos (z / n) z0 ltac:(lra)) as SQ.
  assert (BACK : cdiv c1 (cdiv c1 (Cx (z / n) z0)) = Cx (z / n) z0).
  { assert (Cx (z / n) z0 <> c0) by (apply im_nz; lra). field. split; [auto|]. intros E. apply (f_equal re) in E. cbn in E. lra. }
  assert (NZ : diag axis q <> c0).
  { rewrite D. intros E. apply (f_equal im) in E. rewrite IM in E. cbn in E.
    assert (0 < z0 / (z / n * (z / n) + z0 * z0)) by (apply Rdiv_lt_0_compat; auto). lra. }
  unfold textbook. repeat apply conj.
  - unfold spot_radius. rewrite fdiv_some by nra. cbn [obind]. rewrite D, IM.
    rewrite fdiv_some.
    2:{ assert (0 < z0 / (z / n * (z / n) + z0 * z0)) by (apply Rdiv_lt_0_compat; auto). intros E. lra. }
    cbn [obind].
    assert (E : l / (scale * PI) / - (- z0 / (z / n * (z / n) + z0 * z0)) = (w * w) * (1 + (z / (n * z0)) ^ 2)).
    { assert (WZ : l * z0 = w * w * scale * PI) by (unfold z0; field; lra).
      transitivity (l * z0 / (scale * PI) * ((z / n * (z / n) + z0 * z0) / (z0 * z0))); [set (dd := z / n * (z / n) + z0 * z0) in *; clearbody dd; field; repeat split; lra|].
      rewrite WZ. field. repeat split; lra. }
    rewrite E. rewrite fsqrt_some by (apply Rmult_le_pos; nra). f_equal. rewrite sqrt_mult by nra. rewrite sqrt_square by lra. reflexivity.
  - intros Z. unfold curvature_radius. rewrite D, RE. rewrite fdiv_some.
    + f_equal. transitivity (n * n * (z / n * (z / n) + z0 * z0) / z).
      * set (dd := z / n * (z / n) + z0 * z0) in *. clearbody dd. field. repeat split; lra.
      * field. repeat split; lra.
    + intros E. apply Z. assert (X : z / n = 0).
      { transitivity (z / n / (z / n * (z / n) + z0 * z0) * (z / n * (z / n) + z0 * z0)); [set (dd := z / n * (z / n) + z0 * z0) in *; clearbody dd; field; lra|rewrite E; ring]. }
      transitivity (z / n * n); [field; lra|rewrite X; ring].
  - intros ->. unfold curvature_radius. rewrite D, RE. replace (0 / n / (0 / n * (0 / n) + z0 * z0)) with 0 by (field; lra). apply fdiv_zero.
  - unfold waist_position. rewrite fcdiv_some by auto. cbn [obind]. rewrite D, BACK. cbn [re]. f_equal. field. lra.
  - unfold rayleigh_range. rewrite fcdiv_some by auto. cbn [obind]. rewrite D, BACK. cbn [im]. f_equal. ring.
  - unfold waist_radius, rayleigh_range. rewrite fcdiv_some by auto. cbn [obind]. rewrite D, BACK. cbn [im].
    rewrite fdiv_some by lra. cbn [obind]. rewrite fdiv_some by lra. cbn [obind].
    replace (z0 * n / PI / n * l / scale) with (w * w) by (unfold z0; field; lra).
    rewrite fsqrt_some by nra. f_equal. apply sqrt_square. lra.
Qed.
(** the beam made from two waists and their positions is the textbook beam at every distance t *)
Theorem C38_textbook l n scale wx wy px py t : 0 < l -> 0 < n -> 0 < scale -> 0 < wx -> 0 < wy ->
  exists q q', make_qi l n scale (wx, wy) (px, py) 0 = Some q /\ free_space q (t / n) = Some q' /\
    textbook l n scale wx (PI * n * wx ^ 2 * scale / l) (px + t) false q' /\
    textbook l n scale wy (PI * n * wy ^ 2 * scale / l) (py + t) true q'.
Proof.
  intros L N SC WX WY. destruct (qi_axis_some l n scale wx px L N SC WX) as (ZX & QX). destruct (qi_axis_some l n scale wy py L N SC WY) as (ZY & QY).
  set (zx := PI * wx ^ 2 * scale / l) in *. set (zy := PI * wy ^ 2 * scale / l) in *.
  exists (CM (cdiv c1 (Cx (px / n) zx)) c0 c0 (cdiv c1 (Cx (py / n) zy))).
  exists (CM (cdiv c1 (cadd (Cx (px / n) zx) (rc (t / n)))) c0 c0 (cdiv c1 (cadd (Cx (py / n) zy) (rc (t / n))))).
  split; [|split; [|split]].
  - unfold make_qi. cbn [fst snd]. rewrite QX. cbn [obind]. rewrite QY. cbn [obind]. rewrite cos_0, sin_0, Ropp_0. change (rc 0) with c0. change (rc 1) with c1. f_equal. cm_ring.
  - apply free_diag; cbn; lra.
  - apply textbook_axis; auto. cbn [diag c00]. fold zx. f_equal. apply cx_eq; cbn; field; lra.
  - apply textbook_axis; auto. cbn [diag c11]. fold zy. f_equal. apply cx_eq; cbn; field; lra.
Qed.
Example C38_textbook_example : 0 < 1 / 2 /\ PI * 1 * 1 ^ 2 * 1 / (1 / 2) = 2 * PI /\ 1 * sqrt (1 + (2 * PI / (2 * PI)) ^ 2) = sqrt 2.
Proof.
  assert (P := PI_RGT_0). split; [lra|]. split; [field|]. replace (2 * PI / (2 * PI)) with 1 by (field; lra). rewrite Rmult_1_l. f_equal. ring.
Qed.
(** the default beam has its waist, as large as the object, on a finite object; or, as large as the pupil, in the pupil *)
Theorem C38_default radius pupil_radius pupil_distance l n scale : 0 < l -> 0 < n -> 0 < scale ->
  (0 < radius -> exists q, default_qi true radius pupil_radius pupil_distance l n scale = Some q /\
     forall axis, textbook l n scale radius (PI * n * radius ^ 2 * scale / l) 0 axis q) /\
  (0 < pupil_radius -> exists q q', default_qi false radius pupil_radius pupil_distance l n scale = Some q /\
     free_space q (pupil_distance / n) = Some q' /\
     forall axis, textbook l n scale pupil_radius (PI * n * pupil_radius ^ 2 * scale / l) 0 axis q').
Proof.
  intros L N SC. split; intros W.
  - destruct (qi_axis_some l n scale radius 0 L N SC W) as (Z & Q). unfold default_qi, make_qi. cbn [fst snd]. rewrite Q. cbn [obind].
    eexists. split; [reflexivity|]. rewrite cos_0, sin_0, Ropp_0. change (rc 0) with c0. change (rc 1) with c1.
    intros axis. apply textbook_axis; auto. destruct axis; cbn [diag]; unfold cmm, cmT; cbn [c00 c01 c10 c11]; ring.
  - destruct (C38_textbook l n scale pupil_radius pupil_radius (- pupil_distance) (- pupil_distance) pupil_distance L N SC W W) as (q & q' & A & B & C & D).
    exists q, q'. rewrite Rplus_opp_l in *. split; [exact A|]. split; [exact B|]. intros []; auto.
Qed.
(** spec: value of the quadratic form of the beam in a transverse direction *)
Definition form (q : cm) (x y : R) : cx :=
  cadd (cadd (cmul (c00 q) (rc (x * x))) (cmul (cadd (c01 q) (c10 q)) (rc (x * y)))) (cmul (c11 q) (rc (y * y))).
(** an angle turns the beam: looked at along turned axes it is the unrotated beam; any fresh beam is physical *)
Theorem C38_rotated l n scale waist position angle : 0 < l -> 0 < n -> 0 < scale -> 0 < fst waist -> 0 < snd waist ->
  exists q q0, make_qi l n scale waist position angle = Some q /\ make_qi l n scale waist position 0 = Some q0 /\
    (forall x y, form q x y = form q0 (cos angle * x - sin angle * y) (sin angle * x + cos angle * y)) /\ physical q.
Proof.
  destruct waist as [wx wy], position as [px py]. cbn [fst snd]. intros L N SC WX WY.
  destruct (qi_axis_some l n scale wx px L N SC WX) as (ZX & QX). destruct (qi_axis_some l n scale wy py L N SC WY) as (ZY & QY).
  unfold make_qi. cbn [fst snd]. rewrite QX. cbn [obind]. rewrite QY. cbn [obind].
  destruct (inv_parts (px / n) (PI * wx ^ 2 * scale / l) ltac:(lra)) as (_ & IX). destruct (inv_parts (py / n) (PI * wy ^ 2 * scale / l) ltac:(lra)) as (_ & IY).
  assert (NX : im (cdiv c1 (Cx (px / n) (PI * wx ^ 2 * scale / l))) < 0).
  { rewrite IX. pose proof (sq_pos (px / n) (PI * wx ^ 2 * scale / l) ltac:(lra)) as SQ. pose proof (Rdiv_lt_0_compat _ _ ZX SQ). lra. }
  assert (NY : im (cdiv c1 (Cx (py / n) (PI * wy ^ 2 * scale / l))) < 0).
  { rewrite IY. pose proof (sq_pos (py / n) (PI * wy ^ 2 * scale / l) ltac:(lra)) as SQ. pose proof (Rdiv_lt_0_compat _ _ ZY SQ). lra. }
  set (a := cdiv c1 (Cx (px / n) _)) in *. set (b := cdiv c1 (Cx (py / n) _)) in *. clearbody a b.
  do 2 eexists. split; [reflexivity|]. split; [reflexivity|]. rewrite cos_0, sin_0, Ropp_0.
  set (ca := cos angle). set (sa := sin angle). assert (SC2 : sa * sa + ca * ca = 1) by apply sin2_cos2. clearbody ca sa.
  split.
  - intros x y. unfold form, cmm, cmT. cbn [c00 c01 c10 c11]. apply cx_eq; cbn; ring.
  - split; [unfold cmm, cmT; cbn [c00 c01 c10 c11]; apply cx_eq; cbn; ring|]. intros x y XY.
    unfold cmm, cmT. cbn [c00 c01 c10 c11]. cbn [re im rc cmul cadd c0].
    match goal with |- ?e < 0 => replace e with (im a * ((ca * x - sa * y) * (ca * x - sa * y)) + im b * ((sa * x + ca * y) * (sa * x + ca * y))) end; [|ring].
    assert (SUM : (ca * x - sa * y) * (ca * x - sa * y) + (sa * x + ca * y) * (sa * x + ca * y) = x * x + y * y).
    { transitivity ((sa * sa + ca * ca) * (x * x + y * y)); [ring|rewrite SC2; ring]. }
    assert (POS : 0 < x * x + y * y) by (destruct XY as [H|H]; nra).
    pose proof (Rle_0_sqr (ca * x - sa * y)) as U. pose proof (Rle_0_sqr (sa * x + ca * y)) as V. unfold Rsqr in U, V.
    set (u := (ca * x - sa * y) * (ca * x - sa * y)) in *. set (v := (sa * x + ca * y) * (sa * x + ca * y)) in *. clearbody u v.
    set (ia := im a) in *. set (ib := im b) in *. clearbody ia ib. destruct (Rle_lt_or_eq_dec 0 u U) as [U1|U1].
    + assert (ia * u < 0) by nra. assert (ib * v <= 0) by nra. lra.
    + assert (0 < v) by lra. rewrite <- U1. assert (ib * v < 0) by nra. lra.
Qed.
Example C38_rotated_example : 0 < 1 / 2 /\ 0 < fst (1, 2) /\ 0 < snd (1, 2) /\ cos (PI / 2) = 0 /\ sin (PI / 2) = 1.
Proof. cbn. rewrite cos_PI2, sin_PI2. lra. Qed.

(** refocusing puts the last surface into the waist of the chosen axis *)
Theorem C38_refocus x y d n axis q : n <> 0 -> im x <> 0 -> im y <> 0 ->
  let q0 := CM (cdiv c1 x) c0 c0 (cdiv c1 y) in
  free_space q0 (d / n) = Some q ->
  exists d' q', refocus_distance d n axis q = Some d' /\ free_space q0 (d' / n) = Some q' /\
    waist_position n axis q' = Some 0 /\ curvature_radius n axis q' = None.
Proof.
  intros N X Y q0 E. unfold q0 in *. rewrite free_diag in E by auto. injection E as <-.
  set (z := if axis then y else x). assert (Z : im z <> 0) by (unfold z; destruct axis; auto).
  assert (NZ : forall t, cadd z (rc t) <> c0) by (intros t E; apply (f_equal im) in E; cbn in E; lra).
  assert (NC : c1 <> c0) by (intros E; apply (f_equal re) in E; cbn in E; lra).
  assert (DG : forall t, diag axis (CM (cdiv c1 (cadd x (rc t))) c0 c0 (cdiv c1 (cadd y (rc t)))) = cdiv c1 (cadd z (rc t))) by (intros t; unfold z; destruct axis; reflexivity).
  assert (NI : forall t, cdiv c1 (cadd z (rc t)) <> c0).
  { intros t E. apply NC. transitivity (cmul (cdiv c1 (cadd z (rc t))) (cadd z (rc t))); [field; auto|rewrite E; ring]. }
  assert (WP : forall t, waist_position n axis (CM (cdiv c1 (cadd x (rc t))) c0 c0 (cdiv c1 (cadd y (rc t)))) = Some (- (re z + t) * n)).
  { intros t. unfold waist_position. rewrite DG, fcdiv_some by auto. cbn [obind]. f_equal.
    replace (cdiv c1 (cdiv c1 (cadd z (rc t)))) with (cadd z (rc t)) by (field; auto). reflexivity. }
  exists (d + - (re z + d / n) * n). eexists. unfold refocus_distance. rewrite WP. cbn [obind]. split; [reflexivity|].
  rewrite free_diag by auto. split; [reflexivity|].
  replace ((d + - (re z + d / n) * n) / n) with (- re z) by (field; auto). rewrite WP. split; [f_equal; ring|].
  unfold curvature_radius. rewrite DG. replace (re (cdiv c1 (cadd z (rc (- re z))))) with 0; [apply fdiv_zero|].
  cbn. unfold cabs2. cbn. field. nra.
Qed.
Example C38_refocus_example : exists q, free_space (CM (cdiv c1 (Cx (-3) 1)) c0 c0 (cdiv c1 (Cx 2 1))) (1 / 1) = Some q.
Proof. rewrite free_diag by (cbn; lra). eauto. Qed.

(** * principal axes *)
Lemma floor_is x k : IZR k <= x < IZR k + 1 -> k = Int_part x.
Proof.
  intros [C D]. destruct (base_Int_part x) as [A B]. assert (Int_part x < k + 1)%Z by (apply lt_IZR; rewrite plus_IZR; lra).
  assert (k < Int_part x + 1)%Z by (apply lt_IZR; rewrite plus_IZR; lra). lia.
Qed.
(** a beam whose axes are x and y is reported with angle 0 and its own entries *)
Theorem C38_normal_aligned xx yy : normal xx 0 yy = Some (xx, yy, 0).
Proof.
  assert (P := PI_RGT_0). assert (A : angle xx 0 yy = 0).
  { unfold angle. rewrite Rmult_0_r. assert (AT : atan2 0 (xx - yy) = 0 \/ atan2 0 (xx - yy) = PI).
    { unfold atan2. destruct (Rlt_dec 0 (xx - yy)); [left; unfold Rdiv; rewrite Rmult_0_l; apply atan_0|].
      destruct (Rlt_dec (xx - yy) 0); [right|left].
      - destruct (Rle_dec 0 0); [|lra]. unfold Rdiv. rewrite Rmult_0_l, atan_0. ring.
      - destruct (Rlt_dec 0 0); [lra|]. destruct (Rlt_dec 0 0); [lra|auto]. }
    unfold pymod. destruct AT as [-> | ->].
    - replace ((0 / 2 + PI / 4) / (PI / 2)) with (1 / 2) by (field; lra).
      replace (Int_part (1 / 2)) with 0%Z; [cbn; field|]. apply floor_is. cbn. lra.
    - replace ((PI / 2 + PI / 4) / (PI / 2)) with (3 / 2) by (field; lra).
      replace (Int_part (3 / 2)) with 1%Z; [cbn; field|]. apply floor_is. cbn. lra. }
  unfold normal. rewrite A, cos_0, sin_0. cbv zeta.
  assert (I0 : forall x, x = 0 -> isclose x 0 = true).
  { intros x ->. unfold isclose, tol. rewrite Rminus_0_r, Rabs_R0. destruct (Rle_dec _ _) as [|X]; [auto|exfalso; apply X; lra]. }
  rewrite !I0 by ring. f_equal. f_equal. f_equal; ring.
Qed.
(** finding: any other beam is rejected (the matrix is multiplied by the rotation twice instead of by it and its inverse),
    so spot radii along the principal axes, and the printed table, raise an AssertionError *)
(** along the principal axes the spot radii are those of the two sections *)
Theorem C38_normal_spot l scale q : 0 < l -> 0 < scale -> im (c00 q) < 0 -> im (c11 q) < 0 -> im (c01 q) = 0 ->
  exists x y, spot_radius_normal l scale q = Some (x, y, 0) /\ spot_radius l scale false q = Some x /\ spot_radius l scale true q = Some y /\
    0 < x /\ 0 < y /\ x ^ 2 * (PI * scale / l) * (- im (c00 q)) = 1 /\ y ^ 2 * (PI * scale / l) * (- im (c11 q)) = 1.
Proof.
  intros L S X Y Z. assert (P := PI_RGT_0). unfold spot_radius_normal, spot_radius, diag.
  rewrite fdiv_some by nra. cbn [obind]. rewrite Z, Ropp_0, C38_normal_aligned. cbn [obind]. rewrite !fdiv_some by lra. cbn [obind].
  assert (C : 0 < l / (scale * PI)) by (apply Rdiv_lt_0_compat; nra). set (c := l / (scale * PI)) in *.
  assert (A : 0 < c / - im (c00 q)) by (apply Rdiv_lt_0_compat; lra). assert (B : 0 < c / - im (c11 q)) by (apply Rdiv_lt_0_compat; lra).
  rewrite !fsqrt_some by lra. cbn [obind]. do 2 eexists. repeat apply conj; try reflexivity; try (apply sqrt_lt_R0; auto).
  - cbn [pow]. rewrite Rmult_1_r, sqrt_sqrt by lra. unfold c. field. lra.
  - cbn [pow]. rewrite Rmult_1_r, sqrt_sqrt by lra. unfold c. field. lra.
Qed.
Example C38_normal_spot_example : exists x y, spot_radius_normal PI 1 (CM (Cx 3 (-1)) c0 c0 (Cx 0 (-4))) = Some (x, y, 0) /\ x = 1 /\ y = 1 / 2.
Proof.
  assert (P := PI_RGT_0). destruct (C38_normal_spot PI 1 (CM (Cx 3 (-1)) c0 c0 (Cx 0 (-4)))) as (x & y & E & _ & _ & X & Y & A & B); cbn; try lra.
  exists x, y. split; [exact E|]. cbn [c00 c11 im] in A, B. replace (PI * 1 / PI) with 1 in A, B by (field; lra). split; nra.
Qed.
Theorem C38_normal_refuted l scale q : 1 / 10 ^ 8 < Rabs (im (c01 q)) -> spot_radius_normal l scale q = None.
Proof.
  intros B. assert (N : forall xx xy yy, 1 / 10 ^ 8 < Rabs xy -> normal xx xy yy = None).
  { clear. intros xx xy yy B. unfold normal. cbv zeta. set (a := angle xx xy yy). pose proof (sin2_cos2 a) as S. unfold Rsqr in S.
    set (ca := cos a) in *. set (sa := sin a) in *. clearbody ca sa.
    match goal with |- (if isclose ?u 0 then if isclose ?v 0 then _ else _ else _) = _ => set (r01 := u); set (r10 := v) end.
    assert (SUM : r01 + r10 = 2 * xy).
    { unfold r01, r10. transitivity (2 * ((sa * sa + ca * ca) * xy)); [ring|rewrite S; ring]. }
    clearbody r01 r10. unfold isclose, tol. rewrite !Rminus_0_r, !Rabs_R0, !Rmult_0_r, !Rplus_0_r.
    destruct (Rle_dec (Rabs r01) _) as [X|]; [|reflexivity]. destruct (Rle_dec (Rabs r10) _) as [Y|]; [|reflexivity]. exfalso.
    apply Rabs_def2b in X. apply Rabs_def2b in Y. replace (1 / 10 ^ 8) with (/ 100000000) in B by (cbn; field).
    unfold Rabs in B. destruct (Rcase_abs xy); lra. }
  unfold spot_radius_normal. destruct (fdiv _ _); cbn [obind]; [|reflexivity]. rewrite N; [reflexivity|]. rewrite Rabs_Ropp. auto.
Qed.
Example C38_normal_refuted_example : 1 / 10 ^ 8 < Rabs (im (c01 (CM (Cx 0 (-2)) (Cx 0 (-1)) (Cx 0 (-1)) (Cx 0 (-2))))).
Proof. cbn. rewrite Rabs_left by lra. lra. Qed.

(** * resonators *)
(** the complex number z is the radius of a beam that the matrix (a b; c d) gives back *)
Definition gives_back (a b c d : R) (z : cx) : Prop := cadd (cmul (rc a) z) (rc b) = cmul z (cadd (cmul (rc c) z) (rc d)).
Theorem C38_eigenmodes roots m modes q : (forall a b c r, In r (roots a b c) -> cadd (cadd (cmul (rc a) (cmul r r)) (cmul (rc b) r)) (rc c) = c0) ->
  decoupled m -> conserves m -> eigenmodes roots m = Some modes -> In q modes -> beam_act m q = Some q.
Proof.
  intros RT DC CV E I. unfold eigenmodes in E. destruct (is_simple_astigmatic m); [|discriminate].
  assert (PM : forall xs ys ms, pair_modes xs ys = Some ms -> In q ms -> exists x y, In x xs /\ In y ys /\ x <> c0 /\ y <> c0 /\ q = CM (cdiv c1 x) c0 c0 (cdiv c1 y)).
  { clear. induction xs as [|x xs IH]; intros [|y ys] ms E I; cbn in E; try discriminate.
    - injection E as <-. contradiction.
    - destruct (fcdiv c1 x) as [x'|] eqn:X; cbn [obind] in E; [|discriminate]. destruct (fcdiv c1 y) as [y'|] eqn:Y; cbn [obind] in E; [|discriminate].
      destruct (pair_modes xs ys) as [r|] eqn:P; cbn [obind] in E; [|discriminate]. injection E as <-.
      apply fcdiv_inv in X. destruct X as (X & ->). apply fcdiv_inv in Y. destruct Y as (Y & ->).
      destruct I as [I|I].
      + exists x, y. repeat apply conj; auto; left; auto.
      + destruct (IH ys r P I) as (u & v & A & B & C). exists u, v. repeat apply conj; try (right; auto); apply C. }
  destruct (PM _ _ _ E I) as (x & y & IX & IY & X & Y & ->). clear PM E I.
  pose proof (symplectic_block false m CV DC) as BX. pose proof (symplectic_block true m CV DC) as BY.
  unfold axis_roots in IX, IY. destruct (block false m) as [[[a b] c] d] eqn:B0. destruct (block true m) as [[[a' b'] c'] d'] eqn:B1.
  apply RT in IX. apply RT in IY.
  unfold block in B0, B1. injection B0 as A0 A1 A2 A3. injection B1 as A0' A1' A2' A3'.
  destruct DC as (Z0 & Z1 & Z2 & Z3 & Z4 & Z5 & Z6 & Z7).
  assert (KEY : forall a b c d x, a * d - b * c = 1 -> x <> c0 -> cadd (cadd (cmul (rc c) (cmul x x)) (cmul (rc (d - a)) x)) (rc (- b)) = c0 ->
    cadd (rc a) (cmul (rc b) (cdiv c1 x)) = cadd (cmul (rc c) x) (rc d) /\ cadd (cmul (rc c) x) (rc d) <> c0).
  { clear. intros a b c d x D X R.
    assert (R' : cadd (cmul (rc a) x) (rc b) = cmul x (cadd (cmul (rc c) x) (rc d))).
    { transitivity (csub (cmul x (cadd (cmul (rc c) x) (rc d))) (cadd (cadd (cmul (rc c) (cmul x x)) (cmul (rc (d - a)) x)) (rc (- b)))).
      - replace (rc (d - a)) with (csub (rc d) (rc a)) by (apply cx_eq; cbn; ring). replace (rc (- b)) with (cneg (rc b)) by (apply cx_eq; cbn; ring). ring.
      - rewrite R. ring. }
    split.
    - transitivity (cdiv (cadd (cmul (rc a) x) (rc b)) x); [field; auto|]. rewrite R'. field. auto.
    - intros Z. rewrite Z in R'. assert (W : cmul (rc (a * d - b * c)) c1 = c0).
      { transitivity (csub (cmul (rc a) (cadd (cmul (rc c) x) (rc d))) (cmul (rc c) (cadd (cmul (rc a) x) (rc b)))); [apply cx_eq; cbn; ring|].
        rewrite Z, R'. ring. }
      rewrite D in W. apply (f_equal re) in W. cbn in W. lra. }
  destruct (KEY a b c d x BX X IX) as (K0 & K1). destruct (KEY a' b' c' d' y BY Y IY) as (K0' & K1').
  assert (DEN : den m (CM (cdiv c1 x) c0 c0 (cdiv c1 y)) = CM (cadd (cmul (rc c) x) (rc d)) c0 c0 (cadd (cmul (rc c') y) (rc d'))).
  { unfold den, blk_a, blk_b. rewrite Z0, Z1, Z2, Z3, A0, A1, A0', A1'. change (rc 0) with c0. rewrite <- K0, <- K0'. cm_ring. }
  apply act_inv. rewrite DEN. split.
  - unfold cdet. cbn [c00 c01 c10 c11]. intros E. assert (E' : cmul (cadd (cmul (rc c) x) (rc d)) (cadd (cmul (rc c') y) (rc d')) = c0).
    { rewrite <- E. ring. }
    apply cmul_zero in E'. tauto.
  - unfold num, blk_c, blk_d. rewrite Z4, Z5, Z6, Z7, A2, A3, A2', A3'. change (rc 0) with c0.
    apply cm_eq; unfold cmm, cma; cbn [c00 c01 c10 c11]; field; auto.
Qed.
Example C38_eigenmodes_example : exists roots : R -> R -> R -> list cx, In (Cx 0 1) (roots (-1) (0 - 0) (- 1)) /\
  cadd (cadd (cmul (rc (-1)) (cmul (Cx 0 1) (Cx 0 1))) (cmul (rc (0 - 0)) (Cx 0 1))) (rc (- 1)) = c0.
Proof. exists (fun _ _ _ => [Cx 0 1; Cx 0 (-1)]). split; [left; auto|]. apply cx_eq; cbn; ring. Qed.
(** a resonator is called stable exactly if there is one and only one confined beam that it gives back *)
Theorem C38_stable m axis a b c d : block axis m = (a, b, c, d) -> a * d - b * c = 1 ->
  (stable m axis = true <-> exists z, (0 < im z /\ gives_back a b c d z) /\ forall z', 0 < im z' -> gives_back a b c d z' -> z' = z).
Proof.
  intros BL D. unfold stable, half_trace. rewrite BL.
  assert (GB : forall x y, gives_back a b c d (Cx x y) <-> (a * x + b = x * (c * x + d) - c * y * y /\ a * y = y * (2 * c * x + d))).
  { intros x y. unfold gives_back. split.
    - intros E. injection E as E1 E2. cbn in E1, E2. split; lra.
    - intros (E1 & E2). apply cx_eq; cbn; lra. }
  assert (IFF : (if Rlt_dec (((a + d) / 2) ^ 2) 1 then true else false) = true <-> ((a + d) / 2) ^ 2 < 1).
  { destruct (Rlt_dec _ _); split; auto; discriminate. }
  rewrite IFF. clear IFF. split.
  - intros H. assert (C : c <> 0).
    { intros ->. pose proof (Rle_0_sqr (a - d)) as Q. unfold Rsqr in Q.
      assert (K : ((a + d) / 2) ^ 2 = (a - d) * (a - d) / 4 + (a * d - b * 0)) by field. lra. }
    set (s := sqrt (1 - ((a + d) / 2) ^ 2)). assert (SP : 0 < s) by (apply sqrt_lt_R0; lra).
    assert (SS : s * s = 1 - ((a + d) / 2) ^ 2) by (apply sqrt_sqrt; lra). clearbody s.
    assert (AC : 0 < Rabs c) by (apply Rabs_pos_lt; auto). assert (AC2 : Rabs c * Rabs c = c * c) by (rewrite <- Rabs_mult; apply Rabs_pos_eq; nra).
    exists (Cx ((a - d) / (2 * c)) (s / Rabs c)). split.
    + split; [cbn; apply Rdiv_lt_0_compat; auto|]. apply GB. split.
      * assert (Y2 : c * (s / Rabs c) * (s / Rabs c) = (1 - ((a + d) / 2) ^ 2) / c).
        { transitivity (c * (s * s) / (Rabs c * Rabs c)); [field; lra|]. rewrite SS, AC2. field. auto. }
        rewrite Y2. apply (Rmult_eq_reg_r c); [|auto].
        transitivity (a * (a - d) / 2 + b * c); [field; auto|]. replace (b * c) with (a * d - 1) by lra. field. auto.
      * field. split; lra.
    + intros [x y] Y G. cbn in Y. apply GB in G. destruct G as (G1 & G2).
      assert (X : x = (a - d) / (2 * c)).
      { apply (Rmult_eq_reg_r (2 * c)); [|lra]. transitivity (a - d); [|field; auto]. apply (Rmult_eq_reg_r y); [|lra]. lra. }
      assert (YY : (y * Rabs c) * (y * Rabs c) = s * s).
      { transitivity (y * y * (Rabs c * Rabs c)); [ring|]. rewrite AC2, SS.
        transitivity (c * (x * (c * x + d) - (a * x + b))); [rewrite G1; ring|]. 
        transitivity ((c * x) * (c * x) + (d - a) * (c * x) - b * c); [ring|].
        replace (c * x) with ((a - d) / 2) by (rewrite X; field; auto). replace (b * c) with (a * d - 1) by lra. field. }
      assert (YS : y * Rabs c = s).
      { apply Rsqr_inj; [apply Rmult_le_pos; lra|lra|exact YY]. }
      apply cx_eq; cbn; [auto|]. rewrite <- YS. field. lra.
  - intros ([x y] & (Y & G) & U). cbn in Y. apply GB in G. destruct G as (G1 & G2).
    assert (E : a = 2 * c * x + d) by (apply (Rmult_eq_reg_r y); lra).
    destruct (Req_EM_T c 0) as [C|C].
    + exfalso. subst c. assert (AD : a = d) by lra. assert (B : b = 0) by (subst a; lra).
      specialize (U (Cx x (2 * y)) ltac:(cbn; lra)). assert (G : gives_back a b 0 d (Cx x (2 * y))) by (apply GB; subst b d; split; ring).
      apply U in G. injection G. lra.
    + assert (0 < (c * y) * (c * y)). { pose proof (Rlt_0_sqr (c * y)) as Q. unfold Rsqr in Q. apply Q. nra. }
      assert (K : (c * y) * (c * y) = 1 - ((a + d) / 2) ^ 2).
      { transitivity (c * (x * (c * x + d) - (a * x + b))); [rewrite G1; ring|].
        transitivity ((c * x) * (c * x) + (d - a) * (c * x) - b * c); [ring|].
        replace (c * x) with ((a - d) / 2) by lra. replace (b * c) with (a * d - 1) by lra. field. }
      lra.
Qed.
Example C38_stable_example : let m := M4 (V4 0 0 1 0) (V4 0 0 0 1) (V4 (-1) 0 0 0) (V4 0 (-1) 0 0) in
  block true m = (0, 1, -1, 0) /\ 0 * 0 - 1 * -1 = 1 /\ stable m true = true.
Proof. cbn. split; [reflexivity|]. split; [ring|]. unfold stable, half_trace, block. cbn. destruct (Rlt_dec _ 1) as [|X]; [auto|exfalso; apply X; lra]. Qed.
(** spec: eigenvalue of a real 2x2 matrix *)
Definition eigenvalue (a b c d : R) (v : cx) : Prop :=
  exists x y, (x <> c0 \/ y <> c0) /\ cadd (cmul (rc a) x) (cmul (rc b) y) = cmul v x /\ cadd (cmul (rc c) x) (cmul (rc d) y) = cmul v y.
Theorem C38_eigenvalues m axis a b c d : block axis m = (a, b, c, d) -> a * d - b * c = 1 ->
  let '(v, w) := eigenvalues m axis in
  eigenvalue a b c d v /\ eigenvalue a b c d w /\ cmul v w = c1 /\ cadd v w = rc (a + d) /\
  (stable m axis = true -> cabs2 v = 1 /\ cabs2 w = 1 /\ v <> w).
Proof.
  intros BL D. unfold eigenvalues, stable, half_trace. rewrite BL. set (h := (a + d) / 2).
  assert (SQ : cmul (csqrt_real (h ^ 2 - 1)) (csqrt_real (h ^ 2 - 1)) = rc (h * h - 1)).
  { unfold csqrt_real. destruct (Rle_dec 0 (h ^ 2 - 1)) as [P|P].
    - apply cx_eq; cbn [re im cmul rc]; [rewrite sqrt_sqrt by auto; ring|ring].
    - apply cx_eq; cbn [re im cmul rc]; [|ring]. rewrite sqrt_sqrt by lra. ring. }
  assert (ST : h ^ 2 < 1 -> csqrt_real (h ^ 2 - 1) = Cx 0 (sqrt (- (h ^ 2 - 1)))).
  { intros L. unfold csqrt_real. destruct (Rle_dec 0 (h ^ 2 - 1)); [lra|auto]. }
  set (s := csqrt_real (h ^ 2 - 1)) in *.
  assert (EV : forall v, csub (cmul v v) (cmul (rc (a + d)) v) = cneg c1 -> eigenvalue a b c d v).
  { intros v V. assert (Z : cdet (CM (csub (rc a) v) (rc b) (rc c) (csub (rc d) v)) = c0).
    { unfold cdet. cbn [c00 c01 c10 c11]. transitivity (cadd (rc (a * d - b * c)) (csub (cmul v v) (cmul (rc (a + d)) v))).
      - apply cx_eq; cbn; ring.
      - rewrite D, V. apply cx_eq; cbn; ring. }
    destruct (singular _ Z) as (x & y & N & E1 & E2). cbn [c00 c01 c10 c11] in E1, E2. exists x, y. split; [auto|]. split.
    - transitivity (cadd (cadd (cmul (csub (rc a) v) x) (cmul (rc b) y)) (cmul v x)); [ring|]. rewrite E1. ring.
    - transitivity (cadd (cadd (cmul (rc c) x) (cmul (csub (rc d) v) y)) (cmul v y)); [ring|]. rewrite E2. ring. }
  assert (HD : rc (a + d) = cadd (rc h) (rc h)) by (apply cx_eq; cbn; unfold h; field).
  repeat apply conj.
  - apply EV. rewrite HD. transitivity (csub (cmul s s) (cmul (rc h) (rc h))); [ring|]. rewrite SQ. apply cx_eq; cbn; ring.
  - apply EV. rewrite HD. transitivity (csub (cmul s s) (cmul (rc h) (rc h))); [ring|]. rewrite SQ. apply cx_eq; cbn; ring.
  - transitivity (csub (cmul (rc h) (rc h)) (cmul s s)); [ring|]. rewrite SQ. apply cx_eq; cbn; ring.
  - rewrite HD. ring.
  - destruct (Rlt_dec (h ^ 2) 1) as [L|]; [|discriminate]. intros _. rewrite (ST L). 
    assert (P : 0 < sqrt (- (h ^ 2 - 1))) by (apply sqrt_lt_R0; lra). assert (Q : sqrt (- (h ^ 2 - 1)) * sqrt (- (h ^ 2 - 1)) = - (h ^ 2 - 1)) by (apply sqrt_sqrt; lra).
    set (k := sqrt (- (h ^ 2 - 1))) in *. clearbody k. unfold cabs2. cbn. split; [|split].
    + rewrite Rplus_0_r, Rplus_0_l. cbn in Q. lra.
    + rewrite Rminus_0_r. replace ((0 - k) * (0 - k)) with (k * k) by ring. cbn in Q. lra.
    + intros E. apply (f_equal im) in E. cbn in E. lra.
Qed.

(** * symplectic check *)
(** the inverse of a symplectic matrix *)
Definition sinv (m : m4) : m4 :=
  M4 (V4 (w2 (q2 m)) (w2 (q3 m)) (- w2 (q0 m)) (- w2 (q1 m))) (V4 (w3 (q2 m)) (w3 (q3 m)) (- w3 (q0 m)) (- w3 (q1 m)))
     (V4 (- w0 (q2 m)) (- w0 (q3 m)) (w0 (q0 m)) (w0 (q1 m))) (V4 (- w1 (q2 m)) (- w1 (q3 m)) (w1 (q0 m)) (w1 (q1 m))).
Lemma omega_adjoint m a b : omega (mv4 m a) b = omega a (mv4 (sinv m) b).
Proof. unfold omega, mv4, sinv, dot4. cbn [q0 q1 q2 q3 w0 w1 w2 w3]. ring. Qed.
Lemma omega_nondegenerate x y : (forall a, omega a x = omega a y) -> x = y.
Proof.
  intros H. pose proof (H (V4 1 0 0 0)) as A. pose proof (H (V4 0 1 0 0)) as B. pose proof (H (V4 0 0 1 0)) as C. pose proof (H (V4 0 0 0 1)) as D.
  unfold omega in *. cbn [w0 w1 w2 w3] in *. apply v4_eq; lra.
Qed.
Lemma cramer m v : det4 m <> 0 -> mv4 m v = V4 0 0 0 0 -> v = V4 0 0 0 0.
Proof.
  destruct m as [[a0 a1 a2 a3] [a4 a5 a6 a7] [a8 a9 a10 a11] [a12 a13 a14 a15]]. destruct v as [x y z w].
  unfold mv4, dot4. cbn [q0 q1 q2 q3 w0 w1 w2 w3]. intros N E. injection E as E0 E1 E2 E3.
  assert (K : forall t, det4 (M4 (V4 a0 a1 a2 a3) (V4 a4 a5 a6 a7) (V4 a8 a9 a10 a11) (V4 a12 a13 a14 a15)) * t = 0 -> t = 0).
  { intros t H. apply Rmult_integral in H. tauto. }
  apply v4_eq; cbn [w0 w1 w2 w3]; apply K; unfold det4.
  - transitivity ((a0 * x + a1 * y + a2 * z + a3 * w) * det3' a5 a6 a7 a9 a10 a11 a13 a14 a15 - (a4 * x + a5 * y + a6 * z + a7 * w) * det3' a1 a2 a3 a9 a10 a11 a13 a14 a15
      + (a8 * x + a9 * y + a10 * z + a11 * w) * det3' a1 a2 a3 a5 a6 a7 a13 a14 a15 - (a12 * x + a13 * y + a14 * z + a15 * w) * det3' a1 a2 a3 a5 a6 a7 a9 a10 a11).
    + unfold det3'. ring.
    + rewrite E0, E1, E2, E3. ring.
  - transitivity (- (a0 * x + a1 * y + a2 * z + a3 * w) * det3' a4 a6 a7 a8 a10 a11 a12 a14 a15 + (a4 * x + a5 * y + a6 * z + a7 * w) * det3' a0 a2 a3 a8 a10 a11 a12 a14 a15
      - (a8 * x + a9 * y + a10 * z + a11 * w) * det3' a0 a2 a3 a4 a6 a7 a12 a14 a15 + (a12 * x + a13 * y + a14 * z + a15 * w) * det3' a0 a2 a3 a4 a6 a7 a8 a10 a11).
    + unfold det3'. ring.
    + rewrite E0, E1, E2, E3. ring.
  - transitivity ((a0 * x + a1 * y + a2 * z + a3 * w) * det3' a4 a5 a7 a8 a9 a11 a12 a13 a15 - (a4 * x + a5 * y + a6 * z + a7 * w) * det3' a0 a1 a3 a8 a9 a11 a12 a13 a15
      + (a8 * x + a9 * y + a10 * z + a11 * w) * det3' a0 a1 a3 a4 a5 a7 a12 a13 a15 - (a12 * x + a13 * y + a14 * z + a15 * w) * det3' a0 a1 a3 a4 a5 a7 a8 a9 a11).
    + unfold det3'. ring.
    + rewrite E0, E1, E2, E3. ring.
  - transitivity (- (a0 * x + a1 * y + a2 * z + a3 * w) * det3' a4 a5 a6 a8 a9 a10 a12 a13 a14 + (a4 * x + a5 * y + a6 * z + a7 * w) * det3' a0 a1 a2 a8 a9 a10 a12 a13 a14
      - (a8 * x + a9 * y + a10 * z + a11 * w) * det3' a0 a1 a2 a4 a5 a6 a12 a13 a14 + (a12 * x + a13 * y + a14 * z + a15 * w) * det3' a0 a1 a2 a4 a5 a6 a8 a9 a10).
    + unfold det3'. ring.
    + rewrite E0, E1, E2, E3. ring.
Qed.
Lemma mv4_sub m a b : mv4 m (V4 (w0 a - w0 b) (w1 a - w1 b) (w2 a - w2 b) (w3 a - w3 b)) =
  V4 (w0 (mv4 m a) - w0 (mv4 m b)) (w1 (mv4 m a) - w1 (mv4 m b)) (w2 (mv4 m a) - w2 (mv4 m b)) (w3 (mv4 m a) - w3 (mv4 m b)).
Proof. apply v4_eq; unfold mv4, dot4; cbn [q0 q1 q2 q3 w0 w1 w2 w3]; ring. Qed.
Lemma mv4_inj m a b : det4 m <> 0 -> mv4 m a = mv4 m b -> a = b.
Proof.
  intros D E. assert (Z : mv4 m (V4 (w0 a - w0 b) (w1 a - w1 b) (w2 a - w2 b) (w3 a - w3 b)) = V4 0 0 0 0).
  { rewrite mv4_sub, E. apply v4_eq; cbn [w0 w1 w2 w3]; ring. }
  apply cramer in Z; [|auto]. injection Z as A B C F. apply v4_eq; lra.
Qed.
Lemma sinv_det m : det4 (sinv m) = det4 m.
Proof.
  destruct m as [[a0 a1 a2 a3] [a4 a5 a6 a7] [a8 a9 a10 a11] [a12 a13 a14 a15]]. unfold sinv. cbn [q0 q1 q2 q3 w0 w1 w2 w3]. unfold det4, det3'. ring.
Qed.
(** the check compares exactly what makes the matrix conserve the invariant of any two rays; so it passes for every aligned system *)
Theorem C38_proper m : (Forall (fun p => fst p = snd p) (proper_pairs m) <-> conserves m) /\ (conserves m -> is_proper m = true).
Proof.
  assert (PAIRS : Forall (fun p => fst p = snd p) (proper_pairs m) <-> forall v, mv4 m (mv4 (sinv m) v) = v).
  { destruct m as [[a0 a1 a2 a3] [a4 a5 a6 a7] [a8 a9 a10 a11] [a12 a13 a14 a15]].
    unfold proper_pairs, sinv, mv4, dot4. cbn [q0 q1 q2 q3 w0 w1 w2 w3 app]. split.
    - intros F. inversion F as [|? ? H1 F1]; subst; clear F. inversion F1 as [|? ? H2 F2]; subst; clear F1. inversion F2 as [|? ? H3 F3]; subst; clear F2.
      inversion F3 as [|? ? H4 F4]; subst; clear F3. inversion F4 as [|? ? H5 F5]; subst; clear F4. inversion F5 as [|? ? H6 F6]; subst; clear F5.
      inversion F6 as [|? ? H7 F7]; subst; clear F6. inversion F7 as [|? ? H8 F8]; subst; clear F7. inversion F8 as [|? ? H9 F9]; subst; clear F8.
      inversion F9 as [|? ? H10 F10]; subst; clear F9. inversion F10 as [|? ? H11 F11]; subst; clear F10. inversion F11 as [|? ? H12 F12]; subst; clear F11 F12.
      cbn [fst snd] in *. intros [x y z w]. cbn [w0 w1 w2 w3]. apply v4_eq; cbn [w0 w1 w2 w3].
      + transitivity ((a0 * a10 + a1 * a11 - (a2 * a8 + a3 * a9)) * x + (a0 * a14 + a1 * a15 - (a2 * a12 + a3 * a13)) * y
          - ((a0 * a2 + a1 * a3) - (a2 * a0 + a3 * a1)) * z - ((a0 * a6 + a1 * a7) - (a2 * a4 + a3 * a5)) * w); [ring|]. rewrite H1, H2, H6. ring.
      + transitivity ((a4 * a10 + a5 * a11 - (a6 * a8 + a7 * a9)) * x + (a4 * a14 + a5 * a15 - (a6 * a12 + a7 * a13)) * y
          - ((a4 * a2 + a5 * a3) - (a6 * a0 + a7 * a1)) * z - ((a4 * a6 + a5 * a7) - (a6 * a4 + a7 * a5)) * w); [ring|]. rewrite H3, H4, H7. ring.
      + transitivity (((a8 * a10 + a9 * a11) - (a10 * a8 + a11 * a9)) * x + ((a8 * a14 + a9 * a15) - (a10 * a12 + a11 * a13)) * y
          + (a0 * a10 + a1 * a11 - (a2 * a8 + a3 * a9)) * z + (a4 * a10 + a5 * a11 - (a6 * a8 + a7 * a9)) * w); [ring|]. rewrite H1, H3, H10. ring.
      + transitivity (((a12 * a10 + a13 * a11) - (a14 * a8 + a15 * a9)) * x + ((a12 * a14 + a13 * a15) - (a14 * a12 + a15 * a13)) * y
          + (a0 * a14 + a1 * a15 - (a2 * a12 + a3 * a13)) * z + (a4 * a14 + a5 * a15 - (a6 * a12 + a7 * a13)) * w); [ring|]. rewrite H2, H4, H11. ring.
    - intros V. pose proof (V (V4 1 0 0 0)) as V0. pose proof (V (V4 0 1 0 0)) as V1. pose proof (V (V4 0 0 1 0)) as V2. pose proof (V (V4 0 0 0 1)) as V3. clear V.
      cbn [w0 w1 w2 w3] in *. injection V0 as A0 A1 A2 A3. injection V1 as B0 B1 B2 B3. injection V2 as C0 C1 C2 C3. injection V3 as D0 D1 D2 D3.
      repeat (apply Forall_cons; [cbn [fst snd]; lra|]). apply Forall_nil. }
  assert (IFF : Forall (fun p => fst p = snd p) (proper_pairs m) <-> conserves m).
  { rewrite PAIRS. split.
    - intros RI a b. change (omega (mv4 m a) (mv4 m b) = omega a b). rewrite omega_adjoint. f_equal.
      assert (D : det4 m <> 0).
      { assert (E : mm4 m (sinv m) = eye4).
        { pose proof (RI (V4 1 0 0 0)) as V0. pose proof (RI (V4 0 1 0 0)) as V1. pose proof (RI (V4 0 0 1 0)) as V2. pose proof (RI (V4 0 0 0 1)) as V3.
          rewrite <- mv4_mm4 in V0, V1, V2, V3. set (p := mm4 m (sinv m)) in *. clearbody p. clear RI.
          destruct p as [[b0 b1 b2 b3] [b4 b5 b6 b7] [b8 b9 b10 b11] [b12 b13 b14 b15]]. unfold mv4, dot4 in *. cbn [q0 q1 q2 q3 w0 w1 w2 w3] in *.
          injection V0 as A0 A1 A2 A3. injection V1 as B0 B1 B2 B3. injection V2 as C0 C1 C2 C3. injection V3 as D0 D1 D2 D3.
          unfold eye4. apply m4_eq; cbn [q0 q1 q2 q3]; apply v4_eq; cbn [w0 w1 w2 w3]; lra. }
        intros Z. assert (X : det4 (mm4 m (sinv m)) = 1) by (rewrite E; unfold eye4, det4, det3'; ring). rewrite det4_mm, Z in X. lra. }
      apply (mv4_inj m); [auto|]. apply RI.
    - intros C v. assert (LI : forall b, mv4 (sinv m) (mv4 m b) = b).
      { intros b. apply omega_nondegenerate. intros a. rewrite <- omega_adjoint. apply C. }
      apply (mv4_inj (sinv m)); [|apply LI]. rewrite sinv_det. rewrite (symplectic_det m C). lra. }
  split; [exact IFF|]. intros C. apply IFF in C. unfold is_proper. apply forallb_forall. intros p I. rewrite Forall_forall in C. rewrite (C p I).
  unfold isclose, tol. rewrite Rminus_diag_eq by reflexivity. rewrite Rabs_R0. pose proof (Rabs_pos (snd p)). destruct (Rle_dec _ _) as [|X]; [auto|exfalso; apply X; lra].
Qed.
(** the comparisons are numpy's: absolute tolerance 10^-8, relative tolerance 10^-5 *)
Definition within_tol (x y : R) : Prop := Rabs (x - y) <= 1 / 10 ^ 8 + 1 / 10 ^ 5 * Rabs y.
Lemma isclose_within x y : isclose x y = true <-> within_tol x y.
Proof.
  unfold within_tol. replace (1 / 10 ^ 8) with (/ 100000000) by (cbn; field). replace (1 / 10 ^ 5) with (/ 100000) by (cbn; field). apply isclose_true.
Qed.
(** upper and lower half of rows: ray heights and slopes they take *)
Definition hrow (m : m4) (j : bool) : v4 := if j then q1 m else q0 m.
Definition srow (m : m4) (j : bool) : v4 := if j then q3 m else q2 m.
Definition hs (a b : v4) : R := w0 a * w2 b + w1 a * w3 b.
Theorem C38_proper_tolerance m : is_proper m = true <-> forall i j,
  within_tol (hs (hrow m i) (srow m j) - hs (srow m j) (hrow m i)) (if Bool.eqb i j then 1 else 0) /\
  within_tol (hs (hrow m i) (hrow m j)) (hs (hrow m j) (hrow m i)) /\ within_tol (hs (srow m i) (srow m j)) (hs (srow m j) (srow m i)).
Proof.
  destruct m as [[a0 a1 a2 a3] [a4 a5 a6 a7] [a8 a9 a10 a11] [a12 a13 a14 a15]]. unfold is_proper. rewrite forallb_forall.
  unfold proper_pairs, hs, hrow, srow. cbn [q0 q1 q2 q3 w0 w1 w2 w3 app]. split.
  - intros H i j. repeat apply conj.
    all: apply isclose_within; match goal with |- isclose ?x ?y = true => enough (E : exists p, In p _ /\ fst p = x /\ snd p = y) by (destruct E as (p & I & <- & <-); exact (H p I)) end.
    all: destruct i, j; cbn [Bool.eqb q0 q1 q2 q3 w0 w1 w2 w3].
    all: match goal with |- exists p, In p ?l /\ fst p = ?x /\ snd p = ?y => exists (x, y); split; [|auto] end.
    all: cbn [In].
    1: do 3 right; left; f_equal; ring. 1: do 2 right; left; f_equal; ring. 1: do 1 right; left; f_equal; ring. 1: left; f_equal; ring.
    1: do 7 right; left; f_equal; ring. 1: do 6 right; left; f_equal; ring. 1: do 5 right; left; f_equal; ring. 1: do 4 right; left; f_equal; ring.
    1: do 11 right; left; f_equal; ring. 1: do 10 right; left; f_equal; ring. 1: do 9 right; left; f_equal; ring. 1: do 8 right; left; f_equal; ring.
  - intros H p I.
    pose proof (H true true) as (A & B & C). pose proof (H true false) as (D & E & F). pose proof (H false true) as (G & J & K). pose proof (H false false) as (L & M & N). clear H. cbn [Bool.eqb q0 q1 q2 q3 w0 w1 w2 w3] in *.
    cbn [In] in I. repeat destruct I as [<-|I]; [..|contradiction]; cbn [fst snd]; apply isclose_within.
    all: match goal with |- within_tol ?x ?y => match goal with H : within_tol ?a ?b |- _ => replace x with a by ring; replace y with b by ring; exact H end end.
Qed.
(** a beam train passes as simple astigmatic iff rays in each of the two sections stay in it, up to 10^-8 of their coordinates *)
Theorem C38_sections m : is_simple_astigmatic m = true <-> forall a b,
  (let v := mv4 m (V4 a 0 b 0) in Rabs (w1 v) <= 1 / 10 ^ 8 * (Rabs a + Rabs b) /\ Rabs (w3 v) <= 1 / 10 ^ 8 * (Rabs a + Rabs b)) /\
  (let v := mv4 m (V4 0 a 0 b) in Rabs (w0 v) <= 1 / 10 ^ 8 * (Rabs a + Rabs b) /\ Rabs (w2 v) <= 1 / 10 ^ 8 * (Rabs a + Rabs b)).
Proof.
  set (e := 1 / 10 ^ 8). assert (E0 : 0 < e) by (unfold e; cbn; lra).
  assert (I : forall x, isclose x 0 = true <-> Rabs x <= e).
  { intros x. rewrite isclose_within. unfold within_tol. fold e. rewrite Rminus_0_r, Rabs_R0, Rmult_0_r, Rplus_0_r. reflexivity. }
  assert (L : forall x y, (Rabs x <= e /\ Rabs y <= e) <-> forall a b, Rabs (x * a + y * b) <= e * (Rabs a + Rabs b)).
  { intros x y. split.
    - intros (X & Y) a b. eapply Rle_trans; [apply Rabs_triang|]. rewrite !Rabs_mult, Rmult_plus_distr_l. apply Rplus_le_compat; apply Rmult_le_compat_r; auto; apply Rabs_pos.
    - intros H. pose proof (H 1 0) as A. pose proof (H 0 1) as B. rewrite Rabs_R1, Rabs_R0, !Rplus_0_r, !Rmult_1_r, Rmult_0_r, Rplus_0_r in A.
      rewrite Rabs_R1, Rabs_R0, Rmult_0_r, Rplus_0_l, Rplus_0_l, !Rmult_1_r in B. auto. }
  destruct m as [[a0 a1 a2 a3] [a4 a5 a6 a7] [a8 a9 a10 a11] [a12 a13 a14 a15]].
  unfold is_simple_astigmatic. cbn [forallb q0 q1 q2 q3 w0 w1 w2 w3]. rewrite !Bool.andb_true_iff, !I.
  unfold mv4, dot4. cbn [q0 q1 q2 q3 w0 w1 w2 w3]. pose proof (L a1 a3) as L1. pose proof (L a4 a6) as L2. pose proof (L a9 a11) as L3. pose proof (L a12 a14) as L4. clear L I. split.
  - intros (A & B & C & D & F & G & H & J & _) a b.
    repeat apply conj.
    + replace (a4 * a + a5 * 0 + a6 * b + a7 * 0) with (a4 * a + a6 * b) by ring. apply L2; auto.
    + replace (a12 * a + a13 * 0 + a14 * b + a15 * 0) with (a12 * a + a14 * b) by ring. apply L4; auto.
    + replace (a0 * 0 + a1 * a + a2 * 0 + a3 * b) with (a1 * a + a3 * b) by ring. apply L1; auto.
    + replace (a8 * 0 + a9 * a + a10 * 0 + a11 * b) with (a9 * a + a11 * b) by ring. apply L3; auto.
  - intros H.
    assert (A1 : Rabs a1 <= e /\ Rabs a3 <= e) by (apply L1; intros a b; destruct (H a b) as (_ & K & _); replace (a1 * a + a3 * b) with (a0 * 0 + a1 * a + a2 * 0 + a3 * b) by ring; exact K).
    assert (A2 : Rabs a4 <= e /\ Rabs a6 <= e) by (apply L2; intros a b; destruct (H a b) as ((K & _) & _); replace (a4 * a + a6 * b) with (a4 * a + a5 * 0 + a6 * b + a7 * 0) by ring; exact K).
    assert (A3 : Rabs a9 <= e /\ Rabs a11 <= e) by (apply L3; intros a b; destruct (H a b) as (_ & _ & K); replace (a9 * a + a11 * b) with (a8 * 0 + a9 * a + a10 * 0 + a11 * b) by ring; exact K).
    assert (A4 : Rabs a12 <= e /\ Rabs a14 <= e) by (apply L4; intros a b; destruct (H a b) as ((_ & K) & _); replace (a12 * a + a14 * b) with (a12 * a + a13 * 0 + a14 * b + a15 * 0) by ring; exact K).
    tauto.
Qed.
Example C38_sections_example : is_simple_astigmatic (M4 (V4 1 0 2 0) (V4 0 3 0 2) (V4 4 0 1 0) (V4 0 5 0 1)) = true /\
  is_simple_astigmatic (M4 (V4 1 1 2 0) (V4 0 3 0 2) (V4 4 0 1 0) (V4 0 5 0 1)) = false.
Proof.
  split.
  - apply C38_sections. intros a b. unfold mv4, dot4. cbn [q0 q1 q2 q3 w0 w1 w2 w3]. rewrite !Rmult_0_l, !Rmult_0_r, !Rplus_0_r, Rabs_R0. pose proof (Rabs_pos a). pose proof (Rabs_pos b). cbn [pow]. lra.
  - apply Bool.not_true_iff_false. intros H. rewrite C38_sections in H. destruct (H 1 0) as (_ & K & _). unfold mv4, dot4 in K. cbn [q0 q1 q2 q3 w0 w1 w2 w3] in K.
    replace (1 * 0 + 1 * 1 + 2 * 0 + 0 * 0) with 1 in K by ring. rewrite Rabs_R1, Rabs_R0 in K. cbn [pow] in K. lra.
Qed.
Example C38_proper_tolerance_example : is_proper (M4 (V4 2 0 0 0) (V4 0 1 0 0) (V4 0 0 1 0) (V4 0 0 0 1)) = false.
Proof.
  apply Bool.not_true_iff_false. intros H. rewrite C38_proper_tolerance in H. destruct (H false false) as (K & _). unfold within_tol, hs, hrow, srow in K. cbn [q0 q1 q2 q3 w0 w1 w2 w3 Bool.eqb] in K.
  replace (2 * 1 + 0 * 0 - (0 * 0 + 0 * 0) - 1) with 1 in K by ring. rewrite Rabs_R1 in K. cbn [pow] in K. lra.
Qed.
Example C38_proper_example : conserves (M4 (V4 1 0 2 0) (V4 0 1 0 2) (V4 0 0 1 0) (V4 0 0 0 1)) /\
  ~ conserves (M4 (V4 2 0 0 0) (V4 0 1 0 0) (V4 0 0 1 0) (V4 0 0 0 1)).
Proof.
  split.
  - intros x y. unfold lagrange2, mv4, dot4. cbn [q0 q1 q2 q3 w0 w1 w2 w3]. ring.
  - intros H. specialize (H (V4 1 0 0 0) (V4 0 0 1 0)). unfold lagrange2, mv4, dot4 in H. cbn [q0 q1 q2 q3 w0 w1 w2 w3] in H. lra.
Qed.
Print Assumptions C38_textbook.
Print Assumptions C38_default.
Print Assumptions C38_rotated.
Print Assumptions C38_refocus.
Print Assumptions C38_normal_aligned.
Print Assumptions C38_normal_refuted.
Print Assumptions C38_eigenmodes.
Print Assumptions C38_stable.
Print Assumptions C38_eigenvalues.
Print Assumptions C38_proper.
Print Assumptions C38_normal_spot.
Print Assumptions C38_proper_tolerance.
Print Assumptions C38_sections.
