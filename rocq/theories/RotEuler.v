(** Euler angles -> matrix -> angles round trip. *)
From Coq Require Import Reals List Lra Lia Psatz Nsatz Arith.
From Verif Require Import Base Vec RotModel RotProofs.
Import ListNotations.
Open Scope R_scope.

Lemma rot_entries a b c d e f g h i :
  rotation (M (V a b c) (V d e f) (V g h i)) ->
  (a*a+b*b+c*c = 1 /\ d*d+e*e+f*f = 1 /\ g*g+h*h+i*i = 1) /\
  (a*d+b*e+c*f = 0 /\ a*g+b*h+c*i = 0 /\ d*g+e*h+f*i = 0) /\
  (a*a+d*d+g*g = 1 /\ b*b+e*e+h*h = 1 /\ c*c+f*f+i*i = 1) /\
  (a*b+d*e+g*h = 0 /\ a*c+d*f+g*i = 0 /\ b*c+e*f+h*i = 0) /\
  (a = e*i-f*h /\ b = f*g-d*i /\ c = d*h-e*g) /\
  (d = h*c-i*b /\ e = i*a-g*c /\ f = g*b-h*a) /\
  (g = b*f-c*e /\ h = c*d-a*f /\ i = a*e-b*d).
Proof.
  intros H. pose proof (rotation_cofactor _ H) as C. destruct H as (H1 & H2 & _).
  unfold cofactor in C. vec_simpl.
  injection H1; injection H2; injection C; intros.
  repeat split; lra.
Qed.

Definition core (rep : bool) (ai aj ak : R) : mat :=
  let si := sin ai in let sj := sin aj in let sk := sin ak in
  let ci := cos ai in let cj := cos aj in let ck := cos ak in
  if rep then
    M (V cj (sj * si) (sj * ci))
      (V (sj * sk) (- cj * (si * sk) + ci * ck) (- cj * (ci * sk) - si * ck))
      (V (- sj * ck) (cj * (si * ck) + ci * sk) (cj * (ci * ck) - si * sk))
  else
    M (V (cj * ck) (sj * (si * ck) - ci * sk) (sj * (ci * ck) + si * sk))
      (V (cj * sk) (sj * (si * sk) + ci * ck) (sj * (ci * sk) - si * ck))
      (V (- sj) (cj * si) (cj * ci)).

Definition core_angles (rep : bool) (n : mat) : R * R * R :=
  let '(M (V a b c) (V d e f) (V g h i)) := n in
  if rep then
    let sy := sqrt (b * b + c * c) in
    if Rlt_dec EPS sy then (atan2 b c, atan2 sy a, atan2 d (- g))
    else (atan2 (- f) e, atan2 sy a, 0)
  else
    let cy := sqrt (a * a + d * d) in
    if Rlt_dec EPS cy then (atan2 h i, atan2 (- g) cy, atan2 d a)
    else (atan2 (- f) e, atan2 (- g) cy, 0).

Definition perm (m : mat) (i j k : nat) : mat :=
  M (V (mget m i i) (mget m i j) (mget m i k))
    (V (mget m j i) (mget m j j) (mget m j k))
    (V (mget m k i) (mget m k j) (mget m k k)).

Ltac six f p H := destruct p; (destruct f as [|[|[|f]]]; [| | |exfalso; cbn in H; lia]).

Lemma perm_euler ai aj ak a : axes_ok a ->
  let '(x, z) := if ax_frame a then (ak, ai) else (ai, ak) in
  let '(x, y, z) := if ax_parity a then (- x, - aj, - z) else (x, aj, z) in
  perm (euler_matrix ai aj ak a) (ax_i a) (ax_j a) (ax_k a) = core (ax_rep a) x y z.
Proof.
  unfold axes_ok. destruct a as [f p r fr]. cbn [ax_first]. intros H.
  unfold ax_i, ax_j, ax_k, euler_matrix, ax_i, ax_j, ax_k, core.
  cbn [ax_first ax_parity ax_rep ax_frame].
  destruct fr; destruct r; six f p H; reflexivity.
Qed.

Lemma from_perm m a : axes_ok a ->
  euler_from_matrix m a =
  let '(x, y, z) := core_angles (ax_rep a) (perm m (ax_i a) (ax_j a) (ax_k a)) in
  let '(x, y, z) := if ax_parity a then (- x, - y, - z) else (x, y, z) in
  let '(x, z) := if ax_frame a then (z, x) else (x, z) in
  (x, y, z).
Proof.
  unfold axes_ok. destruct a as [f p r fr]. cbn [ax_first]. intros H.
  destruct r; reflexivity.
Qed.

Lemma perm_rotation m a : axes_ok a -> rotation m -> rotation (perm m (ax_i a) (ax_j a) (ax_k a)).
Proof.
  unfold axes_ok. destruct a as [f p r fr]. cbn [ax_first]. intros H.
  destruct m as [[a b c] [d e g] [h i j]]. intros R. apply rot_entries in R.
  destruct R as ((R1&R2&R3)&(R4&R5&R6)&(R7&R8&R9)&(R10&R11&R12)&(E1&E2&E3)&(E4&E5&E6)&(E7&E8&E9)).
  unfold ax_i, ax_j, ax_k. cbn [ax_first ax_parity].
  apply rotation_intro.
  - six f p H;
    cbv [perm b2n Nat.add Nat.sub next_axis List.nth mget mrow vget];
    vec_simpl; apply mat_eq; apply vec_eq; cbn [vx vy vz row0 row1 row2]; lra.
  - assert (D : a * (e*j-g*i) + b * (g*h-d*j) + c * (d*i-e*h) = 1) by (rewrite <- E1, <- E2, <- E3; lra).
    six f p H;
    cbv [perm b2n Nat.add Nat.sub next_axis List.nth mget mrow vget];
    vec_simpl; lra.
Qed.

Lemma perm_get a : axes_ok a -> forall r s, (r < 3)%nat -> (s < 3)%nat ->
  exists r' s', (r' < 3)%nat /\ (s' < 3)%nat /\ forall m : mat,
  mget m r s = mget (perm m (ax_i a) (ax_j a) (ax_k a)) r' s'.
Proof.
  unfold axes_ok. destruct a as [f p r fr]. cbn [ax_first]. intros H r0 s0 H1 H2.
  unfold ax_i, ax_j, ax_k. cbn [ax_first ax_parity].
  assert (G : exists r', (r' < 3)%nat /\ (List.nth r' [f; next_axis (f + b2n p); next_axis (f + 1 - b2n p)] 0 = r0)%nat).
  { six f p H; (destruct r0 as [|[|[|r0]]]; [| | |lia]);
    first [exists 0%nat; split; [lia|reflexivity] | exists 1%nat; split; [lia|reflexivity] | exists 2%nat; split; [lia|reflexivity]]. }
  assert (G' : exists r', (r' < 3)%nat /\ (List.nth r' [f; next_axis (f + b2n p); next_axis (f + 1 - b2n p)] 0 = s0)%nat).
  { six f p H; (destruct s0 as [|[|[|s0]]]; [| | |lia]);
    first [exists 0%nat; split; [lia|reflexivity] | exists 1%nat; split; [lia|reflexivity] | exists 2%nat; split; [lia|reflexivity]]. }
  destruct G as (r' & Hr & <-). destruct G' as (s' & Hs & <-).
  exists r', s'. split; [auto|split; auto]. intros m'.
  destruct r' as [|[|[|r']]]; [| | |lia]; (destruct s' as [|[|[|s']]]; [| | |lia]); reflexivity.
Qed.

Lemma mat_get_eq m m' : (forall r s, (r < 3)%nat -> (s < 3)%nat -> mget m r s = mget m' r s) -> m = m'.
Proof.
  intros H. destruct m as [[a b c] [d e f] [g h i]], m' as [[a' b' c'] [d' e' f'] [g' h' i']].
  pose proof (H 0 0)%nat as H0. pose proof (H 0 1)%nat as H1. pose proof (H 0 2)%nat as H2.
  pose proof (H 1 0)%nat as H3. pose proof (H 1 1)%nat as H4. pose proof (H 1 2)%nat as H5.
  pose proof (H 2 0)%nat as H6. pose proof (H 2 1)%nat as H7. pose proof (H 2 2)%nat as H8.
  cbn [mget mrow vget row0 row1 row2 vx vy vz] in *.
  rewrite H0, H1, H2, H3, H4, H5, H6, H7, H8 by lia. reflexivity.
Qed.

Lemma sq_nn x : 0 <= x * x. Proof. apply Rle_0_sqr. Qed.

Lemma core_frame n cy si ci sj cj sk ck a b c d e f g h i :
  n = M (V a b c) (V d e f) (V g h i) -> rotation n ->
  cy <> 0 -> cy * cy = a*a+d*d ->
  cj = cy -> sj = - g -> cy * ci = i -> cy * si = h -> cy * ck = a -> cy * sk = d ->
  M (V (cj * ck) (sj * (si * ck) - ci * sk) (sj * (ci * ck) + si * sk))
      (V (cj * sk) (sj * (si * sk) + ci * ck) (sj * (ci * sk) - si * ck))
      (V (- sj) (cj * si) (cj * ci)) = n.
Proof.
  intros -> R N CC Hcj Hsj Hci Hsi Hck Hsk. apply rot_entries in R.
  destruct R as ((R1&R2&R3)&(R4&R5&R6)&(R7&R8&R9)&(R10&R11&R12)&(E1&E2&E3)&(E4&E5&E6)&(E7&E8&E9)).
  assert (N2 : cy * cy <> 0) by (apply Rmult_integral_contrapositive; auto).
  subst cj sj.
  repeat (apply mat_eq || apply vec_eq); cbn [vx vy vz row0 row1 row2]; try lra;
  apply (Rmult_eq_reg_l (cy*cy)); auto.
  - transitivity (- g * ((cy*si)*(cy*ck)) - (cy*ci)*(cy*sk)); [ring|].
    rewrite Hci, Hsi, Hck, Hsk, CC. clear - E4 E5 E6 E1 E2 E3 E7 E8 E9 R7 R10 R11 R12. nsatz.
  - transitivity (- g * ((cy*ci)*(cy*ck)) + (cy*si)*(cy*sk)); [ring|].
    rewrite Hci, Hsi, Hck, Hsk, CC. clear - E4 E5 E6 E1 E2 E3 E7 E8 E9 R7 R10 R11 R12. nsatz.
  - transitivity (- g * ((cy*si)*(cy*sk)) + (cy*ci)*(cy*ck)); [ring|].
    rewrite Hci, Hsi, Hck, Hsk, CC. clear - E4 E5 E6 E1 E2 E3 E7 E8 E9 R7 R10 R11 R12. nsatz.
  - transitivity (- g * ((cy*ci)*(cy*sk)) - (cy*si)*(cy*ck)); [ring|].
    rewrite Hci, Hsi, Hck, Hsk, CC. clear - E4 E5 E6 E1 E2 E3 E7 E8 E9 R7 R10 R11 R12. nsatz.
Qed.

Lemma core_rep n sy si ci sj cj sk ck a b c d e f g h i :
  n = M (V a b c) (V d e f) (V g h i) -> rotation n ->
  sy <> 0 -> sy * sy = b*b+c*c ->
  cj = a -> sj = sy -> sy * ci = c -> sy * si = b -> sy * ck = - g -> sy * sk = d ->
  M (V cj (sj * si) (sj * ci))
      (V (sj * sk) (- cj * (si * sk) + ci * ck) (- cj * (ci * sk) - si * ck))
      (V (- sj * ck) (cj * (si * ck) + ci * sk) (cj * (ci * ck) - si * sk)) = n.
Proof.
  intros -> R N CC Hcj Hsj Hci Hsi Hck Hsk. apply rot_entries in R.
  destruct R as ((R1&R2&R3)&(R4&R5&R6)&(R7&R8&R9)&(R10&R11&R12)&(E1&E2&E3)&(E4&E5&E6)&(E7&E8&E9)).
  assert (N2 : sy * sy <> 0) by (apply Rmult_integral_contrapositive; auto).
  subst cj sj.
  repeat (apply mat_eq || apply vec_eq); cbn [vx vy vz row0 row1 row2]; try lra;
  apply (Rmult_eq_reg_l (sy*sy)); auto.
  - transitivity (- a * ((sy*si)*(sy*sk)) + (sy*ci)*(sy*ck)); [ring|].
    rewrite Hci, Hsi, Hck, Hsk, CC. clear - E4 E5 E6 E1 E2 E3 E7 E8 E9 R7 R10 R11 R12 R1 R4 R5. nsatz.
  - transitivity (- a * ((sy*ci)*(sy*sk)) - (sy*si)*(sy*ck)); [ring|].
    rewrite Hci, Hsi, Hck, Hsk, CC. clear - E4 E5 E6 E1 E2 E3 E7 E8 E9 R7 R10 R11 R12 R1 R4 R5. nsatz.
  - transitivity (a * ((sy*si)*(sy*ck)) + (sy*ci)*(sy*sk)); [ring|].
    rewrite Hci, Hsi, Hck, Hsk, CC. clear - E4 E5 E6 E1 E2 E3 E7 E8 E9 R7 R10 R11 R12 R1 R4 R5. nsatz.
  - transitivity (a * ((sy*ci)*(sy*ck)) - (sy*si)*(sy*sk)); [ring|].
    rewrite Hci, Hsi, Hck, Hsk, CC. clear - E4 E5 E6 E1 E2 E3 E7 E8 E9 R7 R10 R11 R12 R1 R4 R5. nsatz.
Qed.

(** distance from gimbal lock: the length the code compares with [_EPS] *)
Definition lock (rep : bool) (n : mat) : R :=
  if rep then sqrt (vy (row0 n) * vy (row0 n) + vz (row0 n) * vz (row0 n))
  else sqrt (vx (row0 n) * vx (row0 n) + vx (row1 n) * vx (row1 n)).

Lemma core_round n rep : rotation n -> EPS < lock rep n ->
  let '(x, y, z) := core_angles rep n in core rep x y z = n.
Proof.
  intros R. pose proof R as R'. destruct n as [[a b c] [d e f] [g h i]]. apply rot_entries in R'.
  destruct R' as ((R1&R2&R3)&_&(R7&_)&_).
  assert (EP : 0 < EPS) by (unfold EPS; lra).
  unfold lock, core_angles. cbn [row0 row1 row2 vx vy vz]. intros L.
  destruct rep.
  - assert (CC : sqrt (b*b+c*c) * sqrt (b*b+c*c) = b*b+c*c).
    { apply sqrt_sqrt. pose proof (sq_nn b); pose proof (sq_nn c); lra. }
    destruct (Rlt_dec EPS (sqrt (b*b+c*c))); [|contradiction].
    set (sy := sqrt (b*b+c*c)) in *.
    assert (N : sy <> 0) by lra.
    assert (N2 : sy * sy <> 0) by (apply Rmult_integral_contrapositive; auto).
    destruct (atan2_cs sy a) as [A1 A2]; [lra|].
    replace (a * a + sy * sy) with 1 in * by lra. rewrite sqrt_1 in *.
    destruct (atan2_cs b c) as [X1 X2]; [lra|].
    replace (c * c + b * b) with (b*b+c*c) in * by ring. fold sy in X1, X2.
    destruct (atan2_cs d (-g)) as [Z1 Z2]; [lra|].
    replace (-g * -g + d * d) with (b*b+c*c) in * by lra. fold sy in Z1, Z2.
    unfold core. rewrite A1, A2, X1, X2, Z1, Z2.
    eapply (core_rep _ sy); [reflexivity|exact R|auto|auto| | | | | |]; try (field; auto).
  - assert (CC : sqrt (a*a+d*d) * sqrt (a*a+d*d) = a*a+d*d).
    { apply sqrt_sqrt. pose proof (sq_nn a); pose proof (sq_nn d); lra. }
    destruct (Rlt_dec EPS (sqrt (a*a+d*d))); [|contradiction].
    set (cy := sqrt (a*a+d*d)) in *.
    assert (N : cy <> 0) by lra.
    assert (N2 : cy * cy <> 0) by (apply Rmult_integral_contrapositive; auto).
    destruct (atan2_cs (-g) cy) as [A1 A2]; [lra|].
    replace (cy * cy + - g * - g) with 1 in * by lra. rewrite sqrt_1 in *.
    destruct (atan2_cs h i) as [X1 X2]; [lra|].
    replace (i * i + h * h) with (a*a+d*d) in * by lra. fold cy in X1, X2.
    destruct (atan2_cs d a) as [Z1 Z2]; [lra|]. fold cy in Z1, Z2.
    unfold core. rewrite A1, A2, X1, X2, Z1, Z2.
    eapply (core_frame _ cy); [reflexivity|exact R|auto|auto| | | | | |]; try (field; auto).
Qed.

Lemma abs_bound x y : 0 <= y -> x * x <= y * y -> - y <= x <= y.
Proof. intros H1 H2. split; nra. Qed.

Lemma pb x y A B : - A <= x <= A -> - B <= y <= B -> - (A * B) <= x * y <= A * B.
Proof. intros. split; nra. Qed.
Lemma pb' x y A B C : - A <= x <= A -> - B <= y <= B -> A * B <= C -> - C <= x * y <= C.
Proof. intros H1 H2 H3. pose proof (pb x y A B H1 H2). lra. Qed.

(** in the gimbal lock band the angles reproduce the matrix up to twice the band width *)
Lemma core_lock n rep : rotation n -> lock rep n <= EPS ->
  let '(x, y, z) := core_angles rep n in
  forall r s, (r < 3)%nat -> (s < 3)%nat ->
  Rabs (mget (core rep x y z) r s - mget n r s) <= 2 * lock rep n.
Proof.
  intros R. destruct n as [[a b c] [d e f] [g h i]]. apply rot_entries in R.
  destruct R as ((R1&R2&R3)&(R4&R5&R6)&(R7&R8&R9)&(R10&R11&R12)&(E1&E2&E3)&(E4&E5&E6)&(E7&E8&E9)).
  assert (EP : 0 < EPS) by (unfold EPS; lra).
  assert (EP1 : EPS < 1/2) by (unfold EPS; lra).
  assert (RHO : d*d <= 1/4 -> exists p, 1 - d*d <= p <= 1 /\ 0 < p /\ cos (atan2 (-f) e) * p = e /\ sin (atan2 (-f) e) * p = - f /\ cos (atan2 (-f) e) * cos (atan2 (-f) e) <= 1 /\ sin (atan2 (-f) e) * sin (atan2 (-f) e) <= 1).
  { intros D. pose proof (sq_nn d).
    destruct (atan2_cs (-f) e) as [X1 X2]; [lra|].
    replace (e * e + -f * -f) with (1 - d*d) in * by lra.
    pose proof (sqrt_lt_R0 (1 - d*d)) as P. assert (0 < 1 - d*d) as Q by lra. specialize (P Q).
    pose proof (sqrt_sqrt (1 - d*d)) as SS. assert (0 <= 1 - d*d) as Q' by lra. specialize (SS Q').
    set (p := sqrt (1-d*d)) in *. exists p.
    assert (p <= 1) by (clear - SS P H; nra). pose proof (sc1 (atan2 (-f) e)).
    pose proof (sq_nn (cos (atan2 (-f) e))). pose proof (sq_nn (sin (atan2 (-f) e))).
    split; [clear - SS P H0 H; nra|]. split; [auto|]. split; [rewrite X1; field; lra|].
    split; [rewrite X2; field; lra|]. lra. }
  unfold lock, core_angles. cbn [row0 row1 row2 vx vy vz]. intros L.
  destruct rep.
  - assert (CC : sqrt (b*b+c*c) * sqrt (b*b+c*c) = b*b+c*c).
    { apply sqrt_sqrt. pose proof (sq_nn b); pose proof (sq_nn c); lra. }
    pose proof (sqrt_pos (b*b+c*c)) as CP.
    destruct (Rlt_dec EPS (sqrt (b*b+c*c))); [lra|].
    set (sy := sqrt (b*b+c*c)) in *.
    destruct (atan2_cs sy a) as [A1 A2]; [lra|].
    replace (a * a + sy * sy) with 1 in * by lra. rewrite sqrt_1 in *.
    assert (S2 : sy * sy <= 1/4) by (clear - L CP EP EP1; nra).
    pose proof (sq_nn a). pose proof (sq_nn b). pose proof (sq_nn c). pose proof (sq_nn d). pose proof (sq_nn g).
    destruct RHO as (p & P1 & P2 & P3 & P4 & P5 & P6); [lra|].
    assert (Bd : - sy <= d <= sy) by (apply abs_bound; lra).
    assert (Bg : - sy <= g <= sy) by (apply abs_bound; lra).
    assert (Bb : - sy <= b <= sy) by (apply abs_bound; lra).
    assert (Bc : - sy <= c <= sy) by (apply abs_bound; lra).
    assert (Ba : - 1 <= a <= 1) by (apply abs_bound; lra).
    set (ci := cos (atan2 (-f) e)) in *. set (si := sin (atan2 (-f) e)) in *.
    assert (Bci : - 1 <= ci <= 1) by (apply abs_bound; lra).
    assert (Bsi : - 1 <= si <= 1) by (apply abs_bound; lra).
    assert (Bci' : - (sy*sy) <= ci - e <= sy*sy).
    { rewrite <- P3. replace (ci - ci * p) with (ci * (1-p)) by ring. apply (pb' _ _ 1 (d*d)); lra. }
    assert (Bsi' : - (sy*sy) <= si + f <= sy*sy).
    { replace f with (- (si * p)) by lra. replace (si + - (si*p)) with (si * (1-p)) by ring. apply (pb' _ _ 1 (d*d)); lra. }
    assert (S3 : sy * sy <= sy) by (clear - L CP EP EP1; nra).
    assert (Bcd : - (sy*sy) <= c * d <= sy * sy) by (apply pb; auto).
    assert (Bbd : - (sy*sy) <= b * d <= sy * sy) by (apply pb; auto).
    assert (Bas : - (sy*sy) <= a * (si + f) <= sy*sy) by (apply (pb' _ _ 1 (sy*sy)); lra).
    assert (Bac : - (sy*sy) <= a * (ci - e) <= sy*sy) by (apply (pb' _ _ 1 (sy*sy)); lra).
    assert (Bsc : - sy <= sy * ci <= sy) by (apply (pb' _ _ sy 1); lra).
    assert (Bss : - sy <= sy * si <= sy) by (apply (pb' _ _ sy 1); lra).
    unfold core. rewrite A1, A2. fold ci si. rewrite sin_0, cos_0.
    intros r s Hr Hs.
    destruct r as [|[|[|r]]]; [| | |lia]; (destruct s as [|[|[|s]]]; [| | |lia]);
    cbn [mget mrow vget row0 row1 row2 vx vy vz]; apply Rabs_le; split; lra.
  - assert (CC : sqrt (a*a+d*d) * sqrt (a*a+d*d) = a*a+d*d).
    { apply sqrt_sqrt. pose proof (sq_nn a); pose proof (sq_nn d); lra. }
    pose proof (sqrt_pos (a*a+d*d)) as CP.
    destruct (Rlt_dec EPS (sqrt (a*a+d*d))); [lra|].
    set (cy := sqrt (a*a+d*d)) in *.
    destruct (atan2_cs (-g) cy) as [A1 A2]; [lra|].
    replace (cy * cy + -g * -g) with 1 in * by lra. rewrite sqrt_1 in *.
    assert (S2 : cy * cy <= 1/4) by (clear - L CP EP EP1; nra).
    pose proof (sq_nn a). pose proof (sq_nn i). pose proof (sq_nn h). pose proof (sq_nn d). pose proof (sq_nn g).
    destruct RHO as (p & P1 & P2 & P3 & P4 & P5 & P6); [lra|].
    assert (Bd : - cy <= d <= cy) by (apply abs_bound; lra).
    assert (Ba : - cy <= a <= cy) by (apply abs_bound; lra).
    assert (Bh : - cy <= h <= cy) by (apply abs_bound; lra).
    assert (Bi : - cy <= i <= cy) by (apply abs_bound; lra).
    assert (Bg : - 1 <= g <= 1) by (apply abs_bound; lra).
    set (ci := cos (atan2 (-f) e)) in *. set (si := sin (atan2 (-f) e)) in *.
    assert (Bci : - 1 <= ci <= 1) by (apply abs_bound; lra).
    assert (Bsi : - 1 <= si <= 1) by (apply abs_bound; lra).
    assert (Bci' : - (cy*cy) <= ci - e <= cy*cy).
    { rewrite <- P3. replace (ci - ci * p) with (ci * (1-p)) by ring. apply (pb' _ _ 1 (d*d)); lra. }
    assert (Bsi' : - (cy*cy) <= si + f <= cy*cy).
    { replace f with (- (si * p)) by lra. replace (si + - (si*p)) with (si * (1-p)) by ring. apply (pb' _ _ 1 (d*d)); lra. }
    assert (S3 : cy * cy <= cy) by (clear - L CP EP EP1; nra).
    assert (Bcd : - (cy*cy) <= d * i <= cy * cy) by (apply pb; auto).
    assert (Bbd : - (cy*cy) <= d * h <= cy * cy) by (apply pb; auto).
    assert (Bas : - (cy*cy) <= g * (si + f) <= cy*cy) by (apply (pb' _ _ 1 (cy*cy)); lra).
    assert (Bac : - (cy*cy) <= g * (ci - e) <= cy*cy) by (apply (pb' _ _ 1 (cy*cy)); lra).
    assert (Bsc : - cy <= cy * ci <= cy) by (apply (pb' _ _ cy 1); lra).
    assert (Bss : - cy <= cy * si <= cy) by (apply (pb' _ _ cy 1); lra).
    unfold core. rewrite A1, A2. fold ci si. rewrite sin_0, cos_0.
    intros r s Hr Hs.
    destruct r as [|[|[|r]]]; [| | |lia]; (destruct s as [|[|[|s]]]; [| | |lia]);
    cbn [mget mrow vget row0 row1 row2 vx vy vz]; apply Rabs_le; split; lra.
Qed.

(** the length compared with [_EPS], in terms of the original matrix *)
Definition gimbal (a : axes) (m : mat) : R :=
  lock (ax_rep a) (perm m (ax_i a) (ax_j a) (ax_k a)).

Lemma perm_round m a : axes_ok a ->
  let '(x, y, z) := euler_from_matrix m a in
  let '(x', y', z') := core_angles (ax_rep a) (perm m (ax_i a) (ax_j a) (ax_k a)) in
  perm (euler_matrix x y z a) (ax_i a) (ax_j a) (ax_k a) = core (ax_rep a) x' y' z'.
Proof.
  intros H. rewrite from_perm by auto.
  destruct (core_angles _ _) as [[x' y'] z'].
  destruct (ax_parity a) eqn:P, (ax_frame a) eqn:F; cbv beta iota;
  match goal with |- perm (euler_matrix ?x ?y ?z a) _ _ _ = _ => pose proof (perm_euler x y z a H) as E end;
  rewrite P, F in E; rewrite ?Ropp_involutive in E; exact E.
Qed.

Theorem euler_round m a : axes_ok a -> rotation m -> EPS < gimbal a m \/ gimbal a m = 0 ->
  let '(x, y, z) := euler_from_matrix m a in euler_matrix x y z a = m.
Proof.
  intros H R G. pose proof (perm_round m a H) as P. pose proof (perm_rotation m a H R) as R'.
  destruct (euler_from_matrix m a) as [[x y] z].
  assert (E : perm (euler_matrix x y z a) (ax_i a) (ax_j a) (ax_k a) = perm m (ax_i a) (ax_j a) (ax_k a)).
  { destruct G as [G|G].
    - pose proof (core_round _ (ax_rep a) R' G) as C.
      destruct (core_angles _ _) as [[x' y'] z']. congruence.
    - assert (EP : 0 < EPS) by (unfold EPS; lra).
      pose proof (core_lock _ (ax_rep a) R') as C. unfold gimbal in G. rewrite G in C.
      destruct (core_angles _ _) as [[x' y'] z']. rewrite P.
      apply mat_get_eq. intros r s Hr Hs.
      assert (K : 0 <= EPS) by lra. specialize (C K r s Hr Hs).
      match type of C with Rabs ?t <= _ =>
        assert (t = 0); [|lra];
        destruct (Req_dec t 0) as [Z|Z]; [exact Z|apply Rabs_pos_lt in Z; lra] end. }
  apply mat_get_eq. intros r s Hr Hs.
  destruct (perm_get a H r s Hr Hs) as (r' & s' & _ & _ & K). rewrite !K, E. reflexivity.
Qed.

Theorem euler_round_close m a : axes_ok a -> rotation m ->
  let '(x, y, z) := euler_from_matrix m a in
  forall r s, (r < 3)%nat -> (s < 3)%nat ->
  Rabs (mget (euler_matrix x y z a) r s - mget m r s) <= 2 * EPS.
Proof.
  intros H R. pose proof (perm_round m a H) as P. pose proof (perm_rotation m a H R) as R'.
  assert (EP : 0 < EPS) by (unfold EPS; lra).
  destruct (euler_from_matrix m a) as [[x y] z]. intros r s Hr Hs.
  destruct (perm_get a H r s Hr Hs) as (r' & s' & Hr' & Hs' & K). rewrite !K.
  destruct (Rlt_dec EPS (gimbal a m)) as [L|L].
  - pose proof (core_round _ (ax_rep a) R' L) as C.
    destruct (core_angles _ _) as [[x' y'] z']. rewrite P, C.
    unfold Rminus. rewrite Rplus_opp_r, Rabs_R0. lra.
  - apply Rnot_lt_le in L. pose proof (core_lock _ (ax_rep a) R' L) as C.
    destruct (core_angles _ _) as [[x' y'] z']. rewrite P. specialize (C r' s' Hr' Hs').
    unfold gimbal in L. lra.
Qed.
