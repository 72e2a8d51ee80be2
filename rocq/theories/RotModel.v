(** Model of the rotation utilities of /repo/rayopt/transformations.py.
    The homogeneous 4x4 matrices are restricted to their 3x3 block unless said
    otherwise (all callers in rayopt take [[:3, :3]]). *)
From Coq Require Import Reals List Lra.
From Verif Require Import Base Vec.
Import ListNotations.
Open Scope R_scope.

(** transformations.py:1658 [_EPS = numpy.finfo(float).eps * 4.0] = 2^-50 *)
Definition EPS : R := / 1125899906842624.

(** transformations.py:1716-1757 [unit_vector] for a 1-D array; a zero vector
    gives NaN *)
Definition unit_vector (v : vec) : option vec :=
  do x <- fdiv (vx v) (norm v);
  do y <- fdiv (vy v) (norm v);
  do z <- fdiv (vz v) (norm v);
  Some (V x y z).

(** entrywise sum, [R += ...]; transformations.py:329-334 *)
Definition madd (a b : mat) : mat :=
  M (vadd3 (row0 a) (row0 b)) (vadd3 (row1 a) (row1 b)) (vadd3 (row2 a) (row2 b)).
(** a matrix times a number: transformations.py:329-334 *)
Definition mscale (s : R) (a : mat) : mat :=
  M (vmul3 s (row0 a)) (vmul3 s (row1 a)) (vmul3 s (row2 a)).
(** numpy.outer; transformations.py:330 *)
Definition outer (a b : vec) : mat := M (vmul3 (vx a) b) (vmul3 (vy a) b) (vmul3 (vz a) b).

(** transformations.py:300-341 [rotation_matrix] without [point], 3x3 block *)
Definition rotation_matrix (angle : R) (direction : vec) : option mat :=
  let sina := sin angle in
  let cosa := cos angle in
  do direction <- unit_vector direction;
  let r := M (V cosa 0 0) (V 0 cosa 0) (V 0 0 cosa) in
  let r := madd r (mscale (1 - cosa) (outer direction direction)) in
  let d := vmul3 sina direction in
  Some (madd r (M (V 0 (- vz d) (vy d)) (V (vz d) 0 (- vx d)) (V (- vy d) (vx d) 0))).

(** transformations.py:1661 [_NEXT_AXIS = [1, 2, 0, 1]] *)
Definition next_axis (i : nat) : nat := nth i [1; 2; 0; 1]%nat 0%nat.

(** transformations.py:1664-1672 [_AXES2TUPLE]: the 24 conventions are exactly
    the tuples (first axis < 3, parity, repetition, frame). *)
Record axes := Axes { ax_first : nat; ax_parity : bool; ax_rep : bool; ax_frame : bool }.
(** transformations.py:1664-1672: the first axis is 0, 1 or 2 *)
Definition axes_ok (a : axes) : Prop := (ax_first a < 3)%nat.
(** transformations.py:1670 'rxyz' *)
Definition rxyz : axes := Axes 2 true false true.

(** a flag of transformations.py:1664-1672 as a number *)
Definition b2n (b : bool) : nat := if b then 1%nat else 0%nat.
(** transformations.py:1072-1074, 1135-1137: [i], [j], [k]; [i-parity+1] is the
    Python index of the four element list *)
Definition ax_i (a : axes) : nat := ax_first a.
(** transformations.py:1073, 1136: [j] *)
Definition ax_j (a : axes) : nat := next_axis (ax_first a + b2n (ax_parity a)).
(** transformations.py:1074, 1137: [k] *)
Definition ax_k (a : axes) : nat := next_axis (ax_first a + 1 - b2n (ax_parity a)).

(** transformations.py:1047-1107 [euler_matrix] *)
Definition euler_matrix (ai aj ak : R) (a : axes) : mat :=
  let i := ax_i a in let j := ax_j a in let k := ax_k a in
  let '(ai, ak) := if ax_frame a then (ak, ai) else (ai, ak) in
  let '(ai, aj, ak) := if ax_parity a then (- ai, - aj, - ak) else (ai, aj, ak) in
  let si := sin ai in let sj := sin aj in let sk := sin ak in
  let ci := cos ai in let cj := cos aj in let ck := cos ak in
  let cc := ci * ck in let cs := ci * sk in
  let sc := si * ck in let ss := si * sk in
  let m := eye in
  if ax_rep a then
    let m := mset m i i cj in
    let m := mset m i j (sj * si) in
    let m := mset m i k (sj * ci) in
    let m := mset m j i (sj * sk) in
    let m := mset m j j (- cj * ss + cc) in
    let m := mset m j k (- cj * cs - sc) in
    let m := mset m k i (- sj * ck) in
    let m := mset m k j (cj * sc + cs) in
    mset m k k (cj * cc - ss)
  else
    let m := mset m i i (cj * ck) in
    let m := mset m i j (sj * sc - cs) in
    let m := mset m i k (sj * cc + ss) in
    let m := mset m j i (cj * sk) in
    let m := mset m j j (sj * ss + cc) in
    let m := mset m j k (sj * cs - sc) in
    let m := mset m k i (- sj) in
    let m := mset m k j (cj * si) in
    mset m k k (cj * ci).

(** C/Python [math.atan2] (signed zeros not distinguished) *)
Definition atan2 (y x : R) : R :=
  if Rlt_dec 0 x then atan (y / x)
  else if Rlt_dec x 0 then
    (if Rle_dec 0 y then atan (y / x) + PI else atan (y / x) - PI)
  else if Rlt_dec 0 y then PI / 2
  else if Rlt_dec y 0 then - (PI / 2)
  else 0.

(** transformations.py:1110-1165 [euler_from_matrix] *)
Definition euler_from_matrix (m : mat) (a : axes) : R * R * R :=
  let i := ax_i a in let j := ax_j a in let k := ax_k a in
  let '(ax, ay, az) :=
    if ax_rep a then
      let sy := sqrt (mget m i j * mget m i j + mget m i k * mget m i k) in
      if Rlt_dec EPS sy then
        (atan2 (mget m i j) (mget m i k), atan2 sy (mget m i i), atan2 (mget m j i) (- mget m k i))
      else
        (atan2 (- mget m j k) (mget m j j), atan2 sy (mget m i i), 0)
    else
      let cy := sqrt (mget m i i * mget m i i + mget m j i * mget m j i) in
      if Rlt_dec EPS cy then
        (atan2 (mget m k j) (mget m k k), atan2 (- mget m k i) cy, atan2 (mget m j i) (mget m i i))
      else
        (atan2 (- mget m j k) (mget m j j), atan2 (- mget m k i) cy, 0) in
  let '(ax, ay, az) := if ax_parity a then (- ax, - ay, - az) else (ax, ay, az) in
  let '(ax, az) := if ax_frame a then (az, ax) else (ax, az) in
  (ax, ay, az).

(** ** Quaternions [w, x, y, z]; transformations.py:1168-1400 *)
Record quat := Q { qw : R; qx : R; qy : R; qz : R }.
(** [numpy.dot] of two quaternions: transformations.py:1386-1397, 1444 *)
Definition qdot (a b : quat) : R := qw a * qw b + qx a * qx b + qy a * qy b + qz a * qz b.
(** a quaternion times a number: transformations.py:1247, 1397 *)
Definition qscale (s : R) (a : quat) : quat := Q (s * qw a) (s * qx a) (s * qy a) (s * qz a).

(** transformations.py:1236-1249 [quaternion_about_axis] *)
Definition quaternion_about_axis (angle : R) (axis : vec) : quat :=
  let q := Q 0 (vx axis) (vy axis) (vz axis) in
  let qlen := sqrt (qdot q q) in
  let q := if Rlt_dec EPS qlen then qscale (sin (angle / 2) / qlen) q else q in
  Q (cos (angle / 2)) (qx q) (qy q) (qz q).

(** transformations.py:1252-1276 [quaternion_matrix], 3x3 block *)
Definition quaternion_matrix (q : quat) : mat :=
  let n := qdot q q in
  if Rlt_dec n EPS then eye else
  let q := qscale (sqrt (2 / n)) q in
  M (V (1 - qy q * qy q - qz q * qz q) (qx q * qy q - qz q * qw q) (qx q * qz q + qy q * qw q))
    (V (qx q * qy q + qz q * qw q) (1 - qx q * qx q - qz q * qz q) (qy q * qz q - qx q * qw q))
    (V (qx q * qz q - qy q * qw q) (qy q * qz q + qx q * qw q) (1 - qx q * qx q - qy q * qy q)).

(** transformations.py:1356-1369 [quaternion_multiply] *)
Definition quaternion_multiply (q1 q0 : quat) : quat :=
  let '(Q w0 x0 y0 z0) := q0 in
  let '(Q w1 x1 y1 z1) := q1 in
  Q (- x1 * x0 - y1 * y0 - z1 * z0 + w1 * w0)
    (x1 * w0 + y1 * z0 - z1 * y0 + w1 * x0)
    (- x1 * z0 + y1 * w0 + z1 * x0 + w1 * y0)
    (x1 * y0 - y1 * x0 + z1 * w0 + w1 * z0).

(** transformations.py:1372-1383 [quaternion_conjugate] *)
Definition quaternion_conjugate (q : quat) : quat := Q (qw q) (- qx q) (- qy q) (- qz q).

(** transformations.py:1386-1397 [quaternion_inverse]; 0/0 for the zero quaternion *)
Definition quaternion_inverse (q : quat) : option quat :=
  let q := quaternion_conjugate q in
  let n := qdot q q in
  do w <- fdiv (qw q) n; do x <- fdiv (qx q) n; do y <- fdiv (qy q) n; do z <- fdiv (qz q) n;
  Some (Q w x y z).

(** [q[i]]: transformations.py:1219-1231, 1313-1330 *)
Definition qget (q : quat) (i : nat) : R :=
  match i with 0 => qw q | 1 => qx q | 2 => qy q | _ => qz q end%nat.
(** [q[i] = v]: transformations.py:1219-1231, 1313-1330 *)
Definition qset (q : quat) (i : nat) (v : R) : quat :=
  match i with
  | 0 => Q v (qx q) (qy q) (qz q) | 1 => Q (qw q) v (qy q) (qz q)
  | 2 => Q (qw q) (qx q) v (qz q) | _ => Q (qw q) (qx q) (qy q) v
  end%nat.

(** transformations.py:1179-1233 [quaternion_from_euler].  Every entry of the
    [numpy.empty] array is written; it starts as zero here. *)
Definition quaternion_from_euler (ai aj ak : R) (a : axes) : quat :=
  let i := (ax_first a + 1)%nat in
  let j := (next_axis (i + b2n (ax_parity a) - 1) + 1)%nat in
  let k := (next_axis (i - b2n (ax_parity a)) + 1)%nat in
  let '(ai, ak) := if ax_frame a then (ak, ai) else (ai, ak) in
  let aj := if ax_parity a then - aj else aj in
  let ai := ai / 2 in let aj := aj / 2 in let ak := ak / 2 in
  let ci := cos ai in let si := sin ai in
  let cj := cos aj in let sj := sin aj in
  let ck := cos ak in let sk := sin ak in
  let cc := ci * ck in let cs := ci * sk in
  let sc := si * ck in let ss := si * sk in
  let q := Q 0 0 0 0 in
  let q :=
    if ax_rep a then
      let q := qset q 0 (cj * (cc - ss)) in
      let q := qset q i (cj * (cs + sc)) in
      let q := qset q j (sj * (cc + ss)) in
      qset q k (sj * (cs - sc))
    else
      let q := qset q 0 (cj * cc + sj * ss) in
      let q := qset q i (cj * sc - sj * cs) in
      let q := qset q j (cj * ss + sj * cc) in
      qset q k (cj * cs - sj * sc) in
  if ax_parity a then qset q j (- qget q j) else q.

(** 4x4 entry of the homogeneous matrix with the 3x3 block [m], used by
    [quaternion_from_matrix] *)
Definition hget (m : mat) (i j : nat) : R :=
  match i with
  | S (S (S _)) => match j with S (S (S _)) => 1 | _ => 0 end
  | _ => match j with S (S (S _)) => 0 | _ => mget m i j end
  end.

(** transformations.py:1279-1353 [quaternion_from_matrix] with
    [isprecise=True], applied to a homogeneous rotation matrix.  [junk] is the
    content of the [numpy.empty] array.  The branch [isprecise=False] calls
    numpy's eigenvalue solver and is not modelled. *)
Definition quaternion_from_matrix_precise (junk : quat) (m : mat) : option quat :=
  let t := mget m 0 0 + mget m 1 1 + mget m 2 2 + 1 in
  let '(q, t) :=
    if Rlt_dec 1 t then
      (Q t (mget m 2 1 - mget m 1 2) (mget m 0 2 - mget m 2 0) (mget m 1 0 - mget m 0 1), t)
    else
      let '(i, j, k) := (1, 2, 3)%nat in
      let '(i, j, k) := if Rlt_dec (mget m 0 0) (mget m 1 1) then (2, 3, 1)%nat else (i, j, k) in
      let '(i, j, k) := if Rlt_dec (hget m i i) (mget m 2 2) then (3, 1, 2)%nat else (i, j, k) in
      let t := hget m i i - (hget m j j + hget m k k) + 1 in
      let q := qset junk i t in
      let q := qset q j (hget m i j + hget m j i) in
      let q := qset q k (hget m k i + hget m i k) in
      let q := qset q 3 (hget m k j - hget m j k) in
      (q, t) in
  do s <- fsqrt (t * 1);
  do f <- fdiv (1 / 2) s;
  let q := qscale f q in
  Some (if Rlt_dec (qw q) 0 then qscale (-1) q else q).
