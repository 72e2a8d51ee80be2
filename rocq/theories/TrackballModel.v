(** Interpolation of rotations, random rotations and the trackball of transformations.py (lines 1168-1656).
    Homogeneous 4x4 rotation matrices are their 3x3 block (see RotModel). *)
From Coq Require Import Reals List Bool.
From Verif Require Import Base Vec RotModel ParaxialModel AffineModel SampleModel.
Import ListNotations.
Open Scope R_scope.

(** transformations.py:1400-1417 [quaternion_real], [quaternion_imag] *)
Definition quaternion_real (q : quat) : R := qw q.
(** transformations.py:1410-1417 [quaternion_imag] *)
Definition quaternion_imag (q : quat) : vec := V (qx q) (qy q) (qz q).
(** transformations.py:1168-1176 [euler_from_quaternion] *)
Definition euler_from_quaternion (q : quat) (a : axes) : R * R * R := euler_from_matrix (quaternion_matrix q) a.
(** transformations.py:1715-1757 [unit_vector] of four numbers; 0/0 for the zero vector *)
Definition unit_quat (q : quat) : option quat :=
  let n := sqrt (qdot q q) in
  do w <- fdiv (qw q) n; do x <- fdiv (qx q) n; do y <- fdiv (qy q) n; do z <- fdiv (qz q) n; Some (Q w x y z).
(** [q0 += q1]: transformations.py:1457 *)
Definition qadd (a b : quat) : quat := Q (qw a + qw b) (qx a + qx b) (qy a + qy b) (qz a + qz b).
(** transformations.py:1420-1458 [quaternion_slerp] *)
Definition quaternion_slerp (quat0 quat1 : quat) (fraction spin : R) (shortestpath : bool) : option quat :=
  do q0 <- unit_quat quat0;
  do q1 <- unit_quat quat1;
  if Req_EM_T fraction 0 then Some q0
  else if Req_EM_T fraction 1 then Some q1
  else
    let d := qdot q0 q1 in
    if Rlt_dec (Rabs (Rabs d - 1)) EPS then Some q0
    else
      let '(d, q1) := if shortestpath && (if Rlt_dec d 0 then true else false) then (- d, qscale (-1) q1) else (d, q1) in
      do a <- facos d;
      let angle := a + spin * PI in
      if Rlt_dec (Rabs angle) EPS then Some q0
      else
        do isin <- fdiv 1 (sin angle);
        Some (qadd (qscale (sin ((1 - fraction) * angle) * isin) q0) (qscale (sin (fraction * angle) * isin) q1)).

(** transformations.py:1461-1486 [random_quaternion] for given random numbers *)
Definition random_quaternion (rand : R * R * R) : option quat :=
  let '(a, b, c) := rand in
  do r1 <- fsqrt (1 - a);
  do r2 <- fsqrt a;
  let pi2 := PI * 2 in
  let t1 := pi2 * b in
  let t2 := pi2 * c in
  Some (Q (cos t2 * r2) (sin t1 * r1) (cos t1 * r1) (sin t2 * r2)).
(** transformations.py:1489-1501 [random_rotation_matrix] *)
Definition random_rotation_matrix (rand : R * R * R) : option mat := do q <- random_quaternion rand; Some (quaternion_matrix q).

(** transformations.py:1325-1346: the matrix whose lower triangle is given to [eigh], completed symmetrically *)
Definition bar_itzhack (m : mat) : m4 :=
  let '(M (V m00 m01 m02) (V m10 m11 m12) (V m20 m21 m22)) := m in
  let '(a, b, c, d) := ((m00 - m11 - m22) / 3, (m11 - m00 - m22) / 3, (m22 - m00 - m11) / 3, (m00 + m11 + m22) / 3) in
  let '(k10, k20, k21) := ((m01 + m10) / 3, (m02 + m20) / 3, (m12 + m21) / 3) in
  let '(k30, k31, k32) := ((m21 - m12) / 3, (m02 - m20) / 3, (m10 - m01) / 3) in
  M4 (V4 a k10 k20 k30) (V4 k10 b k21 k31) (V4 k20 k21 c k32) (V4 k30 k31 k32 d).
(** [numpy.argmax]: the first of the largest; transformations.py:1350 *)
Fixpoint top (best : R * v4) (l : list (R * v4)) : R * v4 :=
  match l with [] => best | e :: l => top (if Rlt_dec (fst best) (fst e) then e else best) l end.
Section Eigh.
(** [numpy.linalg.eigh]: eigenvalues with eigenvectors *)
Variable eigh : m4 -> list (R * v4).
(** transformations.py:1311, 1324-1353 [quaternion_from_matrix] with isprecise=False *)
Definition quaternion_from_matrix (m : mat) : option quat :=
  match eigh (bar_itzhack m) with
  | [] => None
  | e :: l =>
      let v := snd (top e l) in
      let q := Q (w3 v) (w0 v) (w1 v) (w2 v) in
      Some (if Rlt_dec (qw q) 0 then qscale (-1) q else q)
  end.
End Eigh.

(** transformations.py:1615-1625 [arcball_map_to_sphere] *)
Definition map_to_sphere (point center : R * R) (radius : R) : option vec :=
  do v0 <- fdiv (fst point - fst center) radius;
  do v1 <- fdiv (snd center - snd point) radius;
  let n := v0 * v0 + v1 * v1 in
  if Rlt_dec 1 n then
    do n <- fsqrt n; do x <- fdiv v0 n; do y <- fdiv v1 n; Some (V x y 0)
  else do z <- fsqrt (1 - n); Some (V v0 v1 z).
(** transformations.py:1628-1641 [arcball_constrain_to_axis] *)
Definition constrain_to_axis (point axis : vec) : option vec :=
  let v := vsub3 point (vmul3 (dot axis point) axis) in
  let n := norm v in
  if Rlt_dec EPS n then
    let v := if Rlt_dec (vz v) 0 then vmul3 (-1) v else v in
    do x <- fdiv (vx v) n; do y <- fdiv (vy v) n; do z <- fdiv (vz v) n; Some (V x y z)
  else if Req_EM_T (vz axis) 1 then Some (V 1 0 0)
  else unit_vector (V (- vy axis) (vx axis) 0).
(** transformations.py:1644-1654 [arcball_nearest_axis]; comparisons with NaN are false *)
Fixpoint nearest_from (point : vec) (nearest : option vec) (mx : R) (axes : list vec) : option vec :=
  match axes with
  | [] => nearest
  | axis :: axes =>
      match constrain_to_axis point axis with
      | None => nearest_from point nearest mx axes
      | Some w => let t := dot w point in
          if Rlt_dec mx t then nearest_from point (Some axis) t axes else nearest_from point nearest mx axes
      end
  end.
(** transformations.py:1644-1654 [arcball_nearest_axis] *)
Definition nearest_axis (point : vec) (axes : list vec) : option vec := nearest_from point None (-1) axes.

(** transformations.py:1504-1612 [Arcball]; [None]: an exception or NaN *)
Record ball := Ball { b_axis : option vec; b_axes : option (list vec); b_radius : R; b_center : R * R; b_vdown : vec;
  b_constrain : bool; b_qdown : quat; b_qnow : quat; b_qpre : quat }.
(** 1527-1550 [__init__] with a quaternion or nothing *)
Definition ball_new (initial : option quat) : option ball :=
  do q <- match initial with None => Some (Q 1 0 0 0) | Some q => unit_quat q end;
  Some (Ball None None 1 (0, 0) (V 0 0 1) false q q q).
(** 1552-1563 [place] *)
Definition place (b : ball) (center : R * R) (radius : R) : ball :=
  Ball (b_axis b) (b_axes b) radius center (b_vdown b) (b_constrain b) (b_qdown b) (b_qnow b) (b_qpre b).
(** 1565-1570 [setaxes]: the argument tuple is never None *)
Definition setaxes (b : ball) (axes : list vec) : option ball :=
  do axes <- mapo unit_vector axes;
  Some (Ball (b_axis b) (Some axes) (b_radius b) (b_center b) (b_vdown b) (b_constrain b) (b_qdown b) (b_qnow b) (b_qpre b)).
(** 1577-1580 [constrain] *)
Definition set_constrain (b : ball) (value : bool) : ball :=
  Ball (b_axis b) (b_axes b) (b_radius b) (b_center b) (b_vdown b) value (b_qdown b) (b_qnow b) (b_qpre b).
(** 1582-1590 [down]; without a nearest axis the constraint raises *)
Definition down (b : ball) (point : R * R) : option ball :=
  do v <- map_to_sphere point (b_center b) (b_radius b);
  match b_constrain b, b_axes b with
  | true, Some axes =>
      do a <- nearest_axis v axes;
      do v <- constrain_to_axis v a;
      Some (Ball (Some a) (b_axes b) (b_radius b) (b_center b) v (b_constrain b) (b_qnow b) (b_qnow b) (b_qnow b))
  | _, _ => Some (Ball None (b_axes b) (b_radius b) (b_center b) v (b_constrain b) (b_qnow b) (b_qnow b) (b_qnow b))
  end.
(** 1592-1603 [drag] *)
Definition drag (b : ball) (point : R * R) : option ball :=
  do v <- map_to_sphere point (b_center b) (b_radius b);
  do v <- match b_axis b with None => Some v | Some a => constrain_to_axis v a end;
  let t := cross (b_vdown b) v in
  let q := if Rlt_dec (dot t t) EPS then b_qdown b
           else quaternion_multiply (Q (dot (b_vdown b) v) (vx t) (vy t) (vz t)) (b_qdown b) in
  Some (Ball (b_axis b) (b_axes b) (b_radius b) (b_center b) (b_vdown b) (b_constrain b) (b_qdown b) q (b_qnow b)).
(** 1605-1608 [next]; the fourth argument False is the spin *)
Definition next (b : ball) (acceleration : R) : option ball :=
  do q <- quaternion_slerp (b_qpre b) (b_qnow b) (2 + acceleration) 0 true;
  Some (Ball (b_axis b) (b_axes b) (b_radius b) (b_center b) (b_vdown b) (b_constrain b) (b_qdown b) q (b_qnow b)).
(** 1610-1612 [matrix] *)
Definition ball_matrix (b : ball) : mat := quaternion_matrix (b_qnow b).

(** the methods of the trackball: transformations.py:1552-1608 *)
Inductive bevent := BPlace (center : R * R) (radius : R) | BAxes (axes : list vec) | BConstrain (value : bool)
  | BDown (point : R * R) | BDrag (point : R * R) | BNext (acceleration : R).
(** one method call: transformations.py:1552-1608 *)
Definition bstep (b : ball) (e : bevent) : option ball :=
  match e with
  | BPlace c r => Some (place b c r) | BAxes a => setaxes b a | BConstrain v => Some (set_constrain b v)
  | BDown p => down b p | BDrag p => drag b p | BNext a => next b a
  end.
(** method calls in turn: transformations.py:1552-1608 *)
Fixpoint brun (b : ball) (es : list bevent) : option ball :=
  match es with [] => Some b | e :: es => do b <- bstep b e; brun b es end.
