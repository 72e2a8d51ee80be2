(** Model of the registration of two point sets of /repo/rayopt/transformations.py:887-1044 in three dimensions:
    the points are the columns of the arrays of the code.  Floats are reals, [None] is a raised exception or a
    result that is not finite. *)
From Coq Require Import Reals List Bool Arith.
From Verif Require Import Base Vec RotModel ParaxialModel AffineModel TrackballModel.
Import ListNotations.
Open Scope R_scope.

(** [numpy.sum] of columns, [numpy.mean(v, axis=1)] *)
Definition vsum (l : list vec) : vec := fold_right vadd3 Vec.v0 l.
(** [numpy.mean(v, axis=1)]: transformations.py:936, 940 *)
Definition mean (l : list vec) : vec := vmul3 (/ INR (length l)) (vsum l).
(** [numpy.sum] of floats; transformations.py:988 *)
Definition total (l : list R) : R := fold_right Rplus 0 l.
(** transformations.py:958 [numpy.dot(v1, v0.T)]: pairs are (column of v0, column of v1) *)
Definition covariance (l : list (vec * vec)) : mat :=
  fold_right madd (M Vec.v0 Vec.v0 Vec.v0) (map (fun p => outer (snd p) (fst p)) l).
(** transformations.py:972-978: the matrix whose lower triangle is given to [eigh], completed symmetrically *)
Definition horn_matrix (l : list (vec * vec)) : m4 :=
  let s f g := total (map (fun p => f (fst p) * g (snd p)) l) in
  let '(xx, yy, zz) := (s vx vx, s vy vy, s vz vz) in
  let '(xy, yz, zx) := (s vx vy, s vy vz, s vz vx) in
  let '(xz, yx, zy) := (s vx vz, s vy vx, s vz vy) in
  M4 (V4 (xx + yy + zz) (yz - zy) (zx - xz) (xy - yx))
     (V4 (yz - zy) (xx - yy - zz) (xy + yx) (zx + xz))
     (V4 (zx - xz) (xy + yx) (yy - xx - zz) (yz + zy))
     (V4 (xy - yx) (zx + xz) (yz + zy) (zz - xx - yy)).

Section Solve.
(** [numpy.linalg.svd] of a 3x3 matrix *)
Variable svd3 : mat -> mat * vec * mat.
(** the first three rows of the last result of [numpy.linalg.svd] of a matrix with six columns, given by its rows *)
Variable svd6 : list (vec * vec) -> (vec * vec) * (vec * vec) * (vec * vec).
(** [numpy.linalg.pinv] *)
Variable pinv : mat -> mat.
(** [numpy.linalg.eigh]: eigenvalues with eigenvectors *)
Variable eigh : m4 -> list (R * v4).
(** [numpy.linalg.inv]; [None]: LinAlgError *)
Variable inv : hmat -> option hmat.

(** transformations.py:944-952 *)
Definition affine_part (l : list (vec * vec)) : mat :=
  let '(r0, r1, r2) := svd6 l in
  let B := mT (M (fst r0) (fst r1) (fst r2)) in
  let C := mT (M (snd r0) (snd r1) (snd r2)) in
  mm C (pinv B).
(** transformations.py:954-964; the change of s is not used afterwards *)
Definition kabsch (l : list (vec * vec)) : mat :=
  let '(u, s, vh) := svd3 (covariance l) in
  let r := mm u vh in
  if Rlt_dec (det r) 0 then madd r (mscale (-1) (outer (row2 (mT u)) (vmul3 2 (row2 vh)))) else r.
(** transformations.py:979-984 *)
Definition horn (l : list (vec * vec)) : option mat :=
  match eigh (horn_matrix l) with
  | [] => None
  | e :: es =>
      let v := snd (top e es) in
      let n := sqrt (w0 v * w0 v + w1 v * w1 v + w2 v * w2 v + w3 v * w3 v) in
      do a <- fdiv (w0 v) n; do b <- fdiv (w1 v) n; do c <- fdiv (w2 v) n; do d <- fdiv (w3 v) n;
      Some (quaternion_matrix (Q a b c d))
  end.
(** transformations.py:887, 928-995 [affine_matrix_from_points] *)
Definition affine_matrix_from_points (p0 p1 : list vec) (shear scale usesvd : bool) : option hmat :=
  if ((length p0 <? 3) || negb (length p0 =? length p1))%nat then None
  else
    let t0 := vneg (mean p0) in
    let t1 := vneg (mean p1) in
    let a := map (fun p => vadd3 p t0) p0 in
    let b := map (fun p => vadd3 p t1) p1 in
    let l := combine a b in
    do m <- (if shear then Some (affine_part l) else if usesvd then Some (kabsch l) else horn l);
    do m <- (if scale && negb shear
             then do q <- fdiv (total (map (fun p => dot p p) b)) (total (map (fun p => dot p p) a)); do s <- fsqrt q; Some (mscale s m)
             else Some m);
    do i <- inv (HM eye t1 Vec.v0 1);
    let m := hmm i (hmm (HM m Vec.v0 Vec.v0 1) (HM eye t0 Vec.v0 1)) in
    hdiv m (hw m).
(** transformations.py:998, 1041-1044 [superimposition_matrix] *)
Definition superimposition_matrix (p0 p1 : list vec) (scale usesvd : bool) : option hmat :=
  affine_matrix_from_points p0 p1 false scale usesvd.
End Solve.
