(** Model of the functions of /repo/rayopt/transformations.py that take matrices apart.
    [None] is a raised exception or a result that is not finite. *)
From Coq Require Import Reals List Bool.
From Verif Require Import Base Vec RotModel AffineModel.
Import ListNotations.
Open Scope R_scope.

(** one column of the result of [numpy.linalg.eig]: real and imaginary part of eigenvalue and eigenvector; transformations.py:285, 291, 360, 366 *)
Record epair (A : Type) := EP { ew : R; ewi : R; ev : A; evi : A }.
Arguments EP {A}. Arguments ew {A}. Arguments ewi {A}. Arguments ev {A}. Arguments evi {A}.
(** [numpy.where(abs(numpy.real(w) - x) < tol)[0]] *)
Definition near {A} (x tol : R) (l : list (epair A)) : list (epair A) := filter (fun e => if Rlt_dec (Rabs (ew e - x)) tol then true else false) l.
(** [numpy.where(abs(numpy.real(w)) > tol)[0]] *)
Definition beyond {A} (tol : R) (l : list (epair A)) : list (epair A) := filter (fun e => if Rlt_dec tol (Rabs (ew e)) then true else false) l.
(** element [0] and [-1] *)
Definition first {A} (l : list A) : option A := match l with [] => None | e :: _ => Some e end.
(** element [-1]: transformations.py:295, 364, 370 *)
Definition final {A} (l : list A) : option A := first (rev l).
(** [point /= point[3]]; the first three numbers, the fourth is 1 then *)
Definition dehom (p : hvec) : option vec :=
  do x <- fdiv (vx (hv p)) (h4 p); do y <- fdiv (vy (hv p)) (h4 p); do z <- fdiv (vz (hv p)) (h4 p); Some (V x y z).
(** [1e-8] *)
Definition tol8 : R := / 10 ^ 8.

Section Eig.
(** [numpy.linalg.eig] of 3x3 and 4x4 matrices *)
Variable eig3 : mat -> list (epair vec).
Variable eig4 : hmat -> list (epair hvec).

(** transformations.py:271-297 [reflection_from_matrix]: point, normal *)
Definition reflection_from_matrix (m : hmat) : option (vec * vec) :=
  do e <- first (near (- (1)) tol8 (eig3 (hl m)));
  do p <- final (near 1 tol8 (eig4 m));
  do point <- dehom (ev p);
  Some (point, ev e).
(** [numpy.trace]; transformations.py:373 *)
Definition trace (m : mat) : R := vx (row0 m) + vy (row1 m) + vz (row2 m).
(** transformations.py:344-381 [rotation_from_matrix]: angle, direction, point *)
Definition rotation_from_matrix (m : hmat) : option (R * vec * vec) :=
  let r := hl m in
  do e <- final (near 1 tol8 (eig3 (mT r)));
  let d := ev e in
  do p <- final (near 1 tol8 (eig4 m));
  do point <- dehom (ev p);
  let cosa := (trace r - 1) / 2 in
  do sina <- (if Rlt_dec tol8 (Rabs (vz d)) then fdiv (mget r 1 0 + (cosa - 1) * vx d * vy d) (vz d)
              else if Rlt_dec tol8 (Rabs (vy d)) then fdiv (mget r 0 2 + (cosa - 1) * vx d * vz d) (vy d)
              else fdiv (mget r 2 1 + (cosa - 1) * vy d * vz d) (vx d));
  Some (atan2 sina cosa, d, point).
(** transformations.py:418-456 [scale_from_matrix]: factor, origin, direction *)
Definition scale_from_matrix (m : hmat) : option (R * vec * option vec) :=
  let factor := trace (hl m) - 2 in
  do fd <- match first (near factor tol8 (eig3 (hl m))) with
           | Some e => do d <- unit_vector (ev e); Some (factor, Some d)
           | None => Some ((factor + 2) / 3, None)
           end;
  do p <- final (near 1 tol8 (eig4 m));
  do origin <- dehom (ev p);
  Some (fst fd, origin, snd fd).
(** transformations.py:521-591 [projection_from_matrix]: point, normal, direction, perspective, pseudo *)
Definition projection_from_matrix (m : hmat) (pseudo : bool) : option (vec * vec * option vec * option vec * bool) :=
  match pseudo, final (near 1 tol8 (eig4 m)) with
  | false, Some p =>
      do point <- dehom (ev p);
      do e <- first (near 0 tol8 (eig3 (hl m)));
      do direction <- unit_vector (ev e);
      match first (near 0 tol8 (eig3 (mT (hl m)))) with
      | Some e => do normal <- unit_vector (ev e); Some (point, normal, Some direction, None, false)
      | None => Some (point, direction, None, None, false)
      end
  | _, _ =>
      do p <- final (beyond tol8 (eig4 m));
      do point <- dehom (ev p);
      let normal := vneg (hp m) in
      let s := dot point normal in
      do x <- fdiv (vx (ht m)) s; do y <- fdiv (vy (ht m)) s; do z <- fdiv (vz (ht m)) s;
      let perspective := V x y z in
      let perspective := if pseudo then vsub3 perspective normal else perspective in
      Some (point, normal, None, Some perspective, pseudo)
  end.
(** transformations.py:697-706: the longest of the cross products, the first of such; the third eigenvector is indexed *)
Fixpoint longest (lenorm : R) (normal : vec) (l : list vec) : R * vec :=
  match l with
  | [] => (lenorm, normal)
  | n :: l => if Rlt_dec lenorm (norm n) then longest (norm n) n l else longest lenorm normal l
  end.
(** transformations.py:677-719 [shear_from_matrix]: angle, direction, point, normal *)
Definition shear_from_matrix (m : hmat) : option (R * vec * vec * vec) :=
  match near 1 (/ 10 ^ 4) (eig3 (hl m)) with
  | e0 :: e1 :: e2 :: _ =>
      let '(lenorm, n) := longest (- (1)) v0 [cross (ev e0) (ev e1); cross (ev e0) (ev e2); cross (ev e1) (ev e2)] in
      do x <- fdiv (vx n) lenorm; do y <- fdiv (vy n) lenorm; do z <- fdiv (vz n) lenorm;
      let normal := V x y z in
      let direction := mv (madd (hl m) (mscale (- (1)) eye)) normal in
      let angle := norm direction in
      do x <- fdiv (vx direction) angle; do y <- fdiv (vy direction) angle; do z <- fdiv (vz direction) angle;
      do p <- final (near 1 tol8 (eig4 m));
      do point <- dehom (ev p);
      Some (atan angle, V x y z, point, normal)
  | _ => None
  end.
End Eig.

(** 'sxyz'; transformations.py:842, 1665 *)
Definition sxyz : axes := Axes 0 false false false.
(** [P[3, :] = perspective[:4]] of an identity matrix *)
Definition perspective_part (p : hvec) : hmat := HM eye v0 (hv p) (h4 p).
(** transformations.py:807-857 [compose_matrix] *)
Definition compose_matrix (scale shear angles translate : option vec) (perspective : option hvec) : option hmat :=
  let m := identity_matrix in
  let m := match perspective with Some p => hmm m (perspective_part p) | None => m end in
  let m := match translate with Some t => hmm m (HM eye t v0 1) | None => m end in
  let m := match angles with Some a => hmm m (HM (euler_matrix (vx a) (vy a) (vz a) sxyz) v0 v0 1) | None => m end in
  let m := match shear with Some z => hmm m (HM (M (V 1 (vx z) (vy z)) (V 0 1 (vz z)) (V 0 0 1)) v0 v0 1) | None => m end in
  let m := match scale with Some s => hmm m (HM (M (V (vx s) 0 0) (V 0 (vy s) 0) (V 0 0 (vz s))) v0 v0 1) | None => m end in
  hdiv m (hw m).

Section Inv.
(** [numpy.linalg.inv]; [None]: LinAlgError *)
Variable inv : hmat -> option hmat.
(** transformations.py:1827-1840 [inverse_matrix] *)
Definition inverse_matrix (m : hmat) : option hmat := inv m.
(** a row times a matrix; transformations.py:767 *)
Definition hvm (p : hvec) (m : hmat) : hvec := HV (vadd3 (vm (hv p) (hl m)) (vmul3 (h4 p) (hp m))) (dot (hv p) (ht m) + h4 p * hw m).
(** a row divided by a number: transformations.py:777, 781, 788 *)
Definition divide (v : vec) (s : R) : option vec := do x <- fdiv (vx v) s; do y <- fdiv (vy v) s; do z <- fdiv (vz v) s; Some (V x y z).
(** [any(abs(v) > _EPS)]; transformations.py:766 *)
Definition any_eps (v : vec) : bool :=
  (if Rlt_dec EPS (Rabs (vx v)) then true else false) || (if Rlt_dec EPS (Rabs (vy v)) then true else false) || (if Rlt_dec EPS (Rabs (vz v)) then true else false).
(** transformations.py:722-804 [decompose_matrix]: scale, shear, angles, translate, perspective.  The code works on the transposed
    matrix, its rows [row[i]] are the columns of the upper left block here; the determinant of [P] is that of the block *)
Definition decompose_matrix (m : hmat) : option (vec * vec * vec * vec * hvec) :=
  if Rlt_dec (Rabs (hw m)) EPS then None else
  do m <- hdiv m (hw m);
  if Req_EM_T (det (hl m)) 0 then None else
  do perspective <- (if any_eps (hp m) then do i <- inv (HM (hl m) (ht m) v0 1); Some (hvm (HV (hp m) (hw m)) i) else Some (HV v0 1));
  let translate := ht m in
  let '(r0, r1, r2) := (col0 (hl m), col1 (hl m), col2 (hl m)) in
  let scale0 := norm r0 in
  do r0 <- divide r0 scale0;
  let shear0 := dot r0 r1 in
  let r1 := vsub3 r1 (vmul3 shear0 r0) in
  let scale1 := norm r1 in
  do r1 <- divide r1 scale1;
  do shear0 <- fdiv shear0 scale1;
  let shear1 := dot r0 r2 in
  let r2 := vsub3 r2 (vmul3 shear1 r0) in
  let shear2 := dot r1 r2 in
  let r2 := vsub3 r2 (vmul3 shear2 r1) in
  let scale2 := norm r2 in
  do r2 <- divide r2 scale2;
  do shear1 <- fdiv shear1 scale2;
  do shear2 <- fdiv shear2 scale2;
  let scale := V scale0 scale1 scale2 in
  let '(scale, r0, r1, r2) :=
    if Rlt_dec (dot r0 (cross r1 r2)) 0 then (vneg scale, vneg r0, vneg r1, vneg r2) else (scale, r0, r1, r2) in
  if Rle_dec (- (1)) (- vz r0) then if Rle_dec (- vz r0) 1 then
    let a1 := asin (- vz r0) in
    let '(a0, a2) := if Req_EM_T (cos a1) 0 then (atan2 (- vy r2) (vy r1), 0) else (atan2 (vz r1) (vz r2), atan2 (vy r0) (vx r0)) in
    Some (scale, V shear0 shear1 shear2, V a0 a1 a2, translate, perspective)
  else None else None.
End Inv.
