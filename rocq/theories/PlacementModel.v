(** Model of [TransformMixin], /repo/rayopt/elements.py:29-175. *)
From Coq Require Import Reals List Lra.
From Verif Require Import Base Vec RotModel.
Open Scope R_scope.

(** numpy.allclose for one pair of numbers: [abs(a - b) <= atol + rtol*abs(b)],
    atol = 1e-8, rtol = 1e-5 *)
Definition tol : R := / 100000000.
(** [np.allclose] of two numbers, elements.py:133-134: relative 1e-5 and absolute 1e-8 *)
Definition isclose (a b : R) : bool :=
  if Rle_dec (Rabs (a - b)) (tol + / 100000 * Rabs b) then true else false.
(** [np.allclose] of two vectors: elements.py:133-134, 145 *)
Definition allclose (a b : vec) : bool :=
  andb (isclose (vx a) (vx b)) (andb (isclose (vy a) (vy b)) (isclose (vz a) (vz b))).

(** attributes written by [update], elements.py:128-154 *)
Record placement := Placement {
  p_distance : R; p_direction : vec; p_offset : vec; p_angles : vec;
  p_straight : bool; p_normal : bool;
  p_rot_axis : option mat; p_rot_normal : option mat }.
(** elements.py:134 *)
Definition p_rotated (p : placement) : bool := negb (andb (p_normal p) (p_straight p)).

(** elements.py:121-124: unit vector, (0, 0, 1) for the zero vector *)
Definition unit_or_axis (direction : vec) : option vec :=
  let dlen := norm direction in
  let '(direction, dlen) := if Req_EM_T dlen 0 then (ez, 1) else (direction, dlen) in
  do x <- fdiv (vx direction) dlen;
  do y <- fdiv (vy direction) dlen;
  do z <- fdiv (vz direction) dlen;
  Some (V x y z).

(** elements.py:139-146: rotation taking (0, 0, 1) to [u].  [arcsin] of a norm > 1
    would be NaN; the norm of [u x (0, 0, 1)] is at most one (idealised floats). *)
Definition axis_rotation (u : vec) : option mat :=
  let rdir := cross u ez in
  let rang := asin (norm rdir) in
  let rang := if Rlt_dec (vz u) 0 then PI - rang else rang in
  let rdir := if allclose rdir v0 then ex else rdir in
  rotation_matrix rang rdir.

(** elements.py:120-154 [update] *)
Definition update (distance : R) (direction angles : vec) : option placement :=
  do u <- unit_or_axis direction;
  let '(distance, u) := if Rlt_dec distance 0 then (distance * -1, vmul3 (-1) u)
                        else (distance, u) in
  let straight := allclose u ez in
  let normal := allclose angles v0 in
  let mk := Placement distance u (vmul3 distance u) angles straight normal in
  if andb normal straight then Some (mk None None)
  else
    let r := eye in
    if straight then
      let r := if normal then r
               else mm r (euler_matrix (vx angles) (vy angles) (vz angles) rxyz) in
      Some (mk None (Some r))
    else
      do r1 <- axis_rotation u;
      let r := mm r r1 in
      let r := if normal then r
               else mm r (euler_matrix (vx angles) (vy angles) (vz angles) rxyz) in
      Some (mk (Some r1) (Some r)).

(** elements.py:55-62 offset setter *)
Definition set_offset (p : placement) (offset : vec) : option placement :=
  let d := norm offset in
  if Req_EM_T d 0 then update d ez (p_angles p)
  else
    do x <- fdiv (vx offset) d;
    do y <- fdiv (vy offset) d;
    do z <- fdiv (vz offset) d;
    update d (V x y z) (p_angles p).
(** elements.py:68-70 *)
Definition set_angles (p : placement) (angles : vec) := update (p_distance p) (p_direction p) angles.
(** elements.py:76-78 *)
Definition set_distance (p : placement) (distance : R) :=
  update distance (p_direction p) (p_angles p).
(** elements.py:84-86 *)
Definition set_direction (p : placement) (direction : vec) :=
  update (p_distance p) direction (p_angles p).

(** elements.py:31-35 constructor *)
Definition init (distance : R) (direction angles : vec) (offset : option vec) : option placement :=
  do p <- update distance direction angles;
  match offset with None => Some p | Some o => set_offset p o end.

(** elements.py:156-163 [_do_rotate] for one vector; multiplying by a missing
    matrix is an exception *)
Definition do_rotate (rotation : option mat) (inverse flag : bool) (y : vec) : option vec :=
  if flag then
    match rotation with
    | None => None
    | Some r => Some (vm y (if inverse then mT r else r))
    end
  else Some y.
(** elements.py:165-175 *)
Definition from_axis p y := do_rotate (p_rot_axis p) false (negb (p_straight p)) y.
(** elements.py:168-169 *)
Definition to_axis p y := do_rotate (p_rot_axis p) true (negb (p_straight p)) y.
(** elements.py:171-172 *)
Definition from_normal p y := do_rotate (p_rot_normal p) false (p_rotated p) y.
(** elements.py:174-175 *)
Definition to_normal p y := do_rotate (p_rot_normal p) true (p_rotated p) y.

(** A history of attribute assignments; elements.py:55-86 *)
Inductive setter :=
  | SetDistance (d : R) | SetDirection (u : vec) | SetAngles (a : vec) | SetOffset (o : vec).
(** elements.py:55-86: one assignment *)
Definition apply_setter (s : setter) (p : placement) : option placement :=
  match s with
  | SetDistance d => set_distance p d
  | SetDirection u => set_direction p u
  | SetAngles a => set_angles p a
  | SetOffset o => set_offset p o
  end.
(** elements.py:55-86: assignments in turn *)
Fixpoint run (l : list setter) (p : placement) : option placement :=
  match l with
  | nil => Some p
  | cons s l => do p <- apply_setter s p; run l p
  end.
