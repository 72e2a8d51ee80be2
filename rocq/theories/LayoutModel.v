(** Laying out elements in space: rayopt/system.py:413-442 and rayopt/elements.py:88-118. *)
From Coq Require Import Reals List ZArith Bool.
From Verif Require Import Base Vec RotModel PlacementModel.
Import ListNotations.
Open Scope R_scope.

(** [np.cumsum] of vectors and of numbers; system.py:413-415, 423-425 *)
Fixpoint cumsum3 (acc : vec) (l : list vec) : list vec :=
  match l with [] => [] | v :: l => vadd3 acc v :: cumsum3 (vadd3 acc v) l end.
(** [np.cumsum] of numbers: system.py:423-429 *)
Fixpoint cumsum1 (acc : R) (l : list R) : list R :=
  match l with [] => [] | v :: l => (acc + v) :: cumsum1 (acc + v) l end.
(** [System.origins]: system.py:413-415 *)
Definition origins (s : list placement) : list vec := cumsum3 v0 (map p_offset s).
(** [System.path]: system.py:423-425 *)
Definition path (s : list placement) : list R := cumsum1 0 (map p_distance s).
(** [System.track]: system.py:427-429 *)
Definition track (s : list placement) : list R := map vz (origins s).
(** Python list index; system.py:417-421 *)
Definition position (n : nat) (i : Z) : option nat :=
  let j := (if i <? 0 then i + Z.of_nat n else i)%Z in
  if ((0 <=? j) && (j <? Z.of_nat n))%Z then Some (Z.to_nat j) else None.
(** assignment to an item: system.py:417-421 *)
Fixpoint replace {A} (l : list A) (n : nat) (v : A) : list A :=
  match l, n with [], _ => [] | _ :: l, O => v :: l | w :: l, S n => w :: replace l n v end.
(** [System.close]: system.py:417-421; [None]: IndexError *)
Definition close (s : list placement) (index : Z) : option (list placement) :=
  do k <- position (length s) index;
  match nth_error s k with
  | Some p => do q <- set_offset p (vsub3 (p_offset p) (last (origins s) v0)); Some (replace s k q)
  | None => None
  end.
(** [System.mirrored]: system.py:439-442 *)
Fixpoint mirrored_from (acc : R) (mirrors : list bool) : list R :=
  match mirrors with [] => [] | m :: l => let acc := acc * (if m then -1 else 1) in acc :: mirrored_from acc l end.
(** system.py:439-442 [mirrored] *)
Definition mirrored (mirrors : list bool) : list R := mirrored_from 1 mirrors.

(** [np.sign]; elements.py:103-118 *)
Definition sgn (x : R) : R := if Rlt_dec 0 x then 1 else if Rlt_dec x 0 then -1 else 0.
(** [TransformMixin.excidence]: elements.py:93-101, in the frame of the surface normal *)
Definition excidence (p : placement) (mu : R) : option vec :=
  do i <- to_normal p (p_direction p);
  if Req_EM_T mu 1 then Some i
  else
    let a := Rabs mu * vz i in
    do q <- fsqrt (a ^ 2 - mu ^ 2 + 1);
    let g := - a + sgn mu * q in
    Some (vadd3 (vmul3 (Rabs mu) i) (vmul3 g ez)).
(** [TransformMixin.align]: elements.py:103-118 *)
Definition align (p : placement) (direction : vec) (mu : R) : option placement :=
  let i := p_direction p in
  let r := vsub3 (vmul3 mu i) direction in
  let r := if Rlt_dec mu 1 then vmul3 (-1) r else r in
  let r := if allclose r v0 then ez else r in
  do x <- fdiv (vx r) (norm r); do y <- fdiv (vy r) (norm r); do z <- fdiv (vz r) (norm r);
  let rdir := cross i (V x y z) in
  let rang := asin (norm rdir) in
  let rdir := if allclose rdir v0 then ex else rdir in
  do rot <- rotation_matrix rang rdir;
  let '(a, b, c) := euler_from_matrix (mT rot) rxyz in
  update (p_distance p) (p_direction p) (V a b c).
(** [System.align]: system.py:430-437; one index per element *)
Fixpoint align_from (s : list placement) (n0 : R) (n : list R) : option (list placement) :=
  match s, n with
  | [p], _ => do q <- set_angles p v0; Some [q]
  | p :: ((p' :: _) as s'), n1 :: n =>
      do mu <- fdiv n0 n1; do q <- align p (p_direction p') mu; do r <- align_from s' n1 n; Some (q :: r)
  | _, _ => None
  end.
(** system.py:430-437 [align] *)
Definition sys_align (s : list placement) (n : list R) : option (list placement) :=
  match n with [] => None | n0 :: _ => align_from s n0 n end.
