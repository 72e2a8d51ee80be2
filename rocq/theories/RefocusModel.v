(** Refocusing of a geometric ray bundle and its spot size.
    Modelled: rayopt/geometric_trace.py:82-99 [refocus] (without the final re-trace), :171-183 [rms];
    rayopt/utils.py:42-49 [tanarcsin] for three components.  Floats are reals, NaN and inf are [None]. *)
From Coq Require Import Reals List Bool.
From Verif Require Import Base Vec RotModel PlacementModel ElementModel.
Import ListNotations.
Open Scope R_scope.

(** intercept and incoming direction of one ray at the surface, and its weight; geometric_trace.py:83-90 *)
Record ray := Ray { ry : option vec; ri : option vec; rw : R }.
(** utils.py:44-49: [u[:, :2]/u[:, 2:]] *)
Definition slope (i : vec) : option (R * R) := do a <- fdiv (vx i) (vz i); do b <- fdiv (vy i) (vz i); Some (a, b).
(** geometric_trace.py:84-90: [u = tanarcsin(i)], keep the rays with finite [u] *)
Fixpoint good (rays : list ray) : list (option vec * (R * R) * R) :=
  match rays with
  | [] => []
  | r :: rays => match (do i <- ri r; slope i) with Some u => (ry r, u, rw r) :: good rays | None => good rays end
  end.
(** [y[good]] as numbers: one NaN makes the means NaN; geometric_trace.py:86, 91 *)
Fixpoint points (l : list (option vec * (R * R) * R)) : option (list (R * R)) :=
  match l with
  | [] => Some []
  | (y, _, _) :: l => do y <- y; do r <- points l; Some ((vx y, vy y) :: r)
  end.
(** numpy [mean(0)] *)
Definition sum_fst (l : list (R * R)) : R := fold_right Rplus 0 (map fst l).
(** the sum of one column, for [mean(0)]: geometric_trace.py:91-92 *)
Definition sum_snd (l : list (R * R)) : R := fold_right Rplus 0 (map snd l).
(** [mean(0)]: geometric_trace.py:91-92 *)
Definition mean (l : list (R * R)) : option (R * R) :=
  do a <- fdiv (sum_fst l) (INR (length l)); do b <- fdiv (sum_snd l) (INR (length l)); Some (a, b).
(** [y - y.mean(0)] *)
Definition centred (l : list (R * R)) : option (list (R * R)) :=
  do m <- mean l; Some (map (fun p => (fst p - fst m, snd p - snd m)) l).
(** [np.dot((w[:, None]*a).ravel(), b.ravel())]; geometric_trace.py:93-97 *)
Fixpoint wdot (w : list R) (a b : list (R * R)) : R :=
  match w, a, b with
  | w :: ws, a :: as_, b :: bs => w * fst a * fst b + w * snd a * snd b + wdot ws as_ bs
  | _, _, _ => 0
  end.
(** geometric_trace.py:91-97 *)
Definition refocus_shift (rays : list ray) : option R :=
  let g := good rays in
  let w := map snd g in
  do y <- points g;
  do y <- centred y;
  do u <- centred (map (fun x => snd (fst x)) g);
  fdiv (- wdot w y u) (wdot w u u).
(** geometric_trace.py:98: [self.system[at].distance += t] *)
Definition refocus (p : placement) (rays : list ray) : option placement :=
  do t <- refocus_shift rays; set_distance p (p_distance p + t).
(** geometric_trace.py:171-183 with [ref=None] *)
Definition rms (w : list R) (y : list (R * R)) : option R :=
  do c <- centred y; Some (sqrt (wdot w c c)).
(** intercepts of the same rays with the plane element after it was placed anew: System.propagate,
    system.py:460-465, on rays given in the frame of the old placement of the element *)
Definition retrace (p q : placement) (y i : vec) : option vec :=
  do y <- from_normal p y; do i <- from_normal p i;
  do y <- to_normal q (vsub3 (vadd3 y (p_offset p)) (p_offset q)); do i <- to_normal q i;
  do t <- plane_intercept y i;
  Some (at_ray y i t).
