(** Wave front error on the reference sphere: rayopt/geometric_trace.py:101-129 and 139-144 [opd] with [resample]
    false (the interpolation onto a grid, scipy griddata, is not modelled).
    A ray is the list of its steps at all elements, ElementModel [geo_trace]. *)
From Coq Require Import Reals ZArith List.
From Verif Require Import Base Vec RotModel PlacementModel ElementModel.
Import ListNotations.
Open Scope R_scope.

(** python index and python slice end of a sequence of length [len]; geometric_trace.py:115-119 *)
Definition pyindex (len : nat) (i : Z) : option nat :=
  let j := (if i <? 0 then i + Z.of_nat len else i)%Z in
  if andb (0 <=? j)%Z (j <? Z.of_nat len)%Z then Some (Z.to_nat j) else None.
(** the end of a slice: geometric_trace.py:102 *)
Definition pyend (len : nat) (i : Z) : nat :=
  Z.to_nat (if i <? 0 then i + Z.of_nat len else i)%Z.
(** line 102: [(self.t[:after + 1] - self.t[:after + 1, (ref,)]).sum(0)] for one ray *)
Fixpoint path_diff (ts rs : list (option R)) : option R :=
  match ts, rs with
  | t :: ts, r :: rs => do t <- t; do r <- r; do s <- path_diff ts rs; Some (t - r + s)
  | _, _ => Some 0
  end.
(** lines 103-108: infinite objects, path from the wave front through the reference ray *)
Definition launch_path (finite : bool) (n0 : R) (y0 y0r u0r : vec) : R :=
  if finite then 0 else dot u0r (vsub3 y0r y0) * n0.
(** lines 109-113 *)
Definition default_radius (telecentric : bool) (track_image track_after pupil_distance : R) : R :=
  if telecentric then track_image - track_after else - pupil_distance.
(** lines 115-119 and 123: position and direction behind [after] in the frame of the image surface,
    relative to the vertex of the sphere around the reference image *)
Definition to_sphere (ea ei : element) (oa oi yref : vec) (radius : R) (y u : vec) : option (vec * vec) :=
  do y <- from_normal (e_place ea) y;
  do y <- to_normal (e_place ei) (vadd3 y (vsub3 oa oi));
  let y := vsub3 y yref in
  do u <- from_normal (e_place ea) u;
  do u <- to_normal (e_place ei) u;
  Some (V (vx y) (vy y) (vz y + radius), u).
(** line 124: [Spheroid(curvature=1./radius).intercept(y, u)] *)
Definition sphere_hit (radius : R) (y u : vec) : option R :=
  do c <- fdiv 1 radius; conic_intercept (Surf c 0 None false) y u.
(** one ray: sphere intercept distance and the point relative to the reference image; geometric_trace.py:116-132 *)
Definition sphere_point (ea ei : element) (oa oi yref : vec) (radius : R) (y u : option vec) : option (R * vec) :=
  do y <- y; do u <- u;
  do yu <- to_sphere ea ei oa oi yref radius y u;
  let '(y, u) := yu in
  do t <- sphere_hit radius y u;
  let p := at_ray y u t in
  Some (t, V (vx p) (vy p) (vz p - radius)).
(** start point of a ray; geometric_trace.py:106-107 *)
Definition launched (ray : list step) : option (vec * vec) :=
  do s <- nth_error ray 0; do y <- st_y s; do u <- st_u s; Some (y, u).
(** lines 101-129 for one ray and the reference ray; the sphere is centred on the image of the reference ray *)
Definition opd_ray (es : list element) (finite : bool) (radius : R) (after image : Z) (l scale : R)
  (ref ray : list step) : option (R * R * R) :=
  let stop := pyend (length es) (after + 1) in
  do t <- path_diff (map st_t (firstn stop ray)) (map st_t (firstn stop ref));
  do s0 <- nth_error ref 0;
  do yu0r <- launched ref; do yu0 <- launched ray;
  let t := t - launch_path finite (st_n s0) (fst yu0) (fst yu0r) (snd yu0r) in
  do a <- pyindex (length es) after; do i <- pyindex (length es) image;
  do ea <- nth_error es a; do ei <- nth_error es i;
  do oa <- nth_error (origins es) a; do oi <- nth_error (origins es) i;
  do sr <- nth_error ref a; do s <- nth_error ray a;
  do si <- nth_error ref i; do yref <- st_y si;
  do pr <- sphere_point ea ei oa oi yref radius (st_y sr) (st_u sr);
  do p <- sphere_point ea ei oa oi yref radius (st_y s) (st_u s);
  let t := t + (fst p - fst pr) * st_n sr in
  do q <- fdiv l scale;
  do t <- fdiv (- t) q;
  Some (vx (snd p) - vx (snd pr), vy (snd p) - vy (snd pr), t).
(** all rays, reference ray by number; geometric_trace.py:101-144 *)
Definition opd (es : list element) (finite : bool) (radius : R) (after image : Z) (l scale : R)
  (rays : list (list step)) (ref : nat) : option (list (option (R * R * R))) :=
  do r <- nth_error rays ref;
  Some (map (opd_ray es finite radius after image l scale r) rays).
