(** Model of the resolution quantities and aperture sizing of the paraxial and the geometric trace:
    paraxial_trace.py:114-117, 167-206, 295-297, 343-357, geometric_trace.py:37-48, 185-215, 231-234.
    Pairs (object side, image side) of the code are two functions here; a division by zero on one side
    (numpy inf) is [None] on that side only. *)
From Coq Require Import Reals List Bool.
From Verif Require Import Base Vec PlacementModel ElementModel ParaxialModel PupilModel AimModel ParaxTraceModel.
Import ListNotations.
Open Scope R_scope.

(** paraxial_trace.py:114-117 [height] *)
Definition height_object (rs : list prow) : option R := do r <- nth_error rs 0; Some (Rabs (snd (ry r))).
(** paraxial_trace.py:114-117 [height], entry 1 *)
Definition height_image (rs : list prow) : option R := do r <- back rs 1; Some (Rabs (snd (ry r))).
(** paraxial_trace.py:167-174 [numerical_aperture]; [fin] is "object and image finite"; simplification: a zero
    slope behind the system gives [None], not 0, in the finite case *)
Definition na_side (n u : R) : option R := do t <- fdiv u n; Some (n * sinarctan t).
(** paraxial_trace.py:167-174 [numerical_aperture], entry 0 *)
Definition na_object (rs : list prow) : option R :=
  do r0 <- nth_error rs 0; do a <- na_side (rn r0) (fst (ru r0)); Some (Rabs a).
(** paraxial_trace.py:167-174 [numerical_aperture], entry 1 *)
Definition na_image (fin : bool) (rs : list prow) : option R :=
  do r0 <- nth_error rs 0; do r2 <- back rs 2;
  if fin then
    do a <- na_side (rn r0) (fst (ru r0));
    do m <- fdiv (fst (ru r0)) (fst (ru r2));
    do b <- fdiv a m; Some (Rabs b)
  else do a <- na_side (rn r2) (fst (ru r2)); Some (Rabs a).
(** paraxial_trace.py:176-178 [f_number] *)
Definition f_number_object (rs : list prow) : option R :=
  do f <- focal_length rs; do h <- ppupil_height rs; do x <- fdiv (fst f) (2 * fst h); Some (Rabs x).
(** paraxial_trace.py:176-178 [f_number], entry 1 *)
Definition f_number_image (rs : list prow) : option R :=
  do f <- focal_length rs; do h <- ppupil_height rs; do x <- fdiv (snd f) (2 * snd h); Some (Rabs x).
(** paraxial_trace.py:180-183 [working_f_number] *)
Definition working_object (rs : list prow) : option R :=
  do r0 <- nth_error rs 0; do a <- na_object rs; fdiv (rn r0) (2 * a).
(** paraxial_trace.py:180-183 [working_f_number], entry 1 *)
Definition working_image (fin : bool) (rs : list prow) : option R :=
  do r2 <- back rs 2; do a <- na_image fin rs; fdiv (rn r2) (2 * a).
(** paraxial_trace.py:185-188 [airy_radius] from one numerical aperture; l in metres, s metres per unit *)
Definition airy_radius (l s na : R) : option R := do x <- fdiv (122 / 100 * l) (2 * na); fdiv x s.
(** paraxial_trace.py:190-193 [rayleigh_range] *)
Definition rayleigh_range (l s na : R) : option R :=
  do r <- airy_radius l s na; do x <- fdiv (PI * r ^ 2) l; Some (x * s).
(** paraxial_trace.py:201-205 [number_of_points] *)
Definition number_of_points (l : R) (rs : list prow) : option R :=
  do L <- lagrange rs; fdiv (4 * L ^ 2) (l ^ 2).

(** paraxial_trace.py:295-297 [resize]: the radius of every element but the first *)
Fixpoint presize_from (es : list element) (rs : list prow) : list element :=
  match es, rs with
  | e :: es, r :: rs => El (e_place e) (Some (Rabs (fst (ry r)) + Rabs (snd (ry r)))) (e_kind e) :: presize_from es rs
  | es, _ => es
  end.
(** paraxial_trace.py:295-297 [resize] *)
Definition presize (es : list element) (rs : list prow) : list element :=
  match es, rs with
  | e :: es, _ :: rs => e :: presize_from es rs
  | es, _ => es
  end.

(** numpy [max] of the distances from the vertex of the rays on one element, geometric_trace.py:232, 234;
    a NaN or an empty bundle gives [None] *)
Fixpoint max_from (m : R) (ys : list (option vec)) : option R :=
  match ys with
  | [] => Some m
  | y :: ys => do y <- y; max_from (Rmax m (sqrt (r2_of y))) ys
  end.
(** [ri.max()]: geometric_trace.py:232, 234 *)
Definition max_radius (ys : list (option vec)) : option R :=
  match ys with
  | [] => None
  | y :: ys => do y <- y; max_from (sqrt (r2_of y)) ys
  end.
(** geometric_trace.py:231-234 [resize]; [ys] are the points of all rays element by element, [fn] the
    function of the new and the old radius (default: the new one); a NaN radius is [None] here and stops *)
Fixpoint gresize_from (fn : R -> option R -> option R) (es : list element) (ys : list (list (option vec))) : option (list element) :=
  match es, ys with
  | e :: es, y :: ys =>
      do m <- max_radius y;
      do es <- gresize_from fn es ys;
      Some (El (e_place e) (fn m (e_radius e)) (e_kind e) :: es)
  | es, _ => Some es
  end.
(** geometric_trace.py:231-234 [resize] *)
Definition gresize fn (es : list element) (ys : list (list (option vec))) : option (list element) :=
  match es, ys with
  | e :: es, _ :: ys => do es <- gresize_from fn es ys; Some (e :: es)
  | es, _ => Some es
  end.

(** geometric_trace.py:185-193 [rays_paraxial] with :50-74 [rays_given]: start point and direction of the two
    rays; NaN for a missing root *)
Definition place_axis (axis : bool) (x : R) : R * R := if axis then (0, x) else (x, 0).
(** geometric_trace.py:62-67 for one ray given by two coordinates *)
Definition given_ray (y u : R * R) : option (vec * vec) :=
  do w <- fsqrt (1 - (fst u * fst u + snd u * snd u));
  Some (V (fst y) (snd y) 0, V (fst u) (snd u) w).
(** geometric_trace.py:185-193 [rays_paraxial] *)
Definition rays_paraxial (axis : bool) (rs : list prow) : option ((vec * vec) * (vec * vec)) :=
  do r <- nth_error rs 0;
  do m <- given_ray (place_axis axis (fst (ry r))) (place_axis axis (sinarctan (fst (ru r))));
  do c <- given_ray (place_axis axis (snd (ry r))) (place_axis axis (sinarctan (snd (ru r))));
  Some (m, c).
(** geometric_trace.py:37-48, 76-90: the array [y] of a bundle, per element the points of all rays *)
Definition points (n : nat) (traces : list (list step)) : list (list (option vec)) :=
  map (fun k => map (fun tr => do s <- nth_error tr k; st_y s) traces) (seq 0 n).

Section Newton.
Variable newton : (R -> option R) -> (R -> option R) -> option R -> option R.
(** paraxial_trace.py:349, 353-354: [aim((0, 0), (0, s))] of a conjugate with its own pupil and no surface, then
    [tanarcsin] of the three column direction; first row, second column.  An empty bundle raises IndexError *)
Definition edge (c : conjugate) (s : R) : option (R * R) :=
  do r <- pupil_radius (cj_pupil c);
  let z := pu_distance (cj_pupil c) in
  let rays := if cj_finite c then finite_aim c None (0, 0) (Some [(0, s)]) z (corners_of r) true
              else infinite_aim newton c None (0, 0) (Some [(0, s)]) z (corners_of r) true in
  do ray <- nth_error rays 0; do yu <- ray;
  do t <- fdiv (vy (snd yu)) (vz (snd yu));
  Some (vy (fst yu), t).
(** paraxial_trace.py:343-357 [update_stop]: the new radius of the stop; [end="object"] *)
Definition update_stop_object (axis : bool) (l : R) (es : list element) (stop : nat) (object : conjugate) : option R :=
  do m <- snd (sys_matrix es l 1 (Some (S stop)));
  let '(a, b, _, _) := block axis m in
  do yu <- edge object 1; Some (a * fst yu + b * snd yu).
(** [end="image"]; paraxial_trace.py:346-350, 355-357 *)
Definition update_stop_image (axis : bool) (l : R) (es : list element) (stop : nat) (image : conjugate) : option R :=
  do m <- snd (sys_matrix es l (S stop) None);
  do ab <- inv_row0 (block axis m);
  do yu <- edge image (-1); Some (fst ab * fst yu + snd ab * snd yu).

(** geometric_trace.py:211-215 [rays_clipping]: the pupil coordinates launched for the pupil corners [p]; the
    launching itself is [finite_aim]/[infinite_aim] with the same corners and no filter *)
Definition clipping_coordinates (axis : bool) (p : corners) : option (list (R * R)) :=
  let m := corners_max p in
  do lo <- fdiv (if axis then lo_m p else lo_s p) m;
  do hi <- fdiv (if axis then hi_m p else hi_s p) m;
  Some [(0, 0); place_axis axis lo; place_axis axis hi].
(** geometric_trace.py:211-215 [rays_clipping] *)
Definition rays_clipping (c : conjugate) (surface : option surf) (yo : R * R) (z : R) (p : corners) (axis : bool) : option (list (option (vec * vec))) :=
  do ys <- clipping_coordinates axis p;
  Some (if cj_finite c then finite_aim c surface yo (Some ys) z p false else infinite_aim newton c surface yo (Some ys) z p false).
End Newton.
