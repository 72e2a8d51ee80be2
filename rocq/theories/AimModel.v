(** Model of ray launching: utils.py:91-114, pupils.py:97-108, conjugates.py:137-166 and 208-255. *)
From Coq Require Import Reals List Bool.
From Verif Require Import Base Vec RotModel ElementModel PupilModel.
Import ListNotations.
Open Scope R_scope.

(** utils.py:101-103 [normalize] of one row; 0/0 for the zero vector *)
Definition fnormalize (u : vec) : option vec :=
  do x <- fdiv (vx u) (norm u); do y <- fdiv (vy u) (norm u); do z <- fdiv (vz u) (norm u); Some (V x y z).

(** [np.all(s == 0)]: utils.py:109 *)
Definition veqb (a b : vec) : bool :=
  if Req_EM_T (vx a) (vx b) then if Req_EM_T (vy a) (vy b) then if Req_EM_T (vz a) (vz b) then true else false else false else false.
(** utils.py:106-114 [sagittal_meridional] *)
Definition sagittal_meridional (u z : vec) : option (vec * vec) :=
  let s := cross u z in
  let s := if veqb s v0 then ex else s in
  let m := cross u s in
  do s <- fnormalize s; do m <- fnormalize m; Some (s, m).

(** the 2x2 array [[-sag, -mer], [+sag, +mer]] of pupil rim coordinates *)
Record corners := Corners { lo_s : R; lo_m : R; hi_s : R; hi_m : R }.
(** conjugates.py:144, 243: the corners for one pupil radius *)
Definition corners_of (a : R) : corners := Corners (- a) (- a) a a.
(** [np.arctan2(a, z)], conjugates.py:145 *)
Definition corners_angle (a : corners) (z : R) : corners :=
  Corners (atan2 (lo_s a) z) (atan2 (lo_m a) z) (atan2 (hi_s a) z) (atan2 (hi_m a) z).
(** [np.fabs(a).max()]; pupils.py:100 *)
Definition corners_max (a : corners) : R :=
  Rmax (Rmax (Rabs (lo_s a)) (Rabs (lo_m a))) (Rmax (Rabs (hi_s a)) (Rabs (hi_m a))).
(** [r <= 1] of pupils.py:104-107; inf and NaN compare false *)
Definition inside (a : corners) (y : R * R) : bool :=
  let cs := (lo_s a + hi_s a) / 2 in let cm := (lo_m a + hi_m a) / 2 in
  let ds := (hi_s a - lo_s a) / 2 in let dm := (hi_m a - lo_m a) / 2 in
  match fdiv ((fst y - cs) ^ 2) (ds ^ 2), fdiv ((snd y - cm) ^ 2) (dm ^ 2) with
  | Some p, Some q => if Rle_dec (p + q) 1 then true else false
  | _, _ => false
  end.
(** pupils.py:97-108 [Pupil.map] *)
Definition pupil_map (ys : list (R * R)) (a : corners) (filter : bool) : list (R * R) :=
  let am := corners_max a in
  let ys := map (fun y => (fst y * am, snd y * am)) ys in
  if filter then List.filter (inside a) ys else ys.

(** conjugates.py:137-166 [FiniteConjugate.aim], one field point [yo] and one pupil
    offset [yp] (already mapped by lines 141-149).  With a telecentric pupil and no pupil
    coordinate u stays the tuple (0, 0, z), not normalised, and [u *= -1] makes it empty *)
Definition finite_ray (c : conjugate) (surface : option surf) (yo : R * R) (yp : option (R * R)) (z : R) : option (vec * vec) :=
  let y := V (- fst yo * cj_val c) (- snd yo * cj_val c) 0 in
  do y <- match surface with
          | None => Some y
          | Some s => do e <- surface_sag s y; Some (V (vx y) (vy y) (- e))
          end;
  let uz := V 0 0 z in
  let u := if pu_telecentric (cj_pupil c) then uz else vsub3 uz y in
  match yp with
  | None =>
      if pu_telecentric (cj_pupil c) then if Rlt_dec z 0 then None else Some (y, uz)
      else do u <- fnormalize u; Some (y, if Rlt_dec z 0 then vneg u else u)
  | Some (ps, pm) =>
      do sm <- sagittal_meridional u uz;
      let u := vadd3 u (vadd3 (vmul3 ps (fst sm)) (vmul3 pm (snd sm))) in
      do u <- fnormalize u; Some (y, if Rlt_dec z 0 then vneg u else u)
  end.
(** conjugates.py:141-149: pupil coordinates by angle, then by height *)
Definition finite_pupil (ys : list (R * R)) (a : corners) (z : R) (filter : bool) : list (R * R) :=
  map (fun y => (z * tan (fst y), z * tan (snd y))) (pupil_map ys (corners_angle a z) filter).
(** conjugates.py:137-166 [FiniteConjugate.aim] *)
Definition finite_aim (c : conjugate) (surface : option surf) (yo : R * R) (yp : option (list (R * R))) (z : R) (a : corners) (filter : bool)
  : list (option (vec * vec)) :=
  match yp with
  | None => [finite_ray c surface yo None z]
  | Some ys => map (fun y => finite_ray c surface yo (Some y) z) (finite_pupil ys a z filter)
  end.

(** conjugates.py:208-234 [InfiniteConjugate.map]; in the orthographic branch the
    index [:, None] gives a 3 dimensional array and hstack raises *)
Definition direction_map (p : projection) (yo : R * R) (a : R) : option vec :=
  match p with
  | Rectilinear =>
      do t <- ftan a;
      let u := V (fst yo * t) (snd yo * t) 1 in fnormalize u
  | Stereographic =>
      do t <- ftan (a / 2);
      let x := fst yo * (2 * t) in let y := snd yo * (2 * t) in
      let r := (x * x + y * y) / 4 in
      do x <- fdiv x (r + 1); do y <- fdiv y (r + 1); do z <- fdiv (1 - r) (r + 1); Some (V x y z)
  | Equisolid =>
      let s := 2 * sin (a / 2) in
      let x := fst yo * s in let y := snd yo * s in
      let r := x * x + y * y in
      do w <- fsqrt (1 - r / 4); Some (V (x * w) (y * w) (1 - r / 2))
  | Orthographic => None
  | Equidistant =>
      let x := fst yo * a in let y := snd yo * a in
      let b := if Rlt_dec ((PI / 2) ^ 2) (x * x + y * y) then true else false in
      let x := sin x in let y := sin y in
      let z := sqrt (x * x + y * y) in
      Some (V x y (if b then - z else z))
  end.

Section Newton.
Variable newton : (R -> option R) -> (R -> option R) -> option R -> option R.
(** conjugates.py:236-255 [InfiniteConjugate.aim], one field point, one mapped pupil
    coordinate *)
Definition infinite_ray (c : conjugate) (surface : option surf) (yo : R * R) (yp : option (R * R)) (z : R) : option (vec * vec) :=
  do u <- direction_map (cj_projection c) yo (cj_val c);
  let yz := V 0 0 z in
  let y := vsub3 yz (vmul3 z u) in
  do y <- match yp with
          | None => Some y
          | Some (ps, pm) =>
              do sm <- sagittal_meridional u yz;
              Some (vadd3 y (vadd3 (vmul3 ps (fst sm)) (vmul3 pm (snd sm))))
          end;
  match surface with
  | None => Some (y, u)
  | Some s => do t <- intercept newton s y u; Some (vadd3 y (vmul3 t u), u)
  end.
(** conjugates.py:236-255 [InfiniteConjugate.aim] *)
Definition infinite_aim (c : conjugate) (surface : option surf) (yo : R * R) (yp : option (list (R * R))) (z : R) (a : corners) (filter : bool)
  : list (option (vec * vec)) :=
  match yp with
  | None => [infinite_ray c surface yo None z]
  | Some ys => map (fun y => infinite_ray c surface yo (Some y) z) (pupil_map ys a filter)
  end.
End Newton.
