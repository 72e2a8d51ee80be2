(** Model of pupils and conjugates: pupils.py:25-215, conjugates.py:39-201,
    utils.py:41-72 (scalar case). *)
From Coq Require Import Reals List.
From Verif Require Import Base Vec RotModel.
Import ListNotations.
Open Scope R_scope.

(** utils.py:60-72 [sinarctan] of a scalar *)
Definition sinarctan (u : R) : R := u * (1 / sqrt (1 + u * u)).
(** utils.py:41-56 [tanarcsin] of a scalar *)
Definition tanarcsin (u : R) : option R := do s <- fsqrt (1 - u * u); fdiv u s.

(** conjugates.py:211-227 and pupils.py:58: the names of the projections *)
Inductive projection := Rectilinear | Stereographic | Equisolid | Orthographic | Equidistant.
(** [projection == "rectilinear"]: conjugates.py:72, pupils.py:58 *)
Definition rectilinear (p : projection) : bool := match p with Rectilinear => true | _ => false end.

(** the registered pupil classes; [pu_val] is the attribute stored by the class (na,
    slope, radius or fno); pupils.py:112-114, 144-146, 172-174, 196-198 *)
Inductive pupil_kind := NaPupil | SlopePupil | RadiusPupil | FnoPupil.
(** pupils.py:26-38, 116-118, 148-150, 176-178, 200-202: the attributes *)
Record pupil := Pupil { pu_kind : pupil_kind; pu_val : R; pu_distance : R; pu_update_distance : bool;
  pu_update_radius : bool; pu_aim : bool; pu_telecentric : bool; pu_index : R; pu_projection : projection }.
(** assignment to the attribute of the class: pupils.py:139, 167, 227 *)
Definition with_val (p : pupil) (v : R) : pupil :=
  Pupil (pu_kind p) v (pu_distance p) (pu_update_distance p) (pu_update_radius p) (pu_aim p) (pu_telecentric p) (pu_index p) (pu_projection p).
(** [self.distance = d]: pupils.py:41, 45 *)
Definition with_pdist (p : pupil) (d : R) : pupil :=
  Pupil (pu_kind p) (pu_val p) d (pu_update_distance p) (pu_update_radius p) (pu_aim p) (pu_telecentric p) (pu_index p) (pu_projection p).

(** numerical aperture of an [FnoPupil], pupils.py:203-205 *)
Definition fno_na (p : pupil) : option R := fdiv 1 (2 * pu_val p).
(** pupils.py:85-87 (RadiusPupil), 126-128 (NaPupil), 199-201 (FnoPupil) *)
Definition pupil_slope (p : pupil) : option R :=
  match pu_kind p with
  | NaPupil => do q <- fdiv (pu_val p) (pu_index p); tanarcsin q
  | SlopePupil => Some (pu_val p)
  | RadiusPupil => fdiv (pu_val p) (pu_distance p)
  | FnoPupil => do na <- fno_na p; do q <- fdiv na (pu_index p); tanarcsin q
  end.
(** pupils.py:81-83, 130-132, 156-158, 207-209 *)
Definition pupil_radius (p : pupil) : option R :=
  match pu_kind p with
  | RadiusPupil => Some (pu_val p)
  | _ => do s <- pupil_slope p; Some (s * pu_distance p)
  end.
(** pupils.py:89-91, 203-205 *)
Definition pupil_na (p : pupil) : option R :=
  match pu_kind p with
  | NaPupil => Some (pu_val p)
  | FnoPupil => fno_na p
  | _ => do s <- pupil_slope p; Some (sinarctan s * pu_index p)
  end.
(** pupils.py:93-95 *)
Definition pupil_fno (p : pupil) : option R :=
  match pu_kind p with
  | FnoPupil => Some (pu_val p)
  | _ => do na <- pupil_na p; fdiv 1 (2 * na)
  end.
(** pupils.py:134-136, 160-162, 211-213; a plain attribute for RadiusPupil *)
Definition set_radius (p : pupil) (r : R) : option pupil :=
  match pu_kind p with
  | RadiusPupil => Some (with_val p r)
  | SlopePupil => do q <- fdiv r (pu_distance p); Some (with_val p q)
  | NaPupil => do q <- fdiv r (pu_distance p); Some (with_val p (pu_index p * sinarctan q))
  | FnoPupil => do q <- fdiv r (pu_distance p); do f <- fdiv 1 (2 * pu_index p * sinarctan q); Some (with_val p f)
  end.
(** attribute assignment; the other classes have a read only property (AttributeError); pupils.py:129-131, 146, 213-215, 85-87 *)
Definition set_slope (p : pupil) (s : R) : option pupil :=
  match pu_kind p with SlopePupil => Some (with_val p s) | _ => None end.
(** assignment [p.na = v]: pupils.py:89-91, 114, 217-219 *)
Definition set_na (p : pupil) (s : R) : option pupil :=
  match pu_kind p with NaPupil => Some (with_val p s) | _ => None end.
(** assignment [p.fno = v]: pupils.py:93-95, 198 *)
Definition set_fno (p : pupil) (s : R) : option pupil :=
  match pu_kind p with FnoPupil => Some (with_val p s) | _ => None end.
(** pupils.py:44-48 [update] *)
Definition pupil_update (p : pupil) (distance radius : R) : option pupil :=
  let p := if pu_update_distance p then with_pdist p distance else p in
  if pu_update_radius p then set_radius p radius else Some p.
(** pupils.py:41-42, 184-186 [rescale] *)
Definition pupil_rescale (p : pupil) (k : R) : pupil :=
  let p := with_pdist p (pu_distance p * k) in
  match pu_kind p with RadiusPupil => with_val p (pu_val p * k) | _ => p end.

(** conjugates.py:39-52, 97-103, 172-180; [cj_val] is the radius (finite) or the angle *)
Record conjugate := Conjugate { cj_finite : bool; cj_val : R; cj_pupil : pupil; cj_projection : projection;
  cj_update_radius : bool }.
(** assignment to [radius] or [angle]: conjugates.py:123, 127, 135, 191-206 *)
Definition with_cval (c : conjugate) (v : R) : conjugate :=
  Conjugate (cj_finite c) v (cj_pupil c) (cj_projection c) (cj_update_radius c).
(** the conjugate with its pupil changed: conjugates.py:75, 121 *)
Definition with_pupil (c : conjugate) (p : pupil) : conjugate :=
  Conjugate (cj_finite c) (cj_val c) p (cj_projection c) (cj_update_radius c).
(** conjugates.py:70-73 *)
Definition wideangle (c : conjugate) : bool := negb (rectilinear (cj_projection c)).
(** conjugates.py:129-131, 200-202 [slope]; tan = sin/cos *)
Definition ftan (a : R) : option R := fdiv (sin a) (cos a).
(** conjugates.py:129-131, 200-202 [slope] *)
Definition conj_slope (c : conjugate) : option R :=
  if cj_finite c then fdiv (cj_val c) (pu_distance (cj_pupil c)) else ftan (cj_val c).
(** conjugates.py:133-135, 204-206 *)
Definition set_conj_slope (c : conjugate) (s : R) : conjugate :=
  if cj_finite c then with_cval c (pu_distance (cj_pupil c) * s) else with_cval c (atan s).
(** conjugates.py:120-123, 191-194 [update]; the radius may be infinite ([None]), which
    matters only if it is stored *)
Definition conj_update (c : conjugate) (radius : option R) (pupil_distance pupil_radius : R) : option conjugate :=
  do p <- pupil_update (cj_pupil c) pupil_distance pupil_radius;
  let c := with_pupil c p in
  if cj_update_radius c
  then do radius <- radius;
       Some (if cj_finite c then with_cval c radius else with_cval c (atan2 radius pupil_distance))
  else Some c.
(** conjugates.py:75-76, 125-127 [rescale] *)
Definition conj_rescale (c : conjugate) (k : R) : conjugate :=
  let c := with_pupil c (pupil_rescale (cj_pupil c) k) in
  if cj_finite c then with_cval c (cj_val c * k) else c.
