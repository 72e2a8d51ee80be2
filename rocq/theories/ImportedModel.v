(** From the table of a lens to the elements that are traced.
    Modelled: rayopt/formats.py:28-82 with the Spheroids of rayopt/elements.py:414-426 and
    rayopt/material.py:88-116 [Material.make] on a table entry, 161-167 [ModelMaterial].
    Materials given by a name are looked up by [find]. *)
From Coq Require Import Reals String List ZArith.
From Verif Require Import Base Vec PlacementModel ElementModel ImportModel.
Import ListNotations.
Open Scope R_scope.

(** material.py:88-116 on an entry: nothing gives None, a number a material of that index, a text is looked up;
    [None]: KeyError *)
Definition make_material (find : string -> option material) (v : option value) : option (option material) :=
  match v with
  | None => Some None
  | Some (Num n) => Some (Some (Material (fun _ => n) false true))
  | Some (Txt s) => do m <- find s; Some (Some m)
  end.
(** formats.py:52, 60-75: a new Spheroid whose curvature, distance, radius and material are assigned; a curvature or
    radius that is still text cannot be computed with, [None] *)
Definition spheroid_of (e : row_el (option material)) : option element :=
  do p <- init 0 ez v0 None;
  do p <- set_distance p (re_distance _ e);
  match re_curvature _ e, re_radius _ e with
  | Num c, Num r => Some (El p (Some r) (Sph (re_material _ e) (Surf c 0 None false)))
  | _, _ => None
  end.
(** all of them in turn: formats.py:48-75 *)
Fixpoint spheroids (es : list (row_el (option material))) : option (list element) :=
  match es with
  | [] => Some []
  | e :: es => do x <- spheroid_of e; do xs <- spheroids es; Some (x :: xs)
  end.
(** formats.py:39-41: the columns if none are given *)
Definition default_columns : list string := ["type"; "roc"; "distance"; "diameter"; "material"]%string.
(** [system_from_text(text, shifts=shifts)]: formats.py:39-82; elements and stop of the System *)
Definition lens_from_text (find : string -> option material) (shifts : list (string * Z)) (lines : list (list value)) : option (list element * Z) :=
  do es <- system_from_text (option material) (make_material find) default_columns shifts (fun v => v) 1 lines;
  do xs <- spheroids (fst es);
  Some (xs, snd es).

(** zemax.py:92-94, 110 with elements.py:414-426: a Spheroid made at its distance, then curvature, material, radius, conic
    and aspherics assigned; an infinite distance is [None] *)
Definition zmx_spheroid (e : zsurf material) : option element :=
  do d <- z_dist _ e;
  do p <- init d ez v0 None;
  Some (El p (z_rad _ e) (Sph (Some (z_mat _ e)) (Surf (z_curv _ e) (z_conic _ e) (z_asph _ e) false))).
(** all of them: zemax.py:91-182 *)
Fixpoint zmx_spheroids (es : list (zsurf material)) : option (list element) :=
  match es with
  | [] => Some []
  | e :: es => do x <- zmx_spheroid e; do xs <- zmx_spheroids es; Some (x :: xs)
  end.
(** [zmx_to_system]: zemax.py:91-183; elements of the System *)
Definition lens_from_zmx (air : material) (find : string -> option material) (cmds : list command) : option (list element) :=
  zmx_spheroids (fst (zmx_to_system material air find cmds)).
