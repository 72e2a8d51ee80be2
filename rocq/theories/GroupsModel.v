(** Grouping of surfaces into lens elements, resizing of rims, edge thicknesses.
    Modelled: rayopt/system.py:92-110 [groups], :311-323 [edge_thickness], :333-352 [resize_convex];
    rayopt/elements.py:328-331 [edge_sag].
    An Element without a [material] attribute is [Plain], every other one here is a Spheroid. *)
From Coq Require Import Reals List Arith Bool.
From Verif Require Import Base Vec RotModel PlacementModel ElementModel.
Import ListNotations.
Open Scope R_scope.

(** [hasattr(el, "material")]: elements.py:276-281 *)
Definition has_material (e : element) : bool := match e_kind e with Plain => false | Sph _ _ => true end.
(** [getattr(el.material, "solid", False)]; system.py:101 *)
Definition solid (e : element) : bool := match e_kind e with Sph (Some m) _ => m_solid m | _ => false end.
(** [getattr(el.material, "mirror", False)]; system.py:103 *)
Definition is_mirror (e : element) : bool := match e_kind e with Sph (Some m) _ => m_mirror m | _ => false end.

(** [System.groups]: system.py:92-110; the generator is the list of what it yields.
    [i] is the position of the first element of [s], [group] the open group *)
Fixpoint groups_from (i : nat) (group : list nat) (s : list element) : list (list nat) :=
  match s with
  | [] => match group with [] => [] | _ => [group] end
  | el :: s =>
      if has_material el then
        if solid el then groups_from (S i) (group ++ [i]) s
        else if (match group with [] => false | _ => true end) || is_mirror el then
          (group ++ [i]) :: groups_from (S i) [] s
        else groups_from (S i) group s
      else match group with [] => groups_from (S i) group s | _ => groups_from (S i) (group ++ [i]) s end
  end.
(** system.py:92-110 [groups] *)
Definition groups (s : list element) : list (list nat) := groups_from 0 [] s.

(** [getattr(el, "curvature", 0)] *)
Definition curvature (e : element) : R := match e_kind e with Sph _ s => s_c s | Plain => 0 end.
(** [not el.material or el.material.solid]: a Material is always true; system.py:349, 351 *)
Definition opens (e : element) : bool := match e_kind e with Sph None _ => true | Sph (Some m) _ => m_solid m | Plain => false end.
(** [max] of radii, [None] is inf; system.py:343 *)
Definition rad_max (a b : option R) : option R := match a, b with Some x, Some y => Some (Rmax x y) | _, _ => None end.
(** assignment [el.radius = r] in the store of radii by position; system.py:345, 347 *)
Definition put {A} (rad : nat -> A) (i : nat) (r : A) : nat -> A := fun j => if Nat.eqb j i then r else rad j.
(** [System.resize_convex]: system.py:333-352.  [pending] is the position of the pending element *)
Fixpoint resize_from (i : nat) (s : list element) (pending : option nat) (c0 : R) (rad : nat -> option R) : nat -> option R :=
  match s with
  | [] => rad
  | el :: s =>
      if has_material el then
        let c := curvature el in
        let rad := match pending with
          | None => rad
          | Some p =>
              let r := rad_max (rad i) (rad p) in
              let rad := if Rle_dec c 0 then put rad i r else rad in
              if Rlt_dec 0 c0 then put rad p r else rad
          end in
        if opens el then resize_from (S i) s (Some i) c rad
        else resize_from (S i) s None c0 rad
      else resize_from (S i) s pending c0 rad
  end.
(** the loop runs over [self[1:-1]]; positions count from the start of the system *)
Definition resize_convex (s : list element) : nat -> option R :=
  resize_from 1 (removelast (tl s)) None 0 (fun j => match nth_error s j with Some e => e_radius e | None => None end).

(** [Interface.edge_sag]: elements.py:328-331, with [r[axis] = radius]; an infinite rim has an
    edge only on a plane *)
Definition edge_sag (s : surf) (radius : option R) (axis : bool) : option R :=
  match radius with
  | None => if Req_EM_T (s_c s) 0 then match s_asph s with None => Some 0 | Some _ => None end else None
  | Some r => surface_sag s (if axis then V 0 r 0 else V r 0 0)
  end.
(** [System.edge_thickness]: system.py:311-323; a Plain element has no [edge_sag] (AttributeError, 0) *)
Fixpoint edges_from (axis : bool) (dz0 : R) (s : list element) : option (list R) :=
  match s with
  | [] => Some []
  | el :: s =>
      do dz <- match e_kind el with Plain => Some 0 | Sph _ f => edge_sag f (e_radius el) axis end;
      do t <- edges_from axis dz s;
      Some (p_distance (e_place el) - dz + dz0 :: t)
  end.
(** system.py:311-323 [edge_thickness] *)
Definition edge_thickness (s : list element) (axis : bool) : option (list R) := edges_from axis 0 s.
