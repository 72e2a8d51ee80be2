(** From the text of an OSLO lens file to the elements that are traced.
    Modelled: rayopt/oslo.py:86-126 and :129-167 with the Spheroids of rayopt/elements.py:414-426.  The readers are those
    of OsloModel; here the surfaces they leave become elements. *)
From Coq Require Import String Reals List ZArith.
From Verif Require Import Base Vec PlacementModel ElementModel OsloModel.
Import ListNotations.
Open Scope R_scope.

(** oslo.py:114-120: aspheric coefficients that are numbers; None: one of them is not *)
Fixpoint numbers (l : list (option R)) : option (list R) :=
  match l with [] => Some [] | x :: l => do x <- x; do r <- numbers l; Some (x :: r) end.
(** the surface of a Spheroid as it was set: oslo.py:95-120, 137-158; None: conic or an aspheric coefficient is None *)
Definition oslo_surf (e : surface material) : option surf :=
  do k <- u_conic _ e;
  match u_asph _ e with
  | None => Some (Surf (u_curv _ e) k None false)
  | Some l => do a <- numbers l; Some (Surf (u_curv _ e) k (Some a) false)
  end.
(** oslo.py:131, 160-161: a new Spheroid whose distance is assigned; an infinite distance is [None] *)
Definition len_spheroid (e : surface material) : option element :=
  do d <- u_dist _ e;
  do p <- init 0 ez v0 None;
  do p <- set_distance p d;
  do s <- oslo_surf e;
  Some (El p (u_rad _ e) (Sph (u_mat _ e) s)).
(** oslo.py:88, 122: a Spheroid made at its distance *)
Definition olc_spheroid (e : surface material) : option element :=
  do d <- u_dist _ e;
  do p <- init d ez v0 None;
  do s <- oslo_surf e;
  Some (El p (u_rad _ e) (Sph (u_mat _ e) s)).
(** all surfaces in turn: oslo.py:90-126, 133-167 *)
Fixpoint all_of (f : surface material -> option element) (es : list (surface material)) : option (list element) :=
  match es with
  | [] => Some []
  | e :: es => do x <- f e; do xs <- all_of f es; Some (x :: xs)
  end.
(** [len_to_system]: oslo.py:129-167; elements of the System *)
Definition lens_from_len (air : material) (make : string -> made material) (num : string -> option R) (lines : list string) : option (list element) :=
  do s <- len_to_system material air make num lines; all_of len_spheroid (l_done _ s).
(** [olc_to_system]: oslo.py:86-126; elements of the System *)
Definition lens_from_olc (air : material) (make : string -> made material) (num : string -> option R) (int : string -> option Z)
  (upper glass_map : string -> string) (dat : string) : option (list element) :=
  do es <- olc_to_system material air make num int upper glass_map dat; all_of olc_spheroid es.
