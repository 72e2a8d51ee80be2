(** Drawing geometry: straightened axis coordinates in space and the cut outlines of a system.
    Modelled: rayopt/raytrace.py:38-52 [Trace.from_axis], paraxial_trace.py:250-258 (the drawn rays),
    elements.py:262-266 and :371-378 [surface_cut], system.py:354-384 [surfaces_cut].
    The drawing itself is left out. *)
From Coq Require Import Reals List Arith.
From Verif Require Import Base Vec RotModel PlacementModel ElementModel LayoutModel SampleModel GaussianModel.
Import ListNotations.
Open Scope R_scope.

(** ** raytrace.py:38-52 *)
(** [y[a:b]] for natural a, b; raytrace.py:43 [np.vsplit] *)
Definition slice {A} (a b : nat) (l : list A) : list A := firstn (b - a) (skipn a l).
(** [np.vsplit(y, i)]: the rows between consecutive indices, starting at 0 and ending with the last row *)
Fixpoint vsplit {A} (start : nat) (idx : list nat) (l : list A) : list (list A) :=
  match idx with
  | [] => [skipn start l]
  | b :: idx => slice start b l :: vsplit b idx l
  end.
(** lines 40-41: positions of the vertices among the rows, by the height z of the reference ray *)
Definition split_points (path : list R) (ref : list R) : list nat := map (searchsorted_left ref) path.
(** lines 46-49: one point relative to element j *)
Definition place_point (e : placement) (z : R) (o : vec) (y : vec) : option vec :=
  do v <- PlacementModel.from_axis e (vsub3 y (V 0 0 z)); Some (vadd3 o v).
(** raytrace.py:43-50: the points in turn *)
Fixpoint all {A B} (f : A -> option B) (l : list A) : option (list B) :=
  match l with [] => Some [] | a :: l => do b <- f a; do r <- all f l; Some (b :: r) end.
(** lines 43-51; [None]: IndexError for a system without elements *)
Fixpoint from_axis_pieces (s : list placement) (j : nat) (pieces : list (list (list vec))) : option (list (list vec)) :=
  match pieces with
  | [] => Some []
  | rows :: pieces =>
      let k := Nat.min (length s - 1) j in
      do e <- nth_error s k; do z <- nth_error (path s) k; do o <- nth_error (LayoutModel.origins s) k;
      do r <- all (all (place_point e z o)) rows;
      do rest <- from_axis_pieces s (S j) pieces;
      Some (r ++ rest)
  end.
(** raytrace.py:38-52 [from_axis] with the split positions given *)
Definition trace_from_axis (s : list placement) (idx : list nat) (rows : list (list vec)) : option (list (list vec)) :=
  from_axis_pieces s 0 (vsplit 0 idx rows).
(** [i=None]: split at the vertices; raytrace.py:40-41 *)
Definition trace_from_axis_auto (s : list placement) (ref : nat) (rows : list (list vec)) : option (list (list vec)) :=
  do zs <- all (fun row => do y <- nth_error row ref; Some (vz y)) rows;
  trace_from_axis s (split_points (path s) zs) rows.
(** paraxial_trace.py:255-257: the rays with heights [ys] at the elements *)
Definition paraxial_lines (s : list placement) (ys : list (list R)) : option (list (list vec)) :=
  trace_from_axis s (seq 0 (length s)) (map (fun '(y, z) => map (fun h => V h h z) y) (combine ys (path s))).

(** ** system.py:354-384 *)
(** local cut of an element; axis 0 is x, 1 is y; heights of an infinite aperture are left out (no value) *)
Definition along (axis : nat) (h z : R) : vec := match axis with O => V h 0 z | _ => V 0 h z end.
(** elements.py:262-266 and 371-378 [surface_cut] *)
Definition surface_cut (e : element) (axis points : nat) : option (list vec) :=
  do rad <- e_radius e;
  match e_kind e with
  | Sph (Some _) s => all (fun h => do g <- surface_sag s (along axis h 0); Some (along axis h (- g))) (linspace (- rad) rad points)
  | _ => Some [along axis (- rad) 0; along axis rad 0]
  end.
(** a profile is its list of (height, z); the material counts by being present, solid, a mirror; system.py:358-384 *)
Definition profile : Type := list (R * R).
(** what system.py:358-384 use of an element: its material and its profile *)
Record drawn := Drawn { d_mat : option (bool * bool); d_profile : profile }.
(** lines 359-362 *)
Definition profile_of (axis points : nat) (pos : vec) (e : element) : option profile :=
  do c <- surface_cut e axis points;
  do l <- all (fun y => do v <- PlacementModel.from_normal (e_place e) y; Some (vadd3 pos v)) c;
  Some (map (fun v => (match axis with O => vx v | _ => vy v end, vz v)) l).
(** lines 367-377: outline of a solid between two profiles, from the lower end of the first, up along it,
    down along the second, and back; the corners make the rim a cylinder and a ring; None: empty profile *)
Definition closed_outline (p q : profile) : option profile :=
  do p0 <- hd_error p; do pn <- hd_error (rev p); do q0 <- hd_error q; do qn <- hd_error (rev q);
  let cl := if Rlt_dec (fst q0) (fst p0) then (fst q0, snd p0) else (fst p0, snd q0) in
  let cu := if Rlt_dec (fst pn) (fst qn) then (fst qn, snd pn) else (fst pn, snd qn) in
  Some (p ++ [cu] ++ rev q ++ [cl; p0]).
(** lines 358-384 *)
Fixpoint outlines (l : list drawn) (pending : option profile) : option (list profile) :=
  match l with
  | [] => Some (match pending with Some p => [p] | None => [] end)
  | e :: l =>
      let q := d_profile e in
      match d_mat e with
      | None => do r <- outlines l pending; Some (q :: r)
      | Some (solid, mirror) =>
          let next := if (solid || (match pending with Some _ => true | None => false end && mirror))%bool then Some q else None in
          match pending with
          | Some p => do o <- closed_outline p q; do r <- outlines l next; Some (o :: r)
          | None =>
              do r <- outlines l next;
              if (negb solid || mirror)%bool then Some (q :: r) else Some r
          end
      end
  end.
(** system.py:354-385 [surfaces_cut] on profiles *)
Definition surfaces_cut (l : list drawn) : option (list profile) := outlines l None.
(** lines 358-363: the elements of a system in turn *)
Fixpoint drawn_of (axis points : nat) (pos : vec) (es : list element) : option (list drawn) :=
  match es with
  | [] => Some []
  | e :: es =>
      let pos := vadd3 pos (p_offset (e_place e)) in
      do p <- profile_of axis points pos e;
      do r <- drawn_of axis points pos es;
      Some (Drawn (match e_kind e with Sph (Some m) _ => Some (m_solid m, m_mirror m) | _ => None end) p :: r)
  end.
(** system.py:354-385 [surfaces_cut] *)
Definition system_cut (axis points : nat) (es : list element) : option (list profile) :=
  do l <- drawn_of axis points v0 es; surfaces_cut l.
