(** The printed reports, as lines of cells before the numbers are turned into digits.
    Modelled: rayopt/name_mixin.py:58-60 [typeletter]; rayopt/pupils.py:66-79, 125-127, 157-159, 185-187, 209-211 and
    rayopt/conjugates.py:53-60, 116-118, 196-198 [text]; rayopt/system.py:294-309, the element table of [base_text];
    rayopt/raytrace.py:54-61 [print_coeffs]; rayopt/paraxial_trace.py:213-215, 233-238; rayopt/geometric_trace.py:242-253;
    rayopt/poly_trace.py:158-161, 177-184, 190-208.
    Simplifications: the formatting of one number ("%10.4g" and the like), which drops digits, and the joining of cells to
    a string are left out; [None] in a number cell is inf or NaN; a result [None] is an exception. *)
From Coq Require Import Reals List String Bool Arith.
From Verif Require Import Base Vec PlacementModel LayoutModel ElementModel ParaxialModel PupilModel ParaxTraceModel SeidelModel SimplexModel PolySeidelModel.
Import ListNotations.
Open Scope R_scope.

(** an entry of a printed line: text, integer, float (None: NaN), truth value, projection; system.py:281-309, raytrace.py:54-61 *)
Inductive cell := Txt (s : string) | Int (i : nat) | Num (x : option R) | Flag (b : bool) | Proj (p : projection).

(** ** name_mixin.py:58-60: the first letter of the registered type in capitals.  [Spheroid] is the only element class that
    is registered (elements.py:412); an [Element] has the type None and None[0] raises *)
Definition typeletter (k : kind) : option string := match k with Plain => None | Sph _ _ => Some "S"%string end.

(** ** pupils.py:66-79 and the last line of the class; a line is its label and its value *)
Definition line := (string * option cell)%type.
(** [if c: yield label % v]: pupils.py:68-79 *)
Definition when (c : bool) (label : string) (v : cell) : list line := if c then [(label, Some v)] else [].
(** pupils.py:66-79, 125-127, 157-159, 185-187, 209-211 [text] *)
Definition pupil_text (p : pupil) : list line :=
  [("Pupil Distance", Some (Num (Some (pu_distance p))))]%string ++
  when (pu_telecentric p) "Telecentric" (Flag (pu_telecentric p)) ++
  when (if Req_EM_T (pu_index p) 1 then false else true) "Refractive Index" (Num (Some (pu_index p))) ++
  when (negb (rectilinear (pu_projection p))) "Projection" (Proj (pu_projection p)) ++
  when (negb (pu_update_distance p)) "Track Distance" (Flag (pu_update_distance p)) ++
  when (pu_update_radius p) "Update Radius" (Flag (pu_update_radius p)) ++
  when (pu_aim p) "Aim" (Flag (pu_aim p)) ++
  [(match pu_kind p with NaPupil => "NA" | SlopePupil => "Slope" | RadiusPupil => "Radius" | FnoPupil => "F-Number" end, Some (Num (Some (pu_val p))))]%string.
(** conjugates.py:53-60, 116-118, 196-198; [np.rad2deg] *)
Definition conjugate_text (c : conjugate) : list line :=
  [if cj_finite c then ("Radius", Some (Num (Some (cj_val c)))) else ("Semi-Angle", Some (Num (Some (cj_val c * 180 / PI))))]%string ++
  when (negb (rectilinear (cj_projection c))) "Projection" (Proj (cj_projection c)) ++
  when (cj_update_radius c) "Update Radius" (Flag (cj_update_radius c)) ++
  [("Pupil:"%string, None)] ++ pupil_text (cj_pupil c).

(** ** system.py:297-309: [nd], [vd] of the material, NaN without one; [name] is [str(material)] *)
Section Table.
Variables (nd vd : material -> option R) (name : material -> string).
(** system.py:300; [None]: infinite *)
Definition roc (c : R) : option R := if Req_EM_T c 0 then None else Some (1 / c).
(** system.py:302 *)
Definition material_of (e : element) : option material := match e_kind e with Sph m _ => m | Plain => None end.
(** system.py:299 *)
Definition curvature_of (e : element) : R := match e_kind e with Sph _ s => s_c s | Plain => 0 end.
(** system.py:298-309: the line of one element *)
Definition element_line (es : list element) (l : R) (i : nat) (e : element) : option (list cell) :=
  do t <- typeletter (e_kind e);
  Some ([Int i; Txt t; Num (Some (p_distance (e_place e))); Num (roc (curvature_of e)); Num (do r <- e_radius e; Some (r * 2))] ++
    match e_kind e with
    | Sph (Some m) _ => [Txt (name m); Num (Some (refractive_index es l i)); Num (nd m); Num (vd m)]
    | Sph None _ => [Txt "None"; Num None; Num None; Num None]
    | Plain => [Txt ""; Num None; Num None; Num None]
    end).
(** system.py:298-309: the elements in turn *)
Fixpoint element_lines (all : list element) (l : R) (i : nat) (es : list element) : option (list (list cell)) :=
  match es with [] => Some [] | e :: es => do a <- element_line all l i e; do r <- element_lines all l (S i) es; Some (a :: r) end.
(** the lines of the table without its head; one exception and nothing is printed; system.py:298-309 *)
Definition element_table (es : list element) (l : R) : option (list (list cell)) := element_lines es l 0 es.
End Table.

(** ** raytrace.py:54-61; a line with more or fewer numbers than labels is a TypeError, more lines than elements an
    IndexError *)
Fixpoint coeff_lines (k : nat) (es : list element) (coeff : list (list (option R))) (i : nat) : option (list (list cell)) :=
  match coeff with
  | [] => Some []
  | a :: coeff =>
      do e <- nth_error es i; do t <- typeletter (e_kind e);
      if (List.length a =? k)%nat then do r <- coeff_lines k es coeff (S i); Some (([Int i; Txt t] ++ map Num a) :: r) else None
  end.
(** addition with NaN, for [coeff.sum(0)]: raytrace.py:61 *)
Definition oadd (a b : option R) : option R := do a <- a; do b <- b; Some (a + b).
(** [coeff.sum(0)] *)
Fixpoint column_sums (k : nat) (coeff : list (list (option R))) : list (option R) :=
  match coeff with [] => repeat (Some 0) k | a :: coeff => map (fun p => oadd (fst p) (snd p)) (combine a (column_sums k coeff)) end.
(** raytrace.py:54-61 [print_coeffs] without the head line *)
Definition print_coeffs (es : list element) (coeff : list (list (option R))) (labels : list string) (sum : bool) : option (list (list cell)) :=
  do r <- coeff_lines (List.length labels) es coeff 0;
  Some ((map Txt ("#" :: "T" :: labels)%string :: r) ++
    if sum then [[Txt ""; Txt ""]%string ++ map Num (column_sums (List.length labels) coeff)] else []).
(** paraxial_trace.py:213-215 *)
Definition coef_row (x : coefs) : list (option R) := map Some [tsc x; cc x; tac x; tpc x; dc x; tachc x; tchc x].
(** paraxial_trace.py:213-215 printed by raytrace.py:54-61 *)
Definition print_transverse3 (es : list element) (xs : list coefs) : option (list (list cell)) :=
  print_coeffs es (map coef_row xs) ["SA3"; "CMA3"; "AST3"; "PTZ3"; "DIS3"; "TACHC"; "TCHC"]%string true.
(** paraxial_trace.py:233-238 *)
Definition paraxial_row (z : R) (r : prow) : list (option R) := map Some [z; rn r; fst (ry r); fst (ru r); snd (ry r); snd (ru r)].
(** paraxial_trace.py:233-238 printed by raytrace.py:54-61 *)
Definition print_paraxial (es : list element) (rs : list prow) : option (list (list cell)) :=
  print_coeffs es (map (fun zr => paraxial_row (fst zr) (snd zr)) (combine (path (map e_place es)) rs))
    ["path"; "n"; "axial y"; "axial nu"; "chief y"; "chief nu"]%string false.
(** geometric_trace.py:242-253 for one ray: [np.cumsum(self.t, axis=0) - self.path[:, None]] and the rest of the line *)
Fixpoint cumsum_o (acc : option R) (ts : list (option R)) : list (option R) :=
  match ts with [] => [] | t :: ts => let a := oadd acc t in a :: cumsum_o a ts end.
(** the three numbers of a vector: geometric_trace.py:242-253 *)
Definition xyz (v : option vec) : list (option R) := [do v <- v; Some (vx v); do v <- v; Some (vy v); do v <- v; Some (vz v)].
(** geometric_trace.py:242-253: the numbers of one element *)
Definition geometric_row (z : R) (p : option R) (s : step) : list (option R) :=
  [Some (st_n s); Some z; do p <- p; Some (p - z)] ++ xyz (st_y s) ++ xyz (st_u s).
(** geometric_trace.py:242-253: the numbers element by element *)
Definition geometric_rows (es : list element) (ray : list step) : list (list (option R)) :=
  map (fun x => geometric_row (fst x) (fst (snd x)) (snd (snd x))) (combine (path (map e_place es)) (combine (cumsum_o (Some 0) (map st_t ray)) ray)).
(** geometric_trace.py:242-253 printed by raytrace.py:54-61 *)
Definition print_geometric (es : list element) (ray : list step) : option (list (list cell)) :=
  print_coeffs es (geometric_rows es ray)
    ["n"; "track z"; "rel path"; "height x"; "height y"; "height z"; "angle x"; "angle y"; "angle z"]%string false.

(** ** poly_trace.py:158-161 and 163-184 *)
Definition print_seidel (s t : list R) : option (list (list cell)) := do l <- seidel s t; Some (map (fun nv => [Txt (fst nv); Num (Some (snd nv))]) l).
(** poly_trace.py:162-175 [names] *)
Definition names : list (string * string) :=
  [("spherical aberration", "sagittal coma"); ("field curvature", "distortion"); ("meridional coma", "field curvature");
   ("spherical aberration", "circular coma"); ("sagittal oblique spherical aberration", "meridional elliptical coma");
   ("circular coma", "oblique spherical aberration"); ("field curvature", "distortion");
   ("sagittal elliptical coma", "meridional field curvature");
   ("sagittal oblique spherical aberration", "meridional elliptical coma")]%string.
(** [i], [j] are the tables of the Simplex class; a monomial has three exponents; poly_trace.py:181-184, 204-205 *)
Definition label (i : itable) (e : list nat) : list cell := Int (i e) :: map Int e.
(** poly_trace.py:179-184: the [zip] of four lists in turn *)
Fixpoint print_names_from (i : itable) (ns : list (string * string)) (s t : list R) (js : list (list nat)) : list (list cell) :=
  match ns, s, t, js with
  | (a, b) :: ns, x :: s, y :: t, e :: js =>
      ([Txt "s"%string] ++ label i e ++ [Txt a; Num (Some x)]) :: ([Txt "t"%string] ++ label i e ++ [Txt b; Num (Some y)]) :: print_names_from i ns s t js
  | _, _, _, _ => []
  end.
(** poly_trace.py:177-184 [print_names] *)
Definition print_names (i : itable) (j : list (list nat)) (s t : list R) : list (list cell) := print_names_from i names (tl s) (tl t) (tl j).
(** poly_trace.py:190-208 for one component; [a]: its coefficient vector behind each element; [elements]: positions
    (default: all but the first); an element that does not exist is an IndexError *)
Fixpoint oseq {A} (l : list (option A)) : option (list A) := match l with [] => Some [] | x :: l => do x <- x; do l <- oseq l; Some (x :: l) end.
(** poly_trace.py:193-207 for one component *)
Definition poly_lines (i : itable) (j : list (list nat)) (a : list (list R)) (elements : option (list nat)) (cutoff : option nat) : option (list (list cell)) :=
  let elements := match elements with Some l => l | None => seq 1 (List.length a - 1) end in
  let keep e := match cutoff with None => true | Some c => (list_sum e <? c)%nat end in
  do cols <- oseq (map (nth_error a) elements);
  Some (map (fun ke => label i (snd ke) ++ map (fun col => Num (Some (nth (fst ke) col 0))) cols)
    (filter (fun ke => keep (snd ke)) (combine (seq 0 (List.length j)) j))).
