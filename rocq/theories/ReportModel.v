(** The reports of whole traces, as lines before the numbers are turned into digits: rayopt/paraxial_trace.py:217-231
    [print_params], 240-248 [text]; rayopt/gaussian_trace.py:235-250 [print_trace], [__str__]; rayopt/poly_trace.py:186-188
    [print_params], 210-216 [__str__].  Simplifications: digits and the joining of lines are left out, [None] is inf or
    NaN; where the model of a pair of numbers fails as a whole both numbers are [None]; a beam whose
    principal axes cannot be found (an AssertionError in [normal]) is a line with [None] for the spots. *)
From Coq Require Import Reals List String Bool.
From Verif Require Import Base Cx Vec PlacementModel ElementModel ParaxialModel ParaxTraceModel LayoutModel SeidelModel
  GaussianModel ResolutionModel TraceRestModel SimplexModel PolySeidelModel PrintModel.
Import ListNotations.
Open Scope R_scope.

(** a label and numbers; paraxial_trace.py:217-231 *)
Definition entry := (string * list (option R))%type.
(** both numbers of a pair; paraxial_trace.py:221 *)
Definition both (o : option (R * R)) : list (option R) := match o with Some (a, b) => [Some a; Some b] | None => [None; None] end.
(** paraxial_trace.py:185-188 [airy_radius] of one side, none without numerical aperture *)
Definition airy_of (l s : R) (na : option R) : option R := do a <- na; airy_radius l s a.
(** paraxial_trace.py:217-231 [print_params]; [fin]: object and image finite *)
Definition print_params (es : list element) (l s : R) (fin : bool) (rs : list prow) : list entry :=
  [("lagrange", [lagrange rs]);
   ("track length", [track_length (map e_place es)]);
   ("object, image height", [height_object rs; height_image rs]);
   ("front, back focal length (from PP)", both (focal_length rs));
   ("entry, exit pupil height", both (ppupil_height rs));
   ("entry, exit pupil distance", both (ppupil_distance rs));
   ("front, back focal distance", both (focal_distance rs));
   ("front, back principal distance", both (principal_distance rs));
   ("front, back nodal distance", both (nodal_distance rs));
   ("front, back numerical aperture", [na_object rs; na_image fin rs]);
   ("front, back f number", [f_number_object rs; f_number_image rs]);
   ("front, back working f number", [working_object rs; working_image fin rs]);
   ("front, back airy radius", [airy_of l s (na_object rs); airy_of l s (na_image fin rs)]);
   ("transverse, angular magnification", both (magnification rs))]%string.
(** a line of a label and numbers among table lines; paraxial_trace.py:217-231 *)
Definition param_line (e : entry) : list cell := Txt (fst e) :: map Num (snd e).
(** the empty line between the parts; paraxial_trace.py:245-247, gaussian_trace.py:248, poly_trace.py:212-215 *)
Definition gap : list (list cell) := [[Txt ""]]%string.
(** paraxial_trace.py:240-248 [text] *)
Definition paraxial_text (es : list element) (l s : R) (fin : bool) (rs : list prow) (xs : list coefs) : option (list (list cell)) :=
  do t <- print_paraxial es rs; do c <- print_transverse3 es xs;
  Some (map param_line (print_params es l s fin rs) ++ gap ++ t ++ gap ++ c ++ gap).

(** gaussian_trace.py:237-241: the numbers of one element; [q], [n] the beam and the index behind it *)
Definition beam_row (l scale z : R) (r : option cm * R) : list (option R) :=
  let w := do q <- fst r; spot_radius_normal l scale q in
  let n := snd r in
  [Some z; do x <- w; Some (fst (fst x)); do x <- w; Some (snd (fst x)); do x <- w; Some (snd x * 180 / PI);
   do q <- fst r; waist_position n false q; do q <- fst r; waist_position n true q;
   do q <- fst r; waist_radius l n scale false q; do q <- fst r; waist_radius l n scale true q].
(** gaussian_trace.py:242-244 printed by raytrace.py:54-61 *)
Definition print_beam (es : list element) (l scale : R) (rows : list (option cm * R)) : option (list (list cell)) :=
  print_coeffs es (map (fun zr => beam_row l scale (fst zr) (snd zr)) (combine (path (map e_place es)) rows))
    ["path"; "spot a"; "spot b"; "spot ang"; "waistx dz"; "waisty dz"; "waist x"; "waist y"]%string false.
(** gaussian_trace.py:246-250 [__str__] *)
Definition beam_text (es : list element) (l scale : R) (rows : list (option cm * R)) : option (list (list cell)) :=
  do t <- print_beam es l scale rows; Some (t ++ gap).

(** poly_trace.py:186-188 [print_params]; [order] is [Simplex.n], the wavelength in nanometres *)
Definition poly_params (order : nat) (l : R) : list (list cell) :=
  [[Txt "maximum order"; Int order]; [Txt "wavelength"; Num (Some (l / (1 / 10 ^ 9)))]]%string.
(** poly_trace.py:210-216 [__str__] *)
Definition poly_text (order : nat) (l : R) (i : itable) (j : list (list nat)) (s t : list R) : option (list (list cell)) :=
  do e <- print_seidel s t; Some (poly_params order l ++ gap ++ e ++ gap ++ print_names i j s t ++ gap).
