(** Materials by name and as dictionaries.
    Modelled: rayopt/material.py:54-76 [Thermal.dict], 79-135 [Material.__init__, make, __str__, dict], 160-172
    [ModelMaterial], 175-217 [AbbeMaterial], 219-235, 324-328 [CoefficientsMaterial], 331-350 [basic], [DefaultGlass].
    Simplifications: strings are ASCII; [float] of a string is an oracle that gives a finite number or fails; the warning
    of an unknown dispersion formula is left out; attributes have the type the code gives them. *)
From Coq Require Import Reals List String Ascii Bool ZArith.
From Verif Require Import Base MaterialModel LibraryModel.
Import ListNotations.
Open Scope R_scope.

(** ** [str.split("/")]: material.py:104, 187 *)
Fixpoint split_from (cur s : string) : list string :=
  match s with
  | EmptyString => [cur]
  | String a s => if Ascii.eqb a "/" then cur :: split_from "" s else split_from (cur ++ String a "") s
  end.
(** material.py:104, 187 *)
Definition split (s : string) : list string := split_from "" s.

(** ** [Material.make] of a string *)
(** the materials of material.py:331-338 *)
Inductive basic := Vacuum | Air | Mirror.
(** material.py:338: the dictionary by name *)
Definition basic_of (name : string) : option basic :=
  if String.eqb name "vacuum" then Some Vacuum else if String.eqb name "air" then Some Air else if String.eqb name "mirror" then Some Mirror else None.
(** [name] of each: material.py:332-334 *)
Definition basic_name (b : basic) : string := match b with Vacuum => "vacuum" | Air => "air" | Mirror => "mirror" end.

Section Make.
(** [float(_)]; None: ValueError *)
Variable float : string -> option R.
Variable obj : Type.
(** [LoaderParser.parse] of an item of the library: library_items.py:42-51 *)
Variable parse : catalog -> item -> option obj.
(** what [make] returns: material.py:97-116 *)
Inductive made := Abbe (n v : R) | Basic (b : basic) | Item (o : obj).
(** all parts as numbers: material.py:187 *)
Fixpoint floats (l : list string) : option (list R) :=
  match l with [] => Some [] | s :: l => do x <- float s; do r <- floats l; Some (x :: r) end.
(** material.py:185-199 [AbbeMaterial.from_string]; any other number of parts than two is a ValueError, one part too *)
Definition from_string (s : string) : option (R * R) := match floats (split s) with Some [n; v] => Some (n, v) | _ => None end.
(** material.py:104-116; [parts.pop()] takes the last *)
Definition by_name (db : list catalog) (s : string) : answer made :=
  match rev (split (lower s)) with
  | [] => KeyError
  | name :: parts =>
      let cat := hd_error parts in
      let source := hd_error (tl parts) in
      let listed := match get obj parse db "material" (Some name) cat source with Found o => Found (Item o) | KeyError => KeyError | ParseError => ParseError end in
      if match cat with None => true | Some c => String.eqb c "basic" end
      then match basic_of name with Some b => Found (Basic b) | None => listed end
      else listed
  end.
(** material.py:99-116 *)
Definition make (db : list catalog) (s : string) : answer made :=
  match from_string s with Some (n, v) => Found (Abbe n v) | None => by_name db s end.
End Make.
Arguments Abbe {obj}. Arguments Basic {obj}. Arguments Item {obj}.
(** material.py:118-122 [__str__] of a material with catalog and name *)
Definition full_name (cat : option string) (name : string) : string := match cat with Some c => c ++ "/" ++ name | None => name end.

(** ** Dictionaries *)
(** the values of the dictionaries: material.py:74-76, 124-135, 169-172, 207-217, 324-328 *)
Inductive mval := MStr (s : string) | MBool (b : bool) | MNum (x : R) | MInf | MNums (l : list R) | MMap (d : list (string * mval)).
(** a dictionary by its items: material.py:124-135 *)
Definition mdict := list (string * mval).
(** the attribute [thermal]: None, a [Thermal], or whatever dictionary the constructor was given; material.py:80-86 *)
Inductive tval := TNone | TObj (h : thermal) | TMap (d : mdict).
(** the attributes of every material: material.py:80-86 *)
Record common := Common { b_name : string; b_solid : bool; b_mirror : bool; b_catalog : option string; b_thermal : tval }.
(** the attributes of the classes: material.py:78, 162-164, 177-183, 221-226 *)
Inductive special := SPlain | SModel (n : R) | SAbbe (a : abbe) | SCoef (typ : string) (c : list R).
(** a material: material.py:78-328 *)
Record mat := Mat { m_common : common; m_special : special }.
(** the classes: material.py:78, 160, 175, 219 *)
Inductive class := CPlain | CModel | CAbbe | CCoef.
(** the class of a material: material.py:78, 160, 175, 219 *)
Definition class_of (m : mat) : class := match m_special m with SPlain => CPlain | SModel _ => CModel | SAbbe _ => CAbbe | SCoef _ _ => CCoef end.
(** the exceptions of material.py:134 and of the constructors *)
Inductive exn := AttributeError | TypeError | Untyped.
(** a result or an exception: material.py:80-86, 124-135 *)
Inductive res (A : Type) := Ok (a : A) | Raise (e : exn).
Arguments Ok {A}. Arguments Raise {A}.
(** statements in turn: material.py:80-86, 124-135 *)
Definition rbind {A B} (r : res A) (f : A -> res B) : res B := match r with Ok a => f a | Raise e => Raise e end.
Notation "'try' x <- r ; f" := (rbind r (fun x => f)) (at level 200, x pattern, r at level 100, f at level 200).

(** material.py:74-76 [Thermal.dict] *)
Definition thermal_dict (h : thermal) : mdict :=
  [("d", MNums [th_d0 h; th_d1 h; th_d2 h]); ("e", MNums [th_e0 h; th_e1 h]); ("tref", MNum (th_tref h)); ("lref", MNum (th_lref h))]%string.
(** [if c: dat[k] = v]: material.py:126-134 *)
Definition opt (c : bool) (k : string) (v : mval) : mdict := if c then [(k, v)] else [].
(** the truth of a string: material.py:126, 132 *)
Definition nonempty (s : string) : bool := negb (String.eqb s "").
(** material.py:133-134; a dictionary has no method [dict] (if empty it is not called) *)
Definition thermal_item (t : tval) : res mdict :=
  match t with TNone => Ok [] | TObj h => Ok [("thermal"%string, MMap (thermal_dict h))] | TMap [] => Ok [] | TMap _ => Raise AttributeError end.
(** material.py:124-135 [Material.dict] *)
Definition common_dict (b : common) : res mdict :=
  try t <- thermal_item (b_thermal b);
  Ok (opt (nonempty (b_name b)) "name" (MStr (b_name b)) ++ opt (negb (b_solid b)) "solid" (MBool (b_solid b)) ++ opt (b_mirror b) "mirror" (MBool (b_mirror b)) ++
    match b_catalog b with Some c => opt (nonempty c) "catalog" (MStr c) | None => [] end ++ t).
(** material.py:211-216: a line that is not the default *)
Definition line (k : string) (x default : R) : mdict := if Req_EM_T x default then [] else [(k, MNum x)].
(** material.py:124-135, 169-172, 207-217, 324-328 [dict] *)
Definition mat_dict (m : mat) : res mdict :=
  try d <- common_dict (m_common m);
  Ok (d ++ match m_special m with
    | SPlain => []
    | SModel n => [("n"%string, MNum n)]
    | SAbbe a => [("n", MNum (am_n a)); ("v", match am_v a with Some v => MNum v | None => MInf end)]%string ++
        line "lambda_ref" (am_ref a) lambda_d ++ line "lambda_short" (am_short a) lambda_F ++ line "lambda_long" (am_long a) lambda_C
    | SCoef typ c => [("typ", MStr typ); ("coefficients", MNums c)]%string
    end).

(** [d[k]] if present, and what is left for the other keywords: material.py:80, 162, 176-177, 221 *)
Fixpoint take (k : string) (d : mdict) : option mval * mdict :=
  match d with
  | [] => (None, [])
  | (j, v) :: d => if String.eqb j k then (Some v, d) else let (r, d) := take k d in (r, (j, v) :: d)
  end.
(** a keyword with a default: material.py:80, 162, 176-177, 221 *)
Definition kw {A} (as_a : mval -> res A) (k : string) (default : A) (d : mdict) : res (A * mdict) :=
  let (r, d) := take k d in match r with None => Ok (default, d) | Some v => try a <- as_a v; Ok (a, d) end.
(** a text: material.py:80, 221 *)
Definition as_str (v : mval) : res string := match v with MStr s => Ok s | _ => Raise Untyped end.
(** a truth value: material.py:80 *)
Definition as_bool (v : mval) : res bool := match v with MBool b => Ok b | _ => Raise Untyped end.
(** a number: material.py:162, 176-177 *)
Definition as_num (v : mval) : res R := match v with MNum x => Ok x | _ => Raise Untyped end.
(** material.py:176: infinite by default *)
Definition as_inf (v : mval) : res (option R) := match v with MNum x => Ok (Some x) | MInf => Ok None | _ => Raise Untyped end.
(** material.py:226 *)
Definition as_nums (v : mval) : res (list R) := match v with MNums l => Ok l | _ => Raise Untyped end.
(** material.py:86: the dictionary is kept as it is *)
Definition as_map (v : mval) : res tval := match v with MMap d => Ok (TMap d) | _ => Raise Untyped end.
(** material.py:80-86; keywords that are left over are a TypeError *)
Definition init_common (d : mdict) : res common :=
  try (name, d) <- kw as_str "name" "-"%string d; try (solid, d) <- kw as_bool "solid" true d; try (mirror, d) <- kw as_bool "mirror" false d;
  try (cat, d) <- kw (fun v => try s <- as_str v; Ok (Some s)) "catalog" None d; try (th, d) <- kw as_map "thermal" TNone d;
  match d with [] => Ok (Common name solid mirror cat th) | _ => Raise TypeError end.
(** material.py:80-86, 162-164, 176-183, 221-226: [cls( **d)] *)
Definition construct (c : class) (d : mdict) : res mat :=
  match c with
  | CPlain => try b <- init_common d; Ok (Mat b SPlain)
  | CModel => try (n, d) <- kw as_num "n" 1 d; try b <- init_common d; Ok (Mat b (SModel n))
  | CAbbe => try (n, d) <- kw as_num "n" 1 d; try (v, d) <- kw as_inf "v" None d; try (r, d) <- kw as_num "lambda_ref" lambda_d d;
      try (l, d) <- kw as_num "lambda_long" lambda_C d; try (s, d) <- kw as_num "lambda_short" lambda_F d;
      try b <- init_common d; Ok (Mat b (SAbbe (AbbeMat n v r l s)))
  | CCoef => let (r, d) := take "coefficients" d in
      match r with
      | None => Raise TypeError
      | Some v => try c <- as_nums v; try (typ, d) <- kw as_str "typ" "sellmeier"%string d; try b <- init_common d; Ok (Mat b (SCoef typ c))
      end
  end.

(** ** index and thermal shift *)
Section Index.
(** the formula of a type, material.py:231; None: AttributeError *)
Variable formula : string -> option (R -> list R -> option R).
(** material.py:137-139, 166-167, 201-205, 228-235 [refractive_index] *)
Definition index (m : mat) (w : R) : option R :=
  match m_special m with
  | SPlain => Some 1
  | SModel n => Some n
  | SAbbe a => abbe_index a w
  | SCoef typ c => do f <- formula typ; coefficients_index f (b_mirror (m_common m)) c w
  end.
End Index.
(** [m.thermal.dn_thermal(t, n, wavelength)]: material.py:60-72; None and dictionaries have no such method *)
Definition shift (m : mat) (t n : R) (wavelength : option R) : res (option R) :=
  match b_thermal (m_common m) with TObj h => Ok (dn_thermal h t n wavelength) | _ => Raise AttributeError end.
