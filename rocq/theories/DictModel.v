(** Model of serialisation: name_mixin.py:20-69, pupils.py:25-62 and [dict] methods,
    conjugates.py:39-68, 97-125, 170-190, elements.py:30-50, 179-192, 276-299, 413-440,
    system.py:35-82, material.py:88-122.  Attribute values are restricted to the type the
    class documents; a dictionary entry of another type, which Python would store as is,
    gives [Untyped]. *)
From Coq Require Import Reals List String Bool ZArith.
From Verif Require Import Base Vec RotModel PlacementModel PupilModel.
Import ListNotations.
Open Scope R_scope.
Open Scope string_scope.
Open Scope list_scope.

(** Python values as written to and read from YAML; name_mixin.py:38-52, formats.py:85-104 *)
Inductive value := VNone | VBool (b : bool) | VNum (x : R) | VInt (z : Z) | VStr (s : string)
  | VList (l : list value) | VDict (d : list (string * value)).
(** a Python dictionary by its items: name_mixin.py:38-44 *)
Definition dict := list (string * value).
(** the exceptions met by name_mixin.py:46-52, material.py:88-115 and the constructors *)
Inductive exn := TypeError | KeyError | NameError | AssertionError | ZeroDivisionError | NotANumber | Untyped.
(** a result or an exception: name_mixin.py:46-52 *)
Inductive res (A : Type) := Ok (a : A) | Raise (e : exn).
Arguments Ok {A}. Arguments Raise {A}.
(** sequencing of statements that may raise, name_mixin.py:46-52 *)
Definition rbind {A B} (r : res A) (f : A -> res B) : res B := match r with Ok a => f a | Raise e => Raise e end.
Notation "'try' x <- r ; f" := (rbind r (fun x => f)) (at level 200, x pattern, r at level 100, f at level 200).

(** [d[k]] if present: name_mixin.py:50 *)
Fixpoint dget (k : string) (d : dict) : option value :=
  match d with [] => None | (j, v) :: d => if String.eqb j k then Some v else dget k d end.
(** what [d.pop(k)] leaves: name_mixin.py:50 *)
Fixpoint ddel (k : string) (d : dict) : dict :=
  match d with [] => [] | (j, v) :: d => if String.eqb j k then d else (j, v) :: ddel k d end.
(** [d[k] = v]: name_mixin.py:41-43 *)
Fixpoint dset (k : string) (v : value) (d : dict) : dict :=
  match d with [] => [(k, v)] | (j, w) :: d => if String.eqb j k then (k, v) :: d else (j, w) :: dset k v d end.
(** [if c: dat[k] = v] for a key not in the dictionary yet; pupils.py:49-64, elements.py:41-49, 428-438 *)
Definition opt (c : bool) (k : string) (v : value) : dict := if c then [(k, v)] else [].

(** keyword argument with and without default; the rest is passed on as kwargs; pupils.py:29-37, elements.py:31-35 *)
Definition kw (k : string) (default : value) (d : dict) : value * dict :=
  (match dget k d with Some v => v | None => default end, ddel k d).
(** a keyword argument without default: pupils.py:116, 148, 176, 200 *)
Definition kw_required (k : string) (d : dict) : res (value * dict) :=
  match dget k d with Some v => Ok (v, ddel k d) | None => Raise TypeError end.
(** unexpected keyword arguments; pupils.py:29, elements.py:31 *)
Definition no_more (d : dict) : res unit := match d with [] => Ok tt | _ => Raise TypeError end.
(** a number among the values, pupils.py:29-37; other values are outside the model *)
Definition as_num (v : value) : res R := match v with VNum x => Ok x | _ => Raise Untyped end.
(** a truth value, pupils.py:29-37 *)
Definition as_bool (v : value) : res bool := match v with VBool b => Ok b | _ => Raise Untyped end.
(** a nested dictionary, conjugates.py:44-51 *)
Definition as_dict (v : value) : res dict := match v with VDict d => Ok d | _ => Raise Untyped end.
(** three numbers, elements.py:31-39 *)
Definition as_vec (v : value) : res vec :=
  match v with VList [VNum x; VNum y; VNum z] => Ok (V x y z) | _ => Raise Untyped end.
(** [list(map(float, v))] of three numbers: elements.py:41-49 *)
Definition vec_value (v : vec) : value := VList [VNum (vx v); VNum (vy v); VNum (vz v)].
(** the items of a list in turn: system.py:40 *)
Fixpoint as_list {A} (f : value -> res A) (l : list value) : res (list A) :=
  match l with [] => Ok [] | v :: l => try a <- f v; try r <- as_list f l; Ok (a :: r) end.
(** a list of numbers: elements.py:414-426, system.py:44, 63 *)
Definition as_nums (v : value) : res (list R) := match v with VList l => as_list as_num l | _ => Raise Untyped end.
(** a list of dictionaries: system.py:40, 64-66 *)
Definition as_dicts (v : value) : res (list dict) := match v with VList l => as_list as_dict l | _ => Raise Untyped end.
(** the truth of a number negated: elements.py:43, 428-438, conjugates.py:108 *)
Definition is0 (x : R) : bool := if Req_EM_T x 0 then true else false.
(** comparison with one: pupils.py:62 *)
Definition is1 (x : R) : bool := if Req_EM_T x 1 then true else false.

(** the names of the projections: conjugates.py:211-227 *)
Definition proj_name (p : projection) : string :=
  match p with Rectilinear => "rectilinear" | Stereographic => "stereographic" | Equisolid => "equisolid"
  | Orthographic => "orthographic" | Equidistant => "equidistant" end.
(** a projection by its name: conjugates.py:211-227 *)
Definition as_proj (v : value) : res projection :=
  match v with
  | VStr s => if s =? "rectilinear" then Ok Rectilinear else if s =? "stereographic" then Ok Stereographic
    else if s =? "equisolid" then Ok Equisolid else if s =? "orthographic" then Ok Orthographic
    else if s =? "equidistant" then Ok Equidistant else Raise Untyped
  | _ => Raise Untyped
  end.

(** name_mixin.py:37-43 [NameMixin.dict]; [nick] is the attribute [_nickname] *)
Definition name_dict (typ : option string) (default : string) (nick : option string) : dict :=
  (match typ with
   | Some t => opt (negb (t =? default)) "type" (VStr t)
   | None => [("type", VNone)]
   end) ++
  match nick with Some s => opt (negb (s =? "")) "nickname" (VStr s) | None => [] end.
(** name_mixin.py:45-51 [NameMixin.make] of a dictionary: the type popped (the dictionary of
    the caller is changed) and the remaining entries *)
Definition pop_type (default : string) (d : dict) : value * dict := kw "type" (VStr default) d.

(** * Pupils; pupils.py:113, 145, 173, 197 [_type] *)
Definition kind_name (k : pupil_kind) : string :=
  match k with NaPupil => "na" | SlopePupil => "slope" | RadiusPupil => "radius" | FnoPupil => "fno" end.
(** pupils.py:49-64, 120-123, 150-153, 178-181, 204-207 [dict] *)
Definition pupil_dict (nick : option string) (p : pupil) : dict :=
  name_dict (Some (kind_name (pu_kind p))) "radius" nick ++
  [("distance", VNum (pu_distance p))] ++
  opt (negb (pu_update_distance p)) "update_distance" (VBool (pu_update_distance p)) ++
  opt (pu_update_radius p) "update_radius" (VBool (pu_update_radius p)) ++
  opt (pu_aim p) "aim" (VBool (pu_aim p)) ++
  opt (negb (rectilinear (pu_projection p))) "projection" (VStr (proj_name (pu_projection p))) ++
  opt (pu_telecentric p) "telecentric" (VBool (pu_telecentric p)) ++
  opt (negb (is1 (pu_index p))) "refractive_index" (VNum (pu_index p)) ++
  [(kind_name (pu_kind p), VNum (pu_val p))].
(** pupils.py:28-37 and the subclass constructors *)
Definition pupil_init (k : pupil_kind) (d : dict) : res pupil :=
  try vd <- kw_required (kind_name k) d; let '(v, d) := vd in
  let '(distance, d) := kw "distance" (VNum 1) d in
  let '(ud, d) := kw "update_distance" (VBool true) d in
  let '(ur, d) := kw "update_radius" (VBool false) d in
  let '(aim, d) := kw "aim" (VBool false) d in
  let '(tele, d) := kw "telecentric" (VBool false) d in
  let '(n, d) := kw "refractive_index" (VNum 1) d in
  let '(proj, d) := kw "projection" (VStr "rectilinear") d in
  try _ <- no_more d;
  try distance <- as_num distance; try ud <- as_bool ud; try ur <- as_bool ur; try aim <- as_bool aim;
  try tele <- as_bool tele; try n <- as_num n; try proj <- as_proj proj; try v <- as_num v;
  Ok (Pupil k v distance ud ur aim tele n proj).
(** pupils.py:112-113, 144-145, 172-173, 196-197: the registered names *)
Definition pupil_types (v : value) : option pupil_kind :=
  match v with
  | VStr s => if s =? "na" then Some NaPupil else if s =? "slope" then Some SlopePupil
    else if s =? "radius" then Some RadiusPupil else if s =? "fno" then Some FnoPupil else None
  | _ => None
  end.
(** [Pupil.make(data)]: the result and what is left in the caller's dictionary; name_mixin.py:46-52, pupils.py:26-37 *)
Definition pupil_make (d : dict) : res pupil * dict :=
  let '(t, d) := pop_type "radius" d in
  (match pupil_types t with None => Raise KeyError | Some k => pupil_init k d end, d).

(** * Conjugates *)
(** conjugates.py:63-68, 108-112, 181-185 [dict] *)
Definition conjugate_dict (nick : option string) (c : conjugate) : dict :=
  name_dict (Some (if cj_finite c then "finite" else "infinite")) "infinite" nick ++
  [("pupil", VDict (pupil_dict None (cj_pupil c)))] ++
  opt (negb (rectilinear (cj_projection c))) "projection" (VStr (proj_name (cj_projection c))) ++
  opt (negb (is0 (cj_val c))) (if cj_finite c then "radius" else "angle") (VNum (cj_val c)).
(** [RadiusPupil(radius=0.)] *)
Definition default_pupil : pupil := Pupil RadiusPupil 0 1 true false false false 1 Rectilinear.
(** conjugates.py:43-51, 101-103, 174-178 constructors; also returned: the nested pupil
    dictionary after [Pupil.make] *)
Definition conjugate_init (finite : bool) (d : dict) : res conjugate * option dict :=
  let '(val, d) := kw (if finite then "radius" else "angle") (VNum 0) d in
  let '(deg, d) := if finite then (VNone, d) else kw "angle_deg" VNone d in
  let '(pv, d) := kw "pupil" VNone d in
  let '(proj, d) := kw "projection" (VStr "rectilinear") d in
  let '(ur, d) := kw "update_radius" (VBool false) d in
  match no_more d with
  | Raise e => (Raise e, None)
  | Ok _ =>
      let '(p, rest) := match pv with
        | VNone => (Ok default_pupil, None)
        | VDict pd => let '(p, rest) := pupil_make pd in (p, Some rest)
        | _ => (Raise Untyped, None)
        end in
      (try p <- p; try proj <- as_proj proj; try ur <- as_bool ur;
       try val <- match deg with VNone => as_num val | v => try x <- as_num v; Ok (x * (PI / 180)) end;
       Ok (Conjugate finite val p proj ur), rest)
  end.
(** conjugates.py:40-51 with name_mixin.py:46-52 [make] *)
Definition conjugate_make (d : dict) : res conjugate * dict :=
  let '(t, d) := pop_type "infinite" d in
  match t with
  | VStr s =>
      let go finite := let '(c, rest) := conjugate_init finite d in
        (c, match rest with Some r => dset "pupil" (VDict r) d | None => d end) in
      if s =? "finite" then go true else if s =? "infinite" then go false else (Raise KeyError, d)
  | _ => (Raise KeyError, d)
  end.

(** * Materials *)
(** an Abbe (model glass) material, or one found in the library, opaque; material.py:79-135, 176-217 *)
Inductive material := Abbe (name : string) (n v : R) | Listed (name : string) (catalog : option string) (item : nat).
(** material.py:118-122 [__str__] *)
Definition material_str (m : material) : string :=
  match m with
  | Abbe name _ _ => name
  | Listed name (Some c) _ => String.append c (String.append "/" name)
  | Listed name None _ => name
  end.
Section Materials.
(** [[float(_) for _ in txt.split("/")]]; None: ValueError *)
Variable floats : string -> option (list R).
(** material.py:106-116: the basic materials and the library *)
Variable lookup : string -> res material.
(** material.py:97-116, 190-205 [Material.make] of a string, [AbbeMaterial.from_string] *)
Definition material_make (s : string) : res material :=
  match floats s with
  | Some [n; v] => Ok (Abbe "-" n v)
  | _ => lookup s
  end.
(** material.py:88-96 [Material.make] of other values: [super(Material, self)] names an
    undefined variable, AbbeMaterial has no arguments nd, vd *)
Definition material_make_value (v : value) : res (option material) :=
  match v with
  | VNone => Ok None
  | VStr s => try m <- material_make s; Ok (Some m)
  | VDict _ => Raise NameError
  | VList _ => Raise TypeError
  | _ => Raise Untyped
  end.

(** * Elements; elements.py:179-185, 276-281, 413-426 *)
Inductive element_class := EElement | EInterface | ESpheroid.
(** attributes of a [Spheroid]; [el_radius] None: infinite; elements.py:31-39, 182-186, 277-281, 414-426 *)
Record element := Element { el_class : element_class; el_placement : placement; el_radius : option R;
  el_material : option material; el_curvature : R; el_conic : R; el_aspherics : option (list R); el_alternate : bool }.
(** only Spheroid is registered, the other classes have [_type = None]; elements.py:412-413, name_mixin.py:22-44 *)
Definition class_type (c : element_class) : option string := match c with ESpheroid => Some "spheroid" | _ => None end.
(** elements.py:40-48 *)
Definition transform_dict (p : placement) : dict :=
  opt (negb (is0 (p_distance p))) "distance" (VNum (p_distance p)) ++
  opt (negb (p_straight p)) "direction" (vec_value (p_direction p)) ++
  opt (negb (p_normal p)) "angles" (vec_value (p_angles p)).
(** elements.py:187-192, 292-296, 429-439 *)
Definition element_dict (nick : option string) (e : element) : dict :=
  name_dict (class_type (el_class e)) "spheroid" nick ++
  transform_dict (el_placement e) ++
  match el_radius e with Some r => [("radius", VNum r)] | None => [] end ++
  match el_class e, el_material e with
  | EElement, _ | _, None => []
  | _, Some m => [("material", VStr (material_str m))]
  end ++
  match el_class e with
  | ESpheroid =>
      opt (negb (is0 (el_curvature e))) "curvature" (VNum (el_curvature e)) ++
      opt (negb (is0 (el_conic e))) "conic" (VNum (el_conic e)) ++
      match el_aspherics e with Some l => [("aspherics", VList (map VNum l))] | None => [] end ++
      opt (el_alternate e) "alternate_intersection" (VBool true)
  | _ => []
  end.
(** the assertion of elements.py:425-426 *)
Definition fits (radius : option R) (curvature conic : R) : bool :=
  match radius with
  | None => true
  | Some r => if is0 curvature then true else if Rle_dec conic (-1) then true
      else if Rle_dec (r ^ 2) (1 / ((1 + conic) * curvature ^ 2)) then true else false
  end.
(** elements.py:31-35, 181-185, 277-281, 415-426: [Spheroid] called with keywords d; a NaN placement
    cannot occur for numbers (PlacementProofs) and is mapped to [NotANumber] *)
Definition spheroid_init (d : dict) : res element :=
  let '(curvature, d) := kw "curvature" (VNum 0) d in
  let '(conic, d) := kw "conic" (VNum 0) d in
  let '(asph, d) := kw "aspherics" VNone d in
  let '(roc, d) := kw "roc" VNone d in
  let '(alt, d) := kw "alternate_intersection" (VBool false) d in
  let '(mat, d) := kw "material" VNone d in
  let '(radius, d) := kw "radius" VNone d in
  let '(diameter, d) := kw "diameter" VNone d in
  let '(distance, d) := kw "distance" (VNum 0) d in
  let '(direction, d) := kw "direction" (vec_value ez) d in
  let '(angles, d) := kw "angles" (vec_value v0) d in
  let '(offset, d) := kw "offset" VNone d in
  try _ <- no_more d;
  try distance <- as_num distance; try direction <- as_vec direction; try angles <- as_vec angles;
  try p <- match PlacementModel.update distance direction angles with Some p => Ok p | None => Raise NotANumber end;
  try p <- match offset with
           | VNone => Ok p
           | v => try o <- as_vec v; match set_offset p o with Some p => Ok p | None => Raise NotANumber end
           end;
  try radius <- match radius with VNone => Ok None | v => try x <- as_num v; Ok (Some x) end;
  try radius <- match diameter with VNone => Ok radius | v => try x <- as_num v; Ok (Some (x / 2)) end;
  try mat <- material_make_value mat;
  try curvature <- match roc with
                   | VNone => as_num curvature
                   | v => try x <- as_num v; if is0 x then Raise ZeroDivisionError else Ok (1 / x)
                   end;
  try conic <- as_num conic; try alt <- as_bool alt;
  try asph <- match asph with VNone => Ok None | v => try l <- as_nums v; Ok (Some l) end;
  if fits radius curvature conic then Ok (Element ESpheroid p radius mat curvature conic asph alt) else Raise AssertionError.
(** elements.py:179-181 with name_mixin.py:46-52 [make] *)
Definition element_make (d : dict) : res element * dict :=
  let '(t, d) := pop_type "spheroid" d in
  (match t with
   | VStr s => if s =? "spheroid" then spheroid_init d else Raise KeyError
   | _ => Raise KeyError
   end, d).

(** * Systems; system.py:36-68 *)
Record system := System { sy_description : string; sy_stop : Z; sy_scale : R; sy_wavelengths : list R; sy_fields : list R;
  sy_object : conjugate; sy_image : conjugate; sy_pickups : list dict; sy_validators : list dict; sy_solves : list dict;
  sy_elements : list element }.
(** system.py:70-82 [System.dict] *)
Definition system_dict (s : system) : dict :=
  [("description", VStr (sy_description s)); ("stop", VInt (sy_stop s)); ("scale", VNum (sy_scale s));
   ("wavelengths", VList (map VNum (sy_wavelengths s)));
   ("object", VDict (conjugate_dict None (sy_object s))); ("image", VDict (conjugate_dict None (sy_image s)));
   ("pickups", VList (map VDict (sy_pickups s))); ("validators", VList (map VDict (sy_validators s)));
   ("solves", VList (map VDict (sy_solves s))); ("elements", VList (map (fun e => VDict (element_dict None e)) (sy_elements s)))].
(** the lines d, C, F of material.py *)
Variable dCF : list R.
(** system.py:43-58 defaults *)
Definition default_object : conjugate :=
  Conjugate false 0 (Pupil RadiusPupil 1 1 true true false false 1 Rectilinear) Rectilinear false.
(** system.py:55-57: the image of a system made without one *)
Definition default_image : conjugate :=
  Conjugate true 0 (Pupil RadiusPupil 1 1 true true false false 1 Rectilinear) Rectilinear true.
(** [if object: Conjugate.make(object)]; system.py:46-57 *)
Definition conjugate_or (default : conjugate) (v : value) : res conjugate :=
  match v with
  | VNone | VDict [] => Ok default
  | VDict d => fst (conjugate_make d)
  | _ => Raise Untyped
  end.
(** system.py:40, 64-66: an optional list of dictionaries *)
Definition list_or_nil (v : value) : res (list dict) := match v with VNone => Ok [] | v => as_dicts v end.
(** system.py:59-63 *)
Definition default_fields (object : conjugate) : list R := if is0 (cj_val object) then [0] else [0; 7 / 10; 1].
(** system.py:36-68 [System] called with keywords d *)
Definition system_init (d : dict) : res system :=
  let '(elements, d) := kw "elements" (VList []) d in
  let '(description, d) := kw "description" (VStr "") d in
  let '(scale, d) := kw "scale" (VNum (1 / 1000)) d in
  let '(wavelengths, d) := kw "wavelengths" VNone d in
  let '(stop, d) := kw "stop" (VInt 1) d in
  let '(fields, d) := kw "fields" VNone d in
  let '(object, d) := kw "object" VNone d in
  let '(image, d) := kw "image" VNone d in
  let '(pickups, d) := kw "pickups" VNone d in
  let '(validators, d) := kw "validators" VNone d in
  let '(solves, d) := kw "solves" VNone d in
  try _ <- no_more d;
  try ds <- as_dicts elements;
  try es <- as_list (fun v => try d <- as_dict v; fst (element_make d)) (map VDict ds);
  try wl <- match wavelengths with VNone | VList [] => Ok dCF | v => as_nums v end;
  try object <- conjugate_or default_object object;
  try image <- conjugate_or default_image image;
  try fields <- match fields with VNone => Ok (default_fields object) | v => as_nums v end;
  try pickups <- list_or_nil pickups; try validators <- list_or_nil validators; try solves <- list_or_nil solves;
  try scale <- as_num scale;
  match description, stop with
  | VStr t, VInt z => Ok (System t z scale wl fields object image pickups validators solves es)
  | _, _ => Raise Untyped
  end.
End Materials.
