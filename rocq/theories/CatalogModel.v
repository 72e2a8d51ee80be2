(** Glass catalogues.
    Modelled: rayopt/zemax.py:186-227 [agf_read], :230-269 [agf_to_material]; rayopt/oslo.py:169-188 [glc_read]
    (the lines after the header), :191-213 [glc_to_material]; rayopt/rii.py:82-92 [_typ_map], :95-112
    [rii_to_material] (after the YAML document was read); rayopt/material.py:218-235 (typ -> method, default typ).
    A file is the list of its lines without their newline, so [data] is a list of lines, too
    ([splitlines] undoes the concatenation in agf_read; other line separators inside a line are not modelled).
    [sfloat]/[sint] (utils.py:75-90) are parameters: any partial map from text to numbers. *)
From Coq Require Import String Ascii ZArith Reals Bool List.
From Verif Require Import Base SampleModel MaterialModel.
Import ListNotations.
Open Scope R_scope.
Open Scope list_scope.

(** ** text *)
(** [str.isspace] for one ASCII character: tab to carriage return, 28 to 31 and blank *)
Definition is_space (a : ascii) : bool :=
  let n := nat_of_ascii a in ((9 <=? n) && (n <=? 13) || (28 <=? n) && (n <=? 32))%nat.
(** [str.split()]; [cur]: the word being read, reversed; zemax.py:212, 241, oslo.py:177 *)
Fixpoint rev_string (s acc : string) : string := match s with EmptyString => acc | String a s => rev_string s (String a acc) end.
(** the loop of [str.split()]: zemax.py:212, 241, oslo.py:177, rii.py:106 *)
Fixpoint words_from (cur : string) (s : string) : list string :=
  match s with
  | EmptyString => match cur with EmptyString => [] | _ => [rev_string cur ""] end
  | String a s =>
      if is_space a then match cur with EmptyString => words_from "" s | _ => rev_string cur "" :: words_from "" s end
      else words_from (String a cur) s
  end.
(** [str.split()]: zemax.py:212, 241, oslo.py:177, rii.py:106 *)
Definition words (s : string) : list string := words_from "" s.
(** [not line.strip()]; zemax.py:199 *)
Definition blank (s : string) : bool := match words s with [] => true | _ => false end.
(** [line.split(" ", 1)] unpacked into two; None: ValueError, no blank in the line *)
Fixpoint split_first (s : string) : option (string * string) :=
  match s with
  | EmptyString => None
  | String a s => if Ascii.eqb a " " then Some (EmptyString, s) else do p <- split_first s; Some (String a (fst p), snd p)
  end.
(** [line[:n]] and [line[n:]]; zemax.py:239 *)
Definition take (n : nat) (s : string) : string := substring 0 n s.
(** [line[n:]]: zemax.py:239 *)
Fixpoint drop (n : nat) (s : string) : string :=
  match n, s with O, _ => s | _, EmptyString => EmptyString | S n, String _ s => drop n s end.
(** the characters of a string, as iteration over it gives them; zemax.py:257 *)
Fixpoint chars (s : string) : list string := match s with EmptyString => [] | String a s => String a "" :: chars s end.
(** [str.strip()]; zemax.py:247, oslo.py:185 *)
Fixpoint lstrip (s : string) : string := match s with EmptyString => "" | String a t => if is_space a then lstrip t else s end.
(** [str.strip()]: zemax.py:247, oslo.py:185 *)
Definition strip (s : string) : string := rev_string (lstrip (rev_string (lstrip s) "")) "".
(** [l[k]], negative k counting from the end; None: IndexError; zemax.py:242, oslo.py:204 *)
Definition py_item {A} (l : list A) (k : Z) : option A :=
  let n := Z.of_nat (length l) in
  if (k <? - n)%Z then None else nth_error l (Z.to_nat (if (k <? 0)%Z then k + n else k)).
(** [l[:k]]; oslo.py:200 *)
Definition py_take {A} (l : list A) (k : Z) : list A :=
  firstn (Z.to_nat (if (k <? 0)%Z then Z.of_nat (length l) + k else k)) l.
(** [int(x)]: towards zero; zemax.py:242 *)
Definition trunc (x : R) : Z := if Rle_dec 0 x then Int_part x else (- Int_part (- x))%Z.

Section Catalog.
Variable sfloat : string -> option R.
Variable sint : string -> option Z.

(** ** AGF *)
(** a material row of the library: zemax.py:210-223; None: unset or sfloat failed *)
Record lib_mat := LibMat {
  m_name : string; m_nd : option R; m_vd : option R; m_code : string; m_status : option Z;
  m_comment : option string; m_tce : option R; m_density : option R; m_data : list string }.
(** one more line for the current material: zemax.py:219-226 *)
Definition agf_line (cmd args line : string) (m : lib_mat) : option lib_mat :=
  let data := m_data m ++ [line] in
  if String.eqb cmd "GC" then Some (LibMat (m_name m) (m_nd m) (m_vd m) (m_code m) (m_status m) (Some args) (m_tce m) (m_density m) data)
  else if String.eqb cmd "ED" then
    match words args with
    | a :: _ :: c :: _ => Some (LibMat (m_name m) (m_nd m) (m_vd m) (m_code m) (m_status m) (m_comment m) (sfloat a) (sfloat c) data)
    | _ => None
    end
  else Some (LibMat (m_name m) (m_nd m) (m_vd m) (m_code m) (m_status m) (m_comment m) (m_tce m) (m_density m) data).
(** zemax.py:209-218: an NM line starts a material *)
Definition agf_new (args line : string) : option lib_mat :=
  match words args with
  | name :: _ :: code :: nd :: vd :: more =>
      Some (LibMat name (sfloat nd) (sfloat vd) code (match more with _ :: st :: _ => sint st | _ => None end) None None None [line])
  | _ => None
  end.
(** the loop zemax.py:198-226; [ms]: materials so far, last one first *)
Fixpoint agf_loop (ms : list lib_mat) (lines : list string) : option (list lib_mat) :=
  match lines with
  | [] => Some (rev ms)
  | line :: lines =>
      if blank line then agf_loop ms lines
      else if prefix "!" line then agf_loop ms lines
      else
        do p <- split_first line;
        if String.eqb (fst p) "CC" then agf_loop ms lines
        else if String.eqb (fst p) "NM" then do m <- agf_new (snd p) line; agf_loop (m :: ms) lines
        else match ms with
             | [] => None
             | m :: ms => do m <- agf_line (fst p) (snd p) line m; agf_loop (m :: ms) lines
             end
  end.
(** zemax.py:186-227 [agf_read] on the lines of the file *)
Definition agf_read (lines : list string) : option (list lib_mat) := agf_loop [] lines.

(** zemax.py:231-234 *)
Definition agf_types : list string :=
  ["schott"; "sellmeier_squared"; "herzberger"; "sellmeier2"; "conrady"; "sellmeier_squared"; "handbook_of_optics1";
   "handbook_of_optics2"; "sellmeier_squared_offset"; "extended1"; "sellmeier5"; "extended2"; "hikari"]%string.
(** arguments of [Thermal]: material.py:55; entries None where sfloat failed *)
Record raw_thermal := RawThermal { r_d : list (option R); r_e : list (option R); r_tref : option R; r_lref : option R }.
(** [Thermal(s[:3], s[3:5], *s[5:])] zemax.py:253-255; more than two further arguments: TypeError *)
Definition make_thermal (s : list (option R)) : option raw_thermal :=
  match skipn 5 s with
  | [] => Some (RawThermal (firstn 3 s) (firstn 2 (skipn 3 s)) (Some 20) (Some lambda_d))
  | [t] => Some (RawThermal (firstn 3 s) (firstn 2 (skipn 3 s)) t (Some lambda_d))
  | [t; l] => Some (RawThermal (firstn 3 s) (firstn 2 (skipn 3 s)) t l)
  | _ => None
  end.
(** a material under construction; the transmission table maps (wavelength, rest) to a value; zemax.py:235-269 *)
Record glass := Glass {
  g_name : string; g_typ : string; g_coef : list (option R); g_code : option R; g_comment : option string;
  g_ed : option (option R * option R * option R); g_thermal : option raw_thermal;
  g_price : option R; g_chemical : list (option R); g_range : option (option R * option R);
  g_trans : list ((option R * list (option R)) * option R) }.
(** material.py:218-225 with zemax.py:235: no coefficients, typ "sellmeier" *)
Definition glass0 : glass := Glass "-" "sellmeier" [] None None None None None [] None [].
(** equality of transmission keys; zemax.py:266 *)
Definition oeqb (a b : option R) : bool :=
  match a, b with Some x, Some y => if Req_EM_T x y then true else false | None, None => true | _, _ => false end.
(** equality of tuples of numbers: zemax.py:266 *)
Fixpoint leqb (a b : list (option R)) : bool :=
  match a, b with [], [] => true | x :: a, y :: b => (oeqb x y && leqb a b)%bool | _, _ => false end.
(** equality of transmission keys (wavelength, rest): zemax.py:266 *)
Definition keqb (a b : option R * list (option R)) : bool := (oeqb (fst a) (fst b) && leqb (snd a) (snd b))%bool.
(** [g.transmission[k] = v]: zemax.py:266 *)
Fixpoint put_trans (k : option R * list (option R)) (v : option R) (l : list ((option R * list (option R)) * option R)) :=
  match l with [] => [(k, v)] | (j, u) :: l => if keqb j k then (j, v) :: l else (j, u) :: put_trans k v l end.
(** the branches zemax.py:239-268 *)
Definition agf_field (line : string) (g : glass) : option glass :=
  let cmd := take 2 line in let args := drop 3 line in
  if String.eqb cmd "NM" then
    match words args with
    | name :: num :: code :: _ =>
        do x <- sfloat num; do typ <- py_item agf_types (trunc x - 1);
        Some (Glass name typ (g_coef g) (sfloat code) (g_comment g) (g_ed g) (g_thermal g) (g_price g) (g_chemical g) (g_range g) (g_trans g))
    | _ => None
    end
  else if String.eqb cmd "GC" then
    Some (Glass (g_name g) (g_typ g) (g_coef g) (g_code g) (Some (strip args)) (g_ed g) (g_thermal g) (g_price g) (g_chemical g) (g_range g) (g_trans g))
  else if String.eqb cmd "ED" then
    match map sfloat (words args) with
    | a :: b :: c :: _ => Some (Glass (g_name g) (g_typ g) (g_coef g) (g_code g) (g_comment g) (Some (a, b, c)) (g_thermal g) (g_price g) (g_chemical g) (g_range g) (g_trans g))
    | _ => None
    end
  else if String.eqb cmd "CD" then
    Some (Glass (g_name g) (g_typ g) (map sfloat (words args)) (g_code g) (g_comment g) (g_ed g) (g_thermal g) (g_price g) (g_chemical g) (g_range g) (g_trans g))
  else if String.eqb cmd "TD" then
    do h <- make_thermal (map sfloat (words args));
    Some (Glass (g_name g) (g_typ g) (g_coef g) (g_code g) (g_comment g) (g_ed g) (Some h) (g_price g) (g_chemical g) (g_range g) (g_trans g))
  else if String.eqb cmd "OD" then
    match chars args with
    | a :: l => Some (Glass (g_name g) (g_typ g) (g_coef g) (g_code g) (g_comment g) (g_ed g) (g_thermal g) (sfloat a) (map sfloat l) (g_range g) (g_trans g))
    | [] => None
    end
  else if String.eqb cmd "LD" then
    match chars args with
    | a :: b :: _ => Some (Glass (g_name g) (g_typ g) (g_coef g) (g_code g) (g_comment g) (g_ed g) (g_thermal g) (g_price g) (g_chemical g) (Some (sfloat a, sfloat b)) (g_trans g))
    | _ => None
    end
  else if String.eqb cmd "IT" then
    match map sfloat (words args) with
    | a :: b :: l => Some (Glass (g_name g) (g_typ g) (g_coef g) (g_code g) (g_comment g) (g_ed g) (g_thermal g) (g_price g) (g_chemical g) (g_range g) (put_trans (a, l) b (g_trans g)))
    | _ => None
    end
  else Some g.
(** zemax.py:236-268: the loop over the lines *)
Fixpoint agf_fields (lines : list string) (g : glass) : option glass :=
  match lines with
  | [] => Some g
  | l :: lines => do g <- (if String.eqb l "" then Some g else agf_field l g); agf_fields lines g
  end.
(** zemax.py:230-269 *)
Definition agf_to_material (lines : list string) : option glass := agf_fields lines glass0.

(** ** the index of the result: material.py:229-235; [getattr(self, "n_%s" % typ)], None: AttributeError *)
Definition formulas : list (string * (R -> list R -> option R)) :=
  [("schott", n_schott); ("sellmeier", n_sellmeier); ("sellmeier_squared", n_sellmeier_squared);
   ("sellmeier_squared_transposed", n_sellmeier_squared_transposed); ("conrady", n_conrady); ("herzberger", n_herzberger);
   ("sellmeier_offset", n_sellmeier_offset); ("sellmeier_squared_offset", n_sellmeier_squared_offset);
   ("handbook_of_optics1", n_handbook_of_optics1); ("handbook_of_optics2", n_handbook_of_optics2);
   ("extended2", n_extended2); ("hikari", n_hikari); ("gas", n_gas); ("gas_offset", n_gas_offset);
   ("refractiveindex_info", n_refractiveindex_info); ("retro", n_retro); ("cauchy", n_cauchy);
   ("polynomial", n_polynomial); ("exotic", n_exotic)]%string.
(** material.py:231: [getattr] among the formulas of material.py:240-322 *)
Fixpoint find_formula (l : list (string * (R -> list R -> option R))) (typ : string) : option (R -> list R -> option R) :=
  match l with [] => None | (a, f) :: l => if String.eqb a typ then Some f else find_formula l typ end.
(** arithmetic with a missing number raises; material.py:232 *)
Fixpoint all_some {A} (l : list (option A)) : option (list A) :=
  match l with [] => Some [] | a :: l => do x <- a; do r <- all_some l; Some (x :: r) end.
(** material.py:230-235 [refractive_index] with the type looked up *)
Definition typ_index (typ : string) (coef : list (option R)) (w : R) : option R :=
  do f <- find_formula formulas typ; do c <- all_some coef; coefficients_index f false c w.
(** material.py:230-235 of the glass made by zemax.py:230-269 *)
Definition glass_index (g : glass) (w : R) : option R := typ_index (g_typ g) (g_coef g) w.
(** its [Thermal]'s shift: material.py:62-73 *)
Definition glass_thermal (g : glass) : option thermal :=
  do h <- g_thermal g;
  do t <- r_tref h; do l <- r_lref h;
  do d <- all_some (r_d h); do e <- all_some (r_e h);
  match d, e with [d0; d1; d2], [e0; e1] => Some (Thermal d0 d1 d2 e0 e1 t l) | _, _ => None end.

(** ** GLC *)
(** oslo.py:176-186: name, nd, vd, density, data of one line *)
Definition glc_line (l : string) : option (string * option R * option R * option R * string) :=
  match words l with
  | name :: nd :: vd :: de :: _ => Some (name, sfloat nd, sfloat vd, sfloat de, strip l)
  | _ => None
  end.
(** oslo.py:176-186: the loop over the lines *)
Fixpoint glc_read (lines : list string) : option (list (string * option R * option R * option R * string)) :=
  match lines with
  | [] => Some []
  | l :: lines => if blank l then glc_read lines else do m <- glc_line l; do r <- glc_read lines; Some (m :: r)
  end.
(** oslo.py:202-206 *)
Definition glc_types : list string := ["schott"; "sellmeier_squared_transposed"; "conrady"; "unknown"; "unknown"; "hikari"]%string.
(** oslo.py:202-206 *)
Definition glc_type (a : Z) : string := match py_item glc_types (a - 1) with Some t => t | None => "unknown" end.
(** oslo.py:191-211: name, typ, coefficients, density; a non-numeric [a] raises, a non-numeric
    [num] takes all the rest ([line[:None]]) *)
Definition glc_to_material (l : string) : option (string * string * list (option R) * option R) :=
  match words l with
  | name :: _ :: _ :: de :: rest =>
      match skipn 8 rest with
      | a :: num :: more =>
          do k <- sint a;
          let more := match sint num with Some n => py_take more n | None => more end in
          Some (name, glc_type k, map sfloat more, sfloat de)
      | _ => None
      end
  | _ => None
  end.

(** ** refractiveindex.info *)
(** rii.py:82-92 *)
Definition rii_types : list (string * string) :=
  [("formula 1", "sellmeier_offset"); ("formula 2", "sellmeier_squared_offset"); ("formula 3", "polynomial");
   ("formula 4", "refractiveindex_info"); ("formula 5", "cauchy"); ("formula 6", "gas_offset");
   ("formula 7", "herzberger"); ("formula 8", "retro"); ("formula 9", "exotic")]%string.
(** rii.py:104: [_typ_map[typ]] *)
Fixpoint assoc (l : list (string * string)) (k : string) : option string :=
  match l with [] => None | (a, b) :: l => if String.eqb a k then Some b else assoc l k end.
(** one entry of DATA: its type and the texts under "range", "coefficients", "data" (None: missing key); rii.py:101-110 *)
Record rii_entry := Entry { e_typ : string; e_range : option string; e_coef : option string; e_data : option string }.
(** what rii.py:97-110 set on the material *)
Record rii_glass := Rii { q_typ : string; q_coef : list (option R); q_range : option (option R * option R); q_k : option (list (option R)) }.
(** rii.py:102-111 *)
Definition rii_step (e : rii_entry) (g : rii_glass) : option rii_glass :=
  do g <- (if prefix "formula" (e_typ e) then
             do t <- assoc rii_types (e_typ e);
             do r <- e_range e;
             match map sfloat (words r) with
             | [a; b] => do c <- e_coef e; Some (Rii t (map sfloat (words c)) (Some (a, b)) (q_k g))
             | _ => None
             end
           else Some g);
  if String.eqb (e_typ e) "tabulated k" then do d <- e_data e; Some (Rii (q_typ g) (q_coef g) (q_range g) (Some (map sfloat (words d))))
  else Some g.
(** rii.py:101-110: the loop over DATA *)
Fixpoint rii_loop (l : list rii_entry) (g : rii_glass) : option rii_glass :=
  match l with [] => Some g | e :: l => do g <- rii_step e g; rii_loop l g end.
(** rii.py:95-112 *)
Definition rii_to_material (l : list rii_entry) : option rii_glass := rii_loop l (Rii "sellmeier" [] None None).
(** material.py:230-235 of the material made by rii.py:95-111 *)
Definition rii_index (g : rii_glass) (w : R) : option R := typ_index (q_typ g) (q_coef g) w.
End Catalog.
