(** Importers of catalogue files.
    Modelled: rayopt/library_items.py:122-130 [Catalog.parse], :132-142 [Catalog.load] (which attributes it sets);
    rayopt/library.py:36-39 and the [register_parsers] of oslo.py:31-36, zemax.py:33-37, rii.py:34-36, codev.py:27-29;
    rayopt/oslo.py:39-80 [dir_read]; rayopt/codev.py:32-49 [codevxml_read], :52-67 [codevxml_to_material];
    rayopt/rii.py:39-79 [yml_read].
    Tables read by [np.loadtxt], XML and YAML documents are given after they were read.  [None]: an exception. *)
From Coq Require Import String Ascii ZArith Reals Bool Arith List.
From Verif Require Import Base CatalogModel LibraryModel.
Import ListNotations.
Open Scope list_scope.

(** ** which importer; oslo.py:31-33, zemax.py:33-35, rii.py:34-35, codev.py:27-28 *)
Inductive importer := OsloDir | OsloGlc | ZemaxZmf | ZemaxAgf | RiiYml | CodevXml.
(** library.py:36-39: [Catalog.parsers] in the order of registration *)
Definition parsers : list (string * importer) :=
  [(".dir", OsloDir); (".glc", OsloGlc); (".zmf", ZemaxZmf); (".agf", ZemaxAgf); ("library.yml", RiiYml); (".xml", CodevXml)]%string.
(** [s.endswith(k)]; library_items.py:129 *)
Definition ends_with (k s : string) : bool := prefix (rev_string k "") (rev_string s "").
(** library_items.py:125-130 *)
Fixpoint pick (l : list (string * importer)) (fill : string) : option importer :=
  match l with [] => None | (k, v) :: l => if ends_with k fill then Some v else pick l fill end.
(** library_items.py:126-130 [Catalog.parse]: the importer by the end of the lower case name *)
Definition choose (fil : string) : option importer := pick parsers (lower fil).
(** library_items.py:132-142 is called by zemax.py:43, :188, rii.py:41, codev.py:34 but not by oslo.py:39-45, :169-174:
    the attribute [file] of the catalogue; None: null *)
Definition file_attribute (i : importer) (fil : string) : option string :=
  match i with OsloDir | OsloGlc => None | ZemaxZmf | ZemaxAgf | RiiYml | CodevXml => Some fil end.

(** ** OSLO lens directories *)
(** Python text or bytes; oslo.py:47-48, 68 *)
Inductive pystr := Text (s : string) | Bytes (s : string).
(** one row of the table: offset, length, number of elements, part, focal length, diameter, thickness; oslo.py:47-48, 65 *)
Record dir_row := DirRow { d_offset : Z; d_length : Z; d_elements : Z; d_part : string; d_efl : R; d_dia : R; d_thick : R }.
(** what oslo.py:66-77 set on a lens *)
Record dir_lens := DirLens { l_name : pystr; l_elements : Z; l_thickness : R; l_efl : R; l_radius : R; l_comment : option string; l_section : option string; l_data : string }.
(** oslo.py:49-50 [[lens.read(i) for i in dir["f1"]]]: successive reads; a negative length reads everything *)
Fixpoint reads (dat : string) (lens : list Z) : list string :=
  match lens with
  | [] => []
  | i :: lens =>
      if (i <? 0)%Z then dat :: reads "" lens
      else take (Z.to_nat i) dat :: reads (drop (Z.to_nat i) dat) lens
  end.
(** [str] of bytes: b'...' with escapes; oslo.py:60 *)
Definition has (a : ascii) (s : string) : bool := existsb (Ascii.eqb a) (list_ascii_of_string s).
(** a hexadecimal digit of [str] of bytes: oslo.py:60 *)
Definition hex (n : nat) : ascii := ascii_of_nat (if (n <? 10)%nat then 48 + n else 87 + n).
(** one byte of [str] of bytes, [q] the quote: oslo.py:60 *)
Definition escape (q a : ascii) : string :=
  let n := nat_of_ascii a in
  if Ascii.eqb a "\" then "\\"
  else if Ascii.eqb a q then String "\" (String q "")
  else if (n =? 9)%nat then "\t" else if (n =? 10)%nat then "\n" else if (n =? 13)%nat then "\r"
  else if ((32 <=? n) && (n <? 127))%nat then String a ""
  else String "\" (String "x" (String (hex (n / 16)) (String (hex (n mod 16)) ""))).
(** [str] of bytes: oslo.py:60 *)
Definition str_bytes (s : string) : string :=
  let q : ascii := if (has "'" s && negb (has """" s))%bool then """"%char else "'"%char in
  ("b" ++ String q "" ++ String.concat "" (map (escape q) (list_ascii_of_string s)) ++ String q "")%string.
(** [str.strip] of quotes and blanks; oslo.py:60 *)
Definition strippable (a : ascii) : bool := (Ascii.eqb a """" || Ascii.eqb a " " || Ascii.eqb a "'")%bool.
(** oslo.py:60 [strip] of quotes and blanks, left end *)
Fixpoint lstrip_quotes (s : string) : string := match s with EmptyString => EmptyString | String a t => if strippable a then lstrip_quotes t else s end.
(** oslo.py:60 [strip] of quotes and blanks *)
Definition strip_quotes (s : string) : string := rev_string (lstrip_quotes (rev_string (lstrip_quotes s) "")) "".
(** oslo.py:51-63: the abbreviations with their descriptions; a later line for the same abbreviation overwrites *)
Fixpoint lookup (l : list (string * string)) (k : string) : option string :=
  match l with [] => None | (a, b) :: l => match lookup l k with Some c => Some c | None => if String.eqb a k then Some b else None end end.
(** oslo.py:58-60 *)
Definition sections (nam : list (string * string)) : list (string * string) := map (fun p => (fst p, strip_quotes (str_bytes (snd p)))) nam.
(** oslo.py:64 [sorted(sect_lens)[::-1]] *)
Fixpoint insert_down (n : nat) (l : list nat) : list nat := match l with [] => [n] | m :: l => if (m <=? n)%nat then n :: m :: l else m :: insert_down n l end.
(** oslo.py:59, 63 *)
Definition sect_lens (nam : list (string * string)) : list nat := fold_right insert_down [] (map (fun p => String.length (fst p)) nam).
(** oslo.py:74-80: section and comment of a part *)
Fixpoint section (sec : list (string * string)) (ks : list nat) (part : string) : option (string * string) :=
  match ks with
  | [] => None
  | k :: ks => match lookup sec (take k part) with Some c => Some (take k part, c) | None => section sec ks part end
  end.
(** oslo.py:65-80; [nam] is empty without a readable .nam file *)
Definition dir_lens_of (nam : list (string * string)) (r : dir_row) (dat : string) : dir_lens :=
  let s := section (sections nam) (sect_lens nam) (d_part r) in
  DirLens (Bytes (d_part r)) (d_elements r) (d_thick r) (d_efl r) (d_dia r / 2) (option_map snd s) (option_map fst s) dat.
(** oslo.py:39-80 [dir_read] from the rows of the table, the text of the .dat file and the rows of the .nam file *)
Definition dir_read (rows : list dir_row) (dat : string) (nam : list (string * string)) : list dir_lens :=
  map (fun p => dir_lens_of nam (fst p) (snd p)) (combine rows (reads dat (map d_length rows))).

(** ** CodeV *)
(** the texts of the children of a Glass element (None: no such child); codev.py:41-67 *)
Record cv_glass := CvGlass { v_name : option string; v_numeric : option string; v_avail : option string; v_equation : option string; v_coef : list string }.
(** the document read by codev.py:32-40 *)
Record cv_doc := CvDoc { v_catalog : option string; v_id : option string; v_glasses : list cv_glass }.
(** what codev.py:41-48 set on a material *)
Record cv_item := CvItem { cv_name : string; cv_comment : string; cv_status : Z; cv_data : cv_glass }.
(** codev.py:53-60 *)
Definition cv_types : list (string * string) :=
  [("Standard Sellmeier", "sellmeier"); ("Glass Manufacturer Sellmeier", "sellmeier_squared_offset"); ("Laurent", "schott");
   ("Glass Manufacturer Laurent", "schott"); ("Herzberger", "herzberger"); ("Cauchy", "conrady")]%string.
Section Codev.
(** [int] and [float] of a text *)
Variable pyint : string -> option Z.
Variable pyfloat : string -> option R.
(** codev.py:41-48 *)
Definition cv_one (id : string) (g : cv_glass) : option cv_item :=
  do name <- v_name g;
  if prefix id name then
    do c <- v_numeric g;
    do a <- v_avail g;
    do s <- pyint a;
    Some (CvItem (drop (String.length id) name) c s g)
  else None.
(** codev.py:41-48: the glasses in turn *)
Fixpoint cv_all (id : string) (l : list cv_glass) : option (list cv_item) :=
  match l with [] => Some [] | g :: l => do i <- cv_one id g; do r <- cv_all id l; Some (i :: r) end.
(** codev.py:32-49: name and comment of the catalogue, its materials *)
Definition codevxml_read (d : cv_doc) : option (string * string * list cv_item) :=
  do name <- v_catalog d; do id <- v_id d; do l <- cv_all id (v_glasses d); Some (name, id, l).
(** codev.py:52-67: name, type and coefficients *)
Definition codevxml_to_material (g : cv_glass) : option (string * string * list R) :=
  do e <- v_equation g; do typ <- assoc cv_types e; do n <- v_name g; do c <- all_some (map pyfloat (v_coef g)); Some (drop 2 n, typ, c).
End Codev.

(** ** refractiveindex.info *)
(** the document library.yml; None: the key is missing; rii.py:61-71 *)
Inductive page := PageDivider | Page (p_page p_name p_path : option string).
(** rii.py:57-61 *)
Inductive book := BookDivider (d : string) | Book (b_book b_name : option string) (b_content : option (list page)).
(** rii.py:50-57 *)
Record shelf := Shelf { h_name : string; h_content : list book }.
(** what rii.py:72-75 set on a material *)
Record rii_item := RiiItem { ri_name : string; ri_section : string; ri_path : string }.
Section Rii.
(** [yaml.safe_load(open(fil))] of a page gives a mapping; false: it raises or gives something else *)
Variable readable : string -> bool.
(** rii.py:61-78: a page; Some None: skipped with a message, None: KeyError outside of the try block *)
Definition yml_page (div : option string) (b n : option string) (p : page) : option (option rii_item) :=
  match p with
  | PageDivider => Some None
  | Page pg nm path =>
      do path <- path;
      Some (if readable path
            then do b <- b; do pg <- pg; do _ <- nm; do n <- n;
                 Some (RiiItem (b ++ "|" ++ pg) ((match div with Some d => d | None => "None" end) ++ "|" ++ n) path)%string
            else None)
  end.
(** rii.py:61-78: the pages in turn *)
Fixpoint yml_pages (div : option string) (b n : option string) (l : list page) : option (list rii_item) :=
  match l with
  | [] => Some []
  | p :: l => do i <- yml_page div b n p; do r <- yml_pages div b n l; Some (match i with Some i => i :: r | None => r end)
  end.
(** rii.py:56-60 *)
Fixpoint yml_books (div : option string) (l : list book) : option (list rii_item) :=
  match l with
  | [] => Some []
  | BookDivider d :: l => yml_books (Some d) l
  | Book b n c :: l => do c <- c; do i <- yml_pages div b n c; do r <- yml_books div l; Some (i ++ r)
  end.
(** rii.py:50-79: the catalogues after the first one, which has no materials *)
Fixpoint yml_read (l : list shelf) : option (list (string * list rii_item)) :=
  match l with [] => Some [] | s :: l => do i <- yml_books None (h_content s); do r <- yml_read l; Some ((h_name s, i) :: r) end.
End Rii.
