(** Glass and lens library (rayopt/library.py:88-140, rayopt/library_items.py).
    The database is a list of catalogs with their items; the session's view ([working]) is separate
    from what is stored ([committed]).  Time stamps and sizes are integers.  SQL engine,
    row identifiers and concurrent sessions are not modelled. *)
From Coq Require Import List ZArith String Ascii Bool.
Import ListNotations.
Open Scope Z_scope.
Open Scope list_scope.

(** library.py:127 *)
Inductive kind := KMaterial | KLens.
(** library_items.py:55-75, 78-99: the columns used *)
Record item := Item { i_kind : kind; i_name : string; i_data : string }.
(** library_items.py:103-123; [c_size] is null for the sub-catalogs made by rii.py:51-54 *)
Record catalog := Catalog { c_name : string; c_source : string; c_format : string; c_file : string; c_date : Z; c_size : option Z; c_items : list item }.
(** library.py:82-86, 116, 119: what is in the database and what the session sees *)
Record session := Session { committed : list catalog; working : list catalog }.

(** what the file system says about a file; [None]: it does not exist; library.py:107, library_items.py:132-142 *)
Record file := File { f_mtime : Z; f_size : Z; f_content : string }.
(** library.py:107, library_items.py:133-135 *)
Definition filesystem := string -> option file.

(** library.py:101, 106, 111 *)
Inductive mode := Refresh | Reload | OtherMode.
(** library.py:100-120: how [load] ends *)
Inductive outcome := Added | Skipped | NoParser | Raised.

(** library.py:102-103 [Catalog.file == fil] *)
Definition of_file (fil : string) (c : catalog) : bool := String.eqb (c_file c) fil.
(** [session.query(Catalog).filter(Catalog.file == fil).first()]; library.py:102-103 *)
Definition first_of (fil : string) (db : list catalog) : option catalog := find (of_file fil) db.
(** [session.delete(res)] for that catalog (its items go with it: cascade); library.py:110, 112, library_items.py:117-120 *)
Fixpoint delete_first (fil : string) (db : list catalog) : list catalog :=
  match db with [] => [] | c :: db => if of_file fil c then db else c :: delete_first fil db end.

Section Parsers.
(** [Catalog.parsers] by file name ending: is there a parser (library_items.py:128-133) *)
Variable has_parser : string -> bool.
(** the parser: catalogs added to the session, first the one returned; [None]: it raises *)
Variable parser : string -> file -> option (list catalog).

(** [Library.load]: library.py:101-112, before parsing; [None]: os.stat raises, [Some None]: return *)
Definition prepare (fs : filesystem) (db : list catalog) (fil : string) (m : mode) : option (option (list catalog)) :=
  match m with
  | OtherMode => Some (Some db)
  | _ => match first_of fil db with
      | None => Some (Some db)
      | Some res => match m with
          | Reload => Some (Some (delete_first fil db))
          | _ => match fs fil with
              | None => None
              | Some st =>
                  if (f_mtime st <=? c_date res) || (match c_size res with Some z => f_size st =? z | None => false end)
                  then Some None else Some (Some (delete_first fil db))
              end
          end
      end
  end.
(** [Library.load]: library.py:100-120 *)
Definition load (fs : filesystem) (s : session) (fil : string) (m : mode) : session * outcome :=
  match prepare fs (working s) fil m with
  | None => (s, Raised)
  | Some None => (s, Skipped)
  | Some (Some db) =>
      if has_parser fil then
        match match fs fil with None => None | Some st => parser fil st end with
        | None => (Session (committed s) (committed s), Raised)  (* rollback; raise *)
        | Some cats => let db := db ++ cats in (Session db db, Added) (* commit *)
        end
      else (Session (committed s) db, NoParser) (* parse returns None: neither commit nor rollback *)
  end.

(** [Library.load_all]: library.py:88-98; every exception is caught.  Between files the
    file system may change. *)
Fixpoint load_all (s : session) (jobs : list (filesystem * string * mode)) : session :=
  match jobs with [] => s | (fs, fil, m) :: jobs => load_all (fst (load fs s fil m)) jobs end.
End Parsers.

(** ** queries *)
(** collation "nocase": ASCII letters compare without case; library_items.py:57, 80, 105 *)
Definition lower_ascii (a : ascii) : ascii :=
  let n := nat_of_ascii a in if (Nat.leb 65 n && Nat.leb n 90)%bool then ascii_of_nat (n + 32) else a.
(** library_items.py:57, 80, 105: collation "nocase" *)
Fixpoint lower (s : string) : string := match s with EmptyString => EmptyString | String a s => String (lower_ascii a) (lower s) end.
(** library_items.py:57, 80, 105: equality by collation "nocase" *)
Definition nocase_eqb (a b : string) : bool := String.eqb (lower a) (lower b).

(** library.py:127-128: the table queried *)
Definition kind_eqb (a b : kind) : bool := match a, b with KMaterial, KMaterial | KLens, KLens => true | _, _ => false end.
(** library.py:127: KeyError for other names *)
Definition kind_of (typ : string) : option kind :=
  if String.eqb typ "material" then Some KMaterial else if String.eqb typ "lens" then Some KLens else None.

(** [query(Typ).join(Catalog)]; library.py:128 *)
Definition rows (k : kind) (db : list catalog) : list (catalog * item) :=
  flat_map (fun c => map (fun i => (c, i)) (filter (fun i => kind_eqb (i_kind i) k) (c_items c))) db.
(** library.py:129-134: a filter if the argument is given *)
Definition opt_filter {A} (o : option string) (f : string -> A -> bool) (l : list A) : list A :=
  match o with None => l | Some v => filter (f v) l end.
(** [order_by(Typ.name)]; library.py:135 *)
Definition row_le (a b : catalog * item) : bool := String.leb (lower (i_name (snd a))) (lower (i_name (snd b))).
(** library.py:135: sorting by insertion, stable *)
Fixpoint insert_row (r : catalog * item) (l : list (catalog * item)) : list (catalog * item) :=
  match l with [] => [r] | q :: l' => if row_le r q then r :: l else q :: insert_row r l' end.
(** library.py:135 [order_by(Typ.name)] *)
Definition order_by (l : list (catalog * item)) : list (catalog * item) := fold_right insert_row [] l.

(** the rows selected by [Library.get_all]: library.py:127-135; [c_source] is compared with case *)
Definition select (db : list catalog) (k : kind) (name cat source : option string) : list (catalog * item) :=
  let res := rows k db in
  let res := opt_filter cat (fun v r => nocase_eqb (c_name (fst r)) v) res in
  let res := opt_filter source (fun v r => String.eqb (c_source (fst r)) v) res in
  let res := opt_filter name (fun v r => nocase_eqb (i_name (snd r)) v) res in
  order_by res.

(** library.py:126-140: results or the exceptions *)
Inductive answer (A : Type) := Found (a : A) | KeyError | ParseError.
Arguments Found {A}. Arguments KeyError {A}. Arguments ParseError {A}.

Section Query.
Variable obj : Type.
(** [LoaderParser.parse]: library_items.py:42-51; the parser is chosen by the catalog's format *)
Variable parse : catalog -> item -> option obj.
(** library.py:139-140: the rows in turn *)
Fixpoint parse_all (l : list (catalog * item)) : answer (list obj) :=
  match l with
  | [] => Found []
  | (c, i) :: l => match parse c i with None => ParseError | Some o => match parse_all l with Found os => Found (o :: os) | e => e end end
  end.
(** [list(Library.get_all(...))]: library.py:124-139 *)
Definition get_all (db : list catalog) (typ : string) (name cat source : option string) : answer (list obj) :=
  match kind_of typ with
  | None => KeyError
  | Some k => match select db k name cat source with [] => KeyError | l => parse_all l end
  end.
(** [Library.get]: library.py:122-124, the first one only *)
Definition get (db : list catalog) (typ : string) (name cat source : option string) : answer obj :=
  match kind_of typ with
  | None => KeyError
  | Some k => match select db k name cat source with [] => KeyError
      | (c, i) :: _ => match parse c i with None => ParseError | Some o => Found o end end
  end.
End Query.
