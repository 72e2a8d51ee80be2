(** State of the whole process and of the user's home: the one library, its file, the list of public names.
    Modelled: rayopt/library.py:51-86 [Library._one], [one], [__init__], [find_db], [db_get]; rayopt/utils.py:24-37 [public].
    Simplifications: no other process changes the files in between; permissions, links, a full disk and the pages and
    pragmas of sqlite are left out; what create_engine and create_all do with an address is an oracle, which says
    whether they raise. *)
From Coq Require Import List String Bool.
Import ListNotations.
Open Scope string_scope.
Open Scope list_scope.

(** ** The file system as find_db sees it *)
(** library.py:69-70, 74 [os.path.join], [os.path.split]: the components of an absolute path, the last one first *)
Definition path := list string.
(** library.py:71, 73, 75: a directory, or a file with its content *)
Inductive node := Dir | File (content : string).
(** library.py:71-77: what is at a path, if anything *)
Definition files := path -> option node.
(** library.py:71, 73, 75 [os.path.exists] *)
Definition exists_ (fs : files) (p : path) : bool := match fs p with Some _ => true | None => false end.
(** library.py:76, 77: the files after an entry was written *)
Definition put (fs : files) (p : path) (n : node) : files := fun q => if list_eq_dec string_dec q p then Some n else fs q.
(** library.py:76, [os.mkdir] inside [os.makedirs]: the parent is a directory and the path is free; false: it raises *)
Definition mkdir (fs : files) (p : path) : files * bool :=
  match p with
  | [] => (fs, false)
  | _ :: h => match fs h, fs p with Some Dir, None => (put fs p Dir, true) | _, _ => (fs, false) end
  end.
(** library.py:76 [os.makedirs]: the missing parents first *)
Fixpoint makedirs (fs : files) (p : path) : files * bool :=
  match p with
  | [] => (fs, false)
  | _ :: h =>
      if exists_ fs h then mkdir fs p
      else let (fs1, ok) := makedirs fs h in if ok then mkdir fs1 p else (fs1, false)
  end.
(** library.py:77 [shutil.copy]: into a directory under the same name; the source is a file, the target in a directory *)
Definition copy (fs : files) (src dst : path) : files * bool :=
  let dst := match fs dst with Some Dir => hd "" src :: dst | _ => dst end in
  match fs src, fs (tl dst), fs dst with
  | Some (File c), Some Dir, None | Some (File c), Some Dir, Some (File _) => (put fs dst (File c), true)
  | _, _, _ => (fs, false)
  end.

(** library.py:67 *)
Definition db_name : string := "library.sqlite".
(** library.py:66-78 [find_db]; [user]: site.getuserbase(); [resource]: what resource_filename says ([None]: it raises);
    [package]: the directory of library.py; the second result [None]: it raises *)
Definition find_db (user : path) (resource : option path) (package : path) (fs : files) : files * option path :=
  let dir := "rayopt" :: user in
  let main := db_name :: dir in
  if exists_ fs main then (fs, Some main)
  else match resource with
    | None => (fs, None)
    | Some base =>
        let base := if exists_ fs base then base else db_name :: package in
        let (fs, ok) := if exists_ fs dir then (fs, true) else makedirs fs dir in
        if ok then let (fs, ok) := copy fs base main in (fs, if ok then Some main else None) else (fs, None)
    end.

(** ** The one library *)
(** library.py:58-64, 80-84: which object it is and the address it is connected to *)
Record library := Library { l_id : nat; l_db : string }.
(** library.py:52: [Library._one], the number of objects made so far and the files *)
Record process := Process { pr_one : option library; pr_next : nat; pr_files : files }.
(** library.py:55 [Library.one(db)] or library.py:60 [Library(db)]; [None]: no argument *)
Inductive call := One (db : option string) | New (db : option string).

Section Library.
(** library.py:68 [site.getuserbase()], 72 [resource_filename], 74 [__file__] *)
Variables (user : path) (resource : option path) (package : path).
(** library.py:70, 78: a path as a string *)
Variable spelled : path -> string.
(** library.py:81-82: create_engine and create_all accept the address *)
Variable connects : string -> bool.

(** library.py:60-65, 80-84: the object (id as given), or [None] for an exception, and the files afterwards *)
Definition init (fs : files) (id : nat) (db : option string) : files * option library :=
  let (fs, db) := match db with
    | Some db => (fs, Some db)
    | None => let (fs, p) := find_db user resource package fs in (fs, option_map (fun p => "sqlite:///" ++ spelled p)%string p)
    end in
  (fs, match db with Some db => if connects db then Some (Library id db) else None | None => None end).
(** library.py:54-65: the process afterwards, whether the warning of line 61 was given, and the result ([None]: it
    raises) *)
Definition step (s : process) (c : call) : process * bool * option library :=
  match c with
  | One db => match pr_one s with
      | Some l => (s, false, Some l)
      | None => let (fs, l) := init (pr_files s) (pr_next s) db in (Process l (S (pr_next s)) fs, false, l)
      end
  | New db =>
      let (fs, l) := init (pr_files s) (pr_next s) db in
      (Process (pr_one s) (S (pr_next s)) fs, match pr_one s with Some _ => true | None => false end, l)
  end.
(** library.py:54-65: calls one after another *)
Fixpoint run (s : process) (cs : list call) : process * list (bool * option library) :=
  match cs with
  | [] => (s, [])
  | c :: cs => let '(s, w, l) := step s c in let (s, r) := run s cs in (s, (w, l) :: r)
  end.
End Library.

(** ** utils.py:24-37 *)
(** the [__all__] of the modules, if they have one; utils.py:32 *)
Definition modules := string -> option (list string).
(** utils.py:24-35 [public] of something called [name] in the module [m]: setdefault, then append if not listed *)
Definition public (ms : modules) (m name : string) : modules :=
  let all := match ms m with Some l => l | None => [] end in
  let all := if existsb (String.eqb name) all then all else all ++ [name] in
  fun q => if String.eqb q m then Some all else ms q.
(** the decorators of a program in turn; utils.py:37 and every [@public] *)
Definition publish (ms : modules) (ds : list (string * string)) : modules :=
  fold_left (fun ms d => public ms (fst d) (snd d)) ds ms.
