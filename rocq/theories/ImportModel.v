(** Import of lens tables and of ZMX lens files.
    Modelled: rayopt/formats.py:28-36 [try_get], :39-75 [system_from_array], :78-82 [system_from_text];
    rayopt/zemax.py:91-160 [zmx_to_system] after each line has been split into a command and its arguments
    (UNIT, NAME, WAVL, COAT and ignored commands, which touch no surface, are one constructor).
    Floats are reals; the material lookup is a parameter. *)
From Coq Require Import Reals String List Arith ZArith Bool.
From Verif Require Import Base.
Import ListNotations.
Open Scope R_scope.
Open Scope list_scope.

(** a cell after [float(v)] was tried: a number or still text; formats.py:33-36 *)
Inductive value := Num (x : R) | Txt (s : string).
(** [v == s] for a text: formats.py:54, 68 *)
Definition is_txt (v : value) (s : string) : bool := match v with Txt t => String.eqb t s | Num _ => false end.
(** Python truth of a value; formats.py:66 *)
Definition truthy (v : value) : bool := match v with Num x => if Req_EM_T x 0 then false else true | Txt s => negb (String.eqb s "") end.

(** position of the first column of that name: [columns.index(field)]; formats.py:31-32, 46 *)
Fixpoint column (columns : list string) (field : string) : option nat :=
  match columns with
  | [] => None
  | c :: cs => if String.eqb c field then Some 0%nat else option_map S (column cs field)
  end.
(** [try_get]: formats.py:28-36.  Outer [None]: IndexError *)
Definition try_get (line : list value) (columns : list string) (field : string) (default : option value) : option (option value) :=
  match column columns field with
  | None => Some default
  | Some k => match nth_error line k with Some v => Some (Some v) | None => None end
  end.

(** [np.roll(l, v)]; formats.py:47 *)
Definition roll {A} (l : list A) (v : Z) : list A :=
  let n := length l in
  let k := Z.to_nat ((- v) mod Z.of_nat n)%Z in
  skipn k l ++ firstn k l.
(** [data[:, i] = col]; formats.py:47 *)
Fixpoint set_nth {A} (l : list A) (i : nat) (x : A) : list A :=
  match l, i with
  | [], _ => []
  | _ :: l, O => x :: l
  | y :: l, S i => y :: set_nth l i x
  end.
(** [data[:, i] = col]: formats.py:47 *)
Fixpoint set_column {A} (rows : list (list A)) (i : nat) (col : list A) : list (list A) :=
  match rows, col with
  | r :: rows, x :: col => set_nth r i x :: set_column rows i col
  | rows, _ => rows
  end.
(** [data[:, i]]: formats.py:47 *)
Fixpoint get_column {A} (rows : list (list A)) (i : nat) : option (list A) :=
  match rows with
  | [] => Some []
  | r :: rows => do x <- nth_error r i; do c <- get_column rows i; Some (x :: c)
  end.
(** formats.py:44-46; an unknown column name is a ValueError *)
Fixpoint apply_shifts (columns : list string) (shifts : list (string * Z)) (data : list (list value)) : option (list (list value)) :=
  match shifts with
  | [] => Some data
  | (k, v) :: shifts =>
      do i <- column columns k;
      do c <- get_column data i;
      apply_shifts columns shifts (set_column data i (roll c v))
  end.

Section Mat.
Variable M : Type.
(** [Material.make] on a table entry or on nothing; [None]: exception *)
Variable make : option value -> option M.

(** what formats.py:52-74 set on an element *)
Record row_el := RowEl { re_curvature : value; re_distance : R; re_radius : value; re_material : M }.

(** [1./roc], TypeError for text *)
Definition from_roc (v : option value) : option value :=
  match v with
  | Some (Num x) => if Req_EM_T x 0 then Some (Num 0) else do c <- fdiv 1 x; Some (Num c)
  | _ => None
  end.
(** [try_get(...)/2.], TypeError for text: formats.py:67 *)
Definition half (v : option value) : option value := match v with Some (Num x) => Some (Num (x / 2)) | _ => None end.
(** one table row: formats.py:49-74.  An assignment of text to [distance] is a TypeError *)
Definition row_element (columns : list string) (mmap : option value -> option value) (line : list value) : option (value * row_el) :=
  do typ <- try_get line columns "type" (Some (Txt "S"));
  do curv <- try_get line columns "curvature" None;
  do curv <- match curv with
             | Some v => Some v
             | None => do roc <- try_get line columns "roc" (Some (Num 0)); from_roc roc
             end;
  do dist <- try_get line columns "distance" (Some (Num 0));
  do d <- match dist with Some (Num x) => Some x | _ => None end;
  do rad <- try_get line columns "radius" (Some (Num 0));
  do r <- match rad with
          | Some v => if truthy v then Some v else do dia <- try_get line columns "diameter" (Some (Num 0)); half dia
          | None => None
          end;
  do mat <- try_get line columns "material" None;
  do m <- make (mmap mat);
  do t <- typ;
  Some (t, RowEl curv d r m).

(** loop of [system_from_array]: formats.py:48-74; [s.aperture = el] sets the stop to the position of the
    element just appended *)
Fixpoint rows_from (columns : list string) (mmap : option value -> option value) (els : list row_el) (stop : Z) (rows : list (list value)) : option (list row_el * Z) :=
  match rows with
  | [] => Some (els, stop)
  | line :: rows =>
      do te <- row_element columns mmap line;
      let stop := if is_txt (fst te) "A" then Z.of_nat (length els) else stop in
      rows_from columns mmap (els ++ [snd te]) stop rows
  end.
(** [system_from_array]: formats.py:39-75; [stop] is the stop of the new System (default 1);
    no rows at all fail the check of the array dimension, formats.py:43 *)
Definition system_from_array (columns : list string) (shifts : list (string * Z)) (mmap : option value -> option value) (stop : Z) (data : list (list value)) : option (list row_el * Z) :=
  match data with [] => None | _ =>
  do data <- apply_shifts columns shifts data;
  rows_from columns mmap [] stop data
  end.

(** [system_from_text]: formats.py:78-82 on lines split into words; [max] of no lines is a ValueError *)
Definition longest (lines : list (list value)) : nat := fold_right Nat.max 0%nat (map (@length value) lines).
(** formats.py:78-82 [system_from_text] *)
Definition system_from_text (columns : list string) (shifts : list (string * Z)) (mmap : option value -> option value) (stop : Z) (lines : list (list value)) : option (list row_el * Z) :=
  match lines with
  | [] => None
  | _ => system_from_array columns shifts mmap stop (filter (fun l => Nat.eqb (length l) (longest lines)) lines)
  end.
End Mat.

(** * ZMX *)
Section Zmx.
Variable M : Type.
Variable air : M.
(** [Material.make(name)]; [None]: KeyError *)
Variable find : string -> option M.

(** commands that concern surfaces; a thickness or radius [None] is "INFINITY"; GLAS carries index and Abbe number; zemax.py:101-148 *)
Inductive command :=
  | SURF | CURV (c : R) | DISZ (d : option R) | GLAS (name : string) (numbers : option (R * R)) | DIAM (r : option R) | STOP | CONI (k : R) | PARM (i : Z) (a : R) | OTHER.
(** attributes of an imported Spheroid; the radius [None] is inf; elements.py:414-426, zemax.py:93, 110 *)
Record zsurf := Z_ { z_curv : R; z_dist : option R; z_mat : M; z_rad : option R; z_stop : bool; z_conic : R; z_asph : option (list R) }.
(** [Spheroid(distance=next_pos, material=air)]; zemax.py:110 *)
Definition fresh (d : option R) : zsurf := Z_ 0 d air None false 0 None.
(** zemax.py:146-149: extend by zeros, then assign *)
Definition set_asph (l : list R) (i : nat) (a : R) : list R := set_nth (l ++ repeat 0 (S i - length l)) i a.
(** effect of one command on the current surface.  An unknown glass name is tried as a pair of numbers,
    which always fails (material.py:98-99 passes keywords the class does not take), so the surface keeps
    its material: zemax.py:119-129 *)
Definition on_surface (c : command) (e : zsurf) : zsurf :=
  match c with
  | CURV x => Z_ x (z_dist e) (z_mat e) (z_rad e) (z_stop e) (z_conic e) (z_asph e)
  | GLAS n _ => match find n with Some m => Z_ (z_curv e) (z_dist e) m (z_rad e) (z_stop e) (z_conic e) (z_asph e) | None => e end
  | DIAM r => Z_ (z_curv e) (z_dist e) (z_mat e) r (z_stop e) (z_conic e) (z_asph e)
  | STOP => Z_ (z_curv e) (z_dist e) (z_mat e) (z_rad e) true (z_conic e) (z_asph e)
  | CONI k => Z_ (z_curv e) (z_dist e) (z_mat e) (z_rad e) (z_stop e) k (z_asph e)
  | PARM i a =>
      if (i - 1 <? 0)%Z then e
      else Z_ (z_curv e) (z_dist e) (z_mat e) (z_rad e) (z_stop e) (z_conic e)
              (Some (set_asph (match z_asph e with Some l => l | None => [] end) (Z.to_nat (i - 1)) a))
  | _ => e
  end.
(** the loop of [zmx_to_system]: [done] are the surfaces before the current one [e]; zemax.py:94-182 *)
Fixpoint zmx_from (done : list zsurf) (e : zsurf) (next_pos : option R) (cmds : list command) : list zsurf :=
  match cmds with
  | [] => done ++ [e]
  | SURF :: cmds => zmx_from (done ++ [e]) (fresh next_pos) next_pos cmds
  | DISZ d :: cmds => zmx_from done e d cmds
  | c :: cmds => zmx_from done (on_surface c e) next_pos cmds
  end.
(** surfaces and the stop of the System made: zemax.py:92-94 *)
Definition zmx_to_system (cmds : list command) : list zsurf * Z := (zmx_from [] (fresh (Some 0)) (Some 0) cmds, 1%Z).
End Zmx.
