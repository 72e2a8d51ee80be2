(** The text of a ZMX lens file.
    Modelled: rayopt/zemax.py:90-183 [zmx_to_system] from the text on; the effect of one command on a surface is
    [on_surface] of ImportModel.
    The text consists of characters below 128. [pyfloat], [pyint] are Python's float and int of a text: any partial
    maps; a number that is not finite is [Some None]. Where a surface cannot hold such a number in this model
    (curvature, conic constant, aspheric term, wavelength) the result is [None], as for an exception.
    A distance or radius that is not a number is not told from an infinite one.
    [make] is [Material.make] of a name: it finds a material, raises KeyError or something else. *)
From Coq Require Import String Ascii ZArith Reals Bool List.
From Verif Require Import Base CatalogModel ImportModel.
Import ListNotations.
Open Scope R_scope.
Open Scope list_scope.

(** ** lines *)
(** the characters below 128 that end a line for [str.splitlines]: 10 to 13 and 28 to 30; zemax.py:94 *)
Definition is_break (a : ascii) : bool :=
  let n := nat_of_ascii a in ((10 <=? n) && (n <=? 13) || (28 <=? n) && (n <=? 30))%nat.
(** a line feed behind a carriage return belongs to the same line end; zemax.py:94 *)
Definition is_lf (a : ascii) : bool := (nat_of_ascii a =? 10)%nat.
(** carriage return; zemax.py:94 *)
Definition is_cr (a : ascii) : bool := (nat_of_ascii a =? 13)%nat.
(** the loop of [str.splitlines]; [cur]: the line being read, reversed; zemax.py:94 *)
Fixpoint splitlines_from (cur s : string) : list string :=
  match s with
  | EmptyString => match cur with EmptyString => [] | _ => [rev_string cur ""] end
  | String a s =>
      if is_break a then
        rev_string cur "" ::
        match s with
        | EmptyString => []
        | String b s' => if is_cr a && is_lf b then splitlines_from "" s' else splitlines_from "" s
        end
      else splitlines_from (String a cur) s
  end.
(** [data.splitlines()]; zemax.py:94 *)
Definition splitlines (s : string) : list string := splitlines_from "" s.

(** [args.strip]; zemax.py:108 *)
Definition is_quote (a : ascii) : bool := (nat_of_ascii a =? 34)%nat.
(** one side of [args.strip]; zemax.py:108 *)
Fixpoint lstrip_quote (s : string) : string := match s with EmptyString => "" | String a t => if is_quote a then lstrip_quote t else s end.
(** [args.strip]; zemax.py:108 *)
Definition strip_quote (s : string) : string := rev_string (lstrip_quote (rev_string (lstrip_quote s) "")) "".

Section Text.
Variable M : Type.
Variable air : M.
(** outcome of [Material.make(name)]; zemax.py:119-120 *)
Inductive made := Made (m : M) | KeyError | OtherError.
Variable make : string -> made.
Variable pyfloat : string -> option (option R).
Variable pyint : string -> option Z.
(** the wavelengths a new System has; system.py:44 *)
Variable default_waves : list R.

(** the names that [make] knows, as ImportModel has them; zemax.py:119 *)
Definition find (n : string) : option M := match make n with Made m => Some m | _ => None end.
(** a finite number; zemax.py:112, 127, 131, 135, 139 *)
Definition finite (s : string) : option R := do v <- pyfloat s; v.
(** [args.split()[0]]; None: IndexError; zemax.py:106, 112, 127, 133, 135 *)
Definition word0 (args : string) : option string := match words args with w :: _ => Some w | [] => None end.

(** the System read so far: scale, description, wavelengths, surfaces before the current one, the current one,
    each with its coating, and [next_pos]; zemax.py:91-95 *)
Record zsystem := ZS { zs_scale : R; zs_name : string; zs_waves : list R; zs_done : list (zsurf M * option string);
  zs_e : zsurf M * option string; zs_next : option R }.
(** zemax.py:91-93; system.py:41-45 *)
Definition zs_start : zsystem := ZS (1 / 1000) "" default_waves [] (fresh M air (Some 0), None) (Some 0).
(** assignment to an attribute of the last surface; zemax.py:112, 119, 127, 129, 135, 144-148 *)
Definition on_last (c : command) (s : zsystem) : zsystem :=
  ZS (zs_scale s) (zs_name s) (zs_waves s) (zs_done s) (on_surface M find c (fst (zs_e s)), snd (zs_e s)) (zs_next s).
(** zemax.py:102-106; None: KeyError *)
Definition unit_of (w : string) : option R :=
  if String.eqb w "MM" then Some (1 / 1000) else if String.eqb w "INCH" then Some (254 / 10000) else if String.eqb w "IN" then Some (254 / 10000) else None.
(** [[float(i)*1e-6 for i in ...]]; zemax.py:131 *)
Fixpoint waves (l : list string) : option (list R) :=
  match l with [] => Some [] | w :: l => do x <- finite w; do r <- waves l; Some (x * (1 / 1000000) :: r) end.

(** one line that is not blank, white space at its ends removed: zemax.py:98-182; None: an exception ends the reading *)
Definition zmx_line (line : string) (s : zsystem) : option zsystem :=
  let '(cmd, args) := match split_first line with Some p => p | None => (line, EmptyString) end in
  if String.eqb cmd "UNIT" then
    do w <- word0 args; do u <- unit_of w;
    Some (ZS u (zs_name s) (zs_waves s) (zs_done s) (zs_e s) (zs_next s))
  else if String.eqb cmd "NAME" then
    Some (ZS (zs_scale s) (strip_quote args) (zs_waves s) (zs_done s) (zs_e s) (zs_next s))
  else if String.eqb cmd "SURF" then
    Some (ZS (zs_scale s) (zs_name s) (zs_waves s) (zs_done s ++ [zs_e s]) (fresh M air (zs_next s), None) (zs_next s))
  else if String.eqb cmd "CURV" then do w <- word0 args; do x <- finite w; Some (on_last (CURV x) s)
  else if String.eqb cmd "DISZ" then
    do d <- pyfloat args; Some (ZS (zs_scale s) (zs_name s) (zs_waves s) (zs_done s) (zs_e s) d)
  else if String.eqb cmd "GLAS" then
    do n <- word0 args;
    match make n with OtherError => None | _ => Some (on_last (GLAS n None) s) end
  else if String.eqb cmd "DIAM" then
    do w <- word0 args; do r <- pyfloat w;
    Some (on_last (DIAM r) s)
  else if String.eqb cmd "STOP" then Some (on_last STOP s)
  else if String.eqb cmd "WAVL" then
    do l <- waves (words args); Some (ZS (zs_scale s) (zs_name s) l (zs_done s) (zs_e s) (zs_next s))
  else if String.eqb cmd "COAT" then
    do w <- word0 args; Some (ZS (zs_scale s) (zs_name s) (zs_waves s) (zs_done s) (fst (zs_e s), Some w) (zs_next s))
  else if String.eqb cmd "CONI" then do w <- word0 args; do x <- finite w; Some (on_last (CONI x) s)
  else if String.eqb cmd "PARM" then
    match words args with
    | [i; j] => do i <- pyint i; do a <- finite j; Some (on_last (PARM i a) s)
    | _ => None
    end
  else Some s.
(** the loop over the lines: zemax.py:94-98 *)
Fixpoint zmx_lines (ls : list string) (s : zsystem) : option zsystem :=
  match ls with
  | [] => Some s
  | l :: ls => if blank l then zmx_lines ls s else do s' <- zmx_line (strip l) s; zmx_lines ls s'
  end.
(** [zmx_to_system(data)]: zemax.py:90-183 *)
Definition zmx_text (data : string) : option zsystem := zmx_lines (splitlines data) zs_start.
(** the surfaces of the System returned; zemax.py:91-93, 110, 183 *)
Definition zs_surfaces (s : zsystem) : list (zsurf M) := map fst (zs_done s ++ [zs_e s]).
(** and their coatings; zemax.py:133 *)
Definition zs_coatings (s : zsystem) : list (option string) := map snd (zs_done s ++ [zs_e s]).
End Text.
