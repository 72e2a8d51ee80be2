(** Path access, pickups, solves and validators of a system (rayopt/system.py:112-246).
    Python objects are trees: attributes and list items ([System] is a list with attributes).
    Shared objects and properties with side effects are not modelled, nor are the
    dictionary keys that carry Python source ([get_eval], [get_func], [set_exec], [exec]). *)
From Coq Require Import String ZArith Reals Bool List.
From Verif Require Import Base.
Import ListNotations.
Open Scope list_scope.

(** a Python object as system.py:112-132 see it: None, a number, or attributes and items *)
Inductive val := Null | Num (x : R) | Obj (attrs : list (string * val)) (items : list val).
(** a step of a path: system.py:115, 124 *)
Inductive key := Attr (name : string) | Idx (i : Z).
Notation path := (list key).

(** [getattr]: system.py:116 *)
Fixpoint lookup (l : list (string * val)) (a : string) : option val :=
  match l with [] => None | (b, v) :: l => if String.eqb a b then Some v else lookup l a end.
(** [setattr]: an attribute that does not exist is created; system.py:130 *)
Fixpoint assign (l : list (string * val)) (a : string) (v : val) : list (string * val) :=
  match l with [] => [(a, v)] | (b, w) :: l => if String.eqb a b then (b, v) :: l else (b, w) :: assign l a v end.
(** Python list index: negative counts from the end, IndexError outside; system.py:118, 132 *)
Definition position (n : nat) (i : Z) : option nat :=
  let j := (if i <? 0 then i + Z.of_nat n else i)%Z in
  if ((0 <=? j) && (j <? Z.of_nat n))%Z then Some (Z.to_nat j) else None.
(** assignment to an item: system.py:132 *)
Fixpoint replace (l : list val) (n : nat) (v : val) : list val :=
  match l, n with [], _ => [] | _ :: l, O => v :: l | w :: l, S n => w :: replace l n v end.

(** [getattr(v, k)] or [v[k]]; system.py:115-118 *)
Definition step (v : val) (k : key) : option val :=
  match v, k with
  | Obj at_ _, Attr a => lookup at_ a
  | Obj _ it, Idx i => match position (length it) i with Some n => nth_error it n | None => None end
  | _, _ => None
  end.
(** [setattr(v, k, w)] or [v[k] = w]; system.py:129-132 *)
Definition put (v : val) (k : key) (w : val) : option val :=
  match v, k with
  | Obj at_ it, Attr a => Some (Obj (assign at_ a w) it)
  | Obj at_ it, Idx i => match position (length it) i with Some n => Some (Obj at_ (replace it n w)) | None => None end
  | _, _ => None
  end.
(** [System.get_path]: system.py:112-119 *)
Fixpoint get_path (v : val) (p : path) : option val :=
  match p with [] => Some v | k :: p => do w <- step v k; get_path w p end.
(** [System.set_path]: system.py:121-132; [path[-1]] of an empty path is an IndexError *)
Fixpoint set_path (v : val) (p : path) (w : val) : option val :=
  match p with
  | [] => None
  | [k] => put v k w
  | k :: p => do c <- step v k; do c <- set_path c p w; put v k c
  end.

(** one pickup, system.py:135-149, keys get, factor, offset, set *)
Record pickup := Pickup { pk_get : option path; pk_factor : option R; pk_offset : option R; pk_set : option path }.
(** arithmetic on a value, TypeError without a number: system.py:144, 146 *)
Definition num_op (f : R -> R) (v : val) : option val := match v with Num x => Some (Num (f x)) | _ => None end.
(** system.py:136-146 with the keys get, factor, offset *)
Definition pickup_value (s : val) (k : pickup) : option val :=
  do v <- match pk_get k with Some p => get_path s p | None => Some Null end;
  do v <- match pk_factor k with Some f => num_op (fun x => x * f)%R v | None => Some v end;
  match pk_offset k with Some f => num_op (fun x => x + f)%R v | None => Some v end.
(** system.py:135-148: one pickup *)
Definition pickup1 (s : val) (k : pickup) : option val :=
  do v <- pickup_value s k; match pk_set k with Some p => set_path s p v | None => Some s end.
(** [System.pickup]: system.py:134-150 *)
Fixpoint pickups (s : val) (l : list pickup) : option val :=
  match l with [] => Some s | k :: l => do s <- pickup1 s k; pickups s l end.

(** what scipy's [newton] may do with a function: evaluate it at points it chooses from what it has
    seen, then return a number or raise; system.py:187 *)
Inductive strategy := Return (x : R) | Raise | Evaluate (x : R) (next : R -> strategy).
(** one solve with keys get, set, target; system.py:152-191 *)
Record solve := Solve { sv_get : path; sv_set : path; sv_target : R }.
(** [func], lines 179-182 *)
Definition residual (ps : list pickup) (k : solve) (s : val) (x : R) : option (R * val) :=
  do s <- set_path s (sv_set k) (Num x); do s <- pickups s ps;
  do v <- get_path s (sv_get k); match v with Num y => Some (y - sv_target k, s)%R | _ => None end.
(** system.py:182-187: the evaluations of [newton] in turn *)
Fixpoint search (ps : list pickup) (k : solve) (t : strategy) (s : val) : option (R * val) :=
  match t with
  | Return x => Some (x, s)
  | Raise => None
  | Evaluate x next => do r <- residual ps k s x; search ps k (next (fst r)) (snd r)
  end.
(** lines 184-186: [newton] started at the present value (or init), then [func(x)] *)
Definition solve1 (ps : list pickup) (newton : R -> strategy) (k : solve) (init : option R) (s : val) : option (R * R * val) :=
  do x0 <- match init with Some x => Some x | None => do v <- get_path s (sv_set k); match v with Num x => Some x | _ => None end end;
  do r <- search ps k (newton x0) s;
  do q <- residual ps k (snd r) (fst r);
  Some (fst r, fst q, snd q).

(** one validator with keys get, minimum, maximum, equality; system.py:213-246 *)
Record validator := Validator { vl_get : path; vl_min : option R; vl_max : option R; vl_eq : option R }.
(** system.py:226-246: one condition; assignment with [fix], else ValueError *)
Definition check (fix_ : bool) (p : path) (bad : bool) (v : R) (s : val) : option val :=
  if bad then if fix_ then set_path s p (Num v) else None else Some s.
(** comparison of numbers: system.py:226, 234 *)
Definition rltb (a b : R) : bool := if Rlt_dec a b then true else false.
(** equality of numbers: system.py:242 *)
Definition reqb (a b : R) : bool := if Req_EM_T a b then true else false.
(** [value] is read once; [None]: ValueError, or no number at the path; system.py:214-246 *)
Definition validate1 (fix_ : bool) (s : val) (k : validator) : option val :=
  do v <- get_path s (vl_get k);
  match v with
  | Num x =>
      do s <- match vl_min k with Some m => check fix_ (vl_get k) (rltb x m) m s | None => Some s end;
      do s <- match vl_max k with Some m => check fix_ (vl_get k) (rltb m x) m s | None => Some s end;
      match vl_eq k with Some m => check fix_ (vl_get k) (negb (reqb x m)) m s | None => Some s end
  | _ => None
  end.
(** system.py:213-246 [validate]: the validators in turn *)
Fixpoint validate (fix_ : bool) (s : val) (l : list validator) : option val :=
  match l with [] => Some s | k :: l => do s <- validate1 fix_ s k; validate fix_ s l end.
