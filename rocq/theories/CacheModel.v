(** Field cache with polar interpolation of start values (rayopt/cachend.py).
    Values are the float arrays returned by the solver ([_aim_pupil] returns five numbers), keys
    are the two field coordinates.  NaN keys are not modelled; a dictionary compares keys as
    numbers. *)
From Coq Require Import List Arith Reals Lra Lia.
From Verif Require Import Base.
Import ListNotations.
Open Scope R_scope.

Notation key := (R * R)%type.
Notation arr := (list R).

(** [r = np.sqrt(np.square(x).sum(1))] and [np.sqrt(xo**2 + yo**2)]: cachend.py:86, 95 *)
Definition radius (k : key) : R := sqrt (fst k ^ 2 + snd k ^ 2).

(** [np.argsort(r)] and the two [take]: cachend.py:89-93.  Insertion sort; numpy's order among equal
    radii is not specified, the theorems about the interpolator hold for any sorted table. *)
Fixpoint insert (e : R * arr) (l : list (R * arr)) : list (R * arr) :=
  match l with
  | [] => [e]
  | f :: l' => if Rle_dec (fst e) (fst f) then e :: l else f :: insert e l'
  end.
(** cachend.py:86-93: the table by radius *)
Definition table_of (entries : list (key * arr)) : list (R * arr) :=
  fold_right (fun e t => insert (radius (fst e), snd e) t) [] entries.

(** [np.searchsorted(self.r, r)] (side left) on a sorted array: cachend.py:100 *)
Fixpoint searchsorted (t : list (R * arr)) (r : R) : nat :=
  match t with [] => 0%nat | e :: t => if Rlt_dec (fst e) r then S (searchsorted t r) else 0%nat end.

(** [ya + (yb - ya)*(r - ra)/(rb - ra)] elementwise: cachend.py:103 *)
Fixpoint lerp (ya yb : arr) (num den : R) : option arr :=
  match ya, yb with
  | a :: ya, b :: yb => do q <- fdiv ((b - a) * num) den; do l <- lerp ya yb num den; Some (a + q :: l)
  | _, _ => Some []
  end.

(** [PolarCacheND._interpolator]: cachend.py:96-105.  Second component: the row of [self.y]
    the returned array is a view of ([self.y[0]], [self.y[-1]]), none if it is a new array.
    An empty table cannot occur (IndexError in Python, [None] here). *)
Definition interpolator (t : list (R * arr)) (k : key) : option arr * option nat :=
  let r := radius k in
  match t with
  | [] => (None, None)
  | e0 :: _ =>
      let last := (length t - 1)%nat in
      if Rle_dec r (fst e0) then (Some (snd e0), Some 0%nat)
      else if Rge_dec r (fst (nth last t e0)) then (Some (snd (nth last t e0)), Some last)
      else let i := searchsorted t r in
           let a := nth (i - 1) t e0 in let b := nth i t e0 in
           (lerp (snd a) (snd b) (r - fst a) (fst b - fst a), None)
  end.

(** attributes [cache], [guess], [interpolator] (with [self.r], [self.y]): cachend.py:28-33 *)
Record cst := Cst { entries : list (key * arr); cguess : option arr; table : option (list (R * arr)) }.

(** [CacheND.clear]: cachend.py:36-38 (the argument is not used, the interpolator is kept) *)
Definition clear (s : cst) (guess : option arr) : cst := Cst [] None (table s).
(** [CacheND.__init__]: cachend.py:28-33 *)
Definition new (guess : option arr) : cst := clear (Cst [] None None) guess.

(** cachend.py:41: equality of dictionary keys *)
Definition key_eqb (a b : key) : bool :=
  if Req_EM_T (fst a) (fst b) then if Req_EM_T (snd a) (snd b) then true else false else false.
(** cachend.py:41 [self.cache[args]] *)
Fixpoint lookup (l : list (key * arr)) (k : key) : option arr :=
  match l with [] => None | (k', v) :: l => if key_eqb k k' then Some v else lookup l k end.

(** write through a view: the row of [self.y] changes; cachend.py:99, 101 *)
Fixpoint set_row (t : list (R * arr)) (i : nat) (v : arr) : list (R * arr) :=
  match t, i with
  | [], _ => []
  | (r, _) :: t, O => (r, v) :: t
  | e :: t, S i => e :: set_row t i v
  end.

Section Solver.
(** the solver: arguments and start value; returns its value ([None]: it raises) and the content it
    leaves in the start value array ([_aim_pupil] works in place on it: system.py:569-583) *)
Variable solver : key -> option arr -> option arr * arr.

(** [CacheND.__call__]: cachend.py:39-52, with [PolarCacheND._update]: cachend.py:85-94 *)
Definition ccall (s : cst) (k : key) : option arr * cst :=
  match lookup (entries s) k with
  | Some v => (Some v, s)
  | None =>
      let '(guess, view) := match table s with
        | None => (cguess s, None)
        | Some t => match interpolator t k with (Some g, w) => (Some g, w) | (None, _) => (cguess s, None) end
        end in
      let '(value, g') := solver k guess in
      match value with
      | Some v => let es := entries s ++ [(k, v)] in (Some v, Cst es (cguess s) (Some (table_of es)))
      | None => (None, Cst (entries s) (cguess s)
          (match table s, view with Some t, Some i => Some (set_row t i g') | t, _ => t end))
      end
  end.

(** calls of cachend.py:35-37 [clear] and :39-52 [__call__] *)
Inductive cevent := CQuery (k : key) | CClear (g : option arr).
(** a history, with the outcome of every query; cachend.py:35-52 *)
Fixpoint history (s : cst) (es : list cevent) : list (cevent * option arr) * cst :=
  match es with
  | [] => ([], s)
  | CQuery k :: es => let '(v, s) := ccall s k in let '(l, s) := history s es in ((CQuery k, v) :: l, s)
  | CClear g :: es => let '(l, s) := history (clear s g) es in ((CClear g, None) :: l, s)
  end.
End Solver.
