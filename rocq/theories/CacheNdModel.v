(** The base class and the two other caches of rayopt/cachend.py: [CacheND], [NearestCacheND], [LinearCacheND] for keys of two
    numbers.  [scipy.interpolate.NearestNDInterpolator] and [LinearNDInterpolator] are modelled by what they are documented to
    compute from the search structures, which are oracles.  NaN keys are not modelled. *)
From Coq Require Import List Arith Reals.
From Verif Require Import Base CacheModel.
Import ListNotations.
Open Scope R_scope.

(** the three classes: [_update] of the base class raises (cachend.py:54-55) *)
Inductive ckind := Abstract | Nearest | Linear.
(** what [__call__] of an interpolator object returns: [None] is an array containing NaN; cachend.py:46, 64, 77 *)
Definition interp := key -> option arr.
(** attributes [cache], [guess], [interpolator]: cachend.py:29-38 *)
Record nst := Nst { n_entries : list (key * arr); n_guess : option arr; n_interp : option interp }.
(** cachend.py:36-38 [clear]: the argument is not used and the interpolator is kept *)
Definition nclear (s : nst) (guess : option arr) : nst := Nst [] None (n_interp s).
(** cachend.py:28-33 [__init__] *)
Definition nnew (guess : option arr) : nst := nclear (Nst [] None None) guess.

(** rows of [y] weighted and added; the linear interpolation of scipy called at cachend.py:77 *)
Fixpoint blend (ws : list R) (ys : list arr) : arr :=
  match ws, ys with
  | w :: ws, [y] => map (Rmult w) y
  | w :: ws, y :: ys => map (fun p => w * fst p + snd p) (combine y (blend ws ys))
  | _, _ => []
  end.
(** barycentric coordinates of [p] in the triangle a, b, c; for cachend.py:77 *)
Definition cross2 (a b : key) : R := fst a * snd b - snd a * fst b.
(** difference of two points, for cachend.py:77 *)
Definition sub2 (a b : key) : key := (fst a - fst b, snd a - snd b).
(** barycentric coordinates in a triangle of scipy's interpolation, cachend.py:77 *)
Definition barycentric (a b c p : key) : option (R * R * R) :=
  let d := cross2 (sub2 b a) (sub2 c a) in
  do u <- fdiv (cross2 (sub2 p a) (sub2 c a)) d;
  do v <- fdiv (cross2 (sub2 b a) (sub2 p a)) d;
  Some (1 - u - v, u, v).

Section Oracles.
(** index of the row the tree query of [NearestNDInterpolator] returns *)
Variable nearest : list key -> key -> nat.
(** the Delaunay triangulation ([None]: QhullError) and the simplex of it found for a point, as indices of rows *)
Variable triangulation : list key -> option unit.
Variable simplex : list key -> key -> option (nat * nat * nat).
(** the solver: arguments and start value; [None]: it raises *)
Variable solver : key -> option arr -> option arr.

(** cachend.py:61-65 *)
Definition nearest_interp (es : list (key * arr)) : interp := fun k =>
  do e <- nth_error es (nearest (map fst es) k); Some (snd e).
(** cachend.py:73-80: [LinearNDInterpolator(x, y)] called at a point; NaN outside of the triangulation *)
Definition linear_interp (es : list (key * arr)) : interp := fun k =>
  do t <- simplex (map fst es) k;
  let '(i, j, h) := t in
  do a <- nth_error es i; do b <- nth_error es j; do c <- nth_error es h;
  do w <- barycentric (fst a) (fst b) (fst c) k;
  let '(wa, wb, wc) := w in
  Some (blend [wa; wb; wc] [snd a; snd b; snd c]).
(** [_update]: cachend.py:54-55, 60-65, 70-80; [None]: it raises *)
Definition nupdate (c : ckind) (es : list (key * arr)) (old : option interp) : option (option interp) :=
  match c with
  | Abstract => None
  | Nearest => Some (Some (nearest_interp es))
  | Linear =>
      if Nat.ltb (length es) 4 then Some old
      else match triangulation (map fst es) with
           | Some _ => Some (Some (linear_interp es))
           | None => Some None
           end
  end.
(** the start value: cachend.py:45-49 *)
Definition nstart (s : nst) (k : key) : option arr :=
  match n_interp s with
  | None => n_guess s
  | Some f => match f k with Some g => Some g | None => n_guess s end
  end.
(** [CacheND.__call__]: cachend.py:39-52; the entry is stored before [_update] *)
Definition ncall (c : ckind) (s : nst) (k : key) : option arr * nst :=
  match lookup (n_entries s) k with
  | Some v => (Some v, s)
  | None =>
      match solver k (nstart s k) with
      | None => (None, s)
      | Some v =>
          let es := n_entries s ++ [(k, v)] in
          match nupdate c es (n_interp s) with
          | Some i => (Some v, Nst es (n_guess s) i)
          | None => (None, Nst es (n_guess s) (n_interp s))
          end
      end
  end.
(** a history of queries and clearings, with the outcome of every query; cachend.py:35-52 *)
Fixpoint nhistory (c : ckind) (s : nst) (es : list cevent) : list (cevent * option arr) * nst :=
  match es with
  | [] => ([], s)
  | CQuery k :: es => let '(v, s) := ncall c s k in let '(l, s) := nhistory c s es in ((CQuery k, v) :: l, s)
  | CClear g :: es => let '(l, s) := nhistory c (nclear s g) es in ((CClear g, None) :: l, s)
  end.
End Oracles.
