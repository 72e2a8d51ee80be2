(** Nodes and weights of the Gauss Radau and Gauss Lobatto rules.
    Modelled: rayopt/utils.py:202-222 [gl_roots], [gr_roots].
    A polynomial ([np.poly1d]) is the list of its coefficients, the constant first (numpy: last).
    [orthogonal.legendre] is the exact Legendre polynomial (scipy computes its coefficients from
    numerical nodes); [roots] is [np.poly1d.roots], any map. *)
From Coq Require Import Reals List.
From Verif Require Import Base SampleModel.
Import ListNotations.
Open Scope R_scope.

(** value [leg(x)]; utils.py:210, 221 *)
Definition peval (p : list R) (x : R) : R := fold_right (fun c r => c + x * r) 0 p.
(** sum of poly1d; utils.py:219 *)
Fixpoint padd (p q : list R) : list R :=
  match p, q with [], q => q | p, [] => p | a :: p, b :: q => a + b :: padd p q end.
(** multiple, in the recurrence of the Legendre polynomials; utils.py:208, 218, 219 *)
Definition pscale (c : R) (p : list R) : list R := map (Rmult c) p.
(** [leg.deriv()]; utils.py:209 *)
Fixpoint pderiv (p : list R) : list R :=
  match p with [] => [] | _ :: p => match p with [] => [] | _ => padd p (0 :: pderiv p) end end.
(** quotient by [x - a], as [/np.poly1d((1, 1))] gives for a = -1; utils.py:219 *)
Fixpoint pquot (a : R) (p : list R) : list R :=
  match p with [] => [] | _ :: p => match p with [] => [] | _ => peval p a :: pquot a p end end.
(** the Legendre polynomials of degree n and n - 1; utils.py:208, 218, 219 *)
Fixpoint legendre_pair (n : nat) : list R * list R :=
  match n with
  | O => ([1], [])
  | S k => let '(p, q) := legendre_pair k in
      (pscale (/ (INR k + 1)) (padd (pscale (2 * INR k + 1) (0 :: p)) (pscale (- INR k) q)), p)
  end.
(** [orthogonal.legendre(n)]; utils.py:208, 218, 219 *)
Definition legendre (n : nat) : list R := fst (legendre_pair n).

Section Roots.
Variable roots : list R -> list R.
(** [gl_roots(n)]: utils.py:202-211; None: an exception or a weight that is not finite *)
Definition gl_roots (n : nat) : option (list R * list R) :=
  match n with
  | O => None
  | S m =>
      let leg := legendre m in
      let x := -1 :: roots (pderiv leg) ++ [1] in
      do w <- mapo (fun x => fdiv 2 (INR n * (INR n - 1) * peval leg x ^ 2)) x;
      Some (x, w)
  end.
(** [gr_roots(n)]: utils.py:214-222; None: an exception or a weight that is not finite *)
Definition gr_roots (n : nat) : option (list R * list R) :=
  match n with
  | O => None
  | S m =>
      let leg := legendre m in
      let l := pquot (-1) (padd leg (legendre n)) in
      let x := -1 :: roots l in
      do w <- mapo (fun x => fdiv (1 - x) ((INR n * peval leg x) ^ 2)) x;
      Some (x, w)
  end.
End Roots.
