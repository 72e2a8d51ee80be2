(** The iteration behind the intersection with aspheric surfaces: scipy.optimize.newton as called in
    rayopt/elements.py:343-349 with [fprime], tol=1e-7 and maxiter=5.
    Simplification: the library routine is written from its documentation (Newton-Raphson, start value returned if it is a
    zero, result accepted if the last step is at most [tol], RuntimeError otherwise); reals instead of floats. *)
From Coq Require Import Reals.
From Verif Require Import Base.
Open Scope R_scope.

(** elements.py:344-345: at most [maxiter] steps from [p0]; [None]: the RuntimeError caught in elements.py:346, raised for
    a zero derivative and if no step was small enough; NaN never passes the test and ends there, too *)
Fixpoint newton_loop (func fprime : R -> option R) (tol : R) (maxiter : nat) (p0 : R) : option R :=
  match maxiter with
  | O => None
  | S maxiter =>
      do v <- func p0;
      if Req_EM_T v 0 then Some p0
      else
        do d <- fprime p0;
        do step <- fdiv v d;
        let p := p0 - step in
        if Rle_dec (Rabs (p - p0)) tol then Some p else newton_loop func fprime tol maxiter p
  end.
(** elements.py:344-345; the start value is NaN for a ray parallel to the vertex plane *)
Definition newton_scipy (func fprime : R -> option R) (x0 : option R) : option R :=
  do x <- x0; newton_loop func fprime (1 / 10000000) 5 x.
