(** Model of [simplex_pow] over the reals. *)
From Coq Require Import Reals List Arith.
From Verif Require Import Base SimplexModel.
Import ListNotations.
Open Scope R_scope.

(** simplex_accel.pyx:28-35 instantiated at the reals *)
Definition rmul := simplex_mul R 0 Rplus Rmult.
(** sum of coefficient vectors at the reals: simplex_accel.pyx:67-69 *)
Definition rvadd := vadd R Rplus.
(** multiple of a coefficient vector at the reals: simplex_accel.pyx:60-61, 68, 70-71 *)
Definition rvscale := vscale R Rmult.

(** simplex_accel.pyx:65-69: loop body, state is (y, z) *)
Definition pow_step (abi : list row) (x : list R) (p : R)
           (yz : list R * list R) (i : nat) : list R * list R :=
  let w := rmul abi x (fst yz) in
  let y := rvscale ((p - INR i) / (INR i + 1)) w in
  (y, rvadd (snd yz) y).

(** simplex_accel.pyx:49-72 [simplex_pow]; [m] is the truncation order.
    [None]: [a[0]**p] is not finite, or the vector is empty. *)
Definition simplex_pow (abi : list row) (m : nat) (a : list R) (p : R)
  : option (list R) :=
  match a with
  | [] => None
  | a0 :: _ =>
      let x := upd 0 0 a in
      let y := map (fun v => v * p) x in
      let z := upd 0 (nth 0 y 0 + 1) y in
      let '(_, z) := fold_left (pow_step abi x p) (seq 1 (m - 1)) (y, z) in
      do s <- cpow a0 p; Some (map (fun v => v * s) z)
  end.
