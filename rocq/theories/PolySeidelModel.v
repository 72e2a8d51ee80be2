(** Aberration coefficients listed from the polynomial trace.
    Modelled: rayopt/poly_trace.py:140-148 [PolyTrace.buchdahl] and :150-156 [PolyTrace.seidel].
    [s], [t]: the coefficient vectors returned by [PolyTrace.st].  [None]: IndexError (fewer than ten coefficients). *)
From Coq Require Import String Reals List Arith.
From Verif Require Import Base SimplexModel.
Import ListNotations.
Open Scope R_scope.

(** poly_trace.py:150-156 *)
Definition seidel_names : list string :=
  ["s1"; "s2"; "s3"; "s4"; "s5"; "m1"; "m2"; "m3"; "m4"; "m5"; "m6"; "m7"; "m8"; "m9"; "m10"; "m11"; "m12"]%string.
(** poly_trace.py:150-156 [seidel]; [None]: IndexError for short coefficient vectors *)
Definition seidel (s t : list R) : option (list (string * R)) :=
  if ((length s <? 10) || (length t <? 10))%nat%bool then None
  else
    let s i := nth i s 0 in let t i := nth i t 0 in
    Some (combine seidel_names
      [s 1%nat; - t 1%nat; t 3%nat / 2; s 2%nat - t 3%nat / 2; - t 2%nat;
       s 4%nat; - t 4%nat - s 6%nat / 2; - s 6%nat / 2; t 6%nat + s 5%nat; s 5%nat; s 9%nat;
       - t 5%nat - t 9%nat / 2 - s 8%nat / 2; - t 9%nat / 2 - s 8%nat / 2; s 8%nat / 2; s 7%nat + t 8%nat;
       s 7%nat; - t 7%nat]).

(** poly_trace.py:141-142: [n.extend("_" + _ for _ in n)].  The generator reads the list it extends: each round takes the
    name at position [i] of the list grown so far and appends to it; it stops if there is no such name.
    [None]: still running after [fuel] rounds. *)
Definition buchdahl_start : list string := ["Ap"; "Cp"; "Bp"; "S1p"; "S3p"; "S2p"; "S6p"; "S5p"; "S4p"]%string.
(** poly_trace.py:141-142: the rounds of the generator; [None]: it does not end within [fuel] rounds *)
Fixpoint extend_self (fuel : nat) (i : nat) (n : list string) : option (list string) :=
  match nth_error n i with
  | None => Some n
  | Some x => match fuel with O => None | S fuel => extend_self fuel (S i) (n ++ [String.append "_" x]) end
  end.
(** lines 143-147: [v[i] *= -1; v[i + 9] *= -1]; IndexError if the slices are too short *)
Definition flips : list nat := [0; 1; 3; 4; 6; 8]%nat.
(** poly_trace.py:146 [v[i] *= -1] *)
Definition negate (v : list R) (i : nat) : list R := upd i (nth i v 0 * -1) v.
(** poly_trace.py:146-147 *)
Definition flip_pair (v : list R) (i : nat) : list R := negate (negate v i) (i + 9).
(** [s[1:10]]: poly_trace.py:143 *)
Definition slice_1_10 (a : list R) : list R := firstn 9 (tl a).
(** poly_trace.py:143-147 *)
Definition buchdahl_values (s t : list R) : option (list R) :=
  let v := slice_1_10 s ++ map Ropp (slice_1_10 t) in
  if (length v <? 18)%nat then None else Some (fold_left flip_pair flips v).
(** lines 140-148 *)
Definition buchdahl (fuel : nat) (s t : list R) : option (list (string * R)) :=
  do n <- extend_self fuel 0 buchdahl_start;
  do v <- buchdahl_values s t;
  Some (combine n v).
