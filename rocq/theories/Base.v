(** Idealised floating point operations: [None] means "not a finite number"
    (NaN or infinity).  numpy/C semantics of sqrt and division,
    see DESIGN.md "Conventions". *)
From Coq Require Import Reals ZArith Lra.
Open Scope R_scope.

(** numpy [sqrt]: NaN for negative arguments *)
Definition fsqrt (x : R) : option R :=
  if Rle_dec 0 x then Some (sqrt x) else None.

(** numpy/C division: inf or NaN for a zero divisor *)
Definition fdiv (x y : R) : option R :=
  if Req_EM_T y 0 then None else Some (x / y).

(** C [pow(x, p)] on doubles (used by [a[0]**p] in simplex_accel.pyx:71 and by
    numpy [**]): NaN for negative base and non-integer exponent, infinity for
    zero base and negative exponent. *)
Definition cpow (x p : R) : option R :=
  if Rlt_dec 0 x then Some (Rpower x p)
  else if Req_EM_T p (IZR (Int_part p))
       then if Req_EM_T x 0
            then if Rlt_dec p 0 then None
                 else if Req_EM_T p 0 then Some 1 else Some 0
            else Some (powerRZ x (Int_part p))
       else if Req_EM_T x 0
            then if Rlt_dec p 0 then None else Some 0
            else None.

Definition obind {A B} (o : option A) (f : A -> option B) : option B :=
  match o with None => None | Some x => f x end.
Notation "'do' x <- o ; f" := (obind o (fun x => f))
  (at level 200, x pattern, o at level 100, f at level 200).

Lemma fsqrt_some x : 0 <= x -> fsqrt x = Some (sqrt x).
Proof. intros H. unfold fsqrt. destruct (Rle_dec 0 x); [auto|contradiction]. Qed.
Lemma fsqrt_none x : x < 0 -> fsqrt x = None.
Proof. intros H. unfold fsqrt. destruct (Rle_dec 0 x); [lra|auto]. Qed.
Lemma fsqrt_inv x s : fsqrt x = Some s -> 0 <= x /\ 0 <= s /\ s * s = x.
Proof.
  unfold fsqrt. destruct (Rle_dec 0 x); intros H; inversion H; subst.
  split; auto. split; [apply sqrt_pos|apply sqrt_sqrt; auto].
Qed.
Lemma fdiv_some x y : y <> 0 -> fdiv x y = Some (x / y).
Proof. intros H. unfold fdiv. destruct (Req_EM_T y 0); [contradiction|auto]. Qed.
Lemma fdiv_zero x : fdiv x 0 = None.
Proof. unfold fdiv. destruct (Req_EM_T 0 0); [auto|congruence]. Qed.
Lemma fdiv_inv x y z : fdiv x y = Some z -> y <> 0 /\ z = x / y.
Proof. unfold fdiv. destruct (Req_EM_T y 0); intros H; inversion H; subst; auto. Qed.

Lemma cpow_1 p : cpow 1 p = Some 1.
Proof.
  unfold cpow. destruct (Rlt_dec 0 1) as [_|n]; [|lra].
  f_equal. unfold Rpower. rewrite ln_1, Rmult_0_r. apply exp_0.
Qed.
