(** Solving for chief and marginal rays (rayopt/system.py:466-583).
    A merit value [None] is NaN (the ray failed). *)
From Coq Require Import Reals Bool List ZArith.
From Verif Require Import Base.
Import ListNotations.
Open Scope R_scope.

Section Solve.
Variable merit : R -> option R.
(** scipy's root finders: a number, or an exception *)
Variable newton : R -> option R.
Variable brentq : R -> R -> option R.

(** [abs(f) <= tol], False for NaN; system.py:479 *)
Definition within (f : option R) (tol : R) : bool := match f with Some x => if Rle_dec (Rabs x) tol then true else false | None => false end.

(** [find_start]: system.py:467-476; [for scale in np.arange(1, maxiter)] tries [a0 - scale], then [a0 + scale] *)
Fixpoint try_starts (a0 : R) (scale : nat) (n : nat) : option (R * R) :=
  match n with
  | O => None
  | S n =>
      match merit (a0 + - INR scale) with
      | Some f => Some (a0 + - INR scale, f)
      | None => match merit (a0 + INR scale) with
                | Some f => Some (a0 + INR scale, f)
                | None => try_starts a0 (S scale) n
                end
      end
  end.
(** system.py:467-476 [find_start]: the scales tried are [np.arange(1, maxiter)] *)
Definition find_start (a0 : R) (maxiter : nat) : option (R * R) :=
  match merit a0 with Some f => Some (a0, f) | None => try_starts a0 1 (maxiter - 1) end.
(** [solve_newton]: system.py:466-481 *)
Definition solve_newton (a tol : R) (maxiter : nat) : option R :=
  do s <- find_start a maxiter;
  if within (Some (snd s)) tol then Some (fst s) else newton (fst s).

(** [solve_brentq]: system.py:483-502 *)
Inductive loop_end := Found (b : R) | Break (i : nat) (a b : R) | Exhausted.
(** system.py:484-494: the loop of [solve_brentq]; [n] rounds are left *)
Fixpoint widen (tol : R) (i n : nat) (a b : R) : loop_end :=
  match n with
  | O => Exhausted
  | S n =>
      let fb := merit b in
      if within fb tol then Found b
      else match fb with
           | None => widen tol (S i) n a (b / 2)
           | Some f => if Rlt_dec f 0 then widen tol (S i) n b (b * (1 - f)) else Break i a b
           end
  end.
(** system.py:483-502: how [solve_brentq] ends *)
Inductive outcome := Point (x : R) | Root (a b : R) (r : option R) | NoInterval | NotNegative | NameError.
(** [i] is unbound when [maxiter] is 0; a break in the last round raises like exhaustion *)
Definition solve_brentq (a b tol : R) (maxiter : nat) : outcome :=
  match maxiter with
  | O => NameError
  | S k =>
      match widen tol 0 maxiter a b with
      | Found b => Point b
      | Exhausted => NoInterval
      | Break i a b =>
          if Nat.eqb i k then NoInterval
          else if within (merit a) tol then Point a
          else match merit a with
               | Some f => if Rlt_dec f 0 then Root a b (brentq a b) else NotNegative
               | None => NotNegative
               end
      end
  end.
(** value returned, [None] for any exception; system.py:483-502 *)
Definition returned (o : outcome) : option R := match o with Point x => Some x | Root _ _ r => r | _ => None end.
End Solve.

(** Aiming. The traced rays are given by oracles: [chief z] is the transverse point where the ray from
    field point [yo] aimed at pupil distance [z] meets surface [stop]; [marginal yp z a] the transverse
    points on surfaces 1, 2, ... of the ray aimed at the edge point [yp] of a pupil of radius [a].
    Radii are nonzero, [None] is an infinite radius. *)
Section Aim.
Variable chief : nat -> R -> option (R * R).
Variable marginal : R * R -> R -> R -> list (option (R * R)).
Variable newton : (R -> option R) -> R -> option R.
Variable brentq : (R -> option R) -> R -> R -> option R.
(** object is telecentric, its pupil asks for aiming, system stop, radii of all elements *)
Variables (telecentric aiming : bool) (sys_stop : nat) (radii : list (option R)).
(** the [stop] argument: not given, -1, or an index *)
Inductive stop_arg := NoStop | Rim | At (k : nat).

(** [aim_chief]: system.py:507-526 with the default tolerance and iteration limit of [solve_newton] *)
Definition chief_merit (yo : R * R) (z p rad : R) (stop : nat) (a : R) : option R :=
  do y <- chief stop (z + a * p); fdiv (fst yo * fst y + snd yo * snd y) rad.
(** system.py:507-526 [aim_chief] *)
Definition aim_chief (yo : R * R) (z p : R) (stop : stop_arg) (tol : R) (maxiter : nat) : option R :=
  if Req_EM_T p 0 then None
  else if (telecentric || negb aiming)%bool then Some z
  else match List.nth sys_stop radii None with
       | Some rad =>
           let stop := match stop with At k => k | _ => sys_stop end in
           let f := chief_merit yo z p rad stop in
           do a <- solve_newton f (newton f) 0 tol maxiter;
           Some (z + a * p)
       | None => (* infinite radius: the merit is 0 wherever it is defined *)
           let stop := match stop with At k => k | _ => sys_stop end in
           let f := fun a => do y <- chief stop (z + a * p); Some 0 in
           do a <- solve_newton f (newton f) 0 tol maxiter;
           Some (z + a * p)
       end.

(** squared height over squared radius minus one at one surface: [np.square(ys)[1:, 0, :2].sum(1)/r2 - 1] *)
Definition excess (h : option (R * R)) (r : option R) : option R :=
  do y <- h; match r with Some r => do q <- fdiv (fst y * fst y + snd y * snd y) (r * r); Some (q - 1) | None => Some (0 - 1) end.
(** system.py:548: the excess at every surface that clips *)
Definition excesses (hits : list (option (R * R))) (rs : list (option R)) : list (option R) := map (fun hr => excess (fst hr) (snd hr)) (combine hits rs).
(** [d.max()] of a nonempty array, NaN if any entry is; system.py:550 *)
Fixpoint maximum (d : list (option R)) : option R :=
  match d with
  | [] => None
  | [x] => x
  | x :: d => do x <- x; do m <- maximum d; Some (Rmax x m)
  end.
(** [dist] in [aim_marginal]: system.py:543-553; elements [1:stop] *)
Definition marginal_merit (rim : bool) (yp : R * R) (z p : R) (stop : nat) (a : R) : option R :=
  let d := excesses (marginal yp z (a * p)) (firstn (stop - 1) (tl radii)) in
  if rim then maximum d else last d None.
(** [aim_marginal]: system.py:528-555 *)
Definition aim_marginal (yp : R * R) (z p : R) (stop : stop_arg) (tol : R) (maxiter : nat) : option R :=
  if Req_EM_T p 0 then None
  else
    let rim := match stop with Rim => true | _ => false end in
    if (negb aiming && negb rim)%bool then Some p
    else
      let stop := match stop with Rim => (length radii - 1)%nat | NoStop => S sys_stop | At k => k end in
      if (stop <=? 1)%nat then None (* no surface: d[-1] or d.max() raise *)
      else
        let f := marginal_merit rim yp z p stop in
        do a <- returned (solve_brentq f (brentq f) 0 1 tol maxiter);
        if Req_EM_T a 0 then None else Some (a * p).

(** the 2x2 array [a[sig, ax]] *)
Record box := Box { a00 : R; a01 : R; a10 : R; a11 : R }.
(** [_aim_pupil] after the guess has been chosen: system.py:569-583; [guess] tells if one was given *)
Definition aim_pupil (finite guess : bool) (yo : R * R) (axial : bool) (z : R) (a : box) (stop : stop_arg) (tol : R) (maxiter : nat) : option (R * box) :=
  do za <- (if axial then Some (z, a)
            else
              let p := Rmax (Rmax (Rabs (a00 a)) (Rabs (a01 a))) (Rmax (Rabs (a10 a)) (Rabs (a11 a))) in
              do z1 <- aim_chief yo z p stop tol maxiter;
              if finite then do q <- fdiv z1 z; let q := Rabs q in Some (z1, Box (a00 a * q) (a01 a * q) (a10 a * q) (a11 a * q))
              else Some (z1, a));
  let z := fst za in let a := snd za in
  do t <- aim_marginal (0, 1) z (a11 a) stop tol maxiter;
  let a := if guess then Box (a00 a) (- t) (a10 a) t else Box (- t) (- t) t t in
  do t <- aim_marginal (0, -1) z (a01 a) stop tol maxiter;
  let a := Box (a00 a) t (a10 a) (a11 a) in
  do t <- aim_marginal (1, 0) z (a10 a) stop tol maxiter;
  let a := Box (- t) (a01 a) t (a11 a) in
  do t <- aim_marginal (-1, 0) z (a00 a) stop tol maxiter;
  Some (z, Box t (a01 a) (a10 a) (a11 a)).
End Aim.
