(** Model of pupil sampling: utils.py:117-247 [pupil_distribution, interval_to_circle]. *)
From Coq Require Import Reals List Bool ZArith Arith.
From Verif Require Import Base.
Import ListNotations.
Open Scope R_scope.

(** numpy [linspace(a, b, n)]; utils.py:142-161 *)
Definition linspace (a b : R) (n : nat) : list R :=
  match n with
  | O => []
  | S O => [a]
  | S m => map (fun i => a + INR i * ((b - a) / INR m)) (seq 0 n)
  end.
(** one axis of [np.mgrid[a:b:1j*n]]; the same numbers as linspace *)
Definition mgrid1 (n : nat) : list R := linspace (-1) 1 n.
(** Python's [int] of a float, for the non-negative values that occur; utils.py:169, 174, 181, 188, 193 *)
Definition trunc (x : R) : nat := Z.to_nat (Int_part x).

(** the names accepted by utils.py:138-198 *)
Inductive distribution := HalfMeridional | Meridional | Sagittal | Cross | Tee | Random | Square | Triangular
  | Hexapolar | Radau | Lobatto | UnknownDistribution.

(** [(xy**2).sum(0) <= 1]: utils.py:171, 178 *)
Definition in_disc (p : R * R) : bool := if Rle_dec (fst p ^ 2 + snd p ^ 2) 1 then true else false.
(** rows of [np.mgrid[-1:1:1j*n, -1:1:1j*n].reshape(2, -1)]; [shift j] is added to the
    first coordinate of the points in column j *)
Definition grid (n : nat) (shift : nat -> R) : list (R * R) :=
  flat_map (fun x => map (fun jy => (x + shift (fst jy), snd jy)) (combine (seq 0 n) (mgrid1 n))) (mgrid1 n).
(** utils.py:184-186, ring i of k *)
Definition hex_ring (k i : nat) : list (R * R) :=
  map (fun j => let a := INR j * (2 * PI / INR (6 * i)) in (sin a * INR i / INR k, cos a * INR i / INR k)) (seq 0 (6 * i)).

(** elementwise numpy operation; any NaN result is propagated to the caller; utils.py:231 *)
Fixpoint mapo {A B} (f : A -> option B) (l : list A) : option (list B) :=
  match l with [] => Some [] | a :: l => do b <- f a; do r <- mapo f l; Some (b :: r) end.
(** [np.repeat(l, m)]: utils.py:239-245 *)
Fixpoint repeat_each {A} (m : nat) (l : list A) : list A :=
  match l with [] => [] | a :: l => repeat a m ++ repeat_each m l end.
(** [np.repeat(p[None, :], m, 0).ravel()]: utils.py:241, 245 *)
Fixpoint concat_n {A} (m : nat) (l : list A) : list A :=
  match m with O => [] | S m => l ++ concat_n m l end.
(** [ws.sum()]: utils.py:246 *)
Definition sumR (l : list R) : R := fold_right Rplus 0 l.
(** utils.py:226-247 [interval_to_circle(x, w)] with the default arguments: r, phi, weights.
    The final [assert np.allclose(ws.sum(), 1)] is exact here *)
Definition interval_to_circle (x w : list R) : option (list R * list R * list R) :=
  if negb (length x =? length w)%nat then None else
  let n := length x in
  do r <- mapo (fun v => fsqrt ((v + 1) / 2)) x;
  let p := map (fun j => PI * ((INR j + / 2) / INR n - / 2)) (seq 0 n) in
  match r, w with
  | r0 :: rt, w0 :: wt =>
      let '(rs, ws, ps) :=
        if Req_EM_T r0 0 then
          (r0 :: repeat_each n rt, map (fun v => v / 2) (w0 :: repeat_each n (map (fun v => v / INR n) wt)), 0 :: concat_n (n - 1) p)
        else
          (repeat_each n r, map (fun v => v / 2) (repeat_each n (map (fun v => v / INR n) w)), concat_n n p) in
      if Req_EM_T (sumR ws) 1 then Some (rs, ps, ws) else None
  | _, _ => None
  end.

Section Oracles.
(** [np.random.rand(2, n)] transposed *)
Variable rand : nat -> list (R * R).
(** [gr_roots], [gl_roots] (utils.py:202-222, scipy): nodes and weights *)
Variable gr_roots gl_roots : nat -> list R * list R.

(** utils.py:190-191, 195-196 *)
Definition quadrature (xw : list R * list R) : option (nat * list (R * R) * option (list R)) :=
  do rpw <- interval_to_circle (fst xw) (snd xw);
  let '(r, p, w) := rpw in
  Some (0%nat, map (fun rp => (fst rp * cos (snd rp), fst rp * sin (snd rp))) (combine r p), Some w).

(** utils.py:117-199 [pupil_distribution]: reference index, points, weights.  None: the
    call raises *)
Definition pupil_distribution (d : distribution) (n : nat) : option (nat * list (R * R) * option (list R)) :=
  if (n =? 1)%nat then Some (0%nat, repeat (0, 0) n, None) else
  match d with
  | HalfMeridional => Some (0%nat, map (fun y => (0, y)) (linspace 0 1 n), None)
  | Meridional =>
      let n := (n - n mod 2)%nat in
      Some (0%nat, map (fun y => (0, y)) (linspace (-1) 1 (n + 1)), None)
  | Sagittal =>
      let n := (n - n mod 2)%nat in
      Some ((n / 2)%nat, map (fun x => (x, 0)) (linspace (-1) 1 (n + 1)), None)
  | Cross =>
      let n := (n - n mod 4)%nat in
      Some ((n / 4)%nat, map (fun y => (0, y)) (linspace (-1) 1 (n / 2 + 1)) ++ map (fun x => (x, 0)) (linspace (-1) 1 (n / 2 + 1)), None)
  | Tee =>
      if (n <? 2)%nat then None else
      let n := ((n - 2) / 3)%nat in
      Some ((2 * n + 1)%nat, map (fun y => (0, y)) (linspace (-1) 1 (2 * n + 1)) ++ map (fun x => (x, 0)) (linspace 0 1 (n + 1)), None)
  | Random =>
      Some (0%nat, (0, 0) :: map (fun rp => (cos (2 * PI * snd rp) * sqrt (fst rp), sin (2 * PI * snd rp) * sqrt (fst rp))) (rand n), None)
  | Square =>
      let n := trunc (sqrt (INR n * 4 / PI)) in
      Some (0%nat, (0, 0) :: filter in_disc (grid n (fun _ => 0)), None)
  | Triangular =>
      let n := trunc (sqrt (INR n * 4 / PI)) in
      if (n =? 0)%nat then None else
      Some (0%nat, (0, 0) :: filter in_disc (grid n (fun j => INR (j mod 2) * (2 / INR n))), None)
  | Hexapolar =>
      do q <- fsqrt (INR n / 3 - 1 / 12);
      let n := trunc (q - 1 / 2) in
      Some (0%nat, (0, 0) :: flat_map (hex_ring n) (seq 1 n), None)
  | Radau => quadrature (gr_roots (trunc (sqrt (INR n) + 1)))
  | Lobatto => quadrature (gl_roots (trunc (sqrt (INR n) + 1)))
  | UnknownDistribution => None
  end.
End Oracles.
