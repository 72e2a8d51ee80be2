(** Sums of a 2D array along an angle, radially and azimuthally (rayopt/special_sums.py).
    An image is a list of rows of equal length; numbers are reals. *)
From Coq Require Import List Arith ZArith Reals Lra Lia.
From Verif Require Import Base RotModel.
Import ListNotations.
Open Scope R_scope.

(** [m.shape[0]]: special_sums.py:139, 242 *)
Definition nrows (m : list (list R)) : nat := length m.
(** [m.shape[1]]: special_sums.py:139, 242 *)
Definition ncols (m : list (list R)) : nat := length (hd [] m).
(** [m[i, j]]: special_sums.py:137, 150, 258 *)
Definition pix (m : list (list R)) (i j : nat) : R := nth j (nth i m []) 0.

(** all (i, j) in the order of [ravel]; [np.ogrid[:m.shape[0], :m.shape[1]]]: special_sums.py:139, 242 *)
Definition grid (m : list (list R)) : list (nat * nat) :=
  flat_map (fun i => map (fun j => (i, j)) (seq 0 (ncols m))) (seq 0 (nrows m)).

(** [x.astype(np.int)]: truncation; special_sums.py:149, 257 *)
Definition ztrunc (x : R) : Z := if Rle_dec 0 x then Int_part x else (- Int_part (- x))%Z.

(** one entry of [np.bincount] increased: special_sums.py:150, 258 *)
Fixpoint add_at (bins : list R) (k : nat) (w : R) : list R :=
  match bins, k with
  | [], _ => []
  | b :: bins, O => (b + w) :: bins
  | b :: bins, S k => b :: add_at bins k w
  end.
(** [np.bincount(k, w, minlength)]: ValueError ([None]) for a negative index; special_sums.py:150, 258 *)
Definition bincount (kw : list (Z * R)) (minlength : nat) : option (list R) :=
  if existsb (fun e => (fst e <? 0)%Z) kw then None else
  let n := fold_right (fun e n => Nat.max (S (Z.to_nat (fst e))) n) minlength kw in
  Some (fold_left (fun bins e => add_at bins (Z.to_nat (fst e)) (snd e)) kw (repeat 0 n)).

(** [angle_sum]: special_sums.py:131-150.  [None]: division by zero, IndexError for an empty image,
    ValueError of [bincount] *)
Definition angle_sum (m : list (list R)) (angle aspect : R) (binsize : option R) : option (list R) :=
  let b := match binsize with Some b => b | None => Rmax (Rabs (cos angle * aspect)) (Rabs (sin angle)) end in
  let m := rev m in
  do ca <- fdiv (cos angle * aspect) b;
  do sa <- fdiv (sin angle) b;
  let k i j := ca * INR j - sa * INR i in
  if ((nrows m =? 0)%nat || (ncols m =? 0)%nat)%bool then None else
  let i1 := (nrows m - 1)%nat in let j1 := (ncols m - 1)%nat in
  let km := Rmin (Rmin (k 0 0)%nat (k 0%nat j1)) (Rmin (k i1 0%nat) (k i1 j1)) in
  bincount (map (fun p => (Int_part (k (fst p) (snd p) - (km - 1 / 2)), pix m (fst p) (snd p))) (grid m)) 0.

(** special_sums.py:245, 250, 255 *)
Inductive direction := Azimuthal | Radial | OtherDirection.

(** [polar_sum]: special_sums.py:240-263 *)
Definition polar_sum (m : list (list R)) (center : R * R) (d : direction) (aspect : R) (binsize : option R) : option (list R) :=
  let i' i := INR i - fst center in let j' j := INR j - snd center in
  match d with
  | Azimuthal =>
      let b := match binsize with Some b => b | None => Rmin 1 aspect end in
      let k i j := sqrt (j' j ^ 2 * aspect ^ 2 + i' i ^ 2) in
      do _ <- fdiv 1 b;
      bincount (map (fun p => (ztrunc (k (fst p) (snd p) / b), pix m (fst p) (snd p))) (grid m)) 0
  | Radial =>
      let b := match binsize with Some b => b | None => 2 * PI / 100 end in
      let k i j := atan2 (i' i) (j' j * aspect) + PI in
      do l <- fdiv (2 * PI) b;
      let minlength := (ztrunc l + 1)%Z in
      do _ <- fdiv 1 b;
      if (minlength <? 0)%Z then None else
      do r <- bincount (map (fun p => (ztrunc (k (fst p) (snd p) / b), pix m (fst p) (snd p))) (grid m)) (Z.to_nat minlength);
      if negb (length r =? Z.to_nat minlength)%nat then None else
      if (length r =? 0)%nat then None else
      (* r[0] += r[-1]; r = r[:-1] *)
      Some (removelast (add_at r 0 (last r 0)))
  | OtherDirection => None
  end.
