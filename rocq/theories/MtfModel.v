(** Point spread function, encircled energy and contrast curves of the analysis: rayopt/analysis.py:318-345, inside
    [opds]; the contour levels and the axes are not modelled.  Arrays are functions of their indices, all of size [m]. *)
From Coq Require Import Reals List.
From Verif Require Import Base Cx PsfModel SumsModel.
Import ListNotations.
Open Scope R_scope.

(** [np.fft.fftshift], [np.fft.ifftshift] along one axis: element [p] of the result is this element of the argument; analysis.py:319, 343 *)
Definition shift (m p : nat) : nat := ((p + (m - m / 2)) mod m)%nat.
(** [np.fft.ifftshift] along one axis: analysis.py:343 *)
Definition unshift (m p : nat) : nat := ((p + m / 2) mod m)%nat.
(** line 319: [map(np.fft.fftshift, t.psf())] of the array; the coordinate of an axis is shifted the same way *)
Definition shifted (m : nat) (f : nat -> nat -> R) (p q : nat) : R := f (shift m p) (shift m q).
(** lines 320-321: the centroid; [x] are the coordinates of the pixels along one axis *)
Definition centroid_x (m : nat) (f : nat -> nat -> R) (x : nat -> R) : R :=
  rsum m (fun p => rsum m (fun q => shifted m f p q * x (shift m p))).
(** analysis.py:321 *)
Definition centroid_y (m : nat) (f : nat -> nat -> R) (x : nat -> R) : R :=
  rsum m (fun p => rsum m (fun q => shifted m f p q * x (shift m q))).
(** lines 322-323 *)
Definition pixel_size (m : nat) (f : nat -> nat -> R) (x : nat -> R) : R :=
  let x0 := centroid_x m f x in (x (shift m 1) - x0) - (x (shift m 0) - x0).
(** the array as rows; analysis.py:330 *)
Definition rows (m : nat) (f : nat -> nat -> R) : list (list R) := map (fun p => map (fun q => f p q) (seq 0 m)) (seq 0 m).
(** [np.cumsum]; analysis.py:332 *)
Fixpoint cumsum (acc : R) (l : list R) : list R := match l with [] => [] | x :: l => (acc + x) :: cumsum (acc + x) l end.
(** lines 330-332: encircled energy *)
Definition encircled (m : nat) (f : nat -> nat -> R) (x : nat -> R) : option (list R) :=
  let dx := pixel_size m f x in
  do cx <- fdiv (centroid_x m f x) dx; do cy <- fdiv (centroid_y m f x) dx;
  do r <- polar_sum (rows m (shifted m f)) (INR m / 2 + cx, INR m / 2 + cy) Azimuthal 1 None;
  Some (cumsum 0 r).
(** line 337: radius at which entry [k] of the encircled energy is drawn *)
Definition drawn_radius (m : nat) (f : nat -> nat -> R) (x : nat -> R) (k : nat) : R := INR k * pixel_size m f x.
(** line 343: [psf.sum(i)] *)
Definition line_spread (axis m : nat) (f : nat -> nat -> R) (q : nat) : R :=
  match axis with O => rsum m (fun p => shifted m f p q) | _ => rsum m (fun p => shifted m f q p) end.
(** line 343: [np.fft.ifft(np.fft.ifftshift(psf.sum(i))*psf.size**.5)] *)
Definition transfer (axis m : nat) (f : nat -> nat -> R) (k : nat) : cx :=
  cmul (rc (/ INR m)) (csum m (fun q =>
    cmul (rc (line_spread axis m f (unshift m q) * sqrt (INR (m * m)))) (cis (2 * PI * (INR q * INR k / INR m))))).
(** lines 344-346: the points of the contrast curve, frequency and modulus; the first half *)
Definition contrast (axis m : nat) (f : nat -> nat -> R) (x : nat -> R) : list (option R * R) :=
  map (fun k => (fftfreq m (pixel_size m f x) k, sqrt (cabs2 (transfer axis m f k)))) (seq 0 (m / 2)).
