(** Point spread function of a resampled wave front error: rayopt/geometric_trace.py:138-140 (the grid) and
    :146-161 [psf].  The interpolated wave front error is an arbitrary function on the grid, NaN is [None].
    numpy.fft.fft2 is taken to compute the discrete Fourier transform of the zero padded array. *)
From Coq Require Import Reals List.
From Verif Require Import Base Cx.
Import ListNotations.
Open Scope R_scope.

(** sum of complex numbers, for [np.fft.fft2]: geometric_trace.py:156 *)
Fixpoint csum (n : nat) (f : nat -> cx) : cx := match n with O => c0 | S n => cadd (csum n f) (f n) end.
(** sum of numbers, for [np.count_nonzero] and the energy: geometric_trace.py:151, 157 *)
Fixpoint rsum (n : nat) (f : nat -> R) : R := match n with O => 0 | S n => rsum n f + f n end.
(** exp of an imaginary number; geometric_trace.py:152 *)
Definition cis (x : R) : cx := Cx (cos x) (sin x).
(** lines 138-140: [np.mgrid[-1:1:1j*n, -1:1:1j*n]*h], coordinate along one axis *)
Definition grid (n : nat) (h : R) (j : nat) : R := (-1 + INR j * (2 / (INR n - 1))) * h.
(** lines 150-151: [np.count_nonzero(np.isfinite(o))] *)
Definition count_good (n : nat) (o : nat -> nat -> option R) : R :=
  rsum n (fun j => rsum n (fun k => match o j k with Some _ => 1 | None => 0 end)).
(** line 152: [np.where(good, np.exp(-2j*np.pi*o), 0)/n**.5] *)
Definition amplitude (n : nat) (o : nat -> nat -> option R) (j k : nat) : cx :=
  match o j k with Some w => cdiv (cis (-2 * PI * w)) (rc (sqrt (count_good n o))) | None => c0 end.
(** [np.fft.fft2(o, (nx, ny))] of an array of shape (n, n) *)
Definition padded (n : nat) (a : nat -> nat -> cx) (j k : nat) : cx :=
  if andb (Nat.ltb j n) (Nat.ltb k n) then a j k else c0.
(** geometric_trace.py:156 *)
Definition fft2 (n nx ny : nat) (a : nat -> nat -> cx) (p q : nat) : cx :=
  csum nx (fun j => csum ny (fun k =>
    cmul (padded n a j k) (cis (-2 * PI * (INR j * INR p / INR nx + INR k * INR q / INR ny))))).
(** lines 153-157: [(apsf*apsf.conj()).real/apsf.size]; no finite pixel gives NaN *)
Definition psf (n pad : nat) (o : nat -> nat -> option R) (p q : nat) : option R :=
  if Req_EM_T (count_good n o) 0 then None
  else let nx := (n * pad)%nat in
  let a := fft2 n nx nx (amplitude n o) p q in
  fdiv (re a * re a + im a * im a) (INR (nx * nx)).
(** [np.fft.fftfreq(n, d)]; geometric_trace.py:160 *)
Definition fftfreq (n : nat) (d : R) (p : nat) : option R :=
  let v := if Nat.ltb p ((n - 1) / 2 + 1) then INR p else INR p - INR n in
  fdiv v (INR n * d).
(** lines 158-161: image coordinate of pixel [p], both axes use the same *)
Definition psf_axis (n pad : nat) (h radius l scale : R) (p : nat) : option R :=
  let dx := grid n h 1 - grid n h 0 in
  do w <- fdiv l scale; do k <- fdiv 1 w;
  do d <- fdiv (dx * k) radius;
  fftfreq (n * pad) d p.
