(** Model of paraxial_trace.py: launching, tracing, first order quantities, solves and
    conjugate update. *)
From Coq Require Import Reals List Bool.
From Verif Require Import Base Vec PlacementModel ElementModel ParaxialModel PupilModel.
Import ListNotations.
Open Scope R_scope.

(** one row of the arrays y, u, n (paraxial_trace.py:60-64); columns marginal, chief;
    u is index times slope *)
Record prow := PRow { ry : R * R; ru : R * R; rn : R }.

(** [yu[axis::2]] of one column, paraxial_trace.py:91; axis is false (0, x) or true (1, y) *)
Definition row_y (axis : bool) (v : v4) : R := if axis then w1 v else w0 v.
(** the lower half of [yu[axis::2]]: paraxial_trace.py:91 *)
Definition row_u (axis : bool) (v : v4) : R := if axis then w3 v else w2 v.

(** paraxial_trace.py:81-92 [propagate]; [None] if any entry is not finite *)
Fixpoint ptrace_from (axis : bool) (l : R) (es : list element) (m c : v4) (n : R) : option (list prow) :=
  match es with
  | [] => Some []
  | e :: es =>
      let '(m, n1) := propagate_paraxial e (Some m) n l in
      let '(c, _) := propagate_paraxial e (Some c) n l in
      do m <- m; do c <- c;
      do rs <- ptrace_from axis l es m c n1;
      Some (PRow (row_y axis m, row_y axis c) (row_u axis m, row_u axis c) n1 :: rs)
  end.
(** paraxial_trace.py:81-92 [propagate] from the second element on *)
Definition ptrace (axis : bool) (l : R) (es : list element) (y u : R * R) (n0 : R) : option (list prow) :=
  match es with
  | [] => None
  | _ :: es =>
      do rs <- ptrace_from axis l es (V4 (fst y) (fst y) (fst u) (fst u)) (V4 (snd y) (snd y) (snd u) (snd u)) n0;
      Some (PRow y u n0 :: rs)
  end.

(** paraxial_trace.py:66-79 [rays]: y[0], u[0] (marginal, chief) *)
Definition prays (es : list element) (l : R) (o : conjugate) : option ((R * R) * (R * R)) :=
  let n0 := refractive_index es l 0 in
  if cj_finite o then
    do ps <- pupil_slope (cj_pupil o);
    do s <- conj_slope o;
    Some ((0, - cj_val o), (n0 * ps, n0 * s))
  else
    do c <- (if wideangle o then Some 1 else ftan (cj_val o));
    do pr <- pupil_radius (cj_pupil o);
    do s <- conj_slope o;
    Some ((pr, - s * pu_distance (cj_pupil o)), (0, n0 * c)).

(** [m[axis::2, axis::2]] as (m00, m01, m10, m11) *)
Definition block (axis : bool) (m : m4) : R * R * R * R :=
  if axis then (w1 (q1 m), w3 (q1 m), w1 (q3 m), w3 (q3 m))
  else (w0 (q0 m), w2 (q0 m), w0 (q2 m), w2 (q2 m)).
(** first row of [np.linalg.inv]; a singular matrix raises; paraxial_trace.py:338 *)
Definition inv_row0 (b : R * R * R * R) : option (R * R) :=
  let '(a, b, c, d) := b in
  do x <- fdiv d (a * d - b * c); do y <- fdiv (- b) (a * d - b * c); Some (x, y).

(** paraxial_trace.py:326-341 [update_conjugates], object part; an infinite stop radius
    gives a non-finite pupil *)
Definition update_object (axis : bool) (l : R) (es : list element) (stop : nat) (object : conjugate) : option conjugate :=
  do st <- nth_error es stop; do r <- e_radius st;
  do e0 <- nth_error es 0;
  do ma <- snd (sys_matrix es l 1 (Some (S stop)));
  let '(a, b, _, _) := block axis ma in
  let b := b * refractive_index es l 0 in
  do d <- fdiv b a; do pr <- fdiv r a;
  conj_update object (e_radius e0) d pr.
(** image part; paraxial_trace.py:336-341 *)
Definition update_image (axis : bool) (l : R) (es : list element) (stop : nat) (image : conjugate) : option conjugate :=
  do st <- nth_error es stop; do r <- e_radius st;
  do el <- nth_error es (length es - 1);
  let '(nb, mb) := sys_matrix es l (S stop) None in
  do mb <- mb;
  do ab <- inv_row0 (block axis mb);
  let '(a, b) := ab in
  let b := b * nb in
  do d <- fdiv b a; do pr <- fdiv r a;
  conj_update image (e_radius el) d pr.

(** rows by python index: 0, 1 from the front; -1, -2, -3 from the back *)
Definition back (rs : list prow) (i : nat) : option prow :=
  if Nat.leb i (length rs) then nth_error rs (length rs - i) else None.

(** paraxial_trace.py:131-133 *)
Definition lagrange (rs : list prow) : option R :=
  do r <- nth_error rs 0;
  Some (fst (ru r) * snd (ry r) - snd (ru r) * fst (ry r)).
(** paraxial_trace.py:120-122 [pupil_distance]; both entries *)
Definition ppupil_distance (rs : list prow) : option (R * R) :=
  do r0 <- nth_error rs 0; do r1 <- nth_error rs 1; do r2 <- back rs 2;
  do a <- fdiv (- snd (ry r1)) (snd (ru r0));
  do b <- fdiv (- snd (ry r2)) (snd (ru r2));
  Some (a * rn r0, b * rn r2).
(** paraxial_trace.py:125-128 [pupil_height] *)
Definition ppupil_height (rs : list prow) : option (R * R) :=
  do p <- ppupil_distance rs;
  do r0 <- nth_error rs 0; do r1 <- nth_error rs 1; do r2 <- back rs 2;
  do a <- fdiv (fst p * fst (ru r0)) (rn r0);
  do b <- fdiv (snd p * fst (ru r2)) (rn r2);
  Some (Rabs (fst (ry r1) + a), Rabs (fst (ry r2) + b)).
(** paraxial_trace.py:136-142 [focal_length] *)
Definition focal_length (rs : list prow) : option (R * R) :=
  do L <- lagrange rs;
  do r0 <- nth_error rs 0; do r2 <- back rs 2;
  do f <- fdiv L (snd (ru r0) * fst (ru r2) - fst (ru r0) * snd (ru r2));
  Some (f * rn r2 * -1, f * rn r0 * 1).
(** paraxial_trace.py:145-151 [focal_distance] *)
Definition focal_distance (rs : list prow) : option (R * R) :=
  do fl <- focal_length rs;
  do L <- lagrange rs;
  do r0 <- nth_error rs 0; do r1 <- nth_error rs 1; do r2 <- back rs 2;
  do c0 <- fdiv (fst fl) L; do c0 <- fdiv c0 (rn r2);
  do c1 <- fdiv (snd fl) L; do c1 <- fdiv c1 (rn r0);
  Some ((snd (ry r1) * fst (ru r2) - fst (ry r1) * snd (ru r2)) * c0,
        (snd (ry r2) * fst (ru r0) - fst (ry r2) * snd (ru r0)) * c1).
(** paraxial_trace.py:154-157 *)
Definition principal_distance (rs : list prow) : option (R * R) :=
  do fd <- focal_distance rs; do fl <- focal_length rs;
  Some (fst fd - fst fl, snd fd - snd fl).
(** paraxial_trace.py:161-164 *)
Definition nodal_distance (rs : list prow) : option (R * R) :=
  do fd <- focal_distance rs; do fl <- focal_length rs;
  Some (snd fl + fst fd, fst fl + snd fd).
(** paraxial_trace.py:196-199 [magnification] *)
Definition magnification (rs : list prow) : option (R * R) :=
  do r0 <- nth_error rs 0; do r2 <- back rs 2;
  do mt <- fdiv (fst (ru r0)) (fst (ru r2));
  do ma <- fdiv (snd (ru r2) * rn r0) (snd (ru r0) * rn r2);
  Some (mt, ma).

(** replace the element at a position; paraxial_trace.py:305, 323 *)
Fixpoint set_nth {A} (es : list A) (i : nat) (x : A) : list A :=
  match es, i with
  | [], _ => []
  | _ :: es, O => x :: es
  | e :: es, S i => e :: set_nth es i x
  end.
(** paraxial_trace.py:299-305 [focal_length_solve] with i = -2: assigns the curvature of
    the last but one element (for a plain element python just creates the attribute) *)
Definition focal_length_solve (es : list element) (rs : list prow) (f : R) : option (list element) :=
  do r0 <- nth_error rs 0; do r3 <- back rs 3; do r2 <- back rs 2;
  do q <- fdiv (- fst (ry r0)) f;
  let u := q * rn r0 in
  do c <- fdiv (u - fst (ru r3)) (fst (ry r2) * (rn r3 - rn r2));
  let i := (length es - 2)%nat in
  do e <- nth_error es i;
  Some (match e_kind e with
        | Plain => es
        | Sph m s => set_nth es i (El (e_place e) (e_radius e) (Sph m (Surf c (s_k s) (s_asph s) (s_alt s))))
        end).
(** paraxial_trace.py:322-324 [refocus] with idx = -1 *)
Definition refocus (es : list element) (rs : list prow) : option (list element) :=
  do r2 <- back rs 2;
  do d <- fdiv (- rn r2 * fst (ry r2)) (fst (ru r2));
  let i := (length es - 1)%nat in
  do e <- nth_error es i;
  do p <- set_distance (e_place e) d;
  Some (set_nth es i (El p (e_radius e) (e_kind e))).
