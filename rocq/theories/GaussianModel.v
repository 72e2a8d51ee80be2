(** Gaussian beams: rayopt/gaussian_trace.py, elements.py:216-221, system.py:449-452.
    The beam is described by the 2x2 matrix of reduced inverse complex radii. *)
From Coq Require Import Reals List Lra.
From Verif Require Import Base Cx RotModel PlacementModel ElementModel ParaxialModel ParaxTraceModel.
Import ListNotations.
Open Scope R_scope.

(** the blocks [m[:2, :2], m[:2, 2:], m[2:, :2], m[2:, 2:]] as complex matrices *)
Definition blk_a (m : m4) : cm := CM (rc (w0 (q0 m))) (rc (w1 (q0 m))) (rc (w0 (q1 m))) (rc (w1 (q1 m))).
(** [m[:2, 2:]]: elements.py:219 *)
Definition blk_b (m : m4) : cm := CM (rc (w2 (q0 m))) (rc (w3 (q0 m))) (rc (w2 (q1 m))) (rc (w3 (q1 m))).
(** [m[2:, :2]]: elements.py:219 *)
Definition blk_c (m : m4) : cm := CM (rc (w0 (q2 m))) (rc (w1 (q2 m))) (rc (w0 (q3 m))) (rc (w1 (q3 m))).
(** [m[2:, 2:]]: elements.py:219 *)
Definition blk_d (m : m4) : cm := CM (rc (w2 (q2 m))) (rc (w3 (q2 m))) (rc (w2 (q3 m))) (rc (w3 (q3 m))).
(** elements.py:219-220 *)
Definition beam_act (m : m4) (q : cm) : option cm :=
  do i <- cminv (cma (blk_a m) (cmm (blk_b m) q));
  Some (cmm (cma (blk_c m) (cmm (blk_d m) q)) i).
(** elements.py:216-221 [propagate_gaussian] *)
Definition propagate_gaussian (e : element) (q : option cm) (n0 l : R) : option cm * R :=
  let '(n, m) := paraxial_matrix e n0 l in
  (do m <- m; do q <- q; beam_act m q, n).
(** system.py:449-452 *)
Fixpoint sys_gaussian (es : list element) (q : option cm) (n l : R) : list (option cm * R) :=
  match es with
  | [] => []
  | e :: es => let '(q, n) := propagate_gaussian e q n l in (q, n) :: sys_gaussian es q n l
  end.

(** gaussian_trace.py:42-50 [make_qi]; waist and position per axis *)
Definition qi_axis (l n scale waist position : R) : option cx :=
  do z0 <- fdiv (PI * waist ^ 2 * scale) l;
  do z <- fdiv position n;
  fcdiv c1 (Cx z z0).
(** gaussian_trace.py:42-50 [make_qi] *)
Definition make_qi (l n scale : R) (waist position : R * R) (angle : R) : option cm :=
  do x <- qi_axis l n scale (fst waist) (fst position);
  do y <- qi_axis l n scale (snd waist) (snd position);
  let ca := cos angle in let sa := sin angle in
  let a := CM (rc ca) (rc (- sa)) (rc sa) (rc ca) in
  Some (cmm (cmT a) (cmm (CM x c0 c0 y) a)).
(** gaussian_trace.py:59-66: the default beam; waist on the object, or in the pupil *)
Definition default_qi (finite : bool) (radius pupil_radius pupil_distance l n scale : R) : option cm :=
  if finite then make_qi l n scale (radius, radius) (0, 0) 0
  else make_qi l n scale (pupil_radius, pupil_radius) (- pupil_distance, - pupil_distance) 0.

(** gaussian_trace.py:95-101: closed form over a reduced distance *)
Definition free_space (q : cm) (dz : R) : option cm :=
  let xx := c00 q in let xy := c01 q in let yy := c11 q in
  let xy2 := cmul xy xy in
  let dz2 := rc (dz ^ 2) in
  let dz := rc dz in
  do n <- fcdiv c1 (csub (cmul (cadd c1 (cmul dz xx)) (cadd c1 (cmul dz yy))) (cmul dz2 xy2));
  let o := cmul n xy in
  Some (CM (cmul n (csub (cmul xx (cadd c1 (cmul dz yy))) (cmul dz xy2))) o
           o (cmul n (csub (cmul yy (cadd c1 (cmul dz xx))) (cmul dz xy2)))).
(** [np.searchsorted(path, z)] of a sorted array: how many entries are below [z]; gaussian_trace.py:88 *)
Fixpoint searchsorted_left (path : list R) (z : R) : nat :=
  match path with [] => O | p :: path => if Rlt_dec p z then S (searchsorted_left path z) else O end.
(** gaussian_trace.py:81-102 [qin_at] for one position; [trace] lists beam and index after each element *)
Definition qin_at (path : list R) (trace : list (option cm * R)) (z : R) : option (cm * R) :=
  let i := (searchsorted_left path z - 1)%nat in (* -1 is replaced by 0 *)
  do qn <- nth_error trace i;
  do p <- nth_error path i;
  do q <- fst qn;
  do dz <- fdiv (z - p) (snd qn);
  do q <- free_space q dz;
  Some (q, snd qn).

(** entry on the diagonal; gaussian_trace.py:131, 141, 154, 159 *)
Definition diag (axis : bool) (q : cm) : cx := if axis then c11 q else c00 q.
(** gaussian_trace.py:124-132 [spot_radius_at] with normal=False *)
Definition spot_radius (l scale : R) (axis : bool) (q : cm) : option R :=
  do c <- fdiv l (scale * PI); do r <- fdiv c (- im (diag axis q)); fsqrt r.
(** gaussian_trace.py:134-142 [curvature_radius_at] with normal=False; [None] is a flat wave front *)
Definition curvature_radius (n : R) (axis : bool) (q : cm) : option R := fdiv n (re (diag axis q)).
(** gaussian_trace.py:152-155 *)
Definition waist_position (n : R) (axis : bool) (q : cm) : option R := do z <- fcdiv c1 (diag axis q); Some (- re z * n).
(** gaussian_trace.py:157-160 *)
Definition rayleigh_range (n : R) (axis : bool) (q : cm) : option R := do z <- fcdiv c1 (diag axis q); Some (im z * n).
(** gaussian_trace.py:162-166 *)
Definition waist_radius (l n scale : R) (axis : bool) (q : cm) : option R :=
  do r <- rayleigh_range n axis q; do x <- fdiv (r / PI) n; do x <- fdiv (x * l) scale; fsqrt x.
(** gaussian_trace.py:257-260 [refocus]: the new distance of the last element *)
Definition refocus_distance (distance n : R) (axis : bool) (q : cm) : option R := do w <- waist_position n axis q; Some (distance + w).

(** python [x % m] of floats; gaussian_trace.py:111 *)
Definition pymod (x m : R) : R := x - m * IZR (Int_part (x / m)).
(** gaussian_trace.py:104-112 [angle] of a real symmetric matrix (the branch used by [normal]) *)
Definition angle (xx xy yy : R) : R := pymod (atan2 (2 * xy) (xx - yy) / 2 + PI / 4) (PI / 2) - PI / 4.
(** gaussian_trace.py:114-122 [normal] of a real symmetric matrix: the einsum "jki,ikl,lmi->ijm" is o q o;
    both off-diagonal elements must pass [np.allclose(., 0)] *)
Definition normal (xx xy yy : R) : option (R * R * R) :=
  let a := angle xx xy yy in
  let ca := cos a in let sa := sin a in
  let '(o00, o01, o10, o11) := (ca, - sa, sa, ca) in
  let '(t00, t01, t10, t11) := (o00 * xx + o01 * xy, o00 * xy + o01 * yy, o10 * xx + o11 * xy, o10 * xy + o11 * yy) in
  let '(r00, r01, r10, r11) := (t00 * o00 + t01 * o10, t00 * o01 + t01 * o11, t10 * o00 + t11 * o10, t10 * o01 + t11 * o11) in
  if isclose r01 0 then if isclose r10 0 then Some (r00, r11, a) else None else None.
(** gaussian_trace.py:127-129 [spot_radius_at] with normal=True *)
Definition spot_radius_normal (l scale : R) (q : cm) : option (R * R * R) :=
  do c <- fdiv l (scale * PI);
  do na <- normal (- im (c00 q)) (- im (c01 q)) (- im (c11 q));
  let '(r0, r1, a) := na in
  do x <- fdiv c r0; do y <- fdiv c r1; do x <- fsqrt x; do y <- fsqrt y; Some (x, y, a).

(** gaussian_trace.py:183-186 *)
Definition is_simple_astigmatic (m : m4) : bool :=
  forallb (fun x => isclose x 0)
    [w1 (q0 m); w3 (q0 m); w0 (q1 m); w2 (q1 m); w1 (q2 m); w3 (q2 m); w0 (q3 m); w2 (q3 m)].
Section Roots.
(** [np.roots] of a quadratic *)
Variable roots : R -> R -> R -> list cx.
(** gaussian_trace.py:195-198, one axis: the roots to invert *)
Definition axis_roots (m : m4) (axis : bool) : list cx :=
  let '(a, b, c, d) := block axis m in roots c (d - a) (- b).
(** gaussian_trace.py:198: a mode per pair of roots *)
Fixpoint pair_modes (x y : list cx) : option (list cm) :=
  match x, y with
  | [], [] => Some []
  | x :: xs, y :: ys => do x <- fcdiv c1 x; do y <- fcdiv c1 y; do r <- pair_modes xs ys; Some (CM x c0 c0 y :: r)
  | _, _ => None (* [np.array] of lists of different lengths *)
  end.
(** gaussian_trace.py:188-199 [eigenmodes] for the system matrix [m] *)
Definition eigenmodes (m : m4) : option (list cm) :=
  if is_simple_astigmatic m then pair_modes (axis_roots m false) (axis_roots m true) else None.
End Roots.

(** gaussian_trace.py:201-209 [is_proper]: the compared entries *)
Definition proper_pairs (m : m4) : list (R * R) :=
  let a := (w0 (q0 m), w1 (q0 m), w0 (q1 m), w1 (q1 m)) in let b := (w2 (q0 m), w3 (q0 m), w2 (q1 m), w3 (q1 m)) in
  let c := (w0 (q2 m), w1 (q2 m), w0 (q3 m), w1 (q3 m)) in let d := (w2 (q2 m), w3 (q2 m), w2 (q3 m), w3 (q3 m)) in
  (* np.dot(x, y.T) *)
  let dt := fun x y : R * R * R * R => let '(x00, x01, x10, x11) := x in let '(y00, y01, y10, y11) := y in
    (x00 * y00 + x01 * y01, x00 * y10 + x01 * y11, x10 * y00 + x11 * y01, x10 * y10 + x11 * y11) in
  let sub := fun x y : R * R * R * R => let '(x00, x01, x10, x11) := x in let '(y00, y01, y10, y11) := y in (x00 - y00, x01 - y01, x10 - y10, x11 - y11) in
  let zip := fun x y : R * R * R * R => let '(x00, x01, x10, x11) := x in let '(y00, y01, y10, y11) := y in [(x00, y00); (x01, y01); (x10, y10); (x11, y11)] in
  zip (sub (dt a d) (dt b c)) (1, 0, 0, 1) ++ zip (dt a b) (dt b a) ++ zip (dt c d) (dt d c).
(** gaussian_trace.py:201-209 [is_proper]: every pair of entries is close *)
Definition is_proper (m : m4) : bool := forallb (fun p => isclose (fst p) (snd p)) (proper_pairs m).

(** gaussian_trace.py:211-217 [m] per axis *)
Definition half_trace (m : m4) (axis : bool) : R := let '(a, b, c, d) := block axis m in (a + d) / 2.
(** principal square root of a real number as complex number; gaussian_trace.py:222 *)
Definition csqrt_real (x : R) : cx := if Rle_dec 0 x then Cx (sqrt x) 0 else Cx 0 (sqrt (- x)).
(** gaussian_trace.py:219-223 [eigenvalues] per axis *)
Definition eigenvalues (m : m4) (axis : bool) : cx * cx :=
  let h := half_trace m axis in let s := csqrt_real (h ^ 2 - 1) in (cadd (rc h) s, csub (rc h) s).
(** gaussian_trace.py:225-227 [real] per axis: the imaginary part of the square of [m]; [m] is an array of
    floats, whose imaginary part numpy gives as zero *)
Definition reported_real (m : m4) (axis : bool) : bool := if Req_EM_T (im (rc (half_trace m axis ^ 2))) 0 then true else false.
(** gaussian_trace.py:229-231 [stable] per axis *)
Definition stable (m : m4) (axis : bool) : bool := if Rlt_dec (half_trace m axis ^ 2) 1 then true else false.
