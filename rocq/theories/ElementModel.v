(** Model of the exact ray trace through one element,
    /repo/rayopt/elements.py:178-501, per ray and at one fixed wavelength.
    A ray position or direction is [option vec]; [None] = not finite (NaN/inf). *)
From Coq Require Import Reals List Lra.
From Verif Require Import Base Vec RotModel PlacementModel.
Import ListNotations.
Open Scope R_scope.

(** the part of a material the trace looks at, material.py:78-146: index as
    function of wavelength, mirror flag, solid flag *)
Record material := Material { m_index : R -> R; m_mirror : bool; m_solid : bool }.

(** Spheroid attributes, elements.py:414-423; [aspherics=None] is [None] *)
Record surf := Surf { s_c : R; s_k : R; s_asph : option (list R); s_alt : bool }.

(** Element or Spheroid; radius [None] = inf; elements.py:179-186, 276-281, 413-426 *)
Inductive kind := Plain | Sph (mat : option material) (s : surf).
(** elements.py:179-186, 413-426: placement, radius and the rest *)
Record element := El { e_place : placement; e_radius : option R; e_kind : kind }.

(** squared radial coordinate, elements.py:444-445 *)
Definition r2_of (p : vec) : R := vx p * vx p + vy p * vy p.

(** elements.py:450-453: [d = 0; for ai in reversed(aspherics): d += ai; d *= r2] *)
Definition asph_sag (l : list R) (r2 : R) : R :=
  fold_left (fun d ai => (d + ai) * r2) (rev l) 0.

(** elements.py:440-455 [Spheroid.surface_sag] *)
Definition surface_sag (s : surf) (p : vec) : option R :=
  let e := vz p in
  if Req_EM_T (s_c s) 0 then
    match s_asph s with
    | None => Some e
    | Some l => Some (e - asph_sag l (r2_of p))
    end
  else
    let r2 := r2_of p in
    do w <- fsqrt (1 - (1 + s_k s) * s_c s ^ 2 * r2);
    do q <- fdiv (s_c s * r2) (1 + w);
    let e := e - q in
    match s_asph s with
    | None => Some e
    | Some l => Some (e - asph_sag l r2)
    end.

(** elements.py:469-473: [d = 0; for i in reversed(range(len(a))): d *= r2;
    d += 2*(i + 1)*a[i]] *)
Definition asph_slope (l : list R) (r2 : R) : R :=
  fold_left (fun d '(i, ai) => d * r2 + 2 * (INR i + 1) * ai)
    (rev (combine (seq 0 (length l)) l)) 0.

(** elements.py:457-475 [Spheroid.surface_normal] *)
Definition surface_normal (s : surf) (p : vec) : option vec :=
  if Req_EM_T (s_c s) 0 then
    match s_asph s with
    | None => Some (V 0 0 1)
    | Some l => let e := 0 - asph_slope l (r2_of p) in Some (V (vx p * e) (vy p * e) 1)
    end
  else
    let r2 := r2_of p in
    do w <- fsqrt (1 - (1 + s_k s) * s_c s ^ 2 * r2);
    do q <- fdiv (s_c s) w;
    let e := 0 - q in
    let e := match s_asph s with None => e | Some l => e - asph_slope l r2 end in
    Some (V (vx p * e) (vy p * e) 1).

(** elements.py:195-201 [Element.intercept] *)
Definition plane_intercept (y u : vec) : option R := fdiv (- vz y) (vz u).

(** elements.py:477-501 [Spheroid.intercept] without aspherics *)
Definition conic_intercept (s : surf) (y u : vec) : option R :=
  let c := s_c s in
  let k := s_k s in
  if Req_EM_T c 0 then fdiv (- vz y) (vz u)
  else
    let '(uy, uu, yy) :=
      if Req_EM_T k 0 then (dot u y, 1, dot y y)
      else
        (vx u * vx y * 1 + vy u * vy y * 1 + vz u * vz y * (1 + k),
         vx u * vx u * 1 + vy u * vy u * 1 + vz u * vz u * (1 + k),
         vx y * vx y * 1 + vy y * vy y * 1 + vz y * vz y * (1 + k)) in
    let d := c * uy - vz u in
    let e := c * uu in
    let f := c * yy - 2 * vz y in
    do g <- fsqrt (d * d - e * f);
    let g := if s_alt s then g * -1 else g in
    fdiv (- (d + g)) e.

Section Newton.
(** scipy.optimize.newton(func, fprime, x0) of elements.py:344-345: an arbitrary
    oracle; [None] = RuntimeError, caught at line 346 and turned into NaN.  It may
    depend on the functions and on the start point only. *)
Variable newton : (R -> option R) -> (R -> option R) -> option R -> option R.

(** point [y + s*u]; elements.py:339, 342, 232 *)
Definition at_ray (y u : vec) (s : R) : vec := vadd3 y (vmul3 s u).

(** elements.py:333-349 [Interface.intercept] for one ray *)
Definition newton_intercept (s : surf) (y u : vec) : option R :=
  newton (fun t => surface_sag s (at_ray y u t))
         (fun t => do n <- surface_normal s (at_ray y u t); Some (dot n u))
         (plane_intercept y u).

(** elements.py:477-501 *)
Definition intercept (s : surf) (y u : vec) : option R :=
  match s_asph s with
  | Some _ => newton_intercept s y u
  | None => conic_intercept s y u
  end.

(** numpy.sign; elements.py:367 *)
Definition sign (x : R) : R := if Rlt_dec 0 x then 1 else if Rlt_dec x 0 then -1 else 0.

(** elements.py:360-369, with the normal [r] given *)
Definition refract_normal (u0 r : vec) (mu : R) : option vec :=
  let r2 := dot r r in
  let muf := Rabs mu in
  do a <- fdiv (muf * dot u0 r) r2;
  if Req_EM_T mu (-1) then Some (vsub3 u0 (vmul3 (2 * a) r))
  else
    do b <- fdiv (mu ^ 2 - 1) r2;
    do q <- fsqrt (a * a - b);
    let g := - a + sign mu * q in
    Some (vadd3 (vmul3 muf u0) (vmul3 g r)).

(** elements.py:351-369 [Interface.refract]; [y], [u0] may be NaN *)
Definition refract (s : surf) (y u0 : option vec) (mu : R) : option vec :=
  if Req_EM_T mu 1 then u0
  else
    do y <- y; do u0 <- u0;
    do r <- surface_normal s y;
    refract_normal u0 r mu.

(** elements.py:283-289 [get_n_mu]; a zero index gives an infinite/NaN ratio *)
Definition get_n_mu (m : option material) (n0 l : R) : R * option R :=
  match m with
  | None => (n0, Some 1)
  | Some m => if m_mirror m then (n0, Some (-1))
              else let n := m_index m l in (n, fdiv n0 n)
  end.

(** elements.py:206-209 [clip]: NaN position compares false *)
Definition clip (radius : option R) (y u : option vec) : option vec :=
  match y with
  | None => None
  | Some y =>
      match radius with
      | None => u
      | Some r => if Rle_dec (r2_of y) (r * r) then u else None
      end
  end.

(** elements.py:230-236 and 306-315 [propagate]: position and direction before,
    index, clip flag; result (y, u, n, t*n0).  If the ratio is not finite the
    direction is not finite. *)
Definition propagate (e : element) (y0 u0 : option vec) (n0 l : R) (clipping : bool)
  : option vec * option vec * R * option R :=
  let t := do y0 <- y0; do u0 <- u0;
           match e_kind e with
           | Plain => plane_intercept y0 u0
           | Sph _ s => intercept s y0 u0
           end in
  let y := do y0 <- y0; do u0 <- u0; do t <- t; Some (at_ray y0 u0 t) in
  let u0 := if clipping then clip (e_radius e) y u0 else u0 in
  let tn := do t <- t; Some (t * n0) in
  match e_kind e with
  | Plain => (y, u0, n0, tn)
  | Sph m s =>
      let '(n, mu) := get_n_mu m n0 l in
      let u := match mu with
               | None => None
               | Some mu => if Req_EM_T mu 0 then u0 else refract s y u0 mu
               end in
      (y, u, n, tn)
  end.

(** frame change of a possibly NaN vector; elements.py:171-176 *)
Definition onormal (f : vec -> option vec) (y : option vec) : option vec := do y <- y; f y.

(** system.py:459-464 [System.propagate]: what is yielded per element
    (y, u, n, i, t), in the surface frame of the element *)
Record step := Step { st_y : option vec; st_u : option vec; st_n : R; st_i : option vec; st_t : option R }.

(** system.py:459-464 [propagate]: the elements in turn *)
Fixpoint sys_propagate (es : list element) (y u : option vec) (n l : R) (clipping : bool) : list step :=
  match es with
  | [] => []
  | e :: es =>
      let p := e_place e in
      let y := do y <- y; to_normal p (vsub3 y (p_offset p)) in
      let i := onormal (to_normal p) u in
      let '(y, u, n, t) := propagate e y i n l clipping in
      Step y u n i t ::
      sys_propagate es (onormal (from_normal p) y) (onormal (from_normal p) u) n l clipping
  end.

(** geometric_trace.py:49-80 [rays_given] followed by [propagate]: entry 0 is the
    launched ray in the frame of element 0, the remaining ones are what
    [System.propagate] yields for elements 1, 2, ... *)
Definition geo_trace (es : list element) (y u : vec) (n l : R) (clipping : bool) : list step :=
  match es with
  | [] => []
  | e :: es =>
      Step (Some y) (Some u) n (Some u) (Some 0) ::
      sys_propagate es (from_normal (e_place e) y) (from_normal (e_place e) u) n l clipping
  end.
End Newton.

(** numpy cumsum of vectors; system.py:413-415, 423-425 *)
Fixpoint cumsum3 (acc : vec) (l : list vec) : list vec :=
  match l with [] => [] | x :: l => let a := vadd3 acc x in a :: cumsum3 a l end.
(** system.py:413-415 [origins] *)
Definition origins (es : list element) : list vec := cumsum3 v0 (map (fun e => p_offset (e_place e)) es).

(** elements.py:258-260 and 549-554 [rescale] *)
Definition rescale_surf (scale : R) (s : surf) : surf :=
  Surf (s_c s / scale) (s_k s)
    (match s_asph s with
     | None => None
     | Some a => Some (map (fun '(i, ai) => ai / scale ^ (2 * i + 1)) (combine (seq 0 (length a)) a))
     end) (s_alt s).
(** elements.py:258-260, 549-554 [rescale] *)
Definition rescale_element (scale : R) (e : element) : option element :=
  do p <- set_distance (e_place e) (p_distance (e_place e) * scale);
  Some (El p (match e_radius e with None => None | Some r => Some (r * scale) end)
    (match e_kind e with Plain => Plain | Sph m s => Sph m (rescale_surf scale s) end)).
(** system.py:263-270 [rescale], element part *)
Fixpoint rescale_elements (scale : R) (es : list element) : option (list element) :=
  match es with
  | [] => Some []
  | e :: es => do e <- rescale_element scale e; do es <- rescale_elements scale es; Some (e :: es)
  end.
