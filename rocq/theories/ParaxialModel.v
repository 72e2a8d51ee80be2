(** Model of the paraxial trace: elements.py:211-228, 300-304, 503-541 and
    system.py:193-199, 400-447. *)
From Coq Require Import Reals List Lra.
From Verif Require Import Base Vec RotModel PlacementModel ElementModel.
Import ListNotations.
Open Scope R_scope.

(** 4-vectors (y0, y1, n*u0, n*u1) and 4x4 matrices (numpy arrays) *)
Record v4 := V4 { w0 : R; w1 : R; w2 : R; w3 : R }.
(** 4x4 arrays by rows: elements.py:223-228, 503-541 *)
Record m4 := M4 { q0 : v4; q1 : v4; q2 : v4; q3 : v4 }.
(** one entry of [np.dot]: elements.py:212 *)
Definition dot4 (a b : v4) : R := w0 a * w0 b + w1 a * w1 b + w2 a * w2 b + w3 a * w3 b.
(** [np.dot(m, yu0)]: elements.py:212 *)
Definition mv4 (m : m4) (v : v4) : v4 := V4 (dot4 (q0 m) v) (dot4 (q1 m) v) (dot4 (q2 m) v) (dot4 (q3 m) v).
(** [m.T]: gaussian_trace.py:205-207 *)
Definition mT4 (m : m4) : m4 :=
  M4 (V4 (w0 (q0 m)) (w0 (q1 m)) (w0 (q2 m)) (w0 (q3 m)))
     (V4 (w1 (q0 m)) (w1 (q1 m)) (w1 (q2 m)) (w1 (q3 m)))
     (V4 (w2 (q0 m)) (w2 (q1 m)) (w2 (q2 m)) (w2 (q3 m)))
     (V4 (w3 (q0 m)) (w3 (q1 m)) (w3 (q2 m)) (w3 (q3 m))).
(** numpy.dot(a, b); system.py:406-411 *)
Definition mm4 (a b : m4) : m4 :=
  let bt := mT4 b in M4 (mv4 bt (q0 a)) (mv4 bt (q1 a)) (mv4 bt (q2 a)) (mv4 bt (q3 a)).
(** [np.eye(4)]: system.py:407, elements.py:225 *)
Definition eye4 : m4 := M4 (V4 1 0 0 0) (V4 0 1 0 0) (V4 0 0 1 0) (V4 0 0 0 1).

(** elements.py:223-228 [Element.paraxial_matrix]; division by a zero index is
    not finite *)
Definition transfer_matrix (d n0 : R) : option m4 :=
  do t <- fdiv d n0;
  Some (M4 (V4 1 0 t 0) (V4 0 1 0 t) (V4 0 0 1 0) (V4 0 0 0 1)).

(** elements.py:511-513: vertex curvature; [aspherics[0]] of an empty list raises *)
Definition vertex_curvature (s : surf) : option R :=
  match s_asph s with
  | None => Some (s_c s)
  | Some [] => None
  | Some (a :: _) => Some (s_c s + 2 * a)
  end.

(** elements.py:516-527: the surface part; [n] is the index after, [n0] before *)
Definition refraction_matrix (m : option material) (c costheta n0 n : R) : option m4 :=
  match m with
  | None => Some eye4
  | Some m =>
      if m_mirror m then
        do b <- fdiv (2 * c) costheta;
        Some (M4 (V4 1 0 0 0) (V4 0 1 0 0) (V4 (2 * c * costheta) 0 1 0) (V4 0 b 0 1))
      else
        do mu <- fdiv n n0;
        do p <- fsqrt (mu ^ 2 + costheta ^ 2 - 1);
        do m11 <- fdiv p (mu * costheta);
        let m20 := n0 * c * (costheta - p) in
        do m31 <- fdiv (mu * m20) (costheta * p);
        do m33 <- fdiv 1 m11;
        Some (M4 (V4 1 0 0 0) (V4 0 m11 0 0) (V4 m20 0 1 0) (V4 0 m31 0 m33))
  end.

(** elements.py:534-538: the block rotation by the azimuth phi *)
Definition azimuth_matrix (phi : R) : m4 :=
  let c := cos phi in let s := sin phi in
  M4 (V4 c (- s) 0 0) (V4 s (- c) 0 0) (V4 0 0 c (- s)) (V4 0 0 s (- c)).

(** index after an element, elements.py:300-304 (also for mirrors: the index of the
    mirror material) *)
Definition index_after (e : element) (n0 l : R) : R :=
  match e_kind e with
  | Sph (Some m) _ => m_index m l
  | _ => n0
  end.

(** elements.py:503-541 [Spheroid.paraxial_matrix]; angles is never None after
    [update] *)
Definition paraxial_matrix (e : element) (n0 l : R) : R * option m4 :=
  let p := e_place e in
  let n := index_after e n0 l in
  match e_kind e with
  | Plain => (n, transfer_matrix (p_distance p) n0)
  | Sph m s =>
      (n, do md <- transfer_matrix (p_distance p) n0;
          do c <- vertex_curvature s;
          do mr <- refraction_matrix m c (cos (vx (p_angles p))) n0 n;
          let m := mm4 mr md in
          let r := azimuth_matrix (vz (p_angles p)) in
          Some (mm4 r (mm4 m (mT4 r))))
  end.

(** elements.py:211-214 *)
Definition propagate_paraxial (e : element) (yu : option v4) (n0 l : R) : option v4 * R :=
  let '(n, m) := paraxial_matrix e n0 l in
  (do m <- m; do yu <- yu; Some (mv4 m yu), n).

(** system.py:193-199 [refractive_index] for index >= 0: elements[index::-1], the
    first one that has a material *)
Fixpoint first_index (es : list element) (l : R) : R :=
  match es with
  | [] => 1
  | e :: es => match e_kind e with Sph (Some m) _ => m_index m l | _ => first_index es l end
  end.
(** system.py:193-199 [refractive_index] *)
Definition refractive_index (es : list element) (l : R) (index : nat) : R :=
  first_index (rev (firstn (S index) es)) l.
(** the same for index -1: elements[-1::-1] is the whole list reversed *)
Definition refractive_index_last (es : list element) (l : R) : R := first_index (rev es) l.

(** python slice [es[start:stop]] with non-negative bounds, [None] = to the end; system.py:402, 446 *)
Definition slice (es : list element) (start : nat) (stop : option nat) : list element :=
  match stop with
  | None => skipn start es
  | Some b => skipn start (firstn b es)
  end.

(** system.py:400-404 [paraxial_matrices] for given first index *)
Fixpoint matrices (es : list element) (n l : R) : list (R * option m4) :=
  match es with
  | [] => []
  | e :: es => let '(n, m) := paraxial_matrix e n l in (n, m) :: matrices es n l
  end.
(** system.py:400-404; start = 0 looks up index -1 *)
Definition paraxial_matrices (es : list element) (l : R) (start : nat) (stop : option nat) :=
  let n := match start with O => refractive_index_last es l | S i => refractive_index es l i end in
  matrices (slice es start stop) n l.
(** system.py:406-411 [paraxial_matrix] *)
Definition sys_matrix (es : list element) (l : R) (start : nat) (stop : option nat) : R * option m4 :=
  fold_left (fun '(_, m) '(n, mi) => (n, do m <- m; do mi <- mi; Some (mm4 mi m)))
    (paraxial_matrices es l start stop) (1, Some eye4).

(** system.py:444-447 [propagate_paraxial]: the yielded rays *)
Fixpoint sys_paraxial (es : list element) (yu : option v4) (n l : R) : list (option v4 * R) :=
  match es with
  | [] => []
  | e :: es => let '(yu, n) := propagate_paraxial e yu n l in (yu, n) :: sys_paraxial es yu n l
  end.
