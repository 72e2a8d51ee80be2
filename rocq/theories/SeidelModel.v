(** Third order and chromatic aberration coefficients: rayopt/elements.py:268-272, 317-320 and 556-586,
    paraxial_trace.py:94-107.  A coefficient row is [None] if one of its entries is not finite or an
    exception is raised. *)
From Coq Require Import Reals List Bool.
From Verif Require Import Base Vec PlacementModel ElementModel ParaxialModel ParaxTraceModel.
Import ListNotations.
Open Scope R_scope.

(** the seven columns of [self.c], elements.py:586 *)
Record coefs := Coefs { tsc : R; cc : R; tac : R; tpc : R; dc : R; tachc : R; tchc : R }.
(** [self.c[start - 1] = 0]: paraxial_trace.py:95 *)
Definition no_coefs : coefs := Coefs 0 0 0 0 0 0 0.

(** elements.py:557-562: fourth order departure from the sphere and vertex curvature; an empty list is false,
    unpacking a list of one term raises *)
Definition departure (s : surf) : option (R * R) :=
  let c := s_c s in
  let k := s_k s * c ^ 3 / 8 in
  match s_asph s with
  | None | Some [] => Some (k, c)
  | Some (a2 :: a4 :: _) => Some (k + (a4 - a2 / 4 * (4 * a2 ^ 2 + 6 * c * a2 + 3 * c ^ 2)), c + 2 * a2)
  | Some [_] => None
  end.

(** elements.py:556-586 [Spheroid.aberration]; pairs are (marginal, chief), u0 and u are index times slope
    before and after *)
Definition aberration (m : option material) (s : surf) (y u0 u : R * R) (n0 n v0 v : R) : option coefs :=
  do kc <- departure s;
  let '(k, c) := kc in
  let n := match m with Some m => if m_mirror m then - n else n | None => n end in
  do mu <- fdiv n0 n;
  do a0 <- fdiv (fst u0) n0; do a1 <- fdiv (snd u0) n0;
  let i0 := c * fst y + a0 in let i1 := c * snd y + a1 in
  let l := fst u * snd y - snd u * fst y in
  do b0 <- fdiv (fst u) n; do b1 <- fdiv (snd u) n;
  do f0 <- fdiv (/ 2 * fst y * n0 * (1 - mu)) l; do f1 <- fdiv (/ 2 * snd y * n0 * (1 - mu)) l;
  let s0 := f0 * (i0 + b0) in let s1 := f1 * (i1 + b1) in
  do w <- fdiv (4 * k * n * (1 - mu)) l;
  do p <- fdiv (- (mu - 1)) n0;
  do q0 <- fdiv (snd u ^ 2) (n ^ 2); do q1 <- fdiv (snd u0 ^ 2) (n0 ^ 2);
  do g0 <- fdiv (- fst y * i0) l; do g1 <- fdiv (- fst y * i1) l;
  Some (Coefs (s0 * i0 ^ 2 + w * fst y ^ 4)
              (s0 * i0 * i1 + w * fst y ^ 3 * snd y)
              (s0 * i1 ^ 2 + w * fst y ^ 2 * snd y ^ 2)
              (p * c * l / 2)
              (s1 * i0 * i1 + / 2 * (q0 - q1) + w * fst y * snd y ^ 3)
              (g0 * (v0 - mu * v)) (g1 * (v0 - mu * v))).

(** elements.py:268-272 (plain elements) and 556-586 *)
Definition element_aberration (e : element) (y u0 u : R * R) (n0 n v0 v : R) : option coefs :=
  match e_kind e with
  | Plain => Some no_coefs
  | Sph m s => aberration m s y u0 u n0 n v0 v
  end.
(** elements.py:271-272, 317-320 [dispersion], material.py:148-149 [delta_n] *)
Definition element_dispersion (e : element) (l1 l2 : R) : R :=
  match e_kind e with
  | Sph (Some m) _ => m_index m l1 - m_index m l2
  | _ => 0
  end.

(** paraxial_trace.py:98-102, the loop; [r0] is the row before, [v] the dispersion before *)
Fixpoint aberrations_from (l1 l2 : R) (es : list element) (r0 : prow) (rs : list prow) (v : R) : option (list coefs) :=
  match es, rs with
  | e :: es, r :: rs =>
      let v0 := v in
      let v := element_dispersion e l1 l2 in
      do x <- element_aberration e (ry r) (ru r0) (ru r) (rn r0) (rn r) v0 v;
      do xs <- aberrations_from l1 l2 es r rs v;
      Some (x :: xs)
  | _, _ => Some []
  end.
(** paraxial_trace.py:94-102 [aberrations] with start = 1: rows of [self.c]; [l1], [l2] are the shortest and
    the longest system wavelength *)
Definition aberrations (l1 l2 : R) (es : list element) (rs : list prow) : option (list coefs) :=
  match es, rs with
  | _ :: es, r0 :: rs => do xs <- aberrations_from l1 l2 es r0 rs 0; Some (no_coefs :: xs)
  | _, _ => None
  end.
(** [self.c*h]: paraxial_trace.py:107 *)
Definition scale_coefs (h : R) (x : coefs) : coefs :=
  Coefs (tsc x * h) (cc x * h) (tac x * h) (tpc x * h) (dc x * h) (tachc x * h) (tchc x * h).
(** paraxial_trace.py:104-107 [transverse3], with :114-117 [height]: the absolute chief ray height in the image *)
Definition transverse3 (rs : list prow) (xs : list coefs) : option (list coefs) :=
  do r <- back rs 1;
  Some (map (scale_coefs (Rabs (snd (ry r)))) xs).
