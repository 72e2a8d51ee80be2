(** Remaining quantities of the traces: restarts of a propagation, track length, eigenrays, the second focal length
    solve (paraxial_trace.py), beam classification and resizing (gaussian_trace.py), the cache of aimed pupils
    (system.py:585-593). *)
From Coq Require Import Reals List ZArith Bool.
From Verif Require Import Base Cx Vec RotModel PlacementModel ElementModel ParaxialModel PupilModel ParaxTraceModel
  GaussianModel LayoutModel CacheModel SampleModel.
Import ListNotations.
Open Scope R_scope.

(** paraxial_trace.py:110-112 [track_length]; [None]: IndexError *)
Definition track_length (s : list placement) : option R :=
  let t := track s in
  do k <- position (length t) (-2); do b <- nth_error t k; do a <- nth_error t 1; Some (b - a).

(** rows [start], [start + 1], ... are overwritten *)
Definition overwrite {A} (rows : list A) (start : nat) (new : list A) : list A :=
  firstn start rows ++ new ++ skipn (start + length new) rows.
(** gaussian_trace.py:72-79 [GaussianTrace.propagate] for [start] >= 1; a row is [qi], [n] *)
Definition gauss_propagate (es : list element) (l : R) (rows : list (option cm * R)) (start : nat) (stop : option nat)
  : option (list (option cm * R)) :=
  do r <- nth_error rows (start - 1);
  Some (overwrite rows start (sys_gaussian (slice es start stop) (fst r) (snd r) l)).
(** paraxial_trace.py:81-92 [ParaxialTrace.propagate] for [start] >= 1: both axes start with the values kept for one *)
Definition parax_propagate (axis : bool) (es : list element) (l : R) (rows : list prow) (start : nat) (stop : option nat)
  : option (list prow) :=
  do r <- nth_error rows (start - 1);
  let '(y, u) := (ry r, ru r) in
  do new <- ptrace_from axis l (slice es start stop) (V4 (fst y) (fst y) (fst u) (fst u)) (V4 (snd y) (snd y) (snd u) (snd u)) (rn r);
  Some (overwrite rows start new).

(** complex ray *)
Notation cray := (v4 * v4)%type.
Section Eig.
(** [np.linalg.eig]: eigenvalues with eigenvectors *)
Variable eig : m4 -> list (cx * cray).
(** paraxial_trace.py:207-211 [eigenrays] *)
Definition eigenrays (es : list element) (l : R) : option (list (cx * cray)) :=
  do m <- snd (sys_matrix es l 1 None); Some (eig m).
End Eig.

(** assignment [self.system[i].curvature = c] (for a plain element python just creates the attribute); paraxial_trace.py:305, 320 *)
Definition set_curvature (es : list element) (i : nat) (c : R) : option (list element) :=
  do e <- nth_error es i;
  Some (match e_kind e with
        | Plain => es
        | Sph m s => set_nth es i (El (e_place e) (e_radius e) (Sph m (Surf c (s_k s) (s_asph s) (s_alt s))))
        end).
(** paraxial_trace.py:307-320 [_focal_length_solve] for [i] >= 1 *)
Definition focal_length_solve_at (axis : bool) (l : R) (es : list element) (rs : list prow) (f : R) (i : option nat) : option (list element) :=
  let i := match i with None => (length es - 2)%nat | Some i => i end in
  do m0 <- snd (sys_matrix es l 1 (Some i));
  do m1 <- snd (sys_matrix es l i (Some (i + 1)%nat));
  do m2 <- snd (sys_matrix es l (i + 1) None);
  let '(_, _, a10, a11) := block axis m0 in
  let '(b00, b01, _, b11) := block axis m1 in
  let '(c00, _, c10, _) := block axis m2 in
  do r0 <- nth_error rs (i - 1); do r <- nth_error rs i;
  let n0 := rn r0 in let n := rn r in
  do p <- fdiv 1 (n0 * f);
  do c <- fdiv (- (p + a10 * b00 * c00 + a10 * b01 * c10 + a11 * b11 * c10)) (a11 * c00);
  do c <- fdiv c (n0 - n);
  set_curvature es i (c * n).

(** gaussian_trace.py:168-170 [diverging] per axis; [None]: the radius is infinite *)
Definition diverging (n : R) (axis : bool) (q : cm) : option bool :=
  do r <- curvature_radius n axis q; Some (if Rlt_dec 0 r then true else false).
(** gaussian_trace.py:172-174 [confined] per axis *)
Definition confined (n : R) (axis : bool) (q : cm) : option bool :=
  do z <- rayleigh_range n axis q; Some (if Rlt_dec 0 z then true else false).
(** gaussian_trace.py:180-181 [is_stigmatic] *)
Definition is_stigmatic (m : m4) : bool :=
  let '(a, b, c, d) := block false m in let '(a', b', c', d') := block true m in
  isclose a a' && isclose b b' && isclose c c' && isclose d d'.
(** gaussian_trace.py:252-255 [resize]; [None]: the assertion in [normal] fails or a spot is not finite *)
Fixpoint set_radii (waists : R) (es : list element) (ws : list R) : list element :=
  match es, ws with
  | e :: es, w :: ws => El (e_place e) (Some (w * waists)) (e_kind e) :: set_radii waists es ws
  | es, _ => es
  end.
(** gaussian_trace.py:252-255 [resize] *)
Definition gauss_resize (l scale waists : R) (es : list element) (rows : list (option cm * R)) : option (list element) :=
  do ws <- mapo (fun r => do q <- fst r; do s <- spot_radius_normal l scale q; let '(x, y, _) := s in Some (Rmax x y)) rows;
  match es with
  | [] => Some []
  | e :: es => Some (e :: set_radii waists es (tl ws))
  end.

(** * the cache of aimed pupils, system.py:585-593 *)
Notation pkey := (option R * option Z)%type.
(** equality of optional wavelengths in a cache key: system.py:585-593 *)
Definition oR_eqb (a b : option R) : bool :=
  match a, b with Some a, Some b => if Req_EM_T a b then true else false | None, None => true | _, _ => false end.
(** equality of optional stops in a cache key: system.py:585-593 *)
Definition oZ_eqb (a b : option Z) : bool :=
  match a, b with Some a, Some b => Z.eqb a b | None, None => true | _, _ => false end.
(** equality of cache keys: system.py:585-593 *)
Definition pkey_eqb (a b : pkey) : bool := oR_eqb (fst a) (fst b) && oZ_eqb (snd a) (snd b).
Section Pupils.
(** [K]: further keyword arguments; [Sys]: everything else the aiming depends on (elements, object, wavelengths) *)
Variables K Sys : Type.
(** [_aim_pupil] of a system for wavelength, stop and keywords *)
Variable aim : Sys -> pkey -> K -> key -> option arr -> option arr * arr.
(** [_pupil_cache]: the keywords are stored in the PolarCacheND made at first use; the solver is a bound method,
    it sees the system as it is when it is called; system.py:67, 585-593 *)
Record pst := Pst { p_sys : Sys; p_cache : list (pkey * (K * cst)) }.
(** [self._pupil_cache[k]]: system.py:585-593 *)
Fixpoint pfind (c : list (pkey * (K * cst))) (k : pkey) : option (K * cst) :=
  match c with [] => None | (k', v) :: c => if pkey_eqb k k' then Some v else pfind c k end.
(** [self._pupil_cache[k] = v]: system.py:585-593 *)
Fixpoint pset (c : list (pkey * (K * cst))) (k : pkey) (v : K * cst) : list (pkey * (K * cst)) :=
  match c with [] => [(k, v)] | (k', w) :: c => if pkey_eqb k k' then (k', v) :: c else (k', w) :: pset c k v end.
(** system.py:585-593 [pupil] before the final reshape *)
Definition pupil (s : pst) (yo : key) (k : pkey) (kw : K) : option arr * pst :=
  let '(kw, c) := match pfind (p_cache s) k with Some v => v | None => (kw, new None) end in
  let '(q, c) := ccall (aim (p_sys s) k kw) c yo in
  (q, Pst (p_sys s) (pset (p_cache s) k (kw, c))).
(** [PChange]: attributes of the system are assigned; [PUpdate f]: [update] (system.py:201-202) forgets the pupils
    and then changes the system (pickups, solves, conjugates: [f]) *)
Inductive pevent := PPupil (yo : key) (k : pkey) (kw : K) | PChange (f : Sys -> Sys) | PUpdate (f : Sys -> Sys).
(** a history: system at the time, request and answer of each call; system.py:201-202, 585-593 *)
Fixpoint phistory (s : pst) (es : list pevent) : list (Sys * (key * pkey * K) * option arr) * pst :=
  match es with
  | [] => ([], s)
  | PPupil yo k kw :: es => let '(q, s') := pupil s yo k kw in let '(l, s'') := phistory s' es in ((p_sys s, (yo, k, kw), q) :: l, s'')
  | PChange f :: es => phistory (Pst (f (p_sys s)) (p_cache s)) es
  | PUpdate f :: es => phistory (Pst (f (p_sys s)) []) es
  end.
End Pupils.
