(** Model of dispersion: material.py:54-76 (Thermal), 126-330 (materials), and the least
    recently used cache (fastcache clru_cache, maxsize 1024) in front of [refractive_index]. *)
From Coq Require Import Reals List Arith Bool.
From Verif Require Import Base SampleModel.
Import ListNotations.
Open Scope R_scope.

(** ** numpy helpers; [sum] of an array with NaN: material.py:249-315 *)
Definition osum (l : list (option R)) : option R :=
  fold_right (fun a r => do x <- a; do y <- r; Some (x + y)) (Some 0) l.
(** [c.reshape(-1, 2)] rows; an odd number of entries raises *)
Fixpoint pairs (c : list R) : option (list (R * R)) :=
  match c with [] => Some [] | [_] => None | a :: b :: c => do r <- pairs c; Some ((a, b) :: r) end.
(** [c.reshape(2, -1)]: the two rows zipped *)
Definition halves (c : list R) : option (list (R * R)) :=
  let k := (length c / 2)%nat in
  if (length c mod 2 =? 0)%nat then Some (combine (firstn k c) (skipn k c)) else None.
(** [c[1:1 + (c.shape[0] - 1)//2*2]] *)
Definition even_tail (c : list R) : list R := firstn ((length c - 1) / 2 * 2) (tl c).
(** [c[i]], IndexError outside: material.py:241-322 *)
Definition item (c : list R) (i : nat) : option R := nth_error c i.
(** [sum(ci*w**(-2*(i + 1)) for i, ci in enumerate(l))] added to n *)
Definition inverse_powers (n w : R) (l : list R) : option R :=
  do s <- osum (map (fun ic => do q <- fdiv (snd ic) (w ^ (2 * (fst ic + 1))); Some q) (combine (seq 0 (length l)) l));
  Some (n + s).

(** ** dispersion formulas, material.py:237-322; w is the wavelength in micrometres *)
Definition n_schott (w : R) (c : list R) : option R :=
  do c0 <- item c 0; do c1 <- item c 1;
  do n <- inverse_powers (c0 + c1 * w ^ 2) w (skipn 2 c); fsqrt n.
(** the common sum of material.py:249, 254, 259, 271, 276; [f] is what is done to the second coefficient *)
Definition sellmeier_terms (w2 : R) (f : R -> R) (l : list (R * R)) : option R :=
  osum (map (fun b => fdiv (fst b * w2) (w2 - f (snd b))) l).
(** material.py:246-249 *)
Definition n_sellmeier (w : R) (c : list R) : option R :=
  do l <- pairs c; do s <- sellmeier_terms (w ^ 2) (fun x => x ^ 2) l; fsqrt (1 + s).
(** material.py:251-254 *)
Definition n_sellmeier_squared (w : R) (c : list R) : option R :=
  do l <- pairs c; do s <- sellmeier_terms (w ^ 2) (fun x => x) l; fsqrt (1 + s).
(** material.py:256-259 *)
Definition n_sellmeier_squared_transposed (w : R) (c : list R) : option R :=
  do l <- halves c; do s <- sellmeier_terms (w ^ 2) (fun x => x) l; fsqrt (1 + s).
(** material.py:261-262 *)
Definition n_conrady (w : R) (c : list R) : option R :=
  do c0 <- item c 0; do c1 <- item c 1; do c2 <- item c 2;
  do q1 <- fdiv c1 w; do p <- cpow w (7 / 2); do q2 <- fdiv c2 p; Some (c0 + q1 + q2).
(** material.py:264-266 *)
Definition n_herzberger (w : R) (c : list R) : option R :=
  do l <- fdiv 1 (w ^ 2 - 28 / 1000);
  do c0 <- item c 0; do c1 <- item c 1; do c2 <- item c 2; do c3 <- item c 3; do c4 <- item c 4; do c5 <- item c 5;
  Some (c0 + c1 * l + c2 * l ^ 2 + c3 * w ^ 2 + c4 * w ^ 4 + c5 * w ^ 6).
(** material.py:268-271 *)
Definition n_sellmeier_offset (w : R) (c : list R) : option R :=
  do l <- pairs (even_tail c); do c0 <- item c 0;
  do s <- sellmeier_terms (w ^ 2) (fun x => x ^ 2) l; fsqrt (1 + c0 + s).
(** material.py:273-276 *)
Definition n_sellmeier_squared_offset (w : R) (c : list R) : option R :=
  do l <- pairs (even_tail c); do c0 <- item c 0;
  do s <- sellmeier_terms (w ^ 2) (fun x => x) l; fsqrt (1 + c0 + s).
(** material.py:278-279 *)
Definition n_handbook_of_optics1 (w : R) (c : list R) : option R :=
  do c0 <- item c 0; do c1 <- item c 1; do c2 <- item c 2; do c3 <- item c 3;
  do q <- fdiv c1 (w ^ 2 - c2); fsqrt (c0 + q - c3 * w ^ 2).
(** material.py:281-282 *)
Definition n_handbook_of_optics2 (w : R) (c : list R) : option R :=
  do c0 <- item c 0; do c1 <- item c 1; do c2 <- item c 2; do c3 <- item c 3;
  do q <- fdiv (c1 * w ^ 2) (w ^ 2 - c2); fsqrt (c0 + q - c3 * w ^ 2).
(** material.py:284-288 *)
Definition n_extended2 (w : R) (c : list R) : option R :=
  do c0 <- item c 0; do c1 <- item c 1; do c6 <- item c 6; do c7 <- item c 7;
  do n <- inverse_powers (c0 + c1 * w ^ 2 + c6 * w ^ 4 + c7 * w ^ 6) w (firstn 4 (skipn 2 c)); fsqrt n.
(** material.py:290-294 *)
Definition n_hikari (w : R) (c : list R) : option R :=
  do c0 <- item c 0; do c1 <- item c 1; do c2 <- item c 2;
  do n <- inverse_powers (c0 + c1 * w ^ 2 + c2 * w ^ 4) w (skipn 3 c); fsqrt n.
(** material.py:296-298 *)
Definition n_gas (w : R) (c : list R) : option R :=
  do l <- halves c; do v <- fdiv 1 (w ^ 2);
  do s <- osum (map (fun b => fdiv (fst b) (snd b - v)) l); Some (1 + s).
(** material.py:300-301 *)
Definition n_gas_offset (w : R) (c : list R) : option R :=
  do c0 <- item c 0; do g <- n_gas w (tl c); Some (c0 + g).
(** [(c0*w**c1).sum()]: material.py:306, 315 *)
Definition powers (w : R) (l : list (R * R)) : option R :=
  osum (map (fun b => do p <- cpow w (snd b); Some (fst b * p)) l).
(** material.py:303-306 *)
Definition n_refractiveindex_info (w : R) (c : list R) : option R :=
  do l <- pairs (skipn 9 c);
  do c0 <- item c 0; do c1 <- item c 1; do c2 <- item c 2; do c3 <- item c 3; do c4 <- item c 4;
  do c5 <- item c 5; do c6 <- item c 6; do c7 <- item c 7; do c8 <- item c 8;
  do p2 <- cpow w c2; do p4 <- cpow c3 c4; do q1 <- fdiv (c1 * p2) (w ^ 2 - p4);
  do p6 <- cpow w c6; do p8 <- cpow c7 c8; do q2 <- fdiv (c5 * p6) (w ^ 2 - p8);
  do s <- powers w l; fsqrt (c0 + q1 + q2 + s).
(** material.py:308-311 *)
Definition n_retro (w : R) (c : list R) : option R :=
  do c0 <- item c 0; do c1 <- item c 1; do c2 <- item c 2; do c3 <- item c 3;
  do q <- fdiv (c1 * w ^ 2) (w ^ 2 - c2);
  do i <- fdiv 1 (c0 + q + c3 * w ^ 2 - 1); fsqrt (2 + i).
(** material.py:313-315 *)
Definition n_cauchy (w : R) (c : list R) : option R :=
  do l <- pairs (tl c); do c0 <- item c 0; do s <- powers w l; Some (c0 + s).
(** material.py:317-318 *)
Definition n_polynomial (w : R) (c : list R) : option R := do n <- n_cauchy w c; fsqrt n.
(** material.py:320-322 *)
Definition n_exotic (w : R) (c : list R) : option R :=
  do c0 <- item c 0; do c1 <- item c 1; do c2 <- item c 2; do c3 <- item c 3; do c4 <- item c 4; do c5 <- item c 5;
  do q1 <- fdiv c1 (w ^ 2 - c2); do q2 <- fdiv (c3 * (w - c4)) ((w - c4) ^ 2 + c5);
  fsqrt (c0 + q1 + q2).

(** material.py:229-235 [CoefficientsMaterial.refractive_index], without the cache; [formula] is
    the method selected by [typ], [w] in metres *)
Definition coefficients_index (formula : R -> list R -> option R) (mirror : bool) (c : list R) (w : R) : option R :=
  do n <- formula (w / (1 / 1000000)) c; Some (if mirror then - n else n).
(** material.py:334-336 [air] *)
Definition air_index : R -> option R :=
  coefficients_index n_gas false [5792105 / 100000000; 167917 / 100000000; 2380185 / 10000; 57362 / 1000].

(** ** Abbe materials *)
(** material.py:173-182; [am_v] None: infinite *)
Record abbe := AbbeMat { am_n : R; am_v : option R; am_ref : R; am_long : R; am_short : R }.
(** material.py:209-213 [AbbeMaterial.refractive_index], without the cache *)
Definition abbe_index (m : abbe) (wavelength : R) : option R :=
  do q <- fdiv (wavelength - am_ref m) (am_long m - am_short m);
  match am_v m with
  | None => Some (am_n m)
  | Some v => do d <- fdiv (q * (1 - am_n m)) v; Some (am_n m + d)
  end.
(** material.py:141-157 [dispersion], [delta_n], [nd], [vd] for an index function; the
    value None inside is infinity, returned if the indices agree *)
Definition delta_n (index : R -> option R) (short long : R) : option R :=
  do a <- index short; do b <- index long; Some (a - b).
(** material.py:141-146 [dispersion]; inner [None]: infinite *)
Definition dispersion (index : R -> option R) (short mid long : R) : option (option R) :=
  do dn <- delta_n index short long;
  if Req_EM_T dn 0 then Some None else do n <- index mid; do v <- fdiv (n - 1) dn; Some (Some v).
(** material.py:38, 49 *)
Definition lambda_d : R := 58756 / 100000000000.
(** material.py:41, 50 *)
Definition lambda_C : R := 65627 / 100000000000.
(** material.py:36, 48 *)
Definition lambda_F : R := 48613 / 100000000000.
(** material.py:151-153 [nd] *)
Definition nd (index : R -> option R) : option R := index lambda_d.
(** material.py:155-157 [vd] *)
Definition vd (index : R -> option R) : option (option R) := dispersion index lambda_F lambda_d lambda_C.

(** ** Thermal, material.py:54-76 *)
Record thermal := Thermal { th_d0 : R; th_d1 : R; th_d2 : R; th_e0 : R; th_e1 : R; th_tref : R; th_lref : R }.
(** material.py:61-72 [dn_thermal] *)
Definition dn_thermal (h : thermal) (t n : R) (wavelength : option R) : option R :=
  let dt := t - th_tref h in
  let w := match wavelength with None => th_lref h | Some l => l / (1 / 1000000) end in
  do a <- fdiv (n ^ 2 - 1) (2 * n);
  do b <- fdiv (th_e0 h * dt + th_e1 h * dt ^ 2) (w ^ 2 - th_lref h ^ 2);
  Some (a * (th_d0 h * dt + th_d1 h * dt ^ 2 + th_d2 h * dt ^ 3 + b)).

(** ** the cache: one per class, shared by all its instances *)
Section Cache.
Variable param : Type.                        (* attributes of a material *)
Variable formula : param -> R -> option R.    (* the decorated function *)
(** entries (instance, wavelength, value), most recently used first; material.py:201, 229 [clru_cache(maxsize=1024)] *)
Definition cache := list (nat * R * option R).
(** equality of cache keys (instance, wavelength): material.py:201, 229 *)
Definition same (a : nat) (x : R) (e : nat * R * option R) : bool :=
  let '(b, y, _) := e in (a =? b)%nat && if Req_EM_T x y then true else false.
(** position-preserving removal of the entry of a key; material.py:201, 229 *)
Fixpoint take_out (a : nat) (x : R) (c : cache) : option (option R * cache) :=
  match c with
  | [] => None
  | e :: c => if same a x e then Some (snd e, c)
              else match take_out a x c with Some (v, r) => Some (v, e :: r) | None => None end
  end.
Variable maxsize : nat.
(** a call: cached value, moved to the front; or computed, entered and the least recently
    used one dropped; material.py:201, 229 *)
Definition call (store : nat -> param) (c : cache) (a : nat) (x : R) : option R * cache :=
  match take_out a x c with
  | Some (v, r) => (v, (a, x, v) :: r)
  | None => let v := formula (store a) x in (v, firstn maxsize ((a, x, v) :: c))
  end.
(** histories of queries and attribute changes; material.py:201-235 *)
Inductive event := Query (a : nat) (x : R) | Modify (a : nat) (p : param).
(** assignment to attributes of one material: material.py:177-185, 222-227 *)
Definition set_param (store : nat -> param) (a : nat) (p : param) : nat -> param :=
  fun b => if (b =? a)%nat then p else store b.
(** a history of calls of material.py:201-235 and of assignments in between, with what the calls return *)
Fixpoint run (l : list event) (store : nat -> param) (c : cache) : list (option R) * ((nat -> param) * cache) :=
  match l with
  | [] => ([], (store, c))
  | Query a x :: l => let '(v, c) := call store c a x in let '(vs, e) := run l store c in (v :: vs, e)
  | Modify a p :: l => run l (set_param store a p) c
  end.
End Cache.
