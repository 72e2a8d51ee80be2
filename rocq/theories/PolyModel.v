(** Polynomial ray trace.
    Modelled: rayopt/elements.py:238-253 [transfer_poly], [Element.intercept_poly]; :384-413
    [Interface.propagate_poly]; :589-620 [Spheroid.intercept_poly]; rayopt/system.py:454-457 [propagate_poly];
    rayopt/poly_trace.py:57-127 [allocate], [telecentric], [rays], [propagate], [transform], [st], [evaluate].  Coefficient vectors are lists of reals, see SimplexModel. *)
From Coq Require Import Reals List Arith ZArith.
From Verif Require Import Base Vec RotModel PlacementModel ElementModel SimplexModel SimplexPowModel PupilModel.
Import ListNotations.
Open Scope R_scope.

Section Poly.
(** the Simplex class: multiplication table, truncation order, number of coefficients
    (simplex.py:131-133) *)
Variable abi : list row.
Variable m : nat.
Variable q : nat.

(** [S()]; simplex.py:140-146 *)
Definition pzero : list R := repeat 0 q.
(** numpy arithmetic inherited by Simplex, and the overloaded product and power (simplex.py:148-165) *)
Definition pneg (a : list R) : list R := map Ropp a.
(** difference of coefficient vectors (numpy, simplex.py:110) *)
Definition psub (a b : list R) : list R := map (fun x => fst x - snd x) (combine a b).
(** simplex.py:154-159 [__mul__] *)
Definition pmul (a b : list R) : list R := rmul abi a b.
(** simplex.py:161-165 [__pow__] *)
Definition ppow (a : list R) (x : R) : option (list R) := simplex_pow abi m a x.
(** simplex.py:167-174 [shift] *)
Definition pshift (a : list R) (x : R) : list R := shift R Rplus a x.
(** division by a number (numpy, simplex.py:110) *)
Definition pdiv (a : list R) (x : R) : list R := map (fun v => v / x) a.

(** poly_trace.py:28 [PolyState] *)
Record pstate := PS { ps_f : list R; ps_n : R; ps_r : list R; ps_p : list R; ps_k : list R;
  ps_s : list R; ps_t : list R; ps_v : list R; ps_w : list R; ps_o : list R }.

(** elements.py:238-243 *)
Definition transfer_poly (off : R) (st : pstate) : list R * list R * list R :=
  let fd := pshift (pneg (ps_f st)) off in
  let fdp := pmul fd (ps_p st) in
  let r := rvadd (ps_r st) (pmul fd (rvadd (rvscale 2 (ps_k st)) fdp)) in
  let k := rvadd (ps_k st) fdp in
  (fd, r, k).

(** elements.py:245-250 *)
Definition plane_intercept_poly (r : list R) : list R * list R * list R * list R :=
  (r, pzero, pzero, pshift pzero 1).
(** elements.py:596-604; the radius [r] returned is the squared radius times u^2 *)
Definition sphere_intercept_poly (u : R) (r p k : list R) : option (list R * list R * list R * list R) :=
  let p1 := pshift p 1 in
  let a := pshift (rvscale (- u) k) 1 in
  do w <- ppow (psub (pmul a a) (rvscale (u ^ 2) (pmul p1 r))) (/ 2);
  let a := psub a w in
  do p1i <- ppow p1 (-1);
  let a := pmul a p1i in
  let f := pdiv a u in
  let r := pmul a (pshift (pneg a) 2) in
  let g := pshift (pneg a) 1 in
  do gi <- ppow g (-1);
  let fr := rvscale (/ 2 * u) gi in
  Some (r, f, fr, g).
(** elements.py:609-612: [df = S(); for uj in reversed(u): df = df.shift(uj*sign)*r] *)
Definition asph_df (sg : R) (l : list R) (r : list R) : list R :=
  fold_left (fun df uj => pmul (pshift df (uj * sg)) r) (rev l) pzero.
(** elements.py:608-614, [n] rounds; keeps [r] and the last [df] *)
Fixpoint asph_rounds (sg : R) (l : list R) (r0 p k : list R) (n : nat) (r df : list R) : list R * list R :=
  match n with
  | O => (r, df)
  | S n =>
      let df := asph_df sg l r in
      let r := rvadd r0 (pmul df (rvadd (rvscale 2 k) (pmul df p))) in
      asph_rounds sg l r0 p k n r df
  end.
(** elements.py:615-617 *)
Definition asph_dfr (sg : R) (l : list R) (r : list R) : list R :=
  fold_left (fun dfr '(i, ui) => pshift (pmul dfr r) ((INR i + 1) * ui * sg)) (rev (combine (seq 0 (length l)) l)) pzero.
(** elements.py:589-620; [off] is [self.offset[2]]; the conic constant and the alternate intersection are
    not looked at *)
Definition intercept_poly (s : surf) (off : R) (r p k : list R) : option (list R * list R * list R * list R) :=
  let u := s_c s * sign off in
  do (r, f, fr, g) <- (if Req_EM_T u 0 then Some (plane_intercept_poly r) else sphere_intercept_poly u r p k);
  match s_asph s with
  | None | Some [] => Some (r, f, fr, g)
  | Some l =>
      let '(r, df) := asph_rounds (sign off) l r p k (length l) r pzero in
      let dfr := asph_dfr (sign off) l r in
      do g <- ppow (pshift (pmul (pmul (rvscale 4 r) dfr) dfr) 1) (- / 2);
      Some (r, rvadd f df, rvadd fr dfr, g)
  end.

(** elements.py:384-413; a plain element raises NotImplementedError (elements.py:252-253) *)
Definition propagate_poly (e : element) (l : R) (st : pstate) : option pstate :=
  match e_kind e with
  | Plain => None
  | Sph mat s =>
      let off := vz (p_offset (e_place e)) in
      let '(fd, rt, kt) := transfer_poly off st in
      do (_, f, fr, g) <- intercept_poly s off rt (ps_p st) kt;
      let '(n, mu) := get_n_mu mat (ps_n st) l in
      do mu <- mu;
      let p1 := pshift (ps_p st) 1 in
      do p1rs <- ppow p1 (- / 2);
      let mun := rvscale mu p1rs in
      let ct := pmul (pmul g mun) (pshift (pmul (rvscale (-2) (rvadd kt (pmul f (ps_p st)))) fr) 1) in
      do w <- ppow (pshift (pmul ct ct) (1 - mu ^ 2)) (/ 2);
      let gdct := pmul g (psub w ct) in
      do n1i <- ppow (rvadd mun gdct) (-1);
      let a := rvadd f fd in
      let b := pmul (pmul (rvscale (-2) n1i) gdct) fr in
      let c := pmul mun n1i in
      let ap := pmul a (ps_p st) in
      let r := rvadd (ps_r st) (pmul a (rvadd (rvscale 2 (ps_k st)) ap)) in
      let p := pshift (pmul n1i n1i) (-1) in
      let k := rvadd (pmul b r) (pmul c (rvadd (ps_k st) ap)) in
      let s := rvadd (ps_s st) (pmul a (ps_v st)) in
      let t := rvadd (ps_t st) (pmul a (ps_w st)) in
      let v := rvadd (pmul b s) (pmul c (ps_v st)) in
      let w := rvadd (pmul b t) (pmul c (ps_w st)) in
      do p1s <- ppow p1 (/ 2);
      let o := rvadd (ps_o st) (pmul (rvscale (ps_n st) a) p1s) in
      Some (PS f n r p k s t v w o)
  end.
(** system.py:454-457: the states after each element *)
Fixpoint poly_from (es : list element) (l : R) (st : pstate) : option (list pstate) :=
  match es with
  | [] => Some []
  | e :: es => do st' <- propagate_poly e l st; do rest <- poly_from es l st'; Some (st' :: rest)
  end.

(** poly_trace.py:72-83; [pos] is zero or the distance of the entrance pupil.  Fewer than four
    coefficients: IndexError *)
Definition poly_rays (pos n : R) : option pstate :=
  if (q <? 4)%nat then None else
  Some (PS (pshift pzero pos) n (upd 1 1 pzero) (upd 2 1 pzero) (upd 3 1 pzero)
           (pshift pzero 1) pzero pzero (pshift pzero 1) pzero).
(** poly_trace.py:49-56, 85-95: [stvwof] of all elements *)
Definition poly_trace (es : list element) (l pos n : R) : option (list pstate) :=
  do st <- poly_rays pos n;
  do rest <- poly_from (tl es) l st;
  Some (st :: rest).

(** poly_trace.py:125-138 [evaluate] at the element with state [st], object at infinity with
    half angle [angle] and entrance pupil radius [rad]; one pair of points; [jdx]: Simplex.j *)
Definition poly_evaluate (jdx : list (list nat)) (st : pstate) (rad angle : R) (x y a b : R) : option (R * R) :=
  let x := x * rad in let y := y * rad in
  let a := a * angle in let b := b * angle in
  let arg := [x ^ 2 + y ^ 2; a ^ 2 + b ^ 2; x * a + y * b] in
  do s <- simplex_eval R 0 Rplus Rmult jdx (ps_s st) arg;
  do t <- simplex_eval R 0 Rplus Rmult jdx (ps_t st) arg;
  Some (s * x + t * a, s * y + t * b).

(** poly_trace.py:64-70, 74-77: where the bundle starts; [None] = division by a zero distance *)
Definition poly_start (c : conjugate) : option R :=
  let p := cj_pupil c in
  do tele <- (if cj_finite c then
                if pu_telecentric p then Some true
                else do a <- pupil_slope p; do b <- conj_slope c; Some (if Rlt_dec (Rabs b) (Rabs a) then true else false)
              else Some false);
  Some (if tele : bool then 0 else pu_distance p).
(** poly_trace.py:97-113; [idx], [jdx]: Simplex.i, Simplex.j; [fuel]: see SimplexModel *)
Definition poly_transform (fuel : nat) (idx : itable) (jdx : list (list nat)) (c : conjugate) (st : pstate) : option (list R * list R) :=
  let p := cj_pupil c in
  do r <- pupil_radius p;
  do a <- pupil_slope p;
  do c' <- conj_slope c;
  let tele := if Rlt_dec (Rabs c') (Rabs a) then true else false in
  let '(r, a, c) := if tele then (- cj_val c, c', a) else (r, a, c') in
  let t := [[r ^ 2; 0; 0]; [a ^ 2; c ^ 2; 2 * a * c]; [r * a; 0; r * c]] in
  do bs <- simplex_transform R 0 1 Rplus Rmult fuel idx jdx (rvadd (rvscale r (ps_s st)) (rvscale a (ps_t st))) t;
  do bt <- simplex_transform R 0 1 Rplus Rmult fuel idx jdx (rvadd (rvscale 0 (ps_s st)) (rvscale c (ps_t st))) t;
  if tele then
    let ii := map (fun e => idx [nth 1 e O; nth 0 e O; nth 2 e O]) jdx in
    Some (map (fun i => nth i bt 0) ii, map (fun i => nth i bs 0) ii)
  else Some (bs, bt).
(** poly_trace.py:125-138 for a finite object *)
Definition poly_evaluate_finite (fuel : nat) (idx : itable) (jdx : list (list nat)) (c : conjugate) (st : pstate) (x y a b : R) : option (R * R) :=
  let arg := [x ^ 2 + y ^ 2; a ^ 2 + b ^ 2; x * a + y * b] in
  do (bs, bt) <- poly_transform fuel idx jdx c st;
  do s <- simplex_eval R 0 Rplus Rmult jdx bs arg;
  do t <- simplex_eval R 0 Rplus Rmult jdx bt arg;
  Some (s * x + t * a, s * y + t * b).
End Poly.
