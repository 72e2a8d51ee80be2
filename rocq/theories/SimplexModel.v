(** Model of the truncated multinomial arithmetic
    (/repo/rayopt/simplex.py and /repo/rayopt/simplex_accel.pyx).

    Coefficient vectors ([double[::1]]) are lists over an arbitrary commutative
    ring [K]; rounding is not modelled.  [unsigned short] tables are modelled
    with wrap-around where they are filled ([u16]).  C [int] temporaries are
    unbounded naturals. *)
From Coq Require Import List Arith ZArith Lia Bool.
Import ListNotations.

(** unsigned short conversion (np.uint16 stores): simplex.py:82-86, 98-103;
    simplex_accel.pyx:133-145.  Wrap-around modulo 2^16. *)
Definition u16 (n : nat) : nat := Z.to_nat (Z.of_nat n mod 65536).

(** simplex.py:53-61 [simplex_iter].  The generator is the list of the yielded
    tuples; [i - sum(j)] is a natural subtraction, never truncated because
    [sum j <= i] (proved as [simplex_iter_sum]). *)
Fixpoint simplex_iter (d m : nat) : list (list nat) :=
  match d with
  | O => [[]]
  | S d' =>
      flat_map (fun i =>
                  map (fun j => (i - list_sum j) :: j)
                      (simplex_iter d' (i + 1)))
               (seq 0 m)
  end.

(** simplex.py:64-71 [simplex_size]: the loop accumulates [n], [p]. *)
Definition simplex_size (d m : nat) : nat :=
  let '(n, p) := fold_left (fun '(n, p) i => (n * (m + i), p * (i + 1)))
                           (seq 0 d) (1, 1) in
  n / p.

(** Index table from exponent tuples to slots: an array of shape (m,)*d,
    initialised with zeros (simplex.py:82). *)
Definition itable := list nat -> nat.
(** [np.zeros] of the index array: simplex.py:82 *)
Definition izero : itable := fun _ => 0.
(** simplex.py:85 [idx[i] = j] *)
Definition iset (t : itable) (e : list nat) (v : nat) : itable :=
  fun e' => if list_eq_dec Nat.eq_dec e e' then v else t e'.

(** simplex.py:84-86: the enumerate loop filling both tables. *)
Fixpoint enum_loop (j : nat) (es : list (list nat)) (idx : itable)
         (jdx : list (list nat)) : itable * list (list nat) :=
  match es with
  | [] => (idx, jdx)
  | e :: es' => enum_loop (S j) es' (iset idx e (u16 j)) (jdx ++ [map u16 e])
  end.

(** simplex.py:74-88 [simplex_enum].  [None]: the preallocated [jdx] is too
    short (IndexError), the final assertion fails, or the loop is empty
    (NameError on [j]). *)
Definition simplex_enum (d m : nat) : option (itable * list (list nat)) :=
  let es := simplex_iter d m in
  if Nat.eqb (length es) 0 then None
  else if Nat.eqb (length es) (simplex_size d m)
       then Some (enum_loop 0 es izero [])
       else None.

(** [pq[0::2]] and [pq[1::2]], simplex.py:100 *)
Fixpoint evens (l : list nat) : list nat :=
  match l with
  | [] => []
  | [x] => [x]
  | x :: _ :: l' => x :: evens l'
  end.
(** [pq[1::2]]: simplex.py:100 *)
Definition odds (l : list nat) : list nat := evens (tl l).

(** simplex.py:101 [tuple(pi + qi for pi, qi in zip(p, q))] *)
Definition zip_add (p q : list nat) : list nat :=
  map (fun x => fst x + snd x) (combine p q).

(** One row of [abi] is the list of the factor pairs written to it so far; the
    entry [abi[l, 0, 0]] is its length. *)
Notation row := (list (nat * nat)) (only parsing).

(** simplex.py:95-97: the row capacity. *)
Definition idx_capacity (m : nat) : nat :=
  let a := (m - 1) / 3 in
  let b := (m - a - 1) / 2 in
  (a + 1) * (b + 1) * (m - a - b).

(** replace the [n]-th element; simplex.py:102-103 *)
Fixpoint upd {A} (n : nat) (x : A) (l : list A) : list A :=
  match l, n with
  | [], _ => []
  | _ :: l', O => x :: l'
  | y :: l', S n' => y :: upd n' x l'
  end.

(** simplex.py:99-103: the loop body; [None] is the IndexError raised when the
    row is full (or does not exist). *)
Definition idx_step (idx : itable) (cap : nat) (abi : option (list row))
           (pq : list nat) : option (list row) :=
  match abi with
  | None => None
  | Some abi =>
      let p := evens pq in
      let q := odds pq in
      let l := idx (zip_add p q) in
      match nth_error abi l with
      | None => None
      | Some r => if Nat.ltb (length r) cap
                  then Some (upd l (r ++ [(idx p, idx q)]) abi)
                  else None
      end
  end.

(** simplex.py:91-106 [simplex_idx].  [None] is any exception, including the
    assertion [maxl == abi.shape[1] - 1]. *)
Definition simplex_idx (d m : nat)
  : option (itable * list (list nat) * list row) :=
  match simplex_enum d m with
  | None => None
  | Some (idx, jdx) =>
      let cap := idx_capacity m in
      match fold_left (idx_step idx cap) (simplex_iter (2 * d) m)
                      (Some (repeat [] (length jdx))) with
      | None => None
      | Some abi =>
          if Nat.eqb (list_max (map (@length _) abi)) cap
          then Some (idx, jdx, abi) else None
      end
  end.

Section Arith.
  Variable K : Type.
  Variables (k0 k1 : K) (kadd kmul : K -> K -> K).

  (** simplex_accel.pyx:28-46 [simplex_mul_i], [simplex_mul].  The outer loop
      runs over the slots, the inner loop over the pairs in the row.  Array
      reads out of range (unchecked in the C code) read zero here; all theorems
      assume vectors of the right length. *)
  Definition simplex_mul (abi : list row) (a b : list K) : list K :=
    map (fun r : row =>
           fold_left (fun c pq => kadd c (kmul (nth (fst pq) a k0)
                                               (nth (snd pq) b k0)))
                     r k0) abi.

  (** elementwise array addition (numpy ndarray [+], inherited by Simplex); simplex.py:110 *)
  Definition vadd (a b : list K) : list K :=
    map (fun x => kadd (fst x) (snd x)) (combine a b).
  (** scalar times array, simplex.py:159 *)
  Definition vscale (s : K) (a : list K) : list K := map (kmul s) a.
  (** simplex.py:167-174 [shift] *)
  Definition shift (a : list K) (s : K) : list K :=
    match a with [] => [] | x :: l => kadd x s :: l end.

  (** simplex_accel.pyx:84-88: the power table of one coordinate:
      [xp[0] = x; for j in range(1, n): xp[j] = xp[j-1]*x], a buffer of [n]
      entries. [None]: the unconditional write [xp[k, i, 0]] is outside the
      buffer (n = 0), undefined behaviour in the C code. *)
  Fixpoint powers_from (x cur : K) (n : nat) : list K :=
    match n with
    | O => []
    | S n' => cur :: powers_from x (kmul cur x) n'
    end.
  (** simplex_accel.pyx:84-88: the table of one coordinate *)
  Definition power_table (x : K) (n : nat) : option (list K) :=
    match n with O => None | S _ => Some (powers_from x x n) end.

  (** simplex_accel.pyx:92-94: the inner product loop; a read beyond the power
      table is [None]. *)
  Fixpoint eval_mono (xps : list (list K)) (e : list nat) (yi : K) : option K :=
    match e with
    | [] => Some yi
    | j :: e' =>
        match xps with
        | [] => None
        | xp :: xps' =>
            match j with
            | O => eval_mono xps' e' yi
            | S j' => match nth_error xp j' with
                      | None => None
                      | Some v => eval_mono xps' e' (kmul yi v)
                      end
            end
        end
    end.

  (** simplex_accel.pyx:92-94: reads beyond the table are outside the model *)
  Fixpoint all_some {A} (l : list (option A)) : option (list A) :=
    match l with
    | [] => Some []
    | None :: _ => None
    | Some x :: l' => match all_some l' with None => None | Some r => Some (x :: r) end
    end.

  (** simplex_accel.pyx:75-96 [simplex_eval] at one evaluation point [x] (a
      list of [d] coordinates), with power table size [n]. *)
  Definition simplex_eval_n (n : nat) (jdx : list (list nat)) (a x : list K)
    : option K :=
    match all_some (map (fun xi => power_table xi n) x) with
    | None => None
    | Some xps =>
        fold_left (fun y ae =>
                     match y with
                     | None => None
                     | Some y => match eval_mono xps (snd ae) (fst ae) with
                                 | None => None
                                 | Some yi => Some (kadd y yi)
                                 end
                     end)
                  (combine a jdx) (Some k0)
    end.

  (** simplex_accel.pyx:78: [n = jdx[-1, -1]], read as the last exponent of the
      last monomial.  (The file asks Cython for [wraparound=False], under which
      a negative index is not translated; the theorems therefore hold for every
      sufficiently large [n], see [simplex_eval_n].) *)
  Definition simplex_eval (jdx : list (list nat)) (a x : list K) : option K :=
    simplex_eval_n (last (last jdx []) 0) jdx a x.
End Arith.

(** simplex_accel.pyx:99-107 [binom] (C int as unbounded nat). *)
Definition binom (n k : nat) : nat :=
  if Nat.ltb n k then 0
  else fst (fold_left (fun '(r, n) i => (r * n / i, n - 1))
                      (seq 1 (Nat.min k (n - k))) (1, n)).

(** simplex_accel.pyx:110-116 [multinom]. *)
Definition multinom (k : list nat) : nat :=
  match k with
  | [] => 1
  | k0 :: ks =>
      snd (fold_left (fun '(t, r) ki => (t + ki, r * binom (t + ki) ki)) ks (k0, 1))
  end.

(** simplex_accel.pyx:119-130 [multinom_next]: the loop over
    [reversed(range(n))]; [i] counts down, [fuel] is the number of remaining
    iterations (= i + 1). Returns the updated [q]. *)
Fixpoint multinom_next_loop (i1 : nat) (p0 : nat) (q : list nat) : list nat :=
  match i1 with
  | O => q
  | S i =>
      if Nat.eqb (nth i q 0) p0
      then upd 0 (p0 - 1) (upd i 0 (upd (i + 1) (u16 (nth (i + 1) q 0 + 1)) q))
      else multinom_next_loop i (p0 - nth i q 0) q
  end.
(** simplex_accel.pyx:119-130 [multinom_next] *)
Definition multinom_next (p : nat) (q : list nat) : nat * list nat :=
  let n := length q in
  if Nat.eqb (nth (n - 1) q 0) p then (0, q)
  else let q' := multinom_next_loop n p q in (multinom q', q').

(** simplex_accel.pyx:133-146 [supernom_next]: loop over [reversed(range(d))];
    [i1 - 1] is the current row.  Returns (continue?, q, m). *)
Fixpoint supernom_loop (d i1 : nat) (p : list nat) (q : list (list nat))
         (m : list nat) : bool * list (list nat) * list nat :=
  match i1 with
  | O => (false, q, m)
  | S i =>
      let '(mi, qi) := multinom_next (nth i p 0) (nth i q []) in
      let mi := u16 mi in
      if Nat.eqb mi 0
      then supernom_loop d i p (upd i (nth i p 0 :: repeat 0 (d - 1)) q) (upd i 1 m)
      else (true, upd i qi q, upd i mi m)
  end.
(** simplex_accel.pyx:133-146 [supernom_next] *)
Definition supernom_next (p : list nat) (q : list (list nat)) (m : list nat) :=
  supernom_loop (length p) (length p) p q m.

(** simplex.py:189 [self.i.ravel()]: position [l] of the C-ordered array of
    shape (s,)*d, digits most significant first. *)
Fixpoint unflatten (s d l : nat) : list nat :=
  match d with
  | O => []
  | S d' => unflatten s d' (l / s) ++ [l mod s]
  end.

Section Transform.
  Variable K : Type.
  Variables (k0 k1 : K) (kadd kmul : K -> K -> K).

  (** conversion of an integer to double; simplex_accel.pyx:172 *)
  Fixpoint kofnat (n : nat) : K :=
    match n with O => k0 | S n' => kadd (kofnat n') k1 end.
  (** C [pow(t, n)] with a natural exponent; simplex_accel.pyx:175 *)
  Fixpoint kpow (t : K) (n : nat) : K :=
    match n with O => k1 | S n' => kmul t (kpow t n') end.

  (** simplex_accel.pyx:174-176: the inner loop over [k]. *)
  Definition tr_inner (t : list (list K)) (p : list (list nat)) (j : nat)
             (ql : K * nat) : K * nat :=
    fold_left (fun '(q, l) k =>
                 (kmul q (kpow (nth j (nth k t []) k0) (nth j (nth k p []) 0)),
                  l + nth j (nth k p []) 0))
              (seq 0 (length p)) ql.
  (** simplex_accel.pyx:169-176: coefficient and flat index of one term. *)
  Definition tr_term (s : nat) (t : list (list K)) (p : list (list nat))
             (m : list nat) : K * nat :=
    fold_left (fun '(q, l) j =>
                 tr_inner t p j (kmul q (kofnat (nth j m 0)), l * s))
              (seq 0 (length p)) (k1, 0).

  (** simplex_accel.pyx:168-181: the [while True] loop for one source
      coefficient [xi] with exponents [ji]; [None] when out of fuel. *)
  Fixpoint tr_loop (fuel : nat) (idx : itable) (d s : nat) (t : list (list K))
           (ji : list nat) (xi : K) (p : list (list nat)) (m : list nat)
           (y : list K) : option (list (list nat) * list nat * list K) :=
    match fuel with
    | O => None
    | S f =>
        let '(q, l) := tr_term s t p m in
        let l := idx (unflatten s d l) in
        let y := upd l (kadd (nth l y k0) (kmul q xi)) y in
        let '(cont, p', m') := supernom_next ji p m in
        if cont then tr_loop f idx d s t ji xi p' m' y else Some (p', m', y)
    end.

  (** simplex_accel.pyx:166-167: [p[j, 0] = ji[j]] *)
  Definition tr_set_first (ji : list nat) (p : list (list nat)) : list (list nat) :=
    map (fun x => upd 0 (fst x) (snd x)) (combine ji p).

  (** simplex_accel.pyx:164-181: the loop over source slots. *)
  Fixpoint tr_outer (fuel : nat) (idx : itable) (d s : nat) (t : list (list K))
           (src : list (list nat * K)) (p : list (list nat)) (m : list nat)
           (y : list K) : option (list K) :=
    match src with
    | [] => Some y
    | (ji, xi) :: src' =>
        match tr_loop fuel idx d s t ji xi (tr_set_first ji p) m y with
        | None => None
        | Some (p', m', y') => tr_outer fuel idx d s t src' p' m' y'
        end
    end.

  (** simplex_accel.pyx:149-182 [simplex_transform] for one coefficient vector
      [x] (the rows [j in range(r)] are independent). [t] is given by rows. *)
  Definition simplex_transform (fuel : nat) (idx : itable)
             (jdx : list (list nat)) (x : list K) (t : list (list K))
    : option (list K) :=
    let n := length jdx in
    let d := length (nth 0 jdx []) in
    let s := last (nth (n - 1) jdx []) 0 + 1 in
    tr_outer fuel idx d s t (combine jdx x)
             (repeat (repeat 0 d) d) (repeat 1 d) (repeat k0 n).
End Transform.
