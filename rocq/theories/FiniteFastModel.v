(** Model of [finite_object_fast] (/repo/rayopt/simplex_accel.pyx:185-209), the closed form of the
    change of variables of a finite object.  Nothing in /repo calls it; its docstring claims it to
    be a special case of [simplex_transform]. *)
From Coq Require Import List Arith.
From Verif Require Import SimplexModel.
Import ListNotations.

Section Fast.
  Variable K : Type.
  Variables (k0 k1 : K) (kadd kmul ksub : K -> K -> K) (kopp : K -> K).

  (** simplex_accel.pyx:204-205: the coefficient [c].  The exponents are never negative in the loop;
      [2**n], [(-1)**k] and [binom] are C integers, unbounded here. *)
  Definition fast_coef (r u w : K) (i j k l m n : nat) : K :=
    kmul (kmul (kmul (kmul (kmul (kmul (kmul
      (kpow K k1 kmul r (2 * i + k)) (kpow K k1 kmul u (2 * j - 2 * m + l + n)))
      (kpow K k1 kmul w (2 * m + k - l - n))) (kofnat K k0 k1 kadd (Nat.pow 2 n)))
      (kpow K k1 kmul (kopp k1) k)) (kofnat K k0 k1 kadd (binom k l)))
      (kofnat K k0 k1 kadd (binom j m))) (kofnat K k0 k1 kadd (binom m n)).
  (** simplex_accel.pyx:206: the target exponents *)
  Definition fast_target (i j k l m n : nat) : list nat := [i + j + l - m; m - n; k - l + n].
  (** simplex_accel.pyx:207-208: [bst[v, 0] += c*s1] or [bst[v, 1] += c*t1]; one column *)
  Definition fast_add (v : nat) (x : K) (b : list K) : list K := upd v (kadd (nth v b k0) x) b.
  (** simplex_accel.pyx:201-208: the three nested loops for one source monomial; the two columns of
      [bst] are two lists *)
  Definition fast_loops (idx : itable) (r u w : K) (i j k : nat) (s1 t1 : K) (bst : list K * list K) : list K * list K :=
    fold_left (fun bst l =>
      fold_left (fun bst m =>
        fold_left (fun bst n =>
          let c := fast_coef r u w i j k l m n in
          let v := idx (fast_target i j k l m n) in
          (fast_add v (kmul c s1) (fst bst), fast_add v (kmul c t1) (snd bst)))
          (seq 0 (m + 1)) bst)
        (seq 0 (j + 1)) bst)
      (seq 0 (k + 1)) bst.
  (** simplex_accel.pyx:185-209 [finite_object_fast]; the rows of [jdx] have three entries.  Rows
      past the end of [t] read zero (no bounds checks in the C code). *)
  Definition finite_object_fast (idx : itable) (jdx : list (list nat)) (r u w : K) (s t : list K) : list K * list K :=
    let q := length s in
    fold_left (fun bst p =>
      let e := nth p jdx [] in
      let i := nth 0 e 0 in
      let j := nth 1 e 0 in
      let k := nth 2 e 0 in
      let s1 := ksub (kmul r (nth p s k0)) (kmul u (nth p t k0)) in
      let t1 := kmul (kopp w) (nth p t k0) in
      fast_loops idx r u w i j k s1 t1 bst)
      (seq 0 q) (repeat k0 q, repeat k0 q).
End Fast.
