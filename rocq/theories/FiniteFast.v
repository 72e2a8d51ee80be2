(** Lemmas for the closed form of the change of variables (C89). *)
From Coq Require Import List Arith ZArith Lia Bool Ring.
From Verif Require Import SimplexModel SimplexEnum SimplexPairs SimplexMul SimplexEval SimplexComb SimplexTransform FiniteFastModel.
Import ListNotations.

Section Fast.
  Variable K : Type.
  Variables (k0 k1 : K) (kadd kmul ksub : K -> K -> K) (kopp : K -> K).
  Hypothesis Kth : ring_theory k0 k1 kadd kmul ksub kopp (@eq K).
  Add Ring Kring : Kth.
  Local Notation "x + y" := (kadd x y).
  Local Notation "x * y" := (kmul x y).
  Local Notation ksum := (ksum K k0 kadd).
  Local Notation kpow := (kpow K k1 kmul).
  Local Notation kofnat := (kofnat K k0 k1 kadd).
  Local Notation mono := (mono K k1 kmul).
  Local Notation coef := (coef K k0).
  Local Notation pvalue := (pvalue K k0 k1 kadd kmul).
  Local Notation fast_coef := (fast_coef K k0 k1 kadd kmul kopp).

  Variables (m0 : nat) (idx : itable) (jdx : list (list nat)).
  Hypothesis Hm : (1 <= m0)%nat.
  Hypothesis Hs : (Z.of_nat (simplex_size 3 m0) <= 65536)%Z.
  Hypothesis Hen : simplex_enum 3 m0 = Some (idx, jdx).
  Local Notation V X b := (pvalue 3 m0 (coef 3 m0 b) X).
  Definition sized (bst : list K * list K) := length (fst bst) = simplex_size 3 m0 /\ length (snd bst) = simplex_size 3 m0.

  Lemma fold_value {A} (X : list K) (step : list K * list K -> A -> list K * list K) (f g : A -> K) L bst :
    (forall a bst, In a L -> sized bst -> sized (step bst a) /\ V X (fst (step bst a)) = V X (fst bst) + f a /\ V X (snd (step bst a)) = V X (snd bst) + g a) ->
    sized bst ->
    sized (fold_left step L bst) /\ V X (fst (fold_left step L bst)) = V X (fst bst) + ksum f L /\ V X (snd (fold_left step L bst)) = V X (snd bst) + ksum g L.
  Proof.
    revert bst. induction L as [|a L IH]; intros bst H B; cbn [fold_left].
    - split; [exact B|]. cbn. split; ring.
    - destruct (H a bst (or_introl eq_refl) B) as (B' & E1 & E2).
      destruct (IH (step bst a)) as (B'' & F1 & F2); [intros; apply H; [right; auto|auto]|exact B'|].
      split; [exact B''|]. rewrite F1, F2, E1, E2. cbn [SimplexMul.ksum fold_right]. unfold SimplexMul.ksum. cbn [fold_right]. split; ring.
  Qed.

  Lemma two_pow n : kofnat (Nat.pow 2 n) = kpow (k1 + k1) n.
  Proof. induction n as [|n IH]; [cbn; ring|]. cbn [Nat.pow SimplexModel.kpow]. rewrite (kofnat_mul K k0 k1 kadd kmul ksub kopp Kth), IH. cbn [SimplexModel.kofnat]. ring. Qed.
  Lemma kpow_double x n : kpow x (2 * n) = kpow x n * kpow x n.
  Proof. replace (2 * n)%nat with (n + n)%nat by lia. apply (kpow_add K k0 k1 kadd kmul ksub kopp Kth). Qed.

  (** one term of the expansion *)
  Lemma fast_term r u w x y z i j k l m n : (l <= k)%nat -> (m <= j)%nat -> (n <= m)%nat ->
    fast_coef r u w i j k l m n * mono [x; y; z] (fast_target i j k l m n) =
    kpow (r * r * x) i *
    ((kofnat (choose k l) * kpow (kopp k1 * r * w * z) (k - l) * kpow (kopp k1 * r * u * x) l) *
     (kofnat (choose j m) * kpow (u * u * x) (j - m) * (kofnat (choose m n) * kpow (w * w * y) (m - n) * kpow ((k1 + k1) * u * w * z) n))).
  Proof.
    intros L M N. unfold FiniteFastModel.fast_coef, fast_target. rewrite !binom_choose, two_pow.
    set (ckl := kofnat (choose k l)). set (cjm := kofnat (choose j m)). set (cmn := kofnat (choose m n)). clearbody ckl cjm cmn.
    assert (exists h, k = l + h)%nat as [h ->] by (exists (k - l)%nat; lia).
    assert (exists b, m = n + b)%nat as [b ->] by (exists (m - n)%nat; lia).
    assert (exists a, j = n + b + a)%nat as [a ->] by (exists (j - (n + b))%nat; lia).
    replace (2 * (n + b + a) - 2 * (n + b) + l + n)%nat with (2 * a + l + n)%nat by lia.
    replace (2 * (n + b) + (l + h) - l - n)%nat with (n + 2 * b + h)%nat by lia.
    replace (i + (n + b + a) + l - (n + b))%nat with (i + a + l)%nat by lia.
    replace (n + b - n)%nat with b by lia. replace (l + h - l + n)%nat with (h + n)%nat by lia.
    replace (l + h - l)%nat with h by lia. replace (n + b + a - (n + b))%nat with a by lia.
    cbn [SimplexEval.mono].
    rewrite !(kpow_add K k0 k1 kadd kmul ksub kopp Kth), !kpow_double, !(kpow_mul K k0 k1 kadd kmul ksub kopp Kth). 
    rewrite ?(kpow_add K k0 k1 kadd kmul ksub kopp Kth). ring.
  Qed.

  Definition moved (r u w x y z : K) : list K := [r * r * x; u * u * x + w * w * y + (k1 + k1) * u * w * z; kopp (r * u * x + r * w * z)].

  Lemma fast_sum r u w x y z i j k v :
    ksum (fun l => ksum (fun m => ksum (fun n => fast_coef r u w i j k l m n * v * mono [x; y; z] (fast_target i j k l m n)) (seq 0 (m + 1))) (seq 0 (j + 1))) (seq 0 (k + 1)) =
    v * mono (moved r u w x y z) [i; j; k].
  Proof.
    pose (A m n := kofnat (choose m n) * kpow (w * w * y) (m - n) * kpow ((k1 + k1) * u * w * z) n).
    pose (B m := kofnat (choose j m) * kpow (u * u * x) (j - m) * kpow (w * w * y + (k1 + k1) * u * w * z) m).
    pose (C l := kofnat (choose k l) * kpow (kopp k1 * r * w * z) (k - l) * kpow (kopp k1 * r * u * x) l).
    transitivity (v * kpow (r * r * x) i * (ksum C (seq 0 (k + 1)) * ksum B (seq 0 (j + 1)))).
    - rewrite <- (ksum_scale_r K k0 k1 kadd kmul ksub kopp Kth), <- (ksum_scale K k0 k1 kadd kmul ksub kopp Kth).
      apply ksum_ext. intros l Hl. apply in_seq in Hl.
      rewrite <- !(ksum_scale K k0 k1 kadd kmul ksub kopp Kth). apply ksum_ext. intros m Hm'. apply in_seq in Hm'.
      assert (EB : B m = kofnat (choose j m) * kpow (u * u * x) (j - m) * ksum (A m) (seq 0 (m + 1))).
      { unfold B. rewrite (binomial_theorem K k0 k1 kadd kmul ksub kopp Kth). unfold nsum. replace (S m) with (m + 1)%nat by lia. reflexivity. }
      rewrite EB. rewrite <- !(ksum_scale K k0 k1 kadd kmul ksub kopp Kth). apply ksum_ext. intros n Hn. apply in_seq in Hn.
      transitivity (v * (fast_coef r u w i j k l m n * mono [x; y; z] (fast_target i j k l m n))); [ring|].
      rewrite fast_term by lia. unfold A, C. ring.
    - assert (EC : ksum C (seq 0 (k + 1)) = kpow (kopp k1 * r * w * z + kopp k1 * r * u * x) k).
      { rewrite (binomial_theorem K k0 k1 kadd kmul ksub kopp Kth). unfold nsum. replace (S k) with (k + 1)%nat by lia. reflexivity. }
      assert (EB : ksum B (seq 0 (j + 1)) = kpow (u * u * x + (w * w * y + (k1 + k1) * u * w * z)) j).
      { rewrite (binomial_theorem K k0 k1 kadd kmul ksub kopp Kth). unfold nsum. replace (S j) with (j + 1)%nat by lia. reflexivity. }
      rewrite EC, EB. unfold moved. cbn [SimplexEval.mono].
      replace (kopp k1 * r * w * z + kopp k1 * r * u * x) with (kopp (r * u * x + r * w * z)) by ring.
      replace (u * u * x + (w * w * y + (k1 + k1) * u * w * z)) with (u * u * x + w * w * y + (k1 + k1) * u * w * z) by ring. ring.
  Qed.

  Lemma fast_loops_value r u w x y z i j k s1 t1 bst : (i + j + k < m0)%nat -> sized bst ->
    let X := [x; y; z] in let b' := fast_loops K k0 k1 kadd kmul kopp idx r u w i j k s1 t1 bst in
    sized b' /\ V X (fst b') = V X (fst bst) + s1 * mono (moved r u w x y z) [i; j; k] /\ V X (snd b') = V X (snd bst) + t1 * mono (moved r u w x y z) [i; j; k].
  Proof.
    intros D B X b'. rewrite <- !fast_sum. unfold b', fast_loops. apply fold_value; [|exact B].
    intros l b1 Hl B1. apply in_seq in Hl. apply fold_value; [|exact B1].
    intros m b2 Hm' B2. apply in_seq in Hm'. apply fold_value; [|exact B2].
    intros n b3 Hn B3. apply in_seq in Hn. cbv zeta. cbn [fst snd].
    assert (T : length (fast_target i j k l m n) = 3%nat /\ (list_sum (fast_target i j k l m n) < m0)%nat) by (unfold fast_target; cbn; lia).
    destruct T as [T1 T2]. destruct B3 as [B31 B32].
    split; [|split].
    - split; cbn [fst snd]; unfold fast_add; rewrite upd_length; assumption.
    - apply (pvalue_addat K k0 k1 kadd kmul ksub kopp Kth 3 m0 idx jdx ltac:(lia) Hm Hs Hen); assumption.
    - apply (pvalue_addat K k0 k1 kadd kmul ksub kopp Kth 3 m0 idx jdx ltac:(lia) Hm Hs Hen); assumption.
  Qed.

  Lemma V_zero X : V X (repeat k0 (simplex_size 3 m0)) = k0.
  Proof.
    rewrite (pvalue_seq K k0 k1 kadd kmul) by (rewrite repeat_length; symmetry; apply simplex_size_length; lia).
    apply (ksum_zero K k0 k1 kadd kmul ksub kopp Kth). intros k _.
    assert (Z : forall N k, nth k (repeat k0 N) k0 = k0) by (clear; intros N; induction N; intros [|k]; simpl; auto). rewrite Z. ring.
  Qed.

  Theorem fast_value r u w s t x y z : length s = simplex_size 3 m0 -> length t = simplex_size 3 m0 ->
    let X := [x; y; z] in let Y := moved r u w x y z in
    let b := finite_object_fast K k0 k1 kadd kmul ksub kopp idx jdx r u w s t in
    sized b /\ V X (fst b) = ksub (r * V Y s) (u * V Y t) /\ V X (snd b) = kopp w * V Y t.
  Proof.
    intros LS LT X Y b.
    assert (Hj : jdx = simplex_iter 3 m0) by (apply (jdx_iter 3 m0 ltac:(lia) Hm Hs idx jdx Hen)).
    assert (LJ : length (simplex_iter 3 m0) = simplex_size 3 m0) by (apply simplex_size_length; lia).
    destruct (fold_value X (fun bst p =>
      let e := nth p jdx [] in let i := nth 0 e 0 in let j := nth 1 e 0 in let k := nth 2 e 0 in
      let s1 := ksub (kmul r (nth p s k0)) (kmul u (nth p t k0)) in let t1 := kmul (kopp w) (nth p t k0) in
      fast_loops K k0 k1 kadd kmul kopp idx r u w i j k s1 t1 bst)
      (fun p => ksub (kmul r (nth p s k0)) (kmul u (nth p t k0)) * mono Y (nth p (simplex_iter 3 m0) []))
      (fun p => kopp w * nth p t k0 * mono Y (nth p (simplex_iter 3 m0) []))
      (seq 0 (length s)) (repeat k0 (length s), repeat k0 (length s))) as (B & E1 & E2).
    - intros p bst Hp Bs. apply in_seq in Hp. cbv zeta.
      destruct (nth_error (simplex_iter 3 m0) p) as [e|] eqn:E; [|apply nth_error_None in E; lia].
      pose proof (nth_error_In _ _ E) as I. apply simplex_iter_spec in I; [|lia]. destruct I as [I1 I2].
      rewrite Hj, (nth_error_nth _ _ [] E).
      destruct e as [|i [|j [|k [|? ?]]]]; try discriminate I1. cbn [nth].
      apply fast_loops_value; [cbn in I2; lia|exact Bs].
    - split; cbn [fst snd]; rewrite repeat_length; exact LS.
    - split; [exact B|]. cbn [fst snd] in E1, E2.
      unfold b, finite_object_fast. rewrite E1, E2. rewrite LS, V_zero.
      rewrite !(pvalue_seq K k0 k1 kadd kmul 3 m0) by congruence. rewrite LS, LT.
      rewrite <- !(ksum_scale K k0 k1 kadd kmul ksub kopp Kth).
      split.
      + transitivity (ksum (fun p => r * (nth p s k0 * mono Y (nth p (simplex_iter 3 m0) []))) (seq 0 (simplex_size 3 m0)) +
                      ksum (fun p => kopp u * (nth p t k0 * mono Y (nth p (simplex_iter 3 m0) []))) (seq 0 (simplex_size 3 m0))).
        * rewrite <- (ksum_add K k0 k1 kadd kmul ksub kopp Kth).
          transitivity (ksum (fun p => ksub (kmul r (nth p s k0)) (kmul u (nth p t k0)) * mono Y (nth p (simplex_iter 3 m0) [])) (seq 0 (simplex_size 3 m0))); [ring|].
          apply ksum_ext. intros p _. ring.
        * rewrite !(ksum_scale K k0 k1 kadd kmul ksub kopp Kth). ring.
      + transitivity (ksum (fun p => kopp w * nth p t k0 * mono Y (nth p (simplex_iter 3 m0) [])) (seq 0 (simplex_size 3 m0))); [ring|].
        apply ksum_ext. intros p _. ring.
  Qed.
End Fast.
