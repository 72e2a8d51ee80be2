(** Final theorems for the linear change of variables: C07. *)
From Coq Require Import List Arith ZArith Lia Bool Ring.
From Verif Require Import SimplexModel SimplexEnum SimplexPairs SimplexMul
  SimplexEval SimplexComb SimplexTransform.
Import ListNotations.

(** value of the polynomial with coefficients [a] at [x]: the specification *)
Notation value K k0 k1 kadd kmul d m a x :=
  (ksum K k0 kadd (fun e => kmul (coef K k0 d m a e) (mono K k1 kmul x e)) (simplex_iter d m)).
(** matrix (list of rows) times vector *)
Notation mat_apply K k0 kadd kmul t x :=
  (map (fun r => ksum K k0 kadd (fun xy => kmul (fst xy) (snd xy)) (combine r x)) t).

Theorem C07_transform_is_substitution :
  forall (K : Type) (k0 k1 : K) (kadd kmul ksub : K -> K -> K) (kopp : K -> K),
  ring_theory k0 k1 kadd kmul ksub kopp (@eq K) ->
  forall d m idx jdx, 1 <= d -> 1 <= m ->
  (Z.of_nat (simplex_size d m) <= 65536)%Z ->
  simplex_enum d m = Some (idx, jdx) ->
  (forall q, length q = d -> list_sum q < m -> (Z.of_nat (multinom q) < 65536)%Z) ->
  forall a t, length a = simplex_size d m ->
  length t = d -> Forall (fun r => length r = d) t ->
  exists N, forall fuel, N <= fuel ->
  exists b, simplex_transform K k0 k1 kadd kmul fuel idx jdx a t = Some b /\
    length b = simplex_size d m /\
    forall x, length x = d ->
      value K k0 k1 kadd kmul d m b x =
      value K k0 k1 kadd kmul d m a (mat_apply K k0 kadd kmul t x).
Proof.
  intros K k0 k1 kadd kmul ksub kopp Kth d m idx jdx Hd Hm Hs Hen Hsm a t Ha Ht Htr.
  destruct d as [|n]; [lia|].
  destruct (transform_value K k0 k1 kadd kmul ksub kopp Kth n m idx jdx Hm Hs Hen) with (a := a) (t := t)
    as [N HN]; auto.
  { intros q Hq1 Hq2. rewrite wmult_small by (apply Hsm; auto).
    pose proof (multinom_pos q). lia. }
  exists N. intros fuel Hf.
  destruct (HN fuel Hf (repeat k0 (S n)) (repeat_length _ _)) as (b & H1 & H2 & _).
  exists b. split; [exact H1|]. split; [exact H2|]. intros x Hx.
  destruct (HN fuel Hf x Hx) as (b' & H1' & _ & H3).
  assert (b' = b) by congruence. subst b'. exact H3.
Qed.
Print Assumptions C07_transform_is_substitution.

(** the bound holds for three variables up to order 13 *)
Example C07_bound_3_13 : forall q, length q = 3 -> list_sum q < 13 ->
  (Z.of_nat (multinom q) < 65536)%Z.
Proof.
  assert (H : forallb (fun q => Z.ltb (Z.of_nat (multinom q)) 65536) (simplex_iter 3 13) = true)
    by (vm_compute; reflexivity).
  intros q H1 H2. rewrite forallb_forall in H. apply Z.ltb_lt, H.
  apply simplex_iter_spec; auto.
Qed.
Example C07_example : exists idx jdx, simplex_enum 2 3 = Some (idx, jdx) /\
  simplex_transform Z 0%Z 1%Z Z.add Z.mul 10 idx jdx [0; 0; 0; 1; 0; 0]%Z [[2; 3]; [5; 7]]%Z
  = Some [0; 0; 0; 4; 12; 9]%Z.
Proof. do 2 eexists. split; vm_compute; reflexivity. Qed.

(** from order 14 on (degree 13: 13!/(5!4!4!) = 90090) the stored multinomial
    coefficients wrap around and the result is not the substituted polynomial *)
Theorem C07_transform_refuted :
  exists m idx jdx a t N, simplex_enum 3 m = Some (idx, jdx) /\
  (Z.of_nat (simplex_size 3 m) <= 65536)%Z /\
  length a = simplex_size 3 m /\ length t = 3 /\ Forall (fun r => length r = 3) t /\
  forall fuel, N <= fuel ->
  exists b, simplex_transform Z 0%Z 1%Z Z.add Z.mul fuel idx jdx a t = Some b /\
    value Z 0%Z 1%Z Z.add Z.mul 3 m b [1; 1; 1]%Z <>
    value Z 0%Z 1%Z Z.add Z.mul 3 m a (mat_apply Z 0%Z Z.add Z.mul t [1; 1; 1]%Z).
Proof.
  assert (Hs : (Z.of_nat (simplex_size 3 14) <= 65536)%Z) by (vm_compute; discriminate).
  pose proof (simplex_enum_some 3 14 ltac:(lia)) as Hen.
  destruct (enum_loop 0 (simplex_iter 3 14) izero []) as [idx jdx].
  pose (a := map (fun e => match e with [13; 0; 0] => 1%Z | _ => 0%Z end) (simplex_iter 3 14)).
  pose (t := [[1; 1; 1]; [0; 1; 0]; [0; 0; 1]]%Z).
  assert (Hw : forall q, length q = 3 -> list_sum q < 14 -> wmult q <> 0).
  { assert (H : forallb (fun q => negb (Nat.eqb (wmult q) 0)) (simplex_iter 3 14) = true)
      by (vm_compute; reflexivity).
    intros q H1 H2. rewrite forallb_forall in H.
    specialize (H q). rewrite negb_true_iff in H. apply Nat.eqb_neq, H.
    apply simplex_iter_spec; auto. }
  assert (Ha : length a = simplex_size 3 14).
  { unfold a. rewrite map_length. apply simplex_size_length; auto. }
  destruct (transform_wrapped Z 0%Z 1%Z Z.add Z.mul Z.sub Z.opp Zth 2 14 idx jdx ltac:(lia) Hs Hen Hw a t Ha)
    as [N HN].
  { reflexivity. }
  { repeat constructor. }
  exists 14, idx, jdx, a, t, N.
  split; [exact Hen|]. split; [exact Hs|]. split; [exact Ha|]. split; [reflexivity|].
  split; [repeat constructor|]. intros fuel Hf.
  destruct (HN fuel Hf [1; 1; 1]%Z eq_refl) as (b & H1 & _ & H3).
  exists b. split; [exact H1|]. unfold pvalue in H3. rewrite H3.
  vm_compute. discriminate.
Qed.
Print Assumptions C07_transform_refuted.
