(** Final theorems for the truncated multinomial arithmetic: C01-C06. *)
From Coq Require Import Reals List Arith ZArith Lia Lra Bool Sorted Ring.
From Verif Require Import Base SimplexModel SimplexEnum SimplexPairs SimplexMul
  SimplexPowModel SimplexPow SimplexEval.
Import ListNotations.
Close Scope R_scope.
Open Scope nat_scope.

(** ** C01 *)
Theorem C01_enumeration_complete : forall d m, 1 <= d ->
  (forall e, In e (simplex_iter d m) <-> length e = d /\ list_sum e < m) /\
  NoDup (simplex_iter d m) /\
  StronglySorted le (map (@list_sum) (simplex_iter d m)) /\
  length (simplex_iter d m) = simplex_size d m.
Proof.
  intros d m Hd. split; [|split; [|split]].
  - intros e. apply simplex_iter_spec; auto.
  - apply simplex_iter_NoDup.
  - apply simplex_iter_sorted.
  - apply simplex_size_length; auto.
Qed.
Print Assumptions C01_enumeration_complete.

Example C01_example : In [2; 0; 1] (simplex_iter 3 4) /\ ~ In [2; 1; 1] (simplex_iter 3 4)
  /\ simplex_size 3 4 = 20.
Proof.
  destruct (C01_enumeration_complete 3 4 ltac:(lia)) as (H & _).
  split; [apply H; simpl; lia|]. split; [rewrite H; simpl; lia|reflexivity].
Qed.

(** ** C02 *)
Theorem C02_index_tables_inverse : forall d m,
  1 <= d -> 1 <= m -> (Z.of_nat (simplex_size d m) <= 65536)%Z ->
  exists idx jdx, simplex_enum d m = Some (idx, jdx) /\
    length jdx = simplex_size d m /\
    (forall k e, nth_error jdx k = Some e -> idx e = k /\ length e = d /\ list_sum e < m) /\
    (forall e, length e = d -> list_sum e < m -> nth_error jdx (idx e) = Some e).
Proof.
  intros d m Hd Hm Hs. pose proof (simplex_enum_some d m Hm) as Hen.
  destruct (enum_loop 0 (simplex_iter d m) izero []) as [idx jdx].
  exists idx, jdx. split; [exact Hen|]. split; [|split].
  - rewrite (jdx_iter d m Hd Hm Hs idx jdx Hen). apply simplex_size_length; auto.
  - intros k e Hk. split; [exact (idx_nth d m Hd Hm Hs idx jdx Hen k e Hk)|].
    exact (jdx_valid d m Hd Hm Hs idx jdx Hen k e Hk).
  - exact (idx_valid d m Hd Hm Hs idx jdx Hen).
Qed.
Print Assumptions C02_index_tables_inverse.

Example C02_example : exists idx jdx, simplex_enum 3 5 = Some (idx, jdx) /\
  nth_error jdx (idx [1; 2; 1]) = Some [1; 2; 1].
Proof.
  destruct (C02_index_tables_inverse 3 5) as (idx & jdx & H & _ & _ & H');
    [lia|lia|vm_compute; discriminate|].
  exists idx, jdx. split; [exact H|]. apply H'; simpl; lia.
Qed.

(** the 16 bit slot numbers collide beyond 65536 monomials *)
Theorem C02_index_tables_refuted :
  exists d m idx jdx e1 e2,
    1 <= d /\ 1 <= m /\ simplex_enum d m = Some (idx, jdx) /\
    In e1 (simplex_iter d m) /\ In e2 (simplex_iter d m) /\ e1 <> e2 /\
    idx e1 = idx e2.
Proof. exact enum_wrap_collision. Qed.
Print Assumptions C02_index_tables_refuted.

(** ** C03 *)
Theorem C03_product_is_convolution :
  forall (K : Type) (k0 k1 : K) (kadd kmul ksub : K -> K -> K) (kopp : K -> K),
  ring_theory k0 k1 kadd kmul ksub kopp (@eq K) ->
  forall d m idx jdx abi, 1 <= d -> 1 <= m ->
  (Z.of_nat (simplex_size d m) <= 65536)%Z ->
  simplex_idx d m = Some (idx, jdx, abi) ->
  forall a b e, length e = d -> list_sum e < m ->
  coef K k0 d m (simplex_mul K k0 kadd kmul abi a b) e =
  ksum K k0 kadd (fun p => kmul (coef K k0 d m a p) (coef K k0 d m b (zip_sub e p))) (below e).
Proof. exact mul_conv. Qed.
Print Assumptions C03_product_is_convolution.

Theorem C03_ring_laws :
  forall (K : Type) (k0 k1 : K) (kadd kmul ksub : K -> K -> K) (kopp : K -> K),
  ring_theory k0 k1 kadd kmul ksub kopp (@eq K) ->
  forall d m idx jdx abi, 1 <= d -> 1 <= m ->
  (Z.of_nat (simplex_size d m) <= 65536)%Z ->
  simplex_idx d m = Some (idx, jdx, abi) ->
  let mul := simplex_mul K k0 kadd kmul abi in
  let add := vadd K kadd in
  (forall a b, length (mul a b) = simplex_size d m) /\
  (forall a b, mul a b = mul b a) /\
  (forall a b c, mul (mul a b) c = mul a (mul b c)) /\
  (forall a b c, length a = length b -> mul (add a b) c = add (mul a c) (mul b c)) /\
  (forall c a, length a = simplex_size d m ->
     mul (c :: repeat k0 (simplex_size d m - 1)) a = map (kmul c) a).
Proof.
  intros K k0 k1 kadd kmul ksub kopp Kth d m idx jdx abi Hd Hm Hs Hi mul add.
  split; [|split; [|split; [|split]]].
  - exact (mul_length K k0 kadd kmul d m idx jdx abi Hd Hm Hs Hi).
  - exact (mul_comm K k0 k1 kadd kmul ksub kopp Kth d m idx jdx abi Hd Hm Hs Hi).
  - exact (mul_assoc K k0 k1 kadd kmul ksub kopp Kth d m idx jdx abi Hd Hm Hs Hi).
  - exact (mul_add_l K k0 k1 kadd kmul ksub kopp Kth d m idx jdx abi Hd Hm Hs Hi).
  - exact (mul_const_l K k0 k1 kadd kmul ksub kopp Kth d m idx jdx abi Hd Hm Hs Hi).
Qed.
Print Assumptions C03_ring_laws.

Example C03_example : exists idx jdx abi, simplex_idx 3 3 = Some (idx, jdx, abi) /\
  simplex_mul Z 0%Z Z.add Z.mul abi [1; 2; 3; 0; 0; 0; 0; 0; 0; 0]%Z
                                    [1; 1; 0; 5; 0; 0; 0; 0; 0; 0]%Z
  = [1; 3; 3; 5; 2; 3; 10; 0; 15; 0]%Z.
Proof. do 3 eexists. split; vm_compute; reflexivity. Qed.

(** ** C04 *)
Theorem C04_capacity_exact_three_variables : forall m,
  1 <= m -> (Z.of_nat (simplex_size 3 m) <= 65536)%Z ->
  (exists t, simplex_idx 3 m = Some t) /\
  (forall x y z, x + y + z < m -> (x + 1) * (y + 1) * (z + 1) <= idx_capacity m) /\
  (exists x y z, x + y + z < m /\ (x + 1) * (y + 1) * (z + 1) = idx_capacity m).
Proof.
  intros m Hm Hs. split; [apply simplex_idx_3; auto|]. split.
  - apply capacity_upper.
  - apply capacity_reached; auto.
Qed.
Print Assumptions C04_capacity_exact_three_variables.

Example C04_example : (Z.of_nat (simplex_size 3 11) <= 65536)%Z /\ idx_capacity 11 = 80.
Proof. split; [vm_compute; discriminate|reflexivity]. Qed.

(** for other dimensions the closed form does not fit and construction fails:
    too large for one variable, too small for four *)
Theorem C04_other_dimensions_refuted :
  simplex_idx 1 3 = None /\ simplex_idx 2 4 = None /\ simplex_idx 4 5 = None.
Proof. vm_compute. auto. Qed.
Print Assumptions C04_other_dimensions_refuted.

(** ** C05 *)
Open Scope R_scope.

Theorem C05_power_laws : forall d m idx jdx abi, (1 <= d)%nat -> (1 <= m)%nat ->
  (Z.of_nat (simplex_size d m) <= 65536)%Z ->
  simplex_idx d m = Some (idx, jdx, abi) ->
  forall a, length a = simplex_size d m -> nth 0 a 0 = 1 ->
  exists P : R -> list R,
    (forall p, simplex_pow abi m a p = Some (P p)) /\
    (forall p q, rmul abi (P p) (P q) = P (p + q)) /\
    P 0 = vconst R 0 d m 1 /\
    P 1 = a /\
    (forall n, P (INR n) = vpow d m abi a n) /\
    rmul abi (P (-1)) a = vconst R 0 d m 1 /\
    rmul abi (P (/2)) (P (/2)) = a /\
    (forall p, nth 0 (P p) 0 = 1).
Proof.
  intros d m idx jdx abi Hd Hm Hs Hi a Ha H1.
  exists (pow_unscaled m abi a).
  assert (Hadd : forall p q, rmul abi (pow_unscaled m abi a p) (pow_unscaled m abi a q)
    = pow_unscaled m abi a (p + q)) by (intros; apply (pow_unscaled_add d m idx jdx abi Hd Hm Hs Hi); exact Ha).
  assert (Hone : pow_unscaled m abi a 1 = a) by exact (pow_unscaled_1 d m idx jdx abi Hd Hm Hs Hi a Ha H1).
  assert (Hzero : pow_unscaled m abi a 0 = vconst R 0 d m 1) by exact (pow_unscaled_0 d m idx jdx abi Hd Hm Hs Hi a Ha).
  split; [|split; [|split; [|split; [|split; [|split; [|split]]]]]]; auto.
  - intros p. exact (simplex_pow_unit d m abi Hd Hm a p Ha H1).
  - intros n. exact (pow_unscaled_nat d m idx jdx abi Hd Hm Hs Hi a n Ha H1).
  - rewrite <- Hone at 2. rewrite Hadd. replace (-1 + 1) with 0 by ring. auto.
  - rewrite Hadd. replace (/2 + /2) with 1 by field. auto.
  - intros p. exact (pow_unscaled_const d m idx jdx abi Hd Hm Hs Hi a p Ha).
Qed.
Print Assumptions C05_power_laws.

Example C05_example : exists idx jdx abi a, simplex_idx 3 2 = Some (idx, jdx, abi) /\
  length a = simplex_size 3 2 /\ nth 0 a 0 = 1 /\ a = [1; 5; 7; 9].
Proof.
  do 4 eexists. repeat split; try (vm_compute; reflexivity).
Qed.

(** with another constant term the square is not the product *)
Theorem C05_power_laws_refuted : exists d m idx jdx abi a z,
  simplex_idx d m = Some (idx, jdx, abi) /\ length a = simplex_size d m /\
  0 < nth 0 a 0 /\
  simplex_pow abi m a 2 = Some z /\ z <> rmul abi a a.
Proof.
  exists 3%nat, 2%nat. do 3 eexists. exists [2; 1; 0; 0], [4; 8; 0; 0].
  split; [vm_compute; reflexivity|]. split; [reflexivity|].
  split; [simpl; lra|].
  assert (Hp : cpow 2 2 = Some 4).
  { unfold cpow. destruct (Rlt_dec 0 2) as [_|]; [|lra]. f_equal.
    replace 2 with (INR 2) at 2 by (simpl; ring). rewrite Rpower_pow by lra. ring. }
  split.
  - unfold simplex_pow. rewrite Hp. cbv [obind pow_step rmul rvadd rvscale vadd vscale simplex_mul
      fold_left seq map combine nth upd fst snd Nat.sub INR].
    f_equal. repeat f_equal; field.
  - cbv [rmul simplex_mul map fold_left nth fst snd]. intros H.
    assert (H2 : nth 1 [4; 8; 0; 0] 0 = nth 1 [0 + 2 * 2; 0 + 1 * 2 + 2 * 1;
       0 + 0 * 2 + 2 * 0; 0 + 0 * 2 + 2 * 0] 0) by (rewrite H; reflexivity).
    simpl in H2. lra.
Qed.
Print Assumptions C05_power_laws_refuted.
Close Scope R_scope.

(** ** C06 *)
Theorem C06_evaluation_value :
  forall (K : Type) (k0 k1 : K) (kadd kmul ksub : K -> K -> K) (kopp : K -> K),
  ring_theory k0 k1 kadd kmul ksub kopp (@eq K) ->
  forall d m idx jdx a x, 1 <= d -> 2 <= m ->
  (Z.of_nat (simplex_size d m) <= 65536)%Z ->
  simplex_enum d m = Some (idx, jdx) ->
  length a = simplex_size d m -> length x = d ->
  simplex_eval K k0 kadd kmul jdx a x =
  Some (ksum K k0 kadd (fun e => kmul (coef K k0 d m a e) (mono K k1 kmul x e)) (simplex_iter d m)).
Proof. exact eval_value. Qed.
Print Assumptions C06_evaluation_value.

(** any power table that is large enough gives the same value *)
Theorem C06_evaluation_table_size :
  forall (K : Type) (k0 k1 : K) (kadd kmul ksub : K -> K -> K) (kopp : K -> K),
  ring_theory k0 k1 kadd kmul ksub kopp (@eq K) ->
  forall d m n a x, 1 <= d -> 1 <= m -> 1 <= n -> m - 1 <= n ->
  length a = simplex_size d m -> length x = d ->
  simplex_eval_n K k0 kadd kmul n (simplex_iter d m) a x =
  Some (ksum K k0 kadd (fun e => kmul (coef K k0 d m a e) (mono K k1 kmul x e)) (simplex_iter d m)).
Proof. exact eval_n_value. Qed.
Print Assumptions C06_evaluation_table_size.

Theorem C06_evaluation_of_product :
  forall (K : Type) (k0 k1 : K) (kadd kmul ksub : K -> K -> K) (kopp : K -> K),
  ring_theory k0 k1 kadd kmul ksub kopp (@eq K) ->
  forall d m idx jdx abi, 1 <= d -> 2 <= m ->
  (Z.of_nat (simplex_size d m) <= 65536)%Z ->
  simplex_idx d m = Some (idx, jdx, abi) ->
  forall a b x, length a = simplex_size d m -> length b = simplex_size d m -> length x = d ->
  exists va vb vab,
    simplex_eval K k0 kadd kmul jdx a x = Some va /\
    simplex_eval K k0 kadd kmul jdx b x = Some vb /\
    simplex_eval K k0 kadd kmul jdx (simplex_mul K k0 kadd kmul abi a b) x = Some vab /\
    kmul va vb = kadd vab
      (ksum K k0 kadd (fun pq => kmul (kmul (coef K k0 d m a (fst pq)) (coef K k0 d m b (snd pq)))
                                      (mono K k1 kmul x (zip_add (fst pq) (snd pq))))
        (filter (fun pq => m <=? list_sum (fst pq) + list_sum (snd pq))
                (list_prod (simplex_iter d m) (simplex_iter d m)))).
Proof.
  intros K k0 k1 kadd kmul ksub kopp Kth d m idx jdx abi Hd Hm Hs Hi a b x Ha Hb Hx.
  pose proof (simplex_idx_inv d m idx jdx abi Hi) as [Hen _].
  do 3 eexists. split; [eapply eval_value; eauto|]. split; [eapply eval_value; eauto|].
  split; [eapply eval_value; eauto; apply (mul_length K k0 kadd kmul d m idx jdx abi); auto; lia|].
  rewrite (pvalue_conv K k0 k1 kadd kmul ksub kopp Kth d m) by (auto; lia).
  f_equal.
  - apply ksum_ext. intros e He. apply simplex_iter_spec in He; [|auto].
    rewrite (mul_conv K k0 k1 kadd kmul ksub kopp Kth d m idx jdx abi) by (auto; lia).
    reflexivity.
  - f_equal. apply filter_ext. intros [p q]. unfold low. simpl.
    apply eq_true_iff_eq. rewrite negb_true_iff, Nat.ltb_ge, Nat.leb_le. reflexivity.
Qed.
Print Assumptions C06_evaluation_of_product.

Example C06_example : exists idx jdx, simplex_enum 3 3 = Some (idx, jdx) /\
  simplex_eval Z 0%Z Z.add Z.mul jdx [1; 2; 3; 0; 0; 7; 0; 0; 0; 1]%Z [2; 3; 5]%Z = Some 81%Z.
Proof. do 2 eexists. split; vm_compute; reflexivity. Qed.

(** with truncation order 1 the evaluation writes outside its power table *)
Theorem C06_order_one_refuted : exists d m idx jdx a x,
  1 <= d /\ 1 <= m /\ simplex_enum d m = Some (idx, jdx) /\
  length a = simplex_size d m /\ length x = d /\
  simplex_eval Z 0%Z Z.add Z.mul jdx a x = None.
Proof.
  exists 3, 1. do 2 eexists. exists [7%Z], [1; 2; 3]%Z.
  repeat split; try lia; vm_compute; reflexivity.
Qed.
Print Assumptions C06_order_one_refuted.
