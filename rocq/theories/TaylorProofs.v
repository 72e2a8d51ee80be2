(** Truncated multinomials approximate functions near the origin: the operations of the Simplex class
    preserve the order of approximation. *)
From Coq Require Import Reals List Arith ZArith Lia Lra Psatz Setoid.
From Verif Require Import Base SimplexModel SimplexPowModel SimplexEnum SimplexComb SimplexPairs SimplexMul SimplexEval SimplexPow PropsSimplex PolyModel.
Import ListNotations.
Open Scope R_scope.

(** * functions of three variables near the origin *)
Definition pt := (R * R * R)%type.
Definition args (x : pt) : list R := [fst (fst x); snd (fst x); snd x].
Definition size (x : pt) : R := Rabs (fst (fst x)) + Rabs (snd (fst x)) + Rabs (snd x).
Definition near (P : pt -> Prop) : Prop := exists d, 0 < d /\ forall x, size x < d -> P x.
(** of order [n] at the origin *)
Definition order (n : nat) (f : pt -> R) : Prop := exists C, near (fun x => Rabs (f x) <= C * size x ^ n).
Definition origin : pt := (0, 0, 0).

Lemma size_pos x : 0 <= size x.
Proof. unfold size. pose proof (Rabs_pos (fst (fst x))). pose proof (Rabs_pos (snd (fst x))). pose proof (Rabs_pos (snd x)). lra. Qed.
Lemma size_origin : size origin = 0.
Proof. unfold size, origin. cbn. rewrite Rabs_R0. lra. Qed.
Lemma near_and (P Q : pt -> Prop) : near P -> near Q -> near (fun x => P x /\ Q x).
Proof. intros (d & D & A) (e & E & B). exists (Rmin d e). split; [apply Rmin_glb_lt; auto|]. intros x H. split; [apply A|apply B]; eapply Rlt_le_trans; eauto; [apply Rmin_l|apply Rmin_r]. Qed.
Lemma near_imp (P Q : pt -> Prop) : (forall x, P x -> Q x) -> near P -> near Q.
Proof. intros I (d & D & A). exists d. auto. Qed.
Lemma near_all (P : pt -> Prop) : (forall x, P x) -> near P.
Proof. intros H. exists 1. split; [lra|auto]. Qed.
Lemma near_small c : 0 < c -> near (fun x => size x < c).
Proof. intros H. exists c. auto. Qed.
Lemma near_here (P : pt -> Prop) : near P -> P origin.
Proof. intros (d & D & A). apply A. rewrite size_origin. auto. Qed.

Lemma order_pos n f : order n f -> exists C, 0 <= C /\ near (fun x => Rabs (f x) <= C * size x ^ n).
Proof.
  intros (C & N). exists (Rabs C). split; [apply Rabs_pos|]. revert N. apply near_imp. intros x H. eapply Rle_trans; [apply H|]. apply Rmult_le_compat_r; [apply pow_le, size_pos|apply Rle_abs].
Qed.
Lemma order_ext n f g : near (fun x => f x = g x) -> order n f -> order n g.
Proof. intros E (C & N). exists C. generalize (near_and _ _ E N). apply near_imp. intros x [A B]. rewrite <- A. auto. Qed.
Lemma order_zero n : order n (fun _ => 0).
Proof. exists 0. apply near_all. intros x. rewrite Rabs_R0. lra. Qed.
Lemma order_add n f g : order n f -> order n g -> order n (fun x => f x + g x).
Proof.
  intros (C & N) (D & M). exists (C + D). generalize (near_and _ _ N M). apply near_imp. intros x [A B]. rewrite Rmult_plus_distr_r. eapply Rle_trans; [apply Rabs_triang|lra].
Qed.
Lemma order_mul i j f g : order i f -> order j g -> order (i + j) (fun x => f x * g x).
Proof.
  intros F G. apply order_pos in F. apply order_pos in G. destruct F as (C & C0 & N), G as (D & D0 & M). exists (C * D). generalize (near_and _ _ N M). apply near_imp. intros x [A B]. rewrite Rabs_mult, pow_add.
  replace (C * D * (size x ^ i * size x ^ j)) with ((C * size x ^ i) * (D * size x ^ j)) by ring. apply Rmult_le_compat; auto; apply Rabs_pos.
Qed.
Lemma order_const c : order 0 (fun _ => c).
Proof. exists (Rabs c). apply near_all. intros x. cbn. lra. Qed.
Lemma order_scale n c f : order n f -> order n (fun x => c * f x).
Proof. intros F. apply (order_mul 0 n _ _ (order_const c) F). Qed.
Lemma order_opp n f : order n f -> order n (fun x => - f x).
Proof. intros F. apply (order_ext n (fun x => -1 * f x)); [apply near_all; intros; ring|apply order_scale; auto]. Qed.
Lemma order_le i j f : (i <= j)%nat -> order j f -> order i f.
Proof.
  intros L F. apply order_pos in F. destruct F as (C & C0 & N). exists C. generalize (near_and _ _ N (near_small 1 Rlt_0_1)). apply near_imp. intros x [A B]. eapply Rle_trans; [apply A|]. apply Rmult_le_compat_l; auto.
  replace j with (i + (j - i))%nat by lia. rewrite pow_add. apply Rle_trans with (size x ^ i * 1); [|lra]. apply Rmult_le_compat_l; [apply pow_le, size_pos|]. rewrite <- (pow1 (j - i)). apply pow_incr. pose proof (size_pos x). lra.
Qed.
Lemma order_at n f : order (S n) f -> f origin = 0.
Proof. intros (C & N). apply near_here in N. rewrite size_origin in N. cbn in N. rewrite Rmult_0_l, Rmult_0_r in N. pose proof (Rabs_pos (f origin)). destruct (Req_dec (f origin) 0); [auto|]. pose proof (Rabs_pos_lt _ H0). lra. Qed.
Lemma order_small n f e : order (S n) f -> 0 < e -> near (fun x => Rabs (f x) < e).
Proof.
  intros F E. apply order_pos in F. destruct F as (C & C0 & N). assert (P : 0 < e / (C + 1)) by (apply Rdiv_lt_0_compat; lra).
  generalize (near_and _ _ N (near_and _ _ (near_small _ P) (near_small 1 Rlt_0_1))). apply near_imp. intros x (A & B & L). pose proof (size_pos x). cbn in A.
  assert (size x ^ n <= 1) by (rewrite <- (pow1 n); apply pow_incr; lra). pose proof (pow_le (size x) n H).
  apply Rle_lt_trans with (C * size x). { eapply Rle_trans; [apply A|]. apply Rmult_le_compat_l; auto. apply Rle_trans with (size x * 1); [apply Rmult_le_compat_l; auto|lra]. }
  apply Rle_lt_trans with (C * (e / (C + 1))); [apply Rmult_le_compat_l; lra|]. apply Rlt_le_trans with ((C + 1) * (e / (C + 1))); [apply Rmult_lt_compat_r; lra|]. right. field. lra.
Qed.
Lemma order_sum {A} n (f : A -> pt -> R) l : (forall a, In a l -> order n (f a)) -> order n (fun x => ksum R 0 Rplus (fun a => f a x) l).
Proof.
  induction l as [|a l IH]; intros H; cbn; [apply order_zero|]. apply order_add; [apply H; left; auto|apply IH; intros; apply H; right; auto].
Qed.

(** monomials *)
Lemma order_pow f n i : order n f -> order (i * n) (fun x => kpow R 1 Rmult (f x) i).
Proof. intros F. induction i as [|i IH]; cbn; [apply order_const|]. apply order_mul; auto. Qed.
Lemma order_arg1 : order 1 (fun x => fst (fst x)).
Proof. exists 1. apply near_all. intros x. unfold size. pose proof (Rabs_pos (snd (fst x))). pose proof (Rabs_pos (snd x)). lra. Qed.
Lemma order_arg2 : order 1 (fun x => snd (fst x)).
Proof. exists 1. apply near_all. intros x. unfold size. pose proof (Rabs_pos (fst (fst x))). pose proof (Rabs_pos (snd x)). lra. Qed.
Lemma order_arg3 : order 1 (fun x => snd x).
Proof. exists 1. apply near_all. intros x. unfold size. pose proof (Rabs_pos (fst (fst x))). pose proof (Rabs_pos (snd (fst x))). lra. Qed.
Lemma order_mono e : length e = 3%nat -> order (list_sum e) (fun x => mono R 1 Rmult (args x) e).
Proof.
  intros L. destruct e as [|a [|b [|c [|]]]]; try discriminate L. cbn [args mono list_sum fold_right].
  apply order_mul; [replace a with (a * 1)%nat at 1 by lia; apply order_pow, order_arg1|]. apply order_mul; [replace b with (b * 1)%nat at 1 by lia; apply order_pow, order_arg2|].
  apply order_mul; [replace c with (c * 1)%nat at 1 by lia; apply order_pow, order_arg3|apply order_const].
Qed.

Lemma H3 : (1 <= 3)%nat.
Proof. lia. Qed.
Section Simplex.
Variables (m : nat) (idx : itable) (jdx : list (list nat)) (abi : list row).
Hypothesis Hm : (1 <= m)%nat.
Hypothesis Hs : (Z.of_nat (simplex_size 3 m) <= 65536)%Z.
Hypothesis Hi : simplex_idx 3 m = Some (idx, jdx, abi).
Notation q := (simplex_size 3 m).
(** value of the polynomial with coefficients [a] *)
Definition peval (a : list R) (x : pt) : R := pvalue R 0 1 Rplus Rmult 3 m (coef R 0 3 m a) (args x).
(** [a] holds the Taylor coefficients of [F] below order [m] *)
Definition taylor (F : pt -> R) (a : list R) : Prop := length a = q /\ order m (fun x => F x - peval a x).

Lemma coef_zip (f : R -> R -> R) a b e : f 0 0 = 0 -> length a = length b -> coef R 0 3 m (map (fun x => f (fst x) (snd x)) (combine a b)) e = f (coef R 0 3 m a e) (coef R 0 3 m b e).
Proof.
  intros F L. unfold coef. revert a b L. generalize (simplex_iter 3 m). induction l as [|e' l IH]; intros a b L; destruct a, b; try discriminate L; cbn; auto.
  destruct (tuple_eqb e' e); auto.
Qed.
Lemma coef_map (f : R -> R) a e : f 0 = 0 -> coef R 0 3 m (map f a) e = f (coef R 0 3 m a e).
Proof.
  intros F. unfold coef. revert a. generalize (simplex_iter 3 m). induction l as [|e' l IH]; intros a; destruct a; cbn; auto. destruct (tuple_eqb e' e); auto.
Qed.
Lemma peval_lin a b c d e x : (forall t, In t (simplex_iter 3 m) -> coef R 0 3 m c t = d * coef R 0 3 m a t + e * coef R 0 3 m b t) -> peval c x = d * peval a x + e * peval b x.
Proof.
  intros H. unfold peval, pvalue. rewrite <- (ksum_scale R 0 1 Rplus Rmult Rminus Ropp RTheory), <- (ksum_scale R 0 1 Rplus Rmult Rminus Ropp RTheory), <- (ksum_add R 0 1 Rplus Rmult Rminus Ropp RTheory). apply ksum_ext. intros t I. rewrite H by auto. ring.
Qed.
Lemma first_iter : exists l, simplex_iter 3 m = [0; 0; 0]%nat :: l /\ forall e, In e l -> (1 <= list_sum e)%nat.
Proof.
  pose proof (simplex_iter_first 3 m Hm) as F. pose proof (simplex_iter_NoDup 3 m) as ND. destruct (simplex_iter 3 m) as [|e l] eqn:E; [discriminate F|]. cbn in F. injection F as ->. exists l. split; [auto|].
  intros e I. assert (IN : In e (simplex_iter 3 m)) by (rewrite E; right; auto). apply simplex_iter_spec in IN; [|lia]. destruct IN as [L _]. destruct e as [|a [|b [|c [|]]]]; try discriminate L. inversion ND; subst. destruct a, b, c; cbn; try lia. exfalso. auto.
Qed.
Lemma coef_first a : a <> [] -> coef R 0 3 m a [0; 0; 0]%nat = nth 0 a 0.
Proof.
  intros H. destruct first_iter as (l & E & _). unfold coef. rewrite E. destruct a; [contradiction|]. cbn. unfold tuple_eqb. destruct (list_eq_dec Nat.eq_dec [0; 0; 0]%nat [0; 0; 0]%nat); [auto|contradiction].
Qed.
Lemma peval_near a : order 1 (fun x => peval a x - coef R 0 3 m a [0; 0; 0]%nat).
Proof.
  destruct first_iter as (l & E & H). unfold peval, pvalue. rewrite E. cbn [ksum fold_right].
  apply (order_ext 1 (fun x => ksum R 0 Rplus (fun e => coef R 0 3 m a e * mono R 1 Rmult (args x) e) l)).
  - apply near_all. intros x. cbn. unfold ksum. ring.
  - apply (order_sum 1 (fun e x => coef R 0 3 m a e * mono R 1 Rmult (args x) e)). intros e I. apply order_scale. apply (order_le 1 (list_sum e)); [auto|]. apply order_mono. assert (IN : In e (simplex_iter 3 m)) by (rewrite E; right; auto). apply simplex_iter_spec in IN; [tauto|lia].
Qed.
Lemma coef_bounded a : order 0 (peval a).
Proof. apply (order_ext 0 (fun x => (peval a x - coef R 0 3 m a [0;0;0]%nat) + coef R 0 3 m a [0;0;0]%nat)); [apply near_all; intros; ring|]. apply order_add; [apply (order_le 0 1); [lia|apply peval_near]|apply order_const]. Qed.
Lemma q_pos : (1 <= q)%nat.
Proof. rewrite <- (simplex_size_length 3 m (or_introl H3)). pose proof (simplex_iter_first 3 m Hm) as F. destruct (simplex_iter 3 m); [discriminate F|cbn; lia]. Qed.
Lemma taylor_near F a : taylor F a -> order 1 (fun x => F x - nth 0 a 0).
Proof.
  intros [L T]. assert (a <> []) by (intros ->; pose proof q_pos; cbn [length] in L; lia). apply (order_ext 1 (fun x => (F x - peval a x) + (peval a x - coef R 0 3 m a [0;0;0]%nat))).
  - apply near_all. intros x. rewrite coef_first by auto. ring.
  - apply order_add; [apply (order_le 1 m); auto|apply peval_near].
Qed.
(** the constant coefficient is the value at the origin *)
Lemma taylor_at F a : taylor F a -> nth 0 a 0 = F origin.
Proof. intros T. apply taylor_near in T. apply (order_at 0) in T. lra. Qed.
Lemma taylor_cont F a : taylor F a -> order 1 (fun x => F x - F origin).
Proof. intros T. rewrite <- (taylor_at _ _ T). apply taylor_near; auto. Qed.
Lemma taylor_bounded F a : taylor F a -> order 0 F.
Proof. intros T. apply taylor_near in T. apply (order_ext 0 (fun x => (F x - nth 0 a 0) + nth 0 a 0)); [apply near_all; intros; ring|]. apply order_add; [apply (order_le 0 1); auto|apply order_const]. Qed.
Lemma taylor_ext F G a : near (fun x => F x = G x) -> taylor F a -> taylor G a.
Proof. intros E [L T]. split; [auto|]. revert T. apply order_ext. revert E. apply near_imp. intros x ->. auto. Qed.

Lemma taylor_lin F G a b c d e : taylor F a -> taylor G b -> length c = q -> (forall t, In t (simplex_iter 3 m) -> coef R 0 3 m c t = d * coef R 0 3 m a t + e * coef R 0 3 m b t) -> taylor (fun x => d * F x + e * G x) c.
Proof.
  intros [_ A] [_ B] L H. split; [auto|]. apply (order_ext m (fun x => d * (F x - peval a x) + e * (G x - peval b x))); [apply near_all; intros x; rewrite (peval_lin a b c d e) by auto; ring|]. apply order_add; apply order_scale; auto.
Qed.
Lemma taylor_add F G a b : taylor F a -> taylor G b -> taylor (fun x => F x + G x) (rvadd a b).
Proof.
  intros A B. assert (LA := proj1 A). assert (LB := proj1 B). apply (taylor_ext (fun x => 1 * F x + 1 * G x)); [apply near_all; intros; ring|]. apply (taylor_lin F G a b); auto.
  - unfold rvadd. rewrite vadd_length; congruence.
  - intros t _. unfold rvadd, vadd. rewrite (coef_zip Rplus) by (auto; try ring; congruence). ring.
Qed.
Lemma taylor_sub F G a b : taylor F a -> taylor G b -> taylor (fun x => F x - G x) (psub a b).
Proof.
  intros A B. assert (LA := proj1 A). assert (LB := proj1 B). apply (taylor_ext (fun x => 1 * F x + -1 * G x)); [apply near_all; intros; ring|]. apply (taylor_lin F G a b); auto.
  - unfold psub. rewrite map_length, combine_length. lia.
  - intros t _. unfold psub. rewrite (coef_zip Rminus) by (auto; try ring; congruence). ring.
Qed.
Lemma taylor_map F a f d : (forall v, f v = d * v) -> taylor F a -> taylor (fun x => d * F x) (map f a).
Proof.
  intros Hf A. assert (LA := proj1 A). apply (taylor_ext (fun x => d * F x + 0 * F x)); [apply near_all; intros; ring|]. apply (taylor_lin F F a a); auto.
  - rewrite map_length. auto.
  - intros t _. rewrite coef_map by (rewrite Hf; ring). rewrite Hf. ring.
Qed.
Lemma taylor_scale F a d : taylor F a -> taylor (fun x => d * F x) (rvscale d a).
Proof. intros A. apply (taylor_map F a (Rmult d) d); auto. Qed.
Lemma taylor_neg F a : taylor F a -> taylor (fun x => - F x) (pneg a).
Proof. intros A. apply (taylor_ext (fun x => -1 * F x)); [apply near_all; intros; ring|]. apply (taylor_map F a Ropp (-1)); auto. intros; ring. Qed.
Lemma taylor_div F a d : taylor F a -> taylor (fun x => F x / d) (pdiv a d).
Proof. intros A. apply (taylor_ext (fun x => / d * F x)); [apply near_all; intros; unfold Rdiv; ring|]. apply (taylor_map F a (fun v => v / d) (/ d)); auto. intros; unfold Rdiv; ring. Qed.

Lemma coef_repeat e : coef R 0 3 m (repeat 0 q) e = 0.
Proof. unfold coef. generalize (simplex_iter 3 m) q. induction l as [|e' l IH]; intros [|n]; cbn; auto. destruct (tuple_eqb e' e); auto. Qed.
Lemma taylor_zero : taylor (fun _ => 0) (pzero q).
Proof.
  split; [apply repeat_length|]. apply (order_ext m (fun _ => 0)); [apply near_all|apply order_zero]. intros x. unfold peval, pvalue, pzero. rewrite (ksum_zero R 0 1 Rplus Rmult Rminus Ropp RTheory); [ring|]. intros e _. rewrite coef_repeat. ring.
Qed.
(** a coefficient vector that is one monomial *)
Lemma taylor_unit j e c : nth_error (simplex_iter 3 m) j = Some e -> taylor (fun x => c * mono R 1 Rmult (args x) e) (upd j c (pzero q)).
Proof.
  intros E. assert (UL : forall A n (v : A) l, length (upd n v l) = length l) by (clear; intros A n v l; revert n; induction l; intros [|n]; cbn; auto). split; [rewrite UL; apply repeat_length|]. apply (order_ext m (fun _ => 0)); [apply near_all|apply order_zero]. intros x.
  assert (JL : (j < q)%nat) by (rewrite <- (simplex_size_length 3 m (or_introl H3)); apply nth_error_Some; rewrite E; intros X; discriminate X).
  assert (G : peval (upd j c (pzero q)) x = c * mono R 1 Rmult (args x) e); [|rewrite G; ring].
  unfold peval, pvalue, coef, pzero. rewrite <- (simplex_size_length 3 m (or_introl H3)) in *. pose proof (simplex_iter_NoDup 3 m) as ND. revert j E JL ND.
  generalize (simplex_iter 3 m). intros es.
  assert (Z : forall t (es' : list (list nat)) n, lookup R 0 es' (repeat 0 n) t = 0). { clear. induction es' as [|e' l IH]; intros [|n]; cbn; auto. destruct (tuple_eqb e' t); auto. }
  induction es as [|e' es IH]; intros j E JL ND; [destruct j; discriminate E|]. inversion ND as [|? ? NI ND']; subst. destruct j as [|j].
  - cbn in E. injection E as ->. cbn [length repeat upd ksum fold_right lookup]. unfold tuple_eqb at 1. destruct (list_eq_dec Nat.eq_dec e e); [|contradiction]. fold (ksum R 0 Rplus (fun t => (if tuple_eqb e t then c else lookup R 0 es (repeat 0 (length es)) t) * mono R 1 Rmult (args x) t) es).
    rewrite (ksum_zero R 0 1 Rplus Rmult Rminus Ropp RTheory); [ring|]. intros t I. unfold tuple_eqb. destruct (list_eq_dec Nat.eq_dec e t); [subst; contradiction|]. rewrite Z. ring.
  - cbn in E. assert (IE : In e es) by (eapply nth_error_In; eauto). cbn [length repeat upd ksum fold_right lookup]. unfold tuple_eqb at 1. destruct (list_eq_dec Nat.eq_dec e' e'); [|contradiction].
    fold (ksum R 0 Rplus (fun t => (if tuple_eqb e' t then 0 else lookup R 0 es (upd j c (repeat 0 (length es))) t) * mono R 1 Rmult (args x) t) es).
    rewrite (ksum_ext R 0 Rplus _ (fun t => lookup R 0 es (upd j c (repeat 0 (length es))) t * mono R 1 Rmult (args x) t)).
    + rewrite IH by (auto; cbn in JL; lia). ring.
    + intros t I. unfold tuple_eqb. destruct (list_eq_dec Nat.eq_dec e' t); [subst; contradiction|auto].
Qed.
Lemma taylor_const c : taylor (fun _ => c) (pshift (pzero q) c).
Proof.
  destruct first_iter as (l & E & _). assert (T := taylor_unit 0 [0;0;0]%nat c). rewrite E in T. specialize (T eq_refl). pose proof q_pos as Q. unfold pshift, pzero in *. destruct q as [|n]; [lia|]. cbn in *. rewrite Rplus_0_l. revert T. apply taylor_ext. apply near_all. intros x. ring.
Qed.
Lemma shift_add a c : length a = q -> pshift a c = rvadd a (pshift (pzero q) c).
Proof.
  intros L. pose proof q_pos as Q. unfold pshift, pzero, rvadd. destruct a as [|x a]; [cbn [length] in L; lia|]. rewrite <- L. cbn. unfold vadd. cbn. f_equal; [ring|]. clear. induction a as [|y a IH]; cbn; [auto|]. f_equal; [ring|exact IH].
Qed.
Lemma taylor_shift F a c : taylor F a -> taylor (fun x => F x + c) (pshift a c).
Proof. intros A. rewrite shift_add by apply (proj1 A). apply (taylor_add F (fun _ => c)); [auto|apply taylor_const]. Qed.

Lemma peval_mul a b : length a = q -> length b = q -> order m (fun x => peval a x * peval b x - peval (pmul abi a b) x).
Proof.
  intros A B.
  apply (order_ext m (fun x => ksum R 0 Rplus (fun pq => coef R 0 3 m a (fst pq) * coef R 0 3 m b (snd pq) * mono R 1 Rmult (args x) (zip_add (fst pq) (snd pq))) (filter (fun pq => negb (low m pq)) (allpairs 3 m)))).
  - apply near_all. intros x. unfold peval. rewrite (pvalue_conv R 0 1 Rplus Rmult Rminus Ropp RTheory 3 m) by (auto; lia).
    assert (E : pvalue R 0 1 Rplus Rmult 3 m (coef R 0 3 m (pmul abi a b)) (args x) = pvalue R 0 1 Rplus Rmult 3 m (conv R 0 Rplus Rmult (coef R 0 3 m a) (coef R 0 3 m b)) (args x)); [|rewrite E; ring].
    apply ksum_ext. intros e He. apply simplex_iter_spec in He; [|lia]. unfold pmul, rmul. rewrite (mul_conv R 0 1 Rplus Rmult Rminus Ropp RTheory 3 m idx jdx abi) by (auto; lia). reflexivity.
  - apply (order_sum m (fun pq x => coef R 0 3 m a (fst pq) * coef R 0 3 m b (snd pq) * mono R 1 Rmult (args x) (zip_add (fst pq) (snd pq)))). intros [p r] I. apply filter_In in I. destruct I as [I L]. unfold allpairs in I. apply in_prod_iff in I. destruct I as [P Q]. apply simplex_iter_spec in P, Q; try lia. cbn [fst snd]. apply order_scale.
    destruct P as [P1 P2], Q as [Q1 Q2]. apply (order_le m (list_sum (zip_add p r))).
    + unfold low in L. cbn in L. apply Bool.negb_true_iff, Nat.ltb_ge in L. destruct p as [|p0 [|p1 [|p2 [|]]]]; try discriminate P1. destruct r as [|r0 [|r1 [|r2 [|]]]]; try discriminate Q1. unfold zip_add. cbn in *. lia.
    + apply order_mono. unfold zip_add. rewrite map_length, combine_length. lia.
Qed.
Lemma pmul_length a b : length (pmul abi a b) = q.
Proof. exact (mul_length R 0 Rplus Rmult 3 m idx jdx abi H3 Hm Hs Hi a b). Qed.
Lemma taylor_mul F G a b : taylor F a -> taylor G b -> taylor (fun x => F x * G x) (pmul abi a b).
Proof.
  intros A B. split; [apply pmul_length|].
  apply (order_ext m (fun x => ((F x - peval a x) * G x + (G x - peval b x) * peval a x) + (peval a x * peval b x - peval (pmul abi a b) x))); [apply near_all; intros x; ring|].
  apply order_add; [apply order_add|apply peval_mul; [apply A|apply B]].
  - replace m with (m + 0)%nat by lia. apply order_mul; [apply A|eapply taylor_bounded; eauto].
  - replace m with (m + 0)%nat by lia. apply order_mul; [apply B|apply coef_bounded].
Qed.

(** powers *)
Lemma taylor_unique F a : order m F -> length a = q -> order m (peval a) -> taylor F a.
Proof. intros A L B. split; [auto|]. apply (order_ext m (fun x => F x + - peval a x)); [apply near_all; intros; ring|]. apply order_add; [auto|apply order_opp; auto]. Qed.
Lemma vconst_taylor : taylor (fun _ => 1) (vconst R 0 3 m 1).
Proof.
  replace (vconst R 0 3 m 1) with (pshift (pzero q) 1); [apply taylor_const|]. unfold vconst, pshift, pzero. pose proof q_pos. destruct q as [|n]; [lia|]. cbn. rewrite Rplus_0_l, Nat.sub_0_r. reflexivity.
Qed.
Lemma pow_length a x b : length a = q -> ppow abi m a x = Some b -> length b = q.
Proof.
  intros L. unfold ppow, simplex_pow. destruct a as [|a0 a]; [intros H; discriminate H|].
  set (X := upd 0 0 (a0 :: a)). set (y := map (fun v => v * x) X). set (z := upd 0 (nth 0 y 0 + 1) y).
  assert (LX : length y = q) by (unfold y; rewrite map_length; exact L). assert (LZ : length z = q) by (unfold z; destruct y; exact LX).
  assert (G : forall l yz, length (fst yz) = q -> length (snd yz) = q -> length (snd (fold_left (pow_step abi X x) l yz)) = q).
  { clear -Hm Hs Hi. induction l as [|i l IH]; intros yz A B; cbn [fold_left]; [auto|]. assert (C : length (fst (pow_step abi X x yz i)) = q) by (unfold pow_step; cbn [fst]; unfold rvscale, vscale; rewrite map_length; apply pmul_length). apply IH; [auto|]. change (length (rvadd (snd yz) (fst (pow_step abi X x yz i))) = q). unfold rvadd. rewrite vadd_length; congruence. }
  specialize (G (seq 1 (m - 1)) (y, z) LX LZ). destruct (fold_left (pow_step abi X x) (seq 1 (m - 1)) (y, z)) as [u w]. cbn in G. destruct (cpow a0 x) as [s|]; cbn [obind]; intros H; [|discriminate H]. injection H as <-. rewrite map_length. auto.
Qed.
Lemma near_one F a : taylor F a -> F origin = 1 -> near (fun x => / 2 < F x < 2).
Proof.
  intros T E. apply taylor_cont in T. rewrite E in T. generalize (order_small 0 _ (/ 2) T ltac:(lra)). apply near_imp. intros x H. apply Rabs_def2 in H. lra.
Qed.
(** powers of a polynomial with constant coefficient 1 *)
Lemma powers F a : taylor F a -> F origin = 1 ->
  (exists b, ppow abi m a (-1) = Some b /\ taylor (fun x => / F x) b) /\
  (exists b, ppow abi m a (/ 2) = Some b /\ taylor (fun x => sqrt (F x)) b) /\
  (exists b, ppow abi m a (- / 2) = Some b /\ taylor (fun x => / sqrt (F x)) b).
Proof.
  intros T E. assert (LA := proj1 T). assert (C1 : nth 0 a 0 = 1) by (rewrite (taylor_at _ _ T); auto).
  destruct (C05_power_laws 3 m idx jdx abi H3 Hm Hs Hi a LA C1) as (P & PP & ADD & P0 & P1 & _ & _ & _ & CST).
  assert (LP : forall x, length (P x) = q) by (intros x; eapply pow_length; [exact LA|apply PP]).
  assert (N1 := near_one _ _ T E).
  assert (INV : forall G b c, taylor G b -> G origin = 1 -> length c = q -> pmul abi c b = vconst R 0 3 m 1 -> taylor (fun x => / G x) c).
  { clear -Hm Hs Hi. intros G b c T E L M. split; [auto|]. assert (N := near_one _ _ T E).
    assert (O1 : order m (fun x => 1 - peval c x * G x)).
    { apply (order_ext m (fun x => (1 - peval (vconst R 0 3 m 1) x) + (-1 * (peval c x * peval b x - peval (pmul abi c b) x)) + -1 * (peval c x * (G x - peval b x)))); [apply near_all; intros x; rewrite M; ring|].
      apply order_add; [apply order_add|]; [apply vconst_taylor|apply order_scale; apply peval_mul; [auto|apply T]|]. apply order_scale. replace m with (0 + m)%nat by lia. apply (order_mul 0 m); [apply coef_bounded|apply T]. }
    apply (order_ext m (fun x => / G x * (1 - peval c x * G x))); [revert N; apply near_imp; intros x N; field; lra|]. replace m with (0 + m)%nat by lia. apply (order_mul 0 m); [|exact O1].
    exists 2. revert N. apply near_imp. intros x N. rewrite pow_O, Rmult_1_r, Rabs_pos_eq; [|left; apply Rinv_0_lt_compat; lra]. apply Rle_trans with (/ / 2); [apply Rinv_le_contravar; lra|right; field]. }
  assert (SQ : taylor (fun x => sqrt (F x)) (P (/ 2))).
  { split; [auto|]. assert (M : pmul abi (P (/2)) (P (/2)) = a) by (unfold pmul; rewrite ADD; replace (/ 2 + / 2) with 1 by field; auto).
    assert (PN : near (fun x => / 2 < peval (P (/ 2)) x)).
    { pose proof (peval_near (P (/2))) as O. assert (NE : P (/ 2) <> []) by (intros X; specialize (LP (/ 2)); rewrite X in LP; pose proof q_pos; cbn [length] in LP; lia). rewrite coef_first, CST in O by auto. generalize (order_small 0 _ (/ 2) O ltac:(lra)). apply near_imp. intros x H. apply Rabs_def2 in H. lra. }
    apply (order_ext m (fun x => / (sqrt (F x) + peval (P (/ 2)) x) * ((F x - peval a x) + -1 * (peval (P (/2)) x * peval (P (/2)) x - peval (pmul abi (P (/2)) (P (/2))) x)))).
    - generalize (near_and _ _ N1 PN). apply near_imp. intros x [A B]. rewrite M. assert (Z : sqrt (F x) * sqrt (F x) = F x) by (apply sqrt_sqrt; lra). pose proof (sqrt_pos (F x)). apply Rmult_eq_reg_l with (sqrt (F x) + peval (P (/ 2)) x); [|lra]. rewrite <- Rmult_assoc, Rinv_r by lra. replace ((sqrt (F x) + peval (P (/ 2)) x) * (sqrt (F x) - peval (P (/ 2)) x)) with (sqrt (F x) * sqrt (F x) - peval (P (/ 2)) x * peval (P (/ 2)) x) by ring. rewrite Z. ring.
    - replace m with (0 + m)%nat at 1 by lia. apply (order_mul 0 m); [|apply order_add; [apply T|apply order_scale, peval_mul; auto]].
      exists 2. generalize (near_and _ _ N1 PN). apply near_imp. intros x [A B]. pose proof (sqrt_pos (F x)). rewrite pow_O, Rmult_1_r, Rabs_pos_eq; [|left; apply Rinv_0_lt_compat; lra]. apply Rle_trans with (/ / 2); [apply Rinv_le_contravar; lra|right; field]. }
  split; [|split].
  - exists (P (-1)). split; [apply PP|]. apply (INV F a); auto. unfold pmul. rewrite <- P1. rewrite ADD. replace (-1 + 1) with 0 by ring. auto.
  - exists (P (/ 2)). split; [apply PP|auto].
  - exists (P (- / 2)). split; [apply PP|]. apply (INV (fun x => sqrt (F x)) (P (/ 2))); auto; [rewrite E; apply sqrt_1|]. unfold pmul. rewrite ADD. replace (- / 2 + / 2) with 0 by ring. auto.
Qed.
End Simplex.
