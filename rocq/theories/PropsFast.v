(** Final theorems for the closed form of the change of variables of a finite object: C89, and for
    the change of variables as an operation on coefficient vectors: C07. *)
From Coq Require Import Reals List Arith ZArith Lia Lra Bool Ring.
From Verif Require Import Base SimplexModel SimplexEnum SimplexPairs SimplexMul SimplexEval SimplexComb SimplexTransform
  PropsTransform PupilModel SimplexPowModel PolyModel FiniteFastModel FiniteFast PolyIdentity.
Import ListNotations.
Close Scope R_scope.
Open Scope nat_scope.

(** ** C07: coefficient vectors are determined by their values *)
Theorem C07_coefficients_determined : forall d m (a b : list R), 1 <= d -> 1 <= m ->
  length a = simplex_size d m -> length b = simplex_size d m ->
  (forall x, length x = d -> value R 0%R 1%R Rplus Rmult d m a x = value R 0%R 1%R Rplus Rmult d m b x) -> a = b.
Proof. exact same_values. Qed.
Print Assumptions C07_coefficients_determined.
Example C07_coefficients_determined_example : value R 0%R 1%R Rplus Rmult 2 2 [1; 2; 3]%R [1; -1]%R = 0%R /\ simplex_size 2 2 = 3.
Proof. split; [cbn; ring|reflexivity]. Qed.

(** entry of a matrix given by its rows *)
Notation entry t i j := (nth j (nth i t []) 0%R).
Local Open Scope R_scope.
Lemma kdot_seq n : forall a b : list R, length a = n -> length b = n ->
  ksum R 0 Rplus (fun xy => fst xy * snd xy) (combine a b) = ksum R 0 Rplus (fun j => nth j a 0 * nth j b 0) (seq 0 n).
Proof.
  induction n as [|n IH]; intros [|x a] [|y b] A B; cbn in A, B; try lia; [reflexivity|].
  cbn [combine seq]. rewrite <- seq_shift. unfold ksum in *. cbn [fold_right fst snd nth]. f_equal.
  rewrite IH by lia.
  generalize (seq 0 n). induction l as [|k l IHl]; cbn [map fold_right]; [reflexivity|]. rewrite IHl. reflexivity.
Qed.
Lemma product_apply d t1 t2 t3 x : length t1 = d -> length t2 = d -> length t3 = d ->
  Forall (fun r => length r = d) t1 -> Forall (fun r => length r = d) t2 -> Forall (fun r => length r = d) t3 -> length x = d ->
  (forall i j, (i < d)%nat -> (j < d)%nat -> entry t3 i j = ksum R 0 Rplus (fun k => entry t1 i k * entry t2 k j) (seq 0 d)) ->
  mat_apply R 0 Rplus Rmult t3 x = mat_apply R 0 Rplus Rmult t1 (mat_apply R 0 Rplus Rmult t2 x).
Proof.
  intros L1 L2 L3 F1 F2 F3 LX H. apply nth_ext with 0 0; [rewrite !map_length; congruence|]. intros i Hi. rewrite map_length, L3 in Hi.
  set (dot := fun r => ksum R 0 Rplus (fun xy => fst xy * snd xy) (combine r x)).
  assert (R3 : forall (t : list (list R)) i, length t = d -> (i < d)%nat -> Forall (fun r => length r = d) t -> length (nth i t []) = d).
  { intros t k LT HK F. rewrite Forall_forall in F. apply F, nth_In. lia. }
  set (y := map dot t2). assert (LY : length y = d) by (unfold y; rewrite map_length; exact L2).
  transitivity (dot (nth i t3 [])); [change 0 with (dot []) at 1; apply map_nth|].
  transitivity (ksum R 0 Rplus (fun xy => fst xy * snd xy) (combine (nth i t1 []) y)).
  2:{ symmetry. change 0 with ((fun r => ksum R 0 Rplus (fun xy => fst xy * snd xy) (combine r y)) []) at 2. apply (map_nth (fun r => ksum R 0 Rplus (fun xy => fst xy * snd xy) (combine r y))). }
  unfold dot. rewrite (kdot_seq d) by (auto). rewrite (kdot_seq d) by auto.
  transitivity (ksum R 0 Rplus (fun j => ksum R 0 Rplus (fun k => entry t1 i k * entry t2 k j * nth j x 0) (seq 0 d)) (seq 0 d)).
  - apply ksum_ext. intros j Hj. apply in_seq in Hj. rewrite H by lia. rewrite (ksum_scale_r R 0 1 Rplus Rmult Rminus Ropp RTheory). reflexivity.
  - rewrite (ksum_swap R 0 1 Rplus Rmult Rminus Ropp RTheory). apply ksum_ext. intros k Hk. apply in_seq in Hk.
    transitivity (entry t1 i k * dot (nth k t2 [])).
    + unfold dot. rewrite (kdot_seq d) by auto with zarith. rewrite <- (ksum_scale R 0 1 Rplus Rmult Rminus Ropp RTheory). apply ksum_ext. intros; ring.
    + f_equal. unfold y. change 0 with (dot []) at 1. symmetry. apply map_nth.
Qed.

Lemma transform_fixed d m idx jdx : (1 <= d)%nat -> (1 <= m)%nat ->
  (Z.of_nat (simplex_size d m) <= 65536)%Z -> simplex_enum d m = Some (idx, jdx) ->
  (forall q, length q = d -> (list_sum q < m)%nat -> (Z.of_nat (multinom q) < 65536)%Z) ->
  forall a t, length a = simplex_size d m -> length t = d -> Forall (fun r => length r = d) t ->
  exists b N, length b = simplex_size d m /\ (forall fuel, (N <= fuel)%nat -> simplex_transform R 0 1 Rplus Rmult fuel idx jdx a t = Some b) /\
  forall x, length x = d -> value R 0 1 Rplus Rmult d m b x = value R 0 1 Rplus Rmult d m a (mat_apply R 0 Rplus Rmult t x).
Proof.
  intros Hd Hm Hs Hen Hsm a t LA LT F.
  destruct (C07_transform_is_substitution R 0 1 Rplus Rmult Rminus Ropp RTheory d m idx jdx Hd Hm Hs Hen Hsm a t LA LT F) as (N & H).
  destruct (H N (le_n _)) as (b & _ & LB & VB). exists b, N. split; [exact LB|]. split; [|exact VB].
  intros fuel Hf. destruct (H fuel Hf) as (b' & E & LB' & VB'). rewrite E. f_equal.
  apply (C07_coefficients_determined d m); auto. intros x X. rewrite VB, VB' by exact X. reflexivity.
Qed.

(** changing variables twice is changing them once with the product of the matrices *)
Theorem C07_transform_composes : forall d m idx jdx, (1 <= d)%nat -> (1 <= m)%nat ->
  (Z.of_nat (simplex_size d m) <= 65536)%Z -> simplex_enum d m = Some (idx, jdx) ->
  (forall q, length q = d -> (list_sum q < m)%nat -> (Z.of_nat (multinom q) < 65536)%Z) ->
  forall a t1 t2 t3, length a = simplex_size d m -> length t1 = d -> length t2 = d -> length t3 = d ->
  Forall (fun r => length r = d) t1 -> Forall (fun r => length r = d) t2 -> Forall (fun r => length r = d) t3 ->
  (forall i j, (i < d)%nat -> (j < d)%nat -> entry t3 i j = ksum R 0 Rplus (fun k => entry t1 i k * entry t2 k j) (seq 0 d)) ->
  exists b c N, forall fuel, (N <= fuel)%nat ->
    simplex_transform R 0 1 Rplus Rmult fuel idx jdx a t1 = Some b /\
  simplex_transform R 0 1 Rplus Rmult fuel idx jdx b t2 = Some c /\
  simplex_transform R 0 1 Rplus Rmult fuel idx jdx a t3 = Some c.
Proof.
  intros d m idx jdx Hd Hm Hs Hen Hsm a t1 t2 t3 LA L1 L2 L3 F1 F2 F3 H.
  destruct (transform_fixed d m idx jdx Hd Hm Hs Hen Hsm a t1 LA L1 F1) as (b & N1 & LB & E1 & V1).
  destruct (transform_fixed d m idx jdx Hd Hm Hs Hen Hsm b t2 LB L2 F2) as (c & N2 & LC & E2 & V2).
  destruct (transform_fixed d m idx jdx Hd Hm Hs Hen Hsm a t3 LA L3 F3) as (c' & N3 & LC' & E3 & V3).
  exists b, c, (N1 + N2 + N3)%nat. intros fuel Hf. rewrite E1, E2, E3 by lia. split; [reflexivity|]. split; [reflexivity|]. f_equal.
  apply (C07_coefficients_determined d m); auto. intros x X. rewrite V3, V2 by exact X.
  rewrite V1 by (rewrite map_length; exact L2). rewrite (product_apply d t1 t2 t3 x) by auto. reflexivity.
Qed.
Print Assumptions C07_transform_composes.
(** a shear followed by an exchange of the variables *)
Example C07_transform_composes_example : let t1 := [[1; 2]; [0; 1]] in let t2 := [[0; 1]; [1; 0]] in let t3 := [[2; 1]; [1; 0]] in
  forall i j, (i < 2)%nat -> (j < 2)%nat -> entry t3 i j = ksum R 0 Rplus (fun k => entry t1 i k * entry t2 k j) (seq 0 2).
Proof. intros t1 t2 t3 [|[|i]] [|[|j]] Hi Hj; try lia; cbn; ring. Qed.
(** the unit matrix changes nothing *)
Theorem C07_transform_identity : forall d m idx jdx, (1 <= d)%nat -> (1 <= m)%nat ->
  (Z.of_nat (simplex_size d m) <= 65536)%Z -> simplex_enum d m = Some (idx, jdx) ->
  (forall q, length q = d -> (list_sum q < m)%nat -> (Z.of_nat (multinom q) < 65536)%Z) ->
  forall a t, length a = simplex_size d m -> length t = d -> Forall (fun r => length r = d) t ->
  (forall i j, (i < d)%nat -> (j < d)%nat -> entry t i j = if Nat.eqb i j then 1 else 0) ->
  exists N, forall fuel, (N <= fuel)%nat -> simplex_transform R 0 1 Rplus Rmult fuel idx jdx a t = Some a.
Proof.
  intros d m idx jdx Hd Hm Hs Hen Hsm a t LA LT F H.
  destruct (transform_fixed d m idx jdx Hd Hm Hs Hen Hsm a t LA LT F) as (b & N & LB & E & V).
  exists N. intros fuel Hf. rewrite E by exact Hf. f_equal. apply (C07_coefficients_determined d m); auto. intros x X. rewrite V by exact X.
  replace (mat_apply R 0 Rplus Rmult t x) with x; [reflexivity|].
  apply nth_ext with 0 0; [rewrite map_length; congruence|]. intros i Hi. rewrite X in Hi.
  set (dot := fun r => ksum R 0 Rplus (fun xy => fst xy * snd xy) (combine r x)).
  transitivity (dot (nth i t [])); [|change 0 with (dot []) at 1; symmetry; apply map_nth].
  assert (LR : length (nth i t []) = d) by (rewrite Forall_forall in F; apply F, nth_In; lia).
  unfold dot. rewrite (kdot_seq d) by auto.
  rewrite (ksum_bump R 0 1 Rplus Rmult Rminus Ropp RTheory (fun _ => 0) (fun j => entry t i j * nth j x 0) (nth i x 0) i d Hi).
  - rewrite (ksum_zero R 0 1 Rplus Rmult Rminus Ropp RTheory) by reflexivity. ring.
  - intros k NE. destruct (Nat.lt_ge_cases k d) as [K|K]; [rewrite H by auto; destruct (Nat.eqb_spec i k); [congruence|ring]|rewrite (nth_overflow x) by lia; ring].
  - rewrite H by auto. rewrite Nat.eqb_refl. ring.
Qed.
Print Assumptions C07_transform_identity.
Example C07_transform_identity_example : let t := [[1; 0; 0]; [0; 1; 0]; [0; 0; 1]] in
  (forall i j, (i < 3)%nat -> (j < 3)%nat -> entry t i j = if Nat.eqb i j then 1 else 0) /\ Forall (fun r => length r = 3%nat) t.
Proof. split; [intros [|[|[|i]]] [|[|[|j]]] Hi Hj; try lia; reflexivity|repeat constructor]. Qed.
Local Close Scope R_scope.

Section Identities.
  Variable K : Type.
  Variables (k0 k1 : K) (kadd kmul ksub : K -> K -> K) (kopp : K -> K).
  Hypothesis Kth : ring_theory k0 k1 kadd kmul ksub kopp (@eq K).
  Add Ring Kr : Kth.
  Let dot a b c d := kadd (kmul a c) (kmul b d).
  Lemma moved_rays r u w x1 x2 f1 f2 :
    let p1 := kmul r x1 in let p2 := kmul r x2 in
    let q1 := kopp (kadd (kmul u x1) (kmul w f1)) in let q2 := kopp (kadd (kmul u x2) (kmul w f2)) in
    moved K k1 kadd kmul kopp r u w (dot x1 x2 x1 x2) (dot f1 f2 f1 f2) (dot x1 x2 f1 f2) = [dot p1 p2 p1 p2; dot q1 q2 q1 q2; dot p1 p2 q1 q2].
  Proof. unfold moved, dot. f_equal; [ring|]. f_equal; [ring|]. f_equal. ring. Qed.
  Lemma bent_rays r u w S T x f : kadd (kmul (ksub (kmul r S) (kmul u T)) x) (kmul (kmul (kopp w) T) f) = kadd (kmul S (kmul r x)) (kmul T (kopp (kadd (kmul u x) (kmul w f)))).
  Proof. ring. Qed.
  Lemma neg_mul w T : kmul (kopp w) T = kopp (kmul w T).
  Proof. ring. Qed.
End Identities.

(** ** C89: [finite_object_fast] is the substitution of ray position [r*X] and slope [-(u*X + w*F)] *)
Theorem C89_fast_is_substitution :
  forall (K : Type) (k0 k1 : K) (kadd kmul ksub : K -> K -> K) (kopp : K -> K),
  ring_theory k0 k1 kadd kmul ksub kopp (@eq K) ->
  forall m idx jdx, 1 <= m -> (Z.of_nat (simplex_size 3 m) <= 65536)%Z -> simplex_enum 3 m = Some (idx, jdx) ->
  forall r u w s t, length s = simplex_size 3 m -> length t = simplex_size 3 m ->
  exists bs bt, finite_object_fast K k0 k1 kadd kmul ksub kopp idx jdx r u w s t = (bs, bt) /\
  length bs = simplex_size 3 m /\ length bt = simplex_size 3 m /\
  forall x1 x2 f1 f2,
    let dot a b c d := kadd (kmul a c) (kmul b d) in
    let p1 := kmul r x1 in let p2 := kmul r x2 in
    let q1 := kopp (kadd (kmul u x1) (kmul w f1)) in let q2 := kopp (kadd (kmul u x2) (kmul w f2)) in
    let X := [dot x1 x2 x1 x2; dot f1 f2 f1 f2; dot x1 x2 f1 f2] in
    let Y := [dot p1 p2 p1 p2; dot q1 q2 q1 q2; dot p1 p2 q1 q2] in
    let S := value K k0 k1 kadd kmul 3 m s Y in let T := value K k0 k1 kadd kmul 3 m t Y in
    value K k0 k1 kadd kmul 3 m bs X = ksub (kmul r S) (kmul u T) /\
  value K k0 k1 kadd kmul 3 m bt X = kopp (kmul w T) /\
  kadd (kmul (value K k0 k1 kadd kmul 3 m bs X) x1) (kmul (value K k0 k1 kadd kmul 3 m bt X) f1) = kadd (kmul S p1) (kmul T q1) /\
  kadd (kmul (value K k0 k1 kadd kmul 3 m bs X) x2) (kmul (value K k0 k1 kadd kmul 3 m bt X) f2) = kadd (kmul S p2) (kmul T q2).
Proof.
  intros K k0 k1 kadd kmul ksub kopp Kth m idx jdx Hm Hs Hen r u w s t LS LT.
  pose proof (fun x y z => fast_value K k0 k1 kadd kmul ksub kopp Kth m idx jdx Hm Hs Hen r u w s t x y z LS LT) as H.
  destruct (finite_object_fast K k0 k1 kadd kmul ksub kopp idx jdx r u w s t) as [bs bt]. exists bs, bt. split; [reflexivity|].
  destruct (H k0 k0 k0) as ((L1 & L2) & _). cbn [fst snd] in L1, L2. split; [exact L1|]. split; [exact L2|].
  intros x1 x2 f1 f2 dot p1 p2 q1 q2 X Y S T.
  destruct (H (dot x1 x2 x1 x2) (dot f1 f2 f1 f2) (dot x1 x2 f1 f2)) as (_ & E1 & E2). cbn [fst snd] in E1, E2.
  assert (EY : moved K k1 kadd kmul kopp r u w (dot x1 x2 x1 x2) (dot f1 f2 f1 f2) (dot x1 x2 f1 f2) = Y).
  { apply (moved_rays K k0 k1 kadd kmul ksub kopp Kth). }
  rewrite EY in E1, E2. unfold pvalue in E1, E2.
  change (value K k0 k1 kadd kmul 3 m bs X = ksub (kmul r S) (kmul u T)) in E1.
  change (value K k0 k1 kadd kmul 3 m bt X = kmul (kopp w) T) in E2.
  rewrite E1, E2. split; [reflexivity|]. split; [apply (neg_mul K k0 k1 kadd kmul ksub kopp Kth)|].
  split; apply (bent_rays K k0 k1 kadd kmul ksub kopp Kth).
Qed.
Print Assumptions C89_fast_is_substitution.
(** order 3, with r = 2, u = 3, w = 5: 1 + 7 z in [s], y in [t] *)
Example C89_fast_example : exists idx jdx, simplex_enum 3 3 = Some (idx, jdx) /\
  finite_object_fast Z 0%Z 1%Z Z.add Z.mul Z.sub Z.opp idx jdx 2%Z 3%Z 5%Z [1; 0; 0; 7; 0; 0; 0; 0; 0; 0]%Z [0; 0; 1; 0; 0; 0; 0; 0; 0; 0]%Z
  = ([2; -111; -75; -230; 0; 0; 0; 0; 0; 0]%Z, [0; -45; -125; -150; 0; 0; 0; 0; 0; 0]%Z).
Proof. do 2 eexists. split; vm_compute; reflexivity. Qed.

(** it gives exactly the coefficients of the general [simplex_transform] *)
Local Open Scope R_scope.
Theorem C89_fast_is_transform : forall m idx jdx, (1 <= m)%nat -> (Z.of_nat (simplex_size 3 m) <= 65536)%Z -> simplex_enum 3 m = Some (idx, jdx) ->
  (forall e, length e = 3%nat -> (list_sum e < m)%nat -> (Z.of_nat (multinom e) < 65536)%Z) ->
  forall r u w s t, length s = simplex_size 3 m -> length t = simplex_size 3 m ->
  exists bs bt N, finite_object_fast R 0 1 Rplus Rmult Rminus Ropp idx jdx r u w s t = (bs, bt) /\
  forall fuel, (N <= fuel)%nat ->
    let M := [[r ^ 2; 0; 0]; [u ^ 2; w ^ 2; 2 * u * w]; [- (r * u); 0; - (r * w)]] in
    simplex_transform R 0 1 Rplus Rmult fuel idx jdx (vadd R Rplus (vscale R Rmult r s) (vscale R Rmult (- u) t)) M = Some bs /\
    simplex_transform R 0 1 Rplus Rmult fuel idx jdx (vscale R Rmult (- w) t) M = Some bt.
Proof.
  intros m idx jdx Hm Hs Hen Hb r u w s t LS LT.
  set (M := [[r ^ 2; 0; 0]; [u ^ 2; w ^ 2; 2 * u * w]; [- (r * u); 0; - (r * w)]]).
  set (A := vadd R Rplus (vscale R Rmult r s) (vscale R Rmult (- u) t)). set (B := vscale R Rmult (- w) t).
  assert (LA : length A = simplex_size 3 m) by (unfold A; rewrite vadd_length; unfold vscale; rewrite !map_length; congruence).
  assert (LB : length B = simplex_size 3 m) by (unfold B, vscale; rewrite map_length; exact LT).
  destruct (transform_fixed 3 m idx jdx ltac:(lia) Hm Hs Hen Hb A M LA eq_refl ltac:(repeat constructor)) as (b1 & N1 & L1 & E1 & V1).
  destruct (transform_fixed 3 m idx jdx ltac:(lia) Hm Hs Hen Hb B M LB eq_refl ltac:(repeat constructor)) as (b2 & N2 & L2 & E2 & V2).
  pose proof (fun x y z => fast_value R 0 1 Rplus Rmult Rminus Ropp RTheory m idx jdx Hm Hs Hen r u w s t x y z LS LT) as H.
  destruct (finite_object_fast R 0 1 Rplus Rmult Rminus Ropp idx jdx r u w s t) as [bs bt].
  destruct (H 0 0 0) as ((L3 & L4) & _). cbn [fst snd] in L3, L4.
  assert (SV : forall c (a : list R) e, coef R 0 3 m (vscale R Rmult c a) e = c * coef R 0 3 m a e).
  { intros c a e. unfold coef, vscale. generalize (simplex_iter 3 m). clear. induction a as [|x a IH]; intros [|e' es]; cbn; try ring. destruct (tuple_eqb e' e); [reflexivity|apply IH]. }
  assert (MA : forall x y z, mat_apply R 0 Rplus Rmult M [x; y; z] = moved R 1 Rplus Rmult Ropp r u w x y z).
  { intros. unfold M, moved. cbn [map combine ksum fold_right fst snd]. unfold ksum. cbn [fold_right fst snd]. f_equal; [ring|]. f_equal; [ring|]. f_equal. ring. }
  assert (X3 : forall (x : list R), length x = 3%nat -> exists a b c, x = [a; b; c]) by (intros [|a [|b [|c [|? ?]]]] L; try discriminate L; eauto).
  exists bs, bt, (N1 + N2)%nat. split; [reflexivity|]. intros fuel Hf. cbv zeta. rewrite E1, E2 by lia. split; f_equal.
  - apply (C07_coefficients_determined 3 m); auto; try lia. intros x X. destruct (X3 x X) as (a & b & c & ->).
    rewrite V1 by reflexivity. destruct (H a b c) as (_ & F1 & _). cbn [fst] in F1. unfold pvalue in F1. rewrite F1, MA.
    rewrite <- !(ksum_scale R 0 1 Rplus Rmult Rminus Ropp RTheory).
    transitivity (ksum R 0 Rplus (fun e => r * (coef R 0 3 m s e * mono R 1 Rmult (moved R 1 Rplus Rmult Ropp r u w a b c) e)) (simplex_iter 3 m) +
                  ksum R 0 Rplus (fun e => (- u) * (coef R 0 3 m t e * mono R 1 Rmult (moved R 1 Rplus Rmult Ropp r u w a b c) e)) (simplex_iter 3 m)).
    + rewrite <- (ksum_add R 0 1 Rplus Rmult Rminus Ropp RTheory). apply ksum_ext. intros e _. unfold A, coef. rewrite (lookup_vadd R 0 1 Rplus Rmult Rminus Ropp RTheory) by (unfold vscale; rewrite !map_length; congruence).
      fold (coef R 0 3 m (vscale R Rmult r s) e) (coef R 0 3 m (vscale R Rmult (- u) t) e). rewrite !SV. unfold coef. ring.
    + rewrite !(ksum_scale R 0 1 Rplus Rmult Rminus Ropp RTheory). ring.
  - apply (C07_coefficients_determined 3 m); auto; try lia. intros x X. destruct (X3 x X) as (a & b & c & ->).
    rewrite V2 by reflexivity. destruct (H a b c) as (_ & _ & F2). cbn [snd] in F2. unfold pvalue in F2. rewrite F2, MA.
    rewrite <- (ksum_scale R 0 1 Rplus Rmult Rminus Ropp RTheory). apply ksum_ext. intros e _. unfold B. rewrite SV. ring.
Qed.
Print Assumptions C89_fast_is_transform.
(** the transformation of a bundle from a finite object that does not start in the pupil plane of a
    telecentric lens: pupil radius [r], pupil slope [-u], field slope [-w] *)
Theorem C89_fast_is_poly_transform : forall m idx jdx, (1 <= m)%nat -> (Z.of_nat (simplex_size 3 m) <= 65536)%Z -> simplex_enum 3 m = Some (idx, jdx) ->
  (forall e, length e = 3%nat -> (list_sum e < m)%nat -> (Z.of_nat (multinom e) < 65536)%Z) ->
  forall c st r a c', length (ps_s st) = simplex_size 3 m -> length (ps_t st) = simplex_size 3 m ->
  pupil_radius (cj_pupil c) = Some r -> pupil_slope (cj_pupil c) = Some a -> conj_slope c = Some c' -> Rabs a <= Rabs c' ->
  exists N, forall fuel, (N <= fuel)%nat ->
  poly_transform fuel idx jdx c st = Some (finite_object_fast R 0 1 Rplus Rmult Rminus Ropp idx jdx r (- a) (- c') (ps_s st) (ps_t st)).
Proof.
  intros m idx jdx Hm Hs Hen Hb c st r a c' LS LT PR PS CS NT.
  destruct (C89_fast_is_transform m idx jdx Hm Hs Hen Hb r (- a) (- c') (ps_s st) (ps_t st) LS LT) as (bs & bt & N & E & H).
  exists N. intros fuel Hf. destruct (H fuel Hf) as [H1 H2]. rewrite E. unfold poly_transform. rewrite PR, PS, CS. cbn [obind].
  destruct (Rlt_dec (Rabs c') (Rabs a)) as [X|_]; [lra|].
  replace [[r ^ 2; 0; 0]; [a ^ 2; c' ^ 2; 2 * a * c']; [r * a; 0; r * c']] with [[r ^ 2; 0; 0]; [(- a) ^ 2; (- c') ^ 2; 2 * - a * - c']; [- (r * - a); 0; - (r * - c')]]
    by (repeat (f_equal; try ring)).
  rewrite Ropp_involutive in H1, H2. unfold rvadd, rvscale. rewrite H1. cbn [obind].
  replace (vadd R Rplus (vscale R Rmult 0 (ps_s st)) (vscale R Rmult c' (ps_t st))) with (vscale R Rmult c' (ps_t st)); [rewrite H2; reflexivity|].
  generalize LS LT. generalize (simplex_size 3 m) (ps_s st) (ps_t st). clear. intros n l l'. revert n l'. induction l as [|x l IH]; intros n [|y l'] A B; cbn in A, B; try (subst n; discriminate); [reflexivity|].
  unfold vscale, vadd in *. cbn. f_equal; [ring|]. apply (IH (Nat.pred n)); subst n; cbn; congruence.
Qed.
Print Assumptions C89_fast_is_poly_transform.
(** a disc of radius 3 seen from a pupil of radius 2 at distance 6: order 4 *)
Example C89_example : let p := Pupil RadiusPupil 2 6 false false false false 1 Rectilinear in let c := Conjugate true 3 p Rectilinear false in
  (exists idx jdx, simplex_enum 3 4 = Some (idx, jdx)) /\ (Z.of_nat (simplex_size 3 4) <= 65536)%Z /\
  pupil_radius p = Some 2 /\ pupil_slope p = Some (2 / 6) /\ conj_slope c = Some (3 / 6) /\ Rabs (2 / 6) <= Rabs (3 / 6) /\
  forall e, length e = 3%nat -> (list_sum e < 4)%nat -> (Z.of_nat (multinom e) < 65536)%Z.
Proof.
  intros p c. split; [do 2 eexists; reflexivity|]. split; [vm_compute; discriminate|]. split; [reflexivity|].
  split; [cbn; unfold fdiv; destruct (Req_EM_T 6 0); [lra|reflexivity]|]. split; [cbn; unfold fdiv; destruct (Req_EM_T 6 0); [lra|reflexivity]|].
  split; [rewrite !Rabs_pos_eq; lra|]. intros e H1 H2. apply C07_bound_3_13; [exact H1|lia].
Qed.
