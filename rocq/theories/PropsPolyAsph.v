(** C43, aspheric surfaces without curvature: the polynomial intercept is the Taylor expansion of the exact
    intersection if there are enough coefficients for the number of iterations. *)
From Coq Require Import Reals List Arith ZArith Lia Lra Psatz.
From Verif Require Import Base Vec RotModel PlacementModel ElementModel ElementProofs SimplexModel SimplexPowModel SimplexTransform SimplexComb SimplexEnum SimplexMul SimplexEval PolyModel TaylorProofs PolyProofs PolyChain PropsPoly.
Import ListNotations.
Open Scope R_scope.

(** squared radius of the point of a ray after the axial distance [f]; a ray with transverse position X, slope A
    has r = X.X, p = A.A, k = X.A *)
Definition meets (r p k f : R) : R := r + f * (2 * k + f * p).
Lemma meets_point X1 X2 A1 A2 f : meets (X1 ^ 2 + X2 ^ 2) (A1 ^ 2 + A2 ^ 2) (X1 * A1 + X2 * A2) f = (X1 + f * A1) ^ 2 + (X2 + f * A2) ^ 2.
Proof. unfold meets. ring. Qed.
(** the equation solved is that of the intersection with the surface *)
Theorem C43_asphere_hit k l alt X1 X2 A1 A2 f :
  surface_sag (Surf 0 k (Some l) alt) (V (X1 + f * A1) (X2 + f * A2) f) = Some 0 <->
  f = 1 * even_poly 0 l (meets (X1 ^ 2 + X2 ^ 2) (A1 ^ 2 + A2 ^ 2) (X1 * A1 + X2 * A2) f).
Proof.
  rewrite meets_point. unfold surface_sag. cbn [s_c s_asph vz]. destruct (Req_EM_T 0 0) as [_|N]; [|lra]. rewrite asph_sag_spec. unfold r2_of. cbn [vx vy].
  replace ((X1 + f * A1) * (X1 + f * A1) + (X2 + f * A2) * (X2 + f * A2)) with ((X1 + f * A1) ^ 2 + (X2 + f * A2) ^ 2) by ring. split.
  - intros E. apply (f_equal (fun o => match o with Some v => v | None => 0 end)) in E. lra.
  - intros E. f_equal. lra.
Qed.

(** * order of differences *)
Lemma order_sub n f g : order n f -> order n g -> order n (fun x => f x - g x).
Proof. intros A B. apply (order_ext n (fun x => f x + - g x)); [apply near_all; intros; ring|]. apply order_add; [auto|apply order_opp; auto]. Qed.
Lemma even_poly_step a l t : even_poly 0 (a :: l) t = (a + even_poly 0 l t) * t.
Proof. cbn [even_poly Nat.add]. rewrite even_poly_shift. cbn [pow]. ring. Qed.
Lemma poly_bounded l f : order 0 f -> order 0 (fun x => even_poly 0 l (f x)).
Proof.
  intros F. induction l as [|a l IH]; [cbn; apply order_zero|].
  apply (order_ext 0 (fun x => (a + even_poly 0 l (f x)) * f x)); [apply near_all; intros x; rewrite even_poly_step; reflexivity|].
  apply (order_mul 0 0); [apply order_add; [apply order_const|auto]|auto].
Qed.
Lemma poly_order l f : order 1 f -> order 1 (fun x => even_poly 0 l (f x)).
Proof.
  intros F. destruct l as [|a l]; [cbn; apply order_zero|]. assert (F0 : order 0 f) by (apply (order_le 0 1); auto).
  apply (order_ext 1 (fun x => (a + even_poly 0 l (f x)) * f x)); [apply near_all; intros x; rewrite even_poly_step; reflexivity|].
  apply (order_mul 0 1); [apply order_add; [apply order_const|apply poly_bounded; auto]|auto].
Qed.
Lemma poly_diff l e f g : order 0 f -> order 0 g -> order e (fun x => f x - g x) -> order e (fun x => even_poly 0 l (f x) - even_poly 0 l (g x)).
Proof.
  intros F G D. induction l as [|a l IH].
  { apply (order_ext e (fun _ => 0)); [apply near_all; intros x; cbn; ring|apply order_zero]. }
  apply (order_ext e (fun x => (a + even_poly 0 l (f x)) * (f x - g x) + g x * (even_poly 0 l (f x) - even_poly 0 l (g x)))).
  - apply near_all. intros x. rewrite !even_poly_step. ring.
  - apply order_add; apply (order_mul 0 e); auto. apply order_add; [apply order_const|apply poly_bounded; auto].
Qed.

Section Simplex.
Variables (m : nat) (idx : itable) (jdx : list (list nat)) (abi : list row).
Hypothesis Hm : (1 <= m)%nat.
Hypothesis Hs : (Z.of_nat (simplex_size 3 m) <= 65536)%Z.
Hypothesis Hi : simplex_idx 3 m = Some (idx, jdx, abi).
Notation q := (simplex_size 3 m).
Notation taylor := (taylor m).
Local Ltac tay := repeat first [ eassumption | apply (taylor_add m) | apply (taylor_sub m Hm) | apply (taylor_mul m idx jdx abi Hm Hs Hi) | apply (taylor_scale m) | apply (taylor_shift m Hm Hs) | apply (taylor_neg m) | apply (taylor_div m) ].

Lemma taylor_self a : length a = q -> taylor (peval m a) a.
Proof. intros L. split; [auto|]. apply (order_ext m (fun _ => 0)); [apply near_all; intros x; ring|apply order_zero]. Qed.
(** the loop over the coefficients *)
Lemma taylor_df sg l F r : taylor F r -> taylor (fun x => sg * even_poly 0 l (F x)) (asph_df abi q sg l r).
Proof.
  intros T. unfold asph_df. rewrite <- fold_left_rev_right, rev_involutive. induction l as [|a l IH]; cbn [fold_right].
  - apply (taylor_ext m (fun _ => 0)); [apply near_all; intros x; cbn; ring|apply taylor_zero].
  - apply (taylor_ext m (fun x => (sg * even_poly 0 l (F x) + a * sg) * F x)); [apply near_all; intros x; rewrite even_poly_step; ring|]. tay.
Qed.
(** the loop over the coefficients of the derivative *)
Lemma taylor_dfr sg l F r : taylor F r -> taylor (fun x => sg * (even_slope 0 l (F x) / 2)) (asph_dfr abi q sg l r).
Proof.
  intros T. unfold asph_dfr. rewrite <- fold_left_rev_right, rev_involutive.
  apply (taylor_ext m (fun x => sg * (fold_right (fun '(i, ai) d => d * F x + 2 * (INR i + 1) * ai) 0 (combine (seq 0 (length l)) l) / 2))).
  { apply near_all. intros x. rewrite <- asph_slope_fr, asph_slope_spec. reflexivity. }
  induction (combine (seq 0 (length l)) l) as [|[i a] c IH]; cbn [fold_right].
  - apply (taylor_ext m (fun _ => 0)); [apply near_all; intros x; field|apply taylor_zero].
  - match type of IH with taylor ?f _ => apply (taylor_ext m (fun x => f x * F x + (INR i + 1) * a * sg)); [apply near_all; intros x; field|] end. tay.
Qed.

(** * the rounds *)
Section Rounds.
Variables (sg : R) (l : list R) (R0 P K : pt -> R) (r0 p k : list R).
Hypothesis TR : taylor R0 r0.
Hypothesis TP : taylor P p.
Hypothesis TK : taylor K k.
Hypothesis RZ : R0 origin = 0.
Hypothesis PZ : P origin = 0.
Hypothesis KZ : K origin = 0.
Variable f : pt -> R.
Hypothesis EQ : near (fun x => f x = sg * even_poly 0 l (meets (R0 x) (P x) (K x) (f x))).
Hypothesis SMALL : order 1 f.
Definition hit x := meets (R0 x) (P x) (K x) (f x).

Lemma first_order F a : taylor F a -> F origin = 0 -> order 1 F.
Proof. intros T Z. apply (taylor_cont m Hm) in T. revert T. apply order_ext. apply near_all. intros x. rewrite Z. ring. Qed.
Lemma hit_order : order 1 hit.
Proof.
  unfold hit, meets. assert (A := first_order _ _ TR RZ). assert (B := first_order _ _ TP PZ). assert (C := first_order _ _ TK KZ).
  apply order_add; [auto|]. apply (order_le 1 2); [lia|]. apply (order_mul 1 1); [auto|]. apply order_add; [apply order_scale; auto|]. apply (order_le 1 2); [lia|]. apply (order_mul 1 1); auto.
Qed.
(** one round gains one order *)
Lemma round_gain e r : order e (fun x => hit x - peval m r x) -> length r = q -> (1 <= e)%nat ->
  order (Nat.min m (S e)) (fun x => hit x - peval m (rvadd r0 (pmul abi (asph_df abi q sg l r) (rvadd (rvscale 2 k) (pmul abi (asph_df abi q sg l r) p)))) x) /\
  order (Nat.min m e) (fun x => f x - peval m (asph_df abi q sg l r) x) /\
  length (rvadd r0 (pmul abi (asph_df abi q sg l r) (rvadd (rvscale 2 k) (pmul abi (asph_df abi q sg l r) p)))) = q.
Proof.
  intros D L E1. set (G := peval m r). assert (TG : taylor G r) by (apply taylor_self; auto).
  set (A := fun x => sg * even_poly 0 l (G x)). set (df := asph_df abi q sg l r) in *.
  assert (TA : taylor A df) by (unfold A, df; apply taylor_df; auto).
  assert (TN : taylor (fun x => R0 x + A x * (2 * K x + A x * P x)) (rvadd r0 (pmul abi df (rvadd (rvscale 2 k) (pmul abi df p))))) by tay.
  assert (HO := hit_order). assert (H0 : order 0 hit) by (apply (order_le 0 1); auto).
  assert (G0 : order 0 G) by (apply (taylor_bounded m Hm _ r); auto).
  assert (DA : order e (fun x => f x - A x)).
  { apply (order_ext e (fun x => sg * (even_poly 0 l (hit x) - even_poly 0 l (G x)))).
    - revert EQ. apply near_imp. intros x Ex. rewrite Ex at 1. unfold hit, A. ring.
    - apply order_scale. apply poly_diff; auto. }
  assert (A1 : order 1 A).
  { apply (order_ext 1 (fun x => f x - (f x - A x))); [apply near_all; intros x; ring|]. apply order_sub; [auto|]. apply (order_le 1 e); auto. }
  assert (B := first_order _ _ TP PZ). assert (C := first_order _ _ TK KZ).
  split; [|split; [|exact (proj1 TN)]].
  - apply (order_ext (Nat.min m (S e)) (fun x => (hit x - (R0 x + A x * (2 * K x + A x * P x))) + ((R0 x + A x * (2 * K x + A x * P x)) - peval m (rvadd r0 (pmul abi df (rvadd (rvscale 2 k) (pmul abi df p)))) x))); [apply near_all; intros x; ring|].
    apply order_add; [|apply (order_le _ m); [lia|apply TN]]. apply (order_le _ (S e)); [lia|].
    apply (order_ext (S e) (fun x => (f x - A x) * (2 * K x + (f x + A x) * P x))); [apply near_all; intros x; unfold hit, meets; ring|].
    replace (S e) with (e + 1)%nat by lia. apply order_mul; [auto|]. apply order_add; [apply order_scale; auto|]. apply (order_le 1 2); [lia|]. apply (order_mul 1 1); [apply order_add; auto|auto].
  - apply (order_ext (Nat.min m e) (fun x => (f x - A x) + (A x - peval m df x))); [apply near_all; intros x; ring|].
    apply order_add; [apply (order_le _ e); [lia|auto]|apply (order_le _ m); [lia|apply TA]].
Qed.
Lemma rounds_gain n : forall e r df, order (Nat.min m e) (fun x => hit x - peval m r x) -> length r = q -> (1 <= e)%nat -> length df = q -> (n = O -> order (Nat.min m (pred e)) (fun x => f x - peval m df x)) ->
  let '(r', df') := asph_rounds abi q sg l r0 p k n r df in
  order (Nat.min m (n + e)) (fun x => hit x - peval m r' x) /\ length r' = q /\ order (Nat.min m (pred (n + e))) (fun x => f x - peval m df' x) /\ length df' = q.
Proof.
  induction n as [|n IH]; intros e r df D L E1 LD DF; cbn [asph_rounds].
  - split; [auto|]. split; [auto|]. split; [|auto]. apply DF; auto.
  - destruct (round_gain (Nat.min m e) r D L ltac:(lia)) as (A & B & C). set (df1 := asph_df abi q sg l r) in *. set (r1 := rvadd r0 _) in *.
    assert (LD1 : length df1 = q) by (unfold df1; apply (taylor_df sg l (peval m r)); apply taylor_self; auto).
    specialize (IH (S e) r1 df1). replace (S n + e)%nat with (n + S e)%nat by lia. apply IH; [|exact C|lia|exact LD1|].
    + apply (order_le _ (Nat.min m (S (Nat.min m e)))); [lia|auto].
    + intros _. apply (order_le _ (Nat.min m (Nat.min m e))); [cbn [pred]; lia|auto].
Qed.
Lemma rounds_taylor : (m <= length l + 1)%nat ->
  let '(r', df') := asph_rounds abi q sg l r0 p k (length l) r0 (pzero q) in taylor hit r' /\ taylor f df'.
Proof.
  intros LE. assert (A := first_order _ _ TR RZ). assert (B := first_order _ _ TP PZ). assert (C := first_order _ _ TK KZ).
  pose proof (rounds_gain (length l) 2 r0 (pzero q)) as H.
  destruct (asph_rounds abi q sg l r0 p k (length l) r0 (pzero q)) as [r' df'].
  destruct H as (H1 & H2 & H3 & H4).
  - apply (order_ext (Nat.min m 2) (fun x => f x * (2 * K x + f x * P x) + (R0 x - peval m r0 x))); [apply near_all; intros x; unfold hit, meets; ring|].
    apply order_add; [|apply (order_le _ m); [lia|apply TR]]. apply (order_le _ 2); [lia|]. apply (order_mul 1 1); [auto|]. apply order_add; [apply order_scale; auto|]. apply (order_le 1 2); [lia|]. apply (order_mul 1 1); auto.
  - apply TR.
  - lia.
  - apply repeat_length.
  - intros Z. apply (order_ext _ (fun x => f x)).
    + destruct (taylor_zero m) as (_ & _). apply near_all. intros x. unfold peval, pvalue, pzero.
      rewrite (ksum_zero R 0 1 Rplus Rmult Rminus Ropp RTheory); [ring|]. intros e _. rewrite coef_repeat. ring.
    + apply (order_le _ 1); [lia|auto].
  - split; (split; [auto|]); [apply (order_le _ (Nat.min m (length l + 2))); [lia|auto]|apply (order_le _ (Nat.min m (pred (length l + 2)))); [lia|auto]].
Qed.
End Rounds.

Lemma plane_asphere s d l R0 P K r p k f : s_c s = 0 -> s_asph s = Some l -> (m <= length l + 1)%nat ->
  taylor R0 r -> taylor P p -> taylor K k -> R0 origin = 0 -> P origin = 0 -> K origin = 0 ->
  near (fun x => f x = sign d * even_poly 0 l (meets (R0 x) (P x) (K x) (f x))) -> order 1 f ->
  let rho := fun x => meets (R0 x) (P x) (K x) (f x) in let slope := fun x => sign d * (even_slope 0 l (rho x) / 2) in
  exists r' f' fr' g', intercept_poly abi m q s d r p k = Some (r', f', fr', g') /\
    taylor rho r' /\ taylor f f' /\ taylor slope fr' /\ taylor (fun x => / sqrt (1 + 4 * rho x * slope x ^ 2)) g'.
Proof.
  intros C SA LE TR TP TK RZ PZ KZ EQ F1 rho slope. unfold intercept_poly. cbv zeta. rewrite C, Rmult_0_l. destruct (Req_EM_T 0 0) as [_|N]; [|lra]. unfold plane_intercept_poly. cbn [obind]. rewrite SA.
  destruct l as [|a l].
  - assert (FZ : near (fun x => f x = 0)) by (revert EQ; apply near_imp; intros x E; rewrite E; cbn; ring).
    do 4 eexists. split; [reflexivity|]. split; [|split; [|split]].
    + apply (taylor_ext m R0); [|auto]. revert FZ. apply near_imp. intros x E. unfold rho, meets. rewrite E. ring.
    + apply (taylor_ext m (fun _ => 0)); [|apply taylor_zero]. revert FZ. apply near_imp. intros x E. auto.
    + apply (taylor_ext m (fun _ => 0)); [|apply taylor_zero]. apply near_all. intros x. unfold slope. cbn. field.
    + apply (taylor_ext m (fun _ => 1)); [|apply (taylor_const m Hm Hs)]. apply near_all. intros x. unfold slope. cbn [even_slope].
      replace (1 + 4 * rho x * (sign d * (0 / 2)) ^ 2) with 1 by (cbn; field). rewrite sqrt_1. field.
  - set (l' := a :: l) in *. pose proof (rounds_taylor (sign d) l' R0 P K r p k TR TP TK RZ PZ KZ f EQ F1 LE) as RT.
    destruct (asph_rounds abi q (sign d) l' r p k (length l') r (pzero q)) as [r' df]. destruct RT as (T1 & T2). change (hit R0 P K f) with rho in T1.
    assert (TS : taylor slope (asph_dfr abi q (sign d) l' r')) by (apply taylor_dfr; auto).
    set (dfr := asph_dfr abi q (sign d) l' r') in *.
    assert (TG : taylor (fun x => 1 + 4 * rho x * slope x ^ 2) (pshift (pmul abi (pmul abi (rvscale 4 r') dfr) dfr) 1)).
    { apply (taylor_ext m (fun x => 4 * rho x * slope x * slope x + 1)); [apply near_all; intros x; ring|]. tay. }
    assert (G1 : 1 + 4 * rho origin * slope origin ^ 2 = 1).
    { assert (Z := order_at 0 _ F1). unfold rho, meets. rewrite Z, RZ. ring. }
    destruct (powers m idx jdx abi Hm Hs Hi _ _ TG G1) as (_ & _ & (g & -> & TGG)). cbn [obind]. do 4 eexists. split; [reflexivity|]. split; [auto|]. split; [|split; auto].
    + apply (taylor_ext m (fun x => 0 + f x)); [apply near_all; intros x; ring|]. apply (taylor_add m); [apply taylor_zero|auto].
    + apply (taylor_ext m (fun x => 0 + slope x)); [apply near_all; intros x; ring|]. apply (taylor_add m); [apply taylor_zero|auto].
Qed.
End Simplex.

(** A plane surface with aspheric coefficients: if the ray meets the surface at axial distance [f] (a solution of the
    intersection equation that vanishes on the axis) then the intercept returns the Taylor coefficients of squared
    radius, axial distance, slope and normal factor at the intersection, for truncation orders up to the number of
    aspheric coefficients plus one. *)
Theorem C43_plane_asphere : forall m idx jdx abi, (1 <= m)%nat -> (Z.of_nat (simplex_size 3 m) <= 65536)%Z -> simplex_idx 3 m = Some (idx, jdx, abi) ->
  forall s d l R0 P K r p k f, s_c s = 0 -> s_asph s = Some l -> (m <= length l + 1)%nat ->
  taylor m R0 r -> taylor m P p -> taylor m K k -> R0 origin = 0 -> P origin = 0 -> K origin = 0 ->
  near (fun x => f x = sign d * even_poly 0 l (meets (R0 x) (P x) (K x) (f x))) -> order 1 f ->
  let rho := fun x => meets (R0 x) (P x) (K x) (f x) in let slope := fun x => sign d * (even_slope 0 l (rho x) / 2) in
  exists r' f' fr' g', intercept_poly abi m (simplex_size 3 m) s d r p k = Some (r', f', fr', g') /\
    taylor m rho r' /\ taylor m f f' /\ taylor m slope fr' /\ taylor m (fun x => / sqrt (1 + 4 * rho x * slope x ^ 2)) g'.
Proof. intros m idx jdx abi Hm Hs Hi. exact (plane_asphere m idx jdx abi Hm Hs Hi). Qed.

(** a bundle with r as given, slope zero in the second moment, and the paraboloid z = r^2/2 *)
Definition demo_f (x : pt) : R := / 2 * fst (fst x) / (1 - snd x).
Lemma demo_solves : near (fun x => demo_f x = 1 * even_poly 0 [/ 2] (meets (fst (fst x)) 0 (snd x) (demo_f x))) /\ order 1 demo_f.
Proof.
  assert (N : near (fun x => / 2 < 1 - snd x)).
  { generalize (order_small 0 _ (/ 2) order_arg3 ltac:(lra)). apply near_imp. intros x H. apply Rabs_def2 in H. lra. }
  split.
  - revert N. apply near_imp. intros x H. unfold demo_f, meets. cbn [even_poly Nat.add pow]. field. lra.
  - apply (order_ext 1 (fun x => (/ (1 - snd x)) * (/ 2 * fst (fst x)))); [revert N; apply near_imp; intros x H; unfold demo_f; field; lra|].
    apply (order_mul 0 1); [|apply order_scale, order_arg1]. exists 2. revert N. apply near_imp. intros x H. rewrite pow_O, Rmult_1_r, Rabs_pos_eq; [|left; apply Rinv_0_lt_compat; lra].
    apply Rle_trans with (/ / 2); [apply Rinv_le_contravar; lra|right; field].
Qed.
Lemma units m : (2 <= m)%nat -> (Z.of_nat (simplex_size 3 m) <= 65536)%Z -> exists r k, taylor m (fun x => fst (fst x)) r /\ taylor m (fun x => snd x) k.
Proof.
  intros Hm Hs. destruct (iter_units m Hm) as (I1 & I2 & I3 & Q4). 
  exists (upd 1 1 (pzero (simplex_size 3 m))), (upd 3 1 (pzero (simplex_size 3 m))). split.
  - refine (taylor_ext m _ _ _ _ (taylor_unit m ltac:(lia) Hs _ _ 1 I1)). apply near_all. intros x. cbn. ring.
  - refine (taylor_ext m _ _ _ _ (taylor_unit m ltac:(lia) Hs _ _ 1 I3)). apply near_all. intros x. cbn. ring.
Qed.
Example C43_plane_asphere_example : exists r k, (1 <= 2)%nat /\ taylor 2 (fun x => fst (fst x)) r /\ taylor 2 (fun _ => 0) (pzero (simplex_size 3 2)) /\ taylor 2 (fun x => snd x) k /\
  (2 <= length [/ 2] + 1)%nat /\ sign 3 = 1 /\ near (fun x => demo_f x = sign 3 * even_poly 0 [/ 2] (meets (fst (fst x)) 0 (snd x) (demo_f x))) /\ order 1 demo_f.
Proof.
  destruct (units 2 ltac:(lia) ltac:(vm_compute; discriminate)) as (r & k & A & B). exists r, k. destruct demo_solves as (E & O). assert (S : sign 3 = 1) by (unfold sign; destruct (Rlt_dec 0 3); lra).
  rewrite S. split; [lia|]. split; [exact A|]. split; [apply taylor_zero|]. split; [exact B|]. split; [cbn; lia|]. split; [auto|]. split; [exact E|exact O].
Qed.
(** With fewer coefficients the number of iterations does not suffice: the paraboloid z = r^2/2 as single aspheric
    coefficient at truncation order three (the default) or more; the axial distance lacks the term r k / 2. *)
Theorem C43_rounds_refuted : forall m idx jdx abi, (3 <= m)%nat -> (Z.of_nat (simplex_size 3 m) <= 65536)%Z -> simplex_idx 3 m = Some (idx, jdx, abi) ->
  exists s d l R0 P K r p k f, s_c s = 0 /\ s_asph s = Some l /\ l <> [] /\
  taylor m R0 r /\ taylor m P p /\ taylor m K k /\ R0 origin = 0 /\ P origin = 0 /\ K origin = 0 /\
  near (fun x => f x = sign d * even_poly 0 l (meets (R0 x) (P x) (K x) (f x))) /\ order 1 f /\
  forall r' f' fr' g', intercept_poly abi m (simplex_size 3 m) s d r p k = Some (r', f', fr', g') -> ~ taylor m f f'.
Proof.
  intros m idx jdx abi Hm Hs Hi. assert (Hm1 : (1 <= m)%nat) by lia. destruct (units m ltac:(lia) Hs) as (r & k & TR & TK). destruct demo_solves as (E & O). assert (S : sign 1 = 1) by (unfold sign; destruct (Rlt_dec 0 1); lra).
  exists (Surf 0 0 (Some [/ 2]) false), 1, [/ 2], (fun x => fst (fst x)), (fun _ => 0), (fun x => snd x), r, (pzero (simplex_size 3 m)), k, demo_f. rewrite S.
  split; [auto|]. split; [auto|]. split; [discriminate|]. split; [exact TR|]. split; [apply taylor_zero|]. split; [exact TK|]. split; [auto|]. split; [auto|]. split; [auto|]. split; [exact E|]. split; [exact O|]. intros r' f' fr' g' IP TF.
  unfold intercept_poly in IP. cbn [s_c s_asph] in IP. rewrite Rmult_0_l in IP. destruct (Req_EM_T 0 0) as [_|N]; [|lra]. unfold plane_intercept_poly in IP. cbn [obind length asph_rounds] in IP. rewrite S in IP.
  assert (TD := taylor_df m idx jdx abi Hm1 Hs Hi 1 [/ 2] _ _ TR).
  set (df := asph_df abi (simplex_size 3 m) 1 [/ 2] r) in *. destruct (ppow abi m _ (- / 2)) as [g|] in IP; cbn [obind] in IP; [|discriminate IP]. injection IP as _ <- _ _.
  assert (TF2 : taylor m (fun x => 0 + 1 * even_poly 0 [/ 2] (fst (fst x))) (rvadd (pzero (simplex_size 3 m)) df)) by (apply (taylor_add m); [apply taylor_zero|exact TD]).
  assert (D : order m (fun x => demo_f x - (0 + 1 * even_poly 0 [/ 2] (fst (fst x))))).
  { destruct TF as (_ & A), TF2 as (_ & B). refine (order_ext m _ _ _ (order_sub _ _ _ A B)). apply near_all. intros x. ring. }
  apply (order_le 3 m _ Hm) in D. apply order_pos in D. destruct D as (C & C0 & (dl & DP & D)).
  destruct (beats (8 * C) (/ 2) (dl / 2) 2 3 ltac:(lra) ltac:(lra) ltac:(lia)) as (h & HP & HD & HH & HB).
  assert (SZ : size (h, 0, h) = 2 * h) by (unfold size; cbn [fst snd]; rewrite Rabs_R0, !Rabs_right by lra; ring).
  specialize (D (h, 0, h)). rewrite SZ in D. specialize (D ltac:(lra)). unfold demo_f in D. cbn [fst snd even_poly Nat.add] in D.
  replace (/ 2 * h / (1 - h) - (0 + 1 * (/ 2 * h ^ 1 + 0))) with (/ 2 * h ^ 2 * / (1 - h)) in D by (field; lra).
  assert (I : 1 <= / (1 - h)) by (rewrite <- Rinv_1; apply Rinv_le_contravar; lra).
  rewrite Rabs_right in D by (apply Rle_ge; apply Rmult_le_pos; nra).
  assert (/ 2 * h ^ 2 * 1 <= / 2 * h ^ 2 * / (1 - h)) by (apply Rmult_le_compat_l; nra). replace ((2 * h) ^ 3) with (8 * h ^ 3) in D by ring. lra.
Qed.
Example C43_rounds_refuted_example : (3 <= 3)%nat /\ (Z.of_nat (simplex_size 3 3) <= 65536)%Z /\ exists idx jdx abi, simplex_idx 3 3 = Some (idx, jdx, abi).
Proof. split; [lia|]. split; [vm_compute; discriminate|]. do 3 eexists; vm_compute; reflexivity. Qed.
Example C43_asphere_hit_example : surface_sag (Surf 0 0 (Some [1]) false) (V (2 + 4 * 0) (0 + 4 * 0) 4) = Some 0.
Proof. apply C43_asphere_hit. unfold meets. cbn. ring. Qed.
Print Assumptions C43_asphere_hit.
Print Assumptions C43_plane_asphere.
Print Assumptions C43_rounds_refuted.
