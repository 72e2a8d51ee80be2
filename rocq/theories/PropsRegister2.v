(** C77, continued: the theorems about registered point sets. *)
From Coq Require Import Reals List Bool Arith Lra Lia Psatz.
From Verif Require Import Base Vec RotEuler RotModel RotProofs QuatProofs ParaxialModel AffineModel PropsAffine TrackballModel PropsTrackball PropsDecompose3 RegisterModel PropsRegister.
Import ListNotations.
Open Scope R_scope.

(** ** specification *)
Definition centred (p0 p1 : list vec) : list (vec * vec) :=
  combine (map (fun p => vsub3 p (mean p0)) p0) (map (fun p => vsub3 p (mean p1)) p1).
(** what is expected of the decomposition that is used, at the matrix at which it is used *)
Definition solver_ok (svd3 : mat -> mat * vec * mat) (eigh : m4 -> list (R * v4)) (usesvd : bool) (l : list (vec * vec)) : Prop :=
  if usesvd then svd_ok (covariance l) (svd3 (covariance l)) else basis_ok (horn_matrix l) (eigh (horn_matrix l)).
(** sum of the squared distances from a point *)
Fixpoint spread (c : vec) (l : list vec) : R := match l with [] => 0 | p :: l => dot (vsub3 p c) (vsub3 p c) + spread c l end.
Definition motion (m : mat) (t : vec) (p : vec) : vec := vadd3 (mv m p) t.

(** ** sums *)
Lemma sub_add p c : vadd3 p (vneg c) = vsub3 p c. Proof. vec_ring. Qed.
Lemma vsum_shift c l : vsum (map (fun p => vsub3 p c) l) = vsub3 (vsum l) (vmul3 (INR (length l)) c).
Proof.
  induction l as [|p l IH]; [cbn [map vsum fold_right length INR]; vec_ring|]. cbn [map vsum fold_right]. change (fold_right vadd3 Vec.v0) with vsum. rewrite IH. cbn [length]. rewrite S_INR.
  generalize (INR (length l)), (vsum l). clear. intros. vec_ring.
Qed.
Lemma vsum_mean l : (0 < length l)%nat -> vsum (map (fun p => vsub3 p (mean l)) l) = v0.
Proof.
  intros H. rewrite vsum_shift. unfold mean. apply lt_0_INR in H. set (n := INR (length l)) in *. generalize (vsum l). intros [a b c]. vec_simpl. apply vec_eq; cbn; field; lra.
Qed.
Lemma combine_map {A B C D} (f : A -> B) (g : C -> D) l : forall k, combine (map f l) (map g k) = map (fun p => (f (fst p), g (snd p))) (combine l k).
Proof. induction l as [|x l IH]; intros [|y k]; cbn; auto. rewrite IH. auto. Qed.
Fixpoint sq0 (l : list (vec * vec)) : R := match l with [] => 0 | (a, _) :: l => dot a a + sq0 l end.
Fixpoint sq1 (l : list (vec * vec)) : R := match l with [] => 0 | (_, b) :: l => dot b b + sq1 l end.
Definition shifted (c0 c1 : vec) (l : list (vec * vec)) := map (fun p => (vsub3 (fst p) c0, vsub3 (snd p) c1)) l.
Lemma dev_shift m u c0 c1 l : deviation (motion m u) l =
  deviation (mv m) (shifted c0 c1 l) + 2 * dot (vsub3 (motion m u c0) c1) (vsub3 (mv m (vsum (map fst (shifted c0 c1 l)))) (vsum (map snd (shifted c0 c1 l))))
  + INR (length l) * dot (vsub3 (motion m u c0) c1) (vsub3 (motion m u c0) c1).
Proof.
  induction l as [|[p q] l IH].
  - cbn [deviation shifted map vsum fold_right length INR]. unfold motion. replace (mv m v0) with v0 by vec_ring. replace (vsub3 v0 v0) with v0 by vec_ring. generalize (vsub3 (vadd3 (mv m c0) u) c1). clear. intros. vec_ring.
  - cbn [deviation shifted map vsum fold_right length fst snd]. change (map _ l) with (shifted c0 c1 l). change (fold_right vadd3 v0) with vsum. rewrite IH, S_INR.
    generalize (deviation (mv m) (shifted c0 c1 l)) (vsum (map fst (shifted c0 c1 l))) (vsum (map snd (shifted c0 c1 l))) (INR (length l)). clear. intros D s0 s1 n.
    set (d := vsub3 (motion m u c0) c1). set (e := vsub3 (mv m (vsub3 p c0)) (vsub3 q c1)).
    replace (vsub3 (motion m u p) q) with (vadd3 e d) by (unfold e, d, motion; vec_ring).
    replace (mv m (vadd3 (vsub3 p c0) s0)) with (vadd3 (mv m (vsub3 p c0)) (mv m s0)) by vec_ring.
    replace (vsub3 (vadd3 (mv m (vsub3 p c0)) (mv m s0)) (vadd3 (vsub3 q c1) s1)) with (vadd3 e (vsub3 (mv m s0) s1)) by (unfold e; generalize (mv m (vsub3 p c0)) (mv m s0); clear; intros; vec_ring).
    generalize (vsub3 (mv m s0) s1). generalize d e. clear. intros. vec_ring.
Qed.
Lemma rot_dot q a : rotation q -> dot (mv q a) (mv q a) = dot a a.
Proof. intros R. rewrite !mv_vm. apply rotation_dot, rotation_mT; auto. Qed.
Lemma dev_score s q l : rotation q -> deviation (mv (mscale s q)) l = s * s * sq0 l + sq1 l - 2 * s * score q l.
Proof.
  intros R. induction l as [|[a b] l IH]; cbn [deviation sq0 sq1 score]; [ring|]. rewrite IH. assert (E := rot_dot q a R). replace (mv (mscale s q) a) with (vmul3 s (mv q a)) by (clear; unfold mscale; vec_ring).
  rewrite <- E. generalize (mv q a) (sq0 l) (sq1 l) (score q l). clear. intros. vec_ring.
Qed.
Lemma mscale_1 m : mscale 1 m = m. Proof. unfold mscale. vec_ring. Qed.
Lemma centred_shifted p0 p1 : centred p0 p1 = shifted (mean p0) (mean p1) (combine p0 p1).
Proof. unfold centred, shifted. apply (combine_map (fun p => vsub3 p (mean p0)) (fun p => vsub3 p (mean p1))). Qed.
Lemma map_fst_combine {A B} (l : list A) : forall (k : list B), length l = length k -> map fst (combine l k) = l.
Proof. induction l as [|x l IH]; intros [|y k] H; try discriminate; cbn; auto. rewrite IH; auto. Qed.
Lemma map_snd_combine {A B} (l : list A) : forall (k : list B), length l = length k -> map snd (combine l k) = k.
Proof. induction l as [|x l IH]; intros [|y k] H; try discriminate; cbn; auto. rewrite IH; auto. Qed.
Lemma dev_centred m u p0 p1 : (3 <= length p0)%nat -> length p0 = length p1 ->
  deviation (motion m u) (combine p0 p1) = deviation (mv m) (centred p0 p1) + INR (length p0) * dot (vsub3 (motion m u (mean p0)) (mean p1)) (vsub3 (motion m u (mean p0)) (mean p1)).
Proof.
  intros N L. rewrite (dev_shift m u (mean p0) (mean p1)), <- centred_shifted. unfold centred. rewrite map_fst_combine, map_snd_combine by (rewrite !map_length; auto).
  rewrite !vsum_mean by lia. rewrite combine_length, L, Nat.min_id. replace (vsub3 (mv m v0) v0) with v0 by vec_ring. set (d := vsub3 _ _). replace (dot d v0) with 0 by vec_ring. ring.
Qed.
(** the best rotation, with its translation, is the best motion of its scale *)
Lemma best_motion s r p0 p1 : (3 <= length p0)%nat -> length p0 = length p1 -> 0 <= s -> best (centred p0 p1) r ->
  forall q u, rotation q -> deviation (motion (mscale s r) (vsub3 (mean p1) (mv (mscale s r) (mean p0)))) (combine p0 p1) <= deviation (motion (mscale s q) u) (combine p0 p1).
Proof.
  intros N L S (R & B) q u Q. rewrite !dev_centred by auto. rewrite !dev_score by auto. specialize (B q Q).
  set (d := vsub3 (motion (mscale s r) _ _) _). replace d with v0 by (unfold d, motion; generalize (mscale s r) (mean p0) (mean p1); clear; intros; vec_ring). replace (dot v0 v0) with 0 by vec_ring.
  set (e := vsub3 _ _). assert (E := dot_nonneg e). assert (P := pos_INR (length p0)). nra.
Qed.
(** ** the result *)
Lemma total_spread c l : total (map (fun p => dot p p) (map (fun p => vsub3 p c) l)) = spread c l.
Proof. induction l as [|p l IH]; cbn; auto. f_equal. exact IH. Qed.
Section Solve.
Variable svd3 : mat -> mat * vec * mat.
Variable svd6 : list (vec * vec) -> (vec * vec) * (vec * vec) * (vec * vec).
Variable pinv : mat -> mat.
Variable eigh : m4 -> list (R * v4).
Variable inv : hmat -> option hmat.
Lemma result p0 p1 (shear scale usesvd : bool) m : inv_shift inv -> (3 <= length p0)%nat -> length p0 = length p1 ->
  (if shear then Some (affine_part svd6 pinv (centred p0 p1)) else if usesvd then Some (kabsch svd3 (centred p0 p1)) else horn eigh (centred p0 p1)) = Some m ->
  affine_matrix_from_points svd3 svd6 pinv eigh inv p0 p1 shear scale usesvd =
  do n <- (if scale && negb shear then do q <- fdiv (spread (mean p1) p1) (spread (mean p0) p0); do s <- fsqrt q; Some (mscale s m) else Some m);
  Some (HM n (vsub3 (mean p1) (mv n (mean p0))) v0 1).
Proof.
  intros I N L E. unfold affine_matrix_from_points. replace ((length p0 <? 3)%nat) with false by (symmetry; apply Nat.ltb_ge; lia). rewrite <- L, Nat.eqb_refl. cbn [orb negb].
  rewrite (map_ext (fun p => vadd3 p (vneg (mean p0))) (fun p => vsub3 p (mean p0)) (fun p => sub_add p (mean p0))).
  rewrite (map_ext (fun p => vadd3 p (vneg (mean p1))) (fun p => vsub3 p (mean p1)) (fun p => sub_add p (mean p1))).
  fold (centred p0 p1). rewrite E. cbn [obind]. rewrite !total_spread. match goal with |- obind ?o _ = _ => destruct o as [n|]; [|reflexivity] end. cbn [obind]. rewrite I. cbn [obind].
  generalize (mean p0) (mean p1). clear. intros c0 c1.
  replace (hmm (HM n v0 v0 1) (HM eye (vneg c0) v0 1)) with (HM n (vneg (mv n c0)) v0 1) by (unfold hmm, madd, outer; cbn [hl ht hp hw]; f_equal; vec_ring).
  generalize (mv n c0). intros e. replace (hmm (HM eye (vneg (vneg c1)) v0 1) (HM n (vneg e) v0 1)) with (HM n (vsub3 c1 e) v0 1) by (unfold hmm, madd, outer; cbn [hl ht hp hw]; f_equal; vec_ring).
  unfold hdiv. cbn [hl ht hp hw]. destruct (Req_EM_T 1 0); [lra|]. rewrite Rinv_1, mscale_1. generalize (vsub3 c1 e). clear. intros v. f_equal. f_equal; [vec_ring|vec_ring|field].
Qed.
Lemma solved p0 p1 (usesvd : bool) : solver_ok svd3 eigh usesvd (centred p0 p1) ->
  exists r, (if usesvd then Some (kabsch svd3 (centred p0 p1)) else horn eigh (centred p0 p1)) = Some r /\ best (centred p0 p1) r.
Proof.
  unfold solver_ok. destruct usesvd; intros H; [exists (kabsch svd3 (centred p0 p1)); split; [auto|]; apply kabsch_best; auto|apply horn_best; auto].
Qed.
(** Either solver finds the rigid motion with the least sum of squared deviations, for any two sets of points. *)
Theorem C77_best_motion p0 p1 usesvd : inv_shift inv -> solver_ok svd3 eigh usesvd (centred p0 p1) -> (3 <= length p0)%nat -> length p0 = length p1 ->
  exists r t, rotation r /\ superimposition_matrix svd3 svd6 pinv eigh inv p0 p1 false usesvd = Some (HM r t v0 1) /\
    forall q u, rotation q -> deviation (motion r t) (combine p0 p1) <= deviation (motion q u) (combine p0 p1).
Proof.
  intros I S N L. destruct (solved _ _ _ S) as (r & E & B). exists r, (vsub3 (mean p1) (mv r (mean p0))). split; [apply B|]. unfold superimposition_matrix. rewrite (result p0 p1 false false usesvd r) by auto.
  split; [reflexivity|]. intros q u Q. assert (K := best_motion 1 r p0 p1 N L ltac:(lra) B q u Q). rewrite !mscale_1 in K. auto.
Qed.
(** With a scale, the points become spread about their centroid as widely as the second ones, and no motion of the same scale does better. *)
Lemma spread_scaled s r t c l : rotation r -> spread (motion (mscale s r) t c) (map (motion (mscale s r) t) l) = s * s * spread c l.
Proof.
  intros R. induction l as [|p l IH]; cbn [spread map]; [ring|]. rewrite IH. replace (vsub3 (motion (mscale s r) t p) (motion (mscale s r) t c)) with (vmul3 s (mv r (vsub3 p c))) by (clear; unfold motion, mscale; vec_ring).
  rewrite dot_scale_l, dot_scale_r, rot_dot by auto. ring.
Qed.
Lemma spread_nonneg c l : 0 <= spread c l.
Proof. induction l as [|p l IH]; cbn [spread]; [lra|]. assert (K := dot_nonneg (vsub3 p c)). lra. Qed.
Lemma spread_same c l : spread c l = 0 -> forall p, In p l -> p = c.
Proof.
  induction l as [|p l IH]; cbn [spread]; intros H x; [intros []|]. assert (K := dot_nonneg (vsub3 p c)). assert (K' := spread_nonneg c l). intros [->|I]; [|apply IH; auto; lra].
  assert (Z : vsub3 x c = v0) by (apply dot_zero; lra). destruct x, c. vec_simpl. injection Z as Z1 Z2 Z3. f_equal; lra.
Qed.
Lemma spread_differ c l x y : In x l -> In y l -> x <> y -> 0 < spread c l.
Proof. intros X Y D. destruct (Rle_lt_or_eq_dec _ _ (spread_nonneg c l)) as [|E]; auto. exfalso. apply D. rewrite (spread_same c l (eq_sym E) x X), (spread_same c l (eq_sym E) y Y). auto. Qed.
Theorem C77_scaled p0 p1 usesvd x y : inv_shift inv -> solver_ok svd3 eigh usesvd (centred p0 p1) -> (3 <= length p0)%nat -> length p0 = length p1 -> In x p0 -> In y p0 -> x <> y ->
  exists s r t, 0 <= s /\ rotation r /\ superimposition_matrix svd3 svd6 pinv eigh inv p0 p1 true usesvd = Some (HM (mscale s r) t v0 1) /\
    motion (mscale s r) t (mean p0) = mean p1 /\ spread (mean p1) (map (motion (mscale s r) t) p0) = spread (mean p1) p1 /\
    forall q u, rotation q -> deviation (motion (mscale s r) t) (combine p0 p1) <= deviation (motion (mscale s q) u) (combine p0 p1).
Proof.
  intros I S N L X Y D. destruct (solved _ _ _ S) as (r & E & B). assert (P := spread_differ (mean p0) p0 x y X Y D). assert (P1 := spread_nonneg (mean p1) p1).
  assert (G : 0 <= spread (mean p1) p1 / spread (mean p0) p0) by (apply Rmult_le_pos; [auto|apply Rlt_le, Rinv_0_lt_compat; auto]).
  set (s := sqrt (spread (mean p1) p1 / spread (mean p0) p0)). assert (S0 : 0 <= s) by apply sqrt_pos. exists s, r, (vsub3 (mean p1) (mv (mscale s r) (mean p0))).
  split; [auto|]. split; [apply B|]. split; [|assert (CC : motion (mscale s r) (vsub3 (mean p1) (mv (mscale s r) (mean p0))) (mean p0) = mean p1) by (unfold motion; generalize (mscale s r) (mean p0) (mean p1); clear; intros; vec_ring); split; [exact CC|split]].
  - unfold superimposition_matrix. rewrite (result p0 p1 false true usesvd r) by auto. cbn [andb negb]. rewrite fdiv_some by lra. cbn [obind]. rewrite fsqrt_some by auto. reflexivity.
  - rewrite <- CC at 1. rewrite spread_scaled by apply B. unfold s. rewrite sqrt_sqrt by auto. field. lra.
  - intros q u Q. apply best_motion; auto.
Qed.
(** ** exact images *)
Lemma combine_self {A B} (f : A -> B) l : combine l (map f l) = map (fun p => (p, f p)) l.
Proof. induction l as [|x l IH]; cbn; auto. rewrite IH. auto. Qed.
Lemma deviation_nonneg f l : 0 <= deviation f l.
Proof. induction l as [|[p q] l IH]; cbn [deviation]; [lra|]. assert (K := dot_nonneg (vsub3 (f p) q)). lra. Qed.
Lemma deviation_zero f g l : deviation f (map (fun p => (p, g p)) l) = 0 <-> forall p, In p l -> f p = g p.
Proof.
  induction l as [|x l IH]; cbn [deviation map]; [split; [intros _ p []|auto]|]. assert (K := dot_nonneg (vsub3 (f x) (g x))). assert (K' := deviation_nonneg f (map (fun p => (p, g p)) l)). split.
  - intros H p [->|P]; [|apply IH; auto; lra]. assert (Z : vsub3 (f p) (g p) = v0) by (apply dot_zero; lra). clear - Z. destruct (f p), (g p). vec_simpl. injection Z as Z1 Z2 Z3. f_equal; lra.
  - intros H. rewrite (proj2 IH (fun p P => H p (or_intror P))). rewrite (H x (or_introl eq_refl)). generalize (g x). clear. intros. vec_ring.
Qed.
Lemma mean_motion m t l : (0 < length l)%nat -> mean (map (motion m t) l) = motion m t (mean l).
Proof.
  intros H. apply lt_0_INR in H. unfold mean. rewrite map_length. assert (E : vsum (map (motion m t) l) = vadd3 (mv m (vsum l)) (vmul3 (INR (length l)) t)).
  { clear. induction l as [|p l IH]; [cbn [map vsum fold_right length INR]; unfold motion; vec_ring|]. cbn [map vsum fold_right]. change (fold_right vadd3 Vec.v0) with vsum. rewrite IH. cbn [length]. rewrite S_INR. unfold motion. generalize (INR (length l)), (vsum l). clear. intros. vec_ring. }
  rewrite E. set (n := INR (length l)) in *. generalize (vsum l). clear - H. intros v. unfold motion. destruct m as [[] [] []], v, t. vec_simpl. apply vec_eq; cbn; field; lra.
Qed.
Theorem C77_exact k g t p0 usesvd (scale : bool) x y : inv_shift inv -> rotation g -> 0 < k -> let p1 := map (motion (mscale k g) t) p0 in
  solver_ok svd3 eigh usesvd (centred p0 p1) -> (3 <= length p0)%nat -> (if scale then In x p0 /\ In y p0 /\ x <> y else k = 1) ->
  exists m, superimposition_matrix svd3 svd6 pinv eigh inv p0 p1 scale usesvd = Some m /\ forall p, In p p0 -> hmv m (HV p 1) = HV (motion (mscale k g) t p) 1.
Proof.
  intros I G K p1 S N SC. assert (L : length p0 = length p1) by (unfold p1; rewrite map_length; auto).
  assert (CO : combine p0 p1 = map (fun p => (p, motion (mscale k g) t p)) p0) by apply combine_self.
  assert (FIN : forall s r u, s = k -> rotation r -> (forall q v, rotation q -> deviation (motion (mscale s r) u) (combine p0 p1) <= deviation (motion (mscale s q) v) (combine p0 p1)) ->
    forall p, In p p0 -> hmv (HM (mscale s r) u v0 1) (HV p 1) = HV (motion (mscale k g) t p) 1).
  { intros s r u -> RR B p P. specialize (B g t G). rewrite CO in B. rewrite (proj2 (deviation_zero _ _ _) (fun p _ => eq_refl)) in B. assert (Z : deviation (motion (mscale k r) u) (map (fun p => (p, motion (mscale k g) t p)) p0) = 0) by (apply Rle_antisym; [auto|apply deviation_nonneg]).
    rewrite deviation_zero in Z. rewrite <- (Z p P). unfold hmv, motion. cbn [hl ht hp hw hv h4]. generalize (mscale k r). clear. intros. f_equal; vec_ring. }
  destruct scale.
  - destruct SC as (X & Y & D). destruct (C77_scaled p0 p1 usesvd x y I S N L X Y D) as (s & r & u & S0 & RR & E & CC & SP & B). exists (HM (mscale s r) u v0 1). split; [exact E|]. apply FIN; auto.
    assert (P := spread_differ (mean p0) p0 x y X Y D). assert (SS : s * s * spread (mean p0) p0 = k * k * spread (mean p0) p0).
    { rewrite <- (spread_scaled s r u (mean p0) p0) by auto. rewrite CC, SP. unfold p1. rewrite mean_motion by lia. apply spread_scaled; auto. }
    assert (Z : (s - k) * (s + k) = 0) by (apply (Rmult_eq_reg_r (spread (mean p0) p0)); nra). apply Rmult_integral in Z. lra.
  - destruct (C77_best_motion p0 p1 usesvd I S N L) as (r & u & RR & E & B). exists (HM r u v0 1). split; [exact E|]. rewrite <- (mscale_1 r). apply FIN; auto. intros q v Q. rewrite !mscale_1. auto.
Qed.
(** ** refused arguments *)
Theorem C77_refused p0 p1 shear scale usesvd : (length p0 < 3)%nat \/ length p0 <> length p1 -> affine_matrix_from_points svd3 svd6 pinv eigh inv p0 p1 shear scale usesvd = None.
Proof.
  intros H. unfold affine_matrix_from_points. replace (_ || _)%bool with true; [reflexivity|]. symmetry. apply orb_true_iff. destruct H; [left; apply Nat.ltb_lt; auto|right; apply negb_true_iff, Nat.eqb_neq; auto].
Qed.
End Solve.
