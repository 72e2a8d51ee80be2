(** C77, end: the affine branch, the scale, and the examples. *)
From Coq Require Import Reals List Bool Arith Lra Lia Psatz.
From Verif Require Import Base Vec RotEuler RotModel RotProofs QuatProofs ParaxialModel AffineModel PropsAffine TrackballModel PropsTrackball PropsDecompose3 RegisterModel PropsRegister PropsRegister2.
Import ListNotations.
Open Scope R_scope.

(** ** specification *)
(** vectors of six entries *)
Definition dot6 (a b : vec * vec) : R := dot (fst a) (fst b) + dot (snd a) (snd b).
Fixpoint gram (l : list (vec * vec)) (w z : vec * vec) : R := match l with [] => 0 | r :: l => dot6 r w * dot6 r z + gram l w z end.
(** what is expected of the singular value decomposition of the rows [l]: its first three right singular vectors,
    orthonormal, with falling singular values, whose squares are [s0], [s1], [s2], no direction across them having a larger one *)
Definition singular3 (l : list (vec * vec)) (s0 s1 s2 : R) (r : (vec * vec) * (vec * vec) * (vec * vec)) : Prop :=
  let '(a, b, c) := r in
  dot6 a a = 1 /\ dot6 b b = 1 /\ dot6 c c = 1 /\ dot6 a b = 0 /\ dot6 a c = 0 /\ dot6 b c = 0 /\ s2 <= s1 <= s0 /\
  (forall z, gram l a z = s0 * dot6 a z) /\ (forall z, gram l b z = s1 * dot6 b z) /\ (forall z, gram l c z = s2 * dot6 c z) /\
  (forall z, dot6 a z = 0 -> dot6 b z = 0 -> dot6 c z = 0 -> gram l z z <= s2 * dot6 z z).
(** what is expected of the pseudo-inverse *)
Definition pinv_ok (b p : mat) : Prop := mm b (mm p b) = b /\ mm p (mm b p) = p /\ mT (mm b p) = mm b p /\ mT (mm p b) = mm p b.
(** not in a plane *)
Definition solid (l : list vec) : Prop := forall n, (forall p q, In p l -> In q l -> dot n (vsub3 p q) = 0) -> n = v0.

(** ** vectors of six entries *)
Definition add6 (a b : vec * vec) : vec * vec := (vadd3 (fst a) (fst b), vadd3 (snd a) (snd b)).
Definition scale6 (s : R) (a : vec * vec) : vec * vec := (vmul3 s (fst a), vmul3 s (snd a)).
Lemma dot6_comm a b : dot6 a b = dot6 b a. Proof. destruct a, b. unfold dot6. cbn [fst snd]. vec_ring. Qed.
Lemma dot6_add a b c : dot6 (add6 a b) c = dot6 a c + dot6 b c. Proof. destruct a, b, c. unfold dot6, add6. cbn [fst snd]. vec_ring. Qed.
Lemma dot6_scale s a c : dot6 (scale6 s a) c = s * dot6 a c. Proof. destruct a, c. unfold dot6, scale6. cbn [fst snd]. vec_ring. Qed.
Lemma gram_nonneg l w : 0 <= gram l w w.
Proof. induction l as [|r l IH]; cbn [gram]; [lra|]. assert (K := sq_nn (dot6 r w)). lra. Qed.
Lemma gram_zero l w : gram l w w = 0 -> forall r, In r l -> dot6 r w = 0.
Proof.
  induction l as [|x l IH]; cbn [gram]; intros H r; [intros []|]. assert (K := sq_nn (dot6 x w)). assert (K' := gram_nonneg l w). intros [->|I]; [|apply IH; auto; lra].
  assert (Z : dot6 r w * dot6 r w = 0) by lra. apply Rmult_integral in Z. lra.
Qed.
Lemma gram_orth l w z : (forall r, In r l -> dot6 r z = 0) -> gram l w z = 0.
Proof. induction l as [|x l IH]; intros H; cbn [gram]; auto. rewrite IH by (intros r I; apply H; right; auto). rewrite (H x (or_introl eq_refl)). ring. Qed.
Lemma dot6_zero a : dot6 a a = 0 -> a = (v0, v0).
Proof. destruct a as [x y]. unfold dot6. cbn [fst snd]. intros H. assert (A := dot_nonneg x). assert (B := dot_nonneg y). f_equal; apply dot_zero; lra. Qed.
(** something across two vectors *)
Lemma across a b : exists n, n <> v0 /\ dot n a = 0 /\ dot n b = 0.
Proof.
  assert (E1 : ex <> v0) by (intros E; injection E; lra).
  assert (P : forall v, exists n, n <> v0 /\ dot n v = 0).
  { intros [x y z]. destruct (Req_EM_T x 0) as [->|X]; [exists ex; split; [auto|vec_ring]|]. exists (V y (- x) 0). split; [intros E; injection E; lra|vec_ring]. }
  destruct (Req_EM_T (dot a a) 0) as [Z|Z]; [apply dot_zero in Z; subst; destruct (P b) as (n & N & D); exists n; repeat split; auto; vec_ring|].
  destruct (Req_EM_T (dot (cross a b) (cross a b)) 0) as [C|C].
  - destruct (P a) as (n & N & D). exists n. repeat split; auto. apply dot_zero in C.
    assert (K : dot a a * dot n b = dot a b * dot n a + dot (cross a b) (cross a n)) by (clear; vec_ring). rewrite C, D in K. replace (dot v0 (cross a n)) with 0 in K by (clear; vec_ring). apply (Rmult_eq_reg_l (dot a a)); auto. lra.
  - exists (cross a b). split; [intros E; apply C; rewrite E; vec_ring|]. split; vec_ring.
Qed.
Lemma left_right a b : mm a b = eye -> mm b a = eye.
Proof.
  intros H. assert (D : det a * det b = 1) by (rewrite <- det_mm, H; apply det_eye). assert (DB : det b <> 0) by (intros E; rewrite E in D; lra).
  assert (K := cofactor_mul b). set (c := mT (cofactor b)) in *. replace (M _ _ _) with (mscale (det b) eye) in K by (unfold mscale; reflexivity).
  assert (E : c = mscale (det b) a). { rewrite <- (mm_eye_l c), <- H, <- mm_assoc, K. clear. generalize (det b). intros. unfold mscale. vec_ring. }
  rewrite E in K. replace (mm b (mscale (det b) a)) with (mscale (det b) (mm b a)) in K by (clear; generalize (det b); intros; unfold mscale; vec_ring). clear - K DB. set (m := mm b a) in *. generalize dependent m. generalize dependent (det b). clear. intros d D [[m00 m01 m02] [m10 m11 m12] [m20 m21 m22]] H. unfold mscale in H. vec_simpl. injection H as H0 H1 H2 H3 H4 H5 H6 H7 H8.
  apply mat_eq; apply vec_eq; cbn; apply (Rmult_eq_reg_l d); auto; lra.
Qed.
Section Affine.
Variable svd3 : mat -> mat * vec * mat.
Variable svd6 : list (vec * vec) -> (vec * vec) * (vec * vec) * (vec * vec).
Variable pinv : mat -> mat.
Variable eigh : m4 -> list (R * v4).
Variable inv : hmat -> option hmat.
Definition firsts (r : (vec * vec) * (vec * vec) * (vec * vec)) : mat := let '(a, b, c) := r in mT (M (fst a) (fst b) (fst c)).
Lemma positive l g s0 s1 s2 r : (forall p, In p l -> snd p = mv g (fst p)) -> (forall n, (forall p, In p l -> dot n (fst p) = 0) -> n = v0) -> singular3 l s0 s1 s2 r -> 0 < s2.
Proof.
  destruct r as [[a b] c]. intros G SO (A & B & C & AB & AC & BC & ORD & GA & GB & GC & REST). assert (N2 := gram_nonneg l c). rewrite GC, C in N2.
  destruct (Rle_lt_or_eq_dec 0 s2) as [|Z]; [lra|auto|]. exfalso. subst s2.
  assert (CZ := gram_zero l c ltac:(rewrite GC; ring)).
  destruct (across (fst a) (fst b)) as (n & NZ & NA & NB). apply NZ, SO. intros p P. specialize (CZ p P).
  set (z := add6 p (add6 (scale6 (- dot6 p a) a) (scale6 (- dot6 p b) b))).
  assert (ZA : dot6 a z = 0) by (unfold z; rewrite dot6_comm, !dot6_add, !dot6_scale, A, (dot6_comm b a), AB; ring).
  assert (ZB : dot6 b z = 0) by (unfold z; rewrite dot6_comm, !dot6_add, !dot6_scale, B, AB; ring).
  assert (ZC : dot6 c z = 0) by (unfold z; rewrite dot6_comm, !dot6_add, !dot6_scale, AC, BC, CZ; ring).
  assert (ZZ := REST z ZA ZB ZC). assert (ZN := gram_nonneg l z). assert (PZ := gram_zero l z ltac:(lra) p P).
  assert (Z0 : dot6 z z = 0) by (unfold z at 1; rewrite !dot6_add, !dot6_scale, ZA, ZB, PZ; ring). apply dot6_zero in Z0.
  assert (F : dot n (fst z) = 0) by (rewrite Z0; cbn; vec_ring). unfold z, add6, scale6 in F. cbn [fst] in F. rewrite !dot_add_r, !dot_scale_r, NA, NB in F. lra.
Qed.
Lemma in_rows l s w : 0 < s -> (forall z, gram l w z = s * dot6 w z) -> forall z, (forall r, In r l -> dot6 r z = 0) -> dot6 w z = 0.
Proof. intros S G z Z. assert (K := G z). rewrite (gram_orth l w z Z) in K. apply (Rmult_eq_reg_l s); lra. Qed.
Lemma row_image l g s w : (forall p, In p l -> snd p = mv g (fst p)) -> 0 < s -> (forall z, gram l w z = s * dot6 w z) -> snd w = mv g (fst w).
Proof.
  intros G S W. assert (K : forall e, dot (snd w) e = dot (mv g (fst w)) e).
  { intros e. assert (J : forall x, dot x (vneg (vm e g)) + dot (mv g x) e = 0) by (clear; intros; vec_ring). assert (Z := in_rows l s w S W (vneg (vm e g), e)). unfold dot6 in Z. cbn [fst snd] in Z. specialize (J (fst w)) as J1. rewrite <- Z in J1; [lra|].
    intros r I. rewrite (G r I). apply J. }
  assert (KX := K ex). assert (KY := K ey). assert (KZ := K ez). generalize dependent (mv g (fst w)). intros [x y z] K0 KX KY KZ. destruct (snd w) as [x' y' z']. clear - KX KY KZ. vec_simpl. f_equal; lra.
Qed.
Lemma affine_exact l g s0 s1 s2 : (forall p, In p l -> snd p = mv g (fst p)) -> (forall n, (forall p, In p l -> dot n (fst p) = 0) -> n = v0) ->
  singular3 l s0 s1 s2 (svd6 l) -> pinv_ok (firsts (svd6 l)) (pinv (firsts (svd6 l))) -> affine_part svd6 pinv l = g.
Proof.
  intros G SO S. assert (P2 := positive l g s0 s1 s2 _ G SO S). unfold affine_part. destruct (svd6 l) as [[a b] c]. destruct S as (A & B & C & AB & AC & BC & ORD & GA & GB & GC & REST).
  intros (P & _ & _ & _). unfold firsts in *. set (m := mT (M (fst a) (fst b) (fst c))) in *. set (p := pinv m) in *. clearbody p.
  assert (EA := row_image l g s0 a G ltac:(lra) GA). assert (EB := row_image l g s1 b G ltac:(lra) GB). assert (EC := row_image l g s2 c G ltac:(lra) GC).
  replace (mT (M (snd a) (snd b) (snd c))) with (mm g m) by (unfold m; rewrite EA, EB, EC; generalize (fst a) (fst b) (fst c); clear; intros; vec_ring).
  assert (INJ : forall k, mv m k = v0 -> k = v0).
  { intros k K. assert (W : add6 (scale6 (vx k) a) (add6 (scale6 (vy k) b) (scale6 (vz k) c)) = (v0, v0)).
    { unfold add6, scale6. cbn [fst snd]. rewrite EA, EB, EC. assert (Z : vadd3 (vmul3 (vx k) (fst a)) (vadd3 (vmul3 (vy k) (fst b)) (vmul3 (vz k) (fst c))) = v0) by (rewrite <- K; unfold m; generalize (fst a) (fst b) (fst c); clear; intros; vec_ring).
      rewrite Z. f_equal. transitivity (mv g v0); [rewrite <- Z; generalize (fst a) (fst b) (fst c); clear; intros; vec_ring|clear; vec_ring]. }
    assert (Z : forall t, dot6 (v0, v0) t = 0) by (clear; intros [x y]; unfold dot6; cbn [fst snd]; vec_ring).
    assert (WA := Z a). assert (WB := Z b). assert (WC := Z c). rewrite <- W, !dot6_add, !dot6_scale in WA, WB, WC. rewrite A, (dot6_comm b a), (dot6_comm c a), AB, AC in WA. rewrite AB, B, (dot6_comm c b), BC in WB. rewrite AC, BC, C in WC.
    clear - WA WB WC. destruct k. cbn in *. vec_simpl. f_equal; lra. }
  assert (PB : mm p m = eye).
  { set (d := madd (mm p m) (mscale (-1) eye)). assert (MD : mm m d = M v0 v0 v0).
    { transitivity (madd (mm m (mm p m)) (mscale (-1) m)); [unfold d; generalize (mm p m); clear; clearbody m; intros; unfold madd, mscale; vec_ring|]. rewrite P. clear. clearbody m. unfold madd, mscale. vec_ring. }
    assert (D0 : d = M v0 v0 v0).
    { assert (DT : forall i, mv m (mv d i) = v0) by (intros i; transitivity (mv (mm m d) i); [clearbody d m; clear; vec_ring|rewrite MD; clear; vec_ring]).
      assert (D1 := INJ _ (DT ex)). assert (D2 := INJ _ (DT ey)). assert (D3 := INJ _ (DT ez)). clearbody d. clear - D1 D2 D3. destruct d as [[] [] []]. vec_simpl. injection D1 as; injection D2 as; injection D3 as. apply mat_eq; apply vec_eq; cbn; lra. }
    unfold d in D0. clear d MD. revert D0. generalize (mm p m). clear. intros [[] [] []] D0. unfold madd, mscale in D0. vec_simpl. injection D0 as. apply mat_eq; apply vec_eq; cbn; lra. }
  rewrite <- mm_assoc, (left_right _ _ PB). apply mm_eye_r.
Qed.
(** Points that are not in a plane and an affine image of them: the affine map is found. *)
Theorem C77_affine p0 g t s0 s1 s2 scale usesvd : inv_shift inv -> let p1 := map (motion g t) p0 in let c := centred p0 p1 in
  (3 <= length p0)%nat -> solid p0 -> singular3 c s0 s1 s2 (svd6 c) -> pinv_ok (firsts (svd6 c)) (pinv (firsts (svd6 c))) ->
  affine_matrix_from_points svd3 svd6 pinv eigh inv p0 p1 true scale usesvd = Some (HM g t v0 1).
Proof.
  intros I p1 c N SO S P. assert (L : length p0 = length p1) by (unfold p1; rewrite map_length; auto). assert (M1 : mean p1 = motion g t (mean p0)) by (apply mean_motion; lia).
  assert (CI : forall r, In r c <-> exists p, In p p0 /\ r = (vsub3 p (mean p0), mv g (vsub3 p (mean p0)))).
  { intros r. unfold c. rewrite centred_shifted. unfold shifted. rewrite in_map_iff. unfold p1 at 2. rewrite combine_self. rewrite M1. split.
    - intros ((p & q) & <- & J). apply in_map_iff in J. destruct J as (y & E & J). injection E as -> <-. exists p. split; auto. cbn [fst snd]. f_equal. unfold motion. generalize (mean p0). clear. intros. vec_ring.
    - intros (p & J & ->). exists (p, motion g t p). split; [|apply in_map_iff; eauto]. cbn [fst snd]. f_equal. unfold motion. generalize (mean p0). clear. intros. vec_ring. }
  rewrite (result svd3 svd6 pinv eigh inv p0 p1 true scale usesvd g); auto.
  - rewrite andb_false_r. cbn [obind]. rewrite M1. unfold motion. replace (vsub3 _ _) with t; [reflexivity|]. generalize (mean p0). clear. intros. vec_ring.
  - f_equal. fold c. apply (affine_exact c g s0 s1 s2); auto.
    + intros r R. apply CI in R. destruct R as (p & _ & ->). reflexivity.
    + intros n H. apply SO. intros p q J1 J2. assert (H1 := H (vsub3 p (mean p0), mv g (vsub3 p (mean p0))) (proj2 (CI _) (ex_intro _ p (conj J1 eq_refl)))). assert (H2 := H (vsub3 q (mean p0), mv g (vsub3 q (mean p0))) (proj2 (CI _) (ex_intro _ q (conj J2 eq_refl)))).
      cbn [fst] in H1, H2. rewrite !sub_dot_r in *. lra.
Qed.
End Affine.
(** ** the scale is not the best one *)
Lemma mean_zero l : vsum l = v0 -> mean l = v0.
Proof. intros H. unfold mean. rewrite H. generalize (/ INR (length l)). intros. vec_ring. Qed.
Lemma centred_zero p0 p1 : vsum p0 = v0 -> vsum p1 = v0 -> centred p0 p1 = combine p0 p1.
Proof.
  intros A B. unfold centred. rewrite (mean_zero _ A), (mean_zero _ B). assert (K : forall l, map (fun p => vsub3 p v0) l = l) by (intros l; rewrite <- (map_id l) at 2; apply map_ext; intros; vec_ring). rewrite !K. auto.
Qed.
Definition cross0 := [V 1 0 0; V (-1) 0 0; V 0 1 0; V 0 (-1) 0].
Definition cross1 := [V 1 0 0; V (-1) 0 0; V 0 0 0; V 0 0 0].
(** The docstring promises the least sum of squared deviations for similarity transformations; for these four points a smaller image fits better, whatever the solver returns. *)
Theorem C77_scale_refuted : length cross0 = length cross1 /\
  forall svd3 svd6 pinv eigh inv usesvd, inv_shift inv -> solver_ok svd3 eigh usesvd (centred cross0 cross1) ->
  exists m t, superimposition_matrix svd3 svd6 pinv eigh inv cross0 cross1 true usesvd = Some (HM m t v0 1) /\
    exists s r u, 0 < s /\ rotation r /\ deviation (motion (mscale s r) u) (combine cross0 cross1) < deviation (motion m t) (combine cross0 cross1).
Proof.
  split; [reflexivity|]. intros svd3 svd6 pinv eigh inv usesvd I S. assert (N : (3 <= length cross0)%nat) by (cbn; lia).
  assert (Z0 : vsum cross0 = v0) by (unfold cross0, vsum; cbn [fold_right]; vec_ring). assert (Z1 : vsum cross1 = v0) by (unfold cross1, vsum; cbn [fold_right]; vec_ring).
  destruct (C77_scaled svd3 svd6 pinv eigh inv cross0 cross1 usesvd (V 1 0 0) (V (-1) 0 0) I S N eq_refl) as (s & r & t & S0 & R & E & CC & SP & B); [left; auto|right; left; auto|intros H; injection H; lra|].
  exists (mscale s r), t. split; [exact E|]. exists (1 / 2), eye, v0. split; [lra|]. split; [apply rotation_eye|].
  assert (SS : s * s = 1 / 2).
  { rewrite <- CC, spread_scaled in SP by auto. rewrite CC in SP. rewrite !mean_zero in SP by auto. unfold cross0, cross1 in SP. cbn [spread] in SP. vec_simpl. lra. }
  assert (D1 : deviation (motion (mscale (1 / 2) eye) v0) (combine cross0 cross1) = 1) by (unfold cross0, cross1, motion, mscale; cbn [combine deviation]; vec_simpl; field).
  rewrite D1, (dev_centred (mscale s r) t) by auto. assert (P := dot_nonneg (vsub3 (motion (mscale s r) t (mean cross0)) (mean cross1))). assert (PN := pos_INR (length cross0)). rewrite dev_score by auto.
  rewrite centred_zero by auto. assert (O := orth_rows r (rotation_orth r R)). destruct O as (O & _). set (x := INR _ * _). assert (X : 0 <= x) by (apply Rmult_le_pos; auto). clearbody x. clear - SS S0 O X.
  destruct r as [[r00 r01 r02] [r10 r11 r12] [r20 r21 r22]]. unfold cross0, cross1. cbn [combine sq0 sq1 score]. vec_simpl. assert (SB : s < 71 / 100) by nra. nra.
Qed.
Example C77_scale_example : let l := centred cross0 cross1 in
  solver_ok (fun _ => (eye, V 2 0 0, eye)) (fun _ => []) true l /\ inv_shift (fun m => Some (HM eye (vneg (ht m)) v0 1)).
Proof.
  cbv zeta. split; [|intros t; reflexivity].
  rewrite centred_zero by (unfold cross0, cross1, vsum; cbn [fold_right]; vec_ring). unfold cross0, cross1, solver_ok, svd_ok. cbn [combine].
  assert (O : orthogonal eye) by (split; vec_ring). split; [exact O|]. split; [exact O|]. cbn [vx vy vz]. split; [lra|]. split; [lra|].
  unfold covariance, diag. cbn [map fold_right fst snd]. mat_lra.
Qed.
(** ** three points *)
Definition triangle := [V 1 1 0; V (-1) 1 0; V 0 (-2) 0].
(** The docstring asks for at least three points; a decomposition that meets all of its promises may make the affine branch flatten a triangle that is to be mapped to itself. *)
Theorem C77_three_points_refuted : exists svd6 pinv inv s0 s1 s2, let c := centred triangle triangle in
  inv_shift inv /\ singular3 c s0 s1 s2 (svd6 c) /\ pinv_ok (firsts (svd6 c)) (pinv (firsts (svd6 c))) /\
  forall svd3 eigh scale usesvd, exists m, affine_matrix_from_points svd3 svd6 pinv eigh inv triangle triangle true scale usesvd = Some m /\
    In (V 1 1 0) triangle /\ hmv m (HV (V 1 1 0) 1) = HV (V 0 1 0) 1.
Proof.
  set (h := sqrt (1 / 2)). assert (H : h * h = 1 / 2) by (apply sqrt_sqrt; lra).
  set (r := ((V 0 h 0, V 0 h 0), (V h 0 0, V h 0 0), (V h 0 0, V (- h) 0 0))). set (p := M (V 0 (2 * h) 0) (V h 0 0) (V h 0 0)).
  exists (fun _ => r), (fun _ => p), (fun m => Some (HM eye (vneg (ht m)) v0 1)), 12, 4, 0. cbv zeta. assert (I : inv_shift (fun m => Some (HM eye (vneg (ht m)) v0 1))) by (intros t; reflexivity). split; [exact I|].
  assert (Z : vsum triangle = v0) by (unfold triangle, vsum; cbn [fold_right]; vec_ring). rewrite centred_zero by auto.
  assert (P1 : h * (2 * h) = 1) by lra. split; [|split].
  - unfold r, singular3, triangle. cbn [combine gram].
    assert (DZ : forall u v z, dot6 (u, v) z = dot u (fst z) + dot v (snd z)) by reflexivity. repeat split; try lra.
    1-6: unfold dot6; cbn [fst snd]; vec_simpl; lra.
    1-3: intros [[a b c] [d e f]]; unfold dot6; cbn [fst snd]; vec_simpl; ring.
    intros [[a b c] [d e f]]. unfold dot6. cbn [fst snd]. vec_simpl. intros K1 K2 K3. assert (HN : h <> 0) by (intros Q; rewrite Q in H; lra).
    assert (J1 : b + e = 0) by (apply (Rmult_eq_reg_l h); auto; lra). assert (J2 : a + d = 0) by (apply (Rmult_eq_reg_l h); auto; lra). replace e with (- b) by lra. replace d with (- a) by lra. apply Req_le. ring.
  - unfold pinv_ok, firsts, r, p. cbn [fst snd].
    assert (K3 : h * h * h = h / 2) by (rewrite H; field). clearbody h.
    repeat split; cbv [mm mv vm mT col0 col1 col2 vx vy vz row0 row1 row2 dot]; apply mat_eq; apply vec_eq; cbn; try ring; try nra; lra.
  - intros svd3 eigh scale usesvd. eexists. split; [rewrite (result svd3 (fun _ => r) (fun _ => p) eigh _ triangle triangle true scale usesvd _ I ltac:(cbn; lia) eq_refl eq_refl), andb_false_r; reflexivity|].
    split; [left; auto|]. rewrite (mean_zero _ Z). unfold affine_part, r, p, hmv. cbn [fst snd hl ht hp hw hv h4].
    f_equal; [|vec_ring]. cbv [mm mv vm mT col0 col1 col2 vx vy vz row0 row1 row2 dot vadd3 vsub3 vmul3 v0]. apply vec_eq; cbn; nra.
Qed.
(** ** examples: a tetrahedron, its copy, its mirror image, and a moved copy *)
Definition tetra := [V 1 1 1; V 1 (-1) (-1); V (-1) 1 (-1); V (-1) (-1) 1].
Lemma tetra_zero : vsum tetra = v0. Proof. unfold tetra, vsum. cbn [fold_right]. vec_ring. Qed.
Definition unit4 : list (R * v4) := [(12, V4 1 0 0 0); (-4, V4 0 1 0 0); (-4, V4 0 0 1 0); (-4, V4 0 0 0 1)].
Lemma tetra_matrix : covariance (combine tetra tetra) = diag (V 4 4 4) /\ horn_matrix (combine tetra tetra) = M4 (V4 12 0 0 0) (V4 0 (-4) 0 0) (V4 0 0 (-4) 0) (V4 0 0 0 (-4)).
Proof. split; [unfold covariance, tetra, diag; cbn [combine map fold_right fst snd]; mat_lra|]. unfold horn_matrix, tetra, total. cbn [combine map fold_right fst snd vx vy vz]. f_equal; f_equal; lra. Qed.
Lemma unit4_ok : basis_ok (M4 (V4 12 0 0 0) (V4 0 (-4) 0 0) (V4 0 0 (-4) 0) (V4 0 0 0 (-4))) unit4.
Proof.
  split.
  - unfold unit4. repeat apply Forall_cons; try apply Forall_nil; (split; [unfold mv4, smul4, dot4; cbn [fst snd w0 w1 w2 w3 q0 q1 q2 q3]; f_equal; ring|unfold dot4; cbn [fst snd w0 w1 w2 w3]; ring]).
  - intros [a b c d]. unfold unit4. cbn [expand snd]. unfold add4, smul4, dot4. cbn [w0 w1 w2 w3]. f_equal; ring.
Qed.
Lemma orth_eye : orthogonal eye. Proof. split; vec_ring. Qed.
Example C77_best_motion_example : forall usesvd, inv_shift (fun m => Some (HM eye (vneg (ht m)) v0 1)) /\
  solver_ok (fun _ => (eye, V 4 4 4, eye)) (fun _ => unit4) usesvd (centred tetra tetra) /\ (3 <= length tetra)%nat /\
  In (V 1 1 1) tetra /\ In (V 1 (-1) (-1)) tetra /\ V 1 1 1 <> V 1 (-1) (-1).
Proof.
  intros usesvd. split; [intros t; reflexivity|]. rewrite centred_zero by apply tetra_zero. destruct tetra_matrix as (A & B). split; [|split; [cbn; lia|split; [left; auto|split; [right; left; auto|intros H; injection H; lra]]]].
  destruct usesvd; unfold solver_ok.
  - rewrite A. split; [apply orth_eye|]. split; [apply orth_eye|]. cbn [vx vy vz]. split; [lra|]. split; [lra|]. unfold diag. vec_ring.
  - rewrite B. apply unit4_ok.
Qed.
(** the mirror image: the decomposition has no rotation for it, and the best one leaves a deviation *)
Definition mirrored := map (fun p => V (vx p) (vy p) (- vz p)) tetra.
Example C77_mirror_example : let svd := (M (V 1 0 0) (V 0 1 0) (V 0 0 (-1)), V 4 4 4, eye) in
  svd_ok (covariance (centred tetra mirrored)) svd /\ kabsch (fun _ => svd) (centred tetra mirrored) = eye /\ ~ In (V 1 1 1) mirrored.
Proof.
  cbv zeta. rewrite centred_zero by (try apply tetra_zero; unfold mirrored, tetra, vsum; cbn [map fold_right vx vy vz]; vec_ring). split; [|split].
  - unfold svd_ok. split; [split; vec_ring|]. split; [apply orth_eye|]. cbn [vx vy vz]. split; [lra|]. split; [lra|]. unfold covariance, mirrored, tetra, diag. cbn [combine map fold_right fst snd vx vy vz]. mat_lra.
  - unfold kabsch. replace (det _) with (-1) by vec_ring. destruct (Rlt_dec (-1) 0); [|lra]. mat_lra.
  - unfold mirrored, tetra. cbn [map In vx vy vz]. intros [H|[H|[H|[H|[]]]]]; injection H; lra.
Qed.
Example C77_exact_example : let p1 := map (motion (mscale (4 / 3) eye) (V 1 0 0)) tetra in
  0 < 4 / 3 /\ rotation eye /\ solver_ok (fun _ => (eye, V (16 / 3) (16 / 3) (16 / 3), eye)) (fun _ => []) true (centred tetra p1).
Proof.
  cbv zeta. split; [lra|]. split; [apply rotation_eye|].
  assert (E : centred tetra (map (motion (mscale (4 / 3) eye) (V 1 0 0)) tetra) = map (fun p => (p, vmul3 (4 / 3) p)) tetra).
  { rewrite centred_shifted, combine_self, mean_motion by (cbn; lia). rewrite (mean_zero _ tetra_zero). unfold shifted. rewrite map_map. apply map_ext. intros p. cbn [fst snd]. f_equal; unfold motion, mscale; vec_ring. }
  rewrite E. unfold solver_ok, svd_ok. split; [apply orth_eye|]. split; [apply orth_eye|]. cbn [vx vy vz]. split; [lra|]. split; [lra|]. unfold covariance, tetra, diag. cbn [combine map fold_right fst snd]. mat_lra.
Qed.
Example C77_affine_example : let g := mscale (4 / 3) eye in let p1 := map (motion g (V 1 0 0)) tetra in let c := centred tetra p1 in
  let r := ((V (3 / 5) 0 0, V (4 / 5) 0 0), (V 0 (3 / 5) 0, V 0 (4 / 5) 0), (V 0 0 (3 / 5), V 0 0 (4 / 5))) in
  solid tetra /\ singular3 c (100 / 9) (100 / 9) (100 / 9) r /\ pinv_ok (firsts r) (mscale (5 / 3) eye).
Proof.
  cbv zeta. assert (E : centred tetra (map (motion (mscale (4 / 3) eye) (V 1 0 0)) tetra) = map (fun p => (p, vmul3 (4 / 3) p)) tetra).
  { rewrite centred_shifted, combine_self, mean_motion by (cbn; lia). rewrite (mean_zero _ tetra_zero). unfold shifted. rewrite map_map. apply map_ext. intros p. cbn [fst snd]. f_equal; unfold motion, mscale; vec_ring. }
  rewrite E. clear E. split; [|split].
  - intros [a b c] H. assert (H1 := H (V 1 1 1) (V 1 (-1) (-1)) ltac:(left; auto) ltac:(right; left; auto)). assert (H2 := H (V 1 1 1) (V (-1) 1 (-1)) ltac:(left; auto) ltac:(right; right; left; auto)).
    assert (H3 := H (V 1 1 1) (V (-1) (-1) 1) ltac:(left; auto) ltac:(right; right; right; left; auto)). clear H. vec_simpl. f_equal; lra.
  - unfold singular3, tetra. cbn [map gram]. repeat split; try lra.
    1-6: unfold dot6; cbn [fst snd]; vec_simpl; lra.
    1-3: intros [[a b c] [d e f]]; unfold dot6; cbn [fst snd]; vec_simpl; field.
    intros [[a b c] [d e f]]. unfold dot6. cbn [fst snd]. vec_simpl. intros K1 K2 K3. assert (J1 : a = - (4 / 3) * d) by lra. assert (J2 : b = - (4 / 3) * e) by lra. assert (J3 : c = - (4 / 3) * f) by lra. subst a b c.
    assert (D := sq_nn d). assert (E := sq_nn e). assert (F := sq_nn f). match goal with |- ?x <= _ => replace x with 0 by field end. nra.
  - unfold pinv_ok, firsts. cbn [fst snd]. repeat split; mat_lra.
Qed.
