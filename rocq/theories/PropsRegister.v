(** C77: registration of point sets finds the best rigid motion, and what its scale and its affine branch do. *)
From Coq Require Import Reals List Bool Arith Lra Lia Psatz.
From Verif Require Import Base Vec RotEuler RotModel RotProofs QuatProofs ParaxialModel AffineModel PropsAffine TrackballModel PropsTrackball PropsDecompose3 RegisterModel.
Import ListNotations.
Open Scope R_scope.

(** ** specification *)
(** sum of squared distances of the images of the first points from the second ones *)
Fixpoint deviation (f : vec -> vec) (l : list (vec * vec)) : R :=
  match l with [] => 0 | (p, q) :: l => dot (vsub3 (f p) q) (vsub3 (f p) q) + deviation f l end.
(** what is expected of the singular value decomposition *)
Definition orthogonal (m : mat) : Prop := mm m (mT m) = eye /\ mm (mT m) m = eye.
Definition diag (s : vec) : mat := M (V (vx s) 0 0) (V 0 (vy s) 0) (V 0 0 (vz s)).
Definition svd_ok (h : mat) (r : mat * vec * mat) : Prop :=
  let '(u, s, vh) := r in orthogonal u /\ orthogonal vh /\ 0 <= vz s <= vy s /\ vy s <= vx s /\ h = mm u (mm (diag s) vh).
(** what is expected of the eigenvalue routine: eigenvectors along which every vector can be taken apart *)
Definition add4 (a b : v4) : v4 := V4 (w0 a + w0 b) (w1 a + w1 b) (w2 a + w2 b) (w3 a + w3 b).
Fixpoint expand (v : v4) (l : list (R * v4)) : v4 :=
  match l with [] => V4 0 0 0 0 | e :: l => add4 (smul4 (dot4 v (snd e)) (snd e)) (expand v l) end.
Definition basis_ok (k : m4) (l : list (R * v4)) : Prop := Forall (eigen k) l /\ forall v, expand v l = v.
(** inverse of a translation *)
Definition inv_shift (inv : hmat -> option hmat) : Prop := forall t, inv (HM eye t v0 1) = Some (HM eye (vneg t) v0 1).

(** ** products with rotations *)
Definition frob (a b : mat) : R := dot (row0 a) (row0 b) + dot (row1 a) (row1 b) + dot (row2 a) (row2 b).
Fixpoint score (q : mat) (l : list (vec * vec)) : R := match l with [] => 0 | (a, b) :: l => dot b (mv q a) + score q l end.
Lemma score_frob q l : score q l = frob q (covariance l).
Proof.
  induction l as [|[a b] l IH]; [destruct q as [[] [] []]; unfold frob, covariance; cbn [score map fold_right]; vec_simpl; ring|].
  cbn [score]. rewrite IH. unfold covariance. cbn [map fold_right fst snd]. fold (covariance l). generalize (covariance l). intros c. clear IH.
  unfold frob, madd, outer. vec_ring.
Qed.
Lemma frob_svd q u s vh : frob q (mm u (mm (diag s) vh)) = frob (diag s) (mm vh (mm (mT q) u)).
Proof.
  assert (K : forall a b x, frob a (mm b x) = frob (mm (mT b) a) x) by (clear; unfold frob; intros; vec_ring). rewrite K.
  replace (mm (mT q) u) with (mT (mm (mT u) q)) by (rewrite mT_mm, mT_mT; auto). generalize (mm (mT u) q). clear K. intros a. clear. unfold frob, diag. vec_ring.
Qed.
Lemma orth_det m : orthogonal m -> det m = 1 \/ det m = -1.
Proof.
  intros (H & _). apply (f_equal det) in H. rewrite det_mm, det_mT, det_eye in H. assert (E : (det m - 1) * (det m + 1) = 0) by (ring_simplify; ring_simplify in H; lra).
  destruct (Rmult_integral _ _ E); [left|right]; lra.
Qed.
Lemma orth_mm a b : orthogonal a -> orthogonal b -> orthogonal (mm a b).
Proof.
  intros (A & A') (B & B'). split; rewrite mT_mm.
  - rewrite mm_assoc, <- (mm_assoc a b), B, mm_eye_r. auto.
  - rewrite mm_assoc, <- (mm_assoc (mT b) (mT a)), A', mm_eye_r. auto.
Qed.
Lemma orth_mT a : orthogonal a -> orthogonal (mT a).
Proof. intros (A & A'). split; rewrite mT_mT; auto. Qed.
Lemma rotation_orth a : rotation a -> orthogonal a.
Proof. intros (A & B & _). split; auto. Qed.
Lemma orth_rows m : orthogonal m -> vx (row0 m) <= 1 /\ vy (row1 m) <= 1 /\ vz (row2 m) <= 1.
Proof.
  intros (H & _). destruct m as [[a b c] [d e f] [g h i]]. vec_simpl. injection H as H0 _ _ _ H4 _ _ _ H8. clear - H0 H4 H8.
  assert (K : forall p q r, p * p + q * q + r * r = 1 -> p <= 1) by (clear; intros p q r H; destruct (Rle_dec p 1); [auto|]; assert (Q := sq_nn q); assert (R := sq_nn r); nra).
  repeat split; [apply (K a b c)|apply (K e d f)|apply (K i g h)]; lra.
Qed.
(** the trace bound *)
Lemma bound_pos s o : 0 <= vz s <= vy s -> vy s <= vx s -> orthogonal o -> frob (diag s) o <= vx s + vy s + vz s.
Proof. intros S1 S2 O. destruct (orth_rows o O) as (A & B & C). destruct s as [s0 s1 s2], o as [[a b c] [d e f] [g h i]]. unfold frob, diag. vec_simpl. clear O.
  assert (K : forall t k, 0 <= t -> k <= 1 -> t * k <= t) by (clear; intros; nra). assert (K0 := K s0 a). assert (K1 := K s1 e). assert (K2 := K s2 i). lra. Qed.
Lemma bound_neg s o : 0 <= vz s <= vy s -> vy s <= vx s -> orthogonal o -> det o = -1 -> frob (diag s) o <= vx s + vy s - vz s.
Proof.
  intros S1 S2 O D. assert (R : rotation (mscale (-1) o)).
  { destruct O as (O1 & O2). split; [|split].
    - rewrite <- O1. clear. mat_ring.
    - rewrite <- O2. clear. mat_ring.
    - replace 1 with (- det o) by lra. clear. mat_ring. }
  destruct (rotation_quat _ R) as (p & U & E). rewrite unit_qN in E by auto. destruct p as [w x y z]. unfold qdot in U. cbn [qw qx qy qz] in U.
  destruct s as [s0 s1 s2], o as [[a b c] [d e f] [g h i]]. unfold qN, mscale in E. unfold frob, diag. vec_simpl. injection E as E0 _ _ _ E4 _ _ _ E8. clear O R D.
  assert (X := sq_nn x). assert (Y := sq_nn y). assert (Z := sq_nn z). assert (W := sq_nn w). set (xx := x * x) in *. set (yy := y * y) in *. set (zz := z * z) in *. set (ww := w * w) in *.
  replace a with (2 * (yy + zz) - 1) by lra. replace e with (2 * (xx + zz) - 1) by lra. replace i with (2 * (xx + yy) - 1) by lra.
  assert (A : s0 * (yy + zz) + s1 * (xx + zz) + s2 * (xx + yy) <= (s0 + s1) * (xx + yy + zz)) by nra. assert (B : (s0 + s1) * (xx + yy + zz) <= s0 + s1) by nra. lra.
Qed.
Definition best (l : list (vec * vec)) (r : mat) : Prop := rotation r /\ forall q, rotation q -> score q l <= score r l.
Lemma kabsch_best svd3 l : svd_ok (covariance l) (svd3 (covariance l)) -> best l (kabsch svd3 l).
Proof.
  unfold kabsch, svd_ok. destruct (svd3 (covariance l)) as [[u s] vh]. intros (U & VV & S1 & S2 & H).
  assert (RO := orth_mm _ _ U VV). assert (OQ : forall q, rotation q -> orthogonal (mm vh (mm (mT q) u))) by (intros q Q; apply orth_mm; auto; apply orth_mm; auto; apply orth_mT, rotation_orth; auto).
  assert (DQ : forall q, rotation q -> det (mm vh (mm (mT q) u)) = det (mm u vh)) by (intros q (_ & _ & Q); rewrite !det_mm, det_mT, Q; ring).
  assert (SC : forall q, score q l = frob (diag s) (mm vh (mm (mT q) u))) by (intros q; rewrite score_frob, H; apply frob_svd).
  destruct (Rlt_dec (det (mm u vh)) 0) as [L|L].
  - assert (D : det (mm u vh) = -1) by (destruct (orth_det _ RO); auto; lra).
    set (j := M (V 1 0 0) (V 0 1 0) (V 0 0 (-1))). replace (madd (mm u vh) _) with (mm u (mm j vh)) by (unfold j; mat_ring).
    assert (J : orthogonal j) by (split; unfold j; mat_ring). assert (R : rotation (mm u (mm j vh))).
    { assert (O : orthogonal (mm u (mm j vh))) by (apply orth_mm; auto; apply orth_mm; auto). split; [apply O|]. split; [apply O|]. rewrite !det_mm. rewrite det_mm in D. replace (det j) with (-1) by (unfold j; mat_ring). lra. }
    split; auto. intros q Q. rewrite !SC. apply Rle_trans with (vx s + vy s - vz s); [apply bound_neg; auto; rewrite DQ; auto|]. apply Req_le. destruct U as (_ & U), VV as (VV & _).
    rewrite !mT_mm, <- !mm_assoc, U, mm_eye_r, mm_assoc, VV, mm_eye_l. clear. unfold frob, diag, j. vec_ring.
  - assert (D : det (mm u vh) = 1) by (destruct (orth_det _ RO); auto; lra). split; [split; [apply RO|split; [apply RO|auto]]|].
    intros q Q. rewrite !SC. apply Rle_trans with (vx s + vy s + vz s); [apply bound_pos; auto|]. apply Req_le. destruct U as (_ & U), VV as (VV & _).
    rewrite !mT_mm, <- !mm_assoc, U, mm_eye_r, VV. clear. unfold frob, diag. vec_ring.
Qed.
(** ** the quaternion of Horn *)
Lemma unit_dot4 p : qdot p p = 1 -> dot4 (V4 (qw p) (qx p) (qy p) (qz p)) (V4 (qw p) (qx p) (qy p) (qz p)) = 1.
Proof. intros U. rewrite <- U. unfold dot4, qdot. cbn. ring. Qed.
Lemma horn_form l w x y z : score (qN (Q w x y z)) l = dot4 (V4 w x y z) (mv4 (horn_matrix l) (V4 w x y z)).
Proof.
  unfold horn_matrix. induction l as [|[[a b c] [d e f]] l IH]; [unfold dot4, mv4, dot4; cbn; ring|]. cbn [score]. rewrite IH. clear IH. cbn [map fst snd vx vy vz].
  assert (TC : forall u v, total (u :: v) = u + total v) by reflexivity. rewrite !TC. repeat match goal with |- context [total ?t] => generalize (total t); intro end. unfold dot4, mv4, dot4, qN. vec_simpl. cbn [w0 w1 w2 w3 q0 q1 q2 q3]. ring.
Qed.
Lemma horn_sym l a b : dot4 a (mv4 (horn_matrix l) b) = dot4 (mv4 (horn_matrix l) a) b.
Proof. unfold horn_matrix, dot4, mv4, dot4. cbn [w0 w1 w2 w3 q0 q1 q2 q3]. ring. Qed.
Fixpoint squares (v : v4) (l : list (R * v4)) : R := match l with [] => 0 | e :: l => dot4 v (snd e) * dot4 v (snd e) + squares v l end.
Fixpoint weighted (v : v4) (l : list (R * v4)) : R := match l with [] => 0 | e :: l => fst e * (dot4 v (snd e) * dot4 v (snd e)) + weighted v l end.
Lemma expand_squares v l : dot4 v (expand v l) = squares v l.
Proof. induction l as [|[x e] l IH]; cbn [expand squares snd]; [unfold dot4; cbn; ring|]. rewrite <- IH. generalize (expand v l). intros. unfold add4, smul4, dot4. cbn. ring. Qed.
Lemma expand_weighted h v l : Forall (eigen (horn_matrix h)) l -> dot4 (mv4 (horn_matrix h) v) (expand v l) = weighted v l.
Proof.
  intros F. induction F as [|[x e] l (E & _) F IH]; cbn [expand weighted fst snd] in *; [unfold dot4; cbn; ring|]. rewrite <- IH. rewrite <- !horn_sym. generalize (expand v l). intros k.
  replace (mv4 (horn_matrix h) (add4 (smul4 (dot4 v e) e) k)) with (add4 (smul4 (dot4 v e) (mv4 (horn_matrix h) e)) (mv4 (horn_matrix h) k)).
  - rewrite E. unfold add4, smul4, dot4. cbn [w0 w1 w2 w3]. ring.
  - generalize (horn_matrix h). intros [a b c d]. unfold mv4, add4, smul4, dot4. cbn [w0 w1 w2 w3 q0 q1 q2 q3]. f_equal; ring.
Qed.
Lemma weighted_le m v l : (forall e, In e l -> fst e <= m) -> weighted v l <= m * squares v l.
Proof.
  induction l as [|e l IH]; intros H; cbn [weighted squares]; [lra|]. specialize (IH (fun x I => H x (or_intror I))). specialize (H e (or_introl eq_refl)).
  assert (S := sq_nn (dot4 v (snd e))). nra.
Qed.
Lemma horn_best eigh l : basis_ok (horn_matrix l) (eigh (horn_matrix l)) -> exists r, horn eigh l = Some r /\ best l r.
Proof.
  intros (F & X). unfold horn. destruct (eigh (horn_matrix l)) as [|e es]; [specialize (X (V4 1 0 0 0)); cbn in X; injection X; lra|].
  destruct (top_in es e) as (I & MX). set (t := top e es) in *. assert (E : eigen (horn_matrix l) t) by (rewrite Forall_forall in F; auto). destruct E as (E & U).
  destruct (snd t) as [a b c d] eqn:T. cbn [w0 w1 w2 w3]. replace (sqrt _) with 1 by (unfold dot4 in U; cbn in U; rewrite U; symmetry; apply sqrt_1).
  rewrite !fdiv_some by lra. cbn [obind]. eexists. split; [reflexivity|]. replace (Q (a / 1) (b / 1) (c / 1) (d / 1)) with (Q a b c d) by (f_equal; field).
  assert (UQ : qdot (Q a b c d) (Q a b c d) = 1) by (rewrite <- U; unfold dot4, qdot; cbn; ring). split; [apply quaternion_matrix_rotation|].
  intros q R. destruct (rotation_quat q R) as (p & UP & <-). rewrite !unit_qN by auto. destruct p as [w x y z]. rewrite !horn_form. rewrite E.
  replace (dot4 (V4 a b c d) (smul4 (fst t) (V4 a b c d))) with (fst t * dot4 (V4 a b c d) (V4 a b c d)) by (unfold dot4, smul4; cbn; ring). rewrite U, Rmult_1_r.
  apply unit_dot4 in UP. cbn in UP. set (v := V4 w x y z) in *. rewrite horn_sym. rewrite <- (X v) at 2. rewrite (expand_weighted l v _ F). apply Rle_trans with (fst t * squares v (e :: es)); [apply weighted_le; auto|].
  rewrite <- expand_squares, X, UP. lra.
Qed.
