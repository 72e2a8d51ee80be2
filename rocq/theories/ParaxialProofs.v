(** Symplectic structure of the paraxial matrices. *)
From Coq Require Import Reals List Lra Lia Psatz.
From Verif Require Import Base Vec RotModel PlacementModel ElementModel ParaxialModel.
Import ListNotations.
Open Scope R_scope.

Lemma v4_eq a b : w0 a = w0 b -> w1 a = w1 b -> w2 a = w2 b -> w3 a = w3 b -> a = b.
Proof. destruct a, b; cbn; intros; subst; auto. Qed.
Lemma m4_eq a b : q0 a = q0 b -> q1 a = q1 b -> q2 a = q2 b -> q3 a = q3 b -> a = b.
Proof. destruct a, b; cbn; intros; subst; auto. Qed.
Ltac m4_ring :=
  repeat match goal with |- @eq m4 _ _ => apply m4_eq | |- @eq v4 _ _ => apply v4_eq end;
  unfold mm4, mv4, mT4, dot4, eye4; cbn [q0 q1 q2 q3 w0 w1 w2 w3]; ring.

Lemma mv4_mm4 a b v : mv4 (mm4 a b) v = mv4 a (mv4 b v).
Proof. m4_ring. Qed.
Lemma mm4_eye_l a : mm4 eye4 a = a.
Proof. destruct a as [[] [] [] []]. m4_ring. Qed.
Lemma mm4_eye_r a : mm4 a eye4 = a.
Proof. destruct a as [[] [] [] []]. m4_ring. Qed.
Lemma dot4_comm a b : dot4 a b = dot4 b a.
Proof. unfold dot4. ring. Qed.
Lemma mT4_mT4 a : mT4 (mT4 a) = a.
Proof. destruct a as [[] [] [] []]. reflexivity. Qed.
Lemma mT4_mm4 a b : mT4 (mm4 a b) = mm4 (mT4 b) (mT4 a).
Proof.
  unfold mm4 at 2. rewrite mT4_mT4. unfold mm4, mv4. set (c := mT4 b).
  unfold mT4. cbn [q0 q1 q2 q3 w0 w1 w2 w3].
  rewrite ?(dot4_comm (q0 c)), ?(dot4_comm (q1 c)), ?(dot4_comm (q2 c)), ?(dot4_comm (q3 c)). reflexivity.
Qed.
Lemma mm4_assoc a b c : mm4 a (mm4 b c) = mm4 (mm4 a b) c.
Proof.
  unfold mm4 at 1 3. rewrite mT4_mm4, !mv4_mm4. reflexivity.
Qed.

(** symplectic form on rays *)
Definition omega (a b : v4) : R := w0 a * w2 b - w2 a * w0 b + (w1 a * w3 b - w3 a * w1 b).
Definition symplectic (m : m4) : Prop := forall a b, omega (mv4 m a) (mv4 m b) = omega a b.

Lemma symplectic_mm a b : symplectic a -> symplectic b -> symplectic (mm4 a b).
Proof. intros A B x y. rewrite !mv4_mm4. rewrite A. apply B. Qed.
Lemma symplectic_eye : symplectic eye4.
Proof. intros x y. unfold omega, mv4, dot4, eye4. cbn [q0 q1 q2 q3 w0 w1 w2 w3]. ring. Qed.

Lemma transfer_symplectic d n0 m : transfer_matrix d n0 = Some m -> symplectic m.
Proof.
  unfold transfer_matrix. destruct (fdiv d n0) as [t|]; [|discriminate]. cbn [obind]. intros E. injection E as <-.
  intros x y. unfold omega, mv4, dot4. cbn [q0 q1 q2 q3 w0 w1 w2 w3]. ring.
Qed.

Lemma refraction_symplectic mt c ct n0 n m : refraction_matrix mt c ct n0 n = Some m -> symplectic m.
Proof.
  unfold refraction_matrix. destruct mt as [mt|].
  2:{ intros E. injection E as <-. apply symplectic_eye. }
  destruct (m_mirror mt).
  - destruct (fdiv (2 * c) ct) as [b|]; [|discriminate]. cbn [obind]. intros E. injection E as <-.
    intros x y. unfold omega, mv4, dot4. cbn [q0 q1 q2 q3 w0 w1 w2 w3]. ring.
  - destruct (fdiv n n0) as [mu|]; [|discriminate]. cbn [obind].
    destruct (fsqrt _) as [p|]; [|discriminate]. cbn [obind].
    destruct (fdiv p _) as [m11|]; [|discriminate]. cbn [obind].
    destruct (fdiv (mu * _) _) as [m31|]; [|discriminate]. cbn [obind].
    destruct (fdiv 1 m11) as [m33|] eqn:E3; [|discriminate]. cbn [obind].
    apply fdiv_inv in E3. destruct E3 as (N & ->). intros E. injection E as <-.
    intros x y. unfold omega, mv4, dot4. cbn [q0 q1 q2 q3 w0 w1 w2 w3]. field. auto.
Qed.

Lemma azimuth_symplectic phi : sin phi * cos phi = 0 -> symplectic (azimuth_matrix phi) /\ symplectic (mT4 (azimuth_matrix phi)).
Proof.
  intros Z. pose proof (sin2_cos2 phi) as S. unfold Rsqr in S.
  split; intros x y; unfold omega, mv4, dot4, azimuth_matrix, mT4; cbn [q0 q1 q2 q3 w0 w1 w2 w3];
    set (c := cos phi) in *; set (s := sin phi) in *; clearbody c s.
  - transitivity ((s * s + c * c) * (w0 x * w2 y - w2 x * w0 y + (w1 x * w3 y - w3 x * w1 y))
      - 2 * (s * c) * (w0 x * w3 y - w3 x * w0 y + (w1 x * w2 y - w2 x * w1 y))); [ring|]. rewrite S, Z. ring.
  - transitivity ((s * s + c * c) * (w0 x * w2 y - w2 x * w0 y + (w1 x * w3 y - w3 x * w1 y))
      + 2 * (s * c) * (w0 x * w3 y - w3 x * w0 y + (w1 x * w2 y - w2 x * w1 y))); [ring|]. rewrite S, Z. ring.
Qed.

(** determinant *)
Definition det3' a b c d e f g h i : R := a * (e * i - f * h) - b * (d * i - f * g) + c * (d * h - e * g).
Definition det4 (m : m4) : R :=
  let '(M4 (V4 a b c d) (V4 e f g h) (V4 i j k l) (V4 p q r s)) := m in
  a * det3' f g h j k l q r s - b * det3' e g h i k l p r s
  + c * det3' e f h i j l p q s - d * det3' e f g i j k p q r.
Lemma det4_mm a b : det4 (mm4 a b) = det4 a * det4 b.
Proof.
  destruct a as [[a0 a1 a2 a3] [a4 a5 a6 a7] [a8 a9 a10 a11] [a12 a13 a14 a15]].
  destruct b as [[b0 b1 b2 b3] [b4 b5 b6 b7] [b8 b9 b10 b11] [b12 b13 b14 b15]].
  unfold mm4, mv4, mT4, dot4. cbn [q0 q1 q2 q3 w0 w1 w2 w3]. unfold det4, det3'. ring.
Qed.

Lemma det4_mT m : det4 (mT4 m) = det4 m.
Proof.
  destruct m as [[a0 a1 a2 a3] [a4 a5 a6 a7] [a8 a9 a10 a11] [a12 a13 a14 a15]].
  unfold mT4. cbn [q0 q1 q2 q3 w0 w1 w2 w3]. unfold det4, det3'. ring.
Qed.
(** Pfaffian identity *)
Lemma symplectic_det m : symplectic m -> det4 m = 1.
Proof.
  intros K.
  destruct m as [[a0 a1 a2 a3] [a4 a5 a6 a7] [a8 a9 a10 a11] [a12 a13 a14 a15]].
  pose proof (K (V4 1 0 0 0) (V4 0 1 0 0)) as K01. pose proof (K (V4 1 0 0 0) (V4 0 0 1 0)) as K02.
  pose proof (K (V4 1 0 0 0) (V4 0 0 0 1)) as K03. pose proof (K (V4 0 1 0 0) (V4 0 0 1 0)) as K12.
  pose proof (K (V4 0 1 0 0) (V4 0 0 0 1)) as K13. pose proof (K (V4 0 0 1 0) (V4 0 0 0 1)) as K23.
  clear K. unfold omega, mv4, dot4 in *. cbn [q0 q1 q2 q3 w0 w1 w2 w3] in *.
  match type of K01 with ?x = _ => set (k01 := x) in * end.
  match type of K02 with ?x = _ => set (k02 := x) in * end.
  match type of K03 with ?x = _ => set (k03 := x) in * end.
  match type of K12 with ?x = _ => set (k12 := x) in * end.
  match type of K13 with ?x = _ => set (k13 := x) in * end.
  match type of K23 with ?x = _ => set (k23 := x) in * end.
  transitivity (k02 * k13 - k01 * k23 - k03 * k12).
  - unfold k01, k02, k03, k12, k13, k23, det4, det3'. ring.
  - rewrite K01, K02, K03, K12, K13, K23. ring.
Qed.
Lemma azimuth_det phi : det4 (azimuth_matrix phi) = (sin phi * sin phi - cos phi * cos phi) ^ 2.
Proof. unfold azimuth_matrix, det4, det3'. ring. Qed.

Lemma azimuth_conj_symplectic phi m : symplectic m ->
  (symplectic (mm4 (azimuth_matrix phi) (mm4 m (mT4 (azimuth_matrix phi)))) <-> sin phi * cos phi = 0).
Proof.
  intros S. split.
  - intros H. apply symplectic_det in H. apply symplectic_det in S.
    rewrite !det4_mm, det4_mT, azimuth_det in H. pose proof (sin2_cos2 phi) as T. unfold Rsqr in T.
    set (s := sin phi) in *. set (c := cos phi) in *. clearbody s c.
    assert (Z : (s * s - c * c) ^ 2 = 1 - 4 * (s * c) * (s * c)).
    { replace 1 with ((s * s + c * c) * (s * s + c * c)) by (rewrite T; ring). ring. }
    set (z := (s * s - c * c) ^ 2) in *.
    assert (ZP : 0 <= z) by (unfold z; apply pow2_ge_0).
    rewrite S in H. assert (H' : z * z = 1) by lra.
    assert (Z1 : z = 1).
    { destruct (Rtotal_order z 1) as [L|[L|L]]; [exfalso|auto|exfalso].
      - nra.
      - nra. }
    nra.
  - intros Z. destruct (azimuth_symplectic phi Z) as [A B]. apply symplectic_mm; auto. apply symplectic_mm; auto.
Qed.

(** ** compositions *)
Definition after (es : list element) (n l : R) : R := fold_left (fun n e => index_after e n l) es n.

Lemma matrices_app xs : forall ys n l, matrices (xs ++ ys) n l = matrices xs n l ++ matrices ys (after xs n l) l.
Proof.
  induction xs as [|e xs IH]; intros ys n l; [reflexivity|].
  cbn [app matrices after fold_left]. unfold paraxial_matrix at 1 2.
  destruct (e_kind e); cbn [app]; f_equal; apply IH.
Qed.
Lemma paraxial_fst e n l : fst (paraxial_matrix e n l) = index_after e n l.
Proof. unfold paraxial_matrix. destruct (e_kind e); reflexivity. Qed.

Lemma first_index_after es l : first_index (rev es) l = after es 1 l.
Proof.
  induction es as [|e es IH] using rev_ind; [reflexivity|].
  rewrite rev_unit. unfold after. rewrite fold_left_app. cbn [fold_left first_index]. fold (after es 1 l).
  unfold index_after. rewrite <- IH. destruct (e_kind e) as [|[m|] s]; auto.
Qed.
Lemma refractive_index_after es l i : refractive_index es l i = after (firstn (S i) es) 1 l.
Proof. apply first_index_after. Qed.

Definition mfold (acc : R * option m4) (l : list (R * option m4)) : R * option m4 :=
  fold_left (fun '(_, m) '(n, mi) => (n, do m <- m; do mi <- mi; Some (mm4 mi m))) l acc.
Lemma mfold_acc l : forall n m, snd (mfold (n, m) l) = (do m <- m; do m' <- snd (mfold (n, Some eye4) l); Some (mm4 m' m)).
Proof.
  induction l as [|[n' mi] l IH]; intros n m; cbn [mfold fold_left snd].
  - destruct m as [m|]; cbn [obind]; [|reflexivity]. rewrite mm4_eye_l. reflexivity.
  - change (snd (mfold (n', do m <- m; do mi <- mi; Some (mm4 mi m)) l) =
      (do m <- m; do m' <- snd (mfold (n', do m0 <- Some eye4; do mi <- mi; Some (mm4 mi m0)) l); Some (mm4 m' m))).
    rewrite (IH n' (do m <- m; _)), (IH n' (do m0 <- Some eye4; _)).
    destruct m as [m|]; cbn [obind]; [|reflexivity].
    destruct mi as [mi|]; cbn [obind]; [|reflexivity]. rewrite mm4_eye_r.
    destruct (snd (mfold (n', Some eye4) l)) as [m'|]; cbn [obind]; [|reflexivity].
    rewrite mm4_assoc. reflexivity.
Qed.
Lemma mfold_fst l : forall n n' m m', l <> [] -> fst (mfold (n, m) l) = fst (mfold (n', m') l).
Proof.
  induction l as [|[k mi] l IH]; intros n n' m m' N; [contradiction|].
  destruct l as [|x l]; [reflexivity|]. cbn [mfold fold_left]. apply (IH k k); discriminate.
Qed.
Lemma mfold_app a x y : mfold a (x ++ y) = mfold (mfold a x) y.
Proof. apply fold_left_app. Qed.
Lemma sys_matrix_mfold es l a b : sys_matrix es l a b = mfold (1, Some eye4) (paraxial_matrices es l a b).
Proof. reflexivity. Qed.

Lemma slice_split es a b c : (a <= b <= c)%nat -> slice es a (Some c) = slice es a (Some b) ++ slice es b (Some c).
Proof.
  intros H. unfold slice. rewrite <- (firstn_skipn b (firstn c es)) at 1.
  rewrite firstn_firstn, Nat.min_l by lia. rewrite skipn_app.
  f_equal. destruct (le_lt_dec (length es) b) as [L|L].
  - rewrite firstn_length. rewrite (skipn_all2 (firstn c es)).
    + rewrite skipn_nil. reflexivity.
    + rewrite firstn_length. lia.
  - rewrite firstn_length. replace (a - Nat.min b (length es))%nat with 0%nat by lia. reflexivity.
Qed.
Lemma after_split es a b l : (a <= b)%nat -> after (slice es a (Some b)) (after (firstn a es) 1 l) l = after (firstn b es) 1 l.
Proof.
  intros H. unfold slice. rewrite <- (firstn_skipn a (firstn b es)) at 2.
  unfold after. rewrite fold_left_app. rewrite firstn_firstn, Nat.min_l by lia. reflexivity.
Qed.
