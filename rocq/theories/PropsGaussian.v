(** Property C38: Gaussian beams. *)
From Coq Require Import Reals Sorted List Lra Lia Psatz.
From Verif Require Import Base Cx Vec RotModel PlacementModel PlacementProofs ElementModel ParaxialModel ParaxialProofs ParaxTraceModel
  PropsParaxial PropsConjugates PropsCardinal GaussianModel.
Import ListNotations.
Open Scope R_scope.

(** * composition *)
Lemma blk_a_mm m2 m1 : blk_a (mm4 m2 m1) = cma (cmm (blk_a m2) (blk_a m1)) (cmm (blk_b m2) (blk_c m1)).
Proof. unfold blk_a, blk_b, blk_c, mm4, mv4, mT4, dot4. cbn [q0 q1 q2 q3 w0 w1 w2 w3]. apply cm_eq; unfold cma, cmm; cbn [c00 c01 c10 c11]; apply cx_eq; cbn; ring. Qed.
Lemma blk_b_mm m2 m1 : blk_b (mm4 m2 m1) = cma (cmm (blk_a m2) (blk_b m1)) (cmm (blk_b m2) (blk_d m1)).
Proof. unfold blk_a, blk_b, blk_d, mm4, mv4, mT4, dot4. cbn [q0 q1 q2 q3 w0 w1 w2 w3]. apply cm_eq; unfold cma, cmm; cbn [c00 c01 c10 c11]; apply cx_eq; cbn; ring. Qed.
Lemma blk_c_mm m2 m1 : blk_c (mm4 m2 m1) = cma (cmm (blk_c m2) (blk_a m1)) (cmm (blk_d m2) (blk_c m1)).
Proof. unfold blk_a, blk_c, blk_d, mm4, mv4, mT4, dot4. cbn [q0 q1 q2 q3 w0 w1 w2 w3]. apply cm_eq; unfold cma, cmm; cbn [c00 c01 c10 c11]; apply cx_eq; cbn; ring. Qed.
Lemma blk_d_mm m2 m1 : blk_d (mm4 m2 m1) = cma (cmm (blk_c m2) (blk_b m1)) (cmm (blk_d m2) (blk_d m1)).
Proof. unfold blk_b, blk_c, blk_d, mm4, mv4, mT4, dot4. cbn [q0 q1 q2 q3 w0 w1 w2 w3]. apply cm_eq; unfold cma, cmm; cbn [c00 c01 c10 c11]; apply cx_eq; cbn; ring. Qed.

(** numerator and denominator of the action *)
Definition den (m : m4) (q : cm) : cm := cma (blk_a m) (cmm (blk_b m) q).
Definition num (m : m4) (q : cm) : cm := cma (blk_c m) (cmm (blk_d m) q).
Lemma act_inv m q q' : beam_act m q = Some q' <-> cdet (den m q) <> c0 /\ cmm q' (den m q) = num m q.
Proof.
  unfold beam_act. fold (den m q) (num m q). split.
  - destruct (cminv (den m q)) as [i|] eqn:E; cbn [obind]; [|discriminate]. intros H. injection H as <-.
    apply cminv_inv in E. destruct E as (D & L & _). split; [auto|]. rewrite <- cmm_assoc, L. apply cmm_eye_r.
  - intros (D & H). destruct (cminv_some _ D) as (i & E & L & K). rewrite E. cbn [obind]. f_equal. rewrite <- H, <- cmm_assoc, K. apply cmm_eye_r.
Qed.
Lemma act_none m q : beam_act m q = None <-> cdet (den m q) = c0.
Proof.
  unfold beam_act. fold (den m q) (num m q). split.
  - destruct (cminv (den m q)) as [i|] eqn:E; cbn [obind]; [discriminate|]. intros _.
    destruct (ceqb (cdet (den m q)) c0) eqn:Z; [apply ceqb_true; auto|]. unfold cminv in E. rewrite Z in E. discriminate.
  - intros Z. rewrite cminv_none by auto. reflexivity.
Qed.
Lemma cma_cmm_r a b c : cmm (cma a b) c = cma (cmm a c) (cmm b c).
Proof. cm_ring. Qed.
Lemma cmm_cma_l a b c : cmm a (cma b c) = cma (cmm a b) (cmm a c).
Proof. cm_ring. Qed.
Lemma cma_swap a b c d : cma (cma a b) (cma c d) = cma (cma a c) (cma b d).
Proof. cm_ring. Qed.
Lemma den_comp m2 m1 q q1 : cmm q1 (den m1 q) = num m1 q -> den (mm4 m2 m1) q = cmm (den m2 q1) (den m1 q).
Proof.
  intros H. unfold den at 2. rewrite cma_cmm_r, <- cmm_assoc, H. unfold den, num. rewrite blk_a_mm, blk_b_mm.
  rewrite !cma_cmm_r, !cmm_cma_l, !cmm_assoc. apply cma_swap.
Qed.
Lemma num_comp m2 m1 q q1 : cmm q1 (den m1 q) = num m1 q -> num (mm4 m2 m1) q = cmm (num m2 q1) (den m1 q).
Proof.
  intros H. unfold num at 2. rewrite cma_cmm_r, <- cmm_assoc, H. unfold den, num. rewrite blk_c_mm, blk_d_mm.
  rewrite !cma_cmm_r, !cmm_cma_l, !cmm_assoc. apply cma_swap.
Qed.
(** two elements one after the other act like the product of their matrices *)
Theorem C38_composition m1 m2 q q1 : beam_act m1 q = Some q1 -> beam_act m2 q1 = beam_act (mm4 m2 m1) q.
Proof.
  intros H. apply act_inv in H. destruct H as (D & H).
  pose proof (den_comp m2 m1 q q1 H) as DC. pose proof (num_comp m2 m1 q q1 H) as NC.
  destruct (beam_act m2 q1) as [q2|] eqn:E.
  - symmetry. apply act_inv in E. destruct E as (D2 & E). apply act_inv. rewrite DC, NC, cdet_mm. split.
    + intros Z. apply cmul_zero in Z. tauto.
    + rewrite cmm_assoc, E. reflexivity.
  - symmetry. apply act_none in E. apply act_none. rewrite DC, cdet_mm, E. ring.
Qed.
(** without any element a beam stays as it is *)
Lemma act_eye q : beam_act eye4 q = Some q.
Proof.
  apply act_inv. assert (E : den eye4 q = ceye).
  { unfold den, blk_a, blk_b, eye4. cbn [q0 q1 q2 q3 w0 w1 w2 w3]. change (rc 0) with c0. change (rc 1) with c1. cm_ring. }
  rewrite E. split; [unfold cdet, ceye; cbn [c00 c01 c10 c11]; intros Z; apply (f_equal re) in Z; cbn in Z; lra|]. rewrite cmm_eye_r.
  unfold num, blk_c, blk_d, eye4. cbn [q0 q1 q2 q3 w0 w1 w2 w3]. change (rc 0) with c0. change (rc 1) with c1. destruct q. cm_ring.
Qed.
Lemma last_default {A} (x y : A) l : l <> [] -> last l x = last l y.
Proof. induction l as [|a l IH]; [contradiction|]. intros _. destruct l; [reflexivity|]. apply IH. discriminate. Qed.
(** the beam traced element by element equals the system matrix acting once *)
Lemma sys_gaussian_fold es : forall q n l, 
  fold_left (fun (s : option cm * R) e => propagate_gaussian e (fst s) (snd s) l) es (q, n) = last (sys_gaussian es q n l) (q, n).
Proof.
  induction es as [|e es IH]; intros q n l; [reflexivity|]. cbn [fold_left sys_gaussian fst snd].
  destruct (propagate_gaussian e q n l) as [q' n'] eqn:E. rewrite IH.
  destruct (sys_gaussian es q' n' l) as [|p x]; [reflexivity|]. transitivity (last (p :: x) (q, n)); [apply last_default; discriminate|reflexivity].
Qed.
Theorem C38_system es l q start stop n m qn : let n0 := match start with O => refractive_index_last es l | S i => refractive_index es l i end in
  sys_matrix es l start stop = (n, Some m) -> slice es start stop <> [] ->
  last (sys_gaussian (slice es start stop) (Some q) n0 l) (Some q, n0) = (Some qn, n) -> beam_act m q = Some qn.
Proof.
  intros n0. unfold sys_matrix, paraxial_matrices. fold n0. generalize n0. generalize (slice es start stop). clear n0.
  intros xs n0 SM _. rewrite <- sys_gaussian_fold.
  assert (G : forall xs n0 k m0 q0 n m qn, beam_act m0 q = Some q0 -> mfold (k, Some m0) (matrices xs n0 l) = (n, Some m) ->
    fold_left (fun (s : option cm * R) e => propagate_gaussian e (fst s) (snd s) l) xs (Some q0, n0) = (Some qn, n) -> beam_act m q = Some qn).
  { clear. induction xs as [|e xs IH]; intros n0 k m0 q0 n m qn A; cbn [matrices fold_left].
    - unfold mfold. cbn [fold_left]. intros E1 E2. injection E1 as <- <-. injection E2 as <- _. auto.
    - unfold propagate_gaussian at 2. cbn [fst snd]. destruct (paraxial_matrix e n0 l) as [n1 [m1|]] eqn:P; unfold mfold; cbn [fold_left obind].
      + rewrite (C38_composition m0 m1 q q0 A). intros E1. destruct (beam_act (mm4 m1 m0) q) as [q1|] eqn:B.
        * intros E2. eapply IH; eauto.
        * intros E2. exfalso. clear - E2. revert n1 E2. induction xs as [|x xs IH]; intros n1; cbn [fold_left]; [discriminate|].
          unfold propagate_gaussian at 2. cbn [fst snd]. destruct (paraxial_matrix x n1 l) as [n2 [m2|]]; cbn [obind]; apply IH.
      + intros E. exfalso. apply (f_equal snd) in E. change (snd (mfold (n1, None) (matrices xs n1 l)) = Some m) in E.
        rewrite mfold_acc in E. discriminate. }
  intros E. eapply G; [apply act_eye| |exact E]. exact SM.
Qed.

(** * rays of the beam *)
(** spec: a complex paraxial ray (real part r, imaginary part i) belongs to the beam if its index times slope is
    the beam matrix applied to its height *)
Definition on_beam (q : cm) (r i : v4) : Prop :=
  Cx (w2 r) (w2 i) = cadd (cmul (c00 q) (Cx (w0 r) (w0 i))) (cmul (c01 q) (Cx (w1 r) (w1 i))) /\
  Cx (w3 r) (w3 i) = cadd (cmul (c10 q) (Cx (w0 r) (w0 i))) (cmul (c11 q) (Cx (w1 r) (w1 i))).
(** the matrix applied to a ray of the beam, in complex notation *)
Lemma mv4_beam m q r i y1 y2 : on_beam q r i -> y1 = Cx (w0 r) (w0 i) -> y2 = Cx (w1 r) (w1 i) ->
  Cx (w0 (mv4 m r)) (w0 (mv4 m i)) = cadd (cmul (c00 (den m q)) y1) (cmul (c01 (den m q)) y2) /\
  Cx (w1 (mv4 m r)) (w1 (mv4 m i)) = cadd (cmul (c10 (den m q)) y1) (cmul (c11 (den m q)) y2) /\
  Cx (w2 (mv4 m r)) (w2 (mv4 m i)) = cadd (cmul (c00 (num m q)) y1) (cmul (c01 (num m q)) y2) /\
  Cx (w3 (mv4 m r)) (w3 (mv4 m i)) = cadd (cmul (c10 (num m q)) y1) (cmul (c11 (num m q)) y2).
Proof.
  intros (A & B) -> ->.
  assert (X : forall row : v4, Cx (dot4 row r) (dot4 row i) =
    cadd (cadd (cmul (rc (w0 row)) (Cx (w0 r) (w0 i))) (cmul (rc (w1 row)) (Cx (w1 r) (w1 i))))
         (cadd (cmul (rc (w2 row)) (Cx (w2 r) (w2 i))) (cmul (rc (w3 row)) (Cx (w3 r) (w3 i))))).
  { intros row. unfold dot4. apply cx_eq; cbn; ring. }
  unfold mv4. cbn [w0 w1 w2 w3]. rewrite !X, A, B. unfold den, num, blk_a, blk_b, blk_c, blk_d, cma, cmm. cbn [c00 c01 c10 c11].
  repeat apply conj; ring.
Qed.
Lemma act_on_beam m q q' : beam_act m q = Some q' -> forall r i, on_beam q r i -> on_beam q' (mv4 m r) (mv4 m i).
Proof.
  intros H r i O. apply act_inv in H. destruct H as (_ & H).
  destruct (mv4_beam m q r i _ _ O eq_refl eq_refl) as (E0 & E1 & E2 & E3). unfold on_beam. rewrite E0, E1, E2, E3, <- H.
  unfold cmm. cbn [c00 c01 c10 c11]. split; ring.
Qed.
(** every (complex) ray that belongs to the beam still belongs to it after any number of elements *)
Theorem C38_rays es : forall q r i n l j q' n', 
  nth_error (sys_gaussian es (Some q) n l) j = Some (Some q', n') -> on_beam q r i ->
  exists r' i', nth_error (sys_paraxial es (Some r) n l) j = Some (Some r', n') /\
    nth_error (sys_paraxial es (Some i) n l) j = Some (Some i', n') /\ on_beam q' r' i'.
Proof.
  assert (NONE : forall es n l j v k, nth_error (sys_gaussian es None n l) j = Some (Some v, k) -> False).
  { intros es'. induction es' as [|e es' IH]; intros n l j v k; [destruct j; discriminate|].
    cbn [sys_gaussian]. unfold propagate_gaussian. destruct (paraxial_matrix e n l) as [n' m].
    destruct j as [|j]; cbn [nth_error].
    - destruct m; discriminate.
    - destruct m; cbn [obind]; apply IH. }
  induction es as [|e es IH]; intros q r i n l j q' n' H O; [destruct j; discriminate|].
  cbn [sys_gaussian sys_paraxial] in *. unfold propagate_gaussian in H. unfold propagate_paraxial.
  destruct (paraxial_matrix e n l) as [n1 m] eqn:P. destruct m as [m|]; cbn [obind] in *.
  2:{ destruct j as [|j]; cbn [nth_error] in H; [discriminate|]. exfalso. eapply NONE; eauto. }
  destruct (beam_act m q) as [q1|] eqn:B.
  2:{ destruct j as [|j]; cbn [nth_error] in H; [discriminate|]. exfalso. eapply NONE; eauto. }
  pose proof (act_on_beam m q q1 B r i O) as O1.
  destruct j as [|j]; cbn [nth_error] in *.
  - injection H as <- <-. eauto.
  - eapply IH; eauto.
Qed.
(** and that determines the beam: only one matrix can describe rays spanning all heights *)
Theorem C38_rays_determine q q' : (forall r i, on_beam q r i -> on_beam q' r i) -> q' = q.
Proof.
  intros H. destruct q as [[a b] [c d] [e f] [g h]], q' as [[a' b'] [c' d'] [e' f'] [g' h']].
  destruct (H (V4 1 0 a e) (V4 0 0 b f)) as (A & B); [split; apply cx_eq; cbn; ring|].
  destruct (H (V4 0 1 c g) (V4 0 0 d h)) as (C & D); [split; apply cx_eq; cbn; ring|].
  cbn in *. unfold cadd, cmul in *. cbn in *. injection A as A1 A2. injection B as B1 B2. injection C as C1 C2. injection D as D1 D2.
  apply cm_eq; apply cx_eq; cbn; lra.
Qed.

(** * physical beams *)
(** spec: symmetric, and the amplitude falls off in every transverse direction *)
Definition physical (q : cm) : Prop :=
  c01 q = c10 q /\ forall x y, (x <> 0 \/ y <> 0) -> im (c00 q) * (x * x) + 2 * im (c01 q) * (x * y) + im (c11 q) * (y * y) < 0.
(** ray of the beam with the given complex heights *)
Definition ray_re (q : cm) (y1 y2 : cx) : v4 :=
  V4 (re y1) (re y2) (re (cadd (cmul (c00 q) y1) (cmul (c01 q) y2))) (re (cadd (cmul (c10 q) y1) (cmul (c11 q) y2))).
Definition ray_im (q : cm) (y1 y2 : cx) : v4 :=
  V4 (im y1) (im y2) (im (cadd (cmul (c00 q) y1) (cmul (c01 q) y2))) (im (cadd (cmul (c10 q) y1) (cmul (c11 q) y2))).
Lemma ray_on_beam q y1 y2 : on_beam q (ray_re q y1 y2) (ray_im q y1 y2).
Proof. destruct y1 as [a b], y2 as [c d]. unfold on_beam, ray_re, ray_im. cbn [w0 w1 w2 w3 re im]. split; apply cx_eq; reflexivity. Qed.
Lemma omega_beam q y1 y2 : c01 q = c10 q -> omega (ray_re q y1 y2) (ray_im q y1 y2) =
  (im (c00 q) * (re y1 * re y1) + 2 * im (c01 q) * (re y1 * re y2) + im (c11 q) * (re y2 * re y2)) +
  (im (c00 q) * (im y1 * im y1) + 2 * im (c01 q) * (im y1 * im y2) + im (c11 q) * (im y2 * im y2)).
Proof. intros S. unfold omega, ray_re, ray_im. cbn [w0 w1 w2 w3]. rewrite <- S. cbn. ring. Qed.
Lemma singular a : cdet a = c0 -> exists y1 y2, (y1 <> c0 \/ y2 <> c0) /\
  cadd (cmul (c00 a) y1) (cmul (c01 a) y2) = c0 /\ cadd (cmul (c10 a) y1) (cmul (c11 a) y2) = c0.
Proof.
  intros D. unfold cdet in D. assert (D' : cmul (c00 a) (c11 a) = cmul (c01 a) (c10 a)).
  { transitivity (cadd (csub (cmul (c00 a) (c11 a)) (cmul (c01 a) (c10 a))) (cmul (c01 a) (c10 a))); [ring|]. rewrite D. ring. }
  assert (DEC : forall z : cx, z = c0 \/ z <> c0).
  { intros z. destruct (ceqb z c0) eqn:E; [left; apply ceqb_true; auto|right; intros ->; rewrite (proj2 (ceqb_true c0 c0) eq_refl) in E; discriminate]. }
  assert (N1 : c1 <> c0) by (intros E; apply (f_equal re) in E; cbn in E; lra).
  destruct (DEC (c00 a)) as [Z00|Z00].
  - destruct (DEC (c10 a)) as [Z10|Z10].
    + exists c1, c0. rewrite Z00, Z10. split; [auto|]. split; ring.
    + exists (c11 a), (cneg (c10 a)). split; [right; intros E; apply Z10; transitivity (cneg (cneg (c10 a))); [ring|rewrite E; ring]|].
      split; [|ring]. transitivity (csub (cmul (c00 a) (c11 a)) (cmul (c01 a) (c10 a))); [ring|auto].
  - exists (cneg (c01 a)), (c00 a). split; [auto|]. split; [ring|].
    transitivity (csub (cmul (c00 a) (c11 a)) (cmul (c01 a) (c10 a))); [ring|auto].
Qed.
Lemma omega_zero_heights r i : Cx (w0 r) (w0 i) = c0 -> Cx (w1 r) (w1 i) = c0 -> omega r i = 0.
Proof. intros A B. injection A as A1 A2. injection B as B1 B2. unfold omega. rewrite A1, A2, B1, B2. ring. Qed.
Lemma physical_neg q y1 y2 : physical q -> (y1 <> c0 \/ y2 <> c0) -> omega (ray_re q y1 y2) (ray_im q y1 y2) < 0.
Proof.
  intros (S & P) N. rewrite omega_beam by auto.
  assert (W : forall x y, im (c00 q) * (x * x) + 2 * im (c01 q) * (x * y) + im (c11 q) * (y * y) <= 0).
  { intros x y. destruct (Req_EM_T x 0) as [->|X]; [destruct (Req_EM_T y 0) as [->|Y]|].
    - right. ring.
    - left. apply P. auto.
    - left. apply P. auto. }
  assert (D : (re y1 <> 0 \/ re y2 <> 0) \/ (im y1 <> 0 \/ im y2 <> 0)).
  { destruct (Req_EM_T (re y1) 0) as [A|A]; [|auto]. destruct (Req_EM_T (re y2) 0) as [B|B]; [|auto].
    destruct (Req_EM_T (im y1) 0) as [C|C]; [|auto]. destruct (Req_EM_T (im y2) 0) as [E|E]; [|auto].
    exfalso. destruct N as [N|N]; apply N; apply cx_eq; auto. }
  destruct D as [D|D]; apply P in D.
  - pose proof (W (im y1) (im y2)). lra.
  - pose proof (W (re y1) (re y2)). lra.
Qed.
(** real symplectic systems never lose a physical beam *)
Theorem C38_physical m q : conserves m -> physical q -> exists q', beam_act m q = Some q' /\ physical q'.
Proof.
  intros SY PH. change (symplectic m) in SY. unfold symplectic in SY.
  assert (D : cdet (den m q) <> c0).
  { intros Z. destruct (singular _ Z) as (y1 & y2 & N & A & B).
    pose proof (physical_neg q y1 y2 PH N) as NEG. rewrite <- SY in NEG.
    assert (Y1 : y1 = Cx (w0 (ray_re q y1 y2)) (w0 (ray_im q y1 y2))) by (destruct y1 as [? ?]; reflexivity).
    assert (Y2 : y2 = Cx (w1 (ray_re q y1 y2)) (w1 (ray_im q y1 y2))) by (destruct y2 as [? ?]; reflexivity).
    destruct (mv4_beam m q _ _ _ _ (ray_on_beam q y1 y2) Y1 Y2) as (E0 & E1 & _). rewrite A in E0. rewrite B in E1.
    rewrite (omega_zero_heights _ _ E0 E1) in NEG. lra. }
  destruct (cminv_some _ D) as (inv & E & L & K).
  exists (cmm (num m q) inv). assert (ACT : beam_act m q = Some (cmm (num m q) inv)).
  { unfold beam_act. fold (den m q) (num m q). rewrite E. reflexivity. }
  split; [auto|]. set (q' := cmm (num m q) inv) in *.
  (* heights before the element that give heights (z1, z2) after it *)
  assert (BACK : forall z1 z2, exists y1 y2, on_beam q (ray_re q y1 y2) (ray_im q y1 y2) /\
    mv4 m (ray_re q y1 y2) = ray_re q' z1 z2 /\ mv4 m (ray_im q y1 y2) = ray_im q' z1 z2 /\ ((z1 <> c0 \/ z2 <> c0) -> (y1 <> c0 \/ y2 <> c0))).
  { intros z1 z2. exists (cadd (cmul (c00 inv) z1) (cmul (c01 inv) z2)), (cadd (cmul (c10 inv) z1) (cmul (c11 inv) z2)).
    set (y1 := cadd (cmul (c00 inv) z1) _). set (y2 := cadd (cmul (c10 inv) z1) _).
    split; [apply ray_on_beam|].
    assert (Y1 : y1 = Cx (w0 (ray_re q y1 y2)) (w0 (ray_im q y1 y2))) by (destruct y1 as [? ?]; reflexivity).
    assert (Y2 : y2 = Cx (w1 (ray_re q y1 y2)) (w1 (ray_im q y1 y2))) by (destruct y2 as [? ?]; reflexivity).
    destruct (mv4_beam m q _ _ _ _ (ray_on_beam q y1 y2) Y1 Y2) as (E0 & E1 & _).
    pose proof (act_on_beam m q q' ACT _ _ (ray_on_beam q y1 y2)) as (O2 & O3).
    assert (K00 := f_equal c00 K). assert (K01 := f_equal c01 K). assert (K10 := f_equal c10 K). assert (K11 := f_equal c11 K).
    unfold cmm, ceye in K00, K01, K10, K11. cbn [c00 c01 c10 c11] in K00, K01, K10, K11.
    assert (Z1 : cadd (cmul (c00 (den m q)) y1) (cmul (c01 (den m q)) y2) = z1).
    { unfold y1, y2. transitivity (cadd (cmul (cadd (cmul (c00 (den m q)) (c00 inv)) (cmul (c01 (den m q)) (c10 inv))) z1)
        (cmul (cadd (cmul (c00 (den m q)) (c01 inv)) (cmul (c01 (den m q)) (c11 inv))) z2)); [ring|]. rewrite K00, K01. ring. }
    assert (Z2 : cadd (cmul (c10 (den m q)) y1) (cmul (c11 (den m q)) y2) = z2).
    { unfold y1, y2. transitivity (cadd (cmul (cadd (cmul (c10 (den m q)) (c00 inv)) (cmul (c11 (den m q)) (c10 inv))) z1)
        (cmul (cadd (cmul (c10 (den m q)) (c01 inv)) (cmul (c11 (den m q)) (c11 inv))) z2)); [ring|]. rewrite K10, K11. ring. }
    rewrite Z1 in E0. rewrite Z2 in E1. rewrite E0, E1 in O2, O3. clearbody y1 y2 q'.
    split; [|split].
    - unfold ray_re at 2. rewrite <- O2, <- O3. cbn [re im]. apply (f_equal re) in E0. apply (f_equal re) in E1. cbn [re] in E0, E1. rewrite <- E0, <- E1. apply v4_eq; reflexivity.
    - unfold ray_im at 2. rewrite <- O2, <- O3. cbn [re im]. apply (f_equal im) in E0. apply (f_equal im) in E1. cbn [im] in E0, E1. rewrite <- E0, <- E1. apply v4_eq; reflexivity.
    - intros NZ. destruct (ceqb y1 c0) eqn:C1; [|left; intros C; rewrite C in C1; rewrite (proj2 (ceqb_true c0 c0) eq_refl) in C1; discriminate].
      destruct (ceqb y2 c0) eqn:C2; [|right; intros C; rewrite C in C2; rewrite (proj2 (ceqb_true c0 c0) eq_refl) in C2; discriminate].
      apply ceqb_true in C1. apply ceqb_true in C2. exfalso. rewrite C1, C2 in Z1, Z2. destruct NZ as [NZ|NZ]; apply NZ; [rewrite <- Z1|rewrite <- Z2]; ring. }
  assert (SYM : c01 q' = c10 q').
  { destruct (BACK c1 c0) as (y1 & y2 & _ & R1 & I1 & _). destruct (BACK c0 c1) as (x1 & x2 & _ & R2 & I2 & _).
    pose proof (SY (ray_re q y1 y2) (ray_re q x1 x2)) as S1. pose proof (SY (ray_im q y1 y2) (ray_im q x1 x2)) as S2.
    pose proof (SY (ray_re q y1 y2) (ray_im q x1 x2)) as S3. pose proof (SY (ray_im q y1 y2) (ray_re q x1 x2)) as S4.
    rewrite R1, R2 in S1. rewrite I1, I2 in S2. rewrite R1, I2 in S3. rewrite I1, R2 in S4.
    assert (B1 : omega (ray_re q y1 y2) (ray_re q x1 x2) - omega (ray_im q y1 y2) (ray_im q x1 x2) = 0).
    { destruct PH as (PS & _). unfold omega, ray_re, ray_im. cbn [w0 w1 w2 w3]. rewrite <- PS. cbn. ring. }
    assert (B2 : omega (ray_re q y1 y2) (ray_im q x1 x2) + omega (ray_im q y1 y2) (ray_re q x1 x2) = 0).
    { destruct PH as (PS & _). unfold omega, ray_re, ray_im. cbn [w0 w1 w2 w3]. rewrite <- PS. cbn. ring. }
    rewrite <- S1, <- S2 in B1. rewrite <- S3, <- S4 in B2. clear - B1 B2. clearbody q'.
    unfold omega, ray_re, ray_im in B1, B2. cbn in B1, B2. apply cx_eq; lra. }
  split; [auto|]. intros x y N.
  destruct (BACK (rc x) (rc y)) as (y1 & y2 & _ & R1 & I1 & NZ).
  assert (NC : rc x <> c0 \/ rc y <> c0).
  { destruct N as [N|N]; [left|right]; intros Z; apply N; injection Z; auto. }
  pose proof (physical_neg q y1 y2 PH (NZ NC)) as NEG. rewrite <- SY, R1, I1, omega_beam in NEG by auto.
  cbn [re im rc] in NEG. rewrite !Rmult_0_l, !Rmult_0_r, !Rplus_0_r in NEG. exact NEG.
Qed.
(** so a physical beam stays physical at every element of an aligned system *)
Theorem C38_system_physical es : forall q n l, Forall aligned es -> Forall (fun nm => snd nm <> None) (matrices es n l) -> physical q ->
  length (sys_gaussian es (Some q) n l) = length es /\
  Forall (fun qn => exists q', fst qn = Some q' /\ physical q') (sys_gaussian es (Some q) n l).
Proof.
  induction es as [|e es IH]; intros q n l AL DEF PH; [split; [reflexivity|constructor]|].
  inversion AL as [|? ? A0 AS]; subst. cbn [sys_gaussian matrices] in *. unfold propagate_gaussian.
  destruct (paraxial_matrix e n l) as [n1 m1] eqn:P. inversion DEF as [|? ? D0 DS]; subst. cbn [snd] in D0.
  destruct m1 as [m1|]; [|contradiction]. cbn [obind].
  destruct (C38_physical m1 q (proj2 (C17_element_symplectic e n l n1 m1 P) A0) PH) as (q1 & E & PH1). rewrite E.
  destruct (IH q1 n1 l AS DS PH1) as (L & F). split; [cbn [length]; rewrite L; reflexivity|]. constructor; [cbn [fst]; eauto|auto].
Qed.
Example C38_physical_example : physical (CM (Cx 1 (-2)) (Cx 3 (-1)) (Cx 3 (-1)) (Cx 0 (-1))) /\
  conserves (M4 (V4 1 0 2 0) (V4 0 1 0 2) (V4 0 0 1 0) (V4 0 0 0 1)).
Proof.
  split.
  - split; [reflexivity|]. cbn [c00 c01 c10 c11 im]. intros x y N.
    replace (-2 * (x * x) + 2 * -1 * (x * y) + -1 * (y * y)) with (- ((x + y) * (x + y) + x * x)) by ring.
    pose proof (Rle_0_sqr (x + y)) as A. unfold Rsqr in A. destruct (Req_EM_T x 0) as [->|X].
    + destruct N as [N|N]; [contradiction|]. pose proof (Rlt_0_sqr y N) as B. unfold Rsqr in B. rewrite Rplus_0_l in *. lra.
    + pose proof (Rlt_0_sqr x X) as B. unfold Rsqr in B. lra.
  - intros x y. unfold lagrange2, mv4, dot4. cbn [q0 q1 q2 q3 w0 w1 w2 w3]. ring.
Qed.

(** * between the elements *)
(** the closed form equals the action of the transfer matrix *)
Theorem C38_free_space q d n m : c01 q = c10 q -> transfer_matrix d n = Some m -> free_space q (d / n) = beam_act m q.
Proof.
  intros S. unfold transfer_matrix. destruct (fdiv d n) as [t|] eqn:T; cbn [obind]; [|discriminate]. apply fdiv_inv in T. destruct T as (N & ->).
  intros E. injection E as <-. set (t := d / n). unfold free_space, beam_act. cbv zeta.
  set (m := M4 _ _ _ _). destruct q as [xx xy yx yy]. cbn [c00 c01 c10 c11] in *. subst yx.
  assert (DEN : cma (blk_a m) (cmm (blk_b m) (CM xx xy xy yy)) = CM (cadd c1 (cmul (rc t) xx)) (cmul (rc t) xy) (cmul (rc t) xy) (cadd c1 (cmul (rc t) yy))).
  { unfold m, blk_a, blk_b. cbn [q0 q1 q2 q3 w0 w1 w2 w3]. change (rc 0) with c0. change (rc 1) with c1. cm_ring. }
  assert (NUM : cma (blk_c m) (cmm (blk_d m) (CM xx xy xy yy)) = CM xx xy xy yy).
  { unfold m, blk_c, blk_d. cbn [q0 q1 q2 q3 w0 w1 w2 w3]. change (rc 0) with c0. change (rc 1) with c1. cm_ring. }
  rewrite DEN, NUM.
  assert (T2 : rc (t ^ 2) = cmul (rc t) (rc t)) by (apply cx_eq; cbn; ring). rewrite T2.
  assert (DET : csub (cmul (cadd c1 (cmul (rc t) xx)) (cadd c1 (cmul (rc t) yy))) (cmul (cmul (rc t) (rc t)) (cmul xy xy)) =
    cdet (CM (cadd c1 (cmul (rc t) xx)) (cmul (rc t) xy) (cmul (rc t) xy) (cadd c1 (cmul (rc t) yy)))).
  { unfold cdet. cbn [c00 c01 c10 c11]. ring. }
  rewrite DET. unfold cminv, fcdiv. destruct (ceqb (cdet _) c0) eqn:Z; [reflexivity|]. cbn [obind].
  assert (NZ : cdet (CM (cadd c1 (cmul (rc t) xx)) (cmul (rc t) xy) (cmul (rc t) xy) (cadd c1 (cmul (rc t) yy))) <> c0).
  { intros C. rewrite C in Z. rewrite (proj2 (ceqb_true c0 c0) eq_refl) in Z. discriminate. }
  f_equal. unfold cmm. cbn [c00 c01 c10 c11]. unfold cdet in *. cbn [c00 c01 c10 c11] in *. apply cm_eq; cbn [c00 c01 c10 c11]; field; auto.
Qed.
Lemma searchsorted_spec path z : StronglySorted Rle path -> forall i p, nth_error path i = Some p -> p < z ->
  (forall p', nth_error path (S i) = Some p' -> z <= p') -> searchsorted_left path z = S i.
Proof.
  induction path as [|p0 path IH]; intros SO i p N L U; [destruct i; discriminate|]. inversion SO as [|? ? SO' FA]; subst.
  cbn [searchsorted_left]. destruct i as [|i]; cbn [nth_error] in *.
  - injection N as <-. destruct (Rlt_dec p0 z); [|lra]. f_equal. destruct path as [|p1 path]; [reflexivity|]. cbn [searchsorted_left].
    destruct (Rlt_dec p1 z); [|auto]. specialize (U p1 eq_refl). lra.
  - assert (p0 <= p). { rewrite Forall_forall in FA. apply FA. eapply nth_error_In; eauto. }
    destruct (Rlt_dec p0 z); [|lra]. f_equal. eapply IH; eauto.
Qed.
(** behind element i and up to the next one the reported beam is the beam left by element i, propagated over the gap *)
Theorem C38_between path trace z i p q n m : StronglySorted Rle path -> nth_error path i = Some p -> p < z ->
  (forall p', nth_error path (S i) = Some p' -> z <= p') ->
  nth_error trace i = Some (Some q, n) -> c01 q = c10 q -> transfer_matrix (z - p) n = Some m ->
  qin_at path trace z = do q' <- beam_act m q; Some (q', n).
Proof.
  intros SO N L U T SY M. unfold qin_at. rewrite (searchsorted_spec path z SO i p N L U). replace (S i - 1)%nat with i by lia. cbv zeta.
  rewrite T, N. cbn [obind fst snd]. assert (K := M). unfold transfer_matrix in K. destruct (fdiv (z - p) n) as [t|] eqn:E; cbn [obind] in K |- *; [|discriminate].
  apply fdiv_inv in E. destruct E as (_ & ->). rewrite (C38_free_space q _ _ m SY M). reflexivity.
Qed.
(** in front of the first element (and on it) it is extrapolated from there *)
Theorem C38_before path trace z p q n m : nth_error path 0 = Some p -> z <= p ->
  nth_error trace 0 = Some (Some q, n) -> c01 q = c10 q -> transfer_matrix (z - p) n = Some m ->
  qin_at path trace z = do q' <- beam_act m q; Some (q', n).
Proof.
  intros N L T SY M. unfold qin_at. replace (searchsorted_left path z) with O.
  2:{ destruct path as [|p0 path]; [reflexivity|]. cbn in N. injection N as ->. cbn. destruct (Rlt_dec p z); [lra|auto]. }
  cbn [Nat.sub]. rewrite T, N. cbn [obind fst snd]. assert (K := M). unfold transfer_matrix in K. destruct (fdiv (z - p) n) as [t|] eqn:E; cbn [obind] in K |- *; [|discriminate].
  apply fdiv_inv in E. destruct E as (_ & ->). rewrite (C38_free_space q _ _ m SY M). reflexivity.
Qed.
Example C38_between_example : let q := CM (Cx 0 (-1)) c0 c0 (Cx 0 (-1)) in
  exists q', qin_at [0; 2] [(Some q, 1); (None, 1)] 1 = Some (q', 1) /\ c00 q' = Cx (1 / 2) (- (1 / 2)).
Proof.
  cbv zeta. set (q := CM _ _ _ _).
  assert (SO : StronglySorted Rle [0; 2]) by (repeat constructor; lra).
  assert (TM : transfer_matrix (1 - 0) 1 = Some (M4 (V4 1 0 1 0) (V4 0 1 0 1) (V4 0 0 1 0) (V4 0 0 0 1))).
  { unfold transfer_matrix. rewrite fdiv_some by lra. cbn [obind]. replace ((1 - 0) / 1) with 1 by field. reflexivity. }
  rewrite (C38_between [0; 2] [(Some q, 1); (None, 1)] 1 0 0 q 1 _ SO eq_refl ltac:(lra) ltac:(intros p H; injection H as <-; lra) eq_refl eq_refl TM).
  set (q' := CM (Cx (1 / 2) (- (1 / 2))) c0 c0 (Cx (1 / 2) (- (1 / 2)))). exists q'.
  assert (A : beam_act (M4 (V4 1 0 1 0) (V4 0 1 0 1) (V4 0 0 1 0) (V4 0 0 0 1)) q = Some q').
  { apply act_inv. split.
    - intros Z. apply (f_equal im) in Z. cbn in Z. lra.
    - apply cm_eq; apply cx_eq; cbn; field. }
  rewrite A. split; reflexivity.
Qed.
(** finding: the comment "returns the qi right after element i if z == z[i]" is wrong; exactly on a surface the
    beam in front of it is reported *)
Theorem C38_at_surface_refuted : exists es q n l path b1 b2, path = [0; 1] /\
  sys_gaussian es (Some q) n l = [(Some b1, n)] /\ (* one element, at path length 1 *)
  qin_at path ((Some q, n) :: sys_gaussian es (Some q) n l) 1 = Some (b2, n) /\ b2 <> b1.
Proof.
  set (e := El (Placement 1 ez ez v0 true true None None) None (Sph (Some (Material (fun _ => 1) true false)) (Surf 1 0 None false))).
  set (q := CM (Cx 0 (-1)) c0 c0 (Cx 0 (-1))).
  set (b2 := CM (Cx (1 / 2) (- (1 / 2))) c0 c0 (Cx (1 / 2) (- (1 / 2)))).
  set (b1 := CM (Cx (5 / 2) (- (1 / 2))) c0 c0 (Cx (5 / 2) (- (1 / 2)))).
  set (m := M4 (V4 1 0 1 0) (V4 0 1 0 1) (V4 2 0 3 0) (V4 0 2 0 3)).
  assert (PM : paraxial_matrix e 1 0 = (1, Some m)).
  { unfold paraxial_matrix, e, index_after, transfer_matrix, vertex_curvature, refraction_matrix, azimuth_matrix. cbn [e_kind e_place p_distance p_angles s_asph s_c m_index m_mirror vx vz v0 obind].
    rewrite cos_0, sin_0. rewrite !fdiv_some by lra. cbn [obind]. f_equal. f_equal.
    set (r := M4 (V4 1 (- 0) 0 0) _ _ _). set (mr := M4 _ _ _ _). set (md := M4 _ _ _ _).
    assert (S1 : mm4 mr md = m) by (apply m4_eq; apply v4_eq; unfold mm4, mv4, mT4, dot4, mr, md, m; cbn [q0 q1 q2 q3 w0 w1 w2 w3]; field).
    assert (S2 : mT4 r = r) by (apply m4_eq; apply v4_eq; unfold mT4, r; cbn [q0 q1 q2 q3 w0 w1 w2 w3]; ring).
    rewrite S1, S2. clear S1 S2. clearbody mr md.
    assert (S3 : mm4 m r = M4 (V4 1 0 1 0) (V4 0 (-1) 0 (-1)) (V4 2 0 3 0) (V4 0 (-2) 0 (-3))) by (apply m4_eq; apply v4_eq; unfold mm4, mv4, mT4, dot4, r, m; cbn [q0 q1 q2 q3 w0 w1 w2 w3]; ring).
    rewrite S3. apply m4_eq; apply v4_eq; unfold mm4, mv4, mT4, dot4, r, m; cbn [q0 q1 q2 q3 w0 w1 w2 w3]; ring. }
  assert (A1 : beam_act m q = Some b1).
  { apply act_inv. split.
    - intros Z. apply (f_equal im) in Z. cbn in Z. lra.
    - apply cm_eq; apply cx_eq; cbn; field. }
  assert (SG : sys_gaussian [e] (Some q) 1 0 = [(Some b1, 1)]).
  { cbn [sys_gaussian]. unfold propagate_gaussian. rewrite PM. cbn [obind]. rewrite A1. reflexivity. }
  exists [e], q, 1, 0, [0; 1], b1, b2. split; [reflexivity|]. split; [exact SG|]. rewrite SG. split.
  - assert (SO : StronglySorted Rle [0; 1]) by (repeat constructor; lra).
    assert (TM : transfer_matrix (1 - 0) 1 = Some (M4 (V4 1 0 1 0) (V4 0 1 0 1) (V4 0 0 1 0) (V4 0 0 0 1))).
    { unfold transfer_matrix. rewrite fdiv_some by lra. cbn [obind]. replace ((1 - 0) / 1) with 1 by field. reflexivity. }
    rewrite (C38_between [0; 1] [(Some q, 1); (Some b1, 1)] 1 0 0 q 1 _ SO eq_refl ltac:(lra) ltac:(intros p H; injection H as <-; lra) eq_refl eq_refl TM).
    assert (A : beam_act (M4 (V4 1 0 1 0) (V4 0 1 0 1) (V4 0 0 1 0) (V4 0 0 0 1)) q = Some b2).
    { apply act_inv. split.
      - intros Z. apply (f_equal im) in Z. cbn in Z. lra.
      - apply cm_eq; apply cx_eq; cbn; field. }
    rewrite A. reflexivity.
  - intros E. apply (f_equal c00) in E. apply (f_equal re) in E. cbn in E. lra.
Qed.
Print Assumptions C38_composition.
Print Assumptions C38_system.
Print Assumptions C38_rays.
Print Assumptions C38_rays_determine.
Print Assumptions C38_physical.
Print Assumptions C38_system_physical.
Print Assumptions C38_free_space.
Print Assumptions C38_between.
Print Assumptions C38_before.
Print Assumptions C38_at_surface_refuted.
