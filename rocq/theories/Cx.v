(** Complex numbers as pairs of reals (numpy complex128 idealised) and 2x2 complex matrices. *)
From Coq Require Import Reals Lra Setoid Ring Field.
Open Scope R_scope.

Record cx := Cx { re : R; im : R }.
Definition c0 : cx := Cx 0 0.
Definition c1 : cx := Cx 1 0.
Definition rc (x : R) : cx := Cx x 0.
Definition cadd (a b : cx) : cx := Cx (re a + re b) (im a + im b).
Definition csub (a b : cx) : cx := Cx (re a - re b) (im a - im b).
Definition cneg (a : cx) : cx := Cx (- re a) (- im a).
Definition cmul (a b : cx) : cx := Cx (re a * re b - im a * im b) (re a * im b + im a * re b).
(** squared modulus *)
Definition cabs2 (a : cx) : R := re a * re a + im a * im a.
Definition cinv (a : cx) : cx := Cx (re a / cabs2 a) (- im a / cabs2 a).
Definition cdiv (a b : cx) : cx := cmul a (cinv b).

Lemma cx_eq a b : re a = re b -> im a = im b -> a = b.
Proof. destruct a, b; cbn; intros; subst; auto. Qed.
Lemma cabs2_zero a : cabs2 a = 0 <-> a = c0.
Proof.
  unfold cabs2, c0. split; [|intros ->; cbn; ring]. intros H. pose proof (Rle_0_sqr (re a)) as A. pose proof (Rle_0_sqr (im a)) as B.
  unfold Rsqr in *. apply cx_eq; cbn; apply Rsqr_0_uniq; unfold Rsqr; lra.
Qed.
Lemma cx_ring : ring_theory c0 c1 cadd cmul csub cneg (@eq cx).
Proof. constructor; intros; apply cx_eq; cbn; ring. Qed.
Lemma cx_field : field_theory c0 c1 cadd cmul csub cneg cdiv cinv (@eq cx).
Proof.
  constructor; [apply cx_ring|intros H; injection H; lra|reflexivity|].
  intros p H. assert (N : cabs2 p <> 0) by (rewrite cabs2_zero; auto). unfold cabs2 in N. apply cx_eq; cbn; unfold cabs2; field; auto.
Qed.
Add Field cx_field_inst : cx_field.

Definition ceqb (a b : cx) : bool := if Req_EM_T (re a) (re b) then if Req_EM_T (im a) (im b) then true else false else false.
Lemma ceqb_true a b : ceqb a b = true <-> a = b.
Proof.
  unfold ceqb. destruct (Req_EM_T (re a) (re b)) as [A|A]; [destruct (Req_EM_T (im a) (im b)) as [B|B]|]; split; intros H; try discriminate; auto.
  - apply cx_eq; auto.
  - subst. contradiction.
  - subst. contradiction.
Qed.
(** division of numpy complex numbers: not finite for a zero divisor *)
Definition fcdiv (a b : cx) : option cx := if ceqb b c0 then None else Some (cdiv a b).
Lemma fcdiv_some a b : b <> c0 -> fcdiv a b = Some (cdiv a b).
Proof. intros H. unfold fcdiv. destruct (ceqb b c0) eqn:E; [apply ceqb_true in E; contradiction|auto]. Qed.
Lemma fcdiv_inv a b z : fcdiv a b = Some z -> b <> c0 /\ z = cdiv a b.
Proof.
  unfold fcdiv. destruct (ceqb b c0) eqn:E; [discriminate|]. intros H. injection H as <-. split; [|auto].
  intros ->. rewrite (proj2 (ceqb_true c0 c0) eq_refl) in E. discriminate.
Qed.
Lemma cmul_zero a b : cmul a b = c0 -> a = c0 \/ b = c0.
Proof.
  intros H. destruct (ceqb a c0) eqn:E; [left; apply ceqb_true; auto|right].
  assert (N : a <> c0) by (intros ->; rewrite (proj2 (ceqb_true c0 c0) eq_refl) in E; discriminate).
  transitivity (cmul (cinv a) (cmul a b)); [field; auto|rewrite H; ring].
Qed.

(** 2x2 matrices *)
Record cm := CM { c00 : cx; c01 : cx; c10 : cx; c11 : cx }.
Definition cmm (a b : cm) : cm :=
  CM (cadd (cmul (c00 a) (c00 b)) (cmul (c01 a) (c10 b))) (cadd (cmul (c00 a) (c01 b)) (cmul (c01 a) (c11 b)))
     (cadd (cmul (c10 a) (c00 b)) (cmul (c11 a) (c10 b))) (cadd (cmul (c10 a) (c01 b)) (cmul (c11 a) (c11 b))).
Definition cma (a b : cm) : cm := CM (cadd (c00 a) (c00 b)) (cadd (c01 a) (c01 b)) (cadd (c10 a) (c10 b)) (cadd (c11 a) (c11 b)).
Definition cmT (a : cm) : cm := CM (c00 a) (c10 a) (c01 a) (c11 a).
Definition ceye : cm := CM c1 c0 c0 c1.
Definition cdet (a : cm) : cx := csub (cmul (c00 a) (c11 a)) (cmul (c01 a) (c10 a)).
(** [np.linalg.inv]; raises for a singular matrix *)
Definition cminv (a : cm) : option cm :=
  let d := cdet a in
  if ceqb d c0 then None else Some (CM (cdiv (c11 a) d) (cdiv (cneg (c01 a)) d) (cdiv (cneg (c10 a)) d) (cdiv (c00 a) d)).

Lemma cm_eq a b : c00 a = c00 b -> c01 a = c01 b -> c10 a = c10 b -> c11 a = c11 b -> a = b.
Proof. destruct a, b; cbn; intros; subst; auto. Qed.
Ltac cm_ring := apply cm_eq; unfold cmm, cma, cmT, ceye; cbn [c00 c01 c10 c11]; ring.
Lemma cmm_assoc a b c : cmm a (cmm b c) = cmm (cmm a b) c.
Proof. cm_ring. Qed.
Lemma cmm_eye_l a : cmm ceye a = a.
Proof. destruct a. cm_ring. Qed.
Lemma cmm_eye_r a : cmm a ceye = a.
Proof. destruct a. cm_ring. Qed.
Lemma cdet_mm a b : cdet (cmm a b) = cmul (cdet a) (cdet b).
Proof. unfold cdet, cmm. cbn [c00 c01 c10 c11]. ring. Qed.
Lemma cminv_some a : cdet a <> c0 -> exists i, cminv a = Some i /\ cmm i a = ceye /\ cmm a i = ceye.
Proof.
  intros H. unfold cminv. destruct (ceqb (cdet a) c0) eqn:E; [apply ceqb_true in E; contradiction|].
  eexists. split; [reflexivity|]. split; apply cm_eq; unfold cmm, ceye; cbn [c00 c01 c10 c11]; unfold cdet in *; field; auto.
Qed.
Lemma cminv_none a : cdet a = c0 -> cminv a = None.
Proof. intros H. unfold cminv. rewrite (proj2 (ceqb_true _ _) H). reflexivity. Qed.
Lemma cminv_inv a i : cminv a = Some i -> cdet a <> c0 /\ cmm i a = ceye /\ cmm a i = ceye.
Proof.
  intros H. assert (D : cdet a <> c0) by (intros Z; rewrite cminv_none in H; auto; discriminate).
  destruct (cminv_some a D) as (j & J & K). rewrite H in J. injection J as <-. auto.
Qed.
