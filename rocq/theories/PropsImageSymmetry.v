(** Property C111: the diffraction image has the symmetry of the wave front, and for a centrosymmetric wave front it does not tell
    the sign of the error. *)
From Coq Require Import Reals List Lra Lia Psatz Arith.
From Verif Require Import Base Cx PsfModel PropsPsf.
Import ListNotations.
Open Scope R_scope.

Lemma csum_first n f : csum (S n) f = cadd (f 0%nat) (csum n (fun i => f (S i))).
Proof. induction n as [|n IH]; [cbn; ring|]. cbn [csum] in *. rewrite IH. ring. Qed.
Lemma csum_rev n : forall f, csum n f = csum n (fun i => f (n - 1 - i)%nat).
Proof.
  induction n as [|n IH]; intros f; [reflexivity|]. rewrite csum_first. cbn [csum]. rewrite IH.
  replace (S n - 1 - n)%nat with 0%nat by lia. rewrite (csum_ext n _ (fun i => f (S n - 1 - i)%nat)); [ring|]. intros i I. f_equal. lia.
Qed.
Lemma rsum_first n f : rsum (S n) f = f 0%nat + rsum n (fun i => f (S i)).
Proof. induction n as [|n IH]; [cbn; ring|]. cbn [rsum] in *. rewrite IH. ring. Qed.
Lemma rsum_rev n : forall f, rsum n f = rsum n (fun i => f (n - 1 - i)%nat).
Proof.
  induction n as [|n IH]; intros f; [reflexivity|]. rewrite rsum_first. cbn [rsum]. rewrite IH.
  replace (S n - 1 - n)%nat with 0%nat by lia. rewrite (rsum_ext n _ (fun i => f (S n - 1 - i)%nat)); [ring|]. intros i I. f_equal. lia.
Qed.
(** the transform of the unpadded array *)
Definition transform (n m : nat) (a : nat -> nat -> cx) (p q : nat) : cx :=
  csum n (fun j => csum n (fun k => cmul (a j k) (cis (-2 * PI * (INR j * INR p / INR m + INR k * INR q / INR m))))).
Lemma fft2_cut n m a p q : (n <= m)%nat -> fft2 n m m a p q = transform n m a p q.
Proof.
  intros L. unfold fft2, transform.
  assert (Z : forall j k, (n <= j)%nat \/ (n <= k)%nat -> padded n a j k = c0).
  { intros j k H. unfold padded. destruct (Nat.ltb_spec j n), (Nat.ltb_spec k n); cbn; auto; lia. }
  rewrite (csum_cut n m) by (auto; intros i I; rewrite (csum_ext m _ (fun _ => c0)) by (intros; rewrite Z by lia; ring); apply csum_zero).
  apply csum_ext. intros j J. rewrite (csum_cut n m) by (auto; intros i I; rewrite Z by lia; ring).
  apply csum_ext. intros k K. f_equal. unfold padded. destruct (Nat.ltb_spec j n), (Nat.ltb_spec k n); cbn; auto; lia.
Qed.
Lemma psf_by n pad o o' p q p' q' : (0 < pad)%nat -> count_good n o' = count_good n o ->
  cabs2 (transform n (n * pad) (amplitude n o') p' q') = cabs2 (transform n (n * pad) (amplitude n o) p q) -> psf n pad o' p' q' = psf n pad o p q.
Proof.
  intros P C E. unfold psf. rewrite C. destruct (Req_EM_T _ 0); [reflexivity|]. rewrite !fft2_cut by nia. unfold cabs2 in E. f_equal. exact E.
Qed.
Lemma cabs2_of_conj z : cabs2 (conj z) = cabs2 z. Proof. unfold cabs2; cbn; ring. Qed.

(** * C111 *)
(** the image of the mirrored wave front is the mirrored image *)
Theorem C111_mirrored n pad o o' p q : (0 < pad)%nat -> (p <= n * pad)%nat ->
  (forall j k, (j < n)%nat -> (k < n)%nat -> o' j k = o (n - 1 - j)%nat k) ->
  psf n pad o' p q = psf n pad o (n * pad - p) q.
Proof.
  intros P PL H. destruct (Nat.eq_dec n 0) as [-> | N].
  { unfold psf, count_good. cbn [rsum]. destruct (Req_EM_T 0 0); [reflexivity|lra]. }
  assert (MP : 0 < INR (n * pad)) by (apply lt_0_INR; nia).
  assert (CNT : count_good n o' = count_good n o).
  { unfold count_good. rewrite (rsum_rev n (fun j => rsum n (fun k => match o j k with Some _ => 1 | None => 0 end))).
    apply rsum_ext. intros j J. apply rsum_ext. intros k K. rewrite H by assumption. reflexivity. }
  apply psf_by; auto. set (m := (n * pad)%nat) in *.
  assert (E : transform n m (amplitude n o') p q = cmul (cis (-2 * PI * (INR (n - 1) * INR p / INR m))) (transform n m (amplitude n o) (m - p) q)).
  { unfold transform. rewrite <- csum_mul. rewrite csum_rev. apply csum_ext. intros j J. rewrite <- csum_mul. apply csum_ext. intros k K.
    assert (A : amplitude n o' (n - 1 - j) k = amplitude n o j k).
    { unfold amplitude. rewrite CNT, H by lia. replace (n - 1 - (n - 1 - j))%nat with j by lia. reflexivity. }
    rewrite A. transitivity (cmul (amplitude n o j k) (cmul (cis (-2 * PI * (INR (n - 1) * INR p / INR m))) (cis (-2 * PI * (INR j * INR (m - p) / INR m + INR k * INR q / INR m))))); [|ring].
    f_equal. rewrite <- cis_add, <- (cis_turn_neg _ j). f_equal. rewrite (minus_INR m p) by lia. rewrite (minus_INR (n - 1) j) by lia. field. lra. }
  rewrite E, cabs2_mul, cis_abs2. ring.
Qed.
(** exchanging the pupil axes exchanges the image axes *)
Theorem C111_transposed n pad o o' p q : (0 < pad)%nat ->
  (forall j k, (j < n)%nat -> (k < n)%nat -> o' j k = o k j) -> psf n pad o' p q = psf n pad o q p.
Proof.
  intros P H. assert (CNT : count_good n o' = count_good n o).
  { unfold count_good. rewrite rsum_swap. apply rsum_ext. intros j J. apply rsum_ext. intros k K. rewrite H by assumption. reflexivity. }
  apply psf_by; auto. f_equal. unfold transform. rewrite csum_swap. apply csum_ext. intros j J. apply csum_ext. intros k K.
  unfold amplitude. rewrite CNT, H by assumption. f_equal. f_equal. ring.
Qed.
(** the opposite error gives the image turned by half a turn *)
Theorem C111_opposite n pad o o' p q : (0 < pad)%nat -> (p <= n * pad)%nat -> (q <= n * pad)%nat ->
  (forall j k, (j < n)%nat -> (k < n)%nat -> o' j k = option_map Ropp (o j k)) ->
  psf n pad o' p q = psf n pad o (n * pad - p) (n * pad - q).
Proof.
  intros P PL QL H. destruct (Nat.eq_dec n 0) as [-> | N].
  { unfold psf, count_good. cbn [rsum]. destruct (Req_EM_T 0 0); [reflexivity|lra]. }
  assert (MP : 0 < INR (n * pad)) by (apply lt_0_INR; nia).
  assert (CNT : count_good n o' = count_good n o).
  { unfold count_good. apply rsum_ext. intros j J. apply rsum_ext. intros k K. rewrite H by assumption. destruct (o j k); reflexivity. }
  apply psf_by; auto. set (m := (n * pad)%nat) in *.
  rewrite <- cabs2_of_conj. f_equal. unfold transform. rewrite csum_conj. apply csum_ext. intros j J. rewrite csum_conj. apply csum_ext. intros k K.
  rewrite conj_mul, cis_conj. f_equal.
  - unfold amplitude. rewrite CNT, H by assumption. destruct (o j k) as [w|]; cbn [option_map]; [|apply cx_eq; cbn; ring].
    unfold cdiv. rewrite conj_mul, cis_conj. f_equal; [f_equal; ring|]. apply cx_eq; cbn; unfold cabs2; cbn; unfold Rdiv; ring.
  - rewrite <- (cis_turn_neg (- _) (j + k)). f_equal. rewrite !minus_INR by lia. rewrite plus_INR. cbn [INR]. field. lra.
Qed.
(** a wave front even about the meridional plane has an image even about it *)
Theorem C111_even n pad o p q : (0 < pad)%nat -> (p <= n * pad)%nat ->
  (forall j k, (j < n)%nat -> (k < n)%nat -> o (n - 1 - j)%nat k = o j k) -> psf n pad o (n * pad - p) q = psf n pad o p q.
Proof. intros P PL H. symmetry. apply C111_mirrored; auto. intros. symmetry. auto. Qed.
(** if the wave front is the same at opposite points of the pupil, the sign of the error does not show: images on both sides of the focus agree *)
Theorem C111_focus n pad o o' p q : (0 < pad)%nat -> (p <= n * pad)%nat -> (q <= n * pad)%nat ->
  (forall j k, (j < n)%nat -> (k < n)%nat -> o (n - 1 - j)%nat (n - 1 - k)%nat = o j k) ->
  (forall j k, (j < n)%nat -> (k < n)%nat -> o' j k = option_map Ropp (o j k)) ->
  psf n pad o' p q = psf n pad o p q.
Proof.
  intros P PL QL EV H. rewrite (C111_opposite n pad o o' p q P PL QL H).
  rewrite <- (C111_mirrored n pad o (fun j k => o (n - 1 - j)%nat k) p (n * pad - q) P PL) by reflexivity.
  rewrite (C111_transposed n pad (fun k j => o (n - 1 - j)%nat k) (fun j k => o (n - 1 - j)%nat k) p (n * pad - q) P) by reflexivity.
  rewrite <- (C111_mirrored n pad (fun k j => o (n - 1 - j)%nat k) (fun k j => o (n - 1 - j)%nat (n - 1 - k)%nat) q p P QL) by reflexivity.
  apply C111_transposed; [exact P|]. intros j k J K. apply EV; assumption.
Qed.
(** pixel [n*pad - p] lies opposite to pixel [p] *)
Theorem C111_opposite_pixel n pad h radius l scale p : (0 < p < n * pad)%nat -> (2 * p <> n * pad)%nat ->
  psf_axis n pad h radius l scale (n * pad - p) = option_map Ropp (psf_axis n pad h radius l scale p).
Proof.
  intros P NY. unfold psf_axis. destruct (fdiv l scale) as [w|]; [|reflexivity]. cbn [obind]. destruct (fdiv 1 w) as [k|]; [|reflexivity]. cbn [obind].
  destruct (fdiv _ radius) as [d|]; [|reflexivity]. cbn [obind]. unfold fftfreq. set (m := (n * pad)%nat) in *.
  assert (V : (if Nat.ltb (m - p) ((m - 1) / 2 + 1) then INR (m - p) else INR (m - p) - INR m) = - (if Nat.ltb p ((m - 1) / 2 + 1) then INR p else INR p - INR m)).
  { pose proof (Nat.div_mod (m - 1) 2 ltac:(lia)) as D. pose proof (Nat.mod_upper_bound (m - 1) 2 ltac:(lia)) as U.
    rewrite minus_INR by lia. destruct (Nat.ltb_spec (m - p) ((m - 1) / 2 + 1)), (Nat.ltb_spec p ((m - 1) / 2 + 1)); try lia; ring. }
  rewrite V. set (v := if Nat.ltb p _ then _ else _). destruct (Req_EM_T (INR m * d) 0) as [Z | Z]; [rewrite Z, !fdiv_zero; reflexivity|].
  rewrite !fdiv_some by assumption. cbn [option_map]. f_equal. field. split; intros Q; apply Z; rewrite Q; ring.
Qed.

Example C111_example : let o := fun j k => if Nat.eqb j 0 then None else Some (INR (j * k) / 5) in let coma := fun j k => Some (INR j ^ 3 - INR k) in
  psf 3 2 (fun j k => o (3 - 1 - j)%nat k) 1 2 = psf 3 2 o 5 2 /\ psf 3 2 (fun j k => o k j) 1 2 = psf 3 2 o 2 1 /\
  psf 3 2 (fun j k => option_map Ropp (coma j k)) 1 2 = psf 3 2 coma 5 4.
Proof.
  cbv zeta. split; [|split].
  - apply (C111_mirrored 3 2 _ _ 1 2); [lia|cbn; lia|reflexivity].
  - apply (C111_transposed 3 2 _ _ 1 2); [lia|reflexivity].
  - apply (C111_opposite 3 2 (fun j k => Some (INR j ^ 3 - INR k)) _ 1 2); [lia|cbn; lia|cbn; lia|reflexivity].
Qed.
(** defocus on a grid of three by three points: both signs of it give the same image *)
Example C111_focus_example : let defocus := fun j k => Some ((INR j - 1) ^ 2 + (INR k - 1) ^ 2) in
  (forall j k, (j < 3)%nat -> (k < 3)%nat -> defocus (3 - 1 - j)%nat (3 - 1 - k)%nat = defocus j k) /\
  (forall j k, (j < 3)%nat -> (k < 3)%nat -> defocus (3 - 1 - j)%nat k = defocus j k) /\
  psf 3 2 (fun j k => option_map Ropp (defocus j k)) 1 2 = psf 3 2 defocus 1 2 /\ psf 3 2 defocus 5 2 = psf 3 2 defocus 1 2.
Proof.
  cbv zeta.
  assert (M : forall j, (j < 3)%nat -> (INR (3 - 1 - j) - 1) ^ 2 = (INR j - 1) ^ 2).
  { intros j J. destruct j as [|[|[|j]]]; [..|lia]; cbn; ring. }
  split; [intros j k J K; rewrite !M by assumption; reflexivity|]. split; [intros j k J K; rewrite M by assumption; reflexivity|]. split.
  - apply (C111_focus 3 2 (fun j k => Some ((INR j - 1) ^ 2 + (INR k - 1) ^ 2))); [lia|cbn; lia|cbn; lia|intros j k J K; rewrite !M by assumption; reflexivity|reflexivity].
  - apply (C111_even 3 2 (fun j k => Some ((INR j - 1) ^ 2 + (INR k - 1) ^ 2)) 1 2); [lia|cbn; lia|intros j k J K; rewrite M by assumption; reflexivity].
Qed.
Example C111_pixel_example : (0 < 2 < 3 * 2)%nat /\ (2 * 2 <> 3 * 2)%nat. Proof. lia. Qed.
Print Assumptions C111_mirrored.
Print Assumptions C111_transposed.
Print Assumptions C111_opposite.
Print Assumptions C111_even.
Print Assumptions C111_focus.
Print Assumptions C111_opposite_pixel.
