(** Property C55: the point spread function is a normalised intensity at the stated image coordinates *)
From Coq Require Import Reals List Lra Lia Psatz Arith.
From Verif Require Import Base Cx PsfModel.
Import ListNotations.
Open Scope R_scope.

(** * sums *)
Definition conj (z : cx) : cx := Cx (re z) (- im z).
Lemma csum_ext n f g : (forall i, (i < n)%nat -> f i = g i) -> csum n f = csum n g.
Proof. induction n as [|n IH]; intros H; [reflexivity|]. cbn. rewrite IH by (intros; apply H; lia). rewrite H by lia. reflexivity. Qed.
Lemma rsum_ext n f g : (forall i, (i < n)%nat -> f i = g i) -> rsum n f = rsum n g.
Proof. induction n as [|n IH]; intros H; [reflexivity|]. cbn. rewrite IH by (intros; apply H; lia). rewrite H by lia. reflexivity. Qed.
Lemma csum_add n f g : csum n (fun i => cadd (f i) (g i)) = cadd (csum n f) (csum n g).
Proof. induction n as [|n IH]; cbn; [ring|rewrite IH; ring]. Qed.
Lemma csum_mul n f z : csum n (fun i => cmul z (f i)) = cmul z (csum n f).
Proof. induction n as [|n IH]; cbn; [ring|rewrite IH; ring]. Qed.
Lemma csum_zero n : csum n (fun _ => c0) = c0.
Proof. induction n as [|n IH]; cbn; [reflexivity|rewrite IH; ring]. Qed.
Lemma csum_swap n m f : csum n (fun i => csum m (fun j => f i j)) = csum m (fun j => csum n (fun i => f i j)).
Proof. induction n as [|n IH]; cbn; [rewrite csum_zero; reflexivity|]. rewrite IH, <- csum_add. reflexivity. Qed.
Lemma csum_conj n f : conj (csum n f) = csum n (fun i => conj (f i)).
Proof. induction n as [|n IH]; cbn; [apply cx_eq; cbn; ring|]. rewrite <- IH. apply cx_eq; cbn; ring. Qed.
Lemma csum_one n f i : (i < n)%nat -> (forall j, (j < n)%nat -> j <> i -> f j = c0) -> csum n f = f i.
Proof.
  intros L H. induction n as [|n IH]; [lia|]. cbn. destruct (Nat.eq_dec i n) as [->|N].
  - rewrite (csum_ext n f (fun _ => c0)) by (intros; apply H; lia). rewrite csum_zero. ring.
  - rewrite IH by (try lia; intros; apply H; lia). rewrite (H n) by lia. ring.
Qed.
Lemma csum_rc n f : csum n (fun i => rc (f i)) = rc (rsum n f).
Proof. induction n as [|n IH]; cbn; [reflexivity|]. rewrite IH. apply cx_eq; cbn; ring. Qed.
Lemma rsum_mul n f z : rsum n (fun i => z * f i) = z * rsum n f.
Proof. induction n as [|n IH]; cbn; [ring|rewrite IH; ring]. Qed.
Lemma rsum_add n f g : rsum n (fun i => f i + g i) = rsum n f + rsum n g.
Proof. induction n as [|n IH]; cbn; [ring|rewrite IH; ring]. Qed.
Lemma rsum_zero n : rsum n (fun _ => 0) = 0.
Proof. induction n as [|n IH]; cbn; [reflexivity|rewrite IH; ring]. Qed.
Lemma rsum_const n x : rsum n (fun _ => x) = INR n * x.
Proof. induction n as [|n IH]; [cbn; ring|]. cbn [rsum]. rewrite IH, S_INR. ring. Qed.
Lemma rsum_swap n m f : rsum n (fun i => rsum m (fun j => f i j)) = rsum m (fun j => rsum n (fun i => f i j)).
Proof. induction n as [|n IH]; cbn; [rewrite rsum_zero; reflexivity|]. rewrite IH, <- rsum_add. reflexivity. Qed.
Lemma rsum_le n f g : (forall i, (i < n)%nat -> f i <= g i) -> rsum n f <= rsum n g.
Proof. induction n as [|n IH]; intros H; cbn; [lra|]. assert (rsum n f <= rsum n g) by (apply IH; intros; apply H; lia). pose proof (H n ltac:(lia)). lra. Qed.
Lemma rsum_nonneg n f : (forall i, 0 <= f i) -> 0 <= rsum n f.
Proof. intros H. induction n; cbn; [lra|]. pose proof (H n). lra. Qed.
Lemma rsum_cut n m f : (n <= m)%nat -> (forall i, (n <= i < m)%nat -> f i = 0) -> rsum m f = rsum n f.
Proof.
  induction m as [|m IH]; intros L H; [replace n with 0%nat by lia; reflexivity|]. destruct (Nat.eq_dec n (S m)) as [->|]; [reflexivity|].
  cbn. rewrite IH by (try lia; intros; apply H; lia). rewrite (H m) by lia. ring.
Qed.
Lemma csum_cut n m f : (n <= m)%nat -> (forall i, (n <= i < m)%nat -> f i = c0) -> csum m f = csum n f.
Proof.
  induction m as [|m IH]; intros L H; [replace n with 0%nat by lia; reflexivity|]. destruct (Nat.eq_dec n (S m)) as [->|]; [reflexivity|].
  cbn. rewrite IH by (try lia; intros; apply H; lia). rewrite (H m) by lia. ring.
Qed.
Lemma cabs2_conj z : cmul z (conj z) = rc (cabs2 z). Proof. apply cx_eq; unfold cabs2; cbn; ring. Qed.
Lemma conj_mul a b : conj (cmul a b) = cmul (conj a) (conj b). Proof. apply cx_eq; cbn; ring. Qed.
Lemma cabs2_mul a b : cabs2 (cmul a b) = cabs2 a * cabs2 b. Proof. unfold cabs2; cbn; ring. Qed.
Lemma cabs2_nonneg a : 0 <= cabs2 a.
Proof. unfold cabs2. pose proof (Rle_0_sqr (re a)). pose proof (Rle_0_sqr (im a)). unfold Rsqr in *. lra. Qed.

(** * roots of unity *)
Lemma cis_add x y : cis (x + y) = cmul (cis x) (cis y).
Proof. unfold cis. apply cx_eq; cbn; [rewrite cos_plus; ring|rewrite sin_plus; ring]. Qed.
Lemma cis_conj x : conj (cis x) = cis (- x).
Proof. unfold cis, conj. cbn. rewrite cos_neg, sin_neg. reflexivity. Qed.
Lemma cis_0 : cis 0 = c1. Proof. unfold cis. rewrite cos_0, sin_0. reflexivity. Qed.
Lemma cis_abs2 x : cabs2 (cis x) = 1.
Proof. unfold cabs2, cis. cbn. pose proof (sin2_cos2 x) as H. unfold Rsqr in H. lra. Qed.
Lemma cis_turn x k : cis (x + 2 * PI * INR k) = cis x.
Proof. unfold cis. replace (x + 2 * PI * INR k) with (x + 2 * INR k * PI) by ring. rewrite cos_period, sin_period. reflexivity. Qed.
Lemma cis_turn_neg x k : cis (x - 2 * PI * INR k) = cis x.
Proof. rewrite <- (cis_turn (x - 2 * PI * INR k) k). f_equal. ring. Qed.
Lemma cis_not_one x : 0 < x < 2 * PI -> cis x <> c1.
Proof.
  intros H E. apply (f_equal re) in E. cbn in E. assert (S : 0 < sin (x / 2)) by (apply sin_gt_0; lra).
  replace x with (2 * (x / 2)) in E by field. rewrite cos_2a_sin in E. nra.
Qed.
Lemma geo_sum n x : cmul (csub (cis x) c1) (csum n (fun p => cis (INR p * x))) = csub (cis (INR n * x)) c1.
Proof.
  induction n as [|n IH]; [cbn [csum INR]; rewrite Rmult_0_l, cis_0; ring|]. cbn [csum].
  transitivity (cadd (cmul (csub (cis x) c1) (csum n (fun p => cis (INR p * x)))) (cmul (csub (cis x) c1) (cis (INR n * x)))); [ring|].
  rewrite IH. rewrite S_INR. replace ((INR n + 1) * x) with (INR n * x + x) by ring. rewrite cis_add. ring.
Qed.
Lemma roots_sum n d : (0 < d < n)%nat -> csum n (fun p => cis (INR p * (2 * PI * INR d / INR n))) = c0.
Proof.
  intros H. assert (N : 0 < INR n) by (apply lt_0_INR; lia). assert (D : 0 < INR d < INR n) by (split; [apply lt_0_INR; lia|apply lt_INR; lia]).
  assert (P := PI_RGT_0). set (x := 2 * PI * INR d / INR n).
  assert (X : 0 < x < 2 * PI).
  { unfold x. split; [apply Rdiv_lt_0_compat; [nra|auto]|]. apply (Rmult_lt_reg_r (INR n)); [auto|]. replace (2 * PI * INR d / INR n * INR n) with (2 * PI * INR d) by (field; lra). nra. }
  pose proof (geo_sum n x) as G. replace (INR n * x) with (0 + 2 * PI * INR d) in G by (unfold x; field; lra). rewrite cis_turn, cis_0 in G.
  replace (csub c1 c1) with c0 in G by ring. apply cmul_zero in G. destruct G as [G|G]; [|exact G]. exfalso. apply (cis_not_one x X).
  transitivity (cadd (csub (cis x) c1) c1); [ring|rewrite G; ring].
Qed.
Lemma roots_orth n j k : (j < n)%nat -> (k < n)%nat ->
  csum n (fun p => cmul (cis (-2 * PI * (INR j * INR p / INR n))) (conj (cis (-2 * PI * (INR k * INR p / INR n))))) = if Nat.eq_dec j k then rc (INR n) else c0.
Proof.
  intros J K. assert (N : 0 < INR n) by (apply lt_0_INR; lia).
  assert (E : forall p, cmul (cis (-2 * PI * (INR j * INR p / INR n))) (conj (cis (-2 * PI * (INR k * INR p / INR n)))) = cis (2 * PI * ((INR k - INR j) * INR p / INR n))).
  { intros p. rewrite cis_conj, <- cis_add. f_equal. field. lra. }
  rewrite (csum_ext _ _ _ (fun p _ => E p)). clear E. destruct (Nat.eq_dec j k) as [->|NE].
  - rewrite (csum_ext n _ (fun _ => rc 1)).
    + rewrite (csum_rc n (fun _ => 1)), rsum_const, Rmult_1_r. reflexivity.
    + intros p _. replace (2 * PI * ((INR k - INR k) * INR p / INR n)) with 0 by (field; lra). apply cis_0.
  - destruct (Nat.lt_ge_cases j k) as [L|L].
    + rewrite <- (roots_sum n (k - j)) by lia. apply csum_ext. intros p _. f_equal. rewrite minus_INR by lia. field. lra.
    + transitivity (conj c0); [|apply cx_eq; cbn; ring]. rewrite <- (roots_sum n (j - k)) by lia. rewrite csum_conj. apply csum_ext. intros p _. rewrite cis_conj. f_equal.
      rewrite minus_INR by lia. field. lra.
Qed.
(** Parseval *)
Lemma parseval n b : (0 < n)%nat ->
  rsum n (fun p => cabs2 (csum n (fun j => cmul (b j) (cis (-2 * PI * (INR j * INR p / INR n)))))) = INR n * rsum n (fun j => cabs2 (b j)).
Proof.
  intros N. assert (E : rc (rsum n (fun p => cabs2 (csum n (fun j => cmul (b j) (cis (-2 * PI * (INR j * INR p / INR n))))))) = rc (INR n * rsum n (fun j => cabs2 (b j)))).
  2:{ injection E. auto. }
  set (e := fun j p => cis (-2 * PI * (INR j * INR p / INR n))).
  rewrite <- csum_rc.
  transitivity (csum n (fun p => csum n (fun j => csum n (fun k => cmul (cmul (b j) (conj (b k))) (cmul (e j p) (conj (e k p))))))).
  { apply csum_ext. intros p _. rewrite <- cabs2_conj. rewrite csum_conj.
    set (Z := csum n (fun i => conj (cmul (b i) (e i p)))).
    change (cmul (csum n (fun j => cmul (b j) (e j p))) Z = csum n (fun j => csum n (fun k => cmul (cmul (b j) (conj (b k))) (cmul (e j p) (conj (e k p)))))).
    transitivity (cmul Z (csum n (fun j => cmul (b j) (e j p)))); [clearbody Z; ring|]. rewrite <- csum_mul. apply csum_ext. intros j _.
    transitivity (cmul (cmul (b j) (e j p)) Z); [ring|]. unfold Z. rewrite <- csum_mul. apply csum_ext. intros k _. rewrite conj_mul. ring. }
  rewrite csum_swap. rewrite <- rsum_mul, <- csum_rc. apply csum_ext. intros j J. rewrite csum_swap.
  rewrite (csum_one n _ j J).
  - rewrite (csum_mul n (fun p => cmul (e j p) (conj (e j p)))). unfold e. rewrite roots_orth by auto. destruct (Nat.eq_dec j j); [|congruence]. rewrite cabs2_conj. apply cx_eq; cbn; ring.
  - intros k K NE. rewrite (csum_mul n (fun p => cmul (e j p) (conj (e k p)))). unfold e. rewrite roots_orth by auto. destruct (Nat.eq_dec j k); [congruence|]. ring.
Qed.
Lemma parseval2 n a : (0 < n)%nat ->
  rsum n (fun p => rsum n (fun q => cabs2 (csum n (fun j => csum n (fun k => cmul (a j k) (cis (-2 * PI * (INR j * INR p / INR n + INR k * INR q / INR n)))))))) =
  INR n * INR n * rsum n (fun j => rsum n (fun k => cabs2 (a j k))).
Proof.
  intros N. set (F := fun p k => csum n (fun j => cmul (a j k) (cis (-2 * PI * (INR j * INR p / INR n))))).
  transitivity (rsum n (fun p => INR n * rsum n (fun k => cabs2 (F p k)))).
  - apply rsum_ext. intros p _. rewrite <- (parseval n (F p) N). apply rsum_ext. intros q _. f_equal. rewrite csum_swap. apply csum_ext. intros k _.
    unfold F. transitivity (cmul (cis (-2 * PI * (INR k * INR q / INR n))) (csum n (fun j => cmul (a j k) (cis (-2 * PI * (INR j * INR p / INR n)))))); [|ring].
    rewrite <- csum_mul. apply csum_ext. intros j _. rewrite Rmult_plus_distr_l, cis_add. ring.
  - rewrite rsum_mul, rsum_swap. rewrite Rmult_assoc. f_equal. rewrite (rsum_swap n n (fun j k => cabs2 (a j k))), <- rsum_mul. apply rsum_ext. intros k _. unfold F. apply (parseval n (fun j => a j k) N).
Qed.

(** * theorems *)
Lemma count_nonneg n o : 0 <= count_good n o.
Proof. apply rsum_nonneg. intros j. apply rsum_nonneg. intros k. destruct (o j k); lra. Qed.
Lemma count_pos n o j k w : (j < n)%nat -> (k < n)%nat -> o j k = Some w -> 0 < count_good n o.
Proof.
  intros J K W. unfold count_good.
  assert (ONE : forall n f i, (i < n)%nat -> (forall i, 0 <= f i) -> f i <= rsum n f).
  { clear. intros n f i L H. induction n as [|n IH]; [lia|]. cbn. pose proof (H n). destruct (Nat.eq_dec i n) as [->|]; [pose proof (rsum_nonneg n f H); lra|]. pose proof (IH ltac:(lia)). lra. }
  eapply Rlt_le_trans; [|apply (ONE n _ j J)]; [|intros i; apply rsum_nonneg; intros m; destruct (o i m); lra]. cbv beta.
  eapply Rlt_le_trans; [|apply (ONE n _ k K)]; [|intros m; destruct (o j m); lra]. cbv beta. rewrite W. lra.
Qed.
Lemma amplitude_abs2 n o j k : 0 < count_good n o -> cabs2 (amplitude n o j k) = (match o j k with Some _ => 1 | None => 0 end) / count_good n o.
Proof.
  intros C. unfold amplitude. destruct (o j k) as [w|]; [|unfold cabs2; cbn; field; lra].
  assert (S : 0 < sqrt (count_good n o)) by (apply sqrt_lt_R0; auto). assert (Q : sqrt (count_good n o) * sqrt (count_good n o) = count_good n o) by (apply sqrt_sqrt; lra).
  set (s := sqrt (count_good n o)) in *. replace (cdiv (cis (-2 * PI * w)) (rc s)) with (cmul (cis (-2 * PI * w)) (rc (/ s))).
  - rewrite cabs2_mul, cis_abs2. unfold cabs2. cbn. rewrite <- Q. field. lra.
  - unfold cdiv. f_equal. apply cx_eq; unfold cabs2; cbn; unfold cabs2; cbn; field; nra.
Qed.
Lemma psf_some n pad o j k w p q : (0 < pad)%nat -> (j < n)%nat -> (k < n)%nat -> o j k = Some w ->
  psf n pad o p q = Some (cabs2 (fft2 n (n * pad) (n * pad) (amplitude n o) p q) / (INR (n * pad) * INR (n * pad))).
Proof.
  intros P J K W. pose proof (count_pos n o j k w J K W) as C. unfold psf. destruct (Req_EM_T _ 0); [lra|].
  assert (N : 0 < INR (n * pad)) by (apply lt_0_INR; nia). rewrite fdiv_some by (rewrite mult_INR; nra). rewrite (mult_INR (n * pad) (n * pad)). reflexivity.
Qed.
Lemma pad_cut n m : (n <= m)%nat -> forall a, (forall j k, (n <= j)%nat \/ (n <= k)%nat -> a j k = 0) ->
  rsum m (fun j => rsum m (fun k => a j k)) = rsum n (fun j => rsum n (fun k => a j k)).
Proof.
  intros L a H. rewrite (rsum_cut n m) by (auto; intros i I; rewrite (rsum_ext m _ (fun _ => 0)) by (intros; apply H; lia); apply rsum_zero).
  apply rsum_ext. intros j _. apply rsum_cut; [auto|]. intros k K. apply H. lia.
Qed.
(** the intensities are not negative and add up to one *)
Theorem C55_total n pad o j k w : (0 < pad)%nat -> (j < n)%nat -> (k < n)%nat -> o j k = Some w ->
  exists f, (forall p q, psf n pad o p q = Some (f p q)) /\ (forall p q, 0 <= f p q) /\
    rsum (n * pad) (fun p => rsum (n * pad) (fun q => f p q)) = 1.
Proof.
  intros P J K W. pose proof (count_pos n o j k w J K W) as C. set (m := (n * pad)%nat). assert (M : (n <= m)%nat) by (unfold m; nia).
  assert (MP : 0 < INR m) by (apply lt_0_INR; lia).
  exists (fun p q => cabs2 (fft2 n m m (amplitude n o) p q) / (INR m * INR m)). repeat apply Logic.conj.
  - intros p q. apply (psf_some n pad o j k w); auto.
  - intros p q. apply Rmult_le_pos; [apply cabs2_nonneg|]. apply Rlt_le, Rinv_0_lt_compat. nra.
  - assert (E : rsum m (fun p => rsum m (fun q => cabs2 (fft2 n m m (amplitude n o) p q) / (INR m * INR m))) =
      / (INR m * INR m) * rsum m (fun p => rsum m (fun q => cabs2 (fft2 n m m (amplitude n o) p q)))).
    { rewrite <- rsum_mul. apply rsum_ext. intros p _. rewrite <- rsum_mul. apply rsum_ext. intros q _. unfold Rdiv. ring. }
    rewrite E. unfold fft2. rewrite (parseval2 m (padded n (amplitude n o))) by lia.
    rewrite (pad_cut n m M).
    2:{ intros a b H. unfold padded. destruct (Nat.ltb a n) eqn:A; [|unfold cabs2; cbn; ring]. destruct (Nat.ltb b n) eqn:B; [|unfold cabs2; cbn; ring]. apply Nat.ltb_lt in A, B. lia. }
    rewrite (rsum_ext n _ (fun j => / count_good n o * rsum n (fun k => match o j k with Some _ => 1 | None => 0 end))).
    + rewrite rsum_mul. fold (count_good n o). field. lra.
    + intros a A. rewrite <- rsum_mul. apply rsum_ext. intros b B. unfold padded. apply Nat.ltb_lt in A, B. rewrite A, B. cbn [andb]. rewrite amplitude_abs2 by auto. unfold Rdiv. ring.
Qed.
Example C55_total_example : exists o : nat -> nat -> option R, o 1%nat 0%nat = Some (1 / 4) /\ o 0%nat 0%nat = None.
Proof. exists (fun j k => if Nat.eqb (j + k) 1 then Some (1 / 4) else None). split; reflexivity. Qed.
(** triangle inequality *)
Lemma csum_bound n f g : (forall i, (i < n)%nat -> 0 <= g i /\ cabs2 (f i) <= g i * g i) -> cabs2 (csum n f) <= rsum n g * rsum n g /\ 0 <= rsum n g.
Proof.
  induction n as [|n IH]; intros H; cbn.
  - unfold cabs2; cbn. lra.
  - destruct IH as (A & B); [intros; apply H; lia|]. destruct (H n ltac:(lia)) as (G & F). split; [|lra].
    set (z := csum n f) in *. set (w := f n) in *. set (s := rsum n g) in *. set (t := g n) in *. unfold cabs2 in *. cbn.
    assert (CS : re z * re w + im z * im w <= s * t).
    { apply Rsqr_incr_0_var; [|apply Rmult_le_pos; auto]. unfold Rsqr.
      apply Rle_trans with ((re z * re z + im z * im z) * (re w * re w + im w * im w)).
      - pose proof (Rle_0_sqr (re z * im w - im z * re w)) as Q. unfold Rsqr in Q. lra.
      - replace (s * t * (s * t)) with ((s * s) * (t * t)) by ring. apply Rmult_le_compat; auto.
        + pose proof (Rle_0_sqr (re z)). pose proof (Rle_0_sqr (im z)). unfold Rsqr in *. lra.
        + pose proof (Rle_0_sqr (re w)). pose proof (Rle_0_sqr (im w)). unfold Rsqr in *. lra. }
    lra.
Qed.
(** no pixel is brighter than the centre of the perfect system with the same pupil *)
Theorem C55_peak n pad o j k w p q v : (0 < pad)%nat -> (j < n)%nat -> (k < n)%nat -> o j k = Some w ->
  psf n pad o p q = Some v -> v <= count_good n o / (INR (n * pad) * INR (n * pad)) /\
  ((forall j k x, o j k = Some x -> x = w) -> psf n pad o 0 0 = Some (count_good n o / (INR (n * pad) * INR (n * pad)))).
Proof.
  intros P J K W E. pose proof (count_pos n o j k w J K W) as C. rewrite (psf_some n pad o j k w p q P J K W) in E. injection E as <-.
  set (m := (n * pad)%nat). assert (M : (n <= m)%nat) by (unfold m; nia). assert (MP : 0 < INR m) by (apply lt_0_INR; lia).
  set (s := sqrt (count_good n o)). assert (S : 0 < s) by (apply sqrt_lt_R0; auto). assert (Q : s * s = count_good n o) by (apply sqrt_sqrt; lra).
  set (good := fun j k => match o j k with Some _ => 1 | None => 0 end).
  assert (CUT : rsum m (fun j => rsum m (fun k => (if andb (Nat.ltb j n) (Nat.ltb k n) then good j k else 0) / s)) = s).
  { rewrite (pad_cut n m M).
    - transitivity (/ s * count_good n o); [|rewrite <- Q; field; lra]. unfold count_good. rewrite <- rsum_mul. apply rsum_ext. intros a A. rewrite <- rsum_mul. apply rsum_ext. intros b B.
      apply Nat.ltb_lt in A, B. rewrite A, B. cbn [andb]. unfold good, Rdiv. ring.
    - intros a b H. destruct (Nat.ltb a n) eqn:A; [|cbn; unfold Rdiv; ring]. destruct (Nat.ltb b n) eqn:B; [|cbn; unfold Rdiv; ring]. apply Nat.ltb_lt in A, B. lia. }
  split.
  - apply Rmult_le_compat_r; [apply Rlt_le, Rinv_0_lt_compat; nra|]. fold m. unfold fft2.
    apply Rle_trans with (s * s); [|lra].
    match goal with |- cabs2 (csum m ?f) <= _ => destruct (csum_bound m f (fun j => rsum m (fun k => (if andb (Nat.ltb j n) (Nat.ltb k n) then good j k else 0) / s))) as (B & _) end.
    + intros a A. match goal with |- _ /\ cabs2 (csum m ?f) <= _ => destruct (csum_bound m f (fun k => (if andb (Nat.ltb a n) (Nat.ltb k n) then good a k else 0) / s)) as (B1 & B2) end.
      * intros b B. rewrite cabs2_mul, cis_abs2, Rmult_1_r. unfold padded. destruct (andb (Nat.ltb a n) (Nat.ltb b n)).
        -- rewrite amplitude_abs2 by auto. unfold good. destruct (o a b); (split; [apply Rmult_le_pos; [lra|apply Rlt_le, Rinv_0_lt_compat; auto]|rewrite <- Q; apply Req_le; field; lra]).
        -- split; [unfold Rdiv; lra|]. unfold cabs2, Rdiv; cbn. lra.
      * split; auto.
    + rewrite CUT in B. exact B.
  - intros FLAT. rewrite (psf_some n pad o j k w 0 0 P J K W). f_equal. unfold Rdiv. f_equal. fold m.
    assert (Z : fft2 n m m (amplitude n o) 0 0 = cmul (cis (-2 * PI * w)) (rc s)).
    { unfold fft2. rewrite <- CUT, <- csum_rc, <- csum_mul. apply csum_ext. intros a A. rewrite <- csum_rc, <- csum_mul. apply csum_ext. intros b B.
      replace (-2 * PI * (INR a * INR 0 / INR m + INR b * INR 0 / INR m)) with 0 by (cbn [INR]; field; lra). rewrite cis_0. unfold padded.
      destruct (andb (Nat.ltb a n) (Nat.ltb b n)).
      - unfold amplitude, good. destruct (o a b) as [x|] eqn:X.
        + rewrite (FLAT a b x X). fold s. transitivity (cmul (cis (-2 * PI * w)) (cinv (rc s))); [unfold cdiv; ring|]. f_equal. apply cx_eq; unfold cabs2; cbn; unfold cabs2; cbn; field; nra.
        + unfold Rdiv. rewrite Rmult_0_l. change (rc 0) with c0. ring.
      - unfold Rdiv. rewrite Rmult_0_l. change (rc 0) with c0. ring. }
    rewrite Z, cabs2_mul, cis_abs2. unfold cabs2. cbn. lra.
Qed.
(** a constant error does not matter; an error growing by whole cycles over the padded grid moves the pattern *)
Theorem C55_shift n pad o s t z p q : (0 < pad)%nat -> (0 < n)%nat ->
  let m := (n * pad)%nat in
  psf n pad (fun j k => do w <- o j k; Some (w + z + INR s * INR j / INR m + INR t * INR k / INR m)) p q = psf n pad o (p + s) (q + t) /\
  psf n pad o (p + m) q = psf n pad o p q /\ psf n pad o p (q + m) = psf n pad o p q.
Proof.
  intros P N m. assert (MP : 0 < INR m) by (apply lt_0_INR; unfold m; nia).
  set (o' := fun j k => do w <- o j k; Some (w + z + INR s * INR j / INR m + INR t * INR k / INR m)).
  assert (CNT : count_good n o' = count_good n o).
  { unfold count_good. apply rsum_ext. intros j _. apply rsum_ext. intros k _. unfold o'. destruct (o j k); reflexivity. }
  assert (PSF : forall o1 o2 p1 q1 p2 q2 u, count_good n o1 = count_good n o2 -> cabs2 u = 1 ->
    fft2 n m m (amplitude n o1) p1 q1 = cmul u (fft2 n m m (amplitude n o2) p2 q2) -> psf n pad o1 p1 q1 = psf n pad o2 p2 q2).
  { intros o1 o2 p1 q1 p2 q2 u E U F. unfold psf. rewrite E. destruct (Req_EM_T (count_good n o2) 0); [reflexivity|]. fold m. rewrite F. f_equal.
    change (cabs2 (cmul u (fft2 n m m (amplitude n o2) p2 q2)) = cabs2 (fft2 n m m (amplitude n o2) p2 q2)). rewrite cabs2_mul, U. ring. }
  repeat apply Logic.conj.
  - apply (PSF o' o p q (p + s)%nat (q + t)%nat (cis (-2 * PI * z)) CNT (cis_abs2 _)).
    unfold fft2. rewrite <- csum_mul. apply csum_ext. intros j _. rewrite <- csum_mul. apply csum_ext. intros k _.
    unfold padded. destruct (andb _ _); [|ring]. unfold amplitude. rewrite CNT. unfold o'. destruct (o j k) as [w|]; cbn [obind]; [|ring].
    set (S := rc (sqrt (count_good n o))). unfold cdiv.
    replace (-2 * PI * (w + z + INR s * INR j / INR m + INR t * INR k / INR m)) with (-2 * PI * w + (-2 * PI * z + -2 * PI * (INR s * INR j / INR m + INR t * INR k / INR m))) by ring.
    rewrite !cis_add.
    replace (-2 * PI * (INR j * INR (p + s) / INR m + INR k * INR (q + t) / INR m)) with (-2 * PI * (INR s * INR j / INR m + INR t * INR k / INR m) + -2 * PI * (INR j * INR p / INR m + INR k * INR q / INR m)).
    + rewrite cis_add. ring.
    + rewrite !plus_INR. field. lra.
  - apply (PSF o o _ _ _ _ c1 eq_refl); [unfold cabs2; cbn; ring|]. transitivity (fft2 n m m (amplitude n o) p q); [|ring].
    unfold fft2. apply csum_ext. intros j _. apply csum_ext. intros k _. f_equal.
    replace (-2 * PI * (INR j * INR (p + m) / INR m + INR k * INR q / INR m)) with (-2 * PI * (INR j * INR p / INR m + INR k * INR q / INR m) - 2 * PI * INR j); [apply cis_turn_neg|].
    rewrite plus_INR. field. lra.
  - apply (PSF o o _ _ _ _ c1 eq_refl); [unfold cabs2; cbn; ring|]. transitivity (fft2 n m m (amplitude n o) p q); [|ring].
    unfold fft2. apply csum_ext. intros j _. apply csum_ext. intros k _. f_equal.
    replace (-2 * PI * (INR j * INR p / INR m + INR k * INR (q + m) / INR m)) with (-2 * PI * (INR j * INR p / INR m + INR k * INR q / INR m) - 2 * PI * INR k); [apply cis_turn_neg|].
    rewrite plus_INR. field. lra.
Qed.
(** spec: far field intensity of a pupil at image point (X, Y), sphere radius [radius], wavelength in lengths [lam] *)
Definition far_field (n : nat) (h radius lam : R) (a : nat -> nat -> cx) (X Y : R) : R :=
  cabs2 (csum n (fun j => csum n (fun k => cmul (a j k) (cis (-2 * PI * (grid n h j * X + grid n h k * Y) / (lam * radius)))))).
(** the value of a pixel is the far field intensity of the pupil at the image coordinates given for the pixel *)
Theorem C55_coordinates n pad o h radius l scale p q v X Y : (0 < pad)%nat -> (1 < n)%nat -> 0 < h -> radius <> 0 -> l <> 0 -> scale <> 0 ->
  (p < n * pad)%nat -> (q < n * pad)%nat ->
  psf n pad o p q = Some v -> psf_axis n pad h radius l scale p = Some X -> psf_axis n pad h radius l scale q = Some Y ->
  v = far_field n h radius (l / scale) (amplitude n o) X Y / (INR (n * pad) * INR (n * pad)).
Proof.
  intros P N H RN LN SN PL QL V AX AY. set (m := (n * pad)%nat) in *. assert (M : (n <= m)%nat) by (unfold m; nia).
  assert (MP : 0 < INR m) by (apply lt_0_INR; lia). assert (NP : 0 < INR n - 1) by (pose proof (lt_INR 1 n N) as Q; cbn in Q; lra).
  unfold psf in V. destruct (Req_EM_T (count_good n o) 0); [discriminate|]. fold m in V. apply fdiv_inv in V. destruct V as (_ & ->).
  rewrite mult_INR. unfold Rdiv at 1 2. f_equal. fold (cabs2 (fft2 n m m (amplitude n o) p q)). unfold far_field.
  set (lam := l / scale). assert (LAM : lam <> 0) by (apply Rmult_integral_contrapositive_currified; [auto|apply Rinv_neq_0_compat; auto]).
  set (dx := grid n h 1 - grid n h 0). assert (DX : dx = 2 / (INR n - 1) * h) by (unfold dx, grid; cbn; field; lra).
  assert (DP : dx <> 0). { rewrite DX. apply Rmult_integral_contrapositive_currified; [|lra]. apply Rmult_integral_contrapositive_currified; [lra|apply Rinv_neq_0_compat; lra]. }
  assert (AXIS : forall p X, (p < m)%nat -> psf_axis n pad h radius l scale p = Some X ->
    forall j, cis (-2 * PI * (INR j * dx * X) / (lam * radius)) = cis (-2 * PI * (INR j * INR p / INR m))).
  { clear - LAM RN LN SN DP MP. intros p X PL A j. unfold psf_axis in A. fold dx m in A. rewrite fdiv_some in A by auto. cbn [obind] in A. fold lam in A. rewrite fdiv_some in A by auto. cbn [obind] in A.
    rewrite fdiv_some in A by auto. cbn [obind] in A. unfold fftfreq in A. apply fdiv_inv in A. destruct A as (_ & ->).
    destruct (Nat.ltb p _).
    - f_equal. field. repeat apply Logic.conj; auto; lra.
    - transitivity (cis (-2 * PI * (INR j * INR p / INR m) + 2 * PI * INR j)); [|apply cis_turn]. f_equal. field. repeat apply Logic.conj; auto; lra. }
  assert (GR : forall j, grid n h j = INR j * dx - h) by (intros j; rewrite DX; unfold grid; field; lra).
  assert (EQ : csum n (fun j => csum n (fun k => cmul (amplitude n o j k) (cis (-2 * PI * (grid n h j * X + grid n h k * Y) / (lam * radius))))) =
    cmul (cis (2 * PI * h * (X + Y) / (lam * radius))) (fft2 n m m (amplitude n o) p q)).
  { unfold fft2. rewrite (csum_cut n m); [|auto|].
    2:{ intros i I. rewrite (csum_ext m _ (fun _ => c0)); [apply csum_zero|]. intros k _. unfold padded. destruct (Nat.ltb i n) eqn:E; [apply Nat.ltb_lt in E; lia|]. cbn [andb]. ring. }
    rewrite <- csum_mul. apply csum_ext. intros j J. rewrite (csum_cut n m); [|auto|].
    2:{ intros k K. unfold padded. destruct (Nat.ltb k n) eqn:E; [apply Nat.ltb_lt in E; lia|]. rewrite Bool.andb_false_r. ring. }
    rewrite <- csum_mul. apply csum_ext. intros k K. unfold padded. apply Nat.ltb_lt in J, K. rewrite J, K. cbn [andb].
    rewrite !GR.
    replace (-2 * PI * ((INR j * dx - h) * X + (INR k * dx - h) * Y) / (lam * radius)) with
      (-2 * PI * (INR j * dx * X) / (lam * radius) + (-2 * PI * (INR k * dx * Y) / (lam * radius) + 2 * PI * h * (X + Y) / (lam * radius))) by (field; auto).
    rewrite !cis_add, (AXIS p X PL AX j), (AXIS q Y QL AY k). rewrite (Rmult_plus_distr_l (-2 * PI) (INR j * INR p / INR m)), cis_add. ring. }
  rewrite EQ, cabs2_mul, cis_abs2. ring.
Qed.
(** the pixels are equally spaced image coordinates around the reference image, negative ones last: pixel [p] lies
    at a whole number of steps congruent to [p], at most half the array away *)
Theorem C55_pixels n pad h radius l scale p : (0 < pad)%nat -> (1 < n)%nat -> h <> 0 -> radius <> 0 -> l <> 0 -> scale <> 0 -> (p < n * pad)%nat ->
  exists k : Z, psf_axis n pad h radius l scale p = Some (IZR k * (l / scale * radius / (INR (n * pad) * (2 * h / (INR n - 1))))) /\
    (k mod Z.of_nat (n * pad) = Z.of_nat p /\ - Z.of_nat (n * pad) <= 2 * k < Z.of_nat (n * pad))%Z.
Proof.
  intros P N H RN LN SN PL. set (m := (n * pad)%nat) in *. assert (M : (n <= m)%nat) by (unfold m; nia).
  assert (MP : 0 < INR m) by (apply lt_0_INR; lia). assert (NP : 0 < INR n - 1) by (pose proof (lt_INR 1 n N) as Q; cbn in Q; lra).
  set (lam := l / scale). assert (LAM : lam <> 0) by (apply Rmult_integral_contrapositive_currified; [auto|apply Rinv_neq_0_compat; auto]).
  set (dx := grid n h 1 - grid n h 0). assert (DX : dx = 2 * h / (INR n - 1)) by (unfold dx, grid; cbn; field; lra).
  assert (DP : dx <> 0). { rewrite DX. apply Rmult_integral_contrapositive_currified; [lra|apply Rinv_neq_0_compat; lra]. }
  assert (AX : forall v, fdiv v (INR m * (dx * (1 / lam) / radius)) = Some (v * (lam * radius / (INR m * dx)))).
  { intros v. rewrite fdiv_some.
    - f_equal. field. repeat apply Logic.conj; auto; lra.
    - repeat (apply Rmult_integral_contrapositive_currified || apply Rinv_neq_0_compat); auto; lra. }
  assert (U : psf_axis n pad h radius l scale p = Some ((if Nat.ltb p ((m - 1) / 2 + 1) then INR p else INR p - INR m) * (lam * radius / (INR m * dx)))).
  { unfold psf_axis. fold dx m. rewrite fdiv_some by auto. cbn [obind]. fold lam. rewrite fdiv_some by auto. cbn [obind]. rewrite fdiv_some by auto. cbn [obind].
    unfold fftfreq. cbv zeta. apply AX. }
  rewrite U, <- DX. assert (D := Nat.div_mod (m - 1) 2 ltac:(lia)). assert (D2 := Nat.mod_upper_bound (m - 1) 2 ltac:(lia)).
  destruct (Nat.ltb p ((m - 1) / 2 + 1)) eqn:E.
  - apply Nat.ltb_lt in E. exists (Z.of_nat p). split; [rewrite <- INR_IZR_INZ; reflexivity|]. split; [apply Z.mod_small; lia|lia].
  - apply Nat.ltb_ge in E. exists (Z.of_nat p - Z.of_nat m)%Z. split; [rewrite minus_IZR, <- !INR_IZR_INZ; reflexivity|]. split; [|lia].
    replace (Z.of_nat p - Z.of_nat m)%Z with (Z.of_nat p + (-1) * Z.of_nat m)%Z by ring. rewrite Z.mod_add by lia. apply Z.mod_small. lia.
Qed.
(** five pixels: 0, 1, 2, -2, -1 steps *)
Example C55_pixels_example : psf_axis 5 1 2 5 1 1 2 = Some 2 /\ psf_axis 5 1 2 5 1 1 3 = Some (-2).
Proof.
  unfold psf_axis. assert (G : grid 5 2 1 - grid 5 2 0 = 1) by (unfold grid; cbn; field). rewrite G.
  rewrite !fdiv_some by lra. cbn [obind]. rewrite !fdiv_some by lra. cbn [obind]. rewrite !fdiv_some by lra. cbn [obind]. unfold fftfreq. cbn [Nat.mul Nat.add Nat.sub Nat.div Nat.divmod fst Nat.ltb Nat.leb].
  rewrite !fdiv_some by (cbn; lra). cbn. split; f_equal; field.
Qed.
Example C55_coordinates_example : psf_axis 2 2 1 4 1 1 3 = Some (-1 / 2).
Proof.
  unfold psf_axis. rewrite fdiv_some by lra. cbn [obind]. rewrite fdiv_some by lra. cbn [obind]. rewrite fdiv_some by lra. cbn [obind]. unfold fftfreq. cbn [Nat.mul Nat.add Nat.sub Nat.div Nat.divmod fst Nat.ltb Nat.leb].
  unfold grid. rewrite fdiv_some; [f_equal; cbn; field|cbn; lra].
Qed.
(** two opposite pixels half a wave apart: dark centre, and one pixel of a wave of tilt moves the light *)
Definition step_front (j k : nat) : option R := if Nat.eqb k 0 then Some (INR j * (1 / 2)) else None.
Example C55_peak_example : psf 2 1 step_front 0 0 = Some 0 /\ psf 2 1 step_front 1 0 = Some (1 / 2) /\ step_front 1 0 = Some (1 * (1 / 2)) /\ count_good 2 step_front = 2.
Proof.
  assert (C : count_good 2 step_front = 2) by (unfold count_good, step_front; cbn; lra).
  assert (S : 0 < sqrt 2) by (apply sqrt_lt_R0; lra). assert (Q : sqrt 2 * sqrt 2 = 2) by (apply sqrt_sqrt; lra).
  assert (I : cinv (rc (sqrt 2)) = rc (/ sqrt 2)).
  { set (s := sqrt 2) in *. clearbody s. apply cx_eq; unfold cinv, cabs2; cbn; field; nra. }
  repeat apply Logic.conj; [| |reflexivity|exact C].
  - rewrite (psf_some 2 1 step_front 0 0 (INR 0 * (1 / 2))) by (try lia; reflexivity). unfold fft2. cbn [Nat.mul Nat.add csum]. unfold padded. cbn [Nat.ltb Nat.leb andb].
    unfold amplitude. rewrite C. unfold step_front, cdiv. cbn [Nat.eqb]. rewrite I. cbn [INR].
    replace (-2 * PI * (0 * (1 / 2))) with 0 by field. replace (-2 * PI * (1 * (1 / 2))) with (- PI) by field.
    replace (-2 * PI * (0 * 0 / (1 + 1) + 0 * 0 / (1 + 1))) with 0 by field. replace (-2 * PI * (1 * 0 / (1 + 1) + 0 * 0 / (1 + 1))) with 0 by field.
    unfold cis. rewrite cos_neg, sin_neg, cos_PI, sin_PI, cos_0, sin_0. f_equal. unfold cabs2. cbn. field. lra.
  - rewrite (psf_some 2 1 step_front 0 0 (INR 0 * (1 / 2))) by (try lia; reflexivity). unfold fft2. cbn [Nat.mul Nat.add csum]. unfold padded. cbn [Nat.ltb Nat.leb andb].
    unfold amplitude. rewrite C. unfold step_front, cdiv. cbn [Nat.eqb]. rewrite I. cbn [INR].
    replace (-2 * PI * (0 * (1 / 2))) with 0 by field. replace (-2 * PI * (1 * (1 / 2))) with (- PI) by field.
    replace (-2 * PI * (0 * 1 / (1 + 1) + 0 * 0 / (1 + 1))) with 0 by field. replace (-2 * PI * (1 * 1 / (1 + 1) + 0 * 0 / (1 + 1))) with (- PI) by field.
    unfold cis. rewrite cos_neg, sin_neg, cos_PI, sin_PI, cos_0, sin_0. f_equal. unfold cabs2. cbn.
    set (s := sqrt 2) in *. clearbody s. transitivity (/ (s * s)); [field; lra|rewrite Q; field].
Qed.
Example C55_shift_example : psf 2 1 (fun j k => do w <- step_front j k; Some (w + 7 + INR 1 * INR j / INR (2 * 1) + INR 0 * INR k / INR (2 * 1))) 0 0 = psf 2 1 step_front 1 0.
Proof. exact (proj1 (C55_shift 2 1 step_front 1 0 7 0 0 ltac:(lia) ltac:(lia))). Qed.
Print Assumptions C55_total.
Print Assumptions C55_peak.
Print Assumptions C55_shift.
Print Assumptions C55_coordinates.
Print Assumptions C55_pixels.
