(** Property C88: resonators.  The trace reports an axis stable exactly if rays stay bounded over any number of round
    trips (or return to themselves, up to sign, after one); two mirrors are stable exactly for 0 < g1 g2 < 1. *)
From Coq Require Import Reals List Lra Lia Psatz.
From Verif Require Import Base Cx Vec RotModel RotProofs PlacementModel PlacementProofs ElementModel
  ParaxialModel ParaxialProofs PropsParaxial LimitProofs PropsLimit ParaxTraceModel PropsConjugates PropsSolve PropsDesign PropsFolded GaussianModel PropsGaussian PropsBeams.
Import ListNotations.
Open Scope R_scope.

(** ** Specification *)
(** the elements passed in [k] round trips *)
Fixpoint trips (k : nat) (xs : list element) : list element := match k with O => [] | S k => xs ++ trips k xs end.
(** height and index times slope of a ray, along x or along y *)
Definition part (axis : bool) (v : v4) : R * R := if axis then (w1 v, w3 v) else (w0 v, w2 v).
Definition size (axis : bool) (v : v4) : R := Rabs (fst (part axis v)) + Rabs (snd (part axis v)).
(** ray behind the elements, traced paraxially *)
Definition behind (xs : list element) (v : v4) (n l : R) : option v4 * R := last (sys_paraxial xs (Some v) n l) (Some v, n).
(** however often a ray goes round it stays within a fixed multiple of its initial size *)
Definition stays (axis : bool) (xs : list element) (n l : R) : Prop :=
  exists B, forall k v, exists v', behind (trips k xs) v n l = (Some v', n) /\ size axis v' <= B * size axis v.

Lemma INR_above x : exists k, x < INR k.
Proof. destruct (archimed (Rabs x)) as (A & _). exists (Z.to_nat (up (Rabs x))). rewrite INR_IZR_INZ, Z2Nat.id; [pose proof (Rle_abs x); lra|]. apply le_IZR. pose proof (Rabs_pos x). lra. Qed.
(** ** Auxiliary: two by two matrices of determinant one *)
Section Two.
Variables a b c d : R.
Hypothesis DET : a * d - b * c = 1.
Definition go (p : R * R) : R * R := (a * fst p + b * snd p, c * fst p + d * snd p).
Definition orbit (k : nat) (p : R * R) : R * R := Nat.iter k go p.
Definition len (p : R * R) : R := Rabs (fst p) + Rabs (snd p).
(** a quadratic form that every trip conserves *)
Definition energy (p : R * R) : R := c * (fst p * fst p) + (d - a) * (fst p * snd p) - b * (snd p * snd p).
Lemma energy_go p : energy (go p) = energy p.
Proof.
  unfold energy, go. destruct p as [x y]. cbn [fst snd].
  transitivity ((a * d - b * c) * (c * (x * x) + (d - a) * (x * y) - b * (y * y))); [ring|]. rewrite DET. ring.
Qed.
Lemma energy_orbit k p : energy (orbit k p) = energy p.
Proof. induction k; [reflexivity|]. unfold orbit. cbn [Nat.iter nat_rect]. change (energy (go (orbit k p)) = energy p). rewrite energy_go. exact IHk. Qed.
Lemma len_nonneg p : 0 <= len p.
Proof. unfold len. pose proof (Rabs_pos (fst p)). pose proof (Rabs_pos (snd p)). lra. Qed.
Lemma abs_sq x : Rabs x * Rabs x = x * x.
Proof. rewrite <- Rabs_mult. apply Rabs_pos_eq. nra. Qed.
Lemma bounded_in : (a + d) * (a + d) < 4 -> exists B, forall k p, len (orbit k p) <= B * len p.
Proof.
  intros T. set (t := 4 - (a + d) * (a + d)). assert (T0 : 0 < t) by (unfold t; lra).
  set (K := Rabs c + Rabs (d - a) + Rabs b). assert (K0 : 0 <= K) by (unfold K; pose proof (Rabs_pos c); pose proof (Rabs_pos (d - a)); pose proof (Rabs_pos b); lra).
  (* squares of height and slope are bounded by the energy, the energy by the squares *)
  assert (LO : forall p, t * (snd p * snd p) <= 4 * (Rabs c * Rabs (energy p)) /\ t * (fst p * fst p) <= 4 * (Rabs b * Rabs (energy p))).
  { intros [x y]. cbn [fst snd]. rewrite <- !Rabs_mult. assert (EC : 4 * (c * energy (x, y)) = (2 * c * x + (d - a) * y) * (2 * c * x + (d - a) * y) + t * (y * y)).
    { unfold energy, t. cbn [fst snd]. transitivity (4 * c * (c * (x * x) + (d - a) * (x * y) - b * (y * y)) - 4 * (a * d - b * c - 1) * (y * y)); [rewrite DET; ring|ring]. }
    assert (EB : 4 * (- (b * energy (x, y))) = (2 * b * y - (d - a) * x) * (2 * b * y - (d - a) * x) + t * (x * x)).
    { unfold energy, t. cbn [fst snd]. transitivity (- (4 * b) * (c * (x * x) + (d - a) * (x * y) - b * (y * y)) - 4 * (a * d - b * c - 1) * (x * x)); [rewrite DET; ring|ring]. }
    pose proof (Rle_0_sqr (2 * c * x + (d - a) * y)) as S1. pose proof (Rle_0_sqr (2 * b * y - (d - a) * x)) as S2. unfold Rsqr in S1, S2.
    pose proof (Rle_abs (c * energy (x, y))). pose proof (Rle_abs (- (b * energy (x, y)))) as A2. rewrite Rabs_Ropp in A2. split; lra. }
  assert (UP : forall p, Rabs (energy p) <= K * (len p * len p)).
  { intros [x y]. unfold energy, len, K. cbn [fst snd]. set (X := Rabs x). set (Y := Rabs y). assert (X0 : 0 <= X) by apply Rabs_pos. assert (Y0 : 0 <= Y) by apply Rabs_pos.
    assert (E1 : Rabs (c * (x * x)) = Rabs c * (X * X)) by (rewrite !Rabs_mult; reflexivity).
    assert (E2 : Rabs ((d - a) * (x * y)) = Rabs (d - a) * (X * Y)) by (rewrite !Rabs_mult; reflexivity).
    assert (E3 : Rabs (b * (y * y)) = Rabs b * (Y * Y)) by (rewrite !Rabs_mult; reflexivity).
    pose proof (Rabs_triang (c * (x * x)) ((d - a) * (x * y))) as Q1. pose proof (Rabs_triang (c * (x * x) + (d - a) * (x * y)) (- (b * (y * y)))) as Q2. rewrite Rabs_Ropp in Q2.
    unfold Rminus at 1. pose proof (Rabs_pos c). pose proof (Rabs_pos (d - a)). pose proof (Rabs_pos b).
    assert (0 <= X * Y) by nra. assert (X * X <= (X + Y) * (X + Y)) by nra. assert (X * Y <= (X + Y) * (X + Y)) by nra. assert (Y * Y <= (X + Y) * (X + Y)) by nra.
    assert (Rabs c * (X * X) <= Rabs c * ((X + Y) * (X + Y))) by (apply Rmult_le_compat_l; auto).
    assert (Rabs (d - a) * (X * Y) <= Rabs (d - a) * ((X + Y) * (X + Y))) by (apply Rmult_le_compat_l; auto).
    assert (Rabs b * (Y * Y) <= Rabs b * ((X + Y) * (X + Y))) by (apply Rmult_le_compat_l; auto). lra. }
  set (C := 8 * (K * K) / t). assert (C0 : 0 <= C) by (unfold C; apply Rmult_le_pos; [nra|apply Rlt_le, Rinv_0_lt_compat; auto]).
  exists (sqrt C). intros k p. set (L := len p). assert (L0 : 0 <= L) by apply len_nonneg.
  apply (Rsqr_incr_0_var); [|apply Rmult_le_pos; [apply sqrt_pos|auto]]. unfold Rsqr.
  replace (sqrt C * L * (sqrt C * L)) with (C * (L * L)) by (transitivity (sqrt C * sqrt C * (L * L)); [rewrite sqrt_sqrt by auto; reflexivity|ring]).
  destruct (LO (orbit k p)) as (L1 & L2). rewrite energy_orbit in L1, L2. specialize (UP p). fold L in UP. set (E := Rabs (energy p)) in *.
  assert (E0 : 0 <= E) by apply Rabs_pos. set (x := fst (orbit k p)) in *. set (y := snd (orbit k p)) in *.
  unfold len. fold x y. apply (Rmult_le_reg_l t); [auto|]. replace (t * (C * (L * L))) with (8 * (K * K) * (L * L)) by (unfold C; field; lra).
  assert (CK : Rabs c + Rabs b <= K) by (unfold K; pose proof (Rabs_pos (d - a)); lra).
  assert (SQ : (Rabs x + Rabs y) * (Rabs x + Rabs y) <= 2 * (x * x + y * y)) by (rewrite <- (abs_sq x), <- (abs_sq y); pose proof (Rle_0_sqr (Rabs x - Rabs y)) as Q; unfold Rsqr in Q; nra).
  assert (KE : (Rabs c + Rabs b) * E <= K * (K * (L * L))).
  { pose proof (Rabs_pos c). pose proof (Rabs_pos b). apply Rle_trans with (K * E); [apply Rmult_le_compat_r; auto|apply Rmult_le_compat_l; auto]. }
  assert (t * ((Rabs x + Rabs y) * (Rabs x + Rabs y)) <= t * (2 * (x * x + y * y))) by (apply Rmult_le_compat_l; lra). lra.
Qed.

Lemma go_scale s p : go (s * fst p, s * snd p) = (s * fst (go p), s * snd (go p)).
Proof. unfold go. cbn [fst snd]. f_equal; ring. Qed.
Lemma len_scale s p : len (s * fst p, s * snd p) = Rabs s * len p.
Proof. unfold len. cbn [fst snd]. rewrite !Rabs_mult. ring. Qed.
(** more than the trace 2: one direction is stretched by a constant factor at each trip *)
Lemma unbounded_hyperbolic : 4 < (a + d) * (a + d) -> ~ exists B, forall k p, len (orbit k p) <= B * len p.
Proof.
  intros T (B & H). set (q := sqrt ((a + d) * (a + d) - 4)). assert (QQ : q * q = (a + d) * (a + d) - 4) by (apply sqrt_sqrt; lra).
  assert (Q0 : 0 < q) by (apply sqrt_lt_R0; lra).
  assert (M : exists m, m * m - (a + d) * m + 1 = 0 /\ 1 < Rabs m).
  { destruct (Rle_dec 0 (a + d)) as [P|P].
    - exists ((a + d + q) / 2). split; [nra|]. rewrite Rabs_pos_eq by lra. nra.
    - exists ((a + d - q) / 2). split; [nra|]. rewrite Rabs_left by lra. nra. }
  destruct M as (m & ME & M1).
  assert (V : exists p, go p = (m * fst p, m * snd p) /\ 0 < len p).
  { assert (P1 : go (b, m - a) = (m * b, m * (m - a))) by (unfold go; cbn [fst snd]; f_equal; [ring|nra]).
    assert (P2 : go (m - d, c) = (m * (m - d), m * c)) by (unfold go; cbn [fst snd]; f_equal; [nra|ring]).
    assert (POS : forall x y, (x <> 0 \/ y <> 0) -> 0 < len (x, y)).
    { intros x y N. unfold len. cbn [fst snd]. pose proof (Rabs_pos x). pose proof (Rabs_pos y). destruct N as [N|N]; pose proof (Rabs_pos_lt _ N); lra. }
    destruct (Req_dec b 0) as [B0|B0]; [|exists (b, m - a); split; auto].
    destruct (Req_dec m a) as [A0|A0]; [|exists (b, m - a); split; [auto|apply POS; right; lra]].
    destruct (Req_dec c 0) as [C0|C0]; [|exists (m - d, c); split; auto].
    exists (m - d, c). split; [auto|]. apply POS. left. intros Z. assert (MM : m * m = 1) by nra.
    assert (Rabs m * Rabs m = 1) by (rewrite abs_sq; auto). nra. }
  destruct V as (p & GP & L0).
  assert (IT : forall k, orbit k p = (m ^ k * fst p, m ^ k * snd p)).
  { induction k as [|k IH]; [cbn; destruct p; cbn; f_equal; ring|]. change (orbit (S k) p) with (go (orbit k p)). rewrite IH, go_scale, GP. cbn [fst snd pow]. f_equal; ring. }
  assert (X : forall k, Rabs m ^ k <= B).
  { intros k. specialize (H k p). rewrite IT, len_scale, <- RPow_abs in H. apply (Rmult_le_reg_r (len p)); auto. }
  destruct (Pow_x_infinity m M1 (B + 1)) as (N & HN). specialize (HN N (Nat.le_refl _)). specialize (X N). rewrite <- RPow_abs in HN. lra.
Qed.
(** trace two: what one trip adds is added at each trip *)
Lemma unbounded_parabolic s : s * s = 1 -> a + d = 2 * s -> (a <> s \/ b <> 0 \/ c <> 0 \/ d <> s) -> ~ exists B, forall k p, len (orbit k p) <= B * len p.
Proof.
  intros S1 T NE (B & H). set (N := fun p => (s * fst (go p) - fst p, s * snd (go p) - snd p)).
  assert (AS : Rabs s = 1) by (assert (Rabs s * Rabs s = 1) by (rewrite abs_sq; auto); pose proof (Rabs_pos s); nra).
  assert (CH : forall x y, let u := s * (a * x + b * y) - x in let v := s * (c * x + d * y) - y in s * (a * u + b * v) = u /\ s * (c * u + d * v) = v).
  { intros x y u v. assert (D : d = 2 * s - a) by lra. assert (BC : b * c = a * (2 * s - a) - 1) by (rewrite <- D; lra). unfold u, v. split.
    - transitivity ((s * s) * ((a * a + b * c) * x + b * (a + d) * y) - s * (a * x + b * y)); [ring|]. rewrite S1, BC, T.
      transitivity ((2 * s * a - 1) * x + 2 * s * b * y - s * a * x - s * b * y); ring.
    - transitivity ((s * s) * (c * (a + d) * x + (d * d + b * c) * y) - s * (c * x + d * y)); [ring|]. rewrite S1, BC, T, D.
      transitivity (2 * s * (c * x) + (4 * (s * s) - 2 * s * a - 1) * y - s * c * x - s * (2 * s - a) * y); [ring|]. replace (4 * (s * s)) with 4 by lra.
      transitivity (s * (c * x) + (4 - s * a - 1 - 2 * (s * s)) * y); [ring|]. replace (2 * (s * s)) with 2 by lra.
      transitivity (s * (c * x) + (2 * (s * s) - s * a - 1) * y); [replace (2 * (s * s)) with 2 by lra; ring|ring]. }
  assert (V : exists p, 0 < len (N p)).
  { assert (POS : forall x y, (x <> 0 \/ y <> 0) -> 0 < len (x, y)).
    { intros x y Z. unfold len. cbn [fst snd]. pose proof (Rabs_pos x). pose proof (Rabs_pos y). destruct Z as [Z|Z]; pose proof (Rabs_pos_lt _ Z); lra. }
    assert (SN : s <> 0) by nra.
    destruct NE as [Z|[Z|[Z|Z]]].
    - exists (1, 0). apply POS. left. cbn [fst snd go]. intros Q. apply Z. assert (s * a = s * s) by (rewrite S1; lra). apply (Rmult_eq_reg_l s); auto.
    - exists (0, 1). apply POS. left. cbn [fst snd go]. intros Q. assert (s * b = 0) by lra. apply Rmult_integral in H0. tauto.
    - exists (1, 0). apply POS. right. cbn [fst snd go]. intros Q. assert (s * c = 0) by lra. apply Rmult_integral in H0. tauto.
    - exists (0, 1). apply POS. right. cbn [fst snd go]. intros Q. apply Z. assert (s * d = s * s) by (rewrite S1; lra). apply (Rmult_eq_reg_l s); auto. }
  destruct V as (p & L0).
  assert (IT : forall k, orbit k p = (s ^ k * (fst p + INR k * fst (N p)), s ^ k * (snd p + INR k * snd (N p)))).
  { destruct p as [x y]. destruct (CH x y) as (C1 & C2). cbv zeta in C1, C2. unfold N, go in *. cbn [fst snd] in *. set (u := s * (a * x + b * y) - x) in *. set (v := s * (c * x + d * y) - y) in *.
    induction k as [|k IH]; [cbn; f_equal; ring|]. change (orbit (S k) (x, y)) with (go (orbit k (x, y))). rewrite IH. unfold go. cbn [fst snd]. rewrite S_INR. cbn [pow].
    assert (E1 : a * u + b * v = s * u) by (rewrite <- C1 at 2; rewrite <- Rmult_assoc, S1; ring). assert (E2 : c * u + d * v = s * v) by (rewrite <- C2 at 2; rewrite <- Rmult_assoc, S1; ring).
    assert (E3 : a * x + b * y = s * (x + u)) by (transitivity ((s * s) * (a * x + b * y)); [rewrite S1; ring|unfold u; ring]).
    assert (E4 : c * x + d * y = s * (y + v)) by (transitivity ((s * s) * (c * x + d * y)); [rewrite S1; ring|unfold v; ring]).
    f_equal.
    - transitivity (s ^ k * ((a * x + b * y) + INR k * (a * u + b * v))); [ring|]. rewrite E1, E3. ring.
    - transitivity (s ^ k * ((c * x + d * y) + INR k * (c * u + d * v))); [ring|]. rewrite E2, E4. ring. }
  assert (X : forall k, INR k * len (N p) <= (B + 1) * len p).
  { intros k. specialize (H k p). rewrite IT in H. set (u := fst (N p)) in *. set (v := snd (N p)) in *.
    assert (E : len (s ^ k * (fst p + INR k * u), s ^ k * (snd p + INR k * v)) = Rabs (fst p + INR k * u) + Rabs (snd p + INR k * v)).
    { unfold len. cbn [fst snd]. rewrite !Rabs_mult, <- RPow_abs, AS, pow1. ring. }
    rewrite E in H. unfold len at 1. fold u v.
    assert (I0 : 0 <= INR k) by apply pos_INR.
    assert (P1 : INR k * Rabs u <= Rabs (fst p + INR k * u) + Rabs (fst p)).
    { replace (INR k * Rabs u) with (Rabs (INR k * u)) by (rewrite Rabs_mult, (Rabs_pos_eq (INR k)); auto). replace (INR k * u) with ((fst p + INR k * u) + - fst p) at 1 by ring. eapply Rle_trans; [apply Rabs_triang|]. rewrite Rabs_Ropp. lra. }
    assert (P2 : INR k * Rabs v <= Rabs (snd p + INR k * v) + Rabs (snd p)).
    { replace (INR k * Rabs v) with (Rabs (INR k * v)) by (rewrite Rabs_mult, (Rabs_pos_eq (INR k)); auto). replace (INR k * v) with ((snd p + INR k * v) + - snd p) at 1 by ring. eapply Rle_trans; [apply Rabs_triang|]. rewrite Rabs_Ropp. lra. }
    replace ((B + 1) * len p) with (B * len p + (Rabs (fst p) + Rabs (snd p))) by (unfold len; ring). lra. }
  destruct (INR_above ((B + 1) * len p / len (N p))) as (k & K). specialize (X k).
  apply (Rmult_lt_compat_r (len (N p))) in K; [|auto]. replace ((B + 1) * len p / len (N p) * len (N p)) with ((B + 1) * len p) in K by (field; lra). lra.
Qed.
Lemma identity_bounded s : s * s = 1 -> a = s -> b = 0 -> c = 0 -> d = s -> exists B, forall k p, len (orbit k p) <= B * len p.
Proof.
  intros S1 A B C D. exists 1. intros k p. assert (AS : Rabs s = 1) by (assert (Rabs s * Rabs s = 1) by (rewrite abs_sq; auto); pose proof (Rabs_pos s); nra).
  assert (E : len (orbit k p) = len p).
  { induction k as [|k IH]; [reflexivity|]. change (orbit (S k) p) with (go (orbit k p)). rewrite <- IH. unfold go. rewrite A, B, C, D. generalize (orbit k p). intros [x y]. cbn [fst snd].
    transitivity (len (s * fst (x, y), s * snd (x, y))); [unfold len; cbn [fst snd]; f_equal; f_equal; ring|]. rewrite len_scale, AS. ring. }
  rewrite E. lra.
Qed.
Lemma bounded_iff : (exists B, forall k p, len (orbit k p) <= B * len p) <->
  ((a + d) * (a + d) < 4 \/ (a = 1 /\ b = 0 /\ c = 0 /\ d = 1) \/ (a = -1 /\ b = 0 /\ c = 0 /\ d = -1)).
Proof.
  split.
  - intros H. destruct (Rlt_dec ((a + d) * (a + d)) 4) as [T|T]; [left; auto|right].
    destruct (Rlt_dec 4 ((a + d) * (a + d))) as [T'|T']; [exfalso; exact (unbounded_hyperbolic T' H)|].
    assert (TT : (a + d - 2) * (a + d + 2) = 0) by nra.
    assert (P : forall s, s * s = 1 -> a + d = 2 * s -> a = s /\ b = 0 /\ c = 0 /\ d = s).
    { intros s S1 ES. destruct (Req_dec a s) as [A|A]; [|exfalso; apply (unbounded_parabolic s S1 ES); auto].
      destruct (Req_dec b 0) as [B|B]; [|exfalso; apply (unbounded_parabolic s S1 ES); auto].
      destruct (Req_dec c 0) as [C|C]; [|exfalso; apply (unbounded_parabolic s S1 ES); auto].
      repeat split; auto. lra. }
    apply Rmult_integral in TT. destruct TT as [TT|TT]; [left; apply (P 1); lra|right; apply (P (-1)); lra].
  - intros [T|[(A & B & C & D)|(A & B & C & D)]]; [apply bounded_in; auto|apply (identity_bounded 1); auto; ring|apply (identity_bounded (-1)); auto; ring].
Qed.
End Two.

(** ** Auxiliary: rays of repeated trips *)
Lemma last_from {A} (x : A) L d : last (x :: L) d = last L x.
Proof. revert x d. induction L as [|y L IH]; intros x d; [reflexivity|]. change (last (y :: L) d = last (y :: L) x). rewrite !IH. reflexivity. Qed.
Lemma mv4_eye v : mv4 eye4 v = v.
Proof. destruct v as [a b c d]. unfold mv4, dot4, eye4. cbn [q0 q1 q2 q3 w0 w1 w2 w3]. f_equal; ring. Qed.
Lemma seq_nil n l : seq_matrix [] n l = Some eye4.
Proof. reflexivity. Qed.
Lemma seq_one e n l : seq_matrix [e] n l = snd (paraxial_matrix e n l).
Proof. unfold seq_matrix. cbn [matrices]. destruct (paraxial_matrix e n l) as [n1 m1]. cbn. destruct m1 as [m1|]; [|reflexivity]. cbn [obind]. rewrite mm4_eye_r. reflexivity. Qed.
Lemma after_fst e n l : fst (paraxial_matrix e n l) = index_after e n l.
Proof. unfold paraxial_matrix. destruct (e_kind e) eqn:K; reflexivity. Qed.
Lemma behind_run xs l : forall yu n, last (sys_paraxial xs yu n l) (yu, n) = (do m <- seq_matrix xs n l; do v <- yu; Some (mv4 m v), after xs n l).
Proof.
  induction xs as [|e xs IH]; intros yu n.
  - cbn. destruct yu as [v|]; cbn [obind]; [|reflexivity]. rewrite mv4_eye. reflexivity.
  - cbn [sys_paraxial]. unfold propagate_paraxial. pose proof (after_fst e n l) as F. pose proof (seq_one e n l) as O. destruct (paraxial_matrix e n l) as [n1 m1] eqn:P. cbn [fst snd] in F, O. subst n1.
    rewrite last_from, IH. change (e :: xs) with ([e] ++ xs). rewrite seq_app, O. cbn [after fold_left app]. f_equal.
    destruct m1 as [m1|]; cbn [obind]; [|destruct (seq_matrix xs _ l); reflexivity]. destruct yu as [v|]; cbn [obind]; [|destruct (seq_matrix xs _ l); reflexivity].
    change (fold_left (fun n0 e0 => index_after e0 n0 l) [e] n) with (index_after e n l). destruct (seq_matrix xs (index_after e n l) l) as [m|]; cbn [obind]; [|reflexivity]. rewrite mv4_mm4. reflexivity.
Qed.
Lemma iter_in {A} k (f : A -> A) x : Nat.iter k f (f x) = Nat.iter (S k) f x.
Proof. induction k as [|k IH]; [reflexivity|]. change (f (Nat.iter k f (f x)) = f (Nat.iter (S k) f x)). rewrite IH. reflexivity. Qed.

(** * C88 *)
(** the rays of [k] round trips are the [k]-fold powers of the matrix of the system, if a trip ends in the medium in which it began *)
Theorem C88_round_trips e0 xs l n m : sys_matrix (e0 :: xs) l 1 None = (n, Some m) -> refractive_index (e0 :: xs) l 0 = n ->
  forall k v, behind (trips k xs) v n l = (Some (Nat.iter k (mv4 m) v), n).
Proof.
  intros S I. assert (X : seq_matrix xs n l = Some m /\ after xs n l = n).
  { rewrite sys_matrix_mfold in S. unfold paraxial_matrices, slice in S. cbn [skipn] in S. rewrite I in S.
    unfold seq_matrix. destruct xs as [|x xs]; [cbn in S |- *; split; [congruence|reflexivity]|].
    pose proof (after_fst x n l) as F. cbn [matrices] in S |- *. destruct (paraxial_matrix x n l) as [n1 m1] eqn:P. cbn [fst] in F. split; [cbn [mfold fold_left] in S |- *; rewrite S; reflexivity|].
    assert (G : forall ys n0 a k, mfold a (matrices ys n0 l) = (k, Some m) -> ys <> [] -> after ys n0 l = k).
    { clear. induction ys as [|y ys IH]; intros n0 a k E NE; [contradiction|]. cbn [matrices] in E. pose proof (after_fst y n0 l) as F. destruct (paraxial_matrix y n0 l) as [n1 m1]. cbn [fst] in F. subst n1.
      cbn [after fold_left]. destruct ys as [|z ys]; [destruct a as [a1 a2]; cbn in E |- *; congruence|]. destruct a as [a1 a2]. apply (IH _ _ _ E). discriminate. }
    apply (G (x :: xs) n (1, Some eye4) n); [|discriminate]. cbn [matrices]. rewrite P. exact S. }
  destruct X as (X & Y).
  induction k as [|k IH]; intros v; [reflexivity|]. unfold behind in *. cbn [trips]. rewrite behind_run. specialize (IH (mv4 m v)). rewrite behind_run in IH.
  rewrite seq_app, X, Y. cbn [obind] in IH |- *. unfold after in Y, IH |- *. rewrite fold_left_app, Y. rewrite <- iter_in, <- IH.
  destruct (seq_matrix (trips k xs) n l) as [m'|]; cbn [obind]; [|reflexivity]. rewrite mv4_mm4. reflexivity.
Qed.

Lemma part_act axis m v a b c d : decoupled m -> block axis m = (a, b, c, d) -> part axis (mv4 m v) = go a b c d (part axis v).
Proof.
  destruct m as [[m00 m01 m02 m03] [m10 m11 m12 m13] [m20 m21 m22 m23] [m30 m31 m32 m33]]. unfold decoupled, block, part, go, mv4, dot4. cbn [q0 q1 q2 q3 w0 w1 w2 w3].
  intros (A & B & C & D & E & F & G & H) E'. subst. destruct axis; injection E' as <- <- <- <-; cbn [fst snd]; f_equal; ring.
Qed.
Lemma part_orbit axis m a b c d : decoupled m -> block axis m = (a, b, c, d) -> forall k v, part axis (Nat.iter k (mv4 m) v) = orbit a b c d k (part axis v).
Proof. intros D B. induction k as [|k IH]; intros v; [reflexivity|]. change (part axis (mv4 m (Nat.iter k (mv4 m) v)) = go a b c d (orbit a b c d k (part axis v))). rewrite (part_act _ _ _ _ _ _ _ D B), IH. reflexivity. Qed.
Lemma block_det axis m a b c d : decoupled m -> conserves m -> block axis m = (a, b, c, d) -> a * d - b * c = 1.
Proof.
  destruct m as [[m00 m01 m02 m03] [m10 m11 m12 m13] [m20 m21 m22 m23] [m30 m31 m32 m33]]. unfold decoupled, block. cbn [q0 q1 q2 q3 w0 w1 w2 w3].
  intros (A & B & C & D & E & F & G & H) CV E'. subst. pose proof (CV (V4 1 0 0 0) (V4 0 0 1 0)) as X. pose proof (CV (V4 0 1 0 0) (V4 0 0 0 1)) as Y.
  unfold lagrange2, mv4, dot4 in X, Y. cbn [q0 q1 q2 q3 w0 w1 w2 w3] in X, Y. destruct axis; injection E' as <- <- <- <-; lra.
Qed.
Lemma upright_aligned e : upright e -> aligned e.
Proof. unfold upright, aligned, azimuth. destruct (e_kind e); [intros _; rewrite sin_0; ring|intros ->; rewrite sin_0; ring]. Qed.

(** an axis is reported stable exactly if every ray stays bounded, but for systems that return every ray, perhaps inverted *)
Theorem C88_stable e0 xs l n m axis : Forall upright (e0 :: xs) -> sys_matrix (e0 :: xs) l 1 None = (n, Some m) -> refractive_index (e0 :: xs) l 0 = n ->
  (stays axis xs n l <-> stable m axis = true \/ block axis m = (1, 0, 0, 1) \/ block axis m = (-1, 0, 0, -1)).
Proof.
  intros U S I. pose proof (C88_round_trips e0 xs l n m S I) as RT.
  assert (DC : decoupled m) by (eapply sys_decoupled; [exact U|]; rewrite S; reflexivity).
  assert (CV : conserves m) by (eapply C17_system_symplectic; [|exact S]; eapply Forall_impl; [|exact U]; intros; apply upright_aligned; auto).
  destruct (block axis m) as [[[a b] c] d] eqn:B. assert (D := block_det axis m a b c d DC CV B).
  assert (ST : stable m axis = true <-> (a + d) * (a + d) < 4).
  { unfold stable, half_trace. rewrite B. destruct (Rlt_dec (((a + d) / 2) ^ 2) 1) as [L|L]; split; intros Q; try reflexivity; try discriminate; cbn [pow] in L; lra. }
  rewrite ST. transitivity (exists B, forall k p, len (orbit a b c d k p) <= B * len p).
  - split; intros (K & H); exists K.
    + intros k p. set (v := if axis then V4 0 (fst p) 0 (snd p) else V4 (fst p) 0 (snd p) 0).
      assert (PV : part axis v = p) by (unfold v, part; destruct axis, p; reflexivity).
      destruct (H k v) as (v' & E & LE). rewrite RT in E. injection E as <-. unfold size in LE. rewrite (part_orbit _ _ _ _ _ _ DC B), PV in LE. exact LE.
    + intros k v. exists (Nat.iter k (mv4 m) v). split; [apply RT|]. unfold size. rewrite (part_orbit _ _ _ _ _ _ DC B). apply (H k (part axis v)).
  - rewrite (bounded_iff a b c d D). split.
    + intros [T|[(-> & -> & -> & ->)|(-> & -> & -> & ->)]]; auto.
    + intros [T|[T|T]]; [auto|right; left; injection T; auto|right; right; injection T; auto].
Qed.

(** ** two mirrors *)
(** a mirror in air, tilted in the plane of y and z *)
Definition cavity_mirror (l d : R) (e : element) (s : surf) : Prop := exists m, e_kind e = Sph (Some m) s /\ m_mirror m = true /\ m_index m l = 1 /\
  s_asph s <> Some [] /\ p_distance (e_place e) = d /\ vz (p_angles (e_place e)) = 0 /\ cos (vx (p_angles (e_place e))) <> 0.
(** 1 - distance over radius; the radius is that of the section seen under the angle of incidence *)
Definition g_factor (axis : bool) (d : R) (e : element) (s : surf) : R :=
  1 + d * bend s * (if axis then / cos (vx (p_angles (e_place e))) else cos (vx (p_angles (e_place e)))).

Lemma mirror_block (axis : bool) l d e s : cavity_mirror l d e s -> exists m, paraxial_matrix e 1 l = (1, Some m) /\
  let p := bend s * (if axis then / cos (vx (p_angles (e_place e))) else cos (vx (p_angles (e_place e)))) in block axis m = (1, d, 2 * p, 2 * p * d + 1).
Proof.
  intros (mt & K & MI & IX & AS & DI & AZ & CO). unfold paraxial_matrix, index_after. rewrite K, IX, DI, AZ. unfold transfer_matrix. rewrite fdiv_some by lra. cbn [obind].
  assert (VC : vertex_curvature s = Some (bend s)) by (unfold vertex_curvature, bend; destruct (s_asph s) as [[|a q]|]; [contradiction|reflexivity|reflexivity]).
  rewrite VC. cbn [obind refraction_matrix]. rewrite MI, fdiv_some by auto. cbn [obind]. eexists. split; [reflexivity|]. cbv zeta.
  set (co := cos (vx (p_angles (e_place e)))) in *.
  match goal with |- context [mm4 (M4 ?r0 ?r1 ?r2 ?r3) ?t] => replace (mm4 (M4 r0 r1 r2 r3) t) with (blocks 1 d 1 d (2 * bend s * co) (2 * bend s * co * d + 1) (2 * bend s / co) (2 * bend s / co * d + 1)) end.
  2:{ replace (d / 1) with d by field. unfold blocks. m4_calc. }
  rewrite flat_azimuth. unfold block, blocks. destruct axis; cbn [q0 q1 q2 q3 w0 w1 w2 w3]; apply quad_eq; unfold Rdiv; ring.
Qed.

Theorem C88_two_mirrors e0 e1 e2 s1 s2 l d axis : 0 < d -> upright e0 -> refractive_index [e0; e1; e2] l 0 = 1 -> cavity_mirror l d e1 s1 -> cavity_mirror l d e2 s2 ->
  let g := g_factor axis d e1 s1 * g_factor axis d e2 s2 in
  exists m, sys_matrix [e0; e1; e2] l 1 None = (1, Some m) /\ half_trace m axis = 2 * g - 1 /\
    (stable m axis = true <-> 0 < g < 1) /\
    (stays axis [e1; e2] 1 l <-> 0 < g < 1 \/ (g_factor axis d e1 s1 = 0 /\ g_factor axis d e2 s2 = 0)).
Proof.
  intros D U0 I C1 C2 g. destruct (mirror_block axis l d e1 s1 C1) as (m1 & P1 & B1). destruct (mirror_block axis l d e2 s2 C2) as (m2 & P2 & B2). cbv zeta in B1, B2.
  assert (U1 : upright e1) by (destruct C1 as (mt & K & _ & _ & _ & _ & A & _); unfold upright; rewrite K; exact A).
  assert (U2 : upright e2) by (destruct C2 as (mt & K & _ & _ & _ & _ & A & _); unfold upright; rewrite K; exact A).
  assert (S : sys_matrix [e0; e1; e2] l 1 None = (1, Some (mm4 m2 m1))).
  { unfold sys_matrix, paraxial_matrices. rewrite I. cbn [slice skipn matrices]. rewrite P1. cbn [matrices]. rewrite P2. cbn [fold_left obind]. rewrite mm4_eye_r. reflexivity. }
  exists (mm4 m2 m1). split; [exact S|].
  assert (D1 := upright_decoupled _ _ _ _ _ U1 P1). assert (D2 := upright_decoupled _ _ _ _ _ U2 P2).
  set (p1 := bend s1 * (if axis then / cos (vx (p_angles (e_place e1))) else cos (vx (p_angles (e_place e1))))) in *.
  set (p2 := bend s2 * (if axis then / cos (vx (p_angles (e_place e2))) else cos (vx (p_angles (e_place e2))))) in *.
  assert (G1 : g_factor axis d e1 s1 = 1 + d * p1) by (unfold g_factor, p1; ring). assert (G2 : g_factor axis d e2 s2 = 1 + d * p2) by (unfold g_factor, p2; ring).
  unfold g. rewrite G1, G2 in *. clear g.
  assert (B : block axis (mm4 m2 m1) = (1 * 1 + d * (2 * p1), 1 * d + d * (2 * p1 * d + 1), 2 * p2 * 1 + (2 * p2 * d + 1) * (2 * p1), 2 * p2 * d + (2 * p2 * d + 1) * (2 * p1 * d + 1))) by (rewrite block_mm, B1, B2 by auto; reflexivity).
  assert (HT : half_trace (mm4 m2 m1) axis = 2 * ((1 + d * p1) * (1 + d * p2)) - 1) by (unfold half_trace; rewrite B; field).
  split; [exact HT|].
  assert (ST : stable (mm4 m2 m1) axis = true <-> 0 < (1 + d * p1) * (1 + d * p2) < 1).
  { unfold stable. rewrite HT. set (x := (1 + d * p1) * (1 + d * p2)). destruct (Rlt_dec ((2 * x - 1) ^ 2) 1) as [L|L]; cbn [pow] in L; split; intros Q; try reflexivity; try discriminate; [split; nra|nra]. }
  split; [exact ST|].
  rewrite (C88_stable e0 [e1; e2] l 1 (mm4 m2 m1) axis) by (try exact S; try exact I; repeat apply Forall_cons; auto).
  rewrite ST, B. split.
  - intros [Q|[Q|Q]]; [auto|exfalso|right].
    + injection Q as E1 E2 E3 E4. assert (d * p1 = 0) by lra. assert (2 * d * (1 + d * p1) = 0) by lra. nra.
    + injection Q as E1 E2 E3 E4. assert (X1 : d * p1 = -1) by lra. split; [lra|]. assert (X2 : d * (2 * p2 * 1 + (2 * p2 * d + 1) * (2 * p1)) = 0) by (rewrite E3; ring).
      replace (d * (2 * p2 * 1 + (2 * p2 * d + 1) * (2 * p1))) with (2 * (d * p2) + (2 * (d * p2) + 1) * (2 * (d * p1))) in X2 by ring. rewrite X1 in X2. lra.
  - intros [Q|(Q1 & Q2)]; [auto|right; right]. assert (X1 : d * p1 = -1) by lra. assert (X2 : d * p2 = -1) by lra.
    apply quad_eq.
    + lra. + transitivity (2 * d * (1 + d * p1)); [ring|rewrite Q1; ring].
    + apply (Rmult_eq_reg_l d); [|lra]. transitivity (2 * (d * p2) + (2 * (d * p2) + 1) * (2 * (d * p1))); [ring|]. rewrite X1, X2. ring.
    + transitivity (2 * (d * p2) + (2 * (d * p2) + 1) * (2 * (d * p1) + 1)); [ring|]. rewrite X1, X2. ring.
Qed.

(** ** a cavity of length 1 between mirrors of radius 2 *)
Lemma cavity c : exists e0 e1 e2 s, upright e0 /\ refractive_index [e0; e1; e2] 1 0 = 1 /\ cavity_mirror 1 1 e1 s /\ cavity_mirror 1 1 e2 s /\
  p_offset (e_place e1) = ez /\ p_offset (e_place e2) = vneg ez /\ forall axis, g_factor axis 1 e1 s = 1 + c /\ g_factor axis 1 e2 s = 1 + c.
Proof.
  assert (PL : forall D, dot D D = 1 -> D = ez \/ D = vneg ez -> exists p, init 1 D v0 None = Some p /\ p_distance p = 1 /\ p_angles p = v0 /\ p_offset p = D).
  { intros D N _. destruct (update_spec 1 D v0) as (p & E & _ & _ & A & DI & u & UE & O & _). unfold init. rewrite E. cbn [obind]. exists p. split; [reflexivity|].
    rewrite DI, Rabs_R1. split; [reflexivity|]. split; [exact A|]. rewrite O.
    assert (NO : norm D = 1) by (unfold norm; rewrite N; apply sqrt_1).
    assert (u = D). { unfold unit_or_axis in UE. rewrite NO in UE. destruct (Req_EM_T 1 0); [lra|]. rewrite !fdiv_some in UE by lra. cbn [obind] in UE. injection UE as <-. destruct D; apply vec_eq; cbn; field. }
    subst u. destruct D; apply vec_eq; cbn; ring. }
  destruct (PL ez) as (p1 & _ & D1 & A1 & O1); [unfold dot, ez; cbn; ring|auto|]. destruct (PL (vneg ez)) as (p2 & _ & D2 & A2 & O2); [unfold dot, vneg, ez; cbn; ring|auto|].
  set (s := Surf c 0 None false). set (mat := Material (fun _ => 1) true true).
  exists (El p1 None Plain), (El p1 None (Sph (Some mat) s)), (El p2 None (Sph (Some mat) s)), s.
  split; [exact I|]. split; [reflexivity|].
  split; [exists mat; cbn; rewrite A1; cbn; rewrite cos_0; repeat split; auto; try discriminate; lra|].
  split; [exists mat; cbn; rewrite A2; cbn; rewrite cos_0; repeat split; auto; try discriminate; lra|].
  split; [exact O1|]. split; [exact O2|].
  intros axis. unfold g_factor, bend. cbn [e_place s_asph s_c s]. rewrite A1, A2. cbn [vx v0]. rewrite cos_0, Rinv_1. destruct axis; split; ring.
Qed.
(** mirrors of radius 2: stable; flat mirrors: a ray wanders off; confocal mirrors: bounded but not reported *)
Example C88_example axis : exists e0 e1 e2 m, upright e0 /\ p_offset (e_place e1) = ez /\ p_offset (e_place e2) = vneg ez /\
  sys_matrix [e0; e1; e2] 1 1 None = (1, Some m) /\ half_trace m axis = - (1/2) /\ stable m axis = true /\ stays axis [e1; e2] 1 1.
Proof.
  destruct (cavity (-1/2)) as (e0 & e1 & e2 & s & U & I & C1 & C2 & O1 & O2 & G). destruct (G axis) as (G1 & G2).
  destruct (C88_two_mirrors e0 e1 e2 s s 1 1 axis ltac:(lra) U I C1 C2) as (m & S & H & ST & SY). rewrite G1, G2 in *.
  exists e0, e1, e2, m. split; [exact U|]. split; [exact O1|]. split; [exact O2|]. split; [exact S|]. split; [rewrite H; field|]. split; [apply ST; lra|apply SY; left; lra].
Qed.
Example C88_flat_example axis : exists e0 e1 e2 m, sys_matrix [e0; e1; e2] 1 1 None = (1, Some m) /\ stable m axis = false /\ ~ stays axis [e1; e2] 1 1.
Proof.
  destruct (cavity 0) as (e0 & e1 & e2 & s & U & I & C1 & C2 & _ & _ & G). destruct (G axis) as (G1 & G2).
  destruct (C88_two_mirrors e0 e1 e2 s s 1 1 axis ltac:(lra) U I C1 C2) as (m & S & H & ST & SY). rewrite G1, G2 in *.
  exists e0, e1, e2, m. split; [exact S|]. split; [destruct (stable m axis); [exfalso; destruct ST as (ST & _); specialize (ST eq_refl); lra|reflexivity]|].
  intros X. apply SY in X. lra.
Qed.
(** the report misses one kind of bounded resonator *)
Theorem C88_confocal_refuted axis : exists e0 e1 e2 m, sys_matrix [e0; e1; e2] 1 1 None = (1, Some m) /\ stable m axis = false /\ stays axis [e1; e2] 1 1.
Proof.
  destruct (cavity (-1)) as (e0 & e1 & e2 & s & U & I & C1 & C2 & _ & _ & G). destruct (G axis) as (G1 & G2).
  destruct (C88_two_mirrors e0 e1 e2 s s 1 1 axis ltac:(lra) U I C1 C2) as (m & S & H & ST & SY). rewrite G1, G2 in *.
  exists e0, e1, e2, m. split; [exact S|]. split; [destruct (stable m axis); [exfalso; destruct ST as (ST & _); specialize (ST eq_refl); lra|reflexivity]|].
  apply SY. right. lra.
Qed.

(** [real] is true of every system, also of one whose reported eigenvalues are not real *)
Theorem C88_real_refuted axis : (forall m, reported_real m axis = true) /\
  exists e0 e1 e2 m, sys_matrix [e0; e1; e2] 1 1 None = (1, Some m) /\ im (fst (eigenvalues m axis)) <> 0 /\ im (snd (eigenvalues m axis)) <> 0.
Proof.
  split; [intros m; unfold reported_real; cbn [im rc]; destruct (Req_EM_T 0 0); [reflexivity|contradiction]|].
  destruct (C88_example axis) as (e0 & e1 & e2 & m & _ & _ & _ & S & H & _). exists e0, e1, e2, m. split; [exact S|].
  unfold eigenvalues. rewrite H. unfold csqrt_real. destruct (Rle_dec 0 ((- (1/2)) ^ 2 - 1)) as [L|L]; [cbn [pow] in L; lra|]. cbn [fst snd cadd csub rc im re].
  assert (0 < sqrt (- ((- (1/2)) ^ 2 - 1))) by (apply sqrt_lt_R0; cbn [pow]; lra). split; lra.
Qed.

Print Assumptions C88_round_trips.
Print Assumptions C88_stable.
Print Assumptions C88_two_mirrors.
Print Assumptions C88_confocal_refuted.
Print Assumptions C88_real_refuted.
