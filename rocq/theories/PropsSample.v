(** Property C28: pupil sampling patterns. *)
From Coq Require Import Reals List Lra Lia Psatz ZArith Arith Bool.
From Verif Require Import Base SampleModel.
Import ListNotations.
Open Scope R_scope.

(** spec: the closed unit disc *)
Definition disc (p : R * R) : Prop := fst p * fst p + snd p * snd p <= 1.

Lemma linspace_In a b n x : a <= b -> In x (linspace a b n) -> a <= x <= b.
Proof.
  intros H I. destruct n as [|[|m]]; cbn [linspace] in I; [contradiction|destruct I as [<-|[]]; lra|].
  apply in_map_iff in I. destruct I as (i & <- & I). apply in_seq in I.
  assert (P : 0 < INR (S m)) by (apply lt_0_INR; lia).
  assert (0 <= INR i <= INR (S m)) by (split; [apply pos_INR|apply le_INR; lia]).
  assert (E : INR i * ((b - a) / INR (S m)) = (b - a) * (INR i / INR (S m))) by (field; lra).
  assert (Q : 0 <= INR i / INR (S m) <= 1).
  { split; [apply Rmult_le_pos; [lra|left; apply Rinv_0_lt_compat; auto]|].
    apply Rmult_le_reg_r with (INR (S m)); [auto|]. unfold Rdiv. rewrite Rmult_assoc, Rinv_l by lra. lra. }
  rewrite E. set (q := INR i / INR (S m)) in *. clearbody q. nra.
Qed.
Lemma linspace_length a b n : length (linspace a b n) = n.
Proof. destruct n as [|[|m]]; cbn [linspace]; auto. rewrite map_length, seq_length. auto. Qed.
Lemma linspace_mid m : (0 < m)%nat -> nth_error (linspace (-1) 1 (2 * m + 1)) m = Some 0.
Proof.
  intros H. destruct m as [|m]; [lia|]. replace (2 * S m + 1)%nat with (S (S (2 * m + 1))) by lia. cbn [linspace].
  rewrite nth_error_map. replace (nth_error (seq 0 (S (S (2 * m + 1)))) (S m)) with (Some (S m)).
  - cbn [option_map]. f_equal. replace (INR (S (2 * m + 1))) with (2 * INR (S m)).
    + assert (0 < INR (S m)) by (apply lt_0_INR; lia). field. lra.
    + rewrite !S_INR, plus_INR, mult_INR. cbn. ring.
  - symmetry. rewrite (nth_error_nth' _ 0%nat) by (rewrite seq_length; lia). rewrite seq_nth by lia. f_equal.
Qed.
Lemma linspace_first a b n : (0 < n)%nat -> nth_error (linspace a b n) 0 = Some a.
Proof. intros H. destruct n as [|[|m]]; cbn; auto; [lia|]. f_equal. ring. Qed.
Lemma vertical_disc a b n p : -1 <= a -> a <= b -> b <= 1 -> In p (map (fun y => (0, y)) (linspace a b n)) -> disc p.
Proof.
  intros A B C I. apply in_map_iff in I. destruct I as (y & <- & I). apply linspace_In in I; [|auto]. unfold disc. cbn. nra.
Qed.
Lemma horizontal_disc a b n p : -1 <= a -> a <= b -> b <= 1 -> In p (map (fun x => (x, 0)) (linspace a b n)) -> disc p.
Proof.
  intros A B C I. apply in_map_iff in I. destruct I as (y & <- & I). apply linspace_In in I; [|auto]. unfold disc. cbn. nra.
Qed.
Lemma polar_disc r a p : 0 <= r <= 1 -> p = (r * cos a, r * sin a) \/ p = (r * sin a, r * cos a) -> disc p.
Proof.
  intros R E. pose proof (sin2_cos2 a) as S. unfold Rsqr in S. unfold disc.
  destruct E as [-> | ->]; cbn; [replace (r * cos a * (r * cos a) + r * sin a * (r * sin a)) with (r * r * (sin a * sin a + cos a * cos a)) by ring
    | replace (r * sin a * (r * sin a) + r * cos a * (r * cos a)) with (r * r * (sin a * sin a + cos a * cos a)) by ring]; rewrite S; nra.
Qed.

Lemma sqrt_le1 x : 0 <= x <= 1 -> sqrt x <= 1.
Proof. intros H. pose proof (sqrt_le_1 x 1 ltac:(lra) ltac:(lra) ltac:(lra)) as L. rewrite sqrt_1 in L. auto. Qed.
Lemma mapo_Forall {A B} (f : A -> option B) (P : A -> Prop) (Q : B -> Prop) l r :
  (forall a b, P a -> f a = Some b -> Q b) -> Forall P l -> mapo f l = Some r -> Forall Q r.
Proof.
  intros H F. revert r. induction F as [|a l Pa F IH]; intros r E; cbn in E.
  - injection E as <-. constructor.
  - destruct (f a) eqn:Fa; cbn in E; [|discriminate]. destruct (mapo f l); cbn in E; [|discriminate].
    injection E as <-. constructor; eauto.
Qed.
Lemma mapo_length {A B} (f : A -> option B) l r : mapo f l = Some r -> length r = length l.
Proof.
  revert r. induction l as [|a l IH]; intros r E; cbn in E; [injection E as <-; auto|].
  destruct (f a); cbn in E; [|discriminate]. destruct (mapo f l); cbn in E; [|discriminate]. injection E as <-. cbn. auto.
Qed.
Lemma repeat_each_In {A} m (l : list A) x : In x (repeat_each m l) -> In x l.
Proof.
  induction l as [|a l IH]; cbn; [auto|]. rewrite in_app_iff. intros [H|H]; [left; symmetry; eapply repeat_spec; eauto|auto].
Qed.
Lemma repeat_each_length {A} m (l : list A) : length (repeat_each m l) = (m * length l)%nat.
Proof. induction l as [|a l IH]; cbn; [lia|]. rewrite app_length, repeat_length, IH. lia. Qed.
Lemma concat_n_length {A} m (l : list A) : length (concat_n m l) = (m * length l)%nat.
Proof. induction m; cbn; auto. rewrite app_length. lia. Qed.
Lemma sum_app a b : sumR (a ++ b) = sumR a + sumR b.
Proof. unfold sumR. induction a as [|x a IH]; cbn [fold_right app]; [ring|]. rewrite IH. ring. Qed.
Lemma sum_repeat m x : sumR (repeat x m) = INR m * x.
Proof. unfold sumR. induction m; [cbn; ring|]. rewrite S_INR. cbn [repeat]. cbn [fold_right]. rewrite IHm. ring. Qed.
Lemma sum_each m l : (0 < m)%nat -> sumR (repeat_each m (map (fun v => v / INR m) l)) = sumR l.
Proof.
  intros H. assert (0 < INR m) by (apply lt_0_INR; auto). induction l as [|a l IH]; cbn [map repeat_each]; [reflexivity|].
  rewrite sum_app, sum_repeat, IH. unfold sumR. cbn [fold_right]. field. lra.
Qed.
Lemma sum_half l : sumR (map (fun v => v / 2) l) = sumR l / 2.
Proof. unfold sumR. induction l as [|a l IH]; cbn [map fold_right]; [lra|]. rewrite IH. lra. Qed.

(** the quadrature patterns: for nodes in [-1, 1] and weights of sum 2 the assertion
    in the code never fires, the weights have sum 1 and the same length as the points *)
Definition good_rule (xw : list R * list R) : Prop :=
  fst xw <> [] /\ length (fst xw) = length (snd xw) /\ Forall (fun x => -1 <= x <= 1) (fst xw) /\ sumR (snd xw) = 2.
Lemma rule_radii (xw : list R * list R) : Forall (fun x => -1 <= x <= 1) (fst xw) ->
  exists r, mapo (fun v => fsqrt ((v + 1) / 2)) (fst xw) = Some r /\ Forall (fun v => 0 <= v <= 1) r /\
    (forall x l, fst xw = x :: l -> exists l', r = sqrt ((x + 1) / 2) :: l').
Proof.
  destruct xw as [x w]. cbn [fst]. induction 1 as [|a l A F IH]; cbn [mapo].
  - exists []. split; [auto|]. split; [constructor|]. discriminate.
  - rewrite fsqrt_some by lra. destruct IH as (r & E & B & _). cbn [obind]. rewrite E. cbn [obind].
    exists (sqrt ((a + 1) / 2) :: r). split; [auto|]. split.
    + constructor; [|auto]. split; [apply sqrt_pos|]. apply sqrt_le1; lra.
    + intros x l' X. injection X as <- <-. eauto.
Qed.
Theorem C28_quadrature xw : good_rule xw ->
  exists ref xy ws, quadrature xw = Some (ref, xy, Some ws) /\ sumR ws = 1 /\ length ws = length xy /\
    Forall disc xy /\
    ((exists l, fst xw = -1 :: l) -> nth_error xy ref = Some (0, 0)).
Proof.
  intros (N & L & F & S). destruct (rule_radii xw F) as (r & E & B & HD). destruct xw as [x w]. cbn [fst snd] in *.
  unfold quadrature, interval_to_circle. cbn [fst snd]. rewrite (proj2 (Nat.eqb_eq _ _) L). cbn [negb]. rewrite E. cbn [obind].
  pose proof (mapo_length _ _ _ E) as LR.
  destruct x as [|x0 x]; [contradiction|]. destruct w as [|w0 w]; [discriminate|].
  destruct (HD x0 x eq_refl) as (rt & ->).
  set (n := length (x0 :: x)) in *. assert (NP : (0 < n)%nat) by (cbn in n; lia).
  assert (LW : length w = (n - 1)%nat) by (cbn in L; unfold n; cbn; lia).
  assert (LT : length rt = (n - 1)%nat) by (cbn in LR; unfold n; cbn; lia).
  set (p := map (fun j => PI * ((INR j + / 2) / INR n - / 2)) (seq 0 n)).
  assert (LP : length p = n) by (unfold p; rewrite map_length, seq_length; auto).
  assert (SW : sumR (map (fun v => v / 2) (w0 :: repeat_each n (map (fun v => v / INR n) w))) = 1).
  { rewrite sum_half. unfold sumR at 1. cbn [fold_right]. fold (sumR (repeat_each n (map (fun v => v / INR n) w))). rewrite sum_each by auto.
    unfold sumR in S. cbn [fold_right] in S. fold (sumR w) in S. lra. }
  assert (SW' : sumR (map (fun v => v / 2) (repeat_each n (map (fun v => v / INR n) (w0 :: w)))) = 1).
  { rewrite sum_half, sum_each by auto. lra. }
  assert (PTS : forall rs ps, (forall v, In v rs -> 0 <= v <= 1) ->
     Forall disc (map (fun rp => (fst rp * cos (snd rp), fst rp * sin (snd rp))) (combine rs ps))).
  { intros rs ps H. apply Forall_forall. intros q I. apply in_map_iff in I. destruct I as ([v a] & <- & I).
    apply in_combine_l in I. eapply polar_disc; [apply H, I|]. left. reflexivity. }
  rewrite Forall_forall in B.
  destruct (Req_EM_T (sqrt ((x0 + 1) / 2)) 0) as [Z|Z].
  - destruct (Req_EM_T _ 1) as [_|X]; [|contradiction]. cbn [obind].
    do 3 eexists. split; [reflexivity|]. split; [exact SW|]. split.
    { rewrite !map_length, combine_length. cbn [length]. rewrite !repeat_each_length, concat_n_length, map_length, LW, LT, LP. lia. }
    split; [apply PTS; intros v [<-|I]; [apply B; left; auto|apply repeat_each_In in I; apply B; right; auto]|].
    intros _. cbn [combine map nth_error fst snd]. rewrite Z. f_equal. f_equal; ring.
  - destruct (Req_EM_T _ 1) as [_|X]; [|contradiction]. cbn [obind].
    do 3 eexists. split; [reflexivity|]. split; [exact SW'|]. split.
    { rewrite !map_length, combine_length, !repeat_each_length, concat_n_length, map_length. cbn [length]. rewrite LW, LT, LP. lia. }
    split; [apply PTS; intros v I; apply repeat_each_In in I; apply B; auto|].
    intros (l & X). injection X as -> _. exfalso. apply Z. replace ((-1 + 1) / 2) with 0 by lra. apply sqrt_0.
Qed.

Section Oracles.
Variable rand : nat -> list (R * R).
Variable gr_roots gl_roots : nat -> list R * list R.
Hypothesis rand_unit : forall n, Forall (fun rp => 0 <= fst rp <= 1) (rand n).
Hypothesis gr_rule : forall n, good_rule (gr_roots n) /\ exists l, fst (gr_roots n) = -1 :: l.
Hypothesis gl_rule : forall n, good_rule (gl_roots n) /\ exists l, fst (gl_roots n) = -1 :: l.
Let sample := pupil_distribution rand gr_roots gl_roots.

Lemma filter_disc l : Forall disc (filter in_disc l).
Proof.
  apply Forall_forall. intros p I. apply filter_In in I. destruct I as (_ & I). unfold in_disc in I.
  destruct (Rle_dec _ 1) as [L|]; [|discriminate]. unfold disc. nra.
Qed.
Lemma ring_disc k i : (i <= k)%nat -> Forall disc (hex_ring k i).
Proof.
  intros H. apply Forall_forall. intros p I. unfold hex_ring in I. apply in_map_iff in I. destruct I as (j & <- & I).
  apply in_seq in I. assert (K : (0 < k)%nat) by lia. assert (KP : 0 < INR k) by (apply lt_0_INR; auto).
  apply (polar_disc (INR i / INR k) (INR j * (2 * PI / INR (6 * i)))).
  - assert (0 <= INR i <= INR k) by (split; [apply pos_INR|apply le_INR; lia]).
    split; [apply Rmult_le_pos; [lra|left; apply Rinv_0_lt_compat; auto]|].
    apply Rmult_le_reg_r with (INR k); [auto|]. unfold Rdiv. rewrite Rmult_assoc, Rinv_l by lra. lra.
  - right. cbv zeta. generalize (INR j * (2 * PI / INR (6 * i))). intros a. f_equal; field; lra.
Qed.
Lemma disc0 : disc (0, 0).
Proof. unfold disc. cbn. lra. Qed.

(** every pattern, every number of rays: only points of the unit disc *)
Theorem C28_disc d n ref xy w : sample d n = Some (ref, xy, w) -> Forall disc xy.
Proof.
  unfold sample, pupil_distribution. destruct (n =? 1)%nat eqn:N.
  { intros E. injection E as <- <- <-. apply Nat.eqb_eq in N. subst n. constructor; [apply disc0|constructor]. }
  destruct d; cbv zeta; intros E.
  - injection E as <- <- <-. apply Forall_forall. intros p. apply vertical_disc; lra.
  - injection E as <- <- <-. apply Forall_forall. intros p. apply vertical_disc; lra.
  - injection E as <- <- <-. apply Forall_forall. intros p. apply horizontal_disc; lra.
  - injection E as <- <- <-. apply Forall_app. split; apply Forall_forall; intros p; [apply vertical_disc|apply horizontal_disc]; lra.
  - destruct (n <? 2)%nat; [discriminate|]. injection E as <- <- <-.
    apply Forall_app. split; apply Forall_forall; intros p; [apply vertical_disc|apply horizontal_disc]; lra.
  - injection E as <- <- <-. constructor; [apply disc0|]. apply Forall_forall. intros p I. apply in_map_iff in I.
    destruct I as (rp & <- & I). pose proof (rand_unit n) as R. rewrite Forall_forall in R. specialize (R _ I).
    apply (polar_disc (sqrt (fst rp)) (2 * PI * snd rp)); [split; [apply sqrt_pos|apply sqrt_le1; lra]|].
    left. f_equal; ring.
  - injection E as <- <- <-. constructor; [apply disc0|apply filter_disc].
  - destruct (_ =? 0)%nat; [discriminate|]. injection E as <- <- <-. constructor; [apply disc0|apply filter_disc].
  - destruct (fsqrt _); cbn [obind] in E; [|discriminate]. injection E as <- <- <-. constructor; [apply disc0|].
    apply Forall_forall. intros p I. apply in_flat_map in I. destruct I as (i & I & J). apply in_seq in I.
    pose proof (ring_disc (trunc (r - 1 / 2)) i) as D. rewrite Forall_forall in D. apply D; [lia|auto].
  - destruct (C28_quadrature _ (proj1 (gr_rule (trunc (sqrt (INR n) + 1))))) as (ref' & xy' & ws & Q & _ & _ & D & _).
    rewrite Q in E. injection E as <- <- <-. auto.
  - destruct (C28_quadrature _ (proj1 (gl_rule (trunc (sqrt (INR n) + 1))))) as (ref' & xy' & ws & Q & _ & _ & D & _).
    rewrite Q in E. injection E as <- <- <-. auto.
  - discriminate.
Qed.

(** the patterns whose reference ray is right *)
Definition centred (d : distribution) (n : nat) : Prop :=
  match d with Meridional => n = 1%nat | Cross => n = 1%nat \/ (4 <= n)%nat | UnknownDistribution => n = 1%nat | _ => (1 <= n)%nat end.
Lemma trunc_pos x : 1 <= x -> (0 < trunc x)%nat.
Proof.
  intros H. unfold trunc. destruct (base_Int_part x) as [A B]. assert (0 < Int_part x)%Z; [|lia].
  apply lt_IZR. lra.
Qed.
Theorem C28_centre d n : centred d n ->
  exists ref xy w, sample d n = Some (ref, xy, w) /\ nth_error xy ref = Some (0, 0).
Proof.
  intros H. unfold sample, pupil_distribution. destruct (Nat.eqb_spec n 1) as [->|N].
  { do 3 eexists. split; [reflexivity|]. reflexivity. }
  destruct d; cbn [centred] in H; try contradiction.
  - do 3 eexists. split; [reflexivity|]. rewrite nth_error_map, linspace_first by lia. reflexivity.
  - do 3 eexists. split; [reflexivity|]. cbv zeta.
    pose proof (Nat.div_mod_eq n 2) as D. pose proof (Nat.mod_upper_bound n 2).
    set (m := (n / 2)%nat) in *. replace (n - n mod 2)%nat with (m * 2)%nat by lia. rewrite Nat.div_mul by lia.
    rewrite nth_error_map. replace (m * 2 + 1)%nat with (2 * m + 1)%nat by lia. rewrite linspace_mid by lia. reflexivity.
  - destruct H as [H|H]; [contradiction|]. do 3 eexists. split; [reflexivity|]. cbv zeta.
    pose proof (Nat.div_mod_eq n 4) as D. pose proof (Nat.mod_upper_bound n 4).
    set (m := (n / 4)%nat) in *. assert (E : (n - n mod 4)%nat = (m * 4)%nat) by lia. rewrite E, Nat.div_mul by lia.
    replace (m * 4)%nat with (2 * m * 2)%nat by lia. rewrite Nat.div_mul by lia.
    rewrite nth_error_app1 by (rewrite map_length, linspace_length; lia).
    rewrite nth_error_map, linspace_mid by lia. reflexivity.
  - destruct (Nat.ltb_spec n 2); [lia|]. do 3 eexists. split; [reflexivity|]. cbv zeta.
    rewrite nth_error_app2; rewrite map_length, linspace_length; [|lia].
    rewrite Nat.sub_diag, nth_error_map, linspace_first by lia. reflexivity.
  - do 3 eexists. split; reflexivity.
  - do 3 eexists. split; reflexivity.
  - cbv zeta. assert (T : (0 < trunc (sqrt (INR n * 4 / PI)))%nat).
    { apply trunc_pos. replace 1 with (sqrt 1) by apply sqrt_1. apply sqrt_le_1; [lra| |].
      - apply Rmult_le_pos; [|left; apply Rinv_0_lt_compat, PI_RGT_0]. pose proof (pos_INR n). lra.
      - assert (2 <= INR n) by (change 2 with (INR 2); apply le_INR; lia). pose proof PI_4. pose proof PI_RGT_0.
        apply Rmult_le_reg_r with PI; [auto|]. unfold Rdiv. rewrite Rmult_assoc, Rinv_l by lra. lra. }
    destruct (Nat.eqb_spec (trunc (sqrt (INR n * 4 / PI))) 0); [lia|]. do 3 eexists. split; reflexivity.
  - assert (2 <= INR n) by (change 2 with (INR 2); apply le_INR; lia). rewrite fsqrt_some by lra. cbn [obind].
    do 3 eexists. split; reflexivity.
  - destruct (gr_rule (trunc (sqrt (INR n) + 1))) as (G & F).
    destruct (C28_quadrature _ G) as (ref' & xy' & ws & Q & _ & _ & _ & C). rewrite Q. do 3 eexists. split; [reflexivity|auto].
  - destruct (gl_rule (trunc (sqrt (INR n) + 1))) as (G & F).
    destruct (C28_quadrature _ G) as (ref' & xy' & ws & Q & _ & _ & _ & C). rewrite Q. do 3 eexists. split; [reflexivity|auto].
Qed.

(** the number of points of the regular patterns *)
Lemma hex_count k : length (flat_map (hex_ring k) (seq 1 k)) = (3 * k * (k + 1))%nat.
Proof.
  assert (G : forall m, (length (flat_map (hex_ring k) (seq 1 m)) = 3 * m * (m + 1))%nat); [|apply G].
  induction m as [|m IH]; [reflexivity|]. rewrite seq_S, flat_map_app, app_length, IH.
  cbn [flat_map]. rewrite app_nil_r. unfold hex_ring. rewrite map_length, seq_length. lia.
Qed.
Lemma trunc_spec x k : 0 <= x -> trunc x = k -> INR k <= x < INR k + 1.
Proof.
  intros H <-. unfold trunc. destruct (base_Int_part x) as [A B]. assert (Z : (0 <= Int_part x)%Z).
  { assert (-1 < Int_part x)%Z; [|lia]. apply lt_IZR. lra. }
  rewrite INR_IZR_INZ, Z2Nat.id by auto. lra.
Qed.
Theorem C28_count n : (2 <= n)%nat ->
  (exists xy, sample HalfMeridional n = Some (0%nat, xy, None) /\ length xy = n) /\
  (exists ref xy, sample Sagittal n = Some (ref, xy, None) /\ (n <= length xy <= n + 1)%nat) /\
  (exists ref xy, sample Tee n = Some (ref, xy, None) /\ (length xy <= n < length xy + 3)%nat) /\
  (* hexapolar: as many full rings as fit *)
  (exists xy k, sample Hexapolar n = Some (0%nat, xy, None) /\ length xy = (1 + 3 * k * (k + 1))%nat /\
     (length xy <= n < length xy + 6 * (k + 1))%nat).
Proof.
  intros H. unfold sample, pupil_distribution. destruct (Nat.eqb_spec n 1); [lia|]. repeat split.
  - eexists. split; [reflexivity|]. rewrite map_length. apply linspace_length.
  - do 2 eexists. split; [reflexivity|]. cbv zeta. rewrite map_length, linspace_length.
    pose proof (Nat.mod_upper_bound n 2). lia.
  - destruct (Nat.ltb_spec n 2); [lia|]. do 2 eexists. split; [reflexivity|]. cbv zeta.
    rewrite app_length, !map_length, !linspace_length.
    pose proof (Nat.div_mod_eq (n - 2) 3). pose proof (Nat.mod_upper_bound (n - 2) 3). lia.
  - assert (N2 : 2 <= INR n) by (change 2 with (INR 2); apply le_INR; lia). rewrite fsqrt_some by lra. cbn [obind].
    set (q := sqrt (INR n / 3 - 1 / 12)). assert (QQ : q * q = INR n / 3 - 1 / 12) by (apply sqrt_sqrt; lra).
    assert (Q0 : 0 <= q) by apply sqrt_pos. assert (Q1 : 1 / 2 <= q) by nra.
    exists ((0, 0) :: flat_map (hex_ring (trunc (q - 1 / 2))) (seq 1 (trunc (q - 1 / 2)))), (trunc (q - 1 / 2)).
    split; [reflexivity|]. cbn [length]. rewrite hex_count. split; [lia|].
    destruct (trunc_spec (q - 1 / 2) _ ltac:(lra) eq_refl) as [A B]. set (k := trunc (q - 1 / 2)) in *.
    pose proof (pos_INR k) as K.
    assert (LO : INR (S (3 * k * (k + 1))) <= INR n).
    { rewrite S_INR, !mult_INR, plus_INR. replace (INR 3) with 3 by (cbn; lra). replace (INR 1) with 1 by reflexivity. clearbody q k. nra. }
    assert (HI : INR n < INR (S (3 * k * (k + 1) + 6 * (k + 1)))).
    { rewrite S_INR, !plus_INR, !mult_INR, !plus_INR. replace (INR 3) with 3 by (cbn; lra). replace (INR 6) with 6 by (cbn; lra).
      replace (INR 1) with 1 by reflexivity. clearbody q k. nra. }
    apply INR_le in LO. apply INR_lt in HI. lia.
Qed.

(** findings: for every n >= 2 the reference ray of the meridional fan is the lower rim
    ray; the cross with two or three rays refers to the rim as well; no ray at all is
    requested from the empty patterns *)
Theorem C28_meridional_refuted n : (2 <= n)%nat ->
  exists xy, sample Meridional n = Some (0%nat, xy, None) /\ nth_error xy 0 = Some (0, -1).
Proof.
  intros H. unfold sample, pupil_distribution. destruct (Nat.eqb_spec n 1); [lia|].
  eexists. split; [reflexivity|]. cbv zeta. rewrite nth_error_map, linspace_first by lia. reflexivity.
Qed.
Theorem C28_small_cross_refuted n : (2 <= n <= 3)%nat ->
  sample Cross n = Some (0%nat, [(0, -1); (-1, 0)], None) /\ sample Sagittal 0 = Some (0%nat, [(-1, 0)], None).
Proof.
  intros H. assert (n = 2 \/ n = 3)%nat as [-> | ->] by lia; split; reflexivity.
Qed.
End Oracles.
(** rules meeting the hypotheses: the two point Lobatto rule *)
Example C28_example : let rule := ([-1; 1], [1; 1]) in good_rule rule /\ (exists l, fst rule = -1 :: l) /\
  Forall (fun rp : R * R => 0 <= fst rp <= 1) [(1 / 2, 1 / 3)] /\ centred Hexapolar 7 /\ centred Cross 5.
Proof.
  cbv zeta. unfold good_rule. cbn [fst snd centred]. repeat split; try lia.
  - discriminate.
  - repeat apply Forall_cons; [lra|lra|apply Forall_nil].
  - unfold sumR. cbn. lra.
  - eauto.
  - apply Forall_cons; [cbn; lra|apply Forall_nil].
Qed.

Print Assumptions C28_quadrature.
Print Assumptions C28_disc.
Print Assumptions C28_centre.
Print Assumptions C28_count.
Print Assumptions C28_meridional_refuted.
Print Assumptions C28_small_cross_refuted.
