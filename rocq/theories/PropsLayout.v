(** Properties of the layout of elements in space (C41) and of aligning surfaces (C51). *)
From Coq Require Import Reals List ZArith Bool Lia Lra Psatz.
From Verif Require Import Base Vec RotModel PlacementModel ElementModel LayoutModel RotProofs RotEuler PlacementProofs.
Import ListNotations.
Open Scope R_scope.

Definition vsum (l : list vec) : vec := fold_right vadd3 v0 l.
Definition rsum (l : list R) : R := fold_right Rplus 0 l.

Lemma dot_le a b : dot a b <= norm a * norm b.
Proof.
  pose proof (norm_sqr a) as A. pose proof (norm_sqr b) as B. pose proof (norm_nonneg a) as PA. pose proof (norm_nonneg b) as PB.
  assert (L : dot a b * dot a b <= (norm a * norm b) * (norm a * norm b)).
  { replace ((norm a * norm b) * (norm a * norm b)) with (dot a a * dot b b) by (rewrite <- A, <- B; ring).
    pose proof (dot_nonneg (cross a b)) as C. replace (dot (cross a b) (cross a b)) with (dot a a * dot b b - dot a b * dot a b) in C by (unfold dot, cross; cbn; ring). lra. }
  assert (P : 0 <= norm a * norm b) by (apply Rmult_le_pos; auto). apply abs_bound in L; auto. lra.
Qed.
Lemma norm_triangle a b : norm (vadd3 a b) <= norm a + norm b.
Proof.
  pose proof (norm_sqr a) as A. pose proof (norm_sqr b) as B. pose proof (norm_sqr (vadd3 a b)) as C. pose proof (norm_nonneg a) as PA. pose proof (norm_nonneg b) as PB.
  pose proof (dot_le a b) as D. rewrite dot_add_l, !dot_add_r, (dot_comm b a) in C. assert (L : norm (vadd3 a b) * norm (vadd3 a b) <= (norm a + norm b) * (norm a + norm b)) by nra.
  apply abs_bound in L; lra.
Qed.
Lemma cumsum3_nth l : forall acc j, nth_error (cumsum3 acc l) j = if (j <? length l)%nat then Some (vadd3 acc (vsum (firstn (S j) l))) else None.
Proof.
  induction l as [|v l IH]; intros acc j; [destruct j; reflexivity|]. destruct j as [|j].
  - cbn. f_equal. vec_ring.
  - change (nth_error (cumsum3 acc (v :: l)) (S j)) with (nth_error (cumsum3 (vadd3 acc v) l) j). rewrite IH.
    change (S j <? length (v :: l))%nat with (j <? length l)%nat. destruct (j <? length l)%nat; [|auto]. f_equal.
    change (firstn (S (S j)) (v :: l)) with (v :: firstn (S j) l). change (vsum (v :: firstn (S j) l)) with (vadd3 v (vsum (firstn (S j) l))). generalize (vsum (firstn (S j) l)). intros w. vec_ring.
Qed.
Lemma cumsum1_nth l : forall acc j, nth_error (cumsum1 acc l) j = if (j <? length l)%nat then Some (acc + rsum (firstn (S j) l)) else None.
Proof.
  induction l as [|v l IH]; intros acc j; [destruct j; reflexivity|]. destruct j as [|j].
  - cbn. f_equal. ring.
  - change (nth_error (cumsum1 acc (v :: l)) (S j)) with (nth_error (cumsum1 (acc + v) l) j). rewrite IH.
    change (S j <? length (v :: l))%nat with (j <? length l)%nat. destruct (j <? length l)%nat; [|auto]. f_equal.
    change (firstn (S (S j)) (v :: l)) with (v :: firstn (S j) l). change (rsum (v :: firstn (S j) l)) with (v + rsum (firstn (S j) l)). ring.
Qed.

(** * C41 *)
(** the origin of element j is the sum of the offsets up to j, its path the sum of the distances *)
Theorem C41_origins s j : (j < length s)%nat ->
  nth_error (origins s) j = Some (vsum (map p_offset (firstn (S j) s))) /\ nth_error (path s) j = Some (rsum (map p_distance (firstn (S j) s))) /\
  nth_error (track s) j = Some (vz (vsum (map p_offset (firstn (S j) s)))) /\ length (origins s) = length s.
Proof.
  intros J. unfold track, origins, path. rewrite <- !firstn_map.
  assert (E : nth_error (cumsum3 v0 (map p_offset s)) j = Some (vsum (firstn (S j) (map p_offset s)))).
  { rewrite cumsum3_nth, map_length. destruct (Nat.ltb_spec j (length s)); [|lia]. f_equal. generalize (vsum (firstn (S j) (map p_offset s))). intros w. vec_ring. }
  split; [auto|]. split; [|split].
  - rewrite cumsum1_nth, map_length. destruct (Nat.ltb_spec j (length s)); [|lia]. f_equal. ring.
  - exact (map_nth_error vz j _ E).
  - assert (L : forall l acc, length (cumsum3 acc l) = length l) by (induction l; intros; cbn; auto). rewrite L, map_length. auto.
Qed.
(** so no two origins are further apart than the path between them *)
Lemma sum_bound s : Forall normal_form s -> norm (vsum (map p_offset s)) <= rsum (map p_distance s).
Proof.
  induction 1 as [|p s (D & U & O) F IH].
  - cbn. unfold v0, norm, dot; cbn. replace (0 * 0 + 0 * 0 + 0 * 0) with 0 by ring. rewrite sqrt_0. lra.
  - cbn [map]. change (norm (vadd3 (p_offset p) (vsum (map p_offset s))) <= p_distance p + rsum (map p_distance s)).
    eapply Rle_trans; [apply norm_triangle|]. rewrite O, norm_scale, (norm_unit _ U), Rabs_right by lra. lra.
Qed.
Lemma vsum_app a b : vsum (a ++ b) = vadd3 (vsum a) (vsum b).
Proof. induction a as [|v a IH]; [cbn [app]; change (vsum []) with v0; generalize (vsum b); intros w; vec_ring|]. change (vadd3 v (vsum (a ++ b)) = vadd3 (vadd3 v (vsum a)) (vsum b)). rewrite IH. generalize (vsum a), (vsum b). intros x y. vec_ring. Qed.
Lemma rsum_app a b : rsum (a ++ b) = rsum a + rsum b.
Proof. induction a as [|v a IH]; [cbn [app]; change (rsum []) with 0; ring|]. change (v + rsum (a ++ b) = v + rsum a + rsum b). rewrite IH. ring. Qed.
Lemma some_inj {A} (a b : A) : Some a = Some b -> a = b. Proof. congruence. Qed.
Theorem C41_bound s j k oj ok pj pk : Forall normal_form s -> (j <= k < length s)%nat ->
  nth_error (origins s) j = Some oj -> nth_error (origins s) k = Some ok -> nth_error (path s) j = Some pj -> nth_error (path s) k = Some pk ->
  norm (vsub3 ok oj) <= pk - pj.
Proof.
  intros F [JK K] Oj Ok Pj Pk. destruct (C41_origins s j) as (A & B & _); [lia|]. destruct (C41_origins s k) as (C & D & _); [lia|].
  rewrite Oj in A. rewrite Pj in B. rewrite Ok in C. rewrite Pk in D. apply some_inj in A, B, C, D. subst oj pj ok pk.
  set (m := firstn (S k) s). assert (E : firstn (S j) s = firstn (S j) m) by (unfold m; rewrite firstn_firstn; f_equal; lia). rewrite E.
  rewrite <- (firstn_skipn (S j) m) at 1 3. rewrite !map_app, vsum_app, rsum_app.
  replace (rsum (map p_distance (firstn (S j) m)) + rsum (map p_distance (skipn (S j) m)) - rsum (map p_distance (firstn (S j) m))) with (rsum (map p_distance (skipn (S j) m))) by ring.
  replace (vsub3 _ _) with (vsum (map p_offset (skipn (S j) m))).
  2:{ generalize (vsum (map p_offset (skipn (S j) m))), (vsum (map p_offset (firstn (S j) m))). intros x y. vec_ring. }
  apply sum_bound. apply Forall_forall. intros p I. rewrite Forall_forall in F. apply F. unfold m in I.
  assert (I2 : In p (firstn (S k) s)) by (rewrite <- (firstn_skipn (S j) (firstn (S k) s)); apply in_app_iff; auto).
  rewrite <- (firstn_skipn (S k) s). apply in_app_iff. auto.
Qed.

Lemma last_nth {A} (l : list A) d : last l d = List.nth (length l - 1) l d.
Proof. induction l as [|a [|b l] IH]; [auto|auto|]. change (last (b :: l) d = List.nth (length (a :: b :: l) - 1) (a :: b :: l) d). rewrite IH. cbn [length]. rewrite !Nat.sub_succ, !Nat.sub_0_r. auto. Qed.
Lemma last_origin s : last (origins s) v0 = vsum (map p_offset s).
Proof.
  rewrite last_nth. destruct s as [|p s]; [reflexivity|]. set (l := p :: s). destruct (C41_origins l (length s)) as (A & _ & _ & L); [cbn; lia|].
  rewrite L. replace (length l - 1)%nat with (length s) by (cbn; lia). rewrite (nth_error_nth _ _ _ A). rewrite firstn_all2; [auto|cbn; lia].
Qed.
Lemma replace_sum s k p q : nth_error s k = Some p -> vsum (map p_offset (replace s k q)) = vadd3 (vsum (map p_offset s)) (vsub3 (p_offset q) (p_offset p)).
Proof.
  revert k. induction s as [|a s IH]; intros [|k] H; try discriminate; cbn [replace map].
  - injection H as ->. change (vadd3 (p_offset q) (vsum (map p_offset s)) = vadd3 (vadd3 (p_offset p) (vsum (map p_offset s))) (vsub3 (p_offset q) (p_offset p))). generalize (vsum (map p_offset s)). intros w. vec_ring.
  - change (vadd3 (p_offset a) (vsum (map p_offset (replace s k q))) = vadd3 (vadd3 (p_offset a) (vsum (map p_offset s))) (vsub3 (p_offset q) (p_offset p))). rewrite IH by auto. generalize (vsum (map p_offset s)). intros w. vec_ring.
Qed.
Lemma replace_nth_other {A} (s : list A) k j q : j <> k -> nth_error (replace s k q) j = nth_error s j.
Proof. revert k j. induction s as [|a s IH]; intros [|k] [|j] H; cbn; auto; try contradiction. Qed.
Lemma replace_nth_same {A} (s : list A) k q : (k < length s)%nat -> nth_error (replace s k q) k = Some q.
Proof. revert k. induction s as [|a s IH]; intros [|k] H; cbn in *; try lia; auto. apply IH. lia. Qed.
(** closing: the last origin is the first element's reference point, all other elements stay, the changed
    one keeps its angles; it fails only for an index out of range *)
Theorem C41_close s index : s <> [] ->
  (forall s', close s index = Some s' -> last (origins s') v0 = v0 /\ length s' = length s /\
     exists k, k = Z.to_nat (index mod Z.of_nat (length s)) /\ (forall j, j <> k -> nth_error s' j = nth_error s j) /\
       exists p q, nth_error s k = Some p /\ nth_error s' k = Some q /\ p_angles q = p_angles p /\ normal_form q) /\
  (close s index = None <-> (index < - Z.of_nat (length s) \/ Z.of_nat (length s) <= index)%Z).
Proof.
  intros NE. assert (L : (0 < Z.of_nat (length s))%Z) by (destruct s; [contradiction|cbn; lia]).
  unfold close. destruct (position (length s) index) as [k|] eqn:P; cbn [obind].
  - assert (K : (k < length s)%nat /\ k = Z.to_nat (index mod Z.of_nat (length s)) /\ (- Z.of_nat (length s) <= index < Z.of_nat (length s))%Z).
    { unfold position in P. destruct (_ && _)%bool eqn:B; [|discriminate]. injection P as <-. apply andb_true_iff in B. destruct B as [B1 B2]. apply Z.leb_le in B1. apply Z.ltb_lt in B2.
      destruct (Z.ltb_spec index 0).
      - split; [lia|]. split; [|lia]. f_equal. rewrite <- (Z.mod_small (index + Z.of_nat (length s)) (Z.of_nat (length s))) by lia. rewrite <- (Z.add_mod_idemp_r index). rewrite Z.mod_same by lia. rewrite Z.add_0_r. auto. lia.
      - split; [lia|]. split; [|lia]. f_equal. symmetry. apply Z.mod_small. lia. }
    destruct K as (K & KE & KR). destruct (nth_error s k) as [p|] eqn:N; [|apply nth_error_None in N; lia].
    destruct (set_offset_spec p (vsub3 (p_offset p) (last (origins s) v0))) as (q & Q & NF & _ & O & _ & A). rewrite Q. cbn [obind]. split.
    + intros s' H. injection H as <-. split; [|split].
      * rewrite last_origin, (replace_sum s k p q N), O, last_origin. generalize (vsum (map p_offset s)). intros w. vec_ring.
      * clear. revert k. induction s as [|a s IH]; intros [|k]; cbn; auto.
      * exists k. split; [auto|]. split; [intros; apply replace_nth_other; auto|]. exists p, q. rewrite replace_nth_same by auto. auto.
    + split; [discriminate|lia].
  - split; [discriminate|]. split; [|auto]. intros _. unfold position in P. destruct (_ && _)%bool eqn:B; [discriminate|]. apply andb_false_iff in B.
    destruct (Z.ltb_spec index 0); (destruct B as [B|B]; [apply Z.leb_gt in B|apply Z.ltb_ge in B]); lia.
Qed.
(** mirrored is -1 to the number of mirrors so far *)
Theorem C41_mirrored l j m : nth_error (mirrored l) j = Some m -> m = (-1) ^ length (filter (fun b => b) (firstn (S j) l)).
Proof.
  unfold mirrored. assert (G : forall l acc j m, nth_error (mirrored_from acc l) j = Some m -> m = acc * (-1) ^ length (filter (fun b : bool => b) (firstn (S j) l))).
  { clear. induction l as [|b l IH]; intros acc j m H; [destruct j; discriminate|]. destruct j as [|j].
    - cbn in H. injection H as <-. destruct b; cbn; ring.
    - cbn [mirrored_from nth_error] in H. apply IH in H. subst. change (firstn (S (S j)) (b :: l)) with (b :: firstn (S j) l). destruct b; cbn [filter length pow]; ring. }
  intros H. apply G in H. lra.
Qed.
Example C41_example : exists p q s', init 2 ez v0 None = Some p /\ init 3 ey v0 None = Some q /\ Forall normal_form [p; q; p] /\ close [p; q; p] (-1) = Some s'.
Proof.
  destruct (init_spec 2 ez v0 None) as (p & P & NP & _). destruct (init_spec 3 ey v0 None) as (q & Q & NQ & _). exists p, q.
  destruct (close [p; q; p] (-1)) as [s'|] eqn:C; [exists s'; auto 10|]. apply C41_close in C; [|discriminate]. cbn in C. lia.
Qed.
Print Assumptions C41_origins.
Print Assumptions C41_bound.
Print Assumptions C41_close.
Print Assumptions C41_mirrored.
