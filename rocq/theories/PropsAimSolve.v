(** Properties of the aiming solvers (C40). *)
From Coq Require Import Reals Bool ZArith Lia Lra Psatz List.
From Verif Require Import Base AimSolveModel.
Import ListNotations.
Open Scope R_scope.

Lemma within_true f tol : within f tol = true <-> exists x, f = Some x /\ Rabs x <= tol.
Proof.
  unfold within. destruct f as [x|].
  - destruct (Rle_dec (Rabs x) tol); split; try discriminate; [eauto|auto|]. intros [y [E H]]. injection E as <-. contradiction.
  - split; [discriminate|]. intros [y [E H]]. discriminate.
Qed.

(** * C40 *)
(** Newton is only started where the merit is a number, as near to the given start as possible in
    whole steps, and the search gives up only if there is no such start *)
Lemma try_starts_spec merit a0 : forall n scale,
  match try_starts merit a0 scale n with
  | Some (x, f) => merit x = Some f /\ exists k, (scale <= k < scale + n)%nat /\ (x = a0 + INR k \/ x = a0 - INR k) /\
      forall j, (scale <= j < k)%nat -> merit (a0 + INR j) = None /\ merit (a0 - INR j) = None
  | None => forall j, (scale <= j < scale + n)%nat -> merit (a0 + INR j) = None /\ merit (a0 - INR j) = None
  end.
Proof.
  induction n as [|n IH]; intros scale; cbn [try_starts]; [intros j J; lia|].
  destruct (merit (a0 + - INR scale)) as [f|] eqn:M.
  - split; [auto|]. exists scale. split; [lia|]. split; [right; lra|]. intros j J. lia.
  - destruct (merit (a0 + INR scale)) as [f|] eqn:P.
    + split; [auto|]. exists scale. split; [lia|]. split; [left; lra|]. intros j J. lia.
    + specialize (IH (S scale)). assert (B : forall j, j = scale -> merit (a0 + INR j) = None /\ merit (a0 - INR j) = None) by (intros j ->; auto).
      destruct (try_starts merit a0 (S scale) n) as [[x f]|].
      * destruct IH as [E [k [K [X C]]]]. split; [auto|]. exists k. split; [lia|]. split; [auto|]. intros j J. destruct (Nat.eq_dec j scale); [auto|apply C; lia].
      * intros j J. destruct (Nat.eq_dec j scale); [auto|apply IH; lia].
Qed.
Theorem C40_newton_start merit a0 maxiter :
  match find_start merit a0 maxiter with
  | Some (x, f) => merit x = Some f /\ exists k, (k < Nat.max 1 maxiter)%nat /\ (x = a0 + INR k \/ x = a0 - INR k) /\
      forall j, (j < k)%nat -> merit (a0 + INR j) = None /\ merit (a0 - INR j) = None
  | None => forall j, (j < Nat.max 1 maxiter)%nat -> merit (a0 + INR j) = None /\ merit (a0 - INR j) = None
  end.
Proof.
  unfold find_start. destruct (merit a0) as [f|] eqn:M.
  - split; [auto|]. exists 0%nat. split; [lia|]. split; [left; cbn; lra|]. intros j J. lia.
  - assert (Z : forall j, j = 0%nat -> merit (a0 + INR j) = None /\ merit (a0 - INR j) = None).
    { intros j ->. cbn. rewrite Rplus_0_r, Rminus_0_r. auto. }
    pose proof (try_starts_spec merit a0 (maxiter - 1) 1) as H. destruct (try_starts merit a0 1 (maxiter - 1)) as [[x f]|].
    + destruct H as [E [k [K [X C]]]]. split; [auto|]. exists k. split; [lia|]. split; [auto|]. intros j J. destruct (Nat.eq_dec j 0); [auto|apply C; lia].
    + intros j J. destruct (Nat.eq_dec j 0); [auto|apply H; lia].
Qed.
Theorem C40_newton merit newton a tol maxiter r : solve_newton merit newton a tol maxiter = Some r ->
  (exists f, merit r = Some f /\ Rabs f <= tol) \/ (exists x f, merit x = Some f /\ tol < Rabs f /\ newton x = Some r).
Proof.
  unfold solve_newton. pose proof (C40_newton_start merit a maxiter) as H. destruct (find_start merit a maxiter) as [[x f]|]; [|discriminate]. cbn [obind fst snd].
  destruct H as [E _]. destruct (within (Some f) tol) eqn:W.
  - intros X. injection X as <-. left. apply within_true in W. destruct W as [y [Y L]]. injection Y as <-. eauto.
  - intros X. right. exists x, f. split; [auto|]. split; [|auto]. unfold within in W. destruct (Rle_dec (Rabs f) tol); [discriminate|lra].
Qed.

(** the root finder is only called on a bracket with strict sign change; a point returned without
    it is a solution within tolerance *)
Lemma widen_spec merit tol : forall n i a b,
  match widen merit tol i n a b with
  | Found x => exists f, merit x = Some f /\ Rabs f <= tol
  | Break j a' b' => (i <= j < i + n)%nat /\ (exists f, merit b' = Some f /\ 0 <= f /\ tol < Rabs f) /\
      (a' = a \/ exists f, merit a' = Some f /\ f < 0)
  | Exhausted => True
  end.
Proof.
  induction n as [|n IH]; intros i a b; cbn [widen]; [auto|].
  destruct (within (merit b) tol) eqn:W; [apply within_true in W; auto|]. destruct (merit b) as [f|] eqn:M.
  - destruct (Rlt_dec f 0) as [L|L].
    + specialize (IH (S i) b (b * (1 - f))). destruct (widen merit tol (S i) n b (b * (1 - f))); auto.
      destruct IH as [A [B C]]. split; [lia|]. split; [auto|]. right. destruct C as [->|C]; [eauto|auto].
    + split; [lia|]. split; [|auto]. exists f. split; [auto|]. split; [lra|]. unfold within in W. destruct (Rle_dec (Rabs f) tol); [discriminate|lra].
  - specialize (IH (S i) a (b / 2)). destruct (widen merit tol (S i) n a (b / 2)); auto. destruct IH as [A [B C]]. split; [lia|]. auto.
Qed.
Theorem C40_bracket merit brentq a b tol maxiter : 0 <= tol ->
  match solve_brentq merit brentq a b tol maxiter with
  | Point x => exists f, merit x = Some f /\ Rabs f <= tol
  | Root x y r => r = brentq x y /\ exists fx fy, merit x = Some fx /\ merit y = Some fy /\ fx < - tol /\ tol < fy
  | _ => True
  end.
Proof.
  intros T. unfold solve_brentq. destruct maxiter as [|k]; [auto|]. pose proof (widen_spec merit tol (S k) 0 a b) as H.
  destruct (widen merit tol 0 (S k) a b) as [x|i x y|]; [auto| |auto]. destruct (Nat.eqb i k); [auto|].
  destruct (within (merit x) tol) eqn:W; [apply within_true in W; auto|]. destruct (merit x) as [f|] eqn:M; [|auto]. destruct (Rlt_dec f 0) as [L|L]; [|auto].
  split; [auto|]. destruct H as [_ [[g [G [P Q]]] _]]. exists f, g. rewrite Rabs_right in Q by lra. unfold within in W. destruct (Rle_dec (Rabs f) tol) as [|N]; [discriminate|].
  rewrite Rabs_left in N by auto. repeat split; auto. lra.
Qed.
(** from a start with negative merit the assertion cannot fail *)
Theorem C40_assertion merit brentq a b tol maxiter f : merit a = Some f -> f < 0 -> solve_brentq merit brentq a b tol maxiter <> NotNegative.
Proof.
  intros M L. unfold solve_brentq. destruct maxiter as [|k]; [discriminate|]. pose proof (widen_spec merit tol (S k) 0 a b) as H.
  destruct (widen merit tol 0 (S k) a b) as [x|i x y|]; [discriminate| |discriminate]. destruct (Nat.eqb i k); [discriminate|].
  destruct (within (merit x) tol); [discriminate|]. destruct H as [_ [_ H]].
  assert (E : exists g, merit x = Some g /\ g < 0) by (destruct H as [->|H]; [eauto|auto]). destruct E as [g [-> G]]. destruct (Rlt_dec g 0); [discriminate|contradiction].
Qed.
(** positive end points stay positive *)
Theorem C40_positive merit brentq a b tol maxiter : 0 <= a -> 0 < b ->
  match solve_brentq merit brentq a b tol maxiter with
  | Point x => 0 <= x
  | Root x y _ => 0 <= x /\ 0 < y
  | _ => True
  end.
Proof.
  intros A B. assert (H : forall n i a b, 0 <= a -> 0 < b -> match widen merit tol i n a b with Found x => 0 <= x | Break _ x y => 0 <= x /\ 0 < y | Exhausted => True end).
  { induction n as [|n IH]; intros i a0 b0 A0 B0; cbn [widen]; [auto|]. destruct (within (merit b0) tol); [lra|]. destruct (merit b0) as [f|].
    - destruct (Rlt_dec f 0); [apply IH; [lra|]; apply Rmult_lt_0_compat; lra|auto].
    - apply IH; lra. }
  unfold solve_brentq. destruct maxiter as [|k]; [auto|]. specialize (H (S k) 0%nat a b A B). destruct (widen merit tol 0 (S k) a b) as [x|i x y|]; auto.
  destruct (Nat.eqb i k); [auto|]. destruct (within (merit x) tol); [tauto|]. destruct (merit x) as [f|]; [|auto]. destruct (Rlt_dec f 0); auto.
Qed.
(** finding: a sign change found in the last round is thrown away; no rounds is a NameError *)
Theorem C40_last_round_refuted : exists merit brentq, (exists f, merit 0 = Some f /\ f < -1/1000) /\ (exists f, merit 1 = Some f /\ f > 1/1000) /\
  solve_brentq merit brentq 0 1 (1/1000) 1 = NoInterval /\ solve_brentq merit brentq 0 1 (1/1000) 2 = Root 0 1 (Some (1/2)) /\ merit (1/2) = Some 0.
Proof.
  set (m := fun x => Some (2 * x - 1)). exists m, (fun _ _ => Some (1/2)). unfold m.
  split; [eexists; split; [reflexivity|lra]|]. split; [eexists; split; [reflexivity|lra]|].
  assert (W1 : within (Some (2 * 1 - 1)) (1/1000) = false).
  { unfold within. destruct (Rle_dec (Rabs (2 * 1 - 1)) (1/1000)) as [H|]; [|auto]. rewrite Rabs_right in H by lra. lra. }
  assert (W0 : within (Some (2 * 0 - 1)) (1/1000) = false).
  { unfold within. destruct (Rle_dec (Rabs (2 * 0 - 1)) (1/1000)) as [H|]; [|auto]. rewrite Rabs_left in H by lra. lra. }
  split; [|split].
  - unfold solve_brentq, widen. rewrite W1. destruct (Rlt_dec (2 * 1 - 1) 0); [lra|]. reflexivity.
  - unfold solve_brentq, widen. rewrite W1. destruct (Rlt_dec (2 * 1 - 1) 0); [lra|]. cbn [Nat.eqb]. rewrite W0. destruct (Rlt_dec (2 * 0 - 1) 0); [reflexivity|lra].
  - f_equal. lra.
Qed.

(** aiming, given root finders that solve to the tolerance *)
Lemma combine_last {A B} (da : A) (db : B) : forall (l : list A) (m : list B) n, length m = S n -> (length m <= length l)%nat ->
  last (combine l m) (da, db) = (List.nth n l da, List.nth n m db).
Proof.
  intros l. induction l as [|a l IH]; intros [|b m] n L G; cbn in *; try lia. destruct n as [|n].
  - destruct m; [|discriminate]. destruct l; auto.
  - injection L as L. destruct m as [|b' m]; [discriminate|]. destruct l as [|a' l]; [cbn in G; lia|]. specialize (IH (b' :: m) n L). rewrite <- IH by (cbn in *; lia). reflexivity.
Qed.
Lemma combine_nth_gen {A B} (da : A) (db : B) : forall (l : list A) (m : list B) i, (i < length l)%nat -> (i < length m)%nat ->
  List.nth i (combine l m) (da, db) = (List.nth i l da, List.nth i m db).
Proof. induction l as [|a l IH]; intros [|b m] [|i] L M; cbn in *; try lia; auto. apply IH; lia. Qed.
Lemma last_map {A B} (f : A -> B) l d e : l <> [] -> last (map f l) e = f (last l d).
Proof. induction l as [|a [|b l] IH]; intros N; [contradiction|auto|]. change (last (map f (b :: l)) e = f (last (b :: l) d)). apply IH. discriminate. Qed.

Section Contracts.
Variable brentq : (R -> option R) -> R -> R -> option R.
Variable tol : R.
Hypothesis brentq_solves : forall f a b r, brentq f a b = Some r -> exists v, f r = Some v /\ Rabs v <= tol.
Lemma solved f a b maxiter r : 0 <= tol -> returned (solve_brentq f (brentq f) a b tol maxiter) = Some r -> exists v, f r = Some v /\ Rabs v <= tol.
Proof.
  intros T H. pose proof (C40_bracket f (brentq f) a b tol maxiter T) as B. destruct (solve_brentq f (brentq f) a b tol maxiter); try discriminate; cbn in H.
  - injection H as <-. auto.
  - destruct B as [-> _]. eauto.
Qed.
Lemma excess_spec h r v : excess h (Some r) = Some v -> exists x y, h = Some (x, y) /\ r <> 0 /\ x * x + y * y - r * r = v * (r * r).
Proof.
  unfold excess. destruct h as [[x y]|]; [|discriminate]. cbn [obind fst snd]. destruct (fdiv (x * x + y * y) (r * r)) as [q|] eqn:D; [|discriminate]. cbn [obind]. intros H. injection H as <-.
  apply fdiv_inv in D. destruct D as [N ->]. exists x, y. split; [auto|]. split; [intros ->; apply N; ring|]. field. intros ->; apply N; ring.
Qed.
End Contracts.

Lemma firstn_length_le {A} (l : list A) n : (n <= length l)%nat -> length (firstn n l) = n.
Proof. intros H. rewrite firstn_length. lia. Qed.
Lemma nth_firstn_lt {A} (d : A) : forall n (l : list A) i, (i < n)%nat -> List.nth i (firstn n l) d = List.nth i l d.
Proof. induction n as [|n IH]; intros [|a l] [|i] H; cbn; try lia; auto. apply IH; lia. Qed.
Lemma nth_tl {A} (l : list A) i d : List.nth i (tl l) d = List.nth (S i) l d.
Proof. destruct l; cbn; [destruct i; auto|auto]. Qed.

(** a marginal ray aimed at the stop meets its rim *)
Theorem C40_marginal_at_stop marginal brentq tol sys_stop radii yp z p maxiter a r : 0 <= tol ->
  (forall f a b r, brentq f a b = Some r -> exists v, f r = Some v /\ Rabs v <= tol) ->
  (forall yp z a, length (marginal yp z a) = (length radii - 1)%nat) ->
  (1 <= sys_stop < length radii)%nat -> List.nth sys_stop radii None = Some r ->
  aim_marginal marginal brentq true sys_stop radii yp z p NoStop tol maxiter = Some a ->
  exists x y, List.nth (sys_stop - 1) (marginal yp z a) None = Some (x, y) /\ Rabs (x * x + y * y - r * r) <= tol * (r * r).
Proof.
  intros T BQ ML ST RD H. unfold aim_marginal in H. destruct (Req_EM_T p 0); [discriminate|]. cbn [negb andb] in H.
  destruct (S sys_stop <=? 1)%nat eqn:LE; [apply Nat.leb_le in LE; lia|]. destruct (returned _) as [c|] eqn:RR; [|discriminate]. cbn [obind] in H.
  destruct (Req_EM_T c 0); [discriminate|]. injection H as <-.
  destruct (solved brentq tol BQ _ _ _ _ _ T RR) as [v [V B]]. unfold marginal_merit, excesses in V.
  replace (S sys_stop - 1)%nat with sys_stop in V by lia.
  assert (RL : length (firstn sys_stop (tl radii)) = S (sys_stop - 1)). { rewrite firstn_length_le; [lia|]. destruct radii; cbn in *; lia. }
  rewrite (last_map _ _ (None, None)) in V.
  2:{ intros E. apply (f_equal (@length _)) in E. rewrite combine_length, RL, ML in E. cbn in E. lia. }
  rewrite (combine_last None None _ _ (sys_stop - 1)) in V by (rewrite ?RL, ?ML; lia). cbn [fst snd] in V.
  rewrite nth_firstn_lt, nth_tl in V by lia. replace (S (sys_stop - 1)) with sys_stop in V by lia. rewrite RD in V.
  apply excess_spec in V. destruct V as [x [y [E [N Q]]]]. exists x, y. split; [auto|]. rewrite Q, Rabs_mult, (Rabs_right (r * r)) by nra. apply Rmult_le_compat_r; [nra|auto].
Qed.
(** a ray aimed at the rim passes all surfaces between object and image and touches one *)
Lemma maximum_spec d m : maximum d = Some m -> (forall e, In e d -> exists x, e = Some x /\ x <= m) /\ In (Some m) d.
Proof.
  revert m. induction d as [|e d IH]; intros m H; [discriminate|]. destruct d as [|e' d].
  - cbn in H. subst. split; [intros x [<-|[]]; eexists; split; [reflexivity|lra]|left; auto].
  - change (maximum (e :: e' :: d)) with (do x <- e; do m <- maximum (e' :: d); Some (Rmax x m)) in H. destruct e as [x|]; [|discriminate]. cbn [obind] in H.
    destruct (maximum (e' :: d)) as [m'|] eqn:M; [|discriminate]. cbn [obind] in H. injection H as <-. destruct (IH m' eq_refl) as [A B].
    split.
    + intros f [<-|I]; [exists x; split; [auto|apply Rmax_l]|]. destruct (A f I) as [y [Y L]]. exists y. split; [auto|]. eapply Rle_trans; [exact L|apply Rmax_r].
    + unfold Rmax. destruct (Rle_dec x m'); [right; auto|left; auto].
Qed.
Theorem C40_marginal_at_rim marginal brentq aiming tol sys_stop radii yp z p maxiter a : 0 <= tol < 1 ->
  (forall f a b r, brentq f a b = Some r -> exists v, f r = Some v /\ Rabs v <= tol) ->
  (forall yp z a, length (marginal yp z a) = (length radii - 1)%nat) ->
  aim_marginal marginal brentq aiming sys_stop radii yp z p Rim tol maxiter = Some a ->
  (forall i r, (1 <= i < length radii - 1)%nat -> List.nth i radii None = Some r ->
     exists x y, List.nth (i - 1) (marginal yp z a) None = Some (x, y) /\ x * x + y * y <= (1 + tol) * (r * r)) /\
  (exists i r x y, (1 <= i < length radii - 1)%nat /\ List.nth i radii None = Some r /\
     List.nth (i - 1) (marginal yp z a) None = Some (x, y) /\ (1 - tol) * (r * r) <= x * x + y * y).
Proof.
  intros T BQ ML H. unfold aim_marginal in H. destruct (Req_EM_T p 0); [discriminate|]. rewrite andb_false_r in H.
  destruct (length radii - 1 <=? 1)%nat eqn:LE; [discriminate|]. apply Nat.leb_gt in LE. destruct (returned _) as [c|] eqn:RR; [|discriminate]. cbn [obind] in H.
  destruct (Req_EM_T c 0); [discriminate|]. injection H as <-. assert (T0 : 0 <= tol) by lra.
  destruct (solved brentq tol BQ _ _ _ _ _ T0 RR) as [v [V B]]. unfold marginal_merit in V. apply maximum_spec in V. destruct V as [V1 V2].
  assert (RL : length (firstn (length radii - 1 - 1) (tl radii)) = (length radii - 2)%nat). { rewrite firstn_length_le; [lia|]. destruct radii; cbn in *; lia. }
  assert (AT : forall i, (1 <= i < length radii - 1)%nat -> nth_error (excesses (marginal yp z (c * p)) (firstn (length radii - 1 - 1) (tl radii))) (i - 1) =
            Some (excess (List.nth (i - 1) (marginal yp z (c * p)) None) (List.nth i radii None))).
  { intros i I. unfold excesses. refine (map_nth_error (fun hr => excess (fst hr) (snd hr)) (i - 1) _ (d := (List.nth (i - 1) (marginal yp z (c * p)) None, List.nth i radii None)) _). rewrite (nth_error_nth' _ (None, None)).
    - rewrite combine_nth_gen by (rewrite ?ML, ?RL; lia). f_equal. f_equal. rewrite nth_firstn_lt by lia. rewrite nth_tl. f_equal. lia.
    - rewrite combine_length, RL, ML. lia. }
  assert (BB : - tol <= v <= tol) by (unfold Rabs in B; destruct (Rcase_abs v); lra). clear B; rename BB into B. split.
  - intros i r I RD. specialize (AT i I). rewrite RD in AT. apply nth_error_In in AT. destruct (V1 _ AT) as [w [W L]]. apply excess_spec in W. destruct W as [x [y [E [N Q]]]].
    exists x, y. split; [auto|]. assert (0 <= r * r) by nra. assert (w * (r * r) <= tol * (r * r)) by (apply Rmult_le_compat_r; lra). lra.
  - apply In_nth_error in V2. destruct V2 as [j J].
    assert (JL : (j < length radii - 2)%nat). { assert (Q : nth_error (excesses (marginal yp z (c * p)) (firstn (length radii - 1 - 1) (tl radii))) j <> None) by congruence.
      apply nth_error_Some in Q. unfold excesses in Q. rewrite map_length, combine_length, RL, ML in Q. lia. }
    specialize (AT (S j) ltac:(lia)). replace (S j - 1)%nat with j in AT by lia. rewrite J in AT. injection AT as AT. symmetry in AT.
    destruct (List.nth (S j) radii None) as [r|] eqn:RD.
    + apply excess_spec in AT. destruct AT as [x [y [E [N Q]]]]. exists (S j), r, x, y. split; [lia|]. split; [auto|]. replace (S j - 1)%nat with j by lia. split; [auto|].
      assert (0 <= r * r) by nra. assert (- tol * (r * r) <= v * (r * r)) by (apply Rmult_le_compat_r; lra). lra.
    + unfold excess in AT. destruct (List.nth j (marginal yp z (c * p)) None); [|discriminate]. cbn in AT. injection AT as AT. lra.
Qed.
(** finding: given explicitly, the stop index means one surface less for marginal rays *)
Theorem C40_explicit_stop_refuted : exists marginal brentq sys_stop radii yp,
  aim_marginal marginal brentq true sys_stop radii yp 0 2 NoStop (1/1000) 3 = Some 2 /\
  aim_marginal marginal brentq true sys_stop radii yp 0 2 (At sys_stop) (1/1000) 3 = Some 1.
Proof.
  exists (fun _ _ a => [Some (0, a); Some (0, a); Some (0, a)]), (fun _ _ _ => Some (1/2)), 2%nat, [None; Some 1; Some 2; None], (0, 1).
  assert (F : forall x y, y <> 0 -> fdiv x y = Some (x / y)) by (intros; apply fdiv_some; auto).
  split; unfold aim_marginal; (destruct (Req_EM_T 2 0); [lra|]); cbn [negb andb Nat.leb].
  - assert (M : marginal_merit (fun _ _ a => [Some (0, a); Some (0, a); Some (0, a)]) [None; Some 1; Some 2; None] false (0, 1) 0 2 3 1 = Some 0).
    { unfold marginal_merit, excesses. cbn -[fdiv]. rewrite F by lra. cbn. f_equal. field. }
    unfold solve_brentq. cbn [widen]. rewrite M. assert (W : within (Some 0) (1/1000) = true) by (apply within_true; exists 0; split; [auto|rewrite Rabs_R0; lra]). rewrite W.
    cbn [returned obind]. destruct (Req_EM_T 1 0); [lra|]. f_equal. lra.
  - assert (M : forall a, marginal_merit (fun _ _ a => [Some (0, a); Some (0, a); Some (0, a)]) [None; Some 1; Some 2; None] false (0, 1) 0 2 2 a = Some (4 * a * a - 1)).
    { intros a. unfold marginal_merit, excesses. cbn -[fdiv]. rewrite F by lra. cbn. f_equal. field. }
    unfold solve_brentq. cbn [widen]. rewrite !M.
    assert (W1 : within (Some (4 * 1 * 1 - 1)) (1/1000) = false) by (unfold within; destruct (Rle_dec _ _) as [H|]; [rewrite Rabs_right in H by lra; lra|auto]).
    rewrite W1. destruct (Rlt_dec (4 * 1 * 1 - 1) 0); [lra|]. cbn [Nat.eqb]. rewrite M.
    assert (W0 : within (Some (4 * 0 * 0 - 1)) (1/1000) = false) by (unfold within; destruct (Rle_dec _ _) as [H|]; [rewrite Rabs_left in H by lra; lra|auto]).
    rewrite W0. destruct (Rlt_dec (4 * 0 * 0 - 1) 0); [|lra]. cbn [returned obind]. destruct (Req_EM_T (1/2) 0); [lra|]. f_equal. lra.
Qed.
(** a chief ray ends where its stop point is perpendicular to the field, to tol * radius *)
Theorem C40_chief chief newton tol sys_stop radii yo z p maxiter z' rad :
  (forall f a r, newton f a = Some r -> exists v, f r = Some v /\ Rabs v <= tol) ->
  List.nth sys_stop radii None = Some rad -> aim_chief chief newton false true sys_stop radii yo z p NoStop tol maxiter = Some z' ->
  exists x y, chief sys_stop z' = Some (x, y) /\ Rabs (fst yo * x + snd yo * y) <= tol * Rabs rad.
Proof.
  intros NW RD H. unfold aim_chief in H. destruct (Req_EM_T p 0); [discriminate|]. cbn [orb negb] in H. rewrite RD in H.
  destruct (solve_newton _ _ 0 tol maxiter) as [a|] eqn:E; [|discriminate]. cbn [obind] in H. injection H as <-.
  assert (K : exists v, chief_merit chief yo z p rad sys_stop a = Some v /\ Rabs v <= tol).
  { apply C40_newton in E. destruct E as [[f [F L]]|[x [f [F [L N]]]]]; [eauto|]. eapply NW; eauto. }
  destruct K as [v [V L]]. unfold chief_merit in V. destruct (chief sys_stop (z + a * p)) as [[x y]|]; [|discriminate]. cbn [obind fst snd] in V. exists x, y. split; [auto|].
  apply fdiv_inv in V. destruct V as [N ->]. replace (fst yo * x + snd yo * y) with ((fst yo * x + snd yo * y) / rad * rad) by (field; auto). rewrite Rabs_mult.
  apply Rmult_le_compat_r; [apply Rabs_pos|auto].
Qed.
(** so in a symmetric system (stop point along the field direction) it passes the centre of the stop to tol * radius / field *)
Theorem C40_chief_symmetric chief newton tol sys_stop radii yo z p maxiter z' rad c :
  (forall f a r, newton f a = Some r -> exists v, f r = Some v /\ Rabs v <= tol) ->
  List.nth sys_stop radii None = Some rad -> aim_chief chief newton false true sys_stop radii yo z p NoStop tol maxiter = Some z' ->
  chief sys_stop z' = Some (c * fst yo, c * snd yo) ->
  Rabs c * (fst yo * fst yo + snd yo * snd yo) <= tol * Rabs rad.
Proof.
  intros NW RD H SY. destruct (C40_chief _ _ _ _ _ _ _ _ _ _ _ NW RD H) as [x [y [E L]]]. rewrite SY in E. injection E as <- <-.
  replace (fst yo * (c * fst yo) + snd yo * (c * snd yo)) with (c * (fst yo * fst yo + snd yo * snd yo)) in L by ring. rewrite Rabs_mult in L.
  rewrite (Rabs_right (fst yo * fst yo + snd yo * snd yo)) in L by nra. auto.
Qed.
(** finding: the tolerance is not divided by the field: at small fields any ray is good enough *)
Theorem C40_small_field_refuted : exists chief newton radii yo z',
  aim_chief chief newton false true 1 radii yo 0 1 NoStop (1/1000) 30 = Some z' /\ chief 1%nat z' = Some (0, 1/2) /\ List.nth 1 radii None = Some 1 /\ snd yo = 1/1000.
Proof.
  exists (fun _ z => Some (0, 1/2 + z)), (fun _ _ => None), [None; Some 1; None], (0, 1/1000), (0 + 0 * 1).
  split; [|split; [do 2 f_equal; lra|auto]]. unfold aim_chief. destruct (Req_EM_T 1 0); [lra|]. cbn [orb negb List.nth].
  unfold solve_newton, find_start. unfold chief_merit at 1. cbn [obind fst snd]. rewrite fdiv_some by lra. cbn [obind fst snd].
  match goal with |- context[within (Some ?v) ?t] => assert (W : within (Some v) t = true) end.
  { apply within_true. eexists. split; [reflexivity|]. rewrite Rabs_right; lra. }
  rewrite W. reflexivity.
Qed.
(** without aiming nothing is changed *)
Theorem C40_no_aiming chief marginal newton brentq telecentric sys_stop radii yo yp z p stop tol maxiter : p <> 0 -> stop <> Rim ->
  aim_chief chief newton telecentric false sys_stop radii yo z p stop tol maxiter = Some z /\
  aim_marginal marginal brentq false sys_stop radii yp z p stop tol maxiter = Some p.
Proof.
  intros P S. unfold aim_chief, aim_marginal. destruct (Req_EM_T p 0); [contradiction|]. rewrite orb_true_r. split; [auto|]. destruct stop; [auto|contradiction|auto].
Qed.

(** the pupil: every edge is the solution for its own direction, below and left negative, above and right positive *)
Lemma marginal_sign marginal brentq aiming sys_stop radii yp z p stop tol maxiter a :
  (forall f a b r, brentq f a b = Some r -> Rmin a b <= r <= Rmax a b) ->
  aim_marginal marginal brentq aiming sys_stop radii yp z p stop tol maxiter = Some a -> (0 < p -> 0 < a) /\ (p < 0 -> a < 0).
Proof.
  intros BT H. unfold aim_marginal in H. destruct (Req_EM_T p 0); [discriminate|]. destruct (negb aiming && _)%bool; [injection H as <-; auto|].
  set (k := match stop with NoStop => S sys_stop | Rim => (length radii - 1)%nat | At k => k end) in H. destruct (k <=? 1)%nat; [discriminate|].
  match type of H with (do a <- returned (solve_brentq ?g _ _ _ _ _); _) = _ => set (f := g) in H end.
  pose proof (C40_positive f (brentq f) 0 1 tol maxiter ltac:(lra) ltac:(lra)) as PO.
  destruct (solve_brentq f (brentq f) 0 1 tol maxiter) as [c|x y r| | |] eqn:E; try discriminate; cbn [returned obind] in H.
  - destruct (Req_EM_T c 0); [discriminate|]. injection H as <-. split; intros; [apply Rmult_lt_0_compat; lra|]. nra.
  - destruct r as [c|] eqn:RE; [|discriminate]. cbn [obind] in H. destruct (Req_EM_T c 0); [discriminate|]. injection H as <-.
    assert (C : 0 <= c).
    { assert (B : brentq f x y = Some c).
      { unfold solve_brentq in E. destruct maxiter; [discriminate|]. destruct (widen f tol 0 (S maxiter) 0 1) as [|i u v|]; try discriminate. destruct (Nat.eqb i maxiter); [discriminate|].
        destruct (within (f u) tol); [discriminate|]. destruct (f u) as [w|]; [|discriminate]. destruct (Rlt_dec w 0); [|discriminate]. injection E as <- <- E. auto. }
      apply BT in B. destruct PO as [X Y]. unfold Rmin in B. destruct (Rle_dec x y); lra. }
    split; intros; [apply Rmult_lt_0_compat; lra|]. nra.
Qed.
Theorem C40_pupil chief marginal newton brentq telecentric aiming sys_stop radii finite guess yo axial z a stop tol maxiter z' b :
  (forall f a b r, brentq f a b = Some r -> Rmin a b <= r <= Rmax a b) ->
  0 < a11 a -> 0 < a10 a ->
  aim_pupil chief marginal newton brentq telecentric aiming sys_stop radii finite guess yo axial z a stop tol maxiter = Some (z', b) ->
  a00 b < 0 /\ a01 b < 0 /\ 0 < a10 b /\ 0 < a11 b /\
  (forall yp e, In (yp, e) [((0, 1), a11 b); ((0, -1), a01 b); ((1, 0), a10 b); ((-1, 0), a00 b)] ->
     exists p, aim_marginal marginal brentq aiming sys_stop radii yp z' p stop tol maxiter = Some e).
Proof.
  intros BT P1 P0 H. unfold aim_pupil in H.
  match type of H with (do za <- ?e; _) = _ => destruct e as [[z1 a1]|] eqn:Z; [|discriminate] end. cbn [obind fst snd] in H.
  assert (Q : 0 <= a11 a1 /\ 0 <= a10 a1).
  { destruct axial; [injection Z as <- <-; lra|]. destruct (aim_chief _ _ _ _ _ _ _ _ _ _ _ _) as [z2|]; [|discriminate]. cbn [obind] in Z. destruct finite; [|injection Z as <- <-; lra].
    destruct (fdiv z2 z) as [q|]; [|discriminate]. cbn [obind] in Z. injection Z as <- <-. cbn [a11 a10]. pose proof (Rabs_pos q). split; apply Rmult_le_pos; lra. }
  assert (NZ : forall yp z p t, aim_marginal marginal brentq aiming sys_stop radii yp z p stop tol maxiter = Some t -> p <> 0).
  { intros yp z0 p t A ->. unfold aim_marginal in A. destruct (Req_EM_T 0 0); [discriminate|contradiction]. }
  destruct (aim_marginal marginal brentq aiming sys_stop radii (0, 1) z1 (a11 a1) stop tol maxiter) as [t1|] eqn:T1; [|discriminate]. cbn [obind] in H.
  pose proof (NZ _ _ _ _ T1). destruct (marginal_sign _ _ _ _ _ _ _ _ _ _ _ _ BT T1) as [S1 _]. specialize (S1 ltac:(lra)).
  set (a2 := if guess then Box (a00 a1) (- t1) (a10 a1) t1 else Box (- t1) (- t1) t1 t1) in H.
  assert (A2 : a01 a2 = - t1 /\ a11 a2 = t1 /\ 0 <= a10 a2) by (subst a2; destruct guess; cbn; repeat split; lra). destruct A2 as [A2 [A2' A2'']].
  destruct (aim_marginal marginal brentq aiming sys_stop radii (0, -1) z1 (a01 a2) stop tol maxiter) as [t2|] eqn:T2; [|discriminate]. cbn [obind a00 a01 a10 a11] in H.
  destruct (marginal_sign _ _ _ _ _ _ _ _ _ _ _ _ BT T2) as [_ S2]. specialize (S2 ltac:(lra)).
  destruct (aim_marginal marginal brentq aiming sys_stop radii (1, 0) z1 (a10 a2) stop tol maxiter) as [t3|] eqn:T3; [|discriminate]. cbn [obind a00 a01 a10 a11] in H.
  pose proof (NZ _ _ _ _ T3). destruct (marginal_sign _ _ _ _ _ _ _ _ _ _ _ _ BT T3) as [S3 _]. specialize (S3 ltac:(lra)).
  destruct (aim_marginal marginal brentq aiming sys_stop radii (-1, 0) z1 (- t3) stop tol maxiter) as [t4|] eqn:T4; [|discriminate]. cbn [obind a00 a01 a10 a11] in H. injection H as <- <-. cbn [a00 a01 a10 a11].
  destruct (marginal_sign _ _ _ _ _ _ _ _ _ _ _ _ BT T4) as [_ S4]. specialize (S4 ltac:(lra)). rewrite A2'.
  repeat split; try lra. intros yp e [I|[I|[I|[I|[]]]]]; injection I as <- <-; eauto.
Qed.
Example C40_example : exists chief marginal newton brentq b,
  (forall f a b r, brentq f a b = Some r -> Rmin a b <= r <= Rmax a b) /\
  aim_pupil chief marginal newton brentq false false 1 [None; Some 1; None] false false (0, 1) false 5 (Box 2 2 2 2) NoStop (1/1000) 30 = Some (5, b) /\ a01 b = -2 /\ a10 b = 2.
Proof.
  exists (fun _ _ => None), (fun _ _ _ => []), (fun _ _ => None), (fun _ _ _ => None), (Box (-2) (-2) 2 2). split; [discriminate|]. split; [|cbn; lra].
  assert (C : forall p, p <> 0 -> aim_chief (fun _ _ => None) (fun _ _ => None) false false 1 [None; Some 1; None] (0, 1) 5 p NoStop (1/1000) 30 = Some 5).
  { intros p P. unfold aim_chief. destruct (Req_EM_T p 0); [contradiction|auto]. }
  assert (M : forall yp p, p <> 0 -> aim_marginal (fun _ _ _ => []) (fun _ _ _ => None) false 1 [None; Some 1; None] yp 5 p NoStop (1/1000) 30 = Some p).
  { intros yp p P. unfold aim_marginal. destruct (Req_EM_T p 0); [contradiction|auto]. }
  unfold aim_pupil. cbn [a00 a01 a10 a11]. rewrite C.
  2:{ rewrite (Rabs_right 2) by lra. rewrite !Rmax_left by lra. lra. }
  cbn [obind fst snd a00 a01 a10 a11]. rewrite M by lra. cbn [obind fst snd a00 a01 a10 a11]. rewrite M by lra. cbn [obind fst snd a00 a01 a10 a11].
  rewrite M by lra. cbn [obind fst snd a00 a01 a10 a11]. rewrite M by lra. cbn [obind fst snd a00 a01 a10 a11]. repeat f_equal; lra.
Qed.
(** root finders with the contracts exist; this one is used on a real bracket *)
Example C40_marginal_example : let brentq := fun (f : R -> option R) a b => if within (f ((a + b) / 2)) (1/1000) then Some ((a + b) / 2) else None in
  (forall f a b r, brentq f a b = Some r -> exists v, f r = Some v /\ Rabs v <= 1/1000) /\
  (forall f a b r, brentq f a b = Some r -> Rmin a b <= r <= Rmax a b) /\
  aim_marginal (fun _ _ a => [Some (0, a); Some (0, a)]) brentq true 1 [None; Some 1; None] (0, 1) 0 2 NoStop (1/1000) 3 = Some 1.
Proof.
  intros brentq. split; [|split].
  - intros f a b r H. unfold brentq in H. destruct (within (f ((a + b) / 2)) (1/1000)) eqn:W; [|discriminate]. injection H as <-. apply within_true in W. auto.
  - intros f a b r H. unfold brentq in H. destruct (within (f ((a + b) / 2)) (1/1000)); [|discriminate]. injection H as <-. unfold Rmin, Rmax. destruct (Rle_dec a b); lra.
  - unfold aim_marginal. destruct (Req_EM_T 2 0); [lra|]. cbn [negb andb Nat.leb].
    assert (M : forall a, marginal_merit (fun _ _ a => [Some (0, a); Some (0, a)]) [None; Some 1; None] false (0, 1) 0 2 2 a = Some (4 * a * a - 1)).
    { intros a. unfold marginal_merit, excesses. cbn -[fdiv]. rewrite fdiv_some by lra. cbn. f_equal. field. }
    unfold solve_brentq. cbn [widen]. rewrite !M.
    assert (W1 : within (Some (4 * 1 * 1 - 1)) (1/1000) = false) by (unfold within; destruct (Rle_dec _ _) as [H|]; [rewrite Rabs_right in H by lra; lra|auto]).
    rewrite W1. destruct (Rlt_dec (4 * 1 * 1 - 1) 0); [lra|]. cbn [Nat.eqb]. rewrite M.
    assert (W0 : within (Some (4 * 0 * 0 - 1)) (1/1000) = false) by (unfold within; destruct (Rle_dec _ _) as [H|]; [rewrite Rabs_left in H by lra; lra|auto]).
    rewrite W0. destruct (Rlt_dec (4 * 0 * 0 - 1) 0); [|lra]. unfold brentq. rewrite M.
    assert (W2 : within (Some (4 * ((0 + 1) / 2) * ((0 + 1) / 2) - 1)) (1/1000) = true).
    { apply within_true. eexists. split; [reflexivity|]. replace (4 * ((0 + 1) / 2) * ((0 + 1) / 2) - 1) with 0 by field. rewrite Rabs_R0. lra. }
    rewrite W2. cbn [returned obind]. destruct (Req_EM_T ((0 + 1) / 2) 0); [lra|]. f_equal. lra.
Qed.
Print Assumptions C40_newton_start.
Print Assumptions C40_newton.
Print Assumptions C40_bracket.
Print Assumptions C40_assertion.
Print Assumptions C40_positive.
Print Assumptions C40_last_round_refuted.
Print Assumptions C40_marginal_at_stop.
Print Assumptions C40_marginal_at_rim.
Print Assumptions C40_explicit_stop_refuted.
Print Assumptions C40_chief.
Print Assumptions C40_chief_symmetric.
Print Assumptions C40_small_field_refuted.
Print Assumptions C40_no_aiming.
Print Assumptions C40_pupil.
