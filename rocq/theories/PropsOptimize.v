(** Properties of the optimiser front end (C37). *)
From Coq Require Import String ZArith Reals Bool Lia Lra List.
From Verif Require Import Base PathModel OptimizeModel PropsPath.
Import ListNotations.
Open Scope list_scope.

Definition places (vars : list variable) : list path := map v_path vars.

(** [up] puts the scaled values into the variables and leaves the rest *)
Lemma up_spec vars : forall x s s', scattered (places vars) -> up vars x s = Some s' ->
  length x = length vars /\
  (forall i v xi, nth_error vars i = Some v -> nth_error x i = Some xi -> get_path s' (v_path v) = Some (Num (xi * v_scale v)%R)) /\
  (forall q, (forall v, In v vars -> diverge (v_path v) q) -> get_path s' q = get_path s q).
Proof.
  induction vars as [|v vars IH]; intros [|xi x] s s' S H; cbn in H; try discriminate.
  - injection H as <-. split; [auto|]. split; [intros [|i]; discriminate|auto].
  - destruct (set_path s (v_path v) (Num (xi * v_scale v))) as [s1|] eqn:E; [|discriminate]. cbn in H.
    inversion S as [|? ? N D S']; subst. destruct (IH x s1 s' S' H) as [L [A B]]. split; [cbn; auto|]. split.
    + intros [|i] w y W Y; cbn in W, Y; [|eapply A; eauto]. injection W as <-. injection Y as <-. rewrite B; [eapply C39_get_set; eauto|].
      intros u U. apply diverge_sym, D. apply in_map. auto.
    + intros q Q. rewrite B by (intros; apply Q; right; auto). eapply C39_get_other; eauto. apply Q. left. auto.
Qed.
Lemma up_agree vars : forall x s s', scattered (places vars) -> agree (places vars) s s' -> up vars x s = up vars x s'.
Proof.
  induction vars as [|v vars IH]; intros [|xi x] s s' S A; cbn; auto.
  - destruct A as [_ [_ E]]. exact E.
  - pose proof S as S0. inversion S as [|? ? N D S']; subst. pose proof A as [P [P' E]].
    destruct (set_some s (v_path v) (Num (xi * v_scale v)) N (P _ (or_introl eq_refl))) as [s1 E1].
    destruct (set_some s' (v_path v) (Num (xi * v_scale v)) N (P' _ (or_introl eq_refl))) as [s1' E1']. rewrite E1, E1'. cbn. apply IH; auto.
    eapply agree_step; eauto.
Qed.
Lemma up_within vars : forall W x s s', scattered W -> present s W -> (forall p, In p (places vars) -> In p W) -> up vars x s = Some s' -> agree W s s'.
Proof.
  induction vars as [|v vars IH]; intros W [|xi x] s s' S P I H; cbn in H; try discriminate.
  - injection H as <-. split; auto.
  - destruct (set_path s (v_path v) (Num (xi * v_scale v))) as [s1|] eqn:E; [|discriminate]. cbn in H.
    assert (A : agree W s s1) by (eapply agree_set; eauto; apply I; left; auto).
    eapply agree_trans; [exact A|]. eapply IH; eauto; [apply A|]. intros p J. apply I. right. auto.
Qed.

(** * C37 *)
(** the ideal: every request answered from the original system with the variables set, no cache *)
Definition evaluate (vars : list variable) (ops : list operand) (s0 : val) (x : list R) : option (list (list R)) :=
  do s <- up vars x s0; values ops s.
Fixpoint ideal (vars : list variable) (ops : list operand) (s0 : val) (m : minimizer) : option (list R * list (list R * list (list R))) :=
  match m with
  | Stop x => Some (x, [])
  | GiveUp => None
  | Ask q next =>
      do v <- evaluate vars ops s0 (query_point q);
      do r <- ideal vars ops s0 (next (respond ops q v));
      Some (fst r, match q with QTrace x => (scaled vars x, v) :: snd r | _ => snd r end)
  end.
Definition Inv vars ops s0 st := agree (places vars) s0 (st_system st) /\ forall x v, In (x, v) (st_cache st) -> evaluate vars ops s0 x = Some v.
Lemma find_in x c v : find x c = Some v -> In (x, v) c.
Proof. induction c as [|[y w] c IH]; cbn; [discriminate|]. destruct (list_eq_dec Req_EM_T x y); [intros H; injection H as <-; subst; auto|auto]. Qed.
Lemma drop_in x c e : In e (drop x c) -> In e c.
Proof. induction c as [|[y w] c IH]; cbn; [auto|]. destruct (list_eq_dec Req_EM_T x y); cbn; [auto|]. intros [H|H]; auto. Qed.
Lemma firstn_in {A} n (l : list A) e : In e (firstn n l) -> In e l.
Proof. intros H. rewrite <- (firstn_skipn n l). apply in_app_iff. auto. Qed.
Lemma ex_ideal vars ops s0 st x : scattered (places vars) -> Inv vars ops s0 st ->
  match ex vars ops st x with
  | Some (v, st') => evaluate vars ops s0 x = Some v /\ Inv vars ops s0 st' /\ st_trace st' = st_trace st
  | None => evaluate vars ops s0 x = None
  end.
Proof.
  intros S [A C]. unfold ex. destruct (find x (st_cache st)) as [v|] eqn:F.
  - apply find_in in F. split; [auto|]. split; [|auto]. split; [auto|]. cbn. intros y w [E|I]; [injection E as <- <-; auto|]. apply C. eapply drop_in; eauto.
  - unfold evaluate. rewrite (up_agree vars x s0 (st_system st) S A). destruct (up vars x (st_system st)) as [s1|] eqn:U; cbn [obind]; [|auto].
    destruct (values ops s1) as [v|] eqn:V; cbn [obind]; [|auto]. split; [auto|]. split; [|auto]. split.
    + eapply agree_trans; [exact A|]. eapply up_within; eauto. apply A.
    + cbn [st_cache]. intros y w I. apply firstn_in in I. destruct I as [E|I]; [|auto]. injection E as <- <-. unfold evaluate.
      rewrite (up_agree vars x s0 (st_system st) S A), U. auto.
Qed.
Lemma run_ideal vars ops s0 : scattered (places vars) -> forall m st, Inv vars ops s0 st ->
  match run vars ops m st with
  | Some (x, st') => exists t, ideal vars ops s0 m = Some (x, t) /\ st_trace st' = st_trace st ++ t /\ agree (places vars) s0 (st_system st')
  | None => ideal vars ops s0 m = None
  end.
Proof.
  intros S. induction m as [x| |q next IH]; intros st I; cbn [run ideal].
  - exists []. rewrite app_nil_r. split; [auto|]. split; [auto|apply I].
  - auto.
  - pose proof (ex_ideal vars ops s0 st (query_point q) S I) as E. destruct (ex vars ops st (query_point q)) as [[v st1]|]; [|rewrite E; reflexivity].
    destruct E as [EV [I1 T1]]. rewrite EV. cbn [obind fst snd].
    match goal with |- context[run vars ops (next (respond ops q v)) ?t] => set (st2 := t) end.
    assert (I2 : Inv vars ops s0 st2) by (subst st2; destruct q; auto).
    assert (T2 : st_trace st2 = st_trace st ++ match q with QTrace x => [(scaled vars x, v)] | _ => [] end).
    { subst st2. destruct q; cbn [st_trace]; rewrite ?app_nil_r, ?T1; auto. }
    specialize (IH (respond ops q v) st2 I2). destruct (run vars ops (next (respond ops q v)) st2) as [[x st3]|]; [|rewrite IH; reflexivity].
    destruct IH as [t [E [T A]]]. rewrite E. cbn [obind fst snd]. eexists. split; [reflexivity|]. split; [|auto]. rewrite T, T2, <- app_assoc. destruct q; reflexivity.
Qed.

Lemma optimize_parts vars ops m s r : optimize vars ops m s = Some r -> exists x0 x1 st,
  start_values vars s = Some x0 /\ scaled_start vars = Some x1 /\ run vars ops (m x1 (map scaled_bounds vars)) (State s [] []) = Some (r_x r, st) /\
  r_x0 r = x0 /\ r_system r = st_system st /\ r_trace r = st_trace st.
Proof.
  unfold optimize. destruct vars as [|v0 vs]; [intros H; discriminate H|]. destruct ops as [|o0 os]; [intros H; discriminate H|]. set (vars := v0 :: vs). set (ops := o0 :: os).
  destruct (start_values vars s) as [x0|]; [|intros H; discriminate H]. cbn [obind]. destruct (scaled_start vars) as [x1|]; [|intros H; discriminate H]. cbn [obind].
  destruct (collect get_objective 0 ops); [intros H; discriminate H|]. destruct (run vars ops (m x1 (map scaled_bounds vars)) (State s [] [])) as [[x st]|] eqn:E; [|intros H; discriminate H].
  cbn [obind fst snd]. intros H. injection H as <-. exists x0, x1, st. auto 10.
Qed.
Lemma optimize_agree vars ops m s r : scattered (places vars) -> present s (places vars) -> optimize vars ops m s = Some r -> agree (places vars) s (r_system r).
Proof.
  intros S P H. destruct (optimize_parts _ _ _ _ _ H) as [x0 [x1 [st [A [B [C [D [E F]]]]]]]]. pose proof (run_ideal vars ops s S (m x1 (map scaled_bounds vars)) (State s [] [])) as R.
  rewrite C in R. destruct R as [t [_ [_ G]]]; [split; [split; auto|intros ? ? []]|]. rewrite E. auto.
Qed.

(** the optimiser sees, and records, exactly the ideal values: the cache and the order of
    evaluations cannot be noticed *)
Theorem C37_evaluations vars ops m s r : scattered (places vars) -> present s (places vars) -> optimize vars ops m s = Some r ->
  exists x1, length x1 = length vars /\ (forall i v d, nth_error vars i = Some v -> nth_error x1 i = Some d -> (d * v_scale v)%R = v_init v) /\
  ideal vars ops s (m x1 (map scaled_bounds vars)) = Some (r_x r, r_trace r).
Proof.
  intros S P H. destruct (optimize_parts _ _ _ _ _ H) as [x0 [x1 [st [A [X1 [C [D [E F]]]]]]]]. exists x1.
  assert (K : length x1 = length vars /\ (forall i v d, nth_error vars i = Some v -> nth_error x1 i = Some d -> (d * v_scale v)%R = v_init v)).
  { clear - X1. revert x1 X1. induction vars as [|v vars IH]; intros x1 X1; [injection X1 as <-; split; [auto|intros [|]; discriminate]|].
    cbn in X1. fold (scaled_start vars) in X1. destruct (fdiv (v_init v) (v_scale v)) as [d|] eqn:D; [|discriminate]. cbn [obind] in X1.
    destruct (scaled_start vars) as [r|]; [|discriminate]. cbn [obind] in X1. injection X1 as <-.
    destruct (IH r eq_refl) as [A B]. split; [cbn; auto|]. apply fdiv_inv in D. destruct D as [N ->]. intros [|i] w e W E; cbn in W, E; [|eapply B; eauto].
    injection W as <-. injection E as <-. field. auto. }
  destruct K as [K1 K2]. split; [auto|]. split; [auto|].
  pose proof (run_ideal vars ops s S (m x1 (map scaled_bounds vars)) (State s [] [])) as R. rewrite C in R.
  destruct R as [t [I [T _]]]; [split; [split; auto|intros ? ? []]|]. cbn in T. rewrite F, T. auto.
Qed.

Lemma start_spec vars : forall s x0, scattered (places vars) -> start_values vars s = Some x0 -> up vars x0 s = Some s.
Proof.
  induction vars as [|v vars IH]; intros s x0 S H.
  - cbn in H. injection H as <-. auto.
  - cbn in H. destruct (v_get s (v_path v)) as [x|] eqn:G; [|discriminate]. cbn [obind] in H. destruct (fdiv x (v_scale v)) as [d|] eqn:D; [|discriminate]. cbn [obind] in H.
    fold (start_values vars s) in H. destruct (start_values vars s) as [r|] eqn:E; [|discriminate]. cbn [obind] in H. injection H as <-. cbn.
    inversion S as [|? ? N _ S']; subst. apply fdiv_inv in D. destruct D as [Z ->]. replace (x / v_scale v * v_scale v)%R with x by (field; auto).
    unfold v_get in G. destruct (get_path s (v_path v)) as [[|y|]|] eqn:GP; try discriminate. cbn in G. injection G as ->. rewrite (C39_set_get _ _ _ N GP). cbn. auto.
Qed.
(** whatever was evaluated, rejecting gives back the original system itself ... *)
Theorem C37_reject vars ops m s r : scattered (places vars) -> present s (places vars) -> optimize vars ops m s = Some r -> reject vars r = Some s.
Proof.
  intros S P H. pose proof (optimize_agree _ _ _ _ _ S P H) as G. destruct (optimize_parts _ _ _ _ _ H) as [x0 [x1 [st [A [X1 [C [D [E F]]]]]]]].
  unfold reject. rewrite <- (up_agree vars (r_x0 r) s (r_system r) S G), D. apply start_spec; auto.
Qed.
(** ... and accepting gives the original with only the variables set to the result *)
Theorem C37_accept vars ops m s r s' : scattered (places vars) -> present s (places vars) -> optimize vars ops m s = Some r -> accept vars r = Some s' ->
  length (r_x r) = length vars /\
  (forall i v xi, nth_error vars i = Some v -> nth_error (r_x r) i = Some xi -> get_path s' (v_path v) = Some (Num (xi * v_scale v)%R)) /\
  (forall q, (forall v, In v vars -> diverge (v_path v) q) -> get_path s' q = get_path s q) /\
  up vars (r_x r) s = Some s'.
Proof.
  intros S P H AC. pose proof (optimize_agree _ _ _ _ _ S P H) as A.
  unfold accept in AC. rewrite <- (up_agree vars (r_x r) s (r_system r) S A) in AC. destruct (up_spec _ _ _ _ S AC) as [L [B C]]. auto.
Qed.

(** what the values mean *)
Lemma values_spec ops : forall s v, values ops s = Some v -> Forall2 (fun o r => op_get o s = Some r) ops v.
Proof.
  induction ops as [|o ops IH]; intros s v H; cbn in H; [injection H as <-; constructor|]. destruct (op_get o s) as [r|] eqn:E; [|discriminate]. cbn in H.
  destruct (values ops s) as [rs|] eqn:F; [|discriminate]. cbn in H. injection H as <-. constructor; auto.
Qed.
Lemma gather_in f : forall ops pre v y, length v = length ops ->
  In y (gather (collect f (length pre) ops) (pre ++ v)) <-> exists o r g x, In (o, r) (combine ops v) /\ In g (f o) /\ In x r /\ y = g x.
Proof.
  unfold gather. induction ops as [|o ops IH]; intros pre v y L; cbn.
  - split; [intros []|]. intros [o [r [g [x [[] _]]]]].
  - destruct v as [|r v]; [discriminate|]. cbn in L. rewrite flat_map_app, in_app_iff. replace (pre ++ r :: v) with ((pre ++ [r]) ++ v) by (rewrite <- app_assoc; auto).
    replace (S (length pre)) with (length (pre ++ [r])) by (rewrite app_length; cbn; lia). rewrite IH by lia.
    assert (H : In y (flat_map (fun ig => map (snd ig) (List.nth (fst ig) ((pre ++ [r]) ++ v) [])) (map (fun g => (length pre, g)) (f o))) <-> exists g x, In g (f o) /\ In x r /\ y = g x).
    { rewrite in_flat_map. split.
      - intros [[i g] [I M]]. rewrite in_map_iff in I. destruct I as [g' [E I]]. injection E as <- <-. cbn in M. rewrite <- app_assoc, app_nth2, Nat.sub_diag in M by lia. cbn in M.
        apply in_map_iff in M. destruct M as [x [E X]]. exists g', x. auto.
      - intros [g [x [G [X ->]]]]. exists (length pre, g). split; [apply in_map; auto|]. cbn. rewrite <- app_assoc, app_nth2, Nat.sub_diag by lia. cbn. apply in_map. auto. }
    rewrite H. clear H. split.
    + intros [[g [x [G [X E]]]]|[o' [r' [g [x [I [G [X E]]]]]]]]; [exists o, r, g, x; split; [left|]; auto|exists o', r', g, x; split; [right|]; auto].
    + intros [o' [r' [g [x [[I|I] [G [X E]]]]]]]; [injection I as <- <-; left; eauto|right; eauto 10].
Qed.
Lemma gather_values f ops s v y : values ops s = Some v ->
  In y (gather (collect f 0 ops) v) <-> exists o r g x, In o ops /\ op_get o s = Some r /\ In g (f o) /\ In x r /\ y = g x.
Proof.
  intros H. apply values_spec in H. assert (L : length v = length ops) by (induction H; cbn; auto).
  rewrite (gather_in f ops [] v y L). split; intros [o [r [g [x [I R]]]]].
  - exists o, r, g, x. assert (op_get o s = Some r /\ In o ops) as [A B]; [|tauto]. clear - H I. induction H as [|a b l m E F IH]; cbn in I; [destruct I|].
    destruct I as [I|I]; [injection I as <- <-; split; [auto|left; auto]|]. destruct (IH I). split; [auto|right; auto].
  - exists o, r, g, x. split; [|tauto]. destruct R as [R _]. clear - H I R. induction H as [|a b l m E F IH]; [destruct I|]. cbn. destruct I as [->|I]; [left; congruence|right; auto].
Qed.
Lemma sum_squares_zero l : (0 <= sum_squares l)%R /\ (sum_squares l = 0%R <-> forall y, In y l -> y = 0%R).
Proof.
  induction l as [|x l [P Z]]; [cbn; split; [lra|split; [intros _ y []|auto]]|]. change (sum_squares (x :: l)) with (x * x + sum_squares l)%R. cbn [In]. pose proof (Rle_0_sqr x) as Q. unfold Rsqr in Q. split; [lra|]. split.
  - intros E y [<-|I]; [|apply Z; [lra|auto]]. assert (x * x = 0)%R by lra. apply Rmult_integral in H. tauto.
  - intros H. rewrite (H x (or_introl eq_refl)). assert (sum_squares l = 0)%R by (apply Z; auto). lra.
Qed.
(** the objective is never negative, and zero exactly when every operand with a weight is at its offset *)
Theorem C37_objective ops s v x : values ops s = Some v -> exists f, respond ops (QFun x) v = [f] /\ (0 <= f)%R /\
  (f = 0%R <-> forall o r w y, In o ops -> op_get o s = Some r -> op_weight o = Some w -> w <> 0%R -> In y r -> y = op_offset o).
Proof.
  intros V. eexists. split; [reflexivity|]. destruct (sum_squares_zero (gather (collect get_objective 0 ops) v)) as [P Z]. split; [auto|]. rewrite Z. split.
  - intros H o r w y O G W N Y. assert (E : (w * (y - op_offset o) = 0)%R).
    { apply H. apply (gather_values _ _ _ _ _ V). exists o, r, (fun y => w * (y - op_offset o))%R, y. unfold get_objective. rewrite W. destruct (Req_EM_T w 0); [contradiction|]. repeat split; auto. left. auto. }
    apply Rmult_integral in E. destruct E; [contradiction|lra].
  - intros H y Y. apply (gather_values _ _ _ _ _ V) in Y. destruct Y as [o [r [g [z [O [G [I [X ->]]]]]]]]. unfold get_objective in I. destruct (op_weight o) as [w|] eqn:W; [|destruct I].
    destruct (Req_EM_T w 0); [destruct I|]. destruct I as [<-|[]]. rewrite (H o r w z); auto. lra.
Qed.
(** all inequality values are non-negative exactly when every operand is within its limits *)
Theorem C37_inequality ops s v x : values ops s = Some v ->
  (forall y, In y (respond ops (QIneq x) v) -> (0 <= y)%R) <->
  (forall o r y, In o ops -> op_get o s = Some r -> In y r ->
     (forall a, op_min o = Some a -> (a <= y - op_offset o)%R) /\ (forall b, op_max o = Some b -> (y - op_offset o <= b)%R)).
Proof.
  intros V. cbn [respond]. split.
  - intros H o r y O G Y. split; intros a A.
    + assert (0 <= y - op_offset o - a)%R; [|lra]. apply H. apply (gather_values _ _ _ _ _ V). exists o, r, (fun v => v - op_offset o - a)%R, y. unfold get_inequality. rewrite A. repeat split; auto. left. auto.
    + assert (0 <= a - (y - op_offset o))%R; [|lra]. apply H. apply (gather_values _ _ _ _ _ V). exists o, r, (fun v => a - (v - op_offset o))%R, y. unfold get_inequality. rewrite A. repeat split; auto. apply in_app_iff. right. left. auto.
  - intros H y Y. apply (gather_values _ _ _ _ _ V) in Y. destruct Y as [o [r [g [z [O [G [I [X ->]]]]]]]]. destruct (H o r z O G X) as [A B]. unfold get_inequality in I. apply in_app_iff in I.
    destruct I as [I|I]; [destruct (op_min o) as [a|]|destruct (op_max o) as [b|]]; cbn in I; try contradiction; destruct I as [<-|[]]; [specialize (A _ eq_refl)|specialize (B _ eq_refl)]; lra.
Qed.
(** all equality values vanish exactly when every operand with equal limits is at its offset *)
Theorem C37_equality ops s v x : values ops s = Some v ->
  (forall y, In y (respond ops (QEq x) v) -> y = 0%R) <->
  (forall o r y a, In o ops -> op_get o s = Some r -> In y r -> op_min o = Some a -> op_max o = Some a -> y = op_offset o).
Proof.
  intros V. cbn [respond]. split.
  - intros H o r y a O G Y A B. assert (y - op_offset o = 0)%R; [|lra]. apply H. apply (gather_values _ _ _ _ _ V). exists o, r, (fun v => v - op_offset o)%R, y.
    unfold get_equality. rewrite A, B. destruct (Req_EM_T a a); [|contradiction]. repeat split; auto. left. auto.
  - intros H y Y. apply (gather_values _ _ _ _ _ V) in Y. destruct Y as [o [r [g [z [O [G [I [X ->]]]]]]]]. unfold get_equality in I.
    destruct (op_min o) as [a|] eqn:A, (op_max o) as [b|] eqn:B; cbn in I; try contradiction. destruct (Req_EM_T a b) as [<-|]; [|destruct I]. destruct I as [<-|[]]. rewrite (H o r z a); auto. lra.
Qed.
(** finding: equal limits other than 0 leave no feasible point at all *)
Theorem C37_equal_limits_refuted : forall ops s v o r y a, values ops s = Some v -> In o ops -> op_get o s = Some r -> In y r -> op_min o = Some a -> op_max o = Some a -> a <> 0%R ->
  forall x, ~ ((forall z, In z (respond ops (QEq x) v) -> z = 0%R) /\ (forall z, In z (respond ops (QIneq x) v) -> (0 <= z)%R)).
Proof.
  intros ops s v o r y a V O G Y A B N x [E I]. rewrite (C37_equality ops s v x V) in E. rewrite (C37_inequality ops s v x V) in I.
  specialize (E o r y a O G Y A B). destruct (I o r y O G Y) as [I1 I2]. specialize (I1 a A). specialize (I2 a B). subst. lra.
Qed.
(** bounds: for positive scales the scaled bounds say the same as the bounds *)
Definition ext_le (a b : ext) : Prop :=
  match a, b with MInf, _ => True | _, PInf => True | Fin x, Fin y => (x <= y)%R | _, _ => False end.
Theorem C37_bounds v x : (0 < v_scale v)%R ->
  (ext_le (fst (scaled_bounds v)) (Fin x) /\ ext_le (Fin x) (snd (scaled_bounds v))) <->
  (ext_le (v_lo v) (Fin (x * v_scale v)) /\ ext_le (Fin (x * v_scale v)) (v_hi v)).
Proof.
  intros S. unfold scaled_bounds. cbn [fst snd].
  assert (L : forall a, (a / v_scale v <= x <-> a <= x * v_scale v)%R).
  { intros a. replace a with (a / v_scale v * v_scale v)%R at 2 by (field; lra). split; intros H; [apply Rmult_le_compat_r; lra|eapply Rmult_le_reg_r; eauto]. }
  assert (G : forall a, (x <= a / v_scale v <-> x * v_scale v <= a)%R).
  { intros a. replace a with (a / v_scale v * v_scale v)%R at 2 by (field; lra). split; intros H; [apply Rmult_le_compat_r; lra|eapply Rmult_le_reg_r; eauto]. }
  destruct (v_lo v) as [|a|], (v_hi v) as [|b|]; cbn; destruct (Rlt_dec (v_scale v) 0); try lra; cbn; rewrite ?L, ?G; tauto.
Qed.
(** the default scale is positive for proper bounds *)
Theorem C37_default_scale s p lo hi init v : make_variable s p (Fin lo) (Fin hi) None init = Some v -> (lo < hi)%R -> (0 < v_scale v)%R.
Proof. unfold make_variable. cbn [obind]. destruct (match init with Some i => Some i | None => v_get s p end) as [i|]; [|discriminate]. cbn. intros H. injection H as <-. cbn. lra. Qed.
(** finding: a negative scale reverses them, no point is allowed *)
Theorem C37_negative_scale_refuted : forall v lo hi, v_lo v = Fin lo -> v_hi v = Fin hi -> (lo < hi)%R -> (v_scale v < 0)%R ->
  forall x, ~ (ext_le (fst (scaled_bounds v)) (Fin x) /\ ext_le (Fin x) (snd (scaled_bounds v))).
Proof.
  intros v lo hi L H LT S x [A B]. unfold scaled_bounds in *. cbn in A, B. rewrite L in A. rewrite H in B. cbn in A, B.
  assert (C : (lo / v_scale v <= hi / v_scale v)%R) by lra. unfold Rdiv in C. pose proof (Rinv_lt_0_compat _ S) as N.
  assert (hi * / v_scale v < lo * / v_scale v)%R; [|lra]. rewrite (Rmult_comm hi), (Rmult_comm lo). apply Rmult_lt_gt_compat_neg_l; auto.
Qed.

(** ** C37: a variable has the given path and bounds, the given scale or the width of its (then finite) bounds, and starts at the
    given or else the present value; it can be made exactly if these exist *)
Theorem C37_variable s p lo hi scale init v : make_variable s p lo hi scale init = Some v <->
  v_path v = p /\ v_lo v = lo /\ v_hi v = hi /\
  (scale = Some (v_scale v) \/ scale = None /\ exists a b, lo = Fin a /\ hi = Fin b /\ v_scale v = (b - a)%R) /\
  (init = Some (v_init v) \/ init = None /\ get_path s p = Some (Num (v_init v))).
Proof.
  unfold make_variable, v_get. split.
  - intros H. destruct (match scale with Some c => Some c | None => match lo, hi with Fin a, Fin b => Some (b - a)%R | _, _ => None end end) as [c|] eqn:C; [|discriminate H]. cbn [obind] in H.
    destruct (match init with Some i => Some i | None => do v <- get_path s p; match v with Num x => Some x | _ => None end end) as [i|] eqn:I; [|discriminate H]. cbn [obind] in H. injection H as <-. cbn.
    do 3 (split; [reflexivity|]). split.
    + destruct scale as [c'|]; [left; exact C|right]. split; [auto|]. destruct lo, hi; try discriminate C. injection C as <-. eauto.
    + destruct init as [i'|]; [left; exact I|right]. split; [auto|]. destruct (get_path s p) as [[|x|]|]; cbn in I; try discriminate I. injection I as ->. reflexivity.
  - destruct v as [vp c vl vh i]. cbn. intros (-> & -> & -> & C & I). destruct C as [->|(-> & a & b & -> & -> & ->)]; destruct I as [->|(-> & G)]; cbn [obind]; try rewrite G; reflexivity.
Qed.
(** ** C37: every recorded line holds the values of the variables in a system obtained from the original by setting only the variables,
    and the values of the operands for exactly that system *)
Theorem C37_recorded vars ops m s r row vals : scattered (places vars) -> present s (places vars) -> optimize vars ops m s = Some r -> In (row, vals) (r_trace r) ->
  exists s', length row = length vars /\
    (forall i v y, nth_error vars i = Some v -> nth_error row i = Some y -> get_path s' (v_path v) = Some (Num y)) /\
    (forall q, (forall v, In v vars -> diverge (v_path v) q) -> get_path s' q = get_path s q) /\
    Forall2 (fun o l => op_get o s' = Some l) ops vals.
Proof.
  intros S P H I. destruct (C37_evaluations vars ops m s r S P H) as (x1 & _ & _ & E). destruct (r_trace r) as [|t0 tr] eqn:T; [destruct I|]. rewrite <- T in *. clear T t0 tr.
  set (mm := m x1 (map scaled_bounds vars)) in E. clearbody mm. revert E. generalize (r_x r) as x. generalize dependent (r_trace r). clear H. induction mm as [x'| |q next IH]; intros tr I x E; cbn in E.
  - injection E as _ <-. destruct I.
  - discriminate E.
  - destruct (evaluate vars ops s (query_point q)) as [v|] eqn:EV; [|discriminate E]. cbn [obind] in E. destruct (ideal vars ops s (next (respond ops q v))) as [[x2 t2]|] eqn:ID; [|discriminate E]. cbn [obind fst snd] in E.
    injection E as <- <-. assert (HD : In (row, vals) t2 \/ (exists xq, q = QTrace xq /\ row = scaled vars xq /\ vals = v)).
    { destruct q; auto. destruct I as [I|I]; [|auto]. injection I as <- <-. right. eauto. }
    destruct HD as [HD|(xq & -> & -> & ->)]; [eapply IH; eauto|]. cbn [query_point] in EV. unfold evaluate in EV. destruct (up vars xq s) as [s'|] eqn:U; [|discriminate EV]. cbn [obind] in EV.
    destruct (up_spec vars xq s s' S U) as (L & A & B). exists s'. split; [unfold scaled; rewrite map_length, combine_length; lia|]. split; [|split; [exact B|]].
    + intros i w y W Y. unfold scaled in Y. destruct (nth_error xq i) as [xi|] eqn:XI; [|apply nth_error_None in XI; assert (nth_error vars i <> None) by congruence; apply nth_error_Some in H; lia].
      assert (C : nth_error (combine vars xq) i = Some (w, xi)). { clear - W XI. revert xq i W XI. induction vars as [|a l IH]; intros [|b xq] [|i] W XI; try discriminate; cbn in *; [congruence|auto]. }
      rewrite (map_nth_error _ _ _ C) in Y. injection Y as <-. cbn [fst snd]. eapply A; eauto.
    + clear - EV. revert v EV. induction ops as [|o ops IH]; intros v EV; cbn in EV; [injection EV as <-; constructor|]. destruct (op_get o s') as [a|] eqn:O; [|discriminate EV]. cbn [obind] in EV. destruct (values ops s') as [b|]; [|discriminate EV]. cbn [obind] in EV. injection EV as <-. constructor; auto.
Qed.
(** ** C37: the cache never holds more than one value per variable and one more, and that many different points asked for in a row
    are all remembered: asking for them again does not touch the system *)
Fixpoint ask_all (vars : list variable) (ops : list operand) (st : state) (xs : list (list R)) : option state :=
  match xs with [] => Some st | x :: xs => match ex vars ops st x with Some (_, st) => ask_all vars ops st xs | None => None end end.
Lemma drop_length x c v : find x c = Some v -> length c = S (length (drop x c)).
Proof. induction c as [|[y w] c IH]; cbn; [discriminate|]. destruct (list_eq_dec Req_EM_T x y); [auto|]. intros H. cbn. rewrite <- IH; auto. Qed.
Lemma drop_prefix x ks : ~ In x ks -> forall c, map fst (firstn (length ks) c) = ks -> map fst (firstn (length ks) (drop x c)) = ks.
Proof.
  induction ks as [|k ks IH]; intros N c H; [reflexivity|]. destruct c as [|[y w] c]; [discriminate H|]. cbn in H. injection H as <- H. cbn [drop].
  destruct (list_eq_dec Req_EM_T x y) as [->|]; [exfalso; apply N; left; auto|]. cbn. f_equal. apply IH; auto. intros I. apply N. right. auto.
Qed.
Lemma find_prefix x n c : In x (map fst (firstn n c)) -> exists v, find x c = Some v.
Proof.
  revert n. induction c as [|[y w] c IH]; intros [|n] H; cbn in H; try contradiction. cbn. destruct (list_eq_dec Req_EM_T x y); [eauto|]. destruct H as [H|H]; [congruence|eauto].
Qed.
Theorem C37_cache vars ops st st' xs : ask_all vars ops st xs = Some st' ->
  ((length (st_cache st) <= S (length vars))%nat -> (length (st_cache st') <= S (length vars))%nat) /\
  (NoDup xs -> (length xs <= S (length vars))%nat -> forall x, In x xs -> exists v st2, ex vars ops st' x = Some (v, st2) /\ st_system st2 = st_system st').
Proof.
  intros H. assert (G : forall xs st ks, ask_all vars ops st xs = Some st' ->
    ((length (st_cache st) <= S (length vars))%nat -> (length (st_cache st') <= S (length vars))%nat) /\
    (NoDup (rev ks ++ xs) -> (length ks + length xs <= S (length vars))%nat -> map fst (firstn (length ks) (st_cache st)) = ks -> map fst (firstn (length (rev xs ++ ks)) (st_cache st')) = rev xs ++ ks)).
  { clear. induction xs as [|x xs IH]; intros st ks H; cbn in H; [injection H as <-; auto|]. destruct (ex vars ops st x) as [[v st1]|] eqn:E; [|discriminate H]. unfold ex in E. destruct (find x (st_cache st)) as [v'|] eqn:F.
    - injection E as -> <-. destruct (IH _ (x :: ks) H) as [I1 I2]. cbn [st_cache length] in I1, I2. pose proof (drop_length _ _ _ F). split; [intros L; apply I1; lia|]. intros N L K. cbn [rev] in *. rewrite <- app_assoc in *. cbn [app] in *. cbn [length] in L. apply I2; [auto|lia|].
      cbn. f_equal. apply drop_prefix; auto. apply NoDup_remove_2 in N. intros I. apply N. apply in_app_iff. left. apply in_rev. rewrite rev_involutive. auto.
    - destruct (up vars x (st_system st)) as [s1|]; [|discriminate E]. cbn [obind] in E. destruct (values ops s1) as [v'|]; [|discriminate E]. cbn [obind] in E. injection E as -> <-. destruct (IH _ (x :: ks) H) as [I1 I2]. cbn [st_cache length] in I1, I2. split.
      + intros _. apply I1. rewrite firstn_length. lia.
      + intros N L K. cbn [rev] in *. rewrite <- app_assoc in *. cbn [app] in *. cbn [length] in L. apply I2; [auto|lia|]. rewrite firstn_cons. cbn [map fst]. f_equal. rewrite firstn_firstn, Nat.min_l by lia. exact K. }
  destruct (G xs st [] H) as [G1 G2]. split; [exact G1|]. intros N L x I. cbn [rev app length firstn map] in G2. rewrite app_nil_r in G2. specialize (G2 N ltac:(lia) eq_refl). unfold ex.
  destruct (find_prefix x (length (rev xs)) (st_cache st')) as (v & ->); [rewrite G2; apply -> in_rev; auto|]. eexists _, _. split; [reflexivity|]. reflexivity.
Qed.

Example C37_example : let s := Obj [("a", Num 3); ("b", Num 5)]%string [] in
  let va := Variable_ [Attr "a"]%string 2 (Fin 0) (Fin 4) 3 in
  let o := Operand_ (fun s => do x <- v_get s [Attr "a"]%string; Some [x]) (Some 1%R) 1 None (Some 7%R) in
  let m := fun (x1 : list R) (_ : list (ext * ext)) => Ask (QFun [7%R]) (fun _ => Ask (QTrace [1%R]) (fun _ => Stop [1%R])) in
  scattered (places [va]) /\ present s (places [va]) /\ exists r, optimize [va] [o] m s = Some r /\ r_x r = [1%R] /\ accept [va] r = Some (Obj [("a", Num (1 * 2)); ("b", Num 5)]%string []).
Proof.
  intros s va o m. split; [constructor; [discriminate|intros q []|constructor]|]. split; [intros p [<-|[]]; cbn; discriminate|].
  unfold optimize. subst va o m s. cbn -[list_eq_dec fdiv Rmult]. rewrite !fdiv_some by lra. cbn -[list_eq_dec fdiv Rmult].
  destruct (Req_EM_T 1 0); [lra|]. cbn -[list_eq_dec fdiv Rmult]. unfold ex. cbn -[list_eq_dec fdiv Rmult].
  destruct (list_eq_dec Req_EM_T [1%R] [7%R]) as [E|_]; [injection E as E; lra|]. cbn -[list_eq_dec fdiv Rmult].
  eexists. split; [reflexivity|]. split; [reflexivity|]. unfold accept. cbn. reflexivity.
Qed.
(** length operand asked to equal 10: the length 10 has equality value 10, the length 0 violates the limit *)
Example C37_equal_limits_example : let s := Obj [("a", Num 10)]%string [] in
  let o := Operand_ (fun s => do x <- v_get s [Attr "a"]%string; Some [x]) (Some 1%R) 0 (Some 10%R) (Some 10%R) in
  values [o] s = Some [[10%R]] /\ respond [o] (QEq []) [[10%R]] = [10 - 0]%R.
Proof. intros s o. split; [reflexivity|]. cbn. destruct (Req_EM_T 10 10); [reflexivity|lra]. Qed.
Example C37_scale_example : exists v, make_variable (Obj [("a", Num 10)]%string []) [Attr "a"]%string (Fin 0) (Fin 3) None None = Some v /\ v_scale v = (3 - 0)%R /\ v_init v = 10%R.
Proof. eexists. split; [reflexivity|]. split; reflexivity. Qed.
Example C37_variable_example : make_variable (Obj [("a", Num 10)]%string []) [Attr "a"]%string MInf PInf (Some 2%R) (Some 3%R) = Some (Variable_ [Attr "a"]%string 2 MInf PInf 3).
Proof. reflexivity. Qed.
(** two points for one variable: both remembered *)
Example C37_cache_example : let s := Obj [("a", Num 3)]%string [] in let va := Variable_ [Attr "a"]%string 2 (Fin 0) (Fin 4) 3 in
  let o := Operand_ (fun s => do x <- v_get s [Attr "a"]%string; Some [x]) (Some 1%R) 1 None None in
  exists st, ask_all [va] [o] (State s [] []) [[1%R]; [2%R]] = Some st /\ NoDup [[1%R]; [2%R]] /\ length (st_cache st) = 2%nat.
Proof.
  intros s va o. eexists. split.
  - cbn [ask_all]. unfold ex at 1. subst s va o. cbn -[list_eq_dec Rmult]. unfold ex. cbn -[list_eq_dec Rmult]. destruct (list_eq_dec Req_EM_T [2%R] [1%R]) as [E|_]; [injection E; intros; lra|]. cbn -[list_eq_dec Rmult]. reflexivity.
  - split; [|reflexivity]. constructor; [intros [E|[]]; injection E; intros; lra|]. constructor; [intros []|constructor].
Qed.
Print Assumptions C37_variable.
Print Assumptions C37_recorded.
Print Assumptions C37_cache.
Print Assumptions C37_evaluations.
Print Assumptions C37_reject.
Print Assumptions C37_accept.
Print Assumptions C37_objective.
Print Assumptions C37_inequality.
Print Assumptions C37_equality.
Print Assumptions C37_equal_limits_refuted.
Print Assumptions C37_bounds.
Print Assumptions C37_default_scale.
Print Assumptions C37_negative_scale_refuted.
