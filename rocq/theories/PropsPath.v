(** Properties of path access, pickups, solves and validators (C39). *)
From Coq Require Import String ZArith Reals Bool Lia Lra List.
From Verif Require Import Base PathModel.
Import ListNotations.
Open Scope list_scope.

(** two keys that address different places, two paths that part at some point *)
Definition apart (a b : key) : Prop :=
  match a, b with
  | Attr x, Attr y => x <> y
  | Idx i, Idx j => (0 <= i)%Z /\ (0 <= j)%Z /\ i <> j
  | _, _ => True
  end.
Inductive diverge : path -> path -> Prop :=
| div_here a b p q : apart a b -> diverge (a :: p) (b :: q)
| div_next a p q : diverge p q -> diverge (a :: p) (a :: q).

Lemma apart_sym a b : apart a b -> apart b a.
Proof. destruct a, b; cbn; auto; lia. Qed.
Lemma diverge_sym p q : diverge p q -> diverge q p.
Proof. induction 1; [apply div_here; apply apart_sym; auto|apply div_next; auto]. Qed.

Lemma lookup_assign l a v : lookup (assign l a v) a = Some v.
Proof. induction l as [|[b w] l IH]; cbn; [rewrite String.eqb_refl; auto|]. destruct (String.eqb a b) eqn:E; cbn; rewrite E; auto. Qed.
Lemma lookup_assign_other l a b v : a <> b -> lookup (assign l a v) b = lookup l b.
Proof.
  intros N. induction l as [|[c w] l IH]; cbn.
  - destruct (String.eqb_spec b a); [congruence|auto].
  - destruct (String.eqb_spec a c) as [->|]; cbn; destruct (String.eqb_spec b c); auto; congruence.
Qed.
Lemma assign_assign l a v w : assign (assign l a v) a w = assign l a w.
Proof. induction l as [|[b u] l IH]; cbn; [rewrite String.eqb_refl; auto|]. destruct (String.eqb a b) eqn:E; cbn; rewrite E; [auto|]. rewrite IH. auto. Qed.
Lemma assign_id l a v : lookup l a = Some v -> assign l a v = l.
Proof. induction l as [|[b u] l IH]; cbn; [discriminate|]. destruct (String.eqb a b) eqn:E; intros H; [injection H as ->; auto|]. rewrite IH; auto. Qed.
Lemma assign_comm l a b v w : a <> b -> lookup l a <> None -> lookup l b <> None -> assign (assign l a v) b w = assign (assign l b w) a v.
Proof.
  intros N. induction l as [|[c u] l IH]; cbn; [contradiction|]. destruct (String.eqb_spec a c) as [->|NA].
  - intros _. destruct (String.eqb_spec b c) as [->|NB]; [congruence|]. cbn. rewrite String.eqb_refl. intros _.
    destruct (String.eqb_spec b c); [congruence|]. auto.
  - destruct (String.eqb_spec b c) as [->|NB]; cbn.
    + rewrite String.eqb_refl. destruct (String.eqb_spec a c); [congruence|]. auto.
    + intros A B. destruct (String.eqb_spec b c); [congruence|]. destruct (String.eqb_spec a c); [congruence|]. rewrite IH; auto.
Qed.
Lemma replace_length l n v : length (replace l n v) = length l.
Proof. revert n. induction l; intros [|n]; cbn; auto. Qed.
Lemma nth_replace l n v : (n < length l)%nat -> nth_error (replace l n v) n = Some v.
Proof. revert n. induction l; intros [|n] H; cbn in *; try lia; auto. apply IHl. lia. Qed.
Lemma nth_replace_other l n m v : n <> m -> nth_error (replace l n v) m = nth_error l m.
Proof. revert n m. induction l; intros [|n] [|m] H; cbn; auto; try lia. Qed.
Lemma replace_replace l n v w : replace (replace l n v) n w = replace l n w.
Proof. revert n. induction l; intros [|n]; cbn; auto. rewrite IHl. auto. Qed.
Lemma replace_comm l n m v w : n <> m -> replace (replace l n v) m w = replace (replace l m w) n v.
Proof. revert n m. induction l; intros [|n] [|m] H; cbn; auto; try (rewrite IHl; auto); lia. Qed.
Lemma replace_id l n v : nth_error l n = Some v -> replace l n v = l.
Proof. revert n. induction l; intros [|n] H; cbn in *; try discriminate; [injection H as ->; auto|]. rewrite IHl; auto. Qed.
Lemma position_lt n i k : position n i = Some k -> (k < n)%nat.
Proof. unfold position. destruct (_ && _)%bool eqn:E; [|discriminate]. intros H. injection H as <-. apply andb_true_iff in E. destruct E as [A B]. apply Z.leb_le in A. apply Z.ltb_lt in B. lia. Qed.
Lemma position_apart n i j a b : (0 <= i)%Z -> (0 <= j)%Z -> i <> j -> position n i = Some a -> position n j = Some b -> a <> b.
Proof.
  unfold position. intros I J N. destruct (Z.ltb_spec i 0); [lia|]. destruct (Z.ltb_spec j 0); [lia|].
  destruct ((0 <=? i) && (i <? Z.of_nat n))%Z; [|discriminate]. destruct ((0 <=? j) && (j <? Z.of_nat n))%Z; [|discriminate].
  intros A B. injection A as <-. injection B as <-. lia.
Qed.

Lemma step_put v k w v' : put v k w = Some v' -> step v' k = Some w.
Proof.
  destruct v as [|x|at_ it], k as [a|i]; cbn; try discriminate.
  - intros H. injection H as <-. cbn. apply lookup_assign.
  - destruct (position (length it) i) as [n|] eqn:P; [|discriminate]. intros H. injection H as <-. cbn. rewrite replace_length, P.
    apply nth_replace. eapply position_lt; eauto.
Qed.
Lemma step_put_other v a b w v' : apart a b -> put v a w = Some v' -> step v' b = step v b.
Proof.
  intros AP. destruct v as [|x|at_ it], a as [a|i]; cbn; try discriminate.
  - intros H. injection H as <-. destruct b as [b|j]; cbn in *; [apply lookup_assign_other; auto|auto].
  - destruct (position (length it) i) as [n|] eqn:P; [|discriminate]. intros H. injection H as <-. destruct b as [b|j]; cbn in *; [auto|].
    rewrite replace_length. destruct (position (length it) j) as [m|] eqn:Q; [|auto]. apply nth_replace_other. destruct AP as [A [B C]]. exact (position_apart _ i j _ _ A B C P Q).
Qed.
Lemma put_put v k w v' u : put v k w = Some v' -> put v' k u = put v k u.
Proof.
  destruct v as [|x|at_ it], k as [a|i]; cbn; try discriminate.
  - intros H. injection H as <-. cbn. rewrite assign_assign. auto.
  - destruct (position (length it) i) as [n|] eqn:P; [|discriminate]. intros H. injection H as <-. cbn. rewrite replace_length, P, replace_replace. auto.
Qed.
Lemma put_id v k w : step v k = Some w -> put v k w = Some v.
Proof.
  destruct v as [|x|at_ it], k as [a|i]; cbn; try discriminate.
  - intros H. rewrite assign_id; auto.
  - destruct (position (length it) i) as [n|] eqn:P; [|discriminate]. intros H. rewrite replace_id; auto.
Qed.
Lemma put_some v k w u : step v k = Some u -> exists v', put v k w = Some v'.
Proof.
  destruct v as [|x|at_ it], k as [a|i]; cbn; try discriminate; [eauto|]. destruct (position (length it) i); [eauto|discriminate].
Qed.
Lemma put_comm v a b w u v1 v2 : apart a b -> step v a <> None -> step v b <> None ->
  put v a w = Some v1 -> put v b u = Some v2 -> put v1 b u = put v2 a w.
Proof.
  destruct v as [|x|at_ it], a as [a|i], b as [b|j]; cbn; intros N A B; try congruence.
  - intros H1 H2. injection H1 as <-. injection H2 as <-. cbn. rewrite assign_comm; auto.
  - intros H1. injection H1 as <-. destruct (position (length it) j) as [m|] eqn:Q; [|discriminate]. intros H2. injection H2 as <-. cbn. rewrite Q. auto.
  - destruct (position (length it) i) as [n|] eqn:P; [|discriminate]. intros H1 H2. injection H1 as <-. injection H2 as <-. cbn. rewrite P. auto.
  - destruct N as [I [J N]]. destruct (position (length it) i) as [n|] eqn:P; [|discriminate]. destruct (position (length it) j) as [m|] eqn:Q; [|discriminate].
    intros H1 H2. injection H1 as <-. injection H2 as <-. cbn. rewrite !replace_length, P, Q. rewrite replace_comm; auto. exact (position_apart _ i j _ _ I J N P Q).
Qed.

Lemma set_path_cons v k p w : p <> [] -> set_path v (k :: p) w = do c <- step v k; do c <- set_path c p w; put v k c.
Proof. destruct p; [contradiction|reflexivity]. Qed.

(** * C39 *)
(** lens laws *)
Theorem C39_get_set s p w s' : set_path s p w = Some s' -> get_path s' p = Some w.
Proof.
  revert s s'. induction p as [|k p IH]; intros s s' H; [discriminate|]. destruct p as [|k' p].
  - cbn in *. rewrite (step_put _ _ _ _ H). auto.
  - rewrite set_path_cons in H by discriminate. destruct (step s k) as [c|] eqn:S; [|discriminate]. cbn [obind] in H.
    destruct (set_path c (k' :: p) w) as [c'|] eqn:E; [|discriminate]. cbn [obind] in H.
    change (get_path s' (k :: k' :: p)) with (do x <- step s' k; get_path x (k' :: p)). rewrite (step_put _ _ _ _ H). cbn [obind]. eapply IH; eauto.
Qed.
Theorem C39_set_get s p w : p <> [] -> get_path s p = Some w -> set_path s p w = Some s.
Proof.
  revert s. induction p as [|k p IH]; intros s N H; [contradiction|]. destruct p as [|k' p].
  - cbn in *. destruct (step s k) as [c|] eqn:S; [|discriminate]. cbn in H. injection H as ->. apply put_id. auto.
  - rewrite set_path_cons by discriminate. cbn [get_path] in H. destruct (step s k) as [c|] eqn:S; [|discriminate]. cbn [obind] in *.
    rewrite IH by (auto; discriminate). cbn [obind]. apply put_id. auto.
Qed.
Theorem C39_set_set s p w s' u : set_path s p w = Some s' -> set_path s' p u = set_path s p u.
Proof.
  revert s s'. induction p as [|k p IH]; intros s s' H; [discriminate|]. destruct p as [|k' p].
  - cbn in *. eapply put_put; eauto.
  - rewrite set_path_cons in H by discriminate. rewrite !set_path_cons by discriminate. destruct (step s k) as [c|] eqn:S; [|discriminate]. cbn [obind] in *.
    destruct (set_path c (k' :: p) w) as [c'|] eqn:E; [|discriminate]. cbn [obind] in H. rewrite (step_put _ _ _ _ H). cbn [obind]. rewrite (IH _ _ E).
    destruct (set_path c (k' :: p) u); [|auto]. cbn [obind]. eapply put_put; eauto.
Qed.
(** writes elsewhere are not seen, and commute *)
Theorem C39_get_other s p q w s' : diverge p q -> set_path s p w = Some s' -> get_path s' q = get_path s q.
Proof.
  intros D. revert s s'. induction D as [a b p q A|a p q D IH]; intros s s' H.
  - assert (exists c, put s a c = Some s') as [c P].
    { destruct p as [|k p]; [exists w; auto|]. rewrite set_path_cons in H by discriminate. destruct (step s a); [|discriminate]. cbn [obind] in H.
      destruct (set_path v (k :: p) w); [|discriminate]. eauto. }
    cbn. rewrite (step_put_other _ _ _ _ _ A P). auto.
  - assert (N : p <> []) by (inversion D; discriminate). rewrite set_path_cons in H by auto. destruct (step s a) as [c|] eqn:S; [|discriminate]. cbn [obind] in H.
    destruct (set_path c p w) as [c'|] eqn:E; [|discriminate]. cbn [obind] in H. cbn. rewrite (step_put _ _ _ _ H), S. cbn. apply IH. auto.
Qed.
Lemma set_step s k p w s' : set_path s (k :: p) w = Some s' -> exists c, put s k c = Some s'.
Proof.
  destruct p as [|k' p]; intros H; [exists w; auto|]. rewrite set_path_cons in H by discriminate. destruct (step s k); [|discriminate]. cbn [obind] in H.
  destruct (set_path v (k' :: p) w); [|discriminate]. eauto.
Qed.
Lemma get_step s k p : get_path s (k :: p) <> None -> step s k <> None.
Proof. cbn. destruct (step s k); [discriminate|auto]. Qed.
Theorem C39_commute s p q w u s1 s2 : diverge p q -> get_path s p <> None -> get_path s q <> None ->
  set_path s p w = Some s1 -> set_path s q u = Some s2 -> set_path s1 q u = set_path s2 p w.
Proof.
  intros D. revert s s1 s2. induction D as [a b p q A|a p q D IH]; intros s s1 s2 E1 E2 H1 H2.
  - assert (SP : forall k r x, set_path s (k :: r) x = match r with [] => put s k x | _ => do c <- step s k; do c <- set_path c r x; put s k c end) by (intros k [|] x; reflexivity).
    assert (B1 : step s1 b = step s b). { destruct (set_step _ _ _ _ _ H1) as [c P]. eapply step_put_other; eauto. }
    assert (A2 : step s2 a = step s a). { destruct (set_step _ _ _ _ _ H2) as [c P]. eapply step_put_other; [apply apart_sym; eauto|eauto]. }
    apply get_step in E1, E2.
    assert (V1 : exists c, put s a c = Some s1 /\ (forall t, step t a = step s a -> set_path t (a :: p) w = put t a c)).
    { destruct p as [|k p]; [exists w; auto|]. rewrite set_path_cons in H1 by discriminate. destruct (step s a) as [c|] eqn:S; [|discriminate]. cbn [obind] in H1.
      destruct (set_path c (k :: p) w) as [c'|] eqn:E; [|discriminate]. cbn [obind] in H1. exists c'. split; [auto|]. intros t T. rewrite set_path_cons by discriminate. rewrite T. cbn [obind]. rewrite E. auto. }
    assert (V2 : exists c, put s b c = Some s2 /\ (forall t, step t b = step s b -> set_path t (b :: q) u = put t b c)).
    { destruct q as [|k q]; [exists u; auto|]. rewrite set_path_cons in H2 by discriminate. destruct (step s b) as [c|] eqn:S; [|discriminate]. cbn [obind] in H2.
      destruct (set_path c (k :: q) u) as [c'|] eqn:E; [|discriminate]. cbn [obind] in H2. exists c'. split; [auto|]. intros t T. rewrite set_path_cons by discriminate. rewrite T. cbn [obind]. rewrite E. auto. }
    destruct V1 as [c1 [P1 F1]], V2 as [c2 [P2 F2]]. rewrite F1, F2 by auto. eapply put_comm; eauto.
  - assert (N1 : p <> []) by (inversion D; discriminate). assert (N2 : q <> []) by (inversion D; discriminate).
    rewrite set_path_cons in H1, H2 by auto. rewrite (set_path_cons s1), (set_path_cons s2) by auto. cbn in E1, E2. destruct (step s a) as [c|] eqn:S; [|discriminate]. cbn [obind] in *.
    destruct (set_path c p w) as [c1|] eqn:F1; [|discriminate]. destruct (set_path c q u) as [c2|] eqn:F2; [|discriminate]. cbn [obind] in *.
    rewrite (step_put _ _ _ _ H1), (step_put _ _ _ _ H2). cbn [obind]. rewrite (IH _ _ _ E1 E2 F1 F2).
    destruct (set_path c2 p w) as [c3|]; [|auto]. cbn [obind]. rewrite (put_put _ _ _ _ _ H1), (put_put _ _ _ _ _ H2). auto.
Qed.
Lemma set_some s p w : p <> [] -> get_path s p <> None -> exists s', set_path s p w = Some s'.
Proof.
  revert s. induction p as [|k p IH]; intros s N E; [contradiction|]. destruct p as [|k' p].
  - cbn in *. destruct (step s k) as [c|] eqn:S; [|contradiction]. eapply put_some; eauto.
  - rewrite set_path_cons by discriminate. cbn [get_path] in E. destruct (step s k) as [c|] eqn:S; [|contradiction]. cbn [obind] in *.
    destruct (IH c) as [c' ->]; [discriminate|auto|]. cbn [obind]. eapply put_some; eauto.
Qed.
(** an existing place can always be written *)
Theorem C39_writable s p w : p <> [] -> get_path s p <> None -> set_path s p w <> None.
Proof. intros N E. destruct (set_some s p w N E) as [s' ->]. discriminate. Qed.

(** pickups: target = source * factor + offset *)
Definition relation (k : pickup) (s : val) : Prop :=
  forall g p, pk_get k = Some g -> pk_set k = Some p ->
  match pk_factor k, pk_offset k with
  | None, None => exists v, get_path s g = Some v /\ get_path s p = Some v
  | f, o => exists x, get_path s g = Some (Num x) /\
      get_path s p = Some (Num (x * match f with Some f => f | None => 1 end + match o with Some o => o | None => 0 end)%R)
  end.
(** no target is written by a later pickup, no source by its own or a later one *)
Fixpoint well_ordered (l : list pickup) : Prop :=
  match l with
  | [] => True
  | k :: l => (exists g p, pk_get k = Some g /\ pk_set k = Some p /\ diverge p g /\
      forall k', In k' l -> forall p', pk_set k' = Some p' -> diverge p' g /\ diverge p' p) /\ well_ordered l
  end.
Lemma value_relation s k g p s' v : pk_get k = Some g -> pk_set k = Some p -> pickup_value s k = Some v ->
  get_path s' g = get_path s g -> get_path s' p = Some v -> relation k s'.
Proof.
  intros G P V EG EP g' p' G' P'. rewrite G in G'. injection G' as <-. rewrite P in P'. injection P' as <-.
  unfold pickup_value in V. rewrite G in V. rewrite EG. destruct (get_path s g) as [u|]; [|discriminate]. cbn [obind] in V.
  destruct (pk_factor k) as [f|]; cbn [obind] in V.
  - destruct u as [|x|]; try discriminate. cbn [num_op obind] in V. destruct (pk_offset k) as [o|]; cbn in V; injection V as <-; exists x; split; auto. rewrite EP. do 2 f_equal. lra.
  - destruct (pk_offset k) as [o|].
    + destruct u as [|x|]; try discriminate. cbn in V. injection V as <-. exists x. split; auto. rewrite EP. do 2 f_equal. lra.
    + injection V as <-. eauto.
Qed.
Lemma relation_keep k s s' : (forall g, pk_get k = Some g -> get_path s' g = get_path s g) -> (forall p, pk_set k = Some p -> get_path s' p = get_path s p) -> relation k s -> relation k s'.
Proof. intros A B H g p G P. rewrite (A g G), (B p P). apply H; auto. Qed.
Lemma relation_value s k g p : pk_get k = Some g -> pk_set k = Some p -> relation k s -> exists v, pickup_value s k = Some v /\ get_path s p = Some v.
Proof.
  intros G P H. specialize (H g p G P). unfold pickup_value. rewrite G. destruct (pk_factor k) as [f|], (pk_offset k) as [o|]; destruct H as [x [-> ->]]; cbn; eexists; split; eauto; do 2 f_equal; lra.
Qed.
Lemma diverge_nonempty p q : diverge p q -> p <> [] /\ q <> []. Proof. intros D; inversion D; split; discriminate. Qed.

(** after one pass all the relations hold together, and another pass changes nothing *)
Theorem C39_pickups l s s' : well_ordered l -> pickups s l = Some s' ->
  (forall k, In k l -> relation k s') /\ pickups s' l = Some s'.
Proof.
  intros W H. assert (A : (forall k, In k l -> relation k s')).
  { revert s H W. induction l as [|k l IH]; intros s H W q I; [destruct I|]. destruct W as [[g [p [G [P [D L]]]]] W]. cbn in H.
    destruct (pickup1 s k) as [s1|] eqn:K; [|discriminate]. cbn in H. destruct I as [<-|I]; [|eapply IH; eauto].
    unfold pickup1 in K. destruct (pickup_value s k) as [v|] eqn:V; [|discriminate]. cbn in K. rewrite P in K.
    assert (KEEP : forall r, (forall k', In k' l -> forall p', pk_set k' = Some p' -> diverge p' r) -> get_path s' r = get_path s1 r).
    { clear - H. revert s1 H. induction l as [|k l IH]; intros s1 H r R; [cbn in H; injection H as <-; auto|]. cbn in H.
      destruct (pickup1 s1 k) as [s2|] eqn:K; [|discriminate]. cbn in H. rewrite (IH _ H) by (intros; eapply R; [right|]; eauto).
      unfold pickup1 in K. destruct (pickup_value s1 k) as [v|]; [|discriminate]. cbn in K. destruct (pk_set k) as [p|] eqn:P; [|injection K as <-; auto].
      eapply C39_get_other; [|eauto]. eapply R; [left; eauto|auto]. }
    eapply value_relation; eauto.
    - rewrite KEEP by (intros; eapply L; eauto). eapply C39_get_other; eauto.
    - rewrite KEEP by (intros; eapply L; eauto). eapply C39_get_set; eauto. }
  split; [auto|]. clear H s. assert (N : forall k, In k l -> exists g p, pk_get k = Some g /\ pk_set k = Some p /\ p <> []).
  { clear A. induction l as [|k l IH]; intros q I; [destruct I|]. destruct W as [[g [p [G [P [D L]]]]] W]. destruct I as [<-|I]; [|auto].
    exists g, p. apply diverge_nonempty in D. tauto. }
  clear W. induction l as [|k l IH]; [auto|]. cbn. destruct (N k (or_introl eq_refl)) as [g [p [G [P NE]]]].
  destruct (relation_value s' k g p G P (A k (or_introl eq_refl))) as [v [V E]]. unfold pickup1. rewrite V. cbn. rewrite P, (C39_set_get _ _ _ NE E). cbn.
  apply IH; intros; [apply A|apply N]; right; auto.
Qed.
(** finding: in the other order one pass is not enough *)
Theorem C39_pickup_order_refuted : exists l s s' k, pickups s l = Some s' /\ In k l /\ ~ relation k s'.
Proof.
  set (a := [Attr "a"]%string). set (b := [Attr "b"]%string). set (c := [Attr "c"]%string).
  exists [Pickup (Some b) None None (Some c); Pickup (Some a) None None (Some b)].
  exists (Obj [("a", Num 1); ("b", Num 2); ("c", Num 3)]%string []). eexists. exists (Pickup (Some b) None None (Some c)).
  split; [reflexivity|]. split; [left; auto|]. intros H. destruct (H b c eq_refl eq_refl) as [v [B C]]. cbn in B, C. rewrite <- B in C. injection C as C. lra.
Qed.

(** solves: whatever points the root finder tries, the system afterwards is the one got from
    the original by setting the variable once and running the pickups once *)
Fixpoint fill (s : val) (W : list path) : option val :=
  match W with [] => Some s | p :: W => do s <- set_path s p Null; fill s W end.
Inductive scattered : list path -> Prop :=
| sc_nil : scattered []
| sc_cons p W : p <> [] -> (forall q, In q W -> diverge p q) -> scattered W -> scattered (p :: W).
Definition present (s : val) (W : list path) : Prop := forall p, In p W -> get_path s p <> None.

Lemma present_set s q w s' W : (forall p, In p W -> diverge q p) -> set_path s q w = Some s' -> present s W -> present s' W.
Proof. intros D H P p I. rewrite (C39_get_other _ _ _ _ _ (D p I) H). auto. Qed.
Lemma fill_some W : forall s, scattered W -> present s W -> exists f, fill s W = Some f /\ forall g, (forall p, In p W -> diverge p g) -> get_path f g = get_path s g.
Proof.
  induction W as [|p W IH]; intros s S P; [exists s; auto|]. inversion S as [|? ? N D S']; subst. cbn.
  destruct (set_some s p Null N (P p (or_introl eq_refl))) as [s1 E]. rewrite E. cbn. destruct (IH s1) as [f [F G]]; auto.
  - eapply present_set; eauto. intros q I. apply P. right. auto.
  - exists f. split; [auto|]. intros g H. rewrite G by (intros; apply H; right; auto). eapply C39_get_other; [|eauto]. apply H. left. auto.
Qed.
Lemma fill_comm W : forall s w v s1 f, w <> [] -> (forall p, In p W -> diverge w p) -> scattered W -> present s (w :: W) ->
  set_path s w v = Some s1 -> fill s W = Some f -> fill s1 W = set_path f w v.
Proof.
  induction W as [|p W IH]; intros s w v s1 f N D S P E F; [cbn in *; injection F as <-; auto|]. inversion S as [|? ? N' D' S']; subst. cbn in *.
  destruct (set_path s p Null) as [s2|] eqn:E2; [|discriminate]. cbn in F.
  assert (DP : diverge w p) by (apply D; auto).
  pose proof (C39_commute s w p v Null s1 s2 DP (P w (or_introl eq_refl)) (P p (or_intror (or_introl eq_refl))) E E2) as C. rewrite C.
  destruct (set_path s2 w v) as [s3|] eqn:E3.
  - cbn. apply (IH s2 w v s3 f); auto. intros q [<-|I].
    + rewrite (C39_get_other _ _ _ _ _ (diverge_sym _ _ DP) E2). apply P. left. auto.
    + rewrite (C39_get_other _ _ _ _ _ (D' q I) E2). apply P. right. right. auto.
  - exfalso. revert E3. apply C39_writable; auto. rewrite (C39_get_other _ _ _ _ _ (diverge_sym _ _ DP) E2). apply P. left. auto.
Qed.
Definition agree (W : list path) (s s' : val) : Prop := present s W /\ present s' W /\ fill s W = fill s' W.
Lemma agree_step w W s s' v s1 s1' : scattered (w :: W) -> agree (w :: W) s s' -> set_path s w v = Some s1 -> set_path s' w v = Some s1' -> agree W s1 s1'.
Proof.
  intros S [P [P' F]] E E'. inversion S as [|? ? N D S']; subst.
  split; [eapply present_set; eauto; intros p I; apply P; right; auto|]. split; [eapply present_set; eauto; intros p I; apply P'; right; auto|].
  destruct (fill_some W s S') as [f [Ff _]]; [intros p I; apply P; right; auto|]. destruct (fill_some W s' S') as [f' [Ff' _]]; [intros p I; apply P'; right; auto|].
  rewrite (fill_comm W s w v s1 f), (fill_comm W s' w v s1' f') by auto.
  cbn in F. destruct (set_some s w Null N (P w (or_introl eq_refl))) as [t T]. destruct (set_some s' w Null N (P' w (or_introl eq_refl))) as [t' T'].
  rewrite T, T' in F. cbn in F. rewrite (fill_comm W s w Null t f), (fill_comm W s' w Null t' f') in F by auto.
  destruct (fill_some (w :: W) s S P) as [z [Z _]]. cbn in Z. rewrite T in Z. cbn in Z. rewrite (fill_comm W s w Null t f) in Z by auto.
  rewrite Z in F. symmetry in F. rewrite <- (C39_set_set _ _ _ _ v Z), <- (C39_set_set _ _ _ _ v F). auto.
Qed.
Lemma fill_absorb W : forall s w v s1, scattered W -> present s W -> In w W -> set_path s w v = Some s1 -> fill s1 W = fill s W.
Proof.
  induction W as [|p W IH]; intros s w v s1 S P I E; [destruct I|]. inversion S as [|? ? N D S']; subst. cbn. destruct I as [->|I].
  - rewrite (C39_set_set _ _ _ _ Null E). auto.
  - destruct (set_some s p Null N (P p (or_introl eq_refl))) as [s2 E2]. rewrite E2.
    pose proof (C39_commute s w p v Null s1 s2 (diverge_sym _ _ (D w I)) (P w (or_intror I)) (P p (or_introl eq_refl)) E E2) as C. rewrite C.
    assert (P2 : present s2 W) by (eapply present_set; eauto; intros q J; apply P; right; auto).
    assert (NW : w <> []) by (destruct (diverge_nonempty _ _ (D w I)); auto).
    destruct (set_some s2 w v NW (P2 w I)) as [s3 E3]. rewrite E3. cbn. eapply IH; eauto.
Qed.
Lemma agree_set W s w v s1 : scattered W -> present s W -> In w W -> set_path s w v = Some s1 -> agree W s s1.
Proof.
  intros S P I E. split; [auto|]. split; [|symmetry; eapply fill_absorb; eauto]. intros p J.
  assert (PW : p = w \/ diverge w p).
  { clear - S I J. induction S as [|q W N D S IH]; [destruct I|]. destruct I as [->|I], J as [->|J]; auto. right. apply diverge_sym. auto. }
  destruct PW as [->|D]; [rewrite (C39_get_set _ _ _ _ E); discriminate|]. rewrite (C39_get_other _ _ _ _ _ D E). auto.
Qed.
Lemma agree_trans W a b c : agree W a b -> agree W b c -> agree W a c.
Proof. intros [A [B C]] [D [E F]]. split; [auto|]. split; [auto|]. congruence. Qed.
Lemma agree_get W s s' g : scattered W -> agree W s s' -> (forall p, In p W -> diverge p g) -> get_path s g = get_path s' g.
Proof.
  intros S [P [P' F]] D. destruct (fill_some W s S P) as [f [E G]]. destruct (fill_some W s' S P') as [f' [E' G']]. rewrite E, E' in F. injection F as <-.
  rewrite <- (G g D), <- (G' g D). auto.
Qed.
(** every pickup copies from a place no later pickup writes, the places written are different ones *)
Definition targets (l : list pickup) : list path := flat_map (fun k => match pk_set k with Some p => [p] | None => [] end) l.
Fixpoint sources_fixed (l : list pickup) : Prop :=
  match l with [] => True | k :: l => (forall g p, pk_get k = Some g -> In p (targets (k :: l)) -> diverge p g) /\ sources_fixed l end.
Lemma pickup_value_agree W s s' k : scattered W -> agree W s s' -> (forall g p, pk_get k = Some g -> In p W -> diverge p g) -> pickup_value s k = pickup_value s' k.
Proof.
  intros S A D. unfold pickup_value. destruct (pk_get k) as [g|]; [|auto]. rewrite (agree_get W s s' g); auto.
Qed.
Lemma pickups_agree l : forall s s', scattered (targets l) -> sources_fixed l -> agree (targets l) s s' -> pickups s l = pickups s' l.
Proof.
  induction l as [|k l IH]; intros s s' S F A; cbn; [destruct A as [_ [_ E]]; cbn in E; injection E as ->; auto|].
  destruct F as [F1 F2]. unfold pickup1. rewrite (pickup_value_agree (targets (k :: l)) s s' k S A F1).
  destruct (pickup_value s' k) as [v|]; [|auto]. cbn [obind]. cbn [targets flat_map] in S, A. fold (targets l) in S, A. destruct (pk_set k) as [p|].
  - cbn [app] in S, A. inversion S as [|? ? N D S']; subst. destruct A as [P [P' E]] eqn:AA. clear AA.
    destruct (set_some s p v N (P p (or_introl eq_refl))) as [s1 E1]. destruct (set_some s' p v N (P' p (or_introl eq_refl))) as [s1' E1'].
    rewrite E1, E1'. cbn. apply IH; auto. eapply agree_step; eauto.
  - cbn in *. apply IH; auto.
Qed.
Lemma pickups_within l : forall W s s', scattered W -> present s W -> (forall p, In p (targets l) -> In p W) -> pickups s l = Some s' -> agree W s s'.
Proof.
  induction l as [|k l IH]; intros W s s' S P I H; cbn in H; [injection H as <-; split; auto|].
  destruct (pickup1 s k) as [s1|] eqn:K; [|discriminate]. cbn in H. cbn [targets flat_map] in I. fold (targets l) in I.
  assert (A1 : agree W s s1).
  { unfold pickup1 in K. destruct (pickup_value s k) as [v|]; [|discriminate]. cbn in K. destruct (pk_set k) as [p|]; [|injection K as <-; split; auto].
    eapply agree_set; eauto. apply I. left. auto. }
  eapply agree_trans; eauto. eapply IH; eauto; [apply A1|]. intros p J. apply I. apply in_app_iff. auto.
Qed.
Lemma residual_agree ps k s s' x : scattered (sv_set k :: targets ps) -> sources_fixed ps -> agree (sv_set k :: targets ps) s s' -> residual ps k s x = residual ps k s' x.
Proof.
  intros S F A. unfold residual. pose proof S as S0. inversion S as [|? ? N D S']; subst. destruct A as [P [P' E]] eqn:AA. clear AA.
  destruct (set_some s (sv_set k) (Num x) N (P _ (or_introl eq_refl))) as [s1 E1]. destruct (set_some s' (sv_set k) (Num x) N (P' _ (or_introl eq_refl))) as [s1' E1'].
  rewrite E1, E1'. cbn. rewrite (pickups_agree ps s1 s1'); auto. eapply agree_step; eauto.
Qed.
Lemma residual_within ps k s x r s' : scattered (sv_set k :: targets ps) -> present s (sv_set k :: targets ps) -> residual ps k s x = Some (r, s') -> agree (sv_set k :: targets ps) s s'.
Proof.
  intros S P H. unfold residual in H. destruct (set_path s (sv_set k) (Num x)) as [s1|] eqn:E; [|discriminate]. cbn in H. destruct (pickups s1 ps) as [s2|] eqn:Q; [|discriminate]. cbn in H.
  destruct (get_path s2 (sv_get k)) as [[|y|]|]; try discriminate. cbn in H. injection H as _ <-.
  assert (A1 : agree (sv_set k :: targets ps) s s1) by (eapply agree_set; eauto; left; auto).
  eapply agree_trans; eauto. eapply pickups_within; eauto; [apply A1|]. intros p I. right. auto.
Qed.
Theorem C39_solve ps newton k init s x r s' : scattered (sv_set k :: targets ps) -> sources_fixed ps -> present s (sv_set k :: targets ps) ->
  solve1 ps newton k init s = Some (x, r, s') ->
  (exists s0, set_path s (sv_set k) (Num x) = Some s0 /\ pickups s0 ps = Some s') /\
  exists y, get_path s' (sv_get k) = Some (Num y) /\ r = (y - sv_target k)%R.
Proof.
  intros S F P H. unfold solve1 in H.
  match type of H with (do x0 <- ?a; _) = _ => destruct a as [x0|] end; [|discriminate]. cbn [obind] in H.
  destruct (search ps k (newton x0) s) as [[x1 s1]|] eqn:Q; [|discriminate]. cbn [obind fst snd] in H.
  destruct (residual ps k s1 x1) as [[r1 s2]|] eqn:E; [|discriminate]. cbn in H. injection H as -> -> ->.
  assert (A : agree (sv_set k :: targets ps) s s1).
  { clear E. revert s P Q. induction (newton x0) as [z| |z next IH]; intros s P Q; cbn in Q; [injection Q as _ <-; split; auto|discriminate|].
    destruct (residual ps k s z) as [[q t]|] eqn:E; [|discriminate]. cbn in Q. pose proof (residual_within ps k s z q t S P E) as A.
    eapply agree_trans; eauto. eapply IH; eauto. apply A. }
  split.
  - rewrite <- (residual_agree ps k s s1 x S F A) in E. unfold residual in E. destruct (set_path s (sv_set k) (Num x)) as [s0|]; [|discriminate]. cbn in E. exists s0. split; [auto|].
    destruct (pickups s0 ps) as [t|]; [|discriminate]. cbn in E. destruct (get_path t (sv_get k)) as [[|y|]|]; try discriminate. cbn in E. injection E as _ <-. auto.
  - unfold residual in E. destruct (set_path s1 (sv_set k) (Num x)); [|discriminate]. cbn in E.
  destruct (pickups v ps) as [t|]; [|discriminate]. cbn in E. destruct (get_path t (sv_get k)) as [[|y|]|] eqn:G; try discriminate. cbn in E. injection E as <- <-. eauto.
Qed.

(** validators *)
Definition fulfilled (k : validator) (s : val) : Prop := exists x, get_path s (vl_get k) = Some (Num x) /\
  (forall m, vl_min k = Some m -> (m <= x)%R) /\ (forall m, vl_max k = Some m -> (x <= m)%R) /\ (forall m, vl_eq k = Some m -> x = m).
(** without fixing: passes exactly when all hold, and changes nothing *)
Theorem C39_validate s l : (forall s', validate false s l = Some s' -> s' = s) /\ (validate false s l <> None <-> forall k, In k l -> fulfilled k s).
Proof.
  assert (ONE : forall k, validate1 false s k = Some s /\ fulfilled k s \/ validate1 false s k = None /\ ~ fulfilled k s).
  { intros k. unfold validate1. destruct (get_path s (vl_get k)) as [[|x|]|] eqn:G; cbn; try (right; split; [auto|]; intros [y [Y _]]; congruence).
    unfold check, rltb, reqb.
    assert (NF : ((exists m, vl_min k = Some m /\ x < m) \/ (exists m, vl_max k = Some m /\ m < x) \/ (exists m, vl_eq k = Some m /\ x <> m))%R -> ~ fulfilled k s).
    { intros C [y [Y [A [B D]]]]. assert (y = x) by congruence. subst. destruct C as [[m [M C]]|[[m [M C]]|[m [M C]]]]; [specialize (A m M); lra|specialize (B m M); lra|specialize (D m M); contradiction]. }
    destruct (vl_min k) as [mn|] eqn:MN; [destruct (Rlt_dec x mn)|]; cbn; [right; split; [auto|apply NF; eauto]| |];
    (destruct (vl_max k) as [mx|] eqn:MX; [destruct (Rlt_dec mx x)|]; cbn; [right; split; [auto|apply NF; eauto]| |]);
    (destruct (vl_eq k) as [me|] eqn:ME; [destruct (Req_EM_T x me)|]; cbn; [| |]);
    try (right; split; [auto|apply NF; eauto]; fail);
    left; (split; [auto|]); exists x; rewrite MN, MX, ME; (split; [auto|]); repeat split; intros m M; try discriminate; injection M as <-; try lra; auto. }
  induction l as [|k l [IH1 IH2]]; cbn.
  - split; [intros s' H; injection H; auto|]. split; [intros _ k []|discriminate].
  - destruct (ONE k) as [[E Fk]|[E Fk]]; rewrite E; cbn.
    + split; [auto|]. rewrite IH2. split; intros H q; [intros [<-|I]; auto|auto].
    + split; [discriminate|]. split; [contradiction|]. intros H. destruct (Fk (H k (or_introl eq_refl))).
Qed.
(** fixing independent, consistent validators makes all of them hold and changes no other place *)
Definition consistent (k : validator) : Prop :=
  (forall a b, vl_min k = Some a -> vl_max k = Some b -> (a <= b)%R) /\ (forall a e, vl_min k = Some a -> vl_eq k = Some e -> (a <= e)%R) /\
  (forall b e, vl_max k = Some b -> vl_eq k = Some e -> (e <= b)%R).
Theorem C39_fix l s s' : scattered (map vl_get l) -> Forall consistent l -> validate true s l = Some s' ->
  (forall k, In k l -> fulfilled k s') /\ (forall q, (forall k, In k l -> diverge (vl_get k) q) -> get_path s' q = get_path s q).
Proof.
  assert (ONE : forall k s s1, vl_get k <> [] -> consistent k -> validate1 true s k = Some s1 -> fulfilled k s1 /\ forall q, diverge (vl_get k) q -> get_path s1 q = get_path s q).
  { intros k s0 s1 N [C1 [C2 C3]] H. unfold validate1 in H. destruct (get_path s0 (vl_get k)) as [[|x|]|] eqn:G; try discriminate. cbn [obind] in H.
    set (inv := fun (t : val) (y : R) => get_path t (vl_get k) = Some (Num y) /\ forall q, diverge (vl_get k) q -> get_path t q = get_path s0 q).
    assert (I0 : inv s0 x) by (split; auto).
    assert (CH : forall bad v t y t', inv t y -> check true (vl_get k) bad v t = Some t' -> inv t' (if bad then v else y)).
    { intros bad v t y t' [T1 T2] CK. unfold check in CK. destruct bad; [|injection CK as <-; split; auto]. split; [eapply C39_get_set; eauto|].
      intros q D. rewrite (C39_get_other _ _ _ _ _ D CK). auto. }
    assert (S1 : exists t1, match vl_min k with Some m => check true (vl_get k) (rltb x m) m s0 | None => Some s0 end = Some t1 /\ inv t1 (match vl_min k with Some m => if rltb x m then m else x | None => x end)).
    { destruct (vl_min k) as [m|]; [|eauto]. destruct (check true (vl_get k) (rltb x m) m s0) as [t1|] eqn:E; [|discriminate]. exists t1. split; [auto|]. eapply CH; eauto. }
    destruct S1 as [t1 [E1 I1]]. rewrite E1 in H. cbn [obind] in H. revert I1. set (y1 := match vl_min k with Some m => if rltb x m then m else x | None => x end). intros I1.
    assert (S2 : exists t2, match vl_max k with Some m => check true (vl_get k) (rltb m x) m t1 | None => Some t1 end = Some t2 /\ inv t2 (match vl_max k with Some m => if rltb m x then m else y1 | None => y1 end)).
    { destruct (vl_max k) as [m|]; [|eauto]. destruct (check true (vl_get k) (rltb m x) m t1) as [t2|] eqn:E; [|discriminate]. exists t2. split; [auto|]. eapply CH; eauto. }
    destruct S2 as [t2 [E2 I2]]. rewrite E2 in H. cbn [obind] in H. revert I2. set (y2 := match vl_max k with Some m => if rltb m x then m else y1 | None => y1 end). intros I2.
    assert (I3 : inv s1 (match vl_eq k with Some m => if negb (reqb x m) then m else y2 | None => y2 end)).
    { destruct (vl_eq k) as [m|]; [eapply CH; eauto|]. injection H as <-. auto. }
    destruct I3 as [T1 T2]. split; [|auto]. eexists. split; [exact T1|]. clear T1 T2 I0 CH E1 I1 E2 I2 H G. subst y1 y2. unfold rltb, reqb.
    destruct (vl_min k) as [mn|], (vl_max k) as [mx|], (vl_eq k) as [me|];
      try specialize (C1 _ _ eq_refl eq_refl); try specialize (C2 _ _ eq_refl eq_refl); try specialize (C3 _ _ eq_refl eq_refl);
      repeat split; intros m M; try discriminate; injection M as <-;
      repeat match goal with |- context[Rlt_dec ?a ?b] => destruct (Rlt_dec a b) | |- context[Req_EM_T ?a ?b] => destruct (Req_EM_T a b) end; cbn; lra. }
  intros S C. revert s. induction l as [|k l IH]; intros s H; cbn in H.
  - injection H as <-. split; [intros k []|auto].
  - inversion S as [|? ? N D S']; subst. inversion C as [|? ? Ck C']; subst. destruct (validate1 true s k) as [s1|] eqn:E; [|discriminate]. cbn in H.
    destruct (ONE k s s1 N Ck E) as [Fk O]. destruct (IH S' C' s1 H) as [A B]. split.
    + intros q [<-|I]; [|auto]. destruct Fk as [x [X R]]. exists x. split; [|auto]. rewrite B; [auto|]. intros k' I. apply diverge_sym. apply D. apply in_map. auto.
    + intros q Q. rewrite B by (intros; apply Q; right; auto). apply O. apply Q. left. auto.
Qed.
(** finding: two validators of one place can undo each other *)
Theorem C39_fix_same_place_refuted : exists l s s' k, Forall consistent l /\ validate true s l = Some s' /\ In k l /\ ~ fulfilled k s'.
Proof.
  set (p := [Attr "a"]%string). exists [Validator p (Some 2%R) None None; Validator p None (Some 1%R) None], (Obj [("a"%string, Num 0)] []).
  assert (E : validate true (Obj [("a"%string, Num 0)] []) [Validator p (Some 2%R) None None; Validator p None (Some 1%R) None] = Some (Obj [("a"%string, Num 1)] [])).
  { cbn. unfold validate1 at 1. cbn. unfold check, rltb. destruct (Rlt_dec 0 2); [|lra]. cbn. unfold validate1. cbn. unfold check, rltb. destruct (Rlt_dec 1 2); [|lra]. cbn. reflexivity. }
  eexists. exists (Validator p (Some 2%R) None None). split; [|split; [exact E|split; [left; auto|]]].
  - repeat constructor; cbn; intros; discriminate.
  - intros [x [X [A _]]]. cbn in X. injection X as <-. specialize (A _ eq_refl). lra.
Qed.
(** ** C39: list items by index: from the front, or negative from the end; anything else fails *)
Theorem C39_index a it i : step (Obj a it) (Idx i) =
  if (Z.leb 0 i) then (if Z.ltb i (Z.of_nat (length it)) then nth_error it (Z.to_nat i) else None)
  else match rev it with l => if Z.leb (- i) (Z.of_nat (length it)) then nth_error l (Z.to_nat (- i - 1)) else None end.
Proof.
  assert (NR : forall n, (n < length it)%nat -> nth_error (rev it) n = nth_error it (length it - S n)).
  { intros n H. destruct (nth_error it (length it - S n)) as [x|] eqn:E; [|apply nth_error_None in E; lia].
    rewrite (nth_error_nth' (rev it) x) by (rewrite rev_length; auto). rewrite rev_nth by auto. f_equal. apply nth_error_nth. auto. }
  cbn [step]. unfold position. destruct (Z.ltb_spec i 0), (Z.leb_spec 0 i); try lia; cbn zeta.
  - destruct (Z.leb_spec 0 (i + Z.of_nat (length it))), (Z.leb_spec (- i) (Z.of_nat (length it))); try lia; cbn [andb]; [|reflexivity].
    destruct (Z.ltb_spec (i + Z.of_nat (length it)) (Z.of_nat (length it))); [|lia]. rewrite NR by lia. f_equal. lia.
  - destruct (Z.leb_spec 0 i); [|lia]. cbn [andb]. destruct (Z.ltb i (Z.of_nat (length it))); reflexivity.
Qed.
Example C39_index_example : step (Obj [] [Num 1; Num 2; Num 3]) (Idx (-1)) = Some (Num 3) /\ step (Obj [] [Num 1; Num 2; Num 3]) (Idx 0) = Some (Num 1) /\ step (Obj [] [Num 1; Num 2; Num 3]) (Idx (-4)) = None.
Proof. repeat split. Qed.
(** ** C39: a solve starts at the given number or else at the present value of its variable: what the root finder returns for that start
    is written, and the residual found there reported *)
Theorem C39_solve_start ps newton k init s x0 x1 y s' :
  init = Some x0 \/ (init = None /\ get_path s (sv_set k) = Some (Num x0)) ->
  newton x0 = Return x1 -> residual ps k s x1 = Some (y, s') -> solve1 ps newton k init s = Some (x1, y, s').
Proof.
  intros I N R. unfold solve1. assert (E : match init with Some x => Some x | None => do v <- get_path s (sv_set k); match v with Num x => Some x | _ => None end end = Some x0) by (destruct I as [->|[-> ->]]; reflexivity).
  rewrite E. cbn [obind]. rewrite N. cbn [search obind fst snd]. rewrite R. reflexivity.
Qed.
Example C39_solve_start_example : let s := Obj [("a", Num 3); ("b", Num 3)]%string [] in let k := Solve [Attr "a"]%string [Attr "a"]%string 1 in
  solve1 [] (fun x => Return x) k None s = Some (3, 3 - 1, s)%R /\ solve1 [] (fun x => Return x) k (Some 5%R) s = Some (5, 5 - 1, Obj [("a", Num 5); ("b", Num 3)]%string [])%R.
Proof. repeat split. Qed.
(** ** C39: a pickup without a source stores None *)
Theorem C39_pickup_null s p : pickup1 s (Pickup None None None (Some p)) = set_path s p Null.
Proof. reflexivity. Qed.
Example C39_example : let s := Obj [] [Obj [("curvature", Num 1); ("distance", Num 2)]%string []; Obj [("curvature", Num 0)]%string []] in
  let src := [Idx 0; Attr "curvature"]%string in let dst := [Idx 1; Attr "curvature"]%string in let var := [Idx 0; Attr "distance"]%string in
  let ps := [Pickup (Some src) (Some (-1)%R) None (Some dst)] in
  well_ordered ps /\ scattered (var :: targets ps) /\ sources_fixed ps /\ present s (var :: targets ps) /\ scattered [src; dst] /\
  exists s', pickups s ps = Some s'.
Proof.
  intros s src dst var ps.
  assert (D1 : diverge dst src) by (apply div_here; cbn; lia). assert (D2 : diverge var dst) by (apply div_here; cbn; lia).
  assert (D3 : diverge src dst) by (apply div_here; cbn; lia).
  split; [split; [exists src, dst; split; [auto|split; [auto|split; [auto|intros k' []]]]|exact I]|].
  split; [constructor; [discriminate| |constructor; [discriminate|intros q []|constructor]]; intros q [<-|[]]; auto|].
  split; [split; [|exact I]; intros g p G [<-|[]]; injection G as <-; auto|].
  split; [intros p [<-|[<-|[]]]; cbn; discriminate|].
  split; [constructor; [discriminate| |constructor; [discriminate|intros q []|constructor]]; intros q [<-|[]]; auto|].
  eexists. reflexivity.
Qed.
Print Assumptions C39_get_set.
Print Assumptions C39_set_get.
Print Assumptions C39_set_set.
Print Assumptions C39_get_other.
Print Assumptions C39_commute.
Print Assumptions C39_writable.
Print Assumptions C39_pickups.
Print Assumptions C39_pickup_order_refuted.
Print Assumptions C39_solve.
Print Assumptions C39_validate.
Print Assumptions C39_fix.
Print Assumptions C39_fix_same_place_refuted.

Print Assumptions C39_index.
Print Assumptions C39_solve_start.
Print Assumptions C39_pickup_null.
