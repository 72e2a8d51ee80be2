(** Properties of lens groups (C44) and of rims and edges (C52). *)
From Coq Require Import Reals List Arith Bool Sorted Lia Lra.
From Verif Require Import Base Vec RotModel PlacementModel ElementModel GroupsModel LayoutModel.
Import ListNotations.
Open Scope nat_scope.

(** * specification, on positions *)
Definition at_ (P : element -> bool) (s : list element) (i : nat) : Prop := exists e, nth_error s i = Some e /\ P e = true.
(** a surface that closes a lens: it has a material attribute but what follows is not solid *)
Definition closer (e : element) : bool := has_material e && negb (solid e).
(** the position belongs to a lens: a mirror, or glass starts at or before it and is not closed before it *)
Definition in_lens (s : list element) (i : nat) : Prop :=
  i < length s /\ exists j, j <= i /\ (at_ solid s j \/ (j = i /\ at_ is_mirror s i)) /\ forall k, j < k < i -> ~ at_ closer s k.

Lemma solid_has e : solid e = true -> has_material e = true.
Proof. unfold solid, has_material. destruct (e_kind e) as [|[m|] f]; auto; intros H; discriminate H. Qed.
Lemma mirror_has e : is_mirror e = true -> has_material e = true.
Proof. unfold is_mirror, has_material. destruct (e_kind e) as [|[m|] f]; auto; intros H; discriminate H. Qed.
Lemma at_cons P e s i : at_ P (e :: s) (S i) <-> at_ P s i. Proof. reflexivity. Qed.
Lemma at_0 P e s : at_ P (e :: s) 0 <-> P e = true.
Proof. split; [intros (x & H & Q); injection H as <-; auto|intros H; exists e; auto]. Qed.

(** glass open before the first element: the same with a solid surface in front *)
Definition in_lens_open (s : list element) (i : nat) : Prop := in_lens s i \/ (i < length s /\ forall k, k < i -> ~ at_ closer s k).

Lemma in_lens_open_S e s i : in_lens_open (e :: s) (S i) <-> (if solid e then in_lens_open s i else if closer e then in_lens s i else in_lens_open s i).
Proof.
  assert (SC : solid e = true -> closer e = false) by (intros E; unfold closer; rewrite E; destruct (has_material e); auto).
  destruct (solid e) eqn:SE; [|destruct (closer e) eqn:C].
  - split.
    + intros [(L & j & J & A & K)|(L & K)]; cbn [length] in L.
      * destruct j as [|j].
        { right. split; [lia|]. intros k Hk. exact (K (S k) ltac:(lia)). }
        left. split; [lia|]. exists j. split; [lia|]. split; [destruct A as [A|[A1 A2]]; [left; exact A|right; split; [lia|exact A2]]|]. intros k Hk. exact (K (S k) ltac:(lia)).
      * right. split; [lia|]. intros k Hk. exact (K (S k) ltac:(lia)).
    + intros [(L & j & J & A & K)|(L & K)].
      * left. split; [cbn; lia|]. exists (S j). split; [lia|]. split; [destruct A as [A|[A1 A2]]; [left; exact A|right; split; [lia|exact A2]]|]. intros [|k] Hk; [lia|]. exact (K k ltac:(lia)).
      * right. split; [cbn; lia|]. intros [|k] Hk; [rewrite at_0, SC by auto; discriminate|]. exact (K k ltac:(lia)).
  - split.
    + intros [(L & j & J & A & K)|(L & K)]; cbn [length] in L.
      * destruct j as [|j]; [destruct A as [A|[A _]]; [apply at_0 in A; congruence|lia]|]. split; [lia|]. exists j. split; [lia|]. split; [destruct A as [A|[A1 A2]]; [left; exact A|right; split; [lia|exact A2]]|]. intros k Hk. exact (K (S k) ltac:(lia)).
      * exfalso. apply (K 0); [lia|]. apply at_0. auto.
    + intros (L & j & J & A & K). left. split; [cbn; lia|]. exists (S j). split; [lia|]. split; [destruct A as [A|[A1 A2]]; [left; exact A|right; split; [lia|exact A2]]|]. intros [|k] Hk; [lia|]. exact (K k ltac:(lia)).
  - split.
    + intros [(L & j & J & A & K)|(L & K)]; cbn [length] in L.
      * destruct j as [|j]; [destruct A as [A|[A _]]; [apply at_0 in A; congruence|lia]|]. left. split; [lia|]. exists j. split; [lia|]. split; [destruct A as [A|[A1 A2]]; [left; exact A|right; split; [lia|exact A2]]|]. intros k Hk. exact (K (S k) ltac:(lia)).
      * right. split; [lia|]. intros k Hk. exact (K (S k) ltac:(lia)).
    + intros [(L & j & J & A & K)|(L & K)].
      * left. split; [cbn; lia|]. exists (S j). split; [lia|]. split; [destruct A as [A|[A1 A2]]; [left; exact A|right; split; [lia|exact A2]]|]. intros [|k] Hk; [lia|]. exact (K k ltac:(lia)).
      * right. split; [cbn; lia|]. intros [|k] Hk; [rewrite at_0; congruence|]. exact (K k ltac:(lia)).
Qed.
Lemma in_lens_S e s i : in_lens (e :: s) (S i) <-> (if solid e then in_lens_open s i else in_lens s i).
Proof.
  destruct (solid e) eqn:SE.
  - assert (SC : closer e = false) by (unfold closer; rewrite SE; destruct (has_material e); auto). split.
    + intros (L & j & J & A & K); cbn [length] in L. destruct j as [|j].
      { right. split; [lia|]. intros k Hk. exact (K (S k) ltac:(lia)). }
      left. split; [lia|]. exists j. split; [lia|]. split; [destruct A as [A|[A1 A2]]; [left; exact A|right; split; [lia|exact A2]]|]. intros k Hk. exact (K (S k) ltac:(lia)).
    + intros [(L & j & J & A & K)|(L & K)].
      * split; [cbn; lia|]. exists (S j). split; [lia|]. split; [destruct A as [A|[A1 A2]]; [left; exact A|right; split; [lia|exact A2]]|]. intros [|k] Hk; [lia|]. exact (K k ltac:(lia)).
      * split; [cbn; lia|]. exists 0. split; [lia|]. split; [left; apply at_0; auto|]. intros [|k] Hk; [lia|]. exact (K k ltac:(lia)).
  - split.
    + intros (L & j & J & A & K); cbn [length] in L. destruct j as [|j]; [destruct A as [A|[A _]]; [apply at_0 in A; congruence|lia]|].
      split; [lia|]. exists j. split; [lia|]. split; [destruct A as [A|[A1 A2]]; [left; exact A|right; split; [lia|exact A2]]|]. intros k Hk. exact (K (S k) ltac:(lia)).
    + intros (L & j & J & A & K). split; [cbn; lia|]. exists (S j). split; [lia|]. split; [destruct A as [A|[A1 A2]]; [left; exact A|right; split; [lia|exact A2]]|]. intros [|k] Hk; [lia|]. exact (K k ltac:(lia)).
Qed.

(** unfolding of one step *)
Definition is_open (g : list nat) : bool := match g with [] => false | _ => true end.
Lemma groups_step i g e s : groups_from i g (e :: s) =
  if solid e then groups_from (S i) (g ++ [i]) s
  else if closer e then (if is_open g || is_mirror e then (g ++ [i]) :: groups_from (S i) [] s else groups_from (S i) g s)
  else if is_open g then groups_from (S i) (g ++ [i]) s else groups_from (S i) g s.
Proof.
  cbn [groups_from]. unfold closer. pose proof (solid_has e). destruct (has_material e) eqn:M; cbn [andb].
  - destruct (solid e); cbn [negb]; [auto|]. destruct g; auto.
  - destruct (solid e); [specialize (H eq_refl); discriminate|]. destruct g; auto.
Qed.
Lemma seq_snoc a n : seq a n ++ [a + n] = seq a (S n).
Proof. rewrite <- seq_S. auto. Qed.

(** the flattened groups are increasing and contain exactly the lens positions *)
Lemma groups_flat s : forall i n, n <= i -> 
  exists l, concat (groups_from i (seq (i - n) n) s) = seq (i - n) n ++ map (Nat.add i) l /\ StronglySorted lt l /\
    (forall x, In x l <-> if n =? 0 then in_lens s x else in_lens_open s x).
Proof.
  induction s as [|e s IH]; intros i n N.
  - exists []. split; [destruct n; cbn; [auto|rewrite !app_nil_r; auto]|]. split; [constructor|]. intros x. split; [intros []|]. destruct (n =? 0).
    + intros (L & _). cbn in L. lia.
    + intros [(L & _)|(L & _)]; cbn in L; lia.
  - rewrite groups_step. assert (OP : is_open (seq (i - n) n) = negb (n =? 0)) by (destruct n; auto). rewrite OP.
    assert (SN : seq (i - n) n ++ [i] = seq (S i - S n) (S n)) by (replace i with (i - n + n) at 2 by lia; rewrite seq_snoc; f_equal; lia).
    assert (MI : forall l, map (Nat.add i) (map S l) = map (Nat.add (S i)) l) by (intros; rewrite map_map; apply map_ext; intros; lia).
    assert (SS : forall l, StronglySorted lt l -> StronglySorted lt (map S l)).
    { clear. induction 1; cbn; constructor; auto. rewrite Forall_forall in *. intros y I. apply in_map_iff in I. destruct I as (z & <- & I). specialize (H0 z I). lia. }
    assert (S0 : forall l, StronglySorted lt l -> StronglySorted lt (0 :: map S l)).
    { intros l HL. constructor; auto. rewrite Forall_forall. intros y I. apply in_map_iff in I. destruct I as (z & <- & _). lia. }
    assert (IN : forall l (P Q : nat -> Prop), (forall x, In x l <-> Q x) -> (forall x, P (S x) <-> Q x) -> P 0 -> forall x, In x (0 :: map S l) <-> P x).
    { intros l P Q H1 H2 H3 x. split.
      - intros [<-|I]; [auto|]. apply in_map_iff in I. destruct I as (y & <- & I). apply H2, H1. auto.
      - intros HP. destruct x as [|x]; [left; auto|]. right. apply in_map, H1, H2. auto. }
    assert (IO : forall l (P Q : nat -> Prop), (forall x, In x l <-> Q x) -> (forall x, P (S x) <-> Q x) -> ~ P 0 -> forall x, In x (map S l) <-> P x).
    { intros l P Q H1 H2 H3 x. split.
      - intros I. apply in_map_iff in I. destruct I as (y & <- & I). apply H2, H1. auto.
      - intros HP. destruct x as [|x]; [contradiction|]. apply in_map, H1, H2. auto. }
    assert (O0 : forall x, in_lens_open (x :: s) 0) by (intros x; right; split; [cbn; lia|intros; lia]).
    assert (L0 : in_lens (e :: s) 0 <-> solid e = true \/ is_mirror e = true).
    { split.
      - intros (_ & j & J & A & _). assert (j = 0) by lia. subst. rewrite !at_0 in A. tauto.
      - intros A. split; [cbn; lia|]. exists 0. split; [lia|]. rewrite !at_0. split; [tauto|]. intros; lia. }
    assert (G1 : forall n', concat (groups_from (S i) (seq (S i - S n') (S n')) s) = concat (groups_from (S i) (seq (S i - S n') (S n')) s)) by auto.
    destruct (solid e) eqn:SE; [|destruct (closer e) eqn:CE].
    + rewrite SN. destruct (IH (S i) (S n) ltac:(lia)) as (l & C & SL & IL). exists (0 :: map S l). cbn [map]. rewrite MI. split.
      { rewrite C, <- SN, <- app_assoc. do 2 f_equal. cbn. f_equal. lia. } split; [auto|]. cbn [Nat.eqb] in IL.
      intros x. destruct (n =? 0).
      * apply (IN l _ _ IL); [intros y; rewrite in_lens_S, SE; tauto|apply L0; auto].
      * apply (IN l _ _ IL); [intros y; rewrite in_lens_open_S, SE; tauto|auto].
    + destruct (IH (S i) 0 ltac:(lia)) as (l & C & SL & IL). change (seq (S i - 0) 0) with (@nil nat) in C. cbn [app] in C. cbn [Nat.eqb] in IL. destruct (n =? 0) eqn:NZ; cbn [negb orb].
      * apply Nat.eqb_eq in NZ. subst n. cbn [seq app]. destruct (is_mirror e) eqn:ME.
        { exists (0 :: map S l). cbn [map concat app]. rewrite MI, C. split; [f_equal; lia|]. split; [auto|]. intros x. apply (IN l _ _ IL); [intros y; rewrite in_lens_S, SE; tauto|apply L0; auto]. }
        { exists (map S l). rewrite MI, C. split; [auto|]. split; [auto|]. intros x. apply (IO l _ _ IL); [intros y; rewrite in_lens_S, SE; tauto|]. rewrite L0. intros [H|H]; congruence. }
      * exists (0 :: map S l). cbn [map concat]. rewrite MI, C, <- app_assoc. split; [do 2 f_equal; cbn; f_equal; lia|]. split; [auto|]. intros x. apply (IN l _ _ IL); [intros y; rewrite in_lens_open_S, SE, CE; tauto|auto].
    + assert (ME : is_mirror e = false). { destruct (is_mirror e) eqn:ME; [|auto]. apply mirror_has in ME. unfold closer in CE. rewrite ME, SE in CE. discriminate. }
      destruct (n =? 0) eqn:NZ; cbn [negb].
      * apply Nat.eqb_eq in NZ. subst n. cbn [seq app]. destruct (IH (S i) 0 ltac:(lia)) as (l & C & SL & IL). change (seq (S i - 0) 0) with (@nil nat) in C. cbn [app] in C. cbn [Nat.eqb] in IL.
        exists (map S l). rewrite MI, C. split; [auto|]. split; [auto|]. intros x. apply (IO l _ _ IL); [intros y; rewrite in_lens_S, SE; tauto|]. rewrite L0. intros [H|H]; congruence.
      * rewrite SN. destruct (IH (S i) (S n) ltac:(lia)) as (l & C & SL & IL). exists (0 :: map S l). cbn [map]. rewrite MI. split.
        { rewrite C, <- SN, <- app_assoc. do 2 f_equal. cbn. f_equal. lia. } split; [auto|]. cbn [Nat.eqb] in IL. intros x. apply (IN l _ _ IL); [intros y; rewrite in_lens_open_S, SE, CE; tauto|auto].
Qed.
(** every group is a run of positions that ends at its only closing surface, the last one may be open *)
Lemma groups_shape s : forall i n, n <= i -> (forall g, In g (groups_from i (seq (i - n) n) s) ->
    exists a k, g = seq a (S k) /\ i - n <= a /\ (forall x, a <= x < a + k -> i <= x -> ~ at_ closer s (x - i)) /\ (n <> 0 -> a < i -> a = i - n)) /\
  (forall gs g h, groups_from i (seq (i - n) n) s = gs ++ g :: h -> h <> [] -> exists a k, g = seq a (S k) /\ i <= a + k /\ at_ closer s (a + k - i)).
Proof.
  induction s as [|e s IH]; intros i n N.
  - cbn [groups_from]. destruct n as [|n]; cbn [seq]; split.
    + intros g [].
    + intros [|] ? ? H; discriminate H.
    + intros g [<-|[]]. exists (i - S n), n. split; [auto|]. split; [lia|]. split; [intros x X1 X2; lia|]. auto.
    + intros gs g h H NE. exfalso. destruct gs as [|a gs]; [injection H as <- <-; auto|]. injection H as <- H. destruct gs; discriminate H.
  - assert (SC : forall x, S i <= x -> at_ closer (e :: s) (x - i) <-> at_ closer s (x - S i)) by (intros x X; replace (x - i) with (S (x - S i)) by lia; apply at_cons).
    rewrite groups_step. assert (OP : is_open (seq (i - n) n) = negb (n =? 0)) by (destruct n; auto). rewrite OP.
    assert (SN : seq (i - n) n ++ [i] = seq (S i - S n) (S n)) by (replace i with (i - n + n) at 2 by lia; rewrite seq_snoc; f_equal; lia).
    assert (GO : closer e = false -> 
      (forall g, In g (groups_from (S i) (seq (S i - S n) (S n)) s) ->
    exists a k, g = seq a (S k) /\ i - n <= a /\ (forall x, a <= x < a + k -> i <= x -> ~ at_ closer (e :: s) (x - i)) /\ (n <> 0 -> a < i -> a = i - n)) /\
  (forall gs g h, groups_from (S i) (seq (S i - S n) (S n)) s = gs ++ g :: h -> h <> [] -> exists a k, g = seq a (S k) /\ i <= a + k /\ at_ closer (e :: s) (a + k - i))).
    { intros CE. destruct (IH (S i) (S n) ltac:(lia)) as [G1 G2]. split.
      - intros g I. destruct (G1 g I) as (a & k & E & A & C & B). exists a, k. split; [auto|]. split; [lia|]. split.
        + intros x X1 X2. destruct (Nat.eq_dec x i) as [->|]; [rewrite Nat.sub_diag, at_0; congruence|]. rewrite SC by lia. apply C; lia.
        + intros NZ AI. specialize (B ltac:(lia) ltac:(lia)). lia.
      - intros gs g h H NE. destruct (G2 gs g h H NE) as (a & k & E & A & C). exists a, k. split; [auto|]. split; [lia|]. rewrite SC by lia. auto. }
    assert (GC : (forall g, In g (groups_from (S i) [] s) ->
    exists a k, g = seq a (S k) /\ i < a /\ (forall x, a <= x < a + k -> i <= x -> ~ at_ closer (e :: s) (x - i))) /\
  (forall gs g h, groups_from (S i) [] s = gs ++ g :: h -> h <> [] -> exists a k, g = seq a (S k) /\ i <= a + k /\ at_ closer (e :: s) (a + k - i))).
    { destruct (IH (S i) 0 ltac:(lia)) as [G1 G2]. change (seq (S i - 0) 0) with (@nil nat) in G1, G2. split.
      - intros g I. destruct (G1 g I) as (a & k & E & A & C & B). exists a, k. split; [auto|]. split; [lia|]. intros x X1 X2. rewrite SC by lia. apply C; lia.
      - intros gs g h H NE. destruct (G2 gs g h H NE) as (a & k & E & A & C). exists a, k. split; [auto|]. split; [lia|]. rewrite SC by lia. auto. }
    destruct GC as [GC1 GC2].
    assert (CL : closer e = true -> (forall g, In g ((seq (i - n) n ++ [i]) :: groups_from (S i) [] s) ->
    exists a k, g = seq a (S k) /\ i - n <= a /\ (forall x, a <= x < a + k -> i <= x -> ~ at_ closer (e :: s) (x - i)) /\ (n <> 0 -> a < i -> a = i - n)) /\
  (forall gs g h, (seq (i - n) n ++ [i]) :: groups_from (S i) [] s = gs ++ g :: h -> h <> [] -> exists a k, g = seq a (S k) /\ i <= a + k /\ at_ closer (e :: s) (a + k - i))).
    { intros CE. split.
      - intros g [<-|I].
        + exists (i - n), n. rewrite SN. split; [f_equal|]. split; [lia|]. split; [intros; lia|auto].
        + destruct (GC1 g I) as (a & k & E & A & C). exists a, k. split; [auto|]. split; [lia|]. split; [auto|]. intros; lia.
      - intros gs g h H NE. destruct gs as [|g0 gs].
        + injection H as <- <-. exists (i - n), n. rewrite SN. split; [f_equal|]. split; [lia|]. replace (i - n + n - i) with 0 by lia. apply at_0. auto.
        + injection H as _ H. apply (GC2 gs g h); auto. }
    assert (NO : n = 0 -> (forall g, In g (groups_from (S i) (seq (i - n) n) s) ->
    exists a k, g = seq a (S k) /\ i - n <= a /\ (forall x, a <= x < a + k -> i <= x -> ~ at_ closer (e :: s) (x - i)) /\ (n <> 0 -> a < i -> a = i - n)) /\
  (forall gs g h, groups_from (S i) (seq (i - n) n) s = gs ++ g :: h -> h <> [] -> exists a k, g = seq a (S k) /\ i <= a + k /\ at_ closer (e :: s) (a + k - i))).
    { intros ->. cbn [seq]. split; [|exact GC2]. intros g I. destruct (GC1 g I) as (a & k & E & A & C). exists a, k. split; [auto|]. split; [lia|]. split; [auto|]. intros; lia. }
    destruct (solid e) eqn:SE; [|destruct (closer e) eqn:CE].
    + rewrite SN. apply GO. unfold closer. rewrite SE. destruct (has_material e); auto.
    + destruct (n =? 0) eqn:NZ; cbn [negb orb].
      * apply Nat.eqb_eq in NZ. destruct (is_mirror e); auto.
      * auto.
    + destruct (n =? 0) eqn:NZ; cbn [negb].
      * apply Nat.eqb_eq in NZ. auto.
      * rewrite SN. auto.
Qed.

Lemma sorted_app_unique (ll : list (list nat)) : StronglySorted lt (concat ll) -> forall i j a b x, nth_error ll i = Some a -> nth_error ll j = Some b -> In x a -> In x b -> i = j.
Proof.
  assert (K : forall (l m : list nat), StronglySorted lt (l ++ m) -> StronglySorted lt m /\ forall x, In x l -> In x m -> False).
  { induction l as [|y l IH]; intros m H; [split; [auto|intros x []]|]. cbn in H. inversion H as [|? ? H1 H2]; subst. destruct (IH m H1) as [A B]. split; [auto|]. intros x [<-|I] M; [|eauto].
    rewrite Forall_forall in H2. specialize (H2 y ltac:(apply in_or_app; auto)). lia. }
  induction ll as [|l ll IH]; intros SS i j a b x A B XA XB; [destruct i; discriminate A|]. cbn in SS. destruct (K l (concat ll) SS) as [SL D].
  assert (C : forall k c, nth_error ll k = Some c -> In x c -> In x (concat ll)) by (intros k c N I; apply in_concat; exists c; split; [eapply nth_error_In; eauto|auto]).
  destruct i as [|i], j as [|j]; cbn in A, B.
  - auto.
  - injection A as <-. exfalso. eauto.
  - injection B as <-. exfalso. eauto.
  - f_equal. eauto.
Qed.

(** * C44 *)
(** Read one after the other the groups are strictly increasing positions, exactly the lens positions, so
    every glass surface is in exactly one group *)
Theorem C44_partition s : StronglySorted lt (concat (groups s)) /\
  (forall i, (exists g, In g (groups s) /\ In i g) <-> in_lens s i) /\
  (forall i a b ga gb, nth_error (groups s) a = Some ga -> nth_error (groups s) b = Some gb -> In i ga -> In i gb -> a = b).
Proof.
  destruct (groups_flat s 0 0 ltac:(lia)) as (l & C & SL & IL). cbn [seq Nat.sub app] in C. change (groups_from 0 [] s) with (groups s) in C. rewrite map_id in C. cbn [Nat.eqb] in IL. rewrite C.
  split; [auto|]. split.
  - intros i. rewrite <- IL, <- C, in_concat. tauto.
  - intros i a b ga gb A B. apply (sorted_app_unique (groups s)) with (x := i); auto. rewrite C. auto.
Qed.
(** Every group is an unbroken run whose inner surfaces do not close it, and every group but the last ends
    with a closing surface *)
Theorem C44_runs s : (forall g, In g (groups s) -> exists a k, g = seq a (S k) /\ forall x, a <= x < a + k -> ~ at_ closer s x) /\
  (forall gs g h, groups s = gs ++ g :: h -> h <> [] -> exists a k, g = seq a (S k) /\ at_ closer s (a + k)).
Proof.
  destruct (groups_shape s 0 0 ltac:(lia)) as [G1 G2]. cbn [seq Nat.sub] in G1, G2. split.
  - intros g I. destruct (G1 g I) as (a & k & E & _ & C & _). exists a, k. split; [auto|]. intros x X. specialize (C x X ltac:(lia)). rewrite Nat.sub_0_r in C. auto.
  - intros gs g h E NE. destruct (G2 gs g h E NE) as (a & k & E' & _ & C). rewrite Nat.sub_0_r in C. eauto.
Qed.
(** the documentation of groups: gas solid+ (mirror solid+)+ gas is one group *)
Definition glass : material := Material (fun _ => 1%R) false true.
Definition gas : material := Material (fun _ => 1%R) false false.
Definition mirror_ : material := Material (fun _ => 1%R) true false.
Definition flat (p : placement) (m : option material) : element := El p (Some 1%R) (Sph m (Surf 0 0 None false)).
Theorem C44_mirror_refuted p : groups [flat p (Some glass); flat p (Some mirror_); flat p (Some glass); flat p (Some gas)] = [[0; 1]; [2; 3]].
Proof. reflexivity. Qed.
(** a stop before a cemented doublet, a stop inside it, a mirror, an unfinished lens *)
Example C44_example p : groups [El p None Plain; flat p (Some glass); flat p (Some glass); El p None Plain; flat p None; flat p (Some gas); flat p (Some mirror_); flat p (Some glass)]
  = [[1; 2; 3; 4]; [6]; [7]].
Proof. reflexivity. Qed.

(** * C52: rims and edges *)
Open Scope R_scope.
(** order of radii, [None] is infinite *)
Definition ext_le (a b : option R) : Prop := match a, b with _, None => True | None, Some _ => False | Some x, Some y => x <= y end.
Lemma ext_refl a : ext_le a a. Proof. destruct a; cbn; lra. Qed.
Lemma ext_trans a b c : ext_le a b -> ext_le b c -> ext_le a c.
Proof. destruct a, b, c; cbn; auto; try tauto. lra. Qed.
Lemma ext_max_l a b : ext_le a (rad_max a b). Proof. destruct a, b; cbn; auto. apply Rmax_l. Qed.
Lemma ext_max_r a b : ext_le b (rad_max a b). Proof. destruct a, b; cbn; auto. apply Rmax_r. Qed.
Lemma ext_max_or a b : rad_max a b = a \/ rad_max a b = b.
Proof. destruct a, b; cbn; auto. unfold Rmax. destruct (Rle_dec r r0); auto. Qed.

Lemma put_same {A} (f : nat -> A) i r : put f i r i = r. Proof. unfold put. rewrite Nat.eqb_refl. auto. Qed.
Lemma put_other {A} (f : nat -> A) i j r : j <> i -> put f i r j = f j. Proof. intros N. unfold put. destruct (Nat.eqb_spec j i); [contradiction|auto]. Qed.

(** the next surface with a material attribute after [p] *)
Definition next_surface (s : list element) (p e : nat) : Prop := (p < e)%nat /\ at_ has_material s p /\ at_ has_material s e /\ forall k, (p < k < e)%nat -> ~ at_ has_material s k.
Definition curv_at (s : list element) (j : nat) : R := match nth_error s j with Some e => curvature e | None => 0 end.

Definition pair_step (i : nat) (c : R) (pending : option nat) (c0 : R) (rad : nat -> option R) : nat -> option R :=
  match pending with
  | None => rad
  | Some p => let r := rad_max (rad i) (rad p) in let rad := if Rle_dec c 0 then put rad i r else rad in if Rlt_dec 0 c0 then put rad p r else rad
  end.
Lemma pair_step_spec i c pending c0 rad : (forall p, pending = Some p -> (p < i)%nat) ->
  let r := pair_step i c pending c0 rad in
  (forall j, ext_le (rad j) (r j)) /\ (forall j, exists k, r j = rad k) /\
  (forall j, j <> i -> pending <> Some j -> r j = rad j) /\
  (pending = None -> r i = rad i) /\
  (forall p, pending = Some p -> (~ 0 < c0 -> r p = rad p) /\ (c <= 0 -> ext_le (r p) (r i)) /\ (0 < c0 -> ext_le (r i) (r p))).
Proof.
  intros P r. unfold r, pair_step. destruct pending as [p|].
  - specialize (P p eq_refl). assert (N1 : p <> i) by lia. assert (N2 : i <> p) by lia. set (m := rad_max (rad i) (rad p)).
    pose proof (ext_max_l (rad i) (rad p)) as ML. pose proof (ext_max_r (rad i) (rad p)) as MR. pose proof (ext_max_or (rad i) (rad p)) as MO. fold m in ML, MR, MO.
    assert (MK : exists k, m = rad k) by (destruct MO as [-> | ->]; eauto).
    split; [|split; [|split; [|split]]].
    + intros j. destruct (Nat.eq_dec j p) as [->|NP]; [|destruct (Nat.eq_dec j i) as [->|NI]].
      * destruct (Rlt_dec 0 c0); [rewrite put_same; auto|]. destruct (Rle_dec c 0); [rewrite put_other by auto|]; apply ext_refl.
      * destruct (Rlt_dec 0 c0); [rewrite put_other by auto|]; (destruct (Rle_dec c 0); [rewrite put_same; auto|apply ext_refl]).
      * destruct (Rlt_dec 0 c0); [rewrite put_other by auto|]; (destruct (Rle_dec c 0); [rewrite put_other by auto|]; apply ext_refl).
    + intros j. destruct (Nat.eq_dec j p) as [->|NP]; [|destruct (Nat.eq_dec j i) as [->|NI]].
      * destruct (Rlt_dec 0 c0); [rewrite put_same; auto|]. destruct (Rle_dec c 0); [rewrite put_other by auto|]; eauto.
      * destruct (Rlt_dec 0 c0); [rewrite put_other by auto|]; (destruct (Rle_dec c 0); [rewrite put_same; auto|eauto]).
      * destruct (Rlt_dec 0 c0); [rewrite put_other by auto|]; (destruct (Rle_dec c 0); [rewrite put_other by auto|]; eauto).
    + intros j NI NP. assert (j <> p) by congruence. destruct (Rlt_dec 0 c0); [rewrite put_other by auto|]; (destruct (Rle_dec c 0); [rewrite put_other by auto|]; auto).
    + intros H; discriminate H.
    + intros q H. injection H as <-. split; [|split].
      * intros N. destruct (Rlt_dec 0 c0); [contradiction|]. destruct (Rle_dec c 0); [rewrite put_other by auto|]; auto.
      * intros C. destruct (Rle_dec c 0); [|contradiction]. destruct (Rlt_dec 0 c0); [rewrite put_same, (put_other _ p i), put_same by auto; apply ext_refl|rewrite put_same, put_other by auto; auto].
      * intros C. destruct (Rlt_dec 0 c0); [|contradiction]. rewrite put_same, put_other by auto. destruct (Rle_dec c 0); [rewrite put_same; apply ext_refl|auto].
  - split; [intros; apply ext_refl|]. split; [eauto|]. split; [auto|]. split; [auto|]. intros p H; discriminate H.
Qed.
Lemma resize_step i e s pending c0 rad : resize_from i (e :: s) pending c0 rad =
  if has_material e then
    if opens e then resize_from (S i) s (Some i) (curvature e) (pair_step i (curvature e) pending c0 rad)
    else resize_from (S i) s None c0 (pair_step i (curvature e) pending c0 rad)
  else resize_from (S i) s pending c0 rad.
Proof. reflexivity. Qed.

Lemma at_neg P e s : ~ at_ P (e :: s) 0 <-> P e = false.
Proof. rewrite at_0. destruct (P e); split; congruence. Qed.
Lemma resize_inv s : forall i pending c0 rad, (forall p, pending = Some p -> (p < i)%nat) ->
  let r := resize_from i s pending c0 rad in
  (forall j, ext_le (rad j) (r j)) /\ (forall j, exists k, r j = rad k) /\
  (forall j, (j < i)%nat -> pending <> Some j -> r j = rad j) /\
  (forall p, pending = Some p -> ~ 0 < c0 -> r p = rad p) /\
  (forall j, ~ at_ has_material s j -> r (i + j)%nat = rad (i + j)%nat) /\
  (forall p e, pending = Some p -> at_ has_material s e -> (forall k, (k < e)%nat -> ~ at_ has_material s k) ->
     (curv_at s e <= 0 -> ext_le (r p) (r (i + e)%nat)) /\ (0 < c0 -> curv_at s e <= 0 \/ ~ at_ opens s e -> ext_le (r (i + e)%nat) (r p))) /\
  (forall p e, next_surface s p e -> at_ opens s p ->
     (curv_at s e <= 0 -> ext_le (r (i + p)%nat) (r (i + e)%nat)) /\ (0 < curv_at s p -> curv_at s e <= 0 \/ ~ at_ opens s e -> ext_le (r (i + e)%nat) (r (i + p)%nat))).
Proof.
  induction s as [|el s IH]; intros i pending c0 rad PI r; unfold r; clear r.
  - cbn [resize_from]. split; [intros; apply ext_refl|]. split; [eauto|]. split; [auto|]. split; [auto|]. split; [auto|].
    split; [intros p e _ (x & H & _); destruct e; discriminate H|]. intros p e (_ & (x & H & _) & _). destruct p; discriminate H.
  - rewrite resize_step. destruct (has_material el) eqn:HM.
    + destruct (pair_step_spec i (curvature el) pending c0 rad PI) as (A1 & A2 & A3 & A4 & A5). set (r1 := pair_step i (curvature el) pending c0 rad) in *.
      assert (IH' : exists pend' c', (pend' = Some i \/ pend' = None) /\ (pend' = Some i <-> opens el = true) /\ (pend' = Some i -> c' = curvature el) /\
         (if opens el then resize_from (S i) s (Some i) (curvature el) r1 else resize_from (S i) s None c0 r1) = resize_from (S i) s pend' c' r1).
      { destruct (opens el); [exists (Some i), (curvature el)|exists None, c0]; split; auto; split; auto; split; auto; try discriminate; try (split; discriminate). }
      destruct IH' as (pend' & c' & PE & PO & PC & ->).
      destruct (IH (S i) pend' c' r1) as (B1 & B2 & B3 & B4 & B5 & B6 & B7); [intros p E; destruct PE as [-> | ->]; [injection E as <-; lia|discriminate E]|]. set (r := resize_from (S i) s pend' c' r1) in *.
      assert (PN : forall p, pending = Some p -> r p = r1 p).
      { intros p E. specialize (PI p E). apply B3; [lia|]. destruct PE as [-> | ->]; [|discriminate]. intros H. injection H as H. lia. }
      split; [intros j; eapply ext_trans; [apply A1|apply B1]|]. split; [intros j; destruct (B2 j) as (k & ->); apply A2|]. split; [|split; [|split; [|split]]].
      * intros j J N. rewrite B3; [apply A3; [lia|auto]|lia|]. destruct PE as [-> | ->]; [|discriminate]. intros H. injection H as H. lia.
      * intros p E C. rewrite (PN p E). apply (A5 p E). auto.
      * intros [|j] N; [apply at_neg in N; congruence|]. replace (i + S j)%nat with (S i + j)%nat by lia. rewrite B5 by exact N. apply A3; [lia|]. intros E. specialize (PI _ E). lia.
      * intros p e E H K. destruct e as [|e]; [|exfalso; apply (K 0%nat); [lia|apply at_0; auto]]. rewrite Nat.add_0_r. rewrite (PN p E). unfold curv_at. cbn [nth_error]. destruct (A5 p E) as (_ & C1 & C2). split.
        -- intros C. eapply ext_trans; [apply C1; auto|apply B1].
        -- intros C D. assert (RI : r i = r1 i).
           { destruct PE as [E'|E']; [|apply B3; [lia|rewrite E'; discriminate]]. apply B4; [auto|]. rewrite (PC E'). destruct D as [D|D]; [lra|]. exfalso. apply D, at_0, PO. auto. }
           rewrite RI. apply C2. auto.
      * intros p e (L & HP & HE & K) OP. destruct e as [|e]; [lia|]. replace (i + S e)%nat with (S i + e)%nat by lia. destruct p as [|p].
        -- rewrite Nat.add_0_r. apply at_0 in OP. apply PO in OP. specialize (PC OP). destruct (B6 i e OP HE) as [D1 D2]; [intros k Hk; exact (K (S k) ltac:(lia))|].
           split; [exact D1|]. unfold curv_at at 1. cbn [nth_error]. rewrite <- PC. exact D2.
        -- replace (i + S p)%nat with (S i + p)%nat by lia. apply (B7 p e); [|exact OP]. split; [lia|]. split; [exact HP|]. split; [exact HE|]. intros k Hk. exact (K (S k) ltac:(lia)).
    + destruct (IH (S i) pending c0 rad) as (B1 & B2 & B3 & B4 & B5 & B6 & B7); [intros p E; specialize (PI p E); lia|]. set (r := resize_from (S i) s pending c0 rad) in *.
      split; [auto|]. split; [auto|]. split; [intros j J N; apply B3; [lia|auto]|]. split; [auto|]. split; [|split].
      * intros [|j] N; [rewrite Nat.add_0_r; apply B3; [lia|]; intros E; specialize (PI _ E); lia|]. replace (i + S j)%nat with (S i + j)%nat by lia. apply B5. exact N.
      * intros p e E H K. destruct e as [|e]; [apply at_0 in H; congruence|]. replace (i + S e)%nat with (S i + e)%nat by lia. apply (B6 p e E H). intros k Hk. exact (K (S k) ltac:(lia)).
      * intros p e (L & HP & HE & K) OP. destruct e as [|e]; [lia|]. destruct p as [|p]; [apply at_0 in HP; congruence|]. replace (i + S e)%nat with (S i + e)%nat by lia. replace (i + S p)%nat with (S i + p)%nat by lia.
        apply (B7 p e); [|exact OP]. split; [lia|]. split; [exact HP|]. split; [exact HE|]. intros k Hk. exact (K (S k) ltac:(lia)).
Qed.

Lemma nth_inner (s : list element) j : nth_error (removelast (tl s)) j = if (S j <? length s - 1)%nat then nth_error s (S j) else None.
Proof.
  destruct s as [|e s]; [destruct j; reflexivity|]. cbn [tl length nth_error]. replace (S (length s) - 1)%nat with (length s) by lia. revert j. induction s as [|x s IH]; intros j; [destruct j; reflexivity|].
  destruct s as [|y s]; [destruct j; reflexivity|]. change (removelast (x :: y :: s)) with (x :: removelast (y :: s)). destruct j as [|j]; [reflexivity|]. change (nth_error (x :: removelast (y :: s)) (S j)) with (nth_error (removelast (y :: s)) j). rewrite IH.
  cbn [length nth_error]. reflexivity.
Qed.
Lemma at_inner P s j : at_ P (removelast (tl s)) j <-> (S j < length s - 1)%nat /\ at_ P s (S j).
Proof.
  unfold at_. rewrite nth_inner. destruct (Nat.ltb_spec (S j) (length s - 1)); [tauto|]. split; [intros (e & H' & _); discriminate H'|lia].
Qed.
Definition radius_at (s : list element) (j : nat) : option R := match nth_error s j with Some e => e_radius e | None => None end.
(** resize_convex only enlarges rims, to sizes that occur, of inner surfaces with a material attribute.
    Of two successive inner surfaces with glass (or nothing defined) between them, the second, if not
    concave seen from outside, ends up at least as large as the first; and the first, if convex, at least
    as large as the second unless that one is convex and has glass on its other side too *)
Theorem C52_resize s :
  let r := resize_convex s in
  (forall j, ext_le (radius_at s j) (r j)) /\ (forall j, exists k, r j = radius_at s k) /\
  (forall j, (j = 0 \/ length s - 1 <= j)%nat \/ ~ at_ has_material s j -> r j = radius_at s j) /\
  (forall p e, (0 < p)%nat -> (e < length s - 1)%nat -> next_surface s p e -> at_ opens s p ->
     (curv_at s e <= 0 -> ext_le (r p) (r e)) /\
     (0 < curv_at s p -> curv_at s e <= 0 \/ ~ at_ opens s e -> ext_le (r e) (r p))).
Proof.
  intros r. unfold r, resize_convex. change (fun j => match nth_error s j with Some e => e_radius e | None => None end) with (radius_at s).
  destruct (resize_inv (removelast (tl s)) 1 None 0 (radius_at s)) as (B1 & B2 & B3 & B4 & B5 & B6 & B7); [intros p H; discriminate H|]. cbv zeta in *.
  split; [auto|]. split; [auto|]. split.
  - intros j J. destruct j as [|j]; [apply B3; [lia|discriminate]|]. apply (B5 j). rewrite at_inner. intros [A B]. destruct J as [J|J]; [lia|contradiction].
  - intros p e P E (L & HP & HE & K) OP. destruct p as [|p]; [lia|]. destruct e as [|e]; [lia|].
    assert (CV : forall j, (S j < length s - 1)%nat -> curv_at (removelast (tl s)) j = curv_at s (S j)).
    { intros j J. unfold curv_at. rewrite nth_inner. destruct (Nat.ltb_spec (S j) (length s - 1)); [auto|lia]. }
    destruct (B7 p e) as [C1 C2].
    + split; [lia|]. split; [apply at_inner; split; [lia|auto]|]. split; [apply at_inner; split; [lia|auto]|]. intros k Hk. rewrite at_inner. intros [_ A]. apply (K (S k)); [lia|auto].
    + apply at_inner. split; [lia|auto].
    + rewrite (CV e) in C1 by lia. rewrite (CV e), (CV p) in C2 by lia. split; [exact C1|]. intros A D. apply C2; [auto|]. destruct D as [D|D]; [auto|right]. rewrite at_inner. intros [_ H]. contradiction.
Qed.
(** ** C52: the same without helper functions of the model: two successive surfaces [p], [q] of the system with
    only materialless elements in between, the first one in front of glass (or of no known medium) *)
Theorem C52_rims s p q ep eq mp fp mq fq : (0 < p < q)%nat -> (q < length s - 1)%nat ->
  nth_error s p = Some ep -> e_kind ep = Sph mp fp -> nth_error s q = Some eq -> e_kind eq = Sph mq fq ->
  (forall k e, (p < k < q)%nat -> nth_error s k = Some e -> e_kind e = Plain) ->
  (forall g, mp = Some g -> m_solid g = true) ->
  let r := resize_convex s in
  (s_c fq <= 0 -> ext_le (r p) (r q)) /\
  (0 < s_c fp -> s_c fq <= 0 \/ (exists g, mq = Some g /\ m_solid g = false) -> ext_le (r q) (r p)).
Proof.
  intros PQ QL NP KP NQ KQ BT SP r. destruct (C52_resize s) as (_ & _ & _ & H).
  assert (NS : next_surface s p q).
  { split; [lia|]. split; [exists ep; split; [auto|unfold has_material; rewrite KP; reflexivity]|]. split; [exists eq; split; [auto|unfold has_material; rewrite KQ; reflexivity]|].
    intros k K (e & E & M). unfold has_material in M. rewrite (BT k e K E) in M. discriminate M. }
  assert (OP : at_ opens s p) by (exists ep; split; [auto|unfold opens; rewrite KP; destruct mp as [g|]; auto]).
  destruct (H p q ltac:(lia) QL NS OP) as [H1 H2]. unfold curv_at in H1, H2. rewrite NP, NQ in *. unfold curvature in H1, H2. rewrite KP, KQ in *.
  split; [auto|]. intros C D. apply H2; [auto|]. destruct D as [D|(g & -> & D)]; [auto|right]. intros (e & E & O). rewrite NQ in E. injection E as <-. unfold opens in O. rewrite KQ in O. congruence.
Qed.
(** finding: a surface enlarged as the front of the second glass is not matched by the convex front of the
    first glass of a cemented doublet *)
Definition lens (p : placement) (c r : R) (m : material) : element := El p (Some r) (Sph (Some m) (Surf c 0 None false)).
Theorem C52_doublet_refuted p : let s := [El p None Plain; lens p 1 1 glass; lens p 1 1 glass; lens p 1 2 gas; El p None Plain] in
  next_surface s 1 2 /\ at_ opens s 1 /\ 0 < curv_at s 1 /\ ~ ext_le (resize_convex s 2) (resize_convex s 1).
Proof.
  cbv zeta. split; [|split; [|split]].
  - split; [lia|]. split; [eexists; split; reflexivity|]. split; [eexists; split; reflexivity|]. intros; lia.
  - eexists; split; reflexivity.
  - unfold curv_at; cbn. lra.
  - unfold resize_convex. cbn [tl removelast resize_from has_material lens e_kind opens glass gas m_solid curvature s_c]. destruct (Rle_dec 1 0); [lra|]. destruct (Rlt_dec 0 1); [|lra].
    rewrite put_same. rewrite (put_other _ 2 1) by lia. rewrite put_same. rewrite (put_other _ 1 3), (put_other _ 1 2) by lia. cbn [nth_error lens e_radius rad_max ext_le].
    rewrite (Rmax_left 2 1), (Rmax_left 1 1) by lra. lra.
Qed.
(** a plano-convex singlet: the plane side grows with the convex one *)
Example C52_resize_example p : let s := [El p None Plain; lens p 1 2 glass; lens p 0 1 gas; El p None Plain] in
  next_surface s 1 2 /\ at_ opens s 1 /\ resize_convex s 1%nat = Some 2 /\ resize_convex s 2%nat = Some 2.
Proof.
  cbv zeta. split; [|split].
  - split; [lia|]. split; [eexists; split; reflexivity|]. split; [eexists; split; reflexivity|]. intros; lia.
  - eexists; split; reflexivity.
  - unfold resize_convex. cbn [tl removelast resize_from has_material lens e_kind opens glass gas m_solid curvature s_c]. destruct (Rle_dec 0 0); [|lra]. destruct (Rlt_dec 0 1); [|lra].
    rewrite put_same, put_other, put_same by lia. cbn [nth_error lens e_radius rad_max]. rewrite Rmax_right by lra. auto.
Qed.

(** a surface without any material opens a lens, too *)
Example C52_rims_example p : let s := [El p None Plain; El p (Some 2) (Sph None (Surf 1 0 None false)); El p (Some 5) Plain; lens p (-1) 1 gas; El p None Plain] in
  resize_convex s 1%nat = Some 2 /\ resize_convex s 3%nat = Some 2 /\ ext_le (resize_convex s 1%nat) (resize_convex s 3%nat).
Proof.
  cbv zeta. assert (H : resize_convex [El p None Plain; El p (Some 2) (Sph None (Surf 1 0 None false)); El p (Some 5) Plain; lens p (-1) 1 gas; El p None Plain] 1%nat = Some 2).
  { unfold resize_convex. cbn [tl removelast resize_from has_material lens e_kind opens glass gas m_solid curvature s_c]. destruct (Rle_dec (-1) 0); [|lra]. destruct (Rlt_dec 0 1); [|lra].
    rewrite put_same. cbn [nth_error lens e_radius rad_max]. rewrite Rmax_right by lra. auto. }
  assert (H3 : resize_convex [El p None Plain; El p (Some 2) (Sph None (Surf 1 0 None false)); El p (Some 5) Plain; lens p (-1) 1 gas; El p None Plain] 3%nat = Some 2).
  { unfold resize_convex. cbn [tl removelast resize_from has_material lens e_kind opens glass gas m_solid curvature s_c]. destruct (Rle_dec (-1) 0); [|lra]. destruct (Rlt_dec 0 1); [|lra].
    rewrite put_other, put_same by lia. cbn [nth_error lens e_radius rad_max]. rewrite Rmax_right by lra. auto. }
  rewrite H, H3. cbn. repeat split; lra.
Qed.

(** the height along the axis of the rim of a surface: where the point at the rim lies on the surface *)
Definition rim (axis : bool) (e : element) (z : R) : Prop :=
  match e_kind e, e_radius e with
  | Sph _ f, Some r => surface_sag f (if axis then V 0 r z else V r 0 z) = Some 0
  | Sph _ f, None => s_c f = 0 /\ s_asph f = None /\ z = 0
  | Plain, _ => z = 0
  end.
Lemma sag_shift f x y z : surface_sag f (V x y z) = do e <- surface_sag f (V x y 0); Some (e + z).
Proof.
  unfold surface_sag, r2_of. cbn [vx vy vz]. destruct (Req_EM_T (s_c f) 0).
  - destruct (s_asph f); cbn [obind]; f_equal; ring.
  - destruct (fsqrt _) as [w|]; [|reflexivity]. cbn [obind]. destruct (fdiv _ _) as [q|]; [|reflexivity]. cbn [obind]. destruct (s_asph f); cbn [obind]; f_equal; ring.
Qed.
Lemma rim_edge axis e z : rim axis e z <-> match e_kind e with Plain => Some 0 | Sph _ f => edge_sag f (e_radius e) axis end = Some (- z).
Proof.
  unfold rim, edge_sag. destruct (e_kind e) as [|m f].
  - split; [intros ->; f_equal; ring|intros H; injection H; lra].
  - destruct (e_radius e) as [r|].
    + destruct axis; rewrite sag_shift; destruct (surface_sag f _) as [q|]; cbn [obind]; try (split; intros H; discriminate H); split; intros H; injection H as H; f_equal; lra.
    + destruct (Req_EM_T (s_c f) 0) as [C|C]; [|split; [intros (H & _); contradiction|intros H; discriminate H]]. destruct (s_asph f); [split; [intros (_ & H & _); discriminate H|intros H; discriminate H]|].
      split; [intros (_ & _ & ->); f_equal; ring|intros H; injection H as H; repeat split; auto; lra].
Qed.
Lemma edges_spec axis s : forall dz0 t, edges_from axis dz0 s = Some t -> exists z, Forall2 (rim axis) s z /\ length t = length s /\
  forall k a, nth_error t k = Some a -> exists d zk, nth_error (map (fun e => p_distance (e_place e)) s) k = Some d /\ nth_error z k = Some zk /\
    a = d + zk - match k with O => - dz0 | S k => match nth_error z k with Some y => y | None => 0 end end.
Proof.
  induction s as [|e s IH]; intros dz0 t H; cbn [edges_from] in H.
  - injection H as <-. exists []. split; [constructor|]. split; [auto|]. intros [|k] a A; discriminate A.
  - destruct (match e_kind e with Plain => Some 0 | Sph _ f => edge_sag f (e_radius e) axis end) as [dz|] eqn:E; [|discriminate H]. cbn [obind] in H.
    destruct (edges_from axis dz s) as [t'|] eqn:T; [|discriminate H]. cbn [obind] in H. injection H as <-. destruct (IH dz t' T) as (z & F & L & K). exists (- dz :: z). split; [|split].
    + constructor; [|auto]. apply rim_edge. rewrite E. f_equal. ring.
    + cbn. auto.
    + intros [|k] a A; cbn in A.
      * injection A as <-. eexists _, _. split; [reflexivity|]. split; [reflexivity|]. ring.
      * destruct (K k a A) as (d & zk & D & Z & EA). exists d, zk. split; [exact D|]. split; [exact Z|]. rewrite EA. destruct k; [cbn; ring|reflexivity].
Qed.
(** the edge thickness at a surface is the distance along the axis between its rim and the rim of the
    previous element, and all edges exist exactly when all rims lie on their surfaces *)
Theorem C52_edge s axis :
  (forall t, edge_thickness s axis = Some t -> exists z, Forall2 (rim axis) s z /\ length t = length s /\
    (forall k a, nth_error t k = Some a -> exists x zk, nth_error (path (map e_place s)) k = Some x /\ nth_error z k = Some zk /\
      match k with
      | O => a = x + zk
      | S j => exists x' z', nth_error (path (map e_place s)) j = Some x' /\ nth_error z j = Some z' /\ a = (x + zk) - (x' + z')
      end)) /\
  ((exists t, edge_thickness s axis = Some t) <-> forall e, In e s -> exists z, rim axis e z).
Proof.
  split.
  - intros t H. destruct (edges_spec axis s 0 t H) as (z & F & L & K). exists z. split; [auto|]. split; [auto|]. intros k a A. destruct (K k a A) as (d & zk & D & Z & E).
    assert (P : forall l acc k d, nth_error l k = Some d -> exists x, nth_error (cumsum1 acc l) k = Some x /\ match k with O => x = acc + d | S j => exists x', nth_error (cumsum1 acc l) j = Some x' /\ x = x' + d end).
    { clear. induction l as [|v l IH]; intros acc k d H; [destruct k; discriminate H|]. destruct k as [|k].
      - cbn in H. injection H as <-. exists (acc + v). split; reflexivity.
      - cbn in H. destruct (IH (acc + v) k d H) as (x & X & Y). exists x. split; [exact X|]. destruct k as [|k]; [exists (acc + v); split; [reflexivity|exact Y]|exact Y]. }
    rewrite <- (map_map e_place p_distance) in D. destruct (P _ 0 k d D) as (x & X & Y). exists x, zk. split; [exact X|]. split; [auto|]. destruct k as [|j].
    + lra.
    + destruct Y as (x' & X' & Y). assert (ZJ : exists z', nth_error z j = Some z').
      { destruct (nth_error z j) as [z'|] eqn:N; [eauto|]. apply nth_error_None in N. assert (S j < length z)%nat by (apply nth_error_Some; congruence). lia. }
      destruct ZJ as (z' & ZJ). rewrite ZJ in E. exists x', z'. split; [exact X'|]. split; [auto|]. lra.
  - unfold edge_thickness. generalize 0. induction s as [|e s IH]; intros dz0.
    + split; [intros _ e []|intros _; eexists; reflexivity].
    + cbn [edges_from]. split.
      * intros (t & H) e' I. destruct (match e_kind e with Plain => Some 0 | Sph _ f => edge_sag f (e_radius e) axis end) as [dz|] eqn:E; [|discriminate H]. cbn [obind] in H.
        destruct (edges_from axis dz s) as [t'|] eqn:T; [|discriminate H]. destruct I as [<-|I]; [exists (- dz); apply rim_edge; rewrite E; f_equal; ring|]. apply (IH dz); [eauto|auto].
      * intros H. destruct (H e (or_introl eq_refl)) as (z & Z). apply rim_edge in Z. rewrite Z. cbn [obind]. destruct (proj2 (IH (- z))) as (t & ->); [intros e' I; apply H; right; auto|]. cbn [obind]. eauto.
Qed.
(** a lens with a parabolic front of curvature 2 and rim radius 1 *)
Example C52_edge_example p : edge_thickness [El p (Some 1) (Sph (Some glass) (Surf 2 (-1) None false)); lens p 0 1 gas] true
  = Some [p_distance p + 1; p_distance p - 1].
Proof.
  unfold edge_thickness. cbn [edges_from e_kind e_radius e_place lens edge_sag]. unfold surface_sag, r2_of. cbn [s_c s_k s_asph vx vy vz]. destruct (Req_EM_T 2 0); [lra|]. destruct (Req_EM_T 0 0); [|lra].
  replace (1 - (1 + -1) * 2 ^ 2 * (0 * 0 + 1 * 1)) with 1 by ring. rewrite fsqrt_some by lra. cbn [obind]. rewrite sqrt_1. rewrite fdiv_some by lra. cbn [obind]. match goal with |- Some [?a; ?b] = Some [?c; ?d] => replace a with c by field; replace b with d by field; reflexivity end.
Qed.
Print Assumptions C44_partition.
Print Assumptions C44_runs.
Print Assumptions C44_mirror_refuted.
Print Assumptions C52_resize.
Print Assumptions C52_rims.
Print Assumptions C52_doublet_refuted.
Print Assumptions C52_edge.
