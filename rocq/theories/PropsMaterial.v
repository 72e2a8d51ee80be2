(** Properties C31 (index queries and their cache), C32 (dispersion) and C50 (thermal). *)
From Coq Require Import Reals List Lra Lia Psatz Arith Bool.
From Verif Require Import Base SampleModel MaterialModel.
Import ListNotations.
Open Scope R_scope.

(** * C31 *)
Section Cache.
Variable param : Type.
Variable formula : param -> R -> option R.
Variable maxsize : nat.
Notation call := (call param formula maxsize).
Notation run := (run param formula maxsize).
Notation event := (event param).
Notation Query := (Query param).
Notation Modify := (Modify param).

Fixpoint queries (l : list event) : list (nat * R) :=
  match l with [] => [] | MaterialModel.Query _ a x :: l => (a, x) :: queries l | MaterialModel.Modify _ _ _ :: l => queries l end.
Fixpoint modified (l : list event) : list nat :=
  match l with [] => [] | MaterialModel.Query _ _ _ :: l => modified l | MaterialModel.Modify _ a _ :: l => a :: modified l end.
Definition key (e : nat * R * option R) : nat * R := fst e.

Lemma same_key a x e : same a x e = true <-> key e = (a, x).
Proof.
  destruct e as [[b y] v]. unfold same, key. cbn [fst]. rewrite andb_true_iff, Nat.eqb_eq. destruct (Req_EM_T x y) as [->|N]; split.
  - intros (-> & _). reflexivity.
  - intros E. injection E as ->. auto.
  - intros (_ & E). discriminate.
  - intros E. injection E as -> ->. contradiction.
Qed.
Lemma take_out_some a x c v r : take_out a x c = Some (v, r) ->
  exists pre post, c = pre ++ (a, x, v) :: post /\ r = pre ++ post /\ ~ In (a, x) (map key pre).
Proof.
  revert v r. induction c as [|e c IH]; intros v r H; cbn in H; [discriminate|]. destruct (same a x e) eqn:S.
  - injection H as <- <-. apply same_key in S. exists [], c. destruct e as [[b y] w]. unfold key in S. cbn in S. injection S as -> ->. auto.
  - destruct (take_out a x c) as [[w q]|]; [|discriminate]. injection H as <- <-. destruct (IH _ _ eq_refl) as (pre & post & -> & -> & N).
    exists (e :: pre), post. repeat split; auto. cbn. intros [K|I]; [|auto]. apply same_key in K. congruence.
Qed.
Lemma take_out_none a x c : take_out a x c = None -> ~ In (a, x) (map key c).
Proof.
  induction c as [|e c IH]; cbn; [auto|]. destruct (same a x e) eqn:S; [discriminate|].
  destruct (take_out a x c) as [[w q]|]; [discriminate|]. intros _ [K|I]; [apply same_key in K; congruence|]. apply IH; auto.
Qed.
Lemma NoDup_front {A} (l m : list A) : NoDup (l ++ m) -> NoDup l.
Proof.
  induction l as [|a l IH]; cbn; intros H; [constructor|]. inversion H; subst. constructor; auto. rewrite in_app_iff in H2. auto.
Qed.
Lemma In_firstn {A} n (l : list A) x : In x (firstn n l) -> In x l.
Proof. rewrite <- (firstn_skipn n l) at 2. rewrite in_app_iff. auto. Qed.

(** values returned are formula values of parameters the instance has had *)
Theorem C31_values (P : nat -> param -> Prop) l : forall store c,
  (forall a, P a (store a)) -> Forall (fun e => match e with MaterialModel.Modify _ a p => P a p | _ => True end) l ->
  (forall a x v, In (a, x, v) c -> exists p, P a p /\ v = formula p x) ->
  Forall2 (fun q v => exists p, P (fst q) p /\ v = formula p (snd q)) (queries l) (fst (run l store c)).
Proof.
  induction l as [|e l IH]; intros store c S F C; cbn; [constructor|]. inversion F; subst. destruct e as [a x|a p].
  - destruct (MaterialModel.call param formula maxsize store c a x) as [v c'] eqn:E. specialize (IH store c' S H2).
    assert (H : (exists p, P a p /\ v = formula p x) /\ forall b y w, In (b, y, w) c' -> exists p, P b p /\ w = formula p y).
    { unfold MaterialModel.call in E. destruct (take_out a x c) as [[w r]|] eqn:T.
      - injection E as <- <-. destruct (take_out_some _ _ _ _ _ T) as (pre & post & -> & -> & _).
        assert (W : exists p, P a p /\ w = formula p x) by (apply C, in_elt).
        split; [auto|]. intros b y u [I|I]; [injection I as <- <- <-; auto|]. apply C. apply in_app_iff in I. apply in_app_iff. cbn. tauto.
      - injection E as <- <-. assert (W : exists p, P a p /\ formula (store a) x = formula p x) by (exists (store a); auto).
        split; [auto|]. intros b y u I. apply In_firstn in I. destruct I as [I|I]; [injection I as <- <- <-; auto|auto]. }
    destruct H as (H & C'). specialize (IH C'). destruct (MaterialModel.run param formula maxsize l store c') as [vs en].
    cbn [fst] in *. constructor; auto.
  - apply IH; auto. intros b. unfold set_param. destruct (Nat.eqb_spec b a) as [->|]; auto.
Qed.

(** an instance whose attributes are not changed always gets its formula value, whatever is
    queried or changed in between and whatever the cache forgets *)
Theorem C31_unmodified a l : forall store c, ~ In a (modified l) ->
  (forall x v, In (a, x, v) c -> v = formula (store a) x) ->
  Forall2 (fun q v => fst q = a -> v = formula (store a) (snd q)) (queries l) (fst (run l store c)).
Proof.
  induction l as [|e l IH]; intros store c M C; cbn; [constructor|]. destruct e as [b x|b p]; cbn in M.
  - destruct (MaterialModel.call param formula maxsize store c b x) as [v c'] eqn:E.
    assert (H : (b = a -> v = formula (store a) x) /\ forall y w, In (a, y, w) c' -> w = formula (store a) y).
    { unfold MaterialModel.call in E. destruct (take_out b x c) as [[w r]|] eqn:T.
      - injection E as <- <-. destruct (take_out_some _ _ _ _ _ T) as (pre & post & -> & -> & _).
        assert (W : b = a -> w = formula (store a) x) by (intros ->; apply C, in_elt).
        split; [auto|]. intros y u [I|I]; [injection I as B Y U; subst; auto|]. apply C. apply in_app_iff in I. apply in_app_iff. cbn. tauto.
      - injection E as <- <-. split; [intros ->; auto|]. intros y u I. apply In_firstn in I. destruct I as [I|I]; [injection I as B Y U; subst; auto|auto]. }
    destruct H as (H & C'). specialize (IH store c' M C'). destruct (MaterialModel.run param formula maxsize l store c') as [vs en].
    cbn [fst] in *. constructor; auto.
  - assert (SA : set_param param store b p a = store a) by (unfold set_param; destruct (Nat.eqb_spec a b) as [->|]; [exfalso; auto|auto]).
    rewrite <- SA. apply IH; [auto|]. rewrite SA. auto.
Qed.

(** never more than maxsize entries, one per key *)
Theorem C31_bounded l : forall store c, (length c <= maxsize)%nat -> NoDup (map key c) ->
  let c' := snd (snd (run l store c)) in (length c' <= maxsize)%nat /\ NoDup (map key c').
Proof.
  induction l as [|e l IH]; intros store c L N; cbn; [auto|]. destruct e as [a x|a p]; [|apply IH; auto].
  destruct (MaterialModel.call param formula maxsize store c a x) as [v c'] eqn:E.
  assert (H : (length c' <= maxsize)%nat /\ NoDup (map key c')).
  { unfold MaterialModel.call in E. destruct (take_out a x c) as [[w r]|] eqn:T; injection E as <- <-.
    - destruct (take_out_some _ _ _ _ _ T) as (pre & post & -> & -> & _). rewrite map_app in N. cbn [map key fst] in N.
      split; [rewrite app_length in L; cbn in *; rewrite app_length; lia|]. cbn [map key fst]. rewrite map_app. apply NoDup_cons_iff. split.
      + apply NoDup_remove_2 in N. auto.
      + apply NoDup_remove_1 in N. auto.
    - apply take_out_none in T. split; [apply firstn_le_length|]. rewrite <- firstn_map. cbn [map key fst].
      assert (ND : NoDup ((a, x) :: map key c)) by (constructor; auto). revert ND. generalize ((a, x) :: map key c). intros q.
      rewrite <- (firstn_skipn maxsize q) at 1. apply NoDup_front. }
  destruct H. specialize (IH store c' H H0). destruct (MaterialModel.run param formula maxsize l store c') as [vs [st en]]. cbn in *. auto.
Qed.

(** finding, in general: after a query, and as long as fewer than maxsize other keys are used,
    the value is kept, whatever happens to the attributes *)
(** keys in front of a key, and its value *)
Fixpoint upto (a : nat) (x : R) (c : cache) : option (list (nat * R) * option R) :=
  match c with
  | [] => None
  | e :: c => if same a x e then Some ([], snd e)
              else match upto a x c with Some (p, v) => Some (key e :: p, v) | None => None end
  end.
Lemma upto_take_out a x b y c p v u r : (b, y) <> (a, x) -> upto a x c = Some (p, v) -> NoDup p -> take_out b y c = Some (u, r) ->
  exists p', upto a x r = Some (p', v) /\ incl p' p /\ NoDup p' /\ ~ In (b, y) p'.
Proof.
  intros K. revert p r. induction c as [|e c IH]; intros p r U N T; cbn in U, T; [discriminate|].
  destruct (same a x e) eqn:SA.
  - injection U as <- <-. destruct (same b y e) eqn:SB.
    + exfalso. apply same_key in SA. apply same_key in SB. congruence.
    + destruct (take_out b y c) as [[w q]|]; [|discriminate]. injection T as <- <-. exists []. cbn. rewrite SA. split; [auto|]. split; [intros z []|]. split; [constructor|auto].
  - destruct (upto a x c) as [[q w]|] eqn:UC; [|discriminate]. injection U as <- <-. inversion N; subst.
    destruct (same b y e) eqn:SB.
    + injection T as <- <-. apply same_key in SB. rewrite <- SB. exists q. repeat split; auto. intros z Z. right. auto.
    + destruct (take_out b y c) as [[u' q']|] eqn:TC; [|discriminate]. injection T as <- <-.
      destruct (IH q q' eq_refl H2 eq_refl) as (p' & A & B & C & D). cbn. rewrite SA, A. exists (key e :: p'). repeat split.
      * intros z [<-|Z]; [left; auto|right; auto].
      * constructor; auto.
      * intros [E|E]; [|auto]. apply same_key in E. congruence.
Qed.
Lemma upto_hit a x c p v : upto a x c = Some (p, v) -> exists r, take_out a x c = Some (v, r).
Proof.
  revert p. induction c as [|e c IH]; intros p U; cbn in *; [discriminate|]. destruct (same a x e).
  - injection U as <- <-. eauto.
  - destruct (upto a x c) as [[q w]|]; [|discriminate]. injection U as <- <-. destruct (IH q eq_refl) as (r & ->). eauto.
Qed.
Lemma upto_firstn a x n c p v : upto a x c = Some (p, v) -> (length p < n)%nat -> upto a x (firstn n c) = Some (p, v).
Proof.
  revert p n. induction c as [|e c IH]; intros p n U L; cbn in U; [discriminate|]. destruct n; [lia|]. cbn. destruct (same a x e); [auto|].
  destruct (upto a x c) as [[q w]|]; [|discriminate]. injection U as <- <-. cbn in L. rewrite (IH q n eq_refl) by lia. auto.
Qed.
Lemma upto_keys a x c p v : upto a x c = Some (p, v) -> incl p (map key c).
Proof.
  revert p. induction c as [|e c IH]; intros p U; cbn in *; [discriminate|]. destruct (same a x e).
  - injection U as <- <-. intros z [].
  - destruct (upto a x c) as [[q w]|]; [|discriminate]. injection U as <- <-. intros z [<-|Z]; [left; auto|right; eapply IH; eauto].
Qed.
Lemma key_dec (a b : nat * R) : {a = b} + {a <> b}.
Proof. destruct a as [m x], b as [n y]. destruct (Nat.eq_dec m n) as [->|]; [destruct (Req_EM_T x y) as [->|]; [auto|]|]; right; congruence. Qed.
Lemma same_refl a x v : same a x (a, x, v) = true.
Proof. apply same_key. reflexivity. Qed.

Definition kept (a : nat) (x : R) (v : option R) (L : list (nat * R)) (c : cache) : Prop :=
  exists p, upto a x c = Some (p, v) /\ incl p L /\ NoDup p.
Lemma kept_call a x v L store c b y w c' : (length L < maxsize)%nat -> (b, y) = (a, x) \/ In (b, y) L -> kept a x v L c ->
  call store c b y = (w, c') -> kept a x v L c' /\ ((b, y) = (a, x) -> w = v).
Proof.
  intros LL Q (p & U & I & N) E. unfold MaterialModel.call in E. destruct (key_dec (b, y) (a, x)) as [K|K].
  - injection K as -> ->. destruct (upto_hit _ _ _ _ _ U) as (r & T). rewrite T in E. injection E as <- <-. split; [|auto].
    exists []. cbn [upto]. rewrite same_refl. split; [auto|]. split; [intros z []|constructor].
  - split; [|contradiction]. destruct Q as [Q|Q]; [contradiction|].
    assert (S : forall u, same a x (b, y, u) = false).
    { intros u. destruct (same a x (b, y, u)) eqn:S; [|auto]. apply same_key in S. contradiction. }
    destruct (take_out b y c) as [[u r]|] eqn:T; injection E as <- <-.
    + destruct (upto_take_out _ _ _ _ _ _ _ _ _ K U N T) as (p' & A & B & C & D). exists ((b, y) :: p'). cbn [upto]. rewrite S, A.
      split; [auto|]. split; [intros z [<-|Z]; auto|constructor; auto].
    + apply take_out_none in T. exists ((b, y) :: p). assert (ND : NoDup ((b, y) :: p)).
      { constructor; [|auto]. intros J. apply T. eapply upto_keys; eauto. }
      assert (IN : incl ((b, y) :: p) L) by (intros z [<-|Z]; auto).
      split; [|auto]. apply upto_firstn; [cbn [upto]; rewrite S, U; reflexivity|]. pose proof (NoDup_incl_length ND IN). lia.
Qed.
Theorem C31_stale_refuted a x L l : (length L < maxsize)%nat -> incl (queries l) ((a, x) :: L) -> forall store c v0 c0,
  call store c a x = (v0, c0) ->
  Forall2 (fun q v => q = (a, x) -> v = v0) (queries l) (fst (run l store c0)).
Proof.
  intros LL I store c v0 c0 E.
  assert (K : kept a x v0 L c0).
  { unfold MaterialModel.call in E. destruct (take_out a x c) as [[u r]|]; injection E as <- <-; exists [].
    - cbn [upto]. rewrite same_refl. split; [auto|]. split; [intros z []|constructor].
    - destruct maxsize; [lia|]. cbn [firstn upto]. rewrite same_refl. split; [auto|]. split; [intros z []|constructor]. }
  clear E. revert store c0 I K. induction l as [|e l IH]; intros store c0 I K; cbn; [constructor|]. destruct e as [b y|b p]; cbn in I.
  - destruct (MaterialModel.call param formula maxsize store c0 b y) as [w c'] eqn:E.
    assert (Q : (b, y) = (a, x) \/ In (b, y) L) by (destruct (I (b, y) (or_introl eq_refl)); auto).
    destruct (kept_call _ _ _ _ _ _ _ _ _ _ LL Q K E) as (K' & W).
    specialize (IH store c' (fun z Z => I z (or_intror Z)) K'). destruct (MaterialModel.run param formula maxsize l store c') as [vs en].
    cbn [fst] in *. constructor; auto.
  - apply IH; auto.
Qed.
End Cache.
(** a material queried, changed from n = 3/2 to n = 2 and queried again at the reference line *)
Example C31_example : let m n := AbbeMat n (Some 60) lambda_d lambda_C lambda_F in
  abbe_index (m (3 / 2)) lambda_d = Some (3 / 2) /\ abbe_index (m 2) lambda_d = Some 2 /\
  fst (run abbe abbe_index 1024 [Query abbe 0%nat lambda_d; Modify abbe 0%nat (m 2); Query abbe 0%nat lambda_d] (fun _ => m (3 / 2)) []) =
  [Some (3 / 2); Some (3 / 2)].
Proof.
  cbv zeta. assert (H : forall n, abbe_index (AbbeMat n (Some 60) lambda_d lambda_C lambda_F) lambda_d = Some n).
  { intros n. unfold abbe_index. cbn. rewrite fdiv_some by (unfold lambda_C, lambda_F; lra). cbn. rewrite fdiv_some by lra. cbn. f_equal. field.
    unfold lambda_C, lambda_F; lra. }
  split; [apply H|]. split; [apply H|]. cbn [run]. unfold call at 1. cbn [take_out]. rewrite H.
  change 1024%nat with (S 1023). cbn [firstn]. unfold call. cbn [take_out]. rewrite same_refl. reflexivity.
Qed.

(** * C32 *)
(** a glass given by index and Abbe number has that index at its reference line and that Abbe
    number over its own lines *)
Theorem C32_abbe m v : am_v m = Some v -> v <> 0 -> am_n m <> 1 -> am_long m <> am_short m ->
  abbe_index m (am_ref m) = Some (am_n m) /\
  dispersion (abbe_index m) (am_short m) (am_ref m) (am_long m) = Some (Some v).
Proof.
  intros V V0 N L. destruct m as [n ov r lo sh]. cbn in *. subst ov.
  assert (I : forall w, abbe_index (AbbeMat n (Some v) r lo sh) w = Some (n + (w - r) / (lo - sh) * (1 - n) / v)).
  { intros w. unfold abbe_index. cbn. rewrite fdiv_some by lra. cbn. rewrite fdiv_some by auto. reflexivity. }
  assert (LS : lo - sh <> 0) by lra.
  split; [rewrite I; f_equal; field; auto|]. unfold dispersion, delta_n. rewrite !I. cbn [obind].
  assert (E : n + (sh - r) / (lo - sh) * (1 - n) / v - (n + (lo - r) / (lo - sh) * (1 - n) / v) = (n - 1) / v) by (field; auto).
  rewrite E. assert (D : (n - 1) / v <> 0) by (unfold Rdiv; apply Rmult_integral_contrapositive_currified; [lra|apply Rinv_neq_0_compat; auto]).
  destruct (Req_EM_T ((n - 1) / v) 0); [contradiction|]. rewrite fdiv_some by auto. cbn [obind]. do 2 f_equal. field. split; [auto|lra].
Qed.
(** an infinite Abbe number: no dispersion, reported as infinite *)
Theorem C32_abbe_infinite m : am_v m = None -> am_long m <> am_short m ->
  (forall w, abbe_index m w = Some (am_n m)) /\ forall s l c, dispersion (abbe_index m) s l c = Some None.
Proof.
  intros V L. assert (I : forall w, abbe_index m w = Some (am_n m)).
  { intros w. unfold abbe_index. rewrite fdiv_some by lra. cbn. rewrite V. auto. }
  split; [exact I|]. intros s l c. unfold dispersion, delta_n. rewrite !I. cbn. destruct (Req_EM_T _ 0); [auto|lra].
Qed.
(** nd and vd: for the standard lines; finding: with other lines vd is another number *)
Theorem C32_vd n v : v <> 0 -> n <> 1 ->
  let m := AbbeMat n (Some v) lambda_d lambda_C lambda_F in nd (abbe_index m) = Some n /\ vd (abbe_index m) = Some (Some v).
Proof. intros V N m. apply (C32_abbe m v); auto. unfold m, lambda_C, lambda_F. cbn. lra. Qed.
Theorem C32_other_lines_refuted : exists m v, am_v m = Some v /\ v <> 0 /\ am_n m <> 1 /\ am_long m <> am_short m /\
  vd (abbe_index m) <> Some (Some v) /\ nd (abbe_index m) <> Some (am_n m).
Proof.
  exists (AbbeMat (3 / 2) (Some 50) lambda_C lambda_C lambda_F), 50. cbn [am_v am_n am_long am_short].
  assert (L : lambda_C <> lambda_F) by (unfold lambda_C, lambda_F; lra).
  assert (I : forall w, abbe_index (AbbeMat (3 / 2) (Some 50) lambda_C lambda_C lambda_F) w = Some (3 / 2 - (w - lambda_C) / (lambda_C - lambda_F) / 100)).
  { intros w. unfold abbe_index. cbn. rewrite fdiv_some by lra. cbn. rewrite fdiv_some by lra. cbn. f_equal. field. lra. }
  split; [reflexivity|]. split; [lra|]. split; [lra|]. split; [auto|]. split.
  - unfold vd, dispersion, delta_n. rewrite !I. cbn [obind].
    replace (3 / 2 - (lambda_F - lambda_C) / (lambda_C - lambda_F) / 100 - (3 / 2 - (lambda_C - lambda_C) / (lambda_C - lambda_F) / 100)) with (1 / 100) by (field; lra).
    destruct (Req_EM_T (1 / 100) 0); [lra|]. rewrite fdiv_some by lra. cbn [obind]. intros X. injection X as X.
    assert (Y : (lambda_d - lambda_C) / (lambda_C - lambda_F) = 0) by lra.
    unfold lambda_d, lambda_C, lambda_F in Y. lra.
  - unfold nd. rewrite I. intros X. injection X as X. unfold lambda_d, lambda_C, lambda_F in X. lra.
Qed.
Example C32_example : let m := AbbeMat (15168 / 10000) (Some (6417 / 100)) lambda_d lambda_C lambda_F in
  (6417 / 100 <> 0 /\ am_n m <> 1 /\ am_long m <> am_short m)%R.
Proof. cbn. unfold lambda_C, lambda_F. lra. Qed.

(** formula families that are re-parametrisations of each other, coefficient lists of any
    length and any wavelength (including those where the result is not a number) *)
Fixpoint flat (l : list (R * R)) : list R := match l with [] => [] | (a, b) :: l => a :: b :: flat l end.
Lemma pairs_flat l : pairs (flat l) = Some l.
Proof. induction l as [|[a b] l IH]; cbn; [auto|]. rewrite IH. auto. Qed.
Lemma halves_unzip l : halves (map fst l ++ map snd l) = Some l.
Proof.
  unfold halves. rewrite app_length, !map_length. replace (length l + length l)%nat with (length l * 2)%nat by lia.
  rewrite Nat.mod_mul, Nat.div_mul by lia. cbn [Nat.eqb].
  f_equal. rewrite firstn_app, skipn_app, !map_length, Nat.sub_diag, !firstn_all2, !skipn_all2 by (rewrite map_length; lia).
  cbn. rewrite app_nil_r. induction l as [|[a b] l IH]; cbn; [auto|]. rewrite IH. auto.
Qed.
Lemma flat_length l : length (flat l) = (length l * 2)%nat.
Proof. induction l as [|[a b] l IH]; cbn; lia. Qed.
Lemma even_tail_flat c l : even_tail (c :: flat l) = flat l.
Proof.
  unfold even_tail. cbn [tl length]. rewrite flat_length. replace (S (length l * 2) - 1)%nat with (length l * 2)%nat by lia.
  rewrite Nat.div_mul by lia. rewrite <- flat_length. apply firstn_all.
Qed.
Lemma terms_ext w f g l : (forall b, In b l -> f (snd b) = g (snd b)) -> sellmeier_terms w f l = sellmeier_terms w g l.
Proof.
  unfold sellmeier_terms. intros H. f_equal. apply map_ext_in. intros b I. rewrite H; auto.
Qed.
Theorem C32_sellmeier w l :
  (* poles given by wavelength or by its square *)
  n_sellmeier w (flat l) = n_sellmeier_squared w (flat (map (fun b => (fst b, (snd b) ^ 2)) l)) /\
  (* interleaved or transposed *)
  n_sellmeier_squared w (flat l) = n_sellmeier_squared_transposed w (map fst l ++ map snd l) /\
  (* zero offset *)
  n_sellmeier_offset w (0 :: flat l) = n_sellmeier w (flat l) /\
  n_sellmeier_squared_offset w (0 :: flat l) = n_sellmeier_squared w (flat l).
Proof.
  unfold n_sellmeier, n_sellmeier_squared, n_sellmeier_squared_transposed, n_sellmeier_offset, n_sellmeier_squared_offset.
  rewrite !even_tail_flat, !pairs_flat, halves_unzip. cbn [obind item nth_error]. rewrite Rplus_0_r. repeat split.
  assert (E : sellmeier_terms (w ^ 2) (fun x => x ^ 2) l = sellmeier_terms (w ^ 2) (fun x => x) (map (fun b => (fst b, snd b ^ 2)) l)).
  { unfold sellmeier_terms. rewrite map_map. reflexivity. }
  rewrite E. reflexivity.
Qed.
(** one Sellmeier term with offset is the second handbook formula without its last term *)
Theorem C32_handbook w c0 c1 c2 :
  n_sellmeier_squared_offset w [c0; c1; c2] = n_handbook_of_optics2 w [1 + c0; c1; c2; 0].
Proof.
  unfold n_sellmeier_squared_offset, n_handbook_of_optics2, sellmeier_terms, item. cbn [even_tail length Nat.sub Nat.div Nat.divmod fst snd Nat.mul firstn tl pairs obind nth_error map osum fold_right].
  unfold even_tail. cbn. replace (w * (w * 1)) with (w ^ 2) by ring. destruct (fdiv (c1 * w ^ 2) (w ^ 2 - c2)); cbn [obind]; [|auto]. f_equal. ring.
Qed.

(** inverse power series are Cauchy series with exponents -2, -4, ... *)
Fixpoint inverse_terms (k : nat) (l : list R) : list (R * R) :=
  match l with [] => [] | c :: l => (c, - INR (2 * (k + 1))) :: inverse_terms (S k) l end.
Lemma cpow_inverse w n : 0 < w -> cpow w (- INR n) = Some (/ w ^ n).
Proof.
  intros W. unfold cpow. destruct (Rlt_dec 0 w); [|contradiction]. rewrite Rpower_Ropp, Rpower_pow by auto. reflexivity.
Qed.
Lemma cpow_nat w n : 0 < w -> cpow w (INR n) = Some (w ^ n).
Proof. intros W. unfold cpow. destruct (Rlt_dec 0 w); [|contradiction]. rewrite Rpower_pow by auto. reflexivity. Qed.
Lemma powers_inverse w l k : 0 < w -> powers w (inverse_terms k l) =
  osum (map (fun ic => do q <- fdiv (snd ic) (w ^ (2 * (fst ic + 1))); Some q) (combine (seq k (length l)) l)).
Proof.
  intros W. revert k. induction l as [|c l IH]; intros k; [reflexivity|]. unfold powers. cbn [inverse_terms length seq combine map osum fold_right fst snd].
  rewrite cpow_inverse by auto. fold (osum (map (fun b => do p <- cpow w (snd b); Some (fst b * p)) (inverse_terms (S k) l))).
  fold (powers w (inverse_terms (S k) l)). rewrite IH. rewrite fdiv_some by (apply pow_nonzero; lra). reflexivity.
Qed.
Theorem C32_schott w c0 c1 l : 0 < w ->
  n_schott w (c0 :: c1 :: l) = n_polynomial w (c0 :: flat ((c1, 2) :: inverse_terms 0 l)) /\
  (* Hikari and extended formulas reduce to it *)
  n_hikari w (c0 :: c1 :: 0 :: l) = n_schott w (c0 :: c1 :: l) /\
  (forall a b c d, n_extended2 w [c0; c1; a; b; c; d; 0; 0] = n_schott w [c0; c1; a; b; c; d]).
Proof.
  intros W. split; [|split].
  - unfold n_schott, n_polynomial, n_cauchy, inverse_powers. cbn [tl]. rewrite pairs_flat. cbn [item nth_error obind skipn].
    assert (E : powers w ((c1, 2) :: inverse_terms 0 l) = do s <- powers w (inverse_terms 0 l); Some (c1 * w ^ 2 + s)).
    { unfold powers. cbn [map osum fold_right fst snd]. change 2 with (INR 2). rewrite cpow_nat by auto. reflexivity. }
    rewrite E, powers_inverse by auto. destruct (osum _); cbn [obind]; [|auto]. f_equal. ring.
  - unfold n_hikari, n_schott, inverse_powers. cbn [item nth_error obind skipn]. destruct (osum _); cbn [obind]; [|auto]. f_equal. ring.
  - intros a b c d. unfold n_extended2, n_schott, inverse_powers. cbn [item nth_error obind skipn firstn length].
    match goal with |- (do n <- (do s <- ?x; _); _) = _ => destruct x end; cbn [obind]; [|auto]. f_equal. ring.
Qed.
(** wrong lengths raise instead of silently dropping coefficients *)
Theorem C32_odd_length w c : (length c mod 2 = 1)%nat ->
  n_sellmeier w c = None /\ n_sellmeier_squared w c = None /\ n_sellmeier_squared_transposed w c = None /\ n_gas w c = None.
Proof.
  intros H. assert (P : pairs c = None).
  { assert (G : forall n c, (length c <= n)%nat -> (length c mod 2 = 1)%nat -> pairs c = None); [|apply (G (length c)); auto].
    clear. induction n as [|n IH]; intros [|a [|b c]] L H; cbn [length pairs] in *; auto; try lia; try (cbn in H; discriminate H).
    assert (Q : (length c mod 2 = 1)%nat).
    { transitivity (S (S (length c)) mod 2)%nat; [|exact H]. rewrite <- (Nat.mod_add (length c) 1 2) by lia. f_equal. lia. }
    rewrite (IH c); [auto|lia|exact Q]. }
  unfold n_sellmeier, n_sellmeier_squared, n_sellmeier_squared_transposed, n_gas, halves. rewrite P, H. auto.
Qed.

(** * C50 *)
(** no change at the reference temperature; away from the reference wavelength the change
    is defined *)
Theorem C50_thermal h n t l : n <> 0 -> (l / (1 / 1000000)) ^ 2 <> th_lref h ^ 2 ->
  dn_thermal h (th_tref h) n (Some l) = Some 0 /\ dn_thermal h t n (Some l) <> None.
Proof.
  intros N W. unfold dn_thermal. rewrite !fdiv_some by lra. cbn [obind]. split; [|discriminate]. f_equal.
  replace (th_tref h - th_tref h) with 0 by ring. field. lra.
Qed.
(** finding: without a wavelength (or at the reference wavelength) the formula divides by zero, for
    every glass and temperature *)
Theorem C50_default_wavelength_refuted h t n : dn_thermal h t n None = None.
Proof.
  unfold dn_thermal. destruct (fdiv _ (2 * n)); cbn [obind]; [|auto]. replace (th_lref h ^ 2 - th_lref h ^ 2) with 0 by ring.
  rewrite fdiv_zero. reflexivity.
Qed.
Example C50_example : let h := Thermal 1 0 0 1 0 20 (1 / 5) in (3 / 2 <> 0 /\ (lambda_d / (1 / 1000000)) ^ 2 <> th_lref h ^ 2)%R.
Proof. cbn. unfold lambda_d. split; [lra|]. lra. Qed.

Print Assumptions C31_values.
Print Assumptions C31_unmodified.
Print Assumptions C31_bounded.
Print Assumptions C31_stale_refuted.
Print Assumptions C32_abbe.
Print Assumptions C32_abbe_infinite.
Print Assumptions C32_vd.
Print Assumptions C32_other_lines_refuted.
Print Assumptions C32_sellmeier.
Print Assumptions C32_handbook.
Print Assumptions C32_schott.
Print Assumptions C32_odd_length.
Print Assumptions C50_thermal.
Print Assumptions C50_default_wavelength_refuted.
Example C32_formula_example : (0 < lambda_d)%R /\ (length [1; 2; 3]%R mod 2 = 1)%nat.
Proof. split; [unfold lambda_d; lra|reflexivity]. Qed.
