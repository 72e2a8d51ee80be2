(** Property C33, continued: the base class and the nearest and linear caches. *)
From Coq Require Import List Arith Reals Lra Lia Psatz.
From Verif Require Import Base CacheModel PropsCache CacheNdModel.
Import ListNotations.
Open Scope R_scope.

(** squared distance of keys *)
Definition dist2 (a b : key) : R := (fst a - fst b) ^ 2 + (snd a - snd b) ^ 2.
(** [p] is the mean of three points with the weights u, v, w *)
Definition mean3 (u v w : R) (a b c p : key) : Prop :=
  0 <= u /\ 0 <= v /\ 0 <= w /\ u + v + w = 1 /\ fst p = u * fst a + v * fst b + w * fst c /\ snd p = u * snd a + v * snd b + w * snd c.
Definition proper (a b c : key) : Prop := (fst b - fst a) * (snd c - snd a) - (snd b - snd a) * (fst c - fst a) <> 0.

(** ** contracts of the search structures *)
Definition nearest_ok (nearest : list key -> key -> nat) : Prop := forall ks k, ks <> [] ->
  exists q, nth_error ks (nearest ks k) = Some q /\ forall q', In q' ks -> dist2 q k <= dist2 q' k.
Definition simplex_ok (simplex : list key -> key -> option (nat * nat * nat)) : Prop := forall ks k,
  match simplex ks k with
  | Some (i, j, h) => exists a b c, nth_error ks i = Some a /\ nth_error ks j = Some b /\ nth_error ks h = Some c /\ proper a b c /\
      exists u v w, mean3 u v w a b c k
  | None => forall a b c u v w, In a ks -> In b ks -> In c ks -> proper a b c -> ~ mean3 u v w a b c k
  end.

Section C.
Variables (nearest : list key -> key -> nat) (triangulation : list key -> option unit) (simplex : list key -> key -> option (nat * nat * nat)).
Variable solver : key -> option arr -> option arr.
Notation ncall := (ncall nearest triangulation simplex solver).
Notation nhistory := (nhistory nearest triangulation simplex solver).

Definition queries (ks : list key) : list cevent := map CQuery ks.
Lemma lookup_app l k k' v : lookup (l ++ [(k', v)]) k = match lookup l k with Some w => Some w | None => if key_eqb k k' then Some v else None end.
Proof. induction l as [|[q w] l IH]; cbn; [reflexivity|]. destruct (key_eqb k q); auto. Qed.
Lemma key_eqb_refl k : key_eqb k k = true.
Proof. unfold key_eqb. destruct (Req_EM_T (fst k) (fst k)); [|lra]. destruct (Req_EM_T (snd k) (snd k)); [auto|lra]. Qed.
Lemma key_eqb_eq a b : key_eqb a b = true -> a = b.
Proof. unfold key_eqb. destruct (Req_EM_T _ _) as [E|]; [|discriminate]. destruct (Req_EM_T _ _) as [F|]; [|discriminate]. intros _. destruct a, b; cbn in *; congruence. Qed.
Lemma ncall_keeps c s k k' v : lookup (n_entries s) k' = Some v -> lookup (n_entries (snd (ncall c s k))) k' = Some v.
Proof.
  intros L. unfold CacheNdModel.ncall. destruct (lookup (n_entries s) k); [exact L|]. destruct (solver _ _); [|exact L].
  destruct (nupdate _ _ _ _ _ _) as [i|]; cbn [snd n_entries]; rewrite lookup_app, L; reflexivity.
Qed.
Lemma ncall_stores c s k v : fst (ncall c s k) = Some v -> lookup (n_entries (snd (ncall c s k))) k = Some v.
Proof.
  unfold CacheNdModel.ncall. destruct (lookup (n_entries s) k) eqn:L; [cbn; congruence|]. destruct (solver _ _); [|discriminate].
  destruct (nupdate _ _ _ _ _ _) as [i|]; cbn [fst snd n_entries]; [|discriminate]. intros E. rewrite lookup_app, L, key_eqb_refl. exact E.
Qed.
Lemma ncall_hit c s k v : lookup (n_entries s) k = Some v -> ncall c s k = (Some v, s).
Proof. intros L. unfold CacheNdModel.ncall. rewrite L. reflexivity. Qed.
Lemma nhistory_hit c k v o es : forall s pre post, lookup (n_entries s) k = Some v -> fst (nhistory c s es) = pre ++ (CQuery k, o) :: post ->
  (forall g u, ~ In (CClear g, u) pre) -> o = Some v.
Proof.
  induction es as [|e es IH]; intros s pre post L H N; [destruct pre; discriminate H|]. destruct e as [k'|g]; cbn in H.
  - destruct (ncall c s k') as [w s'] eqn:C. destruct (nhistory c s' es) as [l s''] eqn:HH. cbn in H. destruct pre as [|x pre]; cbn in H.
    + injection H as -> <- _. rewrite (ncall_hit c s k v L) in C. congruence.
    + injection H as <- ->. apply (IH s' pre post); [|rewrite HH; reflexivity|intros g u I; apply (N g u); right; exact I].
      pose proof (ncall_keeps c s k' k v L) as K. rewrite C in K. exact K.
  - destruct (nhistory c (nclear s g) es) as [l s'] eqn:HH. cbn in H. destruct pre as [|x pre]; cbn in H; [discriminate|].
    injection H as <- ->. exfalso. eapply N. left. reflexivity.
Qed.
(** a value once returned is returned again until the cache is cleared, whatever the cache class *)
Theorem C33_nd_first_value c s es pre mid post k v o :
  fst (nhistory c s es) = pre ++ (CQuery k, Some v) :: mid ++ (CQuery k, o) :: post ->
  (forall g u, ~ In (CClear g, u) mid) -> o = Some v.
Proof.
  revert s pre. induction es as [|e es IH]; intros s pre H N; [destruct pre; discriminate H|]. destruct e as [k'|g]; cbn in H.
  - destruct (ncall c s k') as [w s'] eqn:C. destruct (nhistory c s' es) as [l s''] eqn:HH. cbn in H. destruct pre as [|x pre]; cbn in H.
    + injection H as -> -> H. apply (nhistory_hit c k v o es s' mid post); [|rewrite HH; exact H|exact N].
      pose proof (ncall_stores c s k v) as K. rewrite C in K. apply K. reflexivity.
    + injection H as _ H. apply (IH s' pre); [rewrite HH; exact H|exact N].
  - destruct (nhistory c (nclear s g) es) as [l s'] eqn:HH. cbn in H. destruct pre as [|x pre]; cbn in H; [discriminate|].
    injection H as _ H. apply (IH (nclear s g) pre); [rewrite HH; exact H|exact N].
Qed.

(** ** states reached without clearing *)
Definition reached (c : ckind) (g : option arr) (ks : list key) : nst := snd (nhistory c (nnew g) (queries ks)).
Definition tidy (c : ckind) (s : nst) : Prop :=
  n_guess s = None /\
  match c with
  | Abstract => n_interp s = None
  | Nearest => n_interp s = match n_entries s with [] => None | es => Some (nearest_interp nearest es) end
  | Linear => n_interp s = if Nat.ltb (length (n_entries s)) 4 then None
      else match triangulation (map fst (n_entries s)) with Some _ => Some (linear_interp simplex (n_entries s)) | None => None end
  end /\
  forall k v, In (k, v) (n_entries s) -> lookup (n_entries s) k = Some v /\ exists g, solver k g = Some v.
Lemma lookup_in l k v : lookup l k = Some v -> In (k, v) l.
Proof. induction l as [|[q w] l IH]; cbn; [discriminate|]. destruct (key_eqb k q) eqn:E; [apply key_eqb_eq in E; subst q; intros H; injection H as ->; auto|auto]. Qed.
Lemma tidy_step c s k : tidy c s -> tidy c (snd (ncall c s k)).
Proof.
  intros (G & I & E). unfold CacheNdModel.ncall. destruct (lookup (n_entries s) k) eqn:L; [exact (conj G (conj I E))|].
  destruct (solver k (nstart s k)) as [v|] eqn:S; [|exact (conj G (conj I E))].
  assert (EN : forall k0 v0, In (k0, v0) (n_entries s ++ [(k, v)]) -> lookup (n_entries s ++ [(k, v)]) k0 = Some v0 /\ exists g, solver k0 g = Some v0).
  { intros k0 v0 H. apply in_app_or in H. destruct H as [H|[H|[]]].
    - destruct (E _ _ H) as (A & B). rewrite lookup_app, A. auto.
    - injection H as <- <-. rewrite lookup_app, L, key_eqb_refl. eauto. }
  destruct c; cbn [nupdate].
  - cbn [snd]. split; [exact G|]. split; [exact I|exact EN].
  - cbn [snd]. split; [exact G|]. split; [|exact EN]. cbn [n_interp n_entries]. destruct (n_entries s ++ [(k, v)]) eqn:Z; [destruct (n_entries s); discriminate|reflexivity].
  - destruct (Nat.ltb (length (n_entries s ++ [(k, v)])) 4) eqn:LT.
    + cbn [snd]. split; [exact G|]. split; [|exact EN]. cbn [n_interp n_entries]. rewrite LT, I. apply Nat.ltb_lt in LT. rewrite app_length in LT. cbn in LT.
      assert (LT2 : Nat.ltb (length (n_entries s)) 4 = true) by (apply Nat.ltb_lt; lia). rewrite LT2. reflexivity.
    + destruct (triangulation (map fst (n_entries s ++ [(k, v)]))) eqn:T; cbn [snd]; (split; [exact G|]; split; [|exact EN]); cbn [n_interp n_entries]; rewrite LT, T; reflexivity.
Qed.
Lemma tidy_history c ks : forall s, tidy c s -> tidy c (snd (nhistory c s (queries ks))).
Proof.
  induction ks as [|k ks IH]; intros s T; [exact T|]. cbn [queries map CacheNdModel.nhistory]. pose proof (tidy_step c s k T) as T'.
  destruct (ncall c s k) as [v s']. cbn [snd] in T'. pose proof (IH s' T') as K. unfold queries in K. destruct (nhistory c s' (map CQuery ks)). exact K.
Qed.
Lemma tidy_reached c g ks : tidy c (reached c g ks).
Proof. apply tidy_history. split; [reflexivity|]. split; [destruct c; reflexivity|]. intros k v []. Qed.

(** what is stored came from the solver, for this key, with some start value *)
Theorem C33_nd_entries c g ks k v : In (k, v) (n_entries (reached c g ks)) ->
  lookup (n_entries (reached c g ks)) k = Some v /\ exists g', solver k g' = Some v.
Proof. destruct (tidy_reached c g ks) as (_ & _ & E). apply E. Qed.
(** nearest cache: the solver starts from the value at a nearest known key *)
Theorem C33_nearest_start g ks k : nearest_ok nearest -> let s := reached Nearest g ks in
  match nstart s k with
  | None => n_entries s = []
  | Some v => exists q, In (q, v) (n_entries s) /\ forall q' v', In (q', v') (n_entries s) -> dist2 q k <= dist2 q' k
  end.
Proof.
  intros NO s. destruct (tidy_reached Nearest g ks) as (G & I & _). fold s in G, I. unfold nstart. rewrite I, G.
  destruct (n_entries s) as [|e es]; [reflexivity|]. unfold nearest_interp.
  destruct (NO (map fst (e :: es)) k) as (q & Q & MIN); [discriminate|]. rewrite nth_error_map in Q.
  destruct (nth_error (e :: es) _) as [[q0 v]|] eqn:E; [|discriminate]. cbn in Q. injection Q as ->. cbn [obind snd].
  exists q. split; [eapply nth_error_In; exact E|]. intros q' v' H. apply MIN. apply (in_map fst) in H. exact H.
Qed.

Lemma blend3 u v w a b c n : length a = n -> length b = n -> length c = n ->
  length (blend [u; v; w] [a; b; c]) = n /\ forall i x y z, nth_error a i = Some x -> nth_error b i = Some y -> nth_error c i = Some z ->
  nth_error (blend [u; v; w] [a; b; c]) i = Some (u * x + v * y + w * z).
Proof.
  revert b c n. cbn [blend]. induction a as [|x a IH]; intros [|y b] [|z c] n A B C; cbn in *; subst n; try discriminate.
  - split; [reflexivity|]. intros [|i]; discriminate.
  - destruct (IH b c (length a)) as (L & N); [auto|congruence|congruence|]. split; [cbn; congruence|].
    intros [|i] x' y' z' H1 H2 H3; cbn in *; [injection H1 as <-; injection H2 as <-; injection H3 as <-; f_equal; ring|auto].
Qed.
Lemma bary_mean a b c p u v w : proper a b c -> mean3 u v w a b c p -> barycentric a b c p = Some (u, v, w).
Proof.
  destruct a as [ax ay], b as [bx b_y], c as [cx cy], p as [px py]. unfold proper, mean3, barycentric, cross2, sub2. cbn [fst snd].
  intros P (U & V & W & S & -> & ->). rewrite !fdiv_some by exact P. cbn [obind]. assert (E : u = 1 - v - w) by lra. subst u.
  f_equal. f_equal; [f_equal|]; field; exact P.
Qed.
(** linear cache: no start value from fewer than four keys, from keys on a line or for a key outside their convex hull; else the
    weighted mean of the values at three keys around it *)
Theorem C33_linear_start g ks k n : simplex_ok simplex -> let s := reached Linear g ks in
  (forall e, In e (n_entries s) -> length (snd e) = n) ->
  ((length (n_entries s) < 4)%nat -> nstart s k = None) /\
  (triangulation (map fst (n_entries s)) = None -> nstart s k = None) /\
  ((4 <= length (n_entries s))%nat -> triangulation (map fst (n_entries s)) <> None ->
   match nstart s k with
   | None => forall a b c u v w, In a (map fst (n_entries s)) -> In b (map fst (n_entries s)) -> In c (map fst (n_entries s)) -> proper a b c -> ~ mean3 u v w a b c k
   | Some y => exists a b c u v w, In a (n_entries s) /\ In b (n_entries s) /\ In c (n_entries s) /\ mean3 u v w (fst a) (fst b) (fst c) k /\
       length y = n /\ forall i x1 x2 x3, nth_error (snd a) i = Some x1 -> nth_error (snd b) i = Some x2 -> nth_error (snd c) i = Some x3 -> nth_error y i = Some (u * x1 + v * x2 + w * x3)
   end).
Proof.
  intros SO s LE. destruct (tidy_reached Linear g ks) as (G & I & _). fold s in G, I. unfold nstart. rewrite I, G. split; [|split].
  - intros LT. apply Nat.ltb_lt in LT. rewrite LT. reflexivity.
  - intros ->. destruct (Nat.ltb _ _); reflexivity.
  - intros GE T. assert (LT : Nat.ltb (length (n_entries s)) 4 = false) by (apply Nat.ltb_ge; exact GE). rewrite LT. destruct (triangulation _) as [tt'|]; [|contradiction].
    unfold linear_interp. pose proof (SO (map fst (n_entries s)) k) as K. destruct (simplex _ k) as [[[i j] h]|]; cbn [obind]; [|exact K].
    destruct K as (a & b & c & A & B & C & P & u & v & w & M). rewrite nth_error_map in A, B, C.
    destruct (nth_error (n_entries s) i) as [ea|] eqn:EA; [|discriminate]. destruct (nth_error (n_entries s) j) as [eb|] eqn:EB; [|discriminate]. destruct (nth_error (n_entries s) h) as [ec|] eqn:EC; [|discriminate].
    cbn in A, B, C. injection A as <-. injection B as <-. injection C as <-. cbn [obind]. rewrite (bary_mean _ _ _ _ _ _ _ P M). cbn [obind].
    apply nth_error_In in EA. apply nth_error_In in EB. apply nth_error_In in EC.
    exists ea, eb, ec, u, v, w. split; [exact EA|]. split; [exact EB|]. split; [exact EC|]. split; [exact M|].
    destruct (blend3 u v w (snd ea) (snd eb) (snd ec) n (LE _ EA) (LE _ EB) (LE _ EC)) as (L & N). split; [exact L|exact N].
Qed.
(** values that depend linearly on the field are predicted exactly *)
Theorem C33_linear_exact g ks k (f : list (R * R * R)) y : simplex_ok simplex -> let s := reached Linear g ks in
  let F := fun q : key => map (fun t => fst (fst t) + snd (fst t) * fst q + snd t * snd q) f in
  (forall q v, In (q, v) (n_entries s) -> v = F q) -> nstart s k = Some y -> y = F k.
Proof.
  intros SO s F H ST. assert (LE : forall e, In e (n_entries s) -> length (snd e) = length f).
  { intros [q v] E. cbn. rewrite (H _ _ E). unfold F. apply map_length. }
  destruct (C33_linear_start g ks k (length f) SO LE) as (A & B & C). fold s in A, B, C.
  assert (GE : (4 <= length (n_entries s))%nat) by (destruct (le_lt_dec 4 (length (n_entries s))) as [|L]; [auto|rewrite (A L) in ST; discriminate]).
  assert (T : triangulation (map fst (n_entries s)) <> None) by (intros T; rewrite (B T) in ST; discriminate).
  specialize (C GE T). rewrite ST in C. destruct C as ([a va] & [b vb] & [c vc] & u & v & w & IA & IB & IC & M & L & N). cbn [fst snd] in *.
  rewrite (H _ _ IA), (H _ _ IB), (H _ _ IC) in N. destruct M as (_ & _ & _ & S1 & P1 & P2).
  apply nth_ext with (d := 0) (d' := 0); [unfold F; rewrite map_length; exact L|]. intros i I.
  assert (I' : (i < length f)%nat) by lia. destruct (nth_error f i) as [[[p q] r]|] eqn:FI; [|apply nth_error_None in FI; lia].
  pose proof (N i _ _ _ (map_nth_error _ i f FI) (map_nth_error _ i f FI) (map_nth_error _ i f FI)) as NI. cbn [fst snd] in NI.
  rewrite (nth_error_nth _ _ 0 NI). rewrite (nth_error_nth (F k) i 0 (map_nth_error _ i f FI)). cbn [fst snd]. rewrite P1, P2.
  replace p with ((u + v + w) * p) at 4 by (rewrite S1; ring). ring.
Qed.
(** the base class itself: every first query ends in an exception although the solver succeeded, asking again gives the value *)
Theorem C33_abstract g k v : solver k None = Some v ->
  let '(o, s) := ncall Abstract (nnew g) k in o = None /\ fst (ncall Abstract s k) = Some v.
Proof. intros S. unfold CacheNdModel.ncall at 1. cbn. rewrite S. cbn. split; [reflexivity|]. unfold CacheNdModel.ncall. cbn. rewrite key_eqb_refl. reflexivity. Qed.
(** a solver that does not depend on its start value: the answers do not depend on the history *)
Theorem C33_nd_values c f g es : c <> Abstract -> (forall k x, solver k x = f k) ->
  Forall (fun eo => match fst eo with CQuery k => snd eo = f k | CClear _ => True end) (fst (nhistory c (nnew g) es)).
Proof.
  intros C S. assert (K : forall s, (forall k v, lookup (n_entries s) k = Some v -> f k = Some v) ->
    Forall (fun eo => match fst eo with CQuery k => snd eo = f k | CClear _ => True end) (fst (nhistory c s es))).
  { induction es as [|e es IH]; intros s H; [constructor|]. destruct e as [k|g']; cbn [CacheNdModel.nhistory].
    - destruct (ncall c s k) as [v s'] eqn:NC. destruct (nhistory c s' es) as [l s''] eqn:HH. cbn [fst].
      assert (V : v = f k /\ forall k v, lookup (n_entries s') k = Some v -> f k = Some v).
      { unfold CacheNdModel.ncall in NC. destruct (lookup (n_entries s) k) as [w|] eqn:L; [injection NC as <- <-; split; [symmetry; auto|auto]|].
        rewrite S in NC. destruct (f k) as [w|] eqn:FK; [|injection NC as <- <-; auto].
        assert (U : exists i, nupdate nearest triangulation simplex c (n_entries s ++ [(k, w)]) (n_interp s) = Some i).
        { destruct c; cbn [nupdate]; [contradiction|eauto|]. destruct (Nat.ltb (length (n_entries s ++ [(k, w)])) 4); [eauto|]. destruct (triangulation (map fst (n_entries s ++ [(k, w)]))); eauto. }
        destruct U as (i & U). rewrite U in NC. injection NC as <- <-. split; [auto|]. cbn [n_entries]. intros k0 v0. rewrite lookup_app.
        destruct (lookup (n_entries s) k0) eqn:L0; [intros E; injection E as <-; auto|]. destruct (key_eqb k0 k) eqn:EK; [|discriminate]. apply key_eqb_eq in EK. subst k0. congruence. }
      destruct V as (V1 & V2). constructor; [exact V1|]. pose proof (IH s' V2) as Q. rewrite HH in Q. exact Q.
    - destruct (nhistory c (nclear s g') es) as [l s'] eqn:HH. cbn [fst]. constructor; [exact I|]. pose proof (IH (nclear s g')) as Q. rewrite HH in Q. apply Q. cbn. discriminate. }
  apply K. cbn. discriminate.
Qed.
End C.

(** ** search structures that meet the contracts *)
Fixpoint argmin (ks : list key) (k : key) : nat :=
  match ks with
  | [] => 0%nat
  | q :: ks' => match nth_error ks' (argmin ks' k) with
                | None => 0%nat
                | Some q' => if Rle_dec (dist2 q k) (dist2 q' k) then 0%nat else S (argmin ks' k)
                end
  end.
Lemma argmin_ok : nearest_ok argmin.
Proof.
  intros ks k. induction ks as [|q ks IH]; [congruence|]. intros _. cbn [argmin]. destruct ks as [|q1 ks].
  - cbn. exists q. split; [reflexivity|]. intros q' [<-|[]]. lra.
  - destruct IH as (q' & N & M); [discriminate|]. rewrite N. destruct (Rle_dec (dist2 q k) (dist2 q' k)) as [L|L].
    + exists q. split; [reflexivity|]. intros q2 [<-|H]; [lra|]. specialize (M _ H). lra.
    + exists q'. split; [exact N|]. intros q2 [<-|H]; [lra|auto].
Qed.
Definition around (ks : list key) (k : key) (t : nat * nat * nat) : bool :=
  let '(i, j, h) := t in
  match nth_error ks i, nth_error ks j, nth_error ks h with
  | Some a, Some b, Some c =>
      match barycentric a b c k with
      | Some (u, v, w) => if Rle_dec 0 u then if Rle_dec 0 v then if Rle_dec 0 w then true else false else false else false
      | None => false
      end
  | _, _, _ => false
  end.
Definition find_triangle (ks : list key) (k : key) : option (nat * nat * nat) :=
  let idx := seq 0 (length ks) in find (around ks k) (list_prod (list_prod idx idx) idx).
Lemma bary_proper a b c p u v w : barycentric a b c p = Some (u, v, w) -> 0 <= u -> 0 <= v -> 0 <= w -> proper a b c /\ mean3 u v w a b c p.
Proof.
  destruct a as [ax ay], b as [bx b_y], c as [cx cy], p as [px py]. unfold proper, mean3, barycentric, cross2, sub2. cbn [fst snd].
  destruct (Req_EM_T ((bx - ax) * (cy - ay) - (b_y - ay) * (cx - ax)) 0) as [Z|P]; [unfold fdiv; destruct (Req_EM_T _ _); [discriminate|contradiction]|].
  rewrite !fdiv_some by exact P. cbn [obind]. intros E U V W. injection E as <- <- <-.
  split; [exact P|]. split; [exact U|]. split; [exact V|]. split; [exact W|]. split; [ring|]. split; field; exact P.
Qed.
Lemma find_triangle_ok : simplex_ok find_triangle.
Proof.
  intros ks k. unfold find_triangle. set (idx := seq 0 (length ks)). destruct (find _ _) as [[[i j] h]|] eqn:F.
  - apply find_some in F. destruct F as (_ & F). unfold around in F.
    destruct (nth_error ks i) as [a|]; [|discriminate]. destruct (nth_error ks j) as [b|]; [|discriminate]. destruct (nth_error ks h) as [c|]; [|discriminate].
    destruct (barycentric a b c k) as [[[u v] w]|] eqn:B; [|discriminate].
    destruct (Rle_dec 0 u); [|discriminate]. destruct (Rle_dec 0 v); [|discriminate]. destruct (Rle_dec 0 w); [|discriminate].
    destruct (bary_proper a b c k u v w B) as (P & M); auto. exists a, b, c. eauto 10.
  - intros a b c u v w IA IB IC P M. apply In_nth_error in IA, IB, IC. destruct IA as (i & A), IB as (j & B), IC as (h & C).
    assert (I : forall n x, nth_error ks n = Some x -> In n idx).
    { intros n x N. apply in_seq. split; [lia|]. cbn. apply nth_error_Some. congruence. }
    assert (T : In (i, j, h) (list_prod (list_prod idx idx) idx)) by (apply in_prod; [apply in_prod|]; eauto).
    pose proof (find_none _ _ F _ T) as Q. unfold around in Q. rewrite A, B, C, (bary_mean a b c k u v w P M) in Q.
    destruct M as (U & V & W & _). destruct (Rle_dec 0 u); [|contradiction]. destruct (Rle_dec 0 v); [|contradiction]. destruct (Rle_dec 0 w); [discriminate|contradiction].
Qed.
(** here a triangulation is always found; a list of keys on a line has no proper triangle *)
Definition tri_ok (ks : list key) : option unit := Some tt.

(** the interpolator survives [clear]: the next query starts from values that have been thrown away *)
Theorem C33_nd_stale_refuted : exists (solver : key -> option arr -> option arr) (k k' : key) (v g : arr),
  let s := snd (nhistory argmin tri_ok find_triangle solver Nearest (nnew (Some g)) [CQuery k; CClear (Some g)]) in
  n_entries s = [] /\ nstart s k' = Some v /\ g <> v.
Proof.
  exists (fun _ _ => Some [1]), (0, 0), (1, 1), [1], [2]. cbn. split; [reflexivity|]. split; [reflexivity|]. intros E. injection E. lra.
Qed.

(** ** examples: the solver returns the sum and the difference of the coordinates *)
Definition sumdiff (k : key) (g : option arr) : option arr := Some [fst k + snd k; fst k - snd k].
Lemma lookup_none l k : ~ In k (map fst l) -> lookup l k = None.
Proof. induction l as [|[q w] l IH]; cbn; [reflexivity|]. intros N. destruct (key_eqb k q) eqn:E; [apply key_eqb_eq in E; subst q; exfalso; auto|auto]. Qed.
(** distinct keys and a solver that never fails: all values are kept, in order *)
Lemma distinct_entries nearest triangulation simplex solver c F ks : c <> Abstract -> (forall k g, solver k g = Some (F k)) -> forall s,
  NoDup (map fst (n_entries s) ++ ks) ->
  n_entries (snd (nhistory nearest triangulation simplex solver c s (queries ks))) = n_entries s ++ map (fun k => (k, F k)) ks.
Proof.
  intros C S. induction ks as [|k ks IH]; intros s ND; [cbn; rewrite app_nil_r; reflexivity|].
  cbn [queries map nhistory]. unfold ncall. rewrite lookup_none by (intros H; apply (NoDup_remove_2 _ _ _ ND), in_or_app; left; exact H).
  rewrite S. assert (U : exists i, nupdate nearest triangulation simplex c (n_entries s ++ [(k, F k)]) (n_interp s) = Some i).
  { destruct c; cbn [nupdate]; [contradiction|eauto|]. destruct (Nat.ltb (length (n_entries s ++ [(k, F k)])) 4); [eauto|]. destruct (triangulation (map fst (n_entries s ++ [(k, F k)]))); eauto. }
  destruct U as (i & U). rewrite U. set (s1 := Nst (n_entries s ++ [(k, F k)]) (n_guess s) i).
  assert (ND1 : NoDup (map fst (n_entries s1) ++ ks)) by (cbn; rewrite map_app, <- app_assoc; exact ND).
  pose proof (IH s1 ND1) as K. unfold queries in K. destruct (nhistory _ _ _ _ _ s1 _) as [l s2]. cbn [snd] in *. rewrite K. cbn. rewrite <- app_assoc. reflexivity.
Qed.
Definition plane3 (k : key) : arr := [fst k + snd k; fst k - snd k].
Definition four : list key := [(0, 0); (1, 0); (0, 1); (1, 1)].
Lemma four_distinct : NoDup four.
Proof. unfold four. repeat constructor; cbn; intros H; repeat destruct H as [H|H]; try (injection H; intros; lra); contradiction. Qed.
Lemma four_entries c : c <> Abstract -> n_entries (reached argmin tri_ok find_triangle sumdiff c None four) = map (fun k => (k, plane3 k)) four.
Proof. intros C. unfold reached. rewrite (distinct_entries _ _ _ _ c plane3 four C); [reflexivity|reflexivity|exact four_distinct]. Qed.
(** the key (1/4, 1/4) lies in the square: the prediction is exact *)
Example C33_linear_example :
  nstart (reached argmin tri_ok find_triangle sumdiff Linear None four) (/ 4, / 4) = Some [/ 4 + / 4; / 4 - / 4].
Proof.
  assert (E := four_entries Linear ltac:(discriminate)). set (s := reached argmin tri_ok find_triangle sumdiff Linear None four) in *.
  assert (LE : forall e, In e (n_entries s) -> length (snd e) = 2%nat) by (rewrite E; intros e H; apply in_map_iff in H; destruct H as (k & <- & _); reflexivity).
  destruct (C33_linear_start argmin tri_ok find_triangle sumdiff None four (/ 4, / 4) 2 find_triangle_ok LE) as (_ & _ & B). fold s in B.
  assert (GE : (4 <= length (n_entries s))%nat) by (rewrite E; cbn; lia). specialize (B GE ltac:(discriminate)).
  destruct (nstart s (/ 4, / 4)) as [y|] eqn:ST.
  - f_equal. pose proof (C33_linear_exact argmin tri_ok find_triangle sumdiff None four (/ 4, / 4) [(0, 1, 1); (0, 1, -1)] y find_triangle_ok) as X. cbv zeta in X. fold s in X.
    rewrite X; [cbn; f_equal; [ring|f_equal; ring]| |exact ST]. intros q v H. rewrite E in H. apply in_map_iff in H. destruct H as (k & H & _). injection H as <- <-.
    unfold plane3. cbn. f_equal; [ring|f_equal; ring].
  - exfalso. rewrite E in B. cbn in B. apply (B (0, 0) (1, 0) (0, 1) (/ 2) (/ 4) (/ 4)); auto; [unfold proper; cbn; lra|unfold mean3; cbn; lra].
Qed.
Example C33_nearest_example : exists q, In (q, plane3 q) (n_entries (reached argmin tri_ok find_triangle sumdiff Nearest None four)) /\ q = (1, 1) /\
  nstart (reached argmin tri_ok find_triangle sumdiff Nearest None four) (2, 3) = Some [1 + 1; 1 - 1].
Proof.
  assert (E := four_entries Nearest ltac:(discriminate)). set (s := reached argmin tri_ok find_triangle sumdiff Nearest None four) in *.
  pose proof (C33_nearest_start argmin tri_ok find_triangle sumdiff None four (2, 3) argmin_ok) as X. cbv zeta in X. fold s in X.
  exists (1, 1). rewrite E in *. split; [right; right; right; left; reflexivity|]. split; [reflexivity|].
  destruct (nstart s (2, 3)) as [v|]; [|discriminate]. destruct X as (q & I & M).
  specialize (M (1, 1) (plane3 (1, 1)) ltac:(right; right; right; left; reflexivity)). unfold dist2 in M. cbn in I.
  repeat destruct I as [I|I]; try contradiction; injection I as <- <-; cbn in M; try lra. reflexivity.
Qed.
(** the first query of the base class raises, the second returns; memory and values for the others *)
Example C33_nd_example : fst (nhistory argmin tri_ok find_triangle sumdiff Abstract (nnew None) [CQuery (3, 1); CQuery (3, 1)]) = [(CQuery (3, 1), None); (CQuery (3, 1), Some [3 + 1; 3 - 1])] /\
  fst (nhistory argmin tri_ok find_triangle sumdiff Nearest (nnew None) [CQuery (3, 1); CQuery (3, 1)]) = [(CQuery (3, 1), Some [3 + 1; 3 - 1]); (CQuery (3, 1), Some [3 + 1; 3 - 1])].
Proof. split; cbn [nhistory]; unfold ncall; cbn -[key_eqb]; rewrite ?key_eqb_refl; reflexivity. Qed.

Print Assumptions C33_nd_first_value.
Print Assumptions C33_nd_entries.
Print Assumptions C33_nearest_start.
Print Assumptions C33_linear_start.
Print Assumptions C33_linear_exact.
Print Assumptions C33_abstract.
Print Assumptions C33_nd_values.
Print Assumptions C33_nd_stale_refuted.
