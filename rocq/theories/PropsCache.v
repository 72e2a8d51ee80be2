(** Properties of the field cache (C33). *)
From Coq Require Import List Arith Reals Lra Lia Sorted Permutation.
From Verif Require Import Base CacheModel.
Import ListNotations.
Open Scope R_scope.

Lemma key_eqb_eq a b : key_eqb a b = true <-> a = b.
Proof.
  unfold key_eqb. destruct a as [a1 a2], b as [b1 b2]. cbn. destruct (Req_EM_T a1 b1), (Req_EM_T a2 b2); split; intros H; try discriminate; try congruence.
Qed.
Lemma lookup_app_some l k v m : lookup l k = Some v -> lookup (l ++ m) k = Some v.
Proof. induction l as [|[a b] l IH]; cbn; [discriminate|]. destruct (key_eqb k a); auto. Qed.
Lemma lookup_app_none l k m : lookup l k = None -> lookup (l ++ m) k = lookup m k.
Proof. induction l as [|[a b] l IH]; cbn; [auto|]. destruct (key_eqb k a); [discriminate|auto]. Qed.
Lemma key_eqb_refl k : key_eqb k k = true. Proof. apply key_eqb_eq. auto. Qed.

Section P.
Variable solver : key -> option arr -> option arr * arr.
Notation ccall := (ccall solver). Notation history := (history solver).

Lemma ccall_keeps s k k' v : lookup (entries s) k = Some v -> lookup (entries (snd (ccall s k'))) k = Some v.
Proof.
  intros H. unfold CacheModel.ccall. destruct (lookup (entries s) k'); [auto|].
  match goal with |- context[let '(_, _) := ?x in _] => destruct x as [g w] end. destruct (solver k' g) as [[u|] g']; cbn; [apply lookup_app_some|]; auto.
Qed.
Lemma ccall_stores s k v s' : ccall s k = (Some v, s') -> lookup (entries s') k = Some v.
Proof.
  unfold CacheModel.ccall. destruct (lookup (entries s) k) eqn:L; [intros H; injection H as <- <-; auto|].
  match goal with |- context[let '(_, _) := ?x in _] => destruct x as [g w] end. destruct (solver k g) as [[u|] g']; intros H; [|discriminate H]. injection H as <- <-. cbn.
  rewrite lookup_app_none by auto. cbn. rewrite key_eqb_refl. auto.
Qed.
Lemma history_lookup es s k v o mid post :
  lookup (entries s) k = Some v -> fst (history s es) = mid ++ (CQuery k, o) :: post ->
  (forall g u, ~ In (CClear g, u) mid) -> o = Some v.
Proof.
  revert s mid. induction es as [|e es IH]; intros s mid L H N; [destruct mid; discriminate H|]. destruct e as [k'|g]; cbn in H.
  - pose proof (ccall_keeps s k k' v L) as K. destruct (ccall s k') as [w s'] eqn:C. cbn in K. destruct (history s' es) as [l s''] eqn:R. cbn in H.
    destruct mid as [|m mid]; cbn in H.
    + injection H as -> -> ->. unfold CacheModel.ccall in C. rewrite L in C. injection C as <- _. auto.
    + injection H as <- ->. apply (IH s' mid); auto. { rewrite R. auto. } intros g u I. apply (N g u). right. auto.
  - destruct (history (clear s g) es) as [l s''] eqn:R. cbn in H. destruct mid as [|m mid]; cbn in H; [discriminate H|].
    injection H as <- ->. exfalso. apply (N g None). left. auto.
Qed.

(** * C33 *)
(** in any history, from any state: once a query has given a value, later queries for the same
    field give that value until the next clear *)
Theorem C33_first_value s es pre mid post k v o :
  fst (history s es) = pre ++ (CQuery k, Some v) :: mid ++ (CQuery k, o) :: post ->
  (forall g u, ~ In (CClear g, u) mid) -> o = Some v.
Proof.
  revert s pre. induction es as [|e es IH]; intros s pre H N; [destruct pre; discriminate H|]. destruct e as [k'|g]; cbn in H.
  - destruct (ccall s k') as [w s'] eqn:C. destruct (history s' es) as [l s''] eqn:R. cbn in H. destruct pre as [|q pre]; cbn in H.
    + injection H as -> -> ->. apply (history_lookup es s' k v o mid post); auto; [|rewrite R; auto]. apply (ccall_stores s); auto.
    + injection H as <- ->. apply (IH s' pre); auto. rewrite R. auto.
  - destruct (history (clear s g) es) as [l s''] eqn:R. cbn in H. destruct pre as [|q pre]; cbn in H; [discriminate H|].
    injection H as <- ->. apply (IH (clear s g) pre); auto. rewrite R. auto.
Qed.
End P.

(** the interpolator on any table sorted by radius *)
Definition sorted (t : list (R * arr)) : Prop := StronglySorted (fun a b => fst a <= fst b) t.
Definition rows (n : nat) (t : list (R * arr)) : Prop := forall e, In e t -> length (snd e) = n.
(** (1-s) a + s b elementwise *)
Definition mix (s : R) (a b : arr) : arr := map (fun p => (1 - s) * fst p + s * snd p) (combine a b).

Lemma lerp_mix a b num den : den <> 0 -> lerp a b num den = Some (mix (num / den) a b).
Proof.
  intros D. revert b. induction a as [|x a IH]; intros [|y b]; cbn; try reflexivity. rewrite fdiv_some by auto. cbn. rewrite IH. cbn.
  unfold mix. cbn. do 2 f_equal. field. auto.
Qed.
Lemma mix_1 a b : length a = length b -> mix 1 a b = b.
Proof. revert b. induction a as [|x a IH]; intros [|y b] L; cbn in *; try discriminate; [auto|]. unfold mix in *. cbn. rewrite IH by lia. f_equal. ring. Qed.
Lemma search_spec t r d : (exists e, In e t /\ r <= fst e) ->
  (searchsorted t r < length t)%nat /\ r <= fst (nth (searchsorted t r) t d) /\
  forall i, (i < searchsorted t r)%nat -> fst (nth i t d) < r.
Proof.
  induction t as [|e t IH]; intros [f [I F]]; [destruct I|]. cbn [searchsorted]. destruct (Rlt_dec (fst e) r).
  - destruct IH as [A [B C]]. { exists f. split; auto. destruct I; [subst; lra|auto]. }
    cbn. split; [lia|]. split; [auto|]. intros [|i] Hi; [auto|]. apply C. lia.
  - cbn. split; [lia|]. split; [lra|]. intros i Hi. lia.
Qed.

(** ... always defined: either the value of an entry (innermost, outermost), or a convex
    combination of two adjacent entries whose radii enclose the query *)
Theorem C33_interpolator t k : t <> [] ->
  exists y, fst (interpolator t k) = Some y /\
  ((exists pre e, t = pre ++ [e] /\ fst e <= radius k /\ y = snd e) \/
   (exists e post, t = e :: post /\ radius k <= fst e /\ y = snd e) \/
   (exists pre a b post s, t = pre ++ a :: b :: post /\ fst a < radius k <= fst b /\ 0 < s <= 1 /\
      radius k = (1 - s) * fst a + s * fst b /\ y = mix s (snd a) (snd b))).
Proof.
  intros T. destruct t as [|e0 t']; [contradiction|]. set (t := e0 :: t') in *. unfold interpolator. fold t.
  change (match t with [] => (None, None) | e1 :: _ => if Rle_dec (radius k) (fst e1) then (Some (snd e1), Some 0%nat)
    else if Rge_dec (radius k) (fst (nth (length t - 1) t e1)) then (Some (snd (nth (length t - 1) t e1)), Some (length t - 1)%nat)
    else (lerp (snd (nth (searchsorted t (radius k) - 1) t e1)) (snd (nth (searchsorted t (radius k)) t e1))
            (radius k - fst (nth (searchsorted t (radius k) - 1) t e1))
            (fst (nth (searchsorted t (radius k)) t e1) - fst (nth (searchsorted t (radius k) - 1) t e1)), None) end)
  with (if Rle_dec (radius k) (fst e0) then (Some (snd e0), Some 0%nat)
    else if Rge_dec (radius k) (fst (nth (length t - 1) t e0)) then (Some (snd (nth (length t - 1) t e0)), Some (length t - 1)%nat)
    else (lerp (snd (nth (searchsorted t (radius k) - 1) t e0)) (snd (nth (searchsorted t (radius k)) t e0))
            (radius k - fst (nth (searchsorted t (radius k) - 1) t e0))
            (fst (nth (searchsorted t (radius k)) t e0) - fst (nth (searchsorted t (radius k) - 1) t e0)), @None nat)).
  set (r := radius k). assert (LT : (length t - 1 < length t)%nat) by (cbn; lia).
  destruct (Rle_dec r (fst e0)) as [A|A].
  { exists (snd e0). split; [reflexivity|]. right. left. exists e0, t'. auto. }
  destruct (Rge_dec r (fst (nth (length t - 1) t e0))) as [B|B].
  { exists (snd (nth (length t - 1) t e0)). split; [reflexivity|]. left.
    destruct (exists_last T) as [pre [e E]]. exists pre, e. assert (X : nth (length t - 1) t e0 = e).
    { rewrite E, app_length. cbn. replace (length pre + 1 - 1)%nat with (length pre) by lia. apply nth_middle. }
    rewrite X in *. split; [auto|]. split; [lra|auto]. }
  destruct (search_spec t r e0) as [I [H1 H2]].
  { exists (nth (length t - 1) t e0). split; [apply nth_In; auto|lra]. }
  set (i := searchsorted t r) in *. assert (I0 : (0 < i)%nat). { destruct i; [|lia]. cbn in H1. lra. }
  pose proof (H2 (i - 1)%nat ltac:(lia)) as H3. cbn [fst]. rewrite lerp_mix by lra. eexists. split; [reflexivity|]. right. right.
  destruct (nth_split t e0 (n := i - 1) ltac:(lia)) as [pre [q [E L]]].
  assert (Q : exists b post, q = b :: post). { destruct q as [|b post]; [exfalso|eauto]. apply (f_equal (@length _)) in E. rewrite app_length in E. cbn in E. unfold t in *. cbn in *. lia. }
  destruct Q as [b [post ->]]. assert (NB : nth i t e0 = b).
  { rewrite E, app_nth2 by lia. replace (i - length pre)%nat with 1%nat by lia. reflexivity. }
  set (a := nth (i - 1) t e0) in *. rewrite NB in *.
  exists pre, a, b, post, ((r - fst a) / (fst b - fst a)). split; [auto|]. split; [lra|]. split; [|split; [field; lra|reflexivity]].
  split; [apply Rdiv_lt_0_compat; lra|]. apply Rmult_le_reg_r with (fst b - fst a); [lra|]. field_simplify; lra.
Qed.

(** at a cached radius the value of an entry with that radius comes back unchanged *)
Theorem C33_interpolator_exact t k n : sorted t -> rows n t -> (exists e, In e t /\ fst e = radius k) ->
  exists e, In e t /\ fst e = radius k /\ fst (interpolator t k) = Some (snd e).
Proof.
  intros S RW [e [I E]]. assert (T : t <> []) by (destruct t; [destruct I|discriminate]).
  destruct (C33_interpolator t k T) as [y [Y C]]. rewrite Y.
  destruct C as [[pre [a [A [B ->]]]]|[[a [post [A [B ->]]]]|[pre [a [b [post [s [A [B [D [F ->]]]]]]]]]]].
  - exists a. split; [rewrite A; apply in_app_iff; right; left; auto|]. split; [|auto]. apply Rle_antisym; [auto|].
    rewrite <- E. subst t. clear - S I. induction pre as [|p pre IH]; cbn in *.
    + destruct I as [->|[]]; lra.
    + inversion S as [|? ? S' F]; subst. destruct I as [->|I]; [|auto]. rewrite Forall_forall in F. apply F. apply in_app_iff. right. left. auto.
  - exists a. split; [rewrite A; left; auto|]. split; [|auto]. apply Rle_antisym; [|auto]. rewrite <- E. subst t.
    inversion S as [|? ? S' F]; subst. rewrite Forall_forall in F. destruct I as [->|I]; [lra|]. apply F. auto.
  - assert (BR : fst b = radius k).
    { apply Rle_antisym; [|tauto]. rewrite <- E. subst t. clear - S I B E. induction pre as [|p pre IH]; cbn in *.
      - inversion S as [|? ? S' F]; subst. inversion S' as [|? ? S'' F']; subst. rewrite Forall_forall in F'.
        destruct I as [->|[->|I]]; [lra|lra|]. apply F'. auto.
      - inversion S as [|? ? S' F]; subst. rewrite Forall_forall in F. destruct I as [->|I]; [|auto].
        assert (fst e <= fst a). { apply F. apply in_app_iff. right. left. auto. } lra. }
    assert (IA : In a t) by (rewrite A; apply in_app_iff; right; left; auto).
    assert (IB : In b t) by (rewrite A; apply in_app_iff; right; right; left; auto).
    exists b. split; [auto|]. split; [auto|]. f_equal. assert (s = 1). { rewrite BR in F. assert (Z : (1 - s) * (radius k - fst a) = 0) by lra. apply Rmult_integral in Z. lra. }
    subst s. apply mix_1. rewrite (RW a), (RW b); auto.
Qed.

(** the table is sorted and holds exactly the cached values by radius *)
Lemma insert_perm e l : Permutation (e :: l) (insert e l).
Proof. induction l as [|f l IH]; cbn; [auto|]. destruct (Rle_dec _ _); [auto|]. rewrite perm_swap. rewrite <- IH. auto. Qed.
Lemma insert_sorted e l : sorted l -> sorted (insert e l).
Proof.
  unfold sorted. induction 1 as [|f l S IH F]; cbn; [repeat constructor|]. destruct (Rle_dec (fst e) (fst f)).
  - constructor; [constructor; auto|]. constructor; [auto|]. eapply Forall_impl; [|exact F]. cbn. intros; lra.
  - constructor; [auto|]. apply (Permutation_Forall (insert_perm e l)). constructor; [lra|auto].
Qed.
Theorem C33_table es : sorted (table_of es) /\ Permutation (map (fun e => (radius (fst e), snd e)) es) (table_of es).
Proof.
  unfold table_of. induction es as [|e es [S P]]; cbn; [split; constructor|]. split; [apply insert_sorted; auto|].
  rewrite <- insert_perm, <- P. auto.
Qed.

(** so in every reachable state the start value offered is a finite array or absent, never NaN; the constructor argument has no influence *)
Lemma set_row_radii t i v : map fst (set_row t i v) = map fst t.
Proof. revert i. induction t as [|[r y] t IH]; intros [|i]; cbn; auto. f_equal. auto. Qed.
Definition table_ok (o : option (list (R * arr))) : Prop := match o with None => True | Some t => t <> [] end.
Lemma ccall_table solver s k : table_ok (table s) -> table_ok (table (snd (ccall solver s k))).
Proof.
  intros H. unfold ccall. destruct (lookup (entries s) k); [auto|].
  match goal with |- context[let '(_, _) := ?x in _] => destruct x as [g w] end. destruct (solver k g) as [[u|] g']; cbn.
  - intros X. destruct (C33_table (entries s ++ [(k, u)])) as [_ P]. rewrite X in P. apply Permutation_sym, Permutation_nil in P. rewrite map_app in P. apply app_eq_nil in P. destruct P as [_ P]. discriminate P.
  - destruct (table s) as [t|] eqn:T; [|auto]. destruct w; [|auto]. cbn in *. intros X. apply (f_equal (map fst)) in X. rewrite set_row_radii in X. destruct t; [contradiction|discriminate].
Qed.
Theorem C33_total solver g es k : match table (snd (history solver (new g) es)) with
  | None => True | Some t => fst (interpolator t k) <> None end.
Proof.
  assert (H : forall s, table_ok (table s) -> table_ok (table (snd (history solver s es)))).
  { induction es as [|e es IH]; intros s T; [auto|]. destruct e as [k'|g']; cbn.
    - pose proof (ccall_table solver s k' T) as T'. destruct (ccall solver s k') as [v s'] eqn:C. cbn in T'. specialize (IH s' T').
      destruct (history solver s' es). auto.
    - specialize (IH (clear s g') T). destruct (history solver (clear s g') es). auto. }
  specialize (H (new g) I). destruct (table (snd (history solver (new g) es))) as [t|]; [|auto]. cbn in H.
  destruct (C33_interpolator t k H) as [y [Y _]]. rewrite Y. discriminate.
Qed.
(** a start value is used only as a start value: a solver that ignores it defines all answers *)
Theorem C33_solver_values (f : key -> option arr) g es :
  Forall (fun eo => match fst eo with CQuery k => snd eo = f k | CClear _ => True end) (fst (history (fun k _ => (f k, [])) (new g) es)).
Proof.
  set (sv := fun k (_ : option arr) => (f k, @nil R)).
  assert (H : forall s, (forall k v, lookup (entries s) k = Some v -> f k = Some v) ->
    Forall (fun eo => match fst eo with CQuery k => snd eo = f k | CClear _ => True end) (fst (history sv s es))).
  { induction es as [|e es IH]; intros s A; [constructor|]. destruct e as [k'|g']; cbn.
    - assert (B : fst (ccall sv s k') = f k' /\ (forall k v, lookup (entries (snd (ccall sv s k'))) k = Some v -> f k = Some v)).
      { unfold ccall. destruct (lookup (entries s) k') as [v|] eqn:L; [cbn; rewrite (A _ _ L); auto|].
        match goal with |- context[let '(_, _) := ?x in _] => destruct x as [u w] end. cbn. destruct (f k') as [v|] eqn:F; cbn; [|auto]. split; [auto|].
        intros k q. destruct (lookup (entries s) k) as [z|] eqn:Z; [rewrite (lookup_app_some _ _ _ _ Z); intros E; injection E as <-; auto|].
        rewrite lookup_app_none by auto. cbn. destruct (key_eqb k k') eqn:K; [|discriminate]. apply key_eqb_eq in K. subst. congruence. }
      destruct B as [B1 B2]. destruct (ccall sv s k') as [v s'] eqn:C. cbn in B1, B2. specialize (IH s' B2). destruct (history sv s' es). cbn in *. constructor; auto.
    - specialize (IH (clear s g')). destruct (history sv (clear s g') es) eqn:E. cbn in *. constructor; [cbn; auto|]. apply IH. cbn. discriminate. }
  apply H. cbn. discriminate.
Qed.

(** findings: a start value given to the constructor or to [clear] is never used ... *)
Theorem C33_guess_refuted solver g es : history solver (new g) es = history solver (new None) es /\
  forall s g', clear s g' = clear s None.
Proof. split; reflexivity. Qed.
(** ... clearing keeps offering start values interpolated from forgotten entries ... *)
Theorem C33_clear_refuted : exists solver es k g,
  let s := snd (history solver (new None) es) in
  entries s = [] /\ cguess s = None /\ match table s with Some t => fst (interpolator t k) = Some g | None => False end.
Proof.
  exists (fun _ _ => (Some [7], [])), [CQuery (0, 0); CClear None], (0, 0), [7].
  cbn -[interpolator]. repeat split. unfold interpolator. cbn. destruct (Rle_dec _ _); [reflexivity|lra].
Qed.
(** ... and a query that fails spoils the start value of fields that are still cached *)
Theorem C33_failed_query_refuted : exists solver es k v,
  let s := snd (history solver (new None) es) in
  lookup (entries s) k = Some v /\ (forall e, In e (entries s) -> fst e = k) /\
  match table s with Some t => fst (interpolator t k) <> Some v | None => False end.
Proof.
  set (sv := fun (k : key) (_ : option arr) => if Req_EM_T (fst k) 0 then (Some [7], @nil R) else (None, [8])).
  assert (R0 : radius (0, 0) = 0). { unfold radius. cbn. replace (0 * (0 * 1) + 0 * (0 * 1)) with 0 by ring. apply sqrt_0. }
  assert (R1 : radius (1, 0) = 1). { unfold radius. cbn. replace (1 * (1 * 1) + 0 * (0 * 1)) with 1 by ring. apply sqrt_1. }
  assert (A : ccall sv (new None) (0, 0) = (Some [7], Cst [((0, 0), [7])] None (Some [(0, [7])]))).
  { unfold ccall, sv. cbn -[radius]. destruct (Req_EM_T 0 0); [|lra]. rewrite R0. reflexivity. }
  assert (B : ccall sv (Cst [((0, 0), [7])] None (Some [(0, [7])])) (1, 0) = (None, Cst [((0, 0), [7])] None (Some [(0, [8])]))).
  { unfold ccall, interpolator, sv. rewrite R1. cbn -[radius]. unfold key_eqb. cbn. destruct (Req_EM_T 1 0); [lra|].
    destruct (Rle_dec 1 0); [lra|]. destruct (Rge_dec 1 0); [|lra]. reflexivity. }
  exists sv, [CQuery (0, 0); CQuery (1, 0)], (0, 0), [7]. cbn -[ccall interpolator lookup]. rewrite A. rewrite B. cbn -[interpolator].
  rewrite key_eqb_refl. split; [auto|]. split; [intros e [<-|[]]; auto|]. unfold interpolator. rewrite R0. cbn. destruct (Rle_dec 0 0); [|lra].
  cbn. intros X. injection X as X. lra.
Qed.
Example C33_example : let t := table_of [((3, 4), [1; 2]); ((1, 0), [3; 5])] in
  sorted t /\ rows 2 t /\ (exists e, In e t /\ fst e = radius (-5, 0)).
Proof.
  intros t. split; [apply C33_table|]. assert (P := proj2 (C33_table [((3, 4), [1; 2]); ((1, 0), [3; 5])])). fold t in P. split.
  - intros e I. apply (Permutation_in _ (Permutation_sym P)) in I. destruct I as [<-|[<-|[]]]; reflexivity.
  - exists (radius (3, 4), [1; 2]). split; [apply (Permutation_in _ P); left; auto|]. unfold radius. cbn. f_equal. ring.
Qed.
Print Assumptions C33_first_value.
Print Assumptions C33_interpolator.
Print Assumptions C33_interpolator_exact.
Print Assumptions C33_table.
Print Assumptions C33_total.
Print Assumptions C33_solver_values.
Print Assumptions C33_guess_refuted.
Print Assumptions C33_clear_refuted.
Print Assumptions C33_failed_query_refuted.

(** what the solver is started from: the interpolated value if there is a table, nothing otherwise *)
Theorem C33_start solver s k : lookup (entries s) k = None ->
  exists g, fst (ccall solver s k) = fst (solver k g) /\
    (table s = None -> g = cguess s) /\ (forall t, table s = Some t -> t <> [] -> g = fst (interpolator t k)).
Proof.
  intros L. unfold ccall. rewrite L. destruct (table s) as [t|].
  - destruct (interpolator t k) as [[g|] w] eqn:E.
    + exists (Some g). destruct (solver k (Some g)) as [[v|] g']; cbn; (split; [auto|]); (split; [discriminate|]); intros t' [= <-] _; rewrite E; auto.
    + exists (cguess s). destruct (solver k (cguess s)) as [[v|] g']; cbn; (split; [auto|]); (split; [discriminate|]); intros t' [= <-] N;
        destruct (C33_interpolator t k N) as (y & Y & _); rewrite E in Y; discriminate.
  - exists (cguess s). destruct (solver k (cguess s)) as [[v|] g']; cbn; (split; [auto|]); (split; [auto|]); discriminate.
Qed.
Lemma nth_last (l : list (R * arr)) d : nth (length l - 1) l d = last l d.
Proof.
  induction l as [|a [|b l] IH]; [reflexivity|reflexivity|].
  cbn [length] in *. replace (S (S (length l)) - 1)%nat with (S (S (length l) - 1)) by lia. exact IH.
Qed.
Lemma set_row_last l v d : l <> [] -> set_row l (length l - 1) v = removelast l ++ [(fst (last l d), v)].
Proof.
  induction l as [|[r y] [|b l] IH]; intros N; [contradiction|reflexivity|].
  cbn [length] in *. replace (S (S (length l)) - 1)%nat with (S (S (length l) - 1)) by lia.
  transitivity ((r, y) :: set_row (b :: l) (S (length l) - 1) v); [reflexivity|]. rewrite IH by discriminate. reflexivity.
Qed.
(** a failing query changes no cached value; of the interpolation table it overwrites the first value if
    the field is inside all others, the last one if it is outside, and nothing in between *)
Theorem C33_failed solver s t k y g' : lookup (entries s) k = None -> table s = Some t -> sorted t ->
  fst (interpolator t k) = Some y -> solver k (Some y) = (None, g') ->
  fst (ccall solver s k) = None /\ entries (snd (ccall solver s k)) = entries s /\
  table (snd (ccall solver s k)) = Some
   match t with
   | [] => []
   | e :: post => if Rle_dec (radius k) (fst e) then (fst e, g') :: post
                  else if Rle_dec (fst (last t e)) (radius k) then removelast t ++ [(fst (last t e), g')] else t
   end.
Proof.
  intros L T SO I SV. unfold ccall. rewrite L, T. destruct (interpolator t k) as [o w] eqn:E. cbn in I. subst o. rewrite SV. cbn [fst snd entries table].
  split; [auto|]. split; [auto|]. destruct t as [|e post]; [discriminate|]. unfold interpolator in E.
  pose proof (nth_last (e :: post) e) as LN.
  destruct (Rle_dec (radius k) (fst e)).
  - injection E as _ <-. destruct e. reflexivity.
  - rewrite LN in E. destruct (Rge_dec (radius k) (fst (last (e :: post) e))) as [G|G], (Rle_dec (fst (last (e :: post) e)) (radius k)) as [G'|G'];
      try lra; injection E as _ <-; [|reflexivity]. f_equal. apply set_row_last. discriminate.
Qed.
Example C33_failed_example : let t := [(1, [5]); (2, [6]); (3, [7])] in let s := Cst [((1, 0), [5])] None (Some t) in
  let sv := fun (_ : key) (_ : option arr) => (@None arr, [9]) in
  table (snd (ccall sv s (4, 0))) = Some [(1, [5]); (2, [6]); (3, [9])].
Proof.
  intros t s sv. assert (R4 : radius (4, 0) = 4). { unfold radius. cbn. replace (4 * (4 * 1) + 0 * (0 * 1)) with (4 * 4) by ring. apply sqrt_square. lra. }
  destruct (C33_failed sv s t (4, 0) [7] [9]) as (_ & _ & H).
  - cbn. unfold key_eqb. cbn. destruct (Req_EM_T 4 1); [lra|reflexivity].
  - reflexivity.
  - repeat constructor; cbn; lra.
  - unfold interpolator, t. rewrite R4. cbn. destruct (Rle_dec 4 1); [lra|]. destruct (Rge_dec 4 3); [reflexivity|lra].
  - reflexivity.
  - rewrite H. unfold t. rewrite R4. cbn. destruct (Rle_dec 4 1); [lra|]. destruct (Rle_dec 3 4); [reflexivity|lra].
Qed.
Print Assumptions C33_start.
Print Assumptions C33_failed.
