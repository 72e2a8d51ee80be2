(** C97: the user's library file is made once and never overwritten, there is one library, names are listed once. *)
From Coq Require Import List String Bool Arith Lia.
From Verif Require Import HomeModel.
Import ListNotations.
Open Scope string_scope.
Open Scope list_scope.

(** ** Specification *)
(** every entry but the root lies in a directory *)
Definition tree (fs : files) : Prop := fs [] = Some Dir /\ forall a p, fs (a :: p) <> None -> fs p = Some Dir.
(** [q] is [p] or a directory above it *)
Definition above (q p : path) : Prop := exists l, p = l ++ q.
(** the later files keep all that was there, and what is new is a directory above [p] *)
Definition only_dirs (p : path) (fs fs' : files) : Prop :=
  forall q, (fs q <> None /\ fs' q = fs q) \/ (fs q = None /\ (fs' q = None \/ fs' q = Some Dir /\ above q p)).
(** where the library of a user is and where the copy that is shipped with the program is *)
Definition home (user : path) : path := "library.sqlite" :: "rayopt" :: user.
Definition shipped (base package : path) (fs : files) (p : path) : Prop :=
  (fs base <> None /\ p = base) \/ (fs base = None /\ p = "library.sqlite" :: package).

(** ** Lemmas *)
Lemma put_same fs p n : put fs p n p = Some n. Proof. unfold put. destruct (list_eq_dec _ p p); congruence. Qed.
Lemma put_other fs p n q : q <> p -> put fs p n q = fs q. Proof. unfold put. destruct (list_eq_dec _ q p); congruence. Qed.
Lemma exists_iff fs p : exists_ fs p = true <-> fs p <> None.
Proof. unfold exists_. destruct (fs p); intuition congruence. Qed.
Lemma exists_not fs p : exists_ fs p = false <-> fs p = None.
Proof. unfold exists_. destruct (fs p); intuition congruence. Qed.

Lemma only_dirs_refl p fs : only_dirs p fs fs.
Proof. intros q. destruct (fs q); [left | right]; intuition congruence. Qed.
Lemma only_dirs_trans p q f g h : above p q -> only_dirs p f g -> only_dirs q g h -> only_dirs q f h.
Proof.
  intros A H K x. specialize (H x). specialize (K x). destruct H as [[H1 H2] | [H1 [H2 | [H2 H3]]]].
  - left. rewrite H2 in K. intuition congruence.
  - right. intuition congruence.
  - right. split; auto. right. destruct K as [[K1 K2] | [K1 _]]; [| congruence]. split; [congruence |].
    destruct A as [l ->]. destruct H3 as [l' ->]. exists (l ++ l'). now rewrite app_assoc.
Qed.
Lemma above_cons a p : above p (a :: p). Proof. now exists [a]. Qed.
Lemma above_self p : above p p. Proof. now exists []. Qed.

Lemma mkdir_dirs p fs : only_dirs p fs (fst (mkdir fs p)).
Proof.
  destruct p as [| a h]; cbn [mkdir]; [apply only_dirs_refl |].
  destruct (fs h) as [[|] |]; try apply only_dirs_refl. destruct (fs (a :: h)) eqn:E; [apply only_dirs_refl |].
  cbn [fst]. intros q. destruct (list_eq_dec string_dec q (a :: h)) as [-> | N].
  - right. split; auto. right. split; [apply put_same | apply above_self].
  - rewrite put_other by auto. apply only_dirs_refl.
Qed.
Lemma mkdir_ok p fs : snd (mkdir fs p) = true -> fst (mkdir fs p) p = Some Dir.
Proof.
  destruct p as [| a h]; cbn [mkdir]; [discriminate |]. destruct (fs h) as [[|] |]; try discriminate.
  destruct (fs (a :: h)); [discriminate |]. intros _. apply put_same.
Qed.
Lemma mkdir_tree p fs : tree fs -> tree (fst (mkdir fs p)).
Proof.
  intros T. destruct p as [| a h]; cbn [mkdir]; [exact T |]. destruct (fs h) as [[|] |] eqn:Eh; try exact T.
  destruct (fs (a :: h)) eqn:E; [exact T |]. destruct T as [T1 T2]. cbn [fst]. split.
  - rewrite put_other by discriminate. exact T1.
  - intros b p H. destruct (list_eq_dec string_dec p (a :: h)) as [-> | N]; [apply put_same |].
    rewrite put_other by auto. destruct (list_eq_dec string_dec (b :: p) (a :: h)) as [e | M].
    + injection e as -> ->. exact Eh.
    + rewrite put_other in H by auto. now apply T2 in H.
Qed.

Lemma makedirs_dirs p : forall fs, only_dirs p fs (fst (makedirs fs p)).
Proof.
  induction p as [| a h IH]; intros fs; cbn [makedirs]; [apply only_dirs_refl |].
  destruct (exists_ fs h); [apply mkdir_dirs |]. specialize (IH fs). destruct (makedirs fs h) as [g ok]. cbn [fst] in IH.
  destruct ok.
  - eapply only_dirs_trans; [apply (above_cons a) | exact IH | apply mkdir_dirs].
  - cbn [fst]. eapply only_dirs_trans; [apply (above_cons a) | exact IH | apply only_dirs_refl].
Qed.
Lemma makedirs_ok p : forall fs, snd (makedirs fs p) = true -> fst (makedirs fs p) p = Some Dir.
Proof.
  destruct p as [| a h]; intros fs; cbn [makedirs]; [discriminate |]. destruct (exists_ fs h); [apply mkdir_ok |].
  destruct (makedirs fs h) as [g ok]. destruct ok; [apply mkdir_ok | discriminate].
Qed.
Lemma makedirs_tree p : forall fs, tree fs -> tree (fst (makedirs fs p)).
Proof.
  induction p as [| a h IH]; intros fs T; cbn [makedirs]; [exact T |]. destruct (exists_ fs h); [now apply mkdir_tree |].
  specialize (IH fs T). destruct (makedirs fs h) as [g ok]. destruct ok; [now apply mkdir_tree | exact IH].
Qed.
(** the directories can be made exactly if no file is in the way *)
Definition no_file (fs : files) (p : path) : Prop := forall q c, above q p -> fs q <> Some (File c).
Lemma no_file_cons fs a p : no_file fs (a :: p) <-> no_file fs p /\ forall c, fs (a :: p) <> Some (File c).
Proof.
  split.
  - intros H. split; [intros q c [l ->]; apply H; now exists (a :: l) | intros c; apply H, above_self].
  - intros [H K] q c [l E]. destruct l as [| b l]; cbn in E; [subst q; apply K |]. injection E as -> ->. apply H. now exists l.
Qed.
Lemma makedirs_iff p : forall fs, tree fs -> fs p = None -> snd (makedirs fs p) = true <-> no_file fs p.
Proof.
  induction p as [| a h IH]; intros fs T N; [destruct T; congruence |]. cbn [makedirs].
  rewrite no_file_cons. destruct (exists_ fs h) eqn:E.
  - assert (no_file fs h <-> fs h = Some Dir) as ->.
    { apply exists_iff in E. split.
      - intros H. specialize (H h). destruct (fs h) as [[| c] |]; [reflexivity | | congruence]. now specialize (H c (above_self h)).
      - clear - T. revert h. intros h H q c [l ->]. revert H. induction l as [| b l IH]; intros H; cbn in H; [congruence |].
        apply IH. destruct T as [_ T]. apply (T b). cbn. rewrite H. discriminate. }
    cbn [mkdir]. rewrite N. destruct (fs h) as [[|] |]; cbn [snd]; intuition congruence.
  - apply exists_not in E. specialize (IH fs T E). pose proof (makedirs_dirs h fs (a :: h)) as D.
    pose proof (makedirs_ok h fs) as O. destruct (makedirs fs h) as [g ok]. cbn [fst snd] in *.
    assert (g (a :: h) = None) as G.
    { destruct D as [[D _] | [_ [D | [_ [l D]]]]]; [congruence | exact D |].
      apply (f_equal (@List.length string)) in D. rewrite app_length in D. cbn in D. lia. }
    destruct ok.
    + cbn [mkdir]. rewrite (O eq_refl), G. cbn [snd]. intuition congruence.
    + cbn [snd]. split; [discriminate |]. intros [H _]. now apply IH in H.
Qed.

Lemma main_above user q : above q ("rayopt" :: user) -> q <> home user.
Proof. intros [l H] ->. apply (f_equal (@List.length string)) in H. rewrite app_length in H. cbn in H. lia. Qed.

(** the steps of the case in which the library is not there yet *)
Definition prepared (user : path) (fs : files) : files * bool :=
  if exists_ fs ("rayopt" :: user) then (fs, true) else makedirs fs ("rayopt" :: user).
Lemma prepared_dirs user fs : only_dirs ("rayopt" :: user) fs (fst (prepared user fs)).
Proof. unfold prepared. destruct (exists_ _ _); [apply only_dirs_refl | apply makedirs_dirs]. Qed.
Lemma prepared_tree user fs : tree fs -> tree (fst (prepared user fs)).
Proof. unfold prepared. destruct (exists_ _ _); [auto | apply makedirs_tree]. Qed.
Lemma prepared_none user fs : fs (home user) = None -> fst (prepared user fs) (home user) = None.
Proof.
  intros N. destruct (prepared_dirs user fs (home user)) as [[H _] | [_ [H | [_ H]]]]; [congruence | exact H |].
  now apply main_above in H.
Qed.
Lemma prepared_file user fs p c : fst (prepared user fs) p = Some (File c) <-> fs p = Some (File c).
Proof. destruct (prepared_dirs user fs p) as [[H K] | [H [K | [K _]]]]; rewrite K, ?H; intuition congruence. Qed.
Lemma copy_free fs src dst : fs dst = None ->
  copy fs src dst = match fs src, fs (tl dst) with Some (File c), Some Dir => (put fs dst (File c), true) | _, _ => (fs, false) end.
Proof.
  intros N. unfold copy. rewrite N. destruct (fs src) as [[| c] |]; auto; rewrite N; destruct (fs (tl dst)) as [[|] |]; auto.
Qed.
Lemma find_missing user base package fs : fs (home user) = None ->
  let b := if exists_ fs base then base else "library.sqlite" :: package in
  find_db user (Some base) package fs =
    (let (g, ok) := prepared user fs in
     if ok then match g b, g ("rayopt" :: user) with Some (File c), Some Dir => (put g (home user) (File c), Some (home user)) | _, _ => (g, None) end
     else (g, None)).
Proof.
  intros N b. pose proof (prepared_none user fs N) as P. unfold find_db. fold db_name in *. unfold home, db_name in *.
  apply exists_not in N. rewrite N. fold b. fold (prepared user fs). destruct (prepared user fs) as [g ok]. cbn [fst] in P.
  destruct ok; [| reflexivity]. rewrite copy_free by exact P. cbn [tl]. destruct (g b) as [[| c] |]; try reflexivity.
  destruct (g ("rayopt" :: user)) as [[|] |]; reflexivity.
Qed.
Lemma shipped_if base package fs : shipped base package fs (if exists_ fs base then base else "library.sqlite" :: package).
Proof. unfold shipped. destruct (exists_ fs base) eqn:E; [apply exists_iff in E | apply exists_not in E]; auto. Qed.
Lemma shipped_unique base package fs p q : shipped base package fs p -> shipped base package fs q -> p = q.
Proof. unfold shipped. intuition congruence. Qed.

(** ** Theorems *)
(** whatever happens, nothing that was there is changed, and the files stay a tree *)
Theorem C97_kept : forall user resource package fs,
  (forall p n, fs p = Some n -> fst (find_db user resource package fs) p = Some n) /\
  (tree fs -> tree (fst (find_db user resource package fs))).
Proof.
  intros user resource package fs. destruct (fs (home user)) eqn:E.
  { unfold find_db. unfold home in E. assert (exists_ fs (db_name :: "rayopt" :: user) = true) as -> by (apply exists_iff; unfold db_name; congruence).
    cbn [fst]. auto. }
  destruct resource as [base |].
  2:{ unfold find_db. unfold home in E. apply exists_not in E. unfold db_name. rewrite E. cbn [fst]. auto. }
  rewrite find_missing by exact E. cbv zeta. pose proof (prepared_dirs user fs) as D. pose proof (prepared_tree user fs) as T.
  pose proof (prepared_none user fs E) as N. destruct (prepared user fs) as [g ok]. cbn [fst] in *.
  assert (forall p n, fs p = Some n -> g p = Some n) as K.
  { intros p n H. destruct (D p) as [[_ K] | [K _]]; congruence. }
  destruct ok; [| auto]. destruct (g (if exists_ fs base then base else _)) as [[| c] |]; auto.
  destruct (g ("rayopt" :: user)) as [[|] |] eqn:G; auto. cbn [fst]. split.
  - intros p n H. rewrite put_other by congruence. auto.
  - intros H. specialize (T H). destruct T as [T1 T2]. split; [rewrite put_other by discriminate; exact T1 |].
    intros a p Q. destruct (list_eq_dec string_dec p (home user)) as [-> | M].
    { exfalso. rewrite put_other in Q by (intros e; apply (f_equal (@List.length string)) in e; cbn in e; lia).
      apply T2 in Q. congruence. }
    rewrite put_other by auto. destruct (list_eq_dec string_dec (a :: p) (home user)) as [e | M'].
    + unfold home in e. injection e as -> ->. exact G.
    + rewrite put_other in Q by auto. now apply T2 in Q.
Qed.

(** what is found is in the user's directory; it is what was there before, untouched with everything else, or else the
    shipped copy, and then nothing else is new but directories above it *)
Theorem C97_found : forall user resource package fs fs' p, find_db user resource package fs = (fs', Some p) ->
  p = home user /\
  ((fs p <> None /\ fs' = fs) \/
   (fs p = None /\ exists base src c, resource = Some base /\ shipped base package fs src /\ fs src = Some (File c) /\ fs' p = Some (File c) /\
      forall q, q <> p -> fs' q = fs q \/ (fs q = None /\ fs' q = Some Dir /\ above q ("rayopt" :: user)))).
Proof.
  intros user resource package fs fs' p H. destruct (fs (home user)) eqn:E.
  { unfold find_db in H. unfold home in E. assert (exists_ fs (db_name :: "rayopt" :: user) = true) as X by (apply exists_iff; unfold db_name; congruence).
    rewrite X in H. injection H as <- <-. split; [reflexivity |]. left. split; [unfold db_name; congruence | reflexivity]. }
  destruct resource as [base |].
  2:{ unfold find_db in H. unfold home in E. apply exists_not in E. unfold db_name in H. rewrite E in H. discriminate. }
  rewrite find_missing in H by exact E. cbv zeta in H. pose proof (prepared_dirs user fs) as D. pose proof (prepared_file user fs) as F.
  destruct (prepared user fs) as [g ok]. cbn [fst] in *. destruct ok; [| discriminate].
  set (src := if exists_ fs base then base else _) in *. destruct (g src) as [[| c] |] eqn:S; try discriminate.
  destruct (g ("rayopt" :: user)) as [[|] |] eqn:G; try discriminate. injection H as <- <-. split; [reflexivity |]. right.
  split; [exact E |]. exists base, src, c. repeat split; auto.
  - apply shipped_if.
  - now apply F.
  - apply put_same.
  - intros q Q. rewrite put_other by auto. destruct (D q) as [[_ K] | [K [K' | K']]]; [auto | left; congruence | right; tauto].
Qed.

(** it succeeds exactly if the file is there, or the shipped copy is a file and no file stands where a directory has to be *)
Theorem C97_success : forall user resource package fs, tree fs ->
  snd (find_db user resource package fs) <> None <->
  fs (home user) <> None \/
  (exists base src c, resource = Some base /\ shipped base package fs src /\ fs src = Some (File c)) /\ no_file fs ("rayopt" :: user).
Proof.
  intros user resource package fs T. destruct (fs (home user)) eqn:E.
  { unfold find_db. unfold home in E. assert (exists_ fs (db_name :: "rayopt" :: user) = true) as -> by (apply exists_iff; unfold db_name; congruence).
    cbn [snd]. split; [left |]; discriminate. }
  destruct resource as [base |].
  2:{ unfold find_db. unfold home in E. apply exists_not in E. unfold db_name. rewrite E. cbn [snd].
      split; [congruence |]. intros [H | [(b & s & c & H & _) _]]; congruence. }
  rewrite find_missing by exact E. cbv zeta. pose proof (shipped_if base package fs) as S.
  pose proof (prepared_file user fs) as F. set (src := if exists_ fs base then base else _) in *.
  assert (snd (prepared user fs) = true /\ fst (prepared user fs) ("rayopt" :: user) = Some Dir <-> no_file fs ("rayopt" :: user)) as P.
  { unfold prepared. destruct (exists_ fs ("rayopt" :: user)) eqn:X.
    - apply exists_iff in X. cbn [fst snd]. split.
      + intros [_ H] q c [l Q]. rewrite Q in H. clear - T H. induction l as [| b l IH]; cbn in H; [congruence |].
        apply IH. destruct T as [_ T]. apply (T b). rewrite H. discriminate.
      + intros H. split; [reflexivity |]. specialize (H ("rayopt" :: user)). destruct (fs ("rayopt" :: user)) as [[| c] |]; [auto | | congruence].
        now specialize (H c (above_self _)).
    - apply exists_not in X. rewrite <- makedirs_iff by auto. split; [tauto |]. intros H. split; [exact H | now apply makedirs_ok]. }
  destruct (prepared user fs) as [g ok]. cbn [fst snd] in *. split.
  - intros H. right. destruct ok; [| now destruct H]. destruct (g src) as [[| c] |] eqn:G; try now destruct H.
    destruct (g ("rayopt" :: user)) as [[|] |]; try now destruct H. split; [| tauto].
    exists base, src, c. repeat split; auto. now apply F.
  - intros [H | [(b & s & c & Hb & Hs & Hc) H]]; [congruence |]. apply P in H as [-> ->]. injection Hb as <-.
    rewrite (shipped_unique _ _ _ _ _ Hs S) in Hc. apply F in Hc. rewrite Hc. discriminate.
Qed.

(** looking again finds the same and changes nothing, whatever is shipped by then *)
Theorem C97_again : forall user resource package resource' package' fs fs' p, find_db user resource package fs = (fs', Some p) ->
  find_db user resource' package' fs' = (fs', Some p).
Proof.
  intros user resource package r' k' fs fs' p H. apply C97_found in H as (-> & H).
  assert (fs' (home user) <> None) as N by (destruct H as [[H ->] | (_ & b & s & c & _ & _ & _ & H & _)]; congruence).
  unfold find_db. unfold home in N. apply exists_iff in N. unfold db_name. now rewrite N.
Qed.

(** ** The one library *)
Section One.
Variables (user : path) (resource : option path) (package : path) (spelled : path -> string) (connects : string -> bool).
Notation step := (step user resource package spelled connects).
Notation run := (run user resource package spelled connects).

(** a process in which fewer than [pr_next] objects were made *)
Definition sane (s : process) : Prop := forall l, pr_one s = Some l -> l_id l < pr_next s.

Lemma init_id fs i db l : snd (init user resource package spelled connects fs i db) = Some l ->
  l_id l = i /\ connects (l_db l) = true /\ (forall d, db = Some d -> l_db l = d).
Proof.
  unfold init. destruct db as [db |].
  - cbn [snd]. destruct (connects db) eqn:E; [| discriminate]. intros H. injection H as <-. cbn. repeat split; auto. congruence.
  - destruct (find_db _ _ _ fs) as [f p]. destruct p as [p |]; cbn [option_map snd]; [| discriminate].
    destruct (connects _) eqn:E; [| discriminate]. intros H. injection H as <-. cbn. repeat split; auto. discriminate.
Qed.
Lemma step_sane s c : sane s -> sane (fst (fst (step s c))).
Proof.
  intros S. destruct c as [db | db]; cbn [HomeModel.step].
  - destruct (pr_one s) as [l |] eqn:E; [exact S |]. pose proof (init_id (pr_files s) (pr_next s) db) as I.
    destruct (init _ _ _ _ _ _ _ db) as [f l]. cbn in *. intros k K. cbn in *. subst l. destruct (I k eq_refl) as [-> _]. lia.
  - destruct (init _ _ _ _ _ _ _ db) as [f l]. cbn. intros k K. cbn in *. apply S in K. lia.
Qed.
Lemma step_next s c : pr_next s <= pr_next (fst (fst (step s c))).
Proof.
  destruct c as [db | db]; cbn [HomeModel.step].
  - destruct (pr_one s) as [l |]; [cbn; lia |]. destruct (init _ _ _ _ _ _ _ db) as [f l]. cbn. lia.
  - destruct (init _ _ _ _ _ _ _ db) as [f l]. cbn. lia.
Qed.
Lemma step_one s c l : pr_one s = Some l -> pr_one (fst (fst (step s c))) = Some l.
Proof.
  intros H. destruct c as [db | db]; cbn [HomeModel.step]; [now rewrite H |].
  destruct (init _ _ _ _ _ _ _ db) as [f k]. exact H.
Qed.

(** answers of a process that has its library: every call of [one] gives it without a warning, every other library is
    made with a warning and is another object *)
Lemma run_settled l : forall cs s, sane s -> pr_one s = Some l ->
  Forall2 (fun c r => match c with
    | One _ => r = (false, Some l)
    | New _ => fst r = true /\ forall k, snd r = Some k -> l_id k <> l_id l
    end) cs (snd (run s cs)) /\ pr_one (fst (run s cs)) = Some l.
Proof.
  induction cs as [| c cs IH]; intros s S H; cbn [HomeModel.run]; [split; [constructor | exact H] |].
  pose proof (step_sane s c S) as S'. pose proof (step_one s c l H) as H'.
  assert (match c with
    | One _ => (snd (fst (step s c)), snd (step s c)) = (false, Some l)
    | New _ => snd (fst (step s c)) = true /\ forall k, snd (step s c) = Some k -> l_id k <> l_id l end) as R.
  { destruct c as [db | db]; cbn [HomeModel.step]; rewrite H; [reflexivity |].
    pose proof (init_id (pr_files s) (pr_next s) db) as I. destruct (init _ _ _ _ _ _ _ db) as [f k]. cbn [fst snd] in *.
    split; [reflexivity |]. intros k' K. destruct (I k' K) as [-> _]. apply S in H. lia. }
  destruct (step s c) as [[t w] r]. cbn [fst snd] in *. specialize (IH t S' H'). destruct (run t cs) as [u rs]. cbn [fst snd] in *.
  destruct IH as [IH1 IH2]. split; [| exact IH2]. constructor; [| exact IH1]. destruct c; exact R.
Qed.

(** for every sequence of calls: all libraries that [one] ever returns are one object; [one] never warns; a library made
    otherwise is warned about exactly if the one library was there *)
Theorem C97_one : forall s cs, sane s ->
  let rs := snd (run s cs) in
  (forall i j a b wi wj l k, nth_error cs i = Some (One a) -> nth_error cs j = Some (One b) ->
     nth_error rs i = Some (wi, Some l) -> nth_error rs j = Some (wj, Some k) -> l = k /\ wi = false) /\
  (forall i db w r, nth_error cs i = Some (New db) -> nth_error rs i = Some (w, r) ->
     (w = true <-> pr_one s <> None \/ exists j a l, j < i /\ nth_error cs j = Some (One a) /\ nth_error rs j = Some (false, Some l))).
Proof.
  intros s cs S rs. subst rs. revert s S. induction cs as [| c cs IH]; intros s S.
  { cbn. split; intros; destruct i; discriminate. }
  cbn [HomeModel.run]. pose proof (step_sane s c S) as S'.
  destruct (pr_one s) as [l |] eqn:E.
  { pose proof (run_settled l (c :: cs) s S E) as [R _]. cbn [HomeModel.run] in R.
    destruct (step s c) as [[t w] r]. destruct (run t cs) as [u rs]. cbn [fst snd] in *.
    assert (forall i x y, nth_error (c :: cs) i = Some x -> nth_error ((w, r) :: rs) i = Some y ->
      match x with One _ => y = (false, Some l) | New _ => fst y = true /\ forall k, snd y = Some k -> l_id k <> l_id l end) as N.
    { clear - R. induction R as [| x0 y0 xs ys X R IH]; intros [| i] x y; cbn; intros H K; try discriminate.
      - injection H as <-. injection K as <-. exact X.
      - now apply (IH i). }
    split.
    - intros i j a b wi wj l1 l2 Hi Hj Ri Rj. pose proof (N _ _ _ Hi Ri). pose proof (N _ _ _ Hj Rj). cbn in *.
      split; congruence.
    - intros i db w0 r0 Hi Ri. pose proof (N _ _ _ Hi Ri) as [K _]. cbn in K. split; [intros _; left; discriminate | auto]. }
  destruct c as [db | db].
  - (* the first call of one *)
    cbn [HomeModel.step] in *. rewrite E in *. destruct (init _ _ _ _ _ _ _ db) as [f [l |]]; cbn [fst] in S'.
    + set (t := Process (Some l) (Datatypes.S (pr_next s)) f) in *. pose proof (run_settled l cs t S' eq_refl) as [R _].
      destruct (run t cs) as [u rs]. cbn [fst snd] in *.
      assert (forall i x y, nth_error (One db :: cs) i = Some x -> nth_error ((false, Some l) :: rs) i = Some y ->
        match x with One _ => y = (false, Some l) | New _ => fst y = true end) as N.
      { intros [| i] x y; cbn.
        - intros H K. injection H as <-. injection K as <-. reflexivity.
        - revert i. clear - R. induction R as [| x0 y0 xs ys X R IH]; intros [| i]; cbn; intros H K; try discriminate.
          + injection H as <-. injection K as <-. destruct x0; tauto.
          + now apply (IH i). }
      split.
      * intros i j a b wi wj l1 l2 Hi Hj Ri Rj. pose proof (N _ _ _ Hi Ri). pose proof (N _ _ _ Hj Rj). cbn in *. split; congruence.
      * intros i d w0 r0 Hi Ri. pose proof (N _ _ _ Hi Ri) as K. cbn in K. split; [| auto]. intros _. right.
        destruct i as [| i]; [discriminate |]. exists 0, db, l. repeat split. lia.
    + set (t := Process None (Datatypes.S (pr_next s)) f) in *. destruct (IH t S') as [I1 I2]. destruct (run t cs) as [u rs]. cbn [fst snd] in *. split.
      * intros [| i] [| j] a b wi wj l1 l2 Hi Hj Ri Rj; cbn in *; try discriminate. now apply (I1 i j a b wi wj).
      * intros [| i] d w0 r0 Hi Ri; cbn in Hi, Ri; [discriminate |]. rewrite (I2 i d w0 r0 Hi Ri). cbn. split.
        -- intros [H | (j & a & k & J & H)]; [congruence |]. right. exists (Datatypes.S j), a, k. split; [lia | exact H].
        -- intros [H | (j & a & k & J & H)]; [congruence |]. right. destruct j as [| j]; cbn in H; [destruct H; discriminate |].
           exists j, a, k. split; [lia | exact H].
  - cbn [HomeModel.step] in *. rewrite E in *. destruct (init _ _ _ _ _ _ _ db) as [f l]; cbn [fst] in S'.
    set (t := Process None (Datatypes.S (pr_next s)) f) in *. destruct (IH t S') as [I1 I2]. destruct (run t cs) as [u rs]. cbn [fst snd] in *. split.
    + intros [| i] [| j] a b wi wj l1 l2 Hi Hj Ri Rj; cbn in *; try discriminate. now apply (I1 i j a b wi wj).
    + intros [| i] d w0 r0 Hi Ri; cbn in Hi, Ri.
      * injection Ri as <- <-. split; [discriminate |]. intros [H | (j & _ & _ & J & _)]; [congruence | lia].
      * rewrite (I2 i d w0 r0 Hi Ri). cbn. split.
        -- intros [H | (j & a & k & J & H)]; [congruence |]. right. exists (Datatypes.S j), a, k. split; [lia | exact H].
        -- intros [H | (j & a & k & J & H)]; [congruence |]. right. destruct j as [| j]; cbn in H; [destruct H; discriminate |].
           exists j, a, k. split; [lia | exact H].
Qed.
(** the first [one] that does not raise connects to the address it is given, or else to the user's library file, which is
    then there; if it raises the next one tries again, and other libraries are objects of their own *)
Theorem C97_first : forall s db, sane s -> pr_one s = None ->
  (forall t w l, step s (One db) = (t, w, Some l) -> pr_one t = Some l /\ connects (l_db l) = true /\
     match db with Some d => l_db l = d /\ pr_files t = pr_files s
     | None => l_db l = ("sqlite:///" ++ spelled (home user))%string /\ pr_files t (home user) <> None end) /\
  (forall t w, step s (One db) = (t, w, None) -> pr_one t = None /\
     match db with Some d => connects d = false
     | None => snd (find_db user resource package (pr_files s)) = None \/ connects ("sqlite:///" ++ spelled (home user))%string = false end) /\
  (forall t w l, step s (New db) = (t, w, Some l) -> pr_one t = None).
Proof.
  intros s db S N. cbn [HomeModel.step]. rewrite N. unfold init.
  assert (db = None -> match find_db user resource package (pr_files s) with (f, p) => forall q, p = Some q -> q = home user /\ f q <> None end) as F.
  { intros _. destruct (find_db _ _ _ (pr_files s)) as [f p] eqn:E. intros q ->. apply C97_found in E as (-> & H). split; [reflexivity |].
    destruct H as [[H ->] | (_ & b & sr & c & _ & _ & _ & H & _)]; congruence. }
  destruct db as [d |].
  - destruct (connects d) eqn:K; (split; [intros t w l H | split; [intros t w H | intros t w l H]]); try discriminate.
    + injection H as <- <- <-. cbn. auto.
    + injection H as <- <- <-. reflexivity.
    + injection H as <- <-. cbn. auto.
  - specialize (F eq_refl). destruct (find_db _ _ _ (pr_files s)) as [f p]. destruct p as [q |]; cbn [option_map snd].
    + destruct (F q eq_refl) as [-> G].
      destruct (connects _) eqn:K; (split; [intros t w l H | split; [intros t w H | intros t w l H]]); try discriminate.
      * injection H as <- <- <-. cbn. auto.
      * injection H as <- <- <-. reflexivity.
      * injection H as <- <-. cbn. auto.
    + (split; [intros t w l H | split; [intros t w H | intros t w l H]]); try discriminate. injection H as <- <-. cbn. auto.
Qed.
End One.

(** ** Public names *)
(** the names listed for a module, none if it has no list *)
Definition listed (ms : modules) (m : string) : list string := match ms m with Some l => l | None => [] end.
Lemma public_listed ms m n q : listed (public ms m n) q =
  if String.eqb q m then (if existsb (String.eqb n) (listed ms m) then listed ms m else listed ms m ++ [n]) else listed ms q.
Proof. unfold listed, public. destruct (String.eqb q m); reflexivity. Qed.
Lemma existsb_in n l : existsb (String.eqb n) l = true <-> In n l.
Proof.
  rewrite existsb_exists. split.
  - intros (x & H & K). apply String.eqb_eq in K. congruence.
  - intros H. exists n. split; [exact H | apply String.eqb_refl].
Qed.
(** whatever is decorated, in any order and any number of times: a module lists what it listed before, then its own new
    names, each once, in the order of their first decoration; nothing else *)
Theorem C97_public : forall ds ms m,
  (exists new, listed (publish ms ds) m = listed ms m ++ new /\
     NoDup new /\ (forall n, In n new <-> In (m, n) ds /\ ~ In n (listed ms m)) /\
     (forall a b l r, new = l ++ a :: r -> In b r -> exists x y, ds = x ++ (m, a) :: y /\ ~ In (m, b) x)) /\
  (publish ms ds m = None <-> ms m = None /\ forall n, ~ In (m, n) ds).
Proof.
  intros ds ms m. split.
  - induction ds as [| d ds IH] using rev_ind.
    + exists []. cbn. rewrite app_nil_r. split; [reflexivity |]. split; [constructor |]. split; [tauto |].
      intros a b l r H. destruct l; discriminate.
    + destruct IH as (new & E & D & I & O). unfold publish in *. rewrite fold_left_app. cbn [fold_left]. rewrite public_listed.
      destruct d as [m0 n0]. cbn [fst snd] in *. destruct (String.eqb m m0) eqn:M.
      * apply String.eqb_eq in M as <-. destruct (existsb (String.eqb n0) _) eqn:X.
        -- apply existsb_in in X. exists new. split; [exact E |]. split; [exact D |]. split.
           ++ intros n. rewrite I, in_app_iff. cbn. split; [tauto |]. intros [[H | [H | []]] K]; [tauto |]. injection H as ->.
              rewrite E, in_app_iff in X. destruct X as [X | X]; [tauto |]. now apply I in X.
           ++ intros a b l r H B. destruct (O a b l r H B) as (x & y & -> & K). exists x, (y ++ [(m, n0)]). split; [| exact K].
              now rewrite <- app_assoc.
        -- assert (~ In n0 (listed ms m ++ new)) as X' by (rewrite <- E, <- existsb_in, X; discriminate).
           rewrite in_app_iff in X'. exists (new ++ [n0]). split; [now rewrite E, app_assoc |]. split.
           ++ apply NoDup_Add with (a := n0) (l := new); [| split; [exact D | tauto]]. rewrite <- (app_nil_r new) at 1. apply Add_app.
           ++ split.
              ** intros n. rewrite !in_app_iff, I. cbn. split.
                 --- intros [H | [<- | []]]; [tauto |]. split; [tauto |]. tauto.
                 --- intros [[H | [H | []]] K]; [tauto |]. injection H as ->. tauto.
              ** intros a b l r H B. destruct r as [| r0 r'] using rev_ind; [destruct B |]. clear IHr'.
                 assert (new = l ++ a :: r' /\ r0 = n0) as [Hn ->].
                 { rewrite app_comm_cons, app_assoc in H. apply app_inj_tail in H. destruct H as [H1 H2]. split; congruence. }
                 rewrite in_app_iff in B. destruct B as [B | [<- | []]].
                 --- destruct (O a b l r' Hn B) as (x & y & -> & K). exists x, (y ++ [(m, n0)]). split; [now rewrite <- app_assoc | exact K].
                 --- assert (In a new) as A by (rewrite Hn, in_app_iff; right; now left). apply I in A as [A _].
                     apply in_split in A as (x & y & ->). exists x, (y ++ [(m, n0)]). split; [now rewrite <- app_assoc |].
                     intros K. apply X'. right. apply I. split; [rewrite in_app_iff; auto |]. intros J. apply X'. now left.
      * apply String.eqb_neq in M. exists new. split; [exact E |]. split; [exact D |]. split.
        -- intros n. rewrite I, in_app_iff. cbn. split; [tauto |]. intros [[H | [H | []]] K]; [tauto |]. congruence.
        -- intros a b l r H B. destruct (O a b l r H B) as (x & y & -> & K). exists x, (y ++ [(m0, n0)]). split; [now rewrite <- app_assoc | exact K].
  - revert ms. induction ds as [| [m0 n0] ds IH]; intros ms; unfold publish in *; cbn [fold_left fst snd].
    + cbn. tauto.
    + rewrite IH. unfold public at 1. destruct (String.eqb m m0) eqn:M.
      * apply String.eqb_eq in M as <-. split; [intros [H _]; discriminate |]. intros [_ H]. destruct (H n0). now left.
      * apply String.eqb_neq in M. cbn. split.
        -- intros [H K]. split; [exact H |]. intros n [N | N]; [congruence | now apply (K n)].
        -- intros [H K]. split; [exact H |]. intros n N. apply (K n). now right.
Qed.

(** ** Examples *)
Definition shipped_at : path := ["library.sqlite"; "share"].
(** a fresh home with a shipped library *)
Definition fresh : files := fun p => match p with
  | [] => Some Dir | ["home"] => Some Dir | ["share"] => Some Dir | ["library.sqlite"; "share"] => Some (File "glasses") | _ => None end.
Example C97_fresh : tree fresh /\
  let r := find_db [".local"; "home"] (Some shipped_at) ["pkg"] fresh in
  snd r = Some ["library.sqlite"; "rayopt"; ".local"; "home"] /\
  fst r ["library.sqlite"; "rayopt"; ".local"; "home"] = Some (File "glasses") /\ fst r [".local"; "home"] = Some Dir /\
  find_db [".local"; "home"] None ["other"] (fst r) = (fst r, snd r).
Proof.
  split; [split; [reflexivity |] |].
  - intros a p. unfold fresh. repeat (match goal with |- context [match ?x with _ => _ end] => destruct x end; try (intros []; reflexivity); try reflexivity).
  - cbv zeta. split; [reflexivity |]. split; [reflexivity |]. split; [reflexivity |].
    apply (C97_again [".local"; "home"] (Some shipped_at) ["pkg"] None ["other"] fresh). reflexivity.
Qed.
(** a file in the way of the directory *)
Example C97_blocked : let fs := put fresh ["rayopt"; "home"] (File "x") in
  find_db ["home"] (Some shipped_at) [] fs = (fs, None) /\ ~ no_file fs ["rayopt"; "home"].
Proof.
  cbv zeta. split; [reflexivity |]. intros H. apply (H ["rayopt"; "home"] "x"); [apply above_self | reflexivity].
Qed.
(** the first call fails, the second makes the library, a third gets it; a library on its own is warned about *)
Example C97_calls : let s := Process None 0 fresh in sane s /\
  snd (run ["home"] (Some shipped_at) [] (String.concat "/") (fun d => negb (String.eqb d "bad")) s
    [One (Some "bad"); New (Some "a"); One None; One (Some "b"); New (Some "c")]) =
  let l := Library 2 "sqlite:///library.sqlite/rayopt/home" in
  [(false, None); (false, Some (Library 1 "a")); (false, Some l); (false, Some l); (true, Some (Library 3 "c"))].
Proof. split; [intros l H; discriminate | reflexivity]. Qed.
Example C97_public_example : let ms := publish (fun _ => None) [("utils", "public"); ("utils", "simple_cache"); ("system", "System"); ("utils", "public")] in
  ms "utils" = Some ["public"; "simple_cache"] /\ ms "system" = Some ["System"] /\ ms "oslo" = None.
Proof. repeat split. Qed.
