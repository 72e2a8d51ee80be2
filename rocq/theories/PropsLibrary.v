(** Properties of the library (C36, C48). *)
From Coq Require Import List ZArith String Ascii Bool Lia Permutation Sorted.
From Verif Require Import LibraryModel.
Import ListNotations.
Open Scope Z_scope.
Open Scope list_scope.

(** at most one catalog per file *)
Definition unique (db : list catalog) : Prop := NoDup (map c_file db).
Definition others (fil : string) (db : list catalog) : list catalog := filter (fun c => negb (String.eqb (c_file c) fil)) db.
(** nothing pending, every catalog's file has a parser, one catalog per file *)
Definition clean (has_parser : string -> bool) (s : session) : Prop :=
  working s = committed s /\ unique (committed s) /\ Forall (fun c => has_parser (c_file c) = true) (committed s).
(** a parser that makes one catalog, recording file, date and size as [Catalog.load] does *)
Definition single (parser : string -> file -> option (list catalog)) : Prop :=
  forall fil st cs, parser fil st = Some cs -> exists c, cs = [c] /\ c_file c = fil /\ c_date c = f_mtime st /\ c_size c = Some (f_size st).

Lemma first_of_none fil db : first_of fil db = None -> others fil db = db.
Proof.
  unfold first_of, others, of_file. induction db as [|c db IH]; cbn; [auto|]. destruct (String.eqb (c_file c) fil); [discriminate|]. cbn. intros H. rewrite IH; auto.
Qed.
Lemma first_of_in fil db c : first_of fil db = Some c -> In c db /\ c_file c = fil.
Proof. unfold first_of. intros H. apply find_some in H. destruct H as [A B]. split; [auto|]. apply String.eqb_eq. auto. Qed.
Lemma others_cons fil c db : others fil (c :: db) = if negb (String.eqb (c_file c) fil) then c :: others fil db else others fil db.
Proof. reflexivity. Qed.
Lemma others_id fil db : ~ In fil (map c_file db) -> others fil db = db.
Proof.
  induction db as [|c db IH]; [auto|]. intros N. rewrite others_cons. destruct (String.eqb_spec (c_file c) fil) as [E|E]; [exfalso; apply N; left; auto|].
  cbn [negb]. rewrite IH; auto. intros I. apply N. right. auto.
Qed.
Lemma delete_others fil db : unique db -> delete_first fil db = others fil db.
Proof.
  unfold unique. induction db as [|c db IH]; [auto|]. intros U. inversion U as [|? ? N U']; subst. cbn [delete_first]. rewrite others_cons. unfold of_file.
  destruct (String.eqb_spec (c_file c) fil) as [E|E]; cbn [negb]; [|rewrite IH; auto]. symmetry. apply others_id. subst. auto.
Qed.
Lemma others_unique fil db c : unique db -> c_file c = fil -> unique (others fil db ++ [c]).
Proof.
  unfold unique, others. intros U E. rewrite map_app. cbn [map].
  apply (Permutation_NoDup (Permutation_cons_append (map c_file (filter (fun c => negb (String.eqb (c_file c) fil)) db)) (c_file c))). constructor.
  - rewrite in_map_iff. intros [d [D I]]. apply filter_In in I. destruct I as [_ I]. rewrite D, E, String.eqb_refl in I. discriminate.
  - induction db as [|d db IH]; cbn; [constructor|]. inversion U as [|? ? N U']; subst. destruct (negb _); cbn; [|auto]. constructor; [|auto].
    intros I. apply N. apply in_map_iff in I. destruct I as [x [X I]]. apply filter_In in I. apply in_map_iff. exists x. tauto.
Qed.

(** * C36 *)
(** a load that raises leaves the stored library as it was and nothing pending; any parser,
    any mode, any state without pending changes *)
Theorem C36_atomic has_parser parser fs s fil m s' : working s = committed s ->
  load has_parser parser fs s fil m = (s', Raised) -> committed s' = committed s /\ working s' = committed s.
Proof.
  intros W. unfold load.
  match goal with |- match ?p with _ => _ end = _ -> _ => destruct p as [[db|]|] end.
  - destruct (has_parser fil); [|discriminate]. destruct (match fs fil with Some st => parser fil st | None => None end); [discriminate|].
    intros H. injection H as <-. auto.
  - discriminate.
  - intros H. injection H as <-. auto.
Qed.
(** a successful load replaces the file's catalog by one made from the present content and touches no other; loading keeps the library clean *)
Theorem C36_replaces has_parser parser fs s fil m s' o : single parser -> clean has_parser s -> m <> OtherMode ->
  load has_parser parser fs s fil m = (s', o) ->
  clean has_parser s' /\
  (o = Added -> exists st c, fs fil = Some st /\ parser fil st = Some [c] /\ committed s' = others fil (committed s) ++ [c]) /\
  (o <> Added -> committed s' = committed s).
Proof.
  intros SG [W [U P]] M L. assert (C : clean has_parser s) by (split; auto). revert L. unfold load.
  assert (PRE : prepare fs (working s) fil m = None \/ prepare fs (working s) fil m = Some None \/
    (prepare fs (working s) fil m = Some (Some (others fil (committed s))) /\ (has_parser fil = false -> others fil (committed s) = committed s))).
  { rewrite W. unfold prepare. destruct (first_of fil (committed s)) as [res|] eqn:F.
    - assert (HP : has_parser fil = true). { destruct (first_of_in _ _ _ F) as [I E]. rewrite Forall_forall in P. specialize (P _ I). congruence. }
      assert (D := delete_others fil (committed s) U). destruct m; [|right; right; rewrite D; split; [auto|congruence]|contradiction].
      destruct (fs fil) as [st|]; [|auto]. destruct (orb _ _); [auto|]. right. right. rewrite D. split; [auto|congruence].
    - assert (D := first_of_none _ _ F). right. right. rewrite D. split; [destruct m; auto; contradiction|auto]. }
  match goal with |- match ?p with _ => _ end = _ -> _ => destruct p as [[db|]|] end.
  - destruct PRE as [X|[X|[X NP]]]; try discriminate. injection X as ->. destruct (has_parser fil) eqn:HP.
    + destruct (fs fil) as [st|] eqn:FS.
      * destruct (parser fil st) as [cs|] eqn:PS.
        -- intros H. injection H as <- <-. destruct (SG _ _ _ PS) as [c [-> [CF _]]]. split.
           ++ split; [auto|]. cbn. split; [apply others_unique; auto|]. apply Forall_app. split; [|constructor; [congruence|constructor]].
              apply Forall_forall. intros x I. apply filter_In in I. rewrite Forall_forall in P. apply P. tauto.
           ++ split; [|congruence]. intros _. exists st, c. cbn. auto.
        -- intros H. injection H as <- <-. split; [|split; [discriminate|auto]]. split; [auto|]. cbn. auto.
      * intros H. injection H as <- <-. split; [|split; [discriminate|auto]]. split; [auto|]. cbn. auto.
    + intros H. injection H as <- <-. rewrite NP by auto. split; [|split; [discriminate|auto]]. split; [auto|]. cbn. auto.
  - intros H. injection H as <- <-. split; [auto|split; [discriminate|auto]].
  - intros H. injection H as <- <-. split; [auto|split; [discriminate|auto]].
Qed.
(** so after any sequence of refreshes and reloads, failing ones included, there is one catalog
    per file and nothing pending *)
Theorem C36_invariant has_parser parser jobs s : single parser -> clean has_parser s ->
  Forall (fun j => snd j <> OtherMode) jobs -> clean has_parser (load_all has_parser parser s jobs).
Proof.
  intros SG C F. revert s C. induction F as [|[[fs fil] m] jobs M F IH]; intros s C; [auto|]. cbn. apply IH.
  destruct (load has_parser parser fs s fil m) as [s' o] eqn:L. destruct (C36_replaces has_parser parser fs s fil m s' o SG C M L) as [C' _]. auto.
Qed.
(** a reload that does not raise gives the parse of the present content; so does a refresh if
    every change of the file makes it newer and changes its size *)
Definition up_to_date (parser : string -> file -> option (list catalog)) (fil : string) (st : file) (db : list catalog) : Prop :=
  exists c, parser fil st = Some [c] /\ In c db /\ forall d, In d db -> c_file d = fil -> d = c.
Theorem C36_current has_parser parser fs s fil m s' o st : single parser -> clean has_parser s -> has_parser fil = true -> fs fil = Some st ->
  (m = Reload \/ (m = Refresh /\ (up_to_date parser fil st (committed s) \/
     forall c, In c (committed s) -> c_file c = fil -> c_date c < f_mtime st /\ c_size c <> Some (f_size st)))) ->
  load has_parser parser fs s fil m = (s', o) -> o <> Raised -> up_to_date parser fil st (committed s').
Proof.
  intros SG C HP FS MD L NR. assert (M : m <> OtherMode) by (destruct MD as [->|[-> _]]; discriminate).
  destruct (C36_replaces has_parser parser fs s fil m s' o SG C M L) as [C' [A NA]].
  assert (ADD : o = Added -> up_to_date parser fil st (committed s')).
  { intros OA. destruct (A OA) as [st' [c [F' [P E]]]]. rewrite FS in F'. injection F' as <-. exists c. split; [auto|]. rewrite E. split; [apply in_app_iff; right; left; auto|].
    intros d I DF. apply in_app_iff in I. destruct I as [I|[<-|[]]]; [|auto]. apply filter_In in I. rewrite DF, String.eqb_refl in I. destruct I. discriminate. }
  assert (NP : o <> NoParser).
  { intros ->. clear - L HP. unfold load in L. rewrite HP in L. match type of L with match ?p with _ => _ end = _ => destruct p as [[db|]|] end; try discriminate.
    destruct (match fs fil with Some st => parser fil st | None => None end); discriminate. }
  destruct o; [auto| |contradiction|contradiction].
  (* skipped *)
  destruct MD as [->|[-> [UD|CH]]].
  - exfalso. clear - L HP. unfold load, prepare in L. rewrite HP in L. destruct (first_of fil (working s)), (match fs fil with Some st => parser fil st | None => None end); discriminate.
  - rewrite NA by discriminate. auto.
  - exfalso. destruct C as [W _]. unfold load, prepare in L. rewrite HP, W in L. destruct (first_of fil (committed s)) as [res|] eqn:F.
    + destruct (first_of_in _ _ _ F) as [I E]. destruct (CH _ I E) as [C1 C2]. rewrite FS in L.
      destruct (Z.leb_spec (f_mtime st) (c_date res)); [lia|]. cbn [orb] in L.
      destruct (c_size res) as [z|]; [destruct (Z.eqb_spec (f_size st) z) as [EE|]; [subst; contradiction|]|]; destruct (parser fil st); discriminate.
    + rewrite FS in L. destruct (parser fil st); discriminate.
Qed.
(** findings: a changed file of the same size is never refreshed, whatever its date *)
Theorem C36_same_size_refuted has_parser parser fs s fil st c : clean has_parser s -> fs fil = Some st ->
  In c (committed s) -> c_file c = fil -> c_size c = Some (f_size st) -> load has_parser parser fs s fil Refresh = (s, Skipped).
Proof.
  intros [W [U _]] FS I E Z. unfold load, prepare. rewrite W.
  assert (F : first_of fil (committed s) = Some c).
  { clear - U I E. unfold unique, first_of, of_file in *. induction (committed s) as [|d db IH]; [destruct I|]. cbn in *. inversion U; subst.
    destruct (String.eqb_spec (c_file d) (c_file c)) as [EQ|NE].
    - destruct I as [->|I]; [auto|]. exfalso. apply H1. rewrite EQ. apply in_map. auto.
    - destruct I as [->|I]; [contradiction|]. auto. }
  rewrite F, FS, Z, Z.eqb_refl. rewrite orb_true_r. reflexivity.
Qed.
(** ... a parser that makes several catalogs of one file (refractiveindex.info) leaves the old ones behind on every reload ... *)
Theorem C36_several_refuted : exists has_parser parser fs s fil, working s = committed s /\
  (exists st, fs fil = Some st /\ parser fil st = Some (committed s)) /\
  exists s', load has_parser parser fs s fil Reload = (s', Added) /\ List.length (committed s') = S (List.length (committed s)).
Proof.
  set (a := Catalog "top" "rii" "rii" "library.yml" 1 (Some 1) []). set (b := Catalog "main" "rii" "rii" "library.yml" 1 None []).
  exists (fun _ => true), (fun _ _ => Some [a; b]), (fun _ => Some (File 1 1 "")), (Session [a; b] [a; b]), "library.yml"%string.
  split; [reflexivity|]. split; [exists (File 1 1 ""); auto|]. eexists. split; [reflexivity|]. reflexivity.
Qed.
(** ... and the deletion of a catalog whose parser is missing stays pending, to be stored by the next unrelated load *)
Theorem C36_pending_refuted : exists has_parser parser fs s s' s'' fil other c, working s = committed s /\ In c (committed s) /\ c_file c = fil /\
  load has_parser parser fs s fil Reload = (s', NoParser) /\ committed s' = committed s /\
  load has_parser parser fs s' other Reload = (s'', Added) /\ other <> fil /\ ~ In c (committed s'').
Proof.
  set (a := Catalog "x" "y" "z" "a.old" 1 (Some 1) []). set (b := Catalog "x" "y" "z" "b.agf" 1 (Some 1) []).
  exists (fun f => String.eqb f "b.agf"), (fun _ _ => Some [b]), (fun _ => Some (File 1 1 "")), (Session [a] [a]). do 2 eexists.
  exists "a.old"%string, "b.agf"%string, a. split; [reflexivity|]. split; [left; auto|]. split; [reflexivity|]. split; [reflexivity|]. split; [reflexivity|].
  split; [reflexivity|]. split; [discriminate|]. intros [H|[]]. discriminate H.
Qed.
Definition demo_parser (f : string) (st : file) : option (list catalog) :=
  Some [Catalog f "zemax" "agf" f (f_mtime st) (Some (f_size st)) [Item KMaterial "BK7" (f_content st)]].
(** ** C36: with any other mode nothing is deleted, the parsed catalogs come on top of what is there *)
Theorem C36_other_mode has_parser parser fs s fil st cats : has_parser fil = true -> fs fil = Some st -> parser fil st = Some cats ->
  load has_parser parser fs s fil OtherMode = (Session (working s ++ cats) (working s ++ cats), Added).
Proof. intros H F P. unfold load. cbn [prepare]. rewrite H, F, P. reflexivity. Qed.
Example C36_other_mode_example : exists fs s st, fs "a.agf"%string = Some st /\ load (fun _ => true) (fun f st => Some [Catalog f "zemax" "agf" f (f_mtime st) None []]) fs s "a.agf" OtherMode
  = (Session [Catalog "a.agf" "zemax" "agf" "a.agf" 3 None []; Catalog "a.agf" "zemax" "agf" "a.agf" 3 None []] [Catalog "a.agf" "zemax" "agf" "a.agf" 3 None []; Catalog "a.agf" "zemax" "agf" "a.agf" 3 None []], Added).
Proof. exists (fun _ => Some (File 3 3 "")), (Session [Catalog "a.agf" "zemax" "agf" "a.agf" 3 None []] [Catalog "a.agf" "zemax" "agf" "a.agf" 3 None []]), (File 3 3 ""). split; reflexivity. Qed.
Example C36_example : single demo_parser /\ clean (fun _ => true) (Session [] []) /\
  let fs t := fun _ : string => Some (File t t "NM BK7") in
  map c_date (committed (load_all (fun _ => true) demo_parser (Session [] []) [(fs 3, "a.agf"%string, Refresh); (fs 4, "a.agf"%string, Refresh); (fs 4, "b.agf"%string, Refresh)])) = [4; 4].
Proof.
  split; [|split; [|reflexivity]].
  - intros fil st cs H. injection H as <-. eexists. split; [reflexivity|]. auto.
  - split; [auto|]. cbn. split; constructor.
Qed.

(** * C48 *)
(** what a query asks for *)
Definition matches (db : list catalog) (k : kind) (name cat source : option string) (c : catalog) (i : item) : Prop :=
  In c db /\ In i (c_items c) /\ i_kind i = k /\
  (forall n, name = Some n -> lower (i_name i) = lower n) /\
  (forall n, cat = Some n -> lower (c_name c) = lower n) /\
  (forall n, source = Some n -> c_source c = n).

Lemma insert_row_perm r l : Permutation (r :: l) (insert_row r l).
Proof. induction l as [|q l IH]; cbn; [auto|]. destruct (row_le r q); [auto|]. rewrite perm_swap. rewrite <- IH. auto. Qed.
Lemma order_by_perm l : Permutation l (order_by l).
Proof. induction l as [|r l IH]; cbn; [auto|]. rewrite <- insert_row_perm. rewrite <- IH. auto. Qed.
Lemma in_opt_filter {A} o (f : string -> A -> bool) l x : In x (opt_filter o f l) <-> In x l /\ forall v, o = Some v -> f v x = true.
Proof.
  destruct o as [v|]; cbn; [rewrite filter_In|]; split.
  - intros [A1 B]. split; [auto|]. intros w E. injection E as <-. auto.
  - intros [A1 B]. split; auto.
  - intros H. split; [auto|discriminate].
  - tauto.
Qed.
Lemma select_spec db k name cat source c i : In (c, i) (select db k name cat source) <-> matches db k name cat source c i.
Proof.
  unfold select. split.
  - intros H. apply (Permutation_in _ (Permutation_sym (order_by_perm _))) in H. rewrite !in_opt_filter in H. destruct H as [[[H1 H2] H3] H4].
    unfold rows in H1. apply in_flat_map in H1. destruct H1 as [c' [Ic H1]]. apply in_map_iff in H1. destruct H1 as [i' [E H1]]. injection E as -> ->.
    apply filter_In in H1. destruct H1 as [Ii K]. unfold matches. repeat split; auto.
    + destruct (i_kind i), k; try discriminate; auto.
    + intros n N. specialize (H4 n N). cbn in H4. apply String.eqb_eq in H4. auto.
    + intros n N. specialize (H2 n N). cbn in H2. apply String.eqb_eq in H2. auto.
    + intros n N. specialize (H3 n N). cbn in H3. apply String.eqb_eq in H3. auto.
  - intros [Ic [Ii [K [N [C S]]]]]. apply (Permutation_in _ (order_by_perm _)). rewrite !in_opt_filter. repeat split.
    + unfold rows. apply in_flat_map. exists c. split; [auto|]. apply in_map. apply filter_In. split; [auto|]. rewrite K. destruct k; auto.
    + intros v E. cbn. apply String.eqb_eq. auto.
    + intros v E. cbn. apply String.eqb_eq. auto.
    + intros v E. cbn. apply String.eqb_eq. auto.
Qed.

Theorem C48_sound_complete (obj : Type) parse db typ k name cat source : kind_of typ = Some k ->
  (* KeyError exactly when nothing matches *)
  (get obj parse db typ name cat source = KeyError <-> forall c i, ~ matches db k name cat source c i) /\
  (get_all obj parse db typ name cat source = KeyError <-> forall c i, ~ matches db k name cat source c i) /\
  (* what comes back matches *)
  (forall o, get obj parse db typ name cat source = Found o -> exists c i, matches db k name cat source c i /\ parse c i = Some o) /\
  (* and everything matching comes back *)
  (forall os, get_all obj parse db typ name cat source = Found os -> forall o, In o os <-> exists c i, matches db k name cat source c i /\ parse c i = Some o) /\
  ((exists c i, matches db k name cat source c i) -> (forall c i, matches db k name cat source c i -> parse c i <> None) ->
   (exists o, get obj parse db typ name cat source = Found o) /\ exists os, get_all obj parse db typ name cat source = Found os).
Proof.
  intros K. unfold get, get_all. rewrite K.
  assert (SP := select_spec db k name cat source). destruct (select db k name cat source) as [|[c0 i0] l] eqn:E.
  - assert (NM : forall c i, ~ matches db k name cat source c i) by (intros c i H; apply SP in H; destruct H).
    split; [tauto|]. split; [tauto|]. split; [discriminate|]. split; [discriminate|]. intros [c [i H]]. destruct (NM _ _ H).
  - assert (M0 : matches db k name cat source c0 i0) by (apply SP; left; auto).
    assert (NK : forall l', parse_all obj parse l' <> KeyError).
    { induction l' as [|[c i] l' IH]; cbn; [discriminate|]. destruct (parse c i); [|discriminate]. destruct (parse_all obj parse l'); congruence. }
    assert (PA : forall l' os, parse_all obj parse l' = Found os -> forall o, In o os <-> exists c i, In (c, i) l' /\ parse c i = Some o).
    { induction l' as [|[c i] l' IH]; cbn; intros os H o.
      - injection H as <-. split; [intros []|intros [c [i [[] _]]]].
      - destruct (parse c i) as [p|] eqn:P; [|discriminate]. destruct (parse_all obj parse l') as [os'| |]; try discriminate. injection H as <-.
        cbn. rewrite (IH os' eq_refl). split.
        + intros [<-|[c' [i' [I Q]]]]; [exists c, i; auto|exists c', i'; auto].
        + intros [c' [i' [[X|I] Q]]]; [injection X as <- <-; left; congruence|right; exists c', i'; auto]. }
    split; [|split; [|split; [|split]]].
    + split; [destruct (parse c0 i0); discriminate|]. intros H. destruct (H _ _ M0).
    + split; [|intros H; destruct (H _ _ M0)]. intros H. destruct (NK _ H).
    + intros o H. destruct (parse c0 i0) as [p|] eqn:P; [|discriminate]. injection H as <-. exists c0, i0. auto.
    + intros os H o. rewrite (PA _ _ H). split; intros [c [i [A B]]]; exists c, i; split; auto; apply SP; auto.
    + intros _ OK. split; [specialize (OK _ _ M0); destruct (parse c0 i0); [eauto|contradiction]|].
      assert (ALL : forall l', (forall c i, In (c, i) l' -> parse c i <> None) -> exists os, parse_all obj parse l' = Found os).
      { induction l' as [|[c i] l' IH]; cbn; intros H; [eauto|]. pose proof (H c i (or_introl eq_refl)). destruct (parse c i); [|contradiction].
        destruct IH as [os ->]; [intros; apply H; auto|eauto]. }
      apply ALL. intros c i I. apply OK. apply SP. auto.
Qed.
(** each matching row comes back as often as it is stored, ordered by name without case; [get] is the first of [get_all] *)
Theorem C48_rows db k name cat source : Sorted (fun a b => String.leb (lower (i_name (snd a))) (lower (i_name (snd b))) = true) (select db k name cat source) /\
  Permutation (select db k name cat source) (filter (fun r =>
     match cat with None => true | Some v => String.eqb (lower (c_name (fst r))) (lower v) end &&
     (match source with None => true | Some v => String.eqb (c_source (fst r)) v end &&
      match name with None => true | Some v => String.eqb (lower (i_name (snd r))) (lower v) end))
    (flat_map (fun c => map (fun i => (c, i)) (filter (fun i => kind_eqb (i_kind i) k) (c_items c))) db)).
Proof.
  unfold select. split.
  - unfold order_by. match goal with |- Sorted _ (fold_right _ _ ?x) => generalize x end. intros l. induction l as [|r l IH]; cbn; [constructor|].
    remember (fold_right insert_row [] l) as t. clear Heqt l. induction t as [|q t IHt]; cbn; [repeat constructor|].
    destruct (row_le r q) eqn:L; [constructor; [auto|constructor; auto]|]. inversion IH; subst. constructor; [apply IHt; auto|].
    assert (T : row_le q r = true). { unfold row_le in *. destruct (String.leb_total (lower (i_name (snd q))) (lower (i_name (snd r)))); [auto|congruence]. }
    destruct t as [|p t]; cbn; [constructor; auto|]. destruct (row_le r p); constructor; auto. inversion H2; auto.
  - set (f := fun (o : option string) (g : string -> catalog * item -> bool) r => match o with None => true | Some v => g v r end).
    assert (OF : forall o g l, opt_filter o g l = filter (f o g) l).
    { intros [v|] g l; cbn; [reflexivity|]. induction l as [|x l IH]; cbn; [auto|]. rewrite <- IH. auto. }
    assert (FF : forall (p q : catalog * item -> bool) l, filter p (filter q l) = filter (fun x => q x && p x) l).
    { intros p q l. induction l as [|x l IH]; cbn; [auto|]. destruct (q x); cbn; [|auto]. destruct (p x); rewrite IH; auto. }
    rewrite !OF, !FF. symmetry. apply order_by_perm.
Qed.
Theorem C48_first (obj : Type) parse db typ name cat source o os : get_all obj parse db typ name cat source = Found (o :: os) ->
  get obj parse db typ name cat source = Found o.
Proof.
  unfold get_all, get. destruct (kind_of typ); [|discriminate]. destruct (select db k name cat source) as [|[c i] l]; [discriminate|]. cbn.
  destruct (parse c i); [|discriminate]. destruct (parse_all obj parse l); try discriminate. intros H. injection H as -> ->. auto.
Qed.
(** ** C48: the two kinds of items *)
Theorem C48_kinds typ k : kind_of typ = Some k <-> (typ = "material"%string /\ k = KMaterial) \/ (typ = "lens"%string /\ k = KLens).
Proof.
  unfold kind_of. destruct (String.eqb_spec typ "material") as [->|N]; [split; [intros H; injection H as <-; auto|intros [[_ ->]|[H _]]; [auto|discriminate H]]|].
  destruct (String.eqb_spec typ "lens") as [->|N']; [split; [intros H; injection H as <-; auto|intros [[H _]|[_ ->]]; [congruence|auto]]|]. split; [discriminate|intros [[H _]|[H _]]; congruence].
Qed.
(** ** C48: names are compared letter by letter, a capital and a small letter of the Latin alphabet being the same.  Spec on character codes *)
Definition same_letter (a b : ascii) : Prop :=
  a = b \/ exists k, (k < 26 /\ ((nat_of_ascii a = 65 + k /\ nat_of_ascii b = 97 + k) \/ (nat_of_ascii b = 65 + k /\ nat_of_ascii a = 97 + k)))%nat.
Lemma lower_same a b : lower_ascii a = lower_ascii b <-> same_letter a b.
Proof.
  assert (INJ : forall x y, nat_of_ascii x = nat_of_ascii y -> x = y) by (intros x y H; rewrite <- (ascii_nat_embedding x), <- (ascii_nat_embedding y), H; reflexivity).
  assert (V : forall x, nat_of_ascii (lower_ascii x) = if (Nat.leb 65 (nat_of_ascii x) && Nat.leb (nat_of_ascii x) 90)%bool then (nat_of_ascii x + 32)%nat else nat_of_ascii x).
  { intros x. unfold lower_ascii. cbv zeta. destruct (Nat.leb_spec 65 (nat_of_ascii x)), (Nat.leb_spec (nat_of_ascii x) 90); cbn [andb]; auto. apply nat_ascii_embedding. lia. }
  split.
  - intros E. apply (f_equal nat_of_ascii) in E. rewrite !V in E. unfold same_letter.
    destruct (Nat.leb_spec 65 (nat_of_ascii a)), (Nat.leb_spec (nat_of_ascii a) 90), (Nat.leb_spec 65 (nat_of_ascii b)), (Nat.leb_spec (nat_of_ascii b) 90); cbn [andb] in E;
      first [left; apply INJ; lia|right; exists (nat_of_ascii a - 65)%nat; lia|right; exists (nat_of_ascii b - 65)%nat; lia].
  - intros [->|(k & K & [[A B]|[B A]])]; [reflexivity| |]; apply INJ; rewrite !V, A, B;
    destruct (Nat.leb_spec 65 (65 + k)%nat), (Nat.leb_spec (65 + k)%nat 90), (Nat.leb_spec 65 (97 + k)%nat), (Nat.leb_spec (97 + k)%nat 90); cbn [andb]; lia.
Qed.
Theorem C48_nocase a b : nocase_eqb a b = true <-> Forall2 same_letter (list_ascii_of_string a) (list_ascii_of_string b).
Proof.
  unfold nocase_eqb. revert b. induction a as [|x a IH]; intros [|y b]; cbn.
  - split; [constructor|auto].
  - split; [discriminate|intros H; inversion H].
  - split; [discriminate|intros H; inversion H].
  - specialize (IH b). destruct (Ascii.eqb_spec (lower_ascii x) (lower_ascii y)) as [E|N].
    + rewrite IH. split; [intros F; constructor; [apply lower_same; auto|auto]|intros F; inversion F; auto].
    + split; [discriminate|]. intros F. inversion F; subst. exfalso. apply N, lower_same. auto.
Qed.
Example C48_nocase_example : nocase_eqb "N-BK7" "n-bk7" = true /\ nocase_eqb "AZ[`az{@" "az[`AZ{@" = true /\ nocase_eqb "[" "{" = false /\ nocase_eqb "@" "`" = false.
Proof. repeat split. Qed.
Example C48_example : let db := [Catalog "schott" "zemax" "agf" "a" 0 None [Item KMaterial "SF6" ""; Item KMaterial "BK7" "x"]] in
  kind_of "material" = Some KMaterial /\ matches db KMaterial (Some "bk7"%string) (Some "SCHOTT"%string) None (Catalog "schott" "zemax" "agf" "a" 0 None [Item KMaterial "SF6" ""; Item KMaterial "BK7" "x"]) (Item KMaterial "BK7" "x") /\
  get string (fun _ i => Some (i_name i)) db "material" None None None = Found "BK7"%string.
Proof.
  cbn zeta. split; [reflexivity|]. split; [|reflexivity]. unfold matches. cbn. repeat split; auto; intros n H; try discriminate; injection H as <-; reflexivity.
Qed.
Print Assumptions C36_atomic.
Print Assumptions C36_replaces.
Print Assumptions C36_invariant.
Print Assumptions C36_current.
Print Assumptions C36_same_size_refuted.
Print Assumptions C36_several_refuted.
Print Assumptions C36_pending_refuted.
Print Assumptions C48_sound_complete.
Print Assumptions C48_rows.
Print Assumptions C48_first.
Print Assumptions C36_other_mode.
Print Assumptions C48_kinds.
Print Assumptions C48_nocase.
