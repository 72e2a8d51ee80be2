(** C78: catalogue importers. *)
From Coq Require Import String Ascii ZArith Reals Bool Arith Lia Lra List.
From Verif Require Import Base CatalogModel LibraryModel ImporterModel.
Import ListNotations.
Open Scope list_scope.
Open Scope string_scope.

(** ** text *)
Lemma append_nil s : s ++ "" = s. Proof. induction s; cbn; congruence. Qed.
Lemma append_assoc a b c : (a ++ b) ++ c = a ++ (b ++ c). Proof. induction a; cbn; congruence. Qed.
Lemma append_length a b : String.length (a ++ b) = (String.length a + String.length b)%nat. Proof. induction a; cbn; congruence. Qed.
Lemma rev_acc s : forall acc, rev_string s acc = rev_string s "" ++ acc.
Proof. induction s as [|a s IH]; intros acc; cbn; auto. rewrite IH, (IH (String a "")), append_assoc. auto. Qed.
Lemma rev_app a b : rev_string (a ++ b) "" = rev_string b "" ++ rev_string a "".
Proof. induction a as [|x a IH]; cbn; [rewrite append_nil; auto|]. rewrite (rev_acc (a ++ b)), (rev_acc a), IH. apply append_assoc. Qed.
Lemma rev_rev s : rev_string (rev_string s "") "" = s.
Proof. induction s as [|a s IH]; cbn; auto. rewrite (rev_acc s (String a "")), rev_app, IH. auto. Qed.
Lemma prefix_app k s : prefix k s = true <-> exists t, s = k ++ t.
Proof.
  revert s. induction k as [|a k IH]; intros s; [split; [intros _; exists s; auto|intros _; destruct s; auto]|]. destruct s as [|b s]; cbn; [split; [discriminate|intros (t & E); discriminate]|].
  destruct (Ascii.ascii_dec a b) as [->|N]; [rewrite IH; split; intros (t & E); exists t; [subst; auto|injection E; auto]|]. split; [discriminate|]. intros (t & E). injection E as E _. congruence.
Qed.
Lemma ends_app k s : ends_with k s = true <-> exists t, s = t ++ k.
Proof.
  unfold ends_with. rewrite prefix_app. split; intros (t & E).
  - exists (rev_string t ""). rewrite <- (rev_rev s), E, rev_app, rev_rev. auto.
  - exists (rev_string t ""). rewrite E, rev_app. auto.
Qed.
Lemma prefix_both a : forall b s, prefix a s = true -> prefix b s = true -> prefix a b = true \/ prefix b a = true.
Proof.
  induction a as [|x a IH]; intros [|y b] [|z s]; cbn; auto; try discriminate. destruct (Ascii.ascii_dec x z) as [->|]; [|discriminate]. destruct (Ascii.ascii_dec y z) as [->|]; [|discriminate].
  intros A B. destruct (Ascii.ascii_dec z z); [|congruence]. apply (IH b s); auto.
Qed.
Lemma ends_both a b s : ends_with a s = true -> ends_with b s = true -> ends_with a b = true \/ ends_with b a = true.
Proof. unfold ends_with. apply prefix_both. Qed.
Lemma take_prefix n s : exists t, s = take n s ++ t.
Proof. revert n. induction s as [|a s IH]; intros n; [exists ""; destruct n; auto|]. destruct n as [|n]; [exists (String a s); auto|]. destruct (IH n) as (t & E). exists t. cbn. unfold take in E. rewrite <- E. auto. Qed.
Lemma take_app k t : take (String.length k) (k ++ t) = k.
Proof. induction k as [|a k IH]; cbn; [destruct t; auto|]. f_equal. exact IH. Qed.
Lemma drop_app k t : drop (String.length k) (k ++ t) = t.
Proof. induction k as [|a k IH]; cbn; auto; destruct t; auto. Qed.
Lemma take_length n s : (String.length (take n s) <= n)%nat.
Proof. revert n. induction s as [|a s IH]; intros [|n]; cbn; try lia. specialize (IH n). unfold take in IH. lia. Qed.
Lemma drop_length n s : String.length (drop n s) = (String.length s - n)%nat.
Proof. revert n. induction s as [|a s IH]; intros [|n]; cbn; auto. Qed.

(** ** the importer of a file *)
(** A file goes to the importer of its ending, without regard to case, and to no other. *)
Theorem C78_choose fil k i : In (k, i) parsers -> (choose fil = Some i <-> exists stem, lower fil = stem ++ k).
Proof.
  intros I. unfold choose. rewrite <- ends_app. generalize (lower fil). intros s.
  assert (EX : forall k' i', In (k', i') parsers -> ends_with k s = true -> ends_with k' s = true -> i' = i).
  { intros k' i' I' A B. destruct (ends_both _ _ _ A B) as [E|E]; cbn in I, I'; repeat (destruct I as [I|I]; [injection I as <- <-|]); try contradiction;
      repeat (destruct I' as [I'|I']; [injection I' as <- <-; first [reflexivity|discriminate]|]); contradiction. }
  assert (P : forall l, (forall k' i', In (k', i') l -> In (k', i') parsers) -> match pick l s with Some i' => exists k', In (k', i') l /\ ends_with k' s = true | None => forall k' i', In (k', i') l -> ends_with k' s = false end).
  { induction l as [|[k' i'] l IH]; intros SUB; cbn [pick]; [intros ? ? []|]. destruct (ends_with k' s) eqn:E; [exists k'; split; [left; auto|auto]|].
    specialize (IH (fun a b c => SUB a b (or_intror c))). destruct (pick l s); [destruct IH as (k2 & A & B); exists k2; split; [right; auto|auto]|]. intros a b [C|C]; [injection C as <- <-; auto|eapply IH; eauto]. }
  specialize (P parsers (fun _ _ H => H)). destruct (pick parsers s) as [j|].
  - destruct P as (k' & A & B). split; [|intros E; f_equal; apply (EX k' j A E B)]. intros H. injection H as ->.
    cbn in I, A. repeat (destruct I as [I|I]; [injection I as <- <-; repeat (destruct A as [A|A]; [injection A; intros; subst; first [exact B|discriminate]|]); contradiction|]). contradiction.
  - rewrite (P k i I). split; discriminate.
Qed.
Example C78_choose_example : choose "/data/Schott.AGF" = Some ZemaxAgf /\ choose "/data/glass.yml" = None.
Proof. split; reflexivity. Qed.

(** ** importing again *)
(** The OSLO importers do not record the file: a catalogue they make is not recognised on the next refresh, and every refresh adds it once more. *)
Theorem C78_oslo_refresh_refuted i parser has_parser fs fil st cats s : (i = OsloDir \/ i = OsloGlc) -> choose fil = Some i ->
  (forall c, In c cats -> c_file c = match file_attribute i fil with Some f => f | None => "" end) -> fil <> "" ->
  has_parser fil = true -> fs fil = Some st -> parser fil st = Some cats -> working s = committed s -> first_of fil (working s) = None ->
  forall n, committed (load_all has_parser parser s (repeat (fs, fil, Refresh) n)) = (committed s ++ List.concat (repeat cats n))%list.
Proof.
  intros OS _ CF NE HP FS PA. assert (C0 : forall c, In c cats -> of_file fil c = false).
  { intros c I. unfold of_file. apply String.eqb_neq. rewrite (CF c I). destruct OS as [->| ->]; cbn; auto. }
  intros W F n. revert s W F. induction n as [|n IH]; intros s W F; cbn [repeat load_all List.concat]; [rewrite app_nil_r; auto|].
  unfold load at 1. unfold prepare. rewrite F, HP, FS, PA. cbn [fst]. rewrite IH; cbn [working committed]; auto; [rewrite W, app_assoc; auto|].
  unfold first_of in *. assert (FA : forall l, find (of_file fil) l = None -> find (of_file fil) (l ++ cats)%list = None); [|apply FA; auto].
  induction l as [|c l IHl]; cbn [List.app find]; intros FL; [|destruct (of_file fil c); [discriminate|auto]].
  clear - C0. induction cats as [|c l IH]; cbn; auto. rewrite C0 by (left; auto). apply IH. intros x I. apply C0. right. auto.
Qed.
Example C78_oslo_refresh_example : let cat := Catalog "thorlabs" "oslo" "olc" "" 0%Z None [Item KLens "AC254" ""] in
  choose "thorlabs.dir" = Some OsloDir /\ committed (load_all (fun _ => true) (fun _ _ => Some [cat]) (Session [] []) (repeat ((fun _ => Some (File 1 1 "")), "thorlabs.dir", Refresh) 3)) = [cat; cat; cat].
Proof. split; reflexivity. Qed.

(** ** OSLO lens directories *)
(** every row becomes one lens, in order, with the numbers of its row *)
Lemma reads_length dat lens : List.length (reads dat lens) = List.length lens.
Proof. revert dat. induction lens as [|i lens IH]; intros dat; cbn; auto. destruct (i <? 0)%Z; cbn; rewrite IH; auto. Qed.
Theorem C78_dir_rows rows dat nam : Forall2 (fun r l => l_elements l = d_elements r /\ l_thickness l = d_thick r /\ l_efl l = d_efl r /\ (2 * l_radius l = d_dia r)%R /\ l_name l = Bytes (d_part r)) rows (dir_read rows dat nam).
Proof.
  unfold dir_read. assert (L := reads_length dat (map d_length rows)). rewrite map_length in L. generalize dependent (reads dat (map d_length rows)). induction rows as [|r rows IH]; intros [|x xs] L; try discriminate; cbn [combine map]; constructor.
  - cbn. repeat split; auto. field.
  - apply IH. injection L. auto.
Qed.
(** The section of a lens is the longest listed abbreviation its part number begins with. *)
Lemma lookup_in l k : lookup l k = None <-> forall v, ~ In (k, v) l.
Proof.
  induction l as [|[a b] l IH]; cbn; [split; [intros _ v []|auto]|]. destruct (lookup l k) eqn:E.
  - split; [discriminate|]. intros H. exfalso. assert (N : Some s = None) by (apply IH; intros v I; apply (H v); auto). discriminate.
  - destruct (String.eqb_spec a k) as [->|N]; split; try discriminate; [intros H; exfalso; apply (H b); auto|intros _ v [H|H]; [injection H; congruence|apply (proj1 IH eq_refl v H)]|auto].
Qed.
Lemma sections_in nam k : (exists v, In (k, v) (sections nam)) <-> In k (map fst nam).
Proof.
  unfold sections. rewrite in_map_iff. split.
  - intros (v & I). apply in_map_iff in I. destruct I as ([a b] & E & I). injection E as <- _. exists (a, b). auto.
  - intros ([a b] & <- & I). eexists. apply in_map_iff. exists (a, b). split; [reflexivity|auto].
Qed.
Lemma insert_down_in n l : forall k, In k (insert_down n l) <-> k = n \/ In k l.
Proof. induction l as [|m l IH]; intros k; cbn; [firstorder|]. destruct (m <=? n)%nat; cbn; [firstorder|]. rewrite IH. firstorder. Qed.
Lemma sect_lens_in nam k : In k (sect_lens nam) <-> exists a, In a (map fst nam) /\ String.length a = k.
Proof.
  unfold sect_lens. rewrite <- map_map. assert (G : forall l, In k (fold_right insert_down [] l) <-> In k l) by (induction l as [|m l IH]; cbn; [tauto|]; rewrite insert_down_in, IH; firstorder). rewrite G, in_map_iff. firstorder.
Qed.
Inductive falling : list nat -> Prop := falling_nil : falling [] | falling_cons n l : (forall m, In m l -> (m <= n)%nat) -> falling l -> falling (n :: l).
Lemma insert_falling n l : falling l -> falling (insert_down n l).
Proof.
  induction 1 as [|m l H F IH]; cbn; [constructor; [intros ? []|constructor]|]. destruct (Nat.leb_spec m n); constructor; auto.
  - intros k [->|I]; auto. specialize (H k I). lia.
  - constructor; auto.
  - intros k I. apply insert_down_in in I. destruct I as [->|I]; [lia|auto].
Qed.
Lemma sect_falling nam : falling (sect_lens nam).
Proof. unfold sect_lens. induction (map (fun p => String.length (fst p)) nam) as [|n l IH]; cbn; [constructor|]. apply insert_falling; auto. Qed.
Lemma section_spec sec part : forall ks, falling ks -> match section sec ks part with
  | Some (a, c) => In (a, c) sec /\ (exists t, part = a ++ t) /\ exists k, In k ks /\ a = take k part /\ forall b v t, In (b, v) sec -> In (String.length b) ks -> part = b ++ t -> (String.length b <= k)%nat
  | None => forall b v t, In (b, v) sec -> In (String.length b) ks -> part = b ++ t -> False
  end.
Proof.
  assert (LK : forall l k c, lookup l k = Some c -> In (k, c) l).
  { induction l as [|[a b] l IH]; cbn; [discriminate|]. intros k c. destruct (lookup l k) eqn:E; [intros H; injection H as <-; right; auto|]. destruct (String.eqb_spec a k) as [->|]; [|discriminate]. intros H. injection H as <-. auto. }
  induction ks as [|k ks IH]; intros F; cbn [section]; [intros b v t _ []|]. inversion F as [|? ? H F']; subst. destruct (lookup sec (take k part)) as [c|] eqn:E.
  - split; [apply LK; auto|]. split; [apply take_prefix|]. exists k. split; [left; auto|]. split; [auto|]. intros b v t _ [<-|I] _; auto.
  - assert (NO : forall b v t, In (b, v) sec -> String.length b = k -> part = b ++ t -> False) by (intros b v t I L P; rewrite P, <- L, take_app in E; apply (proj1 (lookup_in _ _) E v); auto).
    specialize (IH F'). destruct (section sec ks part) as [[a c]|].
    + destruct IH as (A & B & k' & K1 & K2 & K3). split; auto. split; auto. exists k'. split; [right; auto|]. split; auto. intros b v t I [L|L] P; [exfalso; eapply NO; eauto|eapply K3; eauto].
    + intros b v t I [L|L] P; [eapply NO; eauto|eapply IH; eauto].
Qed.
Theorem C78_dir_section nam r dat : match l_section (dir_lens_of nam r dat) with
  | Some a => In a (map fst nam) /\ (exists t, d_part r = a ++ t) /\ forall b t, In b (map fst nam) -> d_part r = b ++ t -> (String.length b <= String.length a)%nat
  | None => forall b t, In b (map fst nam) -> d_part r <> b ++ t
  end.
Proof.
  cbn [dir_lens_of l_section]. assert (S := section_spec (sections nam) (d_part r) _ (sect_falling nam)). destruct (section (sections nam) (sect_lens nam) (d_part r)) as [[a c]|]; cbn [option_map fst].
  - destruct S as (A & (t & P) & k & K1 & K2 & K3). split; [apply sections_in; eauto|]. split; [eauto|]. intros b t' B P'. destruct (proj2 (sections_in nam b) B) as (v & V).
    assert (LB : (String.length b <= k)%nat) by (eapply K3; eauto; apply sect_lens_in; eauto).
    assert (LP : (String.length b <= String.length (d_part r))%nat) by (rewrite P', append_length; lia).
    rewrite K2. clear - LB LP. revert k LB LP. generalize (d_part r). generalize (String.length b). clear. intros n s. revert n. induction s as [|x s IH]; intros n k A B; cbn in *; [lia|]. destruct k; [lia|]. cbn. destruct n; [lia|]. apply le_n_S. apply IH; lia.
  - intros b t B P. destruct (proj2 (sections_in nam b) B) as (v & V). eapply S; eauto. apply sect_lens_in. eauto.
Qed.
Example C78_dir_section_example : let nam := [("AC", """Achromats"""); ("AC25", """1 inch achromats""")] in
  let l := dir_lens_of nam (DirRow 0 10 2 "AC254-050" 50 25 10) "" in l_section l = Some "AC25" /\ l_comment l = Some "b'""1 inch achromats".
Proof. split; reflexivity. Qed.
(** The description of the section is that of a bytes object: it begins with the letter b and a quote, whatever was listed. *)
Lemma rstrip_head a s : strippable a = false -> exists t, rev_string (lstrip_quotes (rev_string (String a s) "")) "" = String a t.
Proof.
  intros A. cbn [rev_string]. rewrite (rev_acc s (String a "")). assert (L : forall x y, lstrip_quotes (x ++ String y "") = lstrip_quotes x ++ String y "" \/ (lstrip_quotes x = "" /\ lstrip_quotes (x ++ String y "") = lstrip_quotes (String y ""))).
  { induction x as [|c x IH]; intros y; cbn; [right; auto|]. destruct (strippable c); [apply IH|left; reflexivity]. }
  destruct (L (rev_string s "") a) as [E|[_ E]]; rewrite E.
  - rewrite rev_app. cbn. eauto.
  - cbn. rewrite A. cbn. eauto.
Qed.
Lemma str_bytes_head s : exists t, strip_quotes (str_bytes s) = String "b" t.
Proof. unfold strip_quotes, str_bytes. cbn [String.append]. set (x := String _ _). change (lstrip_quotes (String "b" x)) with (String "b" x). apply rstrip_head. reflexivity. Qed.
Theorem C78_dir_comment_refuted nam r dat c : l_comment (dir_lens_of nam r dat) = Some c -> exists t, c = String "b" t.
Proof.
  cbn [dir_lens_of l_comment]. assert (S := section_spec (sections nam) (d_part r) _ (sect_falling nam)). destruct (section (sections nam) (sect_lens nam) (d_part r)) as [[a v]|]; cbn [option_map snd]; [|discriminate].
  intros H. injection H as <-. destruct S as (I & _). unfold sections in I. apply in_map_iff in I. destruct I as ([k d] & E & _). injection E as _ <-. cbn [snd].
  apply str_bytes_head.
Qed.
(** and the name is bytes, which no text equals *)
Theorem C78_dir_name_refuted rows dat nam l t : In l (dir_read rows dat nam) -> l_name l <> Text t.
Proof. unfold dir_read. rewrite in_map_iff. intros ((r & d) & <- & _). cbn. discriminate. Qed.
(** The data of the lenses are the consecutive pieces of the .dat file of the listed lengths ... *)
Theorem C78_dir_data rows pieces rest nam : map d_length rows = map (fun p => Z.of_nat (String.length p)) pieces ->
  map l_data (dir_read rows (String.concat "" pieces ++ rest) nam) = pieces.
Proof.
  intros L. assert (R : reads (String.concat "" pieces ++ rest) (map d_length rows) = pieces).
  { rewrite L. clear. induction pieces as [|p ps IH]; cbn [map reads]; auto. destruct (Z.ltb_spec (Z.of_nat (String.length p)) 0); [lia|]. rewrite Nat2Z.id.
    assert (C : String.concat "" (p :: ps) = p ++ String.concat "" ps) by (cbn; destruct ps; [rewrite append_nil; auto|auto]). rewrite C, append_assoc, take_app, drop_app, IH. auto. }
  unfold dir_read. rewrite R, map_map. cbn. assert (N : List.length rows = List.length pieces) by (rewrite <- (map_length d_length), L, map_length; auto). clear - N.
  revert pieces N. induction rows as [|r rows IH]; intros [|p ps] N; try discriminate; cbn; auto. rewrite IH; auto.
Qed.
Example C78_dir_data_example : map l_data (dir_read [DirRow 0 3 1 "A" 1 1 1; DirRow 3 2 1 "B" 1 1 1] "abcde" []) = ["abc"; "de"].
Proof. reflexivity. Qed.
(** ... whatever the listed offsets: with the rows in another order than the pieces, each lens gets the data of another *)
Theorem C78_dir_offset_refuted : exists rows dat, map (fun r => take (Z.to_nat (d_length r)) (drop (Z.to_nat (d_offset r)) dat)) rows = ["de"; "abc"] /\ map l_data (dir_read rows dat []) = ["ab"; "cde"].
Proof. exists [DirRow 3 2 1 "B" 1 1 1; DirRow 0 3 1 "A" 1 1 1], "abcde". split; reflexivity. Qed.

(** ** CodeV *)
(** Every glass becomes one item, in order, whose name is the glass name without the identification of the catalogue; one glass with another beginning, or without a number, refuses the whole catalogue. *)
Theorem C78_codev_read pyint d : match codevxml_read pyint d with
  | Some (name, id, items) => v_catalog d = Some name /\ v_id d = Some id /\
      Forall2 (fun g i => v_name g = Some (id ++ cv_name i) /\ v_numeric g = Some (cv_comment i) /\ (exists a, v_avail g = Some a /\ pyint a = Some (cv_status i)) /\ cv_data i = g) (v_glasses d) items
  | None => v_catalog d = None \/ v_id d = None \/ exists id g, v_id d = Some id /\ In g (v_glasses d) /\
      ((forall n, v_name g <> Some (id ++ n)) \/ v_numeric g = None \/ forall a, v_avail g = Some a -> pyint a = None)
  end.
Proof.
  unfold codevxml_read. destruct (v_catalog d) as [name|]; cbn [obind]; [|auto]. destruct (v_id d) as [id|]; cbn [obind]; [|auto].
  assert (K : match cv_all pyint id (v_glasses d) with
    | Some l => Forall2 (fun g i => v_name g = Some (id ++ cv_name i) /\ v_numeric g = Some (cv_comment i) /\ (exists a, v_avail g = Some a /\ pyint a = Some (cv_status i)) /\ cv_data i = g) (v_glasses d) l
    | None => exists g, In g (v_glasses d) /\ ((forall n, v_name g <> Some (id ++ n)) \/ v_numeric g = None \/ forall a, v_avail g = Some a -> pyint a = None) end).
  { induction (v_glasses d) as [|g l IH]; cbn [cv_all]; [constructor|]. unfold cv_one. destruct (v_name g) as [n|] eqn:EN; cbn [obind]; [|exists g; split; [left; auto|left; congruence]].
    destruct (prefix id n) eqn:EP; cbn [obind]; [|exists g; split; [left; auto|left; intros m H; rewrite EN in H; injection H as ->; assert (T : prefix id (id ++ m) = true) by (apply prefix_app; eauto); congruence]].
    destruct (v_numeric g) as [c|] eqn:EC; cbn [obind]; [|exists g; split; [left; auto|auto]]. destruct (v_avail g) as [a|] eqn:EA; cbn [obind]; [|exists g; split; [left; auto|right; right; congruence]].
    destruct (pyint a) as [s|] eqn:ES; cbn [obind]; [|exists g; split; [left; auto|right; right; intros b H; congruence]].
    destruct (cv_all pyint id l); cbn [obind].
    - constructor; auto. cbn [cv_name cv_comment cv_status cv_data]. apply prefix_app in EP. destruct EP as (t & ->). rewrite drop_app. split; auto. split; auto. split; eauto.
    - destruct IH as (g' & I & H). exists g'. split; [right; auto|auto]. }
  destruct (cv_all pyint id (v_glasses d)); cbn [obind]; auto. right. right. destruct K as (g & I & H). exists id, g. auto.
Qed.
(** The material has one of the formulas of material.py, and all numbers of the record as its coefficients. *)
Theorem C78_codev_material pyfloat g name typ c : codevxml_to_material pyfloat g = Some (name, typ, c) ->
  find_formula formulas typ <> None /\ (exists e, v_equation g = Some e /\ In (e, typ) cv_types) /\ Forall2 (fun t x => pyfloat t = Some x) (v_coef g) c.
Proof.
  unfold codevxml_to_material. destruct (v_equation g) as [e|]; cbn [obind]; [|discriminate]. destruct (assoc cv_types e) as [t|] eqn:T; cbn [obind]; [|discriminate]. destruct (v_name g); cbn [obind]; [|discriminate].
  destruct (all_some (map pyfloat (v_coef g))) as [l|] eqn:A; cbn [obind]; [|discriminate]. intros H. injection H as _ <- <-.
  assert (AI : forall l k v, assoc l k = Some v -> In (k, v) l) by (induction l0 as [|[x y] l0 IH]; cbn; [discriminate|]; intros k v; destruct (String.eqb_spec x k) as [->|]; [intros H; injection H as <-; auto|auto]).
  apply AI in T. split; [|split; [eauto|]].
  - cbn in T. repeat (destruct T as [T|T]; [injection T as _ <-; cbn; discriminate|]). contradiction.
  - revert l A. induction (v_coef g) as [|x xs IH]; intros l A; cbn in A; [injection A as <-; constructor|]. destruct (pyfloat x) eqn:X; [|discriminate]. cbn in A. destruct (all_some (map pyfloat xs)) eqn:Y; [|discriminate]. cbn in A. injection A as <-. constructor; auto.
Qed.
(** Its name is that of the item in the catalogue if the identification has two letters ... *)
Theorem C78_codev_name pyint pyfloat id g i name typ c : cv_one pyint id g = Some i -> codevxml_to_material pyfloat g = Some (name, typ, c) -> String.length id = 2%nat -> name = cv_name i.
Proof.
  unfold cv_one, codevxml_to_material. destruct (v_name g) as [n|]; cbn [obind]; [|discriminate]. destruct (prefix id n); [|discriminate]. destruct (v_numeric g); cbn [obind]; [|discriminate]. destruct (v_avail g); cbn [obind]; [|discriminate]. destruct (pyint _); cbn [obind]; [|discriminate].
  intros H. injection H as <-. destruct (v_equation g); cbn [obind]; [|discriminate]. destruct (assoc _ _); cbn [obind]; [|discriminate]. destruct (all_some _); cbn [obind]; [|discriminate]. intros H L. injection H as <- _ _. cbn. rewrite L. auto.
Qed.
(** ... and another one if not *)
Theorem C78_codev_name_refuted pyint pyfloat id g i name typ c n : cv_one pyint id g = Some i -> codevxml_to_material pyfloat g = Some (name, typ, c) -> String.length id <> 2%nat ->
  v_name g = Some n -> (2 < String.length n)%nat -> (String.length id < String.length n)%nat -> name <> cv_name i.
Proof.
  unfold cv_one, codevxml_to_material. intros A B L N. rewrite N in *. cbn [obind] in *. destruct (prefix id n); [|discriminate]. destruct (v_numeric g); cbn [obind] in A; [|discriminate]. destruct (v_avail g); cbn [obind] in A; [|discriminate]. destruct (pyint _); cbn [obind] in A; [|discriminate].
  injection A as <-. destruct (v_equation g); cbn [obind] in B; [|discriminate]. destruct (assoc _ _); cbn [obind] in B; [|discriminate]. destruct (all_some _); cbn [obind] in B; [|discriminate].
  assert (BN : name = drop 2 n) by congruence. rewrite BN. cbn [cv_name]. intros L1 L2 E. apply (f_equal String.length) in E. rewrite !drop_length in E. lia.
Qed.
Example C78_codev_example : let g := CvGlass (Some "ABC1") (Some "517642") (Some "1") (Some "Laurent") ["x"] in let i := CvItem "C1" "517642" 1 g in let j := CvItem "1" "517642" 1 g in
  codevxml_read (fun _ => Some 1%Z) (CvDoc (Some "Maker") (Some "AB") [g]) = Some ("Maker", "AB", [i]) /\ cv_one (fun _ => Some 1%Z) "ABC" g = Some j /\
  codevxml_to_material (fun _ => Some 1%R) g = Some ("C1", "schott", [1%R]).
Proof. repeat split; reflexivity. Qed.

(** ** refractiveindex.info *)
(** spec: the divider in force before a book, and the items a book gives *)
Definition last_divider (l : list book) : option string := fold_left (fun d b => match b with BookDivider x => Some x | _ => d end) l None.
Definition page_items (readable : string -> bool) (div b n : option string) (p : page) : list rii_item :=
  match p, b, n with
  | Page (Some pg) (Some _) (Some path), Some b, Some n => if readable path then [RiiItem (b ++ "|" ++ pg) ((match div with Some d => d | None => "None" end) ++ "|" ++ n) path] else []
  | _, _, _ => []
  end.
Definition book_items readable (div : option string) (k : book) : list rii_item := match k with Book b n (Some c) => flat_map (page_items readable div b n) c | _ => [] end.
Definition shelf_items readable (l : list book) : list rii_item := flat_map (fun k => match nth_error l k with Some b => book_items readable (last_divider (firstn k l)) b | None => [] end) (seq 0 (List.length l)).
(** the document has what is read outside of the try block *)
Definition page_ok (p : page) : Prop := match p with Page _ _ None => False | _ => True end.
Definition book_ok (b : book) : Prop := match b with Book _ _ None => False | Book _ _ (Some c) => Forall page_ok c | _ => True end.
Lemma pages_spec readable div b n l : match yml_pages readable div b n l with Some r => Forall page_ok l /\ r = flat_map (page_items readable div b n) l | None => ~ Forall page_ok l end.
Proof.
  induction l as [|p l IH]; cbn [yml_pages flat_map]; [split; [constructor|auto]|]. destruct p as [|pg nm [path|]].
  - cbn [yml_page obind]. destruct (yml_pages readable div b n l); cbn [obind]; [destruct IH as (A & ->); split; [constructor; cbn; auto|auto]|]. intros H. inversion H. auto.
  - cbn [yml_page obind]. destruct (yml_pages readable div b n l); cbn [obind].
    + destruct IH as (A & ->). split; [constructor; cbn; auto|]. destruct (readable path) eqn:R; destruct pg, nm, b, n; cbn [obind page_items]; rewrite ?R; auto.
    + intros H. inversion H. auto.
  - cbn [yml_page obind]. intros H. inversion H; subst. cbn in *. auto.
Qed.
Lemma books_spec readable : forall l pre, match yml_books readable (last_divider pre) l with
  | Some r => Forall book_ok l /\ r = flat_map (fun k => match nth_error l k with Some b => book_items readable (last_divider (pre ++ firstn k l)) b | None => [] end) (seq 0 (List.length l))
  | None => ~ Forall book_ok l end.
Proof.
  induction l as [|b l IH]; intros pre; cbn [yml_books]; [split; [constructor|auto]|].
  assert (LD : last_divider (pre ++ [b])%list = match b with BookDivider d => Some d | _ => last_divider pre end) by (unfold last_divider; rewrite fold_left_app; cbn; destruct b; auto).
  assert (ST : forall k, (pre ++ firstn (S k) (b :: l))%list = ((pre ++ [b]) ++ firstn k l)%list) by (intros k; rewrite <- app_assoc; auto).
  specialize (IH (pre ++ [b])%list). rewrite LD in IH. cbn [List.length seq flat_map nth_error firstn]. rewrite app_nil_r.
  assert (SH : flat_map (fun k => match nth_error (b :: l) k with Some b0 => book_items readable (last_divider (pre ++ firstn k (b :: l))) b0 | None => [] end) (seq 1 (List.length l)) =
               flat_map (fun k => match nth_error l k with Some b0 => book_items readable (last_divider ((pre ++ [b]) ++ firstn k l)) b0 | None => [] end) (seq 0 (List.length l))).
  { rewrite <- seq_shift. rewrite flat_map_concat_map, map_map, <- flat_map_concat_map. apply flat_map_ext. intros k. cbn [nth_error]. rewrite ST. auto. }
  destruct b as [d|bk n [c|]].
  - destruct (yml_books readable (Some d) l) as [r|]; [|intros H; inversion H; auto]. destruct IH as (A & ->). split; [constructor; cbn; auto|]. cbn [book_items List.app]. symmetry. exact SH.
  - cbn [obind]. assert (P := pages_spec readable (last_divider pre) bk n c). destruct (yml_pages readable (last_divider pre) bk n c) as [i|]; cbn [obind]; [|intros H; inversion H; auto]. destruct P as (PO & ->).
    destruct (yml_books readable (last_divider pre) l) as [r|]; cbn [obind]; [|intros H; inversion H; auto]. destruct IH as (A & ->). split; [constructor; cbn; auto|]. cbn [book_items]. f_equal. symmetry. exact SH.
  - cbn [obind]. intros H. inversion H. cbn in *. auto.
Qed.
(** Every shelf becomes a catalogue with one material for each page of it that can be read, in order, named by book and page, under the last divider before its book in the same shelf; a page that cannot be read costs only itself, a missing path or content the whole import. *)
Theorem C78_rii readable l : match yml_read readable l with
  | Some r => Forall (fun s => Forall book_ok (h_content s)) l /\ r = map (fun s => (h_name s, shelf_items readable (h_content s))) l
  | None => ~ Forall (fun s => Forall book_ok (h_content s)) l end.
Proof.
  induction l as [|s l IH]; cbn [yml_read]; [split; [constructor|auto]|]. assert (B := books_spec readable (h_content s) []). change (last_divider []) with (@None string) in B.
  destruct (yml_books readable None (h_content s)) as [i|]; cbn [obind]; [|intros H; inversion H; auto]. destruct B as (BO & ->). destruct (yml_read readable l) as [r|]; cbn [obind]; [|intros H; inversion H; auto].
  destruct IH as (A & ->). split; [constructor; auto|]. reflexivity.
Qed.
Example C78_rii_example : yml_read (fun p => negb (String.eqb p "bad.yml"))
  [Shelf "main" [BookDivider "metals"; Book (Some "Ag") (Some "Silver") (Some [PageDivider; Page (Some "Johnson") (Some "J") (Some "ag.yml"); Page (Some "Bad") (Some "B") (Some "bad.yml")])]; Shelf "other" [Book (Some "x") (Some "X") (Some [Page (Some "p") (Some "P") (Some "x.yml")])]]
  = Some [("main", [RiiItem "Ag|Johnson" "metals|Silver" "ag.yml"]); ("other", [RiiItem "x|p" "None|X" "x.yml"])].
Proof. reflexivity. Qed.
