(** ZMX texts are read as written (C92). *)
From Coq Require Import String Ascii ZArith Reals Bool List Arith Lia Lra.
From Verif Require Import Base CatalogModel ImportModel ZmxTextModel PropsCatalog PropsImport.
Import ListNotations.
Open Scope R_scope.
Open Scope list_scope.
Local Open Scope string_scope.
Local Open Scope list_scope.

(** * specification *)
(** ** what a text is: lines, and words in a line *)
(** characters that end a line: line feed, vertical tab, form feed, carriage return, separators *)
Definition line_end (a : ascii) : Prop := In (nat_of_ascii a) [10; 11; 12; 13; 28; 29; 30]%nat.
Fixpoint each (P : ascii -> Prop) (s : string) : Prop := match s with EmptyString => True | String a s => P a /\ each P s end.
(** a line as it counts: nothing white at its ends, no line end in it *)
Definition trimmed (l : string) : Prop :=
  (exists a t, l = String a t /\ ~ white a) /\ (exists t a, l = (t ++ String a "")%string /\ ~ white a) /\ each (fun a => ~ line_end a) l.
(** [layout ls s]: the lines of the text [s] that are not empty are [ls], without the white space around them *)
Inductive layout : list string -> string -> Prop :=
  | L_end s : each white s -> layout [] s
  | L_last w l w' : each white w -> trimmed l -> each white w' -> layout [l] (w ++ l ++ w')
  | L_line w l w' b s ls : each white w -> trimmed l -> each white w' -> line_end b -> layout ls s -> layout (l :: ls) (w ++ l ++ w' ++ String b s).
(** [spells ws s]: the words of [s] are [ws] *)
Inductive spells : list string -> string -> Prop :=
  | S_end s : each white s -> spells [] s
  | S_word p w q ws : each white p -> word w -> (q = "" \/ exists a q', q = String a q' /\ white a)%string -> spells ws q -> spells (w :: ws) (p ++ w ++ q).

(** ** lemmas on text *)
Lemma is_break_iff a : is_break a = true <-> line_end a.
Proof.
  unfold is_break, line_end. set (n := nat_of_ascii a). clearbody n.
  rewrite orb_true_iff, !andb_true_iff, !Nat.leb_le. cbn [In]. lia.
Qed.
Lemma is_break_not a : is_break a = false <-> ~ line_end a.
Proof. rewrite <- is_break_iff. destruct (is_break a); split; intros H; congruence. Qed.
Lemma line_end_white a : line_end a -> white a.
Proof. unfold line_end, white. cbn [In]. lia. Qed.
Lemma each_app P s t : each P (s ++ t) <-> each P s /\ each P t.
Proof. induction s as [|a s IH]; cbn; [tauto|]. rewrite IH. tauto. Qed.
Lemma each_imp (P Q : ascii -> Prop) s : (forall a, P a -> Q a) -> each P s -> each Q s.
Proof. intros I. induction s as [|a s IH]; cbn; [auto|]. intros [A B]. auto. Qed.
Lemma each_no_white s : each (fun a => ~ white a) s <-> no_white s.
Proof. induction s as [|a s IH]; cbn; [tauto|]. rewrite IH. tauto. Qed.
Lemma white_dec a : white a \/ ~ white a.
Proof. destruct (is_space a) eqn:E; [left; apply is_space_white|right; apply is_space_not_white]; auto. Qed.
Lemma rev_cons a c : rev_string (String a c) "" = (rev_string c "" ++ String a "")%string.
Proof. cbn. apply rev_string_app. Qed.

Lemma lstrip_white w s : each white w -> lstrip (w ++ s) = lstrip s.
Proof. induction w as [|a w IH]; cbn; [auto|]. intros [A B]. apply is_space_white in A. rewrite A. auto. Qed.
Lemma lstrip_stay a s : ~ white a -> lstrip (String a s) = String a s.
Proof. intros H. apply is_space_not_white in H. cbn. now rewrite H. Qed.
Lemma lstrip_snoc u a : white a -> lstrip (u ++ String a "") = match lstrip u with EmptyString => EmptyString | v => (v ++ String a "")%string end.
Proof.
  intros W. apply is_space_white in W. induction u as [|b u IH]; cbn; [now rewrite W|].
  destruct (is_space b); [exact IH|reflexivity].
Qed.
Lemma strip_front w s : each white w -> strip (w ++ s) = strip s.
Proof. intros W. unfold strip. now rewrite lstrip_white. Qed.
Lemma strip_snoc u a : white a -> strip (u ++ String a "") = strip u.
Proof.
  intros W. unfold strip. rewrite lstrip_snoc by auto. destruct (lstrip u) as [|b v]; [reflexivity|].
  assert (E : rev_string (String b v ++ String a "") "" = String a (rev_string (String b v) "")).
  { clear. generalize (String b v). intros s. assert (G : forall acc, rev_string (s ++ String a "") acc = String a (rev_string s acc)). { induction s as [|c s IH]; intros acc; cbn; [auto|apply IH]. } apply G. }
  rewrite E. cbn [lstrip]. apply is_space_white in W. now rewrite W.
Qed.
Lemma blank_front a s : white a -> blank (String a s) = blank s.
Proof. intros W. unfold blank, words. cbn. apply is_space_white in W. now rewrite W. Qed.
Lemma blank_snoc u a : white a -> blank (u ++ String a "") = blank u.
Proof. intros W. unfold blank, words. rewrite words_from_split by auto. cbn. now rewrite app_nil_r. Qed.
(** a line of the text as it counts *)
Definition kept (l : string) : list string := if blank l then [] else [strip l].
Lemma kept_front a s : white a -> kept (String a s) = kept s.
Proof. intros W. unfold kept. rewrite blank_front by auto. rewrite <- (strip_front (String a "") s) by (cbn; auto). reflexivity. Qed.
Lemma kept_snoc u a : white a -> kept (u ++ String a "") = kept u.
Proof. intros W. unfold kept. now rewrite blank_snoc, strip_snoc by auto. Qed.
Lemma kept_white w : each white w -> kept w = [].
Proof. induction w as [|a w IH]; [reflexivity|]. intros [A B]. rewrite kept_front by auto. auto. Qed.
Lemma words_nonempty cur s : cur <> EmptyString -> words_from cur s <> [].
Proof.
  revert cur. induction s as [|a s IH]; intros cur C; cbn; [destruct cur; congruence|].
  destruct (is_space a); [destruct cur; congruence|]. apply IH. discriminate.
Qed.
Lemma kept_trimmed l : trimmed l -> kept l = [l].
Proof.
  intros ((a & t & -> & A) & (u & b & E & B) & _). unfold kept, blank, words. cbn [words_from].
  rewrite (proj2 (is_space_not_white a) A). destruct (words_from (String a "") t) eqn:W; [exfalso; eapply words_nonempty; [|exact W]; discriminate|].
  f_equal. unfold strip. rewrite lstrip_stay by auto. rewrite E.
  assert (R : rev_string (u ++ String b "") "" = String b (rev_string u "")).
  { clear. assert (G : forall acc, rev_string (u ++ String b "") acc = String b (rev_string u acc)). { induction u as [|c s IH]; intros acc; cbn; [auto|apply IH]. } apply G. }
  rewrite R, lstrip_stay by auto. rewrite rev_cons, rev_rev. reflexivity.
Qed.

(** the lines that count, read character by character *)
Fixpoint lines_from (cur s : string) : list string :=
  match s with
  | EmptyString => kept (rev_string cur "")
  | String a s => if is_break a then kept (rev_string cur "") ++ lines_from "" s else lines_from (String a cur) s
  end.
Lemma splitlines_lines s : forall cur, flat_map kept (splitlines_from cur s) = lines_from cur s.
Proof.
  assert (G : forall n s cur, (String.length s <= n)%nat -> flat_map kept (splitlines_from cur s) = lines_from cur s); [|intros cur; eapply G; reflexivity].
  clear s. induction n as [|n IH]; intros [|a s] cur L; cbn in L; try lia;
    try (cbn; destruct cur; [reflexivity|cbn [flat_map]; apply app_nil_r]).
  cbn [splitlines_from lines_from]. destruct (is_break a); [|apply IH; lia]. cbn [flat_map]. f_equal.
  destruct s as [|b s]; [reflexivity|]. destruct (is_cr a && is_lf b)%bool eqn:C; [|apply IH; lia].
  cbn [lines_from]. assert (B : is_break b = true). { apply andb_true_iff in C. destruct C as [_ C]. unfold is_lf in C. apply Nat.eqb_eq in C. unfold is_break. rewrite C. reflexivity. }
  rewrite B. cbn [app]. apply IH. cbn in L. lia.
Qed.
Lemma lines_split b s : line_end b -> forall u cur, lines_from cur (u ++ String b s) = lines_from cur u ++ lines_from "" s.
Proof.
  intros B. apply is_break_iff in B. induction u as [|a u IH]; intros cur; cbn.
  - now rewrite B.
  - destruct (is_break a); [rewrite IH, app_assoc; reflexivity|apply IH].
Qed.
Lemma lines_no_end u : each (fun a => ~ line_end a) u -> forall cur s, lines_from cur (u ++ s) = lines_from (rev_string u cur) s.
Proof.
  induction u as [|a u IH]; intros N cur s; [reflexivity|]. destruct N as [A N]. cbn.
  apply is_break_not in A. rewrite A. apply IH. auto.
Qed.
Lemma lines_white w : each white w -> forall cur, lines_from cur w = kept (rev_string cur "").
Proof.
  induction w as [|a w IH]; intros W cur; [reflexivity|]. destruct W as [A W]. cbn [lines_from]. destruct (is_break a).
  - rewrite IH by auto. cbn [rev_string]. rewrite (kept_white "" I), app_nil_r. reflexivity.
  - rewrite IH by auto. rewrite rev_cons. apply kept_snoc. auto.
Qed.
Lemma each_rev P s t : each P s -> each P t -> each P (rev_string s t).
Proof. revert t. induction s as [|a s IH]; intros t S T; cbn; [auto|]. destruct S. apply IH; cbn; auto. Qed.
Lemma lines_front w s : each white w -> forall cur, each white cur -> exists cur', each white cur' /\ lines_from cur (w ++ s) = lines_from cur' s.
Proof.
  induction w as [|a w IH]; intros W cur C; [exists cur; auto|]. destruct W as [A W]. cbn. destruct (is_break a).
  - rewrite kept_white by (apply each_rev; cbn; auto).
    destruct (IH W EmptyString I) as (c & H). exists c. exact H.
  - apply IH; [auto|]. cbn. auto.
Qed.
Lemma kept_white_front w s : each white w -> kept (w ++ s) = kept s.
Proof. induction w as [|a w IH]; [reflexivity|]. intros [A B]. cbn. rewrite kept_front by auto. auto. Qed.
Lemma lines_one w l w' : each white w -> trimmed l -> each white w' -> lines_from "" (w ++ l ++ w') = [l].
Proof.
  intros W L W'. destruct (lines_front w (l ++ w') W "" I) as (c & C & ->). rewrite lines_no_end by apply L. rewrite lines_white by auto.
  rewrite rev_rev. rewrite kept_white_front by (apply each_rev; cbn; auto). apply kept_trimmed. auto.
Qed.
Lemma layout_lines ls s : layout ls s -> lines_from "" s = ls.
Proof.
  induction 1 as [s W|w l w' W L W'|w l w' b s ls W L W' B _ IH].
  - rewrite lines_white by auto. reflexivity.
  - apply lines_one; auto.
  - replace (w ++ l ++ w' ++ String b s)%string with ((w ++ l ++ w') ++ String b s)%string by (now rewrite !app_assoc_s).
    rewrite lines_split by auto. rewrite lines_one by auto. rewrite IH. reflexivity.
Qed.
Lemma white_cut w : each white w -> each (fun a => ~ line_end a) w \/ exists w1 b w2, w = (w1 ++ String b w2)%string /\ each white w1 /\ line_end b /\ each white w2 /\ each (fun a => ~ line_end a) w1.
Proof.
  induction w as [|a w IH]; intros W; [left; exact I|]. destruct W as [A W]. destruct (is_break a) eqn:B.
  - right. exists ""%string, a, w. apply is_break_iff in B. cbn. repeat split; auto.
  - apply is_break_not in B. destruct (IH W) as [N|(w1 & b & w2 & -> & W1 & E & W2 & N)]; [left; cbn; auto|].
    right. exists (String a w1), b, w2. cbn. repeat split; auto.
Qed.
Lemma trimmed_one a : ~ white a -> trimmed (String a "").
Proof.
  intros A. split; [exists a, ""%string; auto|]. split; [exists ""%string, a; auto|]. cbn. split; [|auto]. intros E. apply A, line_end_white, E.
Qed.
Lemma trimmed_more a w l : ~ white a -> each (fun a => ~ line_end a) w -> trimmed l -> trimmed (String a (w ++ l)).
Proof.
  intros A W (_ & (t & b & -> & B) & N). split; [exists a, (w ++ t ++ String b "")%string; auto|]. split.
  - exists (String a (w ++ t)), b. split; [cbn; now rewrite app_assoc_s|auto].
  - cbn. split; [intros E; apply A, line_end_white, E|]. apply each_app. auto.
Qed.
Lemma layout_exists s : exists ls, layout ls s.
Proof.
  induction s as [|a s (ls & L)]; [exists []; constructor; exact I|]. destruct (white_dec a) as [A|A].
  - exists ls. destruct L as [s W|w l w' W T W'|w l w' b s ls W T W' B L].
    + constructor. cbn. auto.
    + apply (L_last (String a w)); cbn; auto.
    + apply (L_line (String a w)); cbn; auto.
  - destruct L as [s W|w l w' W T W'|w l w' b s ls W T W' B L].
    + exists [String a ""]. apply (L_last "" (String a "") s); cbn; auto. apply trimmed_one; auto.
    + destruct (white_cut w W) as [N|(w1 & c & w2 & -> & W1 & E & W2 & N)].
      * exists [String a (w ++ l)]. replace (String a (w ++ l ++ w')) with ("" ++ String a (w ++ l) ++ w')%string by (cbn; now rewrite !app_assoc_s).
        apply L_last; cbn; auto. apply trimmed_more; auto.
      * exists [String a ""; l]. replace (String a ((w1 ++ String c w2) ++ l ++ w')) with ("" ++ String a "" ++ w1 ++ String c (w2 ++ l ++ w'))%string by (cbn; now rewrite !app_assoc_s).
        apply L_line; [exact I|apply trimmed_one; auto|auto|auto|apply L_last; auto].
    + destruct (white_cut w W) as [N|(w1 & c & w2 & -> & W1 & E & W2 & N)].
      * exists (String a (w ++ l) :: ls). replace (String a (w ++ l ++ w' ++ String b s)) with ("" ++ String a (w ++ l) ++ w' ++ String b s)%string by (cbn; now rewrite !app_assoc_s).
        apply L_line; cbn; auto. apply trimmed_more; auto.
      * exists (String a "" :: l :: ls). replace (String a ((w1 ++ String c w2) ++ l ++ w' ++ String b s)) with ("" ++ String a "" ++ w1 ++ String c (w2 ++ l ++ w' ++ String b s))%string by (cbn; now rewrite !app_assoc_s).
        apply L_line; [exact I|apply trimmed_one; auto|auto|auto|apply L_line; auto].
Qed.
Lemma layout_iff ls s : layout ls s <-> lines_from "" s = ls.
Proof. split; [apply layout_lines|]. intros <-. destruct (layout_exists s) as (l & L). now rewrite (layout_lines _ _ L). Qed.

(** words *)
Lemma words_white_front w s : each white w -> words (w ++ s) = words s.
Proof. induction w as [|a w IH]; intros W; [reflexivity|]. destruct W as [A W]. unfold words in *. cbn. apply is_space_white in A. rewrite A. auto. Qed.
Lemma words_white w : each white w -> words w = [].
Proof. intros W. rewrite <- (app_nil_s w), words_white_front by auto. reflexivity. Qed.
Lemma spells_words ws s : spells ws s -> words s = ws.
Proof.
  induction 1 as [s W|p w q ws P W Q _ IH]; [apply words_white; auto|]. rewrite words_white_front by auto. destruct C61_words as (_ & O & S).
  destruct Q as [->|(a & q' & -> & A)]; [rewrite app_nil_s|rewrite S by auto].
  - cbn in IH. subst ws. apply O; auto.
  - rewrite O by auto. cbn [app]. f_equal. rewrite <- IH. symmetry. apply (words_white_front (String a "")). cbn. auto.
Qed.
Lemma spells_exists s : exists ws, spells ws s.
Proof.
  induction s as [|a s (ws & L)]; [exists []; constructor; exact I|]. destruct (white_dec a) as [A|A].
  - exists ws. destruct L as [s W|p w q ws P W Q L]; [constructor; cbn; auto|]. apply (S_word (String a p)); cbn; auto.
  - destruct L as [s W|p w q ws P W Q L].
    + exists [String a ""]. apply (S_word "" (String a "") s); [exact I| | |constructor; auto].
      * split; [discriminate|cbn; auto].
      * destruct s as [|b s]; [auto|]. right. exists b, s. split; [auto|apply W].
    + destruct p as [|b p].
      * exists (String a w :: ws). apply (S_word "" (String a w) q); [exact I| |auto|auto]. destruct W. split; [discriminate|cbn; auto].
      * exists (String a "" :: w :: ws). apply (S_word "" (String a "") (String b p ++ w ++ q)); [exact I| | |apply S_word; auto].
        -- split; [discriminate|cbn; auto].
        -- right. exists b, (p ++ w ++ q)%string. split; [reflexivity|apply P].
Qed.
Lemma spells_iff ws s : spells ws s <-> words s = ws.
Proof. split; [apply spells_words|]. intros <-. destruct (spells_exists s) as (l & L). now rewrite (spells_words _ _ L). Qed.

(** ** what a line means *)
Definition blank_free (c : string) : Prop := each (fun a => a <> " "%char) c.
(** the line is the command [c] with the arguments [args]: they start behind the first blank *)
Definition command_line (l c args : string) : Prop :=
  blank_free c /\ (l = (c ++ String " " args)%string \/ (l = c /\ args = ""%string)).
Definition quote : ascii := """".
Definition bare (n : string) : Prop := (forall t, n <> String quote t) /\ (forall t, n <> (t ++ String quote "")%string).
Inductive meaning := Scale (u : R) | Name (n : string) | Waves (l : list R) | Coat (c : string) | Cmd (c : command).
Definition known : list string := ["UNIT"; "NAME"; "SURF"; "CURV"; "DISZ"; "GLAS"; "DIAM"; "STOP"; "WAVL"; "COAT"; "CONI"; "PARM"]%string.

Section Text.
Variable M : Type.
Variable air : M.
Variable make : string -> made M.
Variable pyfloat : string -> option (option R).
Variable pyint : string -> option Z.
Variable default_waves : list R.
Notation zsystem := (zsystem M).

Inductive means : string -> meaning -> Prop :=
  | M_unit l args w ws u : command_line l "UNIT" args -> spells (w :: ws) args ->
      In (w, u) [("MM", 1 / 1000); ("INCH", 254 / 10000); ("IN", 254 / 10000)]%string -> means l (Scale u)
  | M_name l p n q : command_line l "NAME" (p ++ n ++ q) -> each (eq quote) p -> bare n -> each (eq quote) q -> means l (Name n)
  | M_surf l args : command_line l "SURF" args -> means l (Cmd SURF)
  | M_curv l args w ws x : command_line l "CURV" args -> spells (w :: ws) args -> pyfloat w = Some (Some x) -> means l (Cmd (CURV x))
  | M_disz l args d : command_line l "DISZ" args -> pyfloat args = Some d -> means l (Cmd (DISZ d))
  | M_glas l args n ws : command_line l "GLAS" args -> spells (n :: ws) args -> make n <> OtherError M -> means l (Cmd (GLAS n None))
  | M_diam l args w ws r : command_line l "DIAM" args -> spells (w :: ws) args -> pyfloat w = Some r -> means l (Cmd (DIAM r))
  | M_stop l args : command_line l "STOP" args -> means l (Cmd STOP)
  | M_wavl l args ws xs : command_line l "WAVL" args -> spells ws args -> Forall2 (fun w x => pyfloat w = Some (Some x)) ws xs ->
      means l (Waves (map (fun x => x / 1000000) xs))
  | M_coat l args w ws : command_line l "COAT" args -> spells (w :: ws) args -> means l (Coat w)
  | M_coni l args w ws x : command_line l "CONI" args -> spells (w :: ws) args -> pyfloat w = Some (Some x) -> means l (Cmd (CONI x))
  | M_parm l args i a n x : command_line l "PARM" args -> spells [i; a] args -> pyint i = Some n -> pyfloat a = Some (Some x) -> means l (Cmd (PARM n x))
  | M_other l c args : command_line l c args -> ~ In c known -> means l (Cmd OTHER).

(** [x] is what was given last, or the default *)
Definition given {A} (f : meaning -> option A) (ms : list meaning) (d x : A) : Prop :=
  (exists a m b, ms = a ++ m :: b /\ f m = Some x /\ forall m', In m' b -> f m' = None) \/ ((forall m, In m ms -> f m = None) /\ x = d).
Definition g_scale m := match m with Scale u => Some u | _ => None end.
Definition g_name m := match m with Name n => Some n | _ => None end.
Definition g_waves m := match m with Waves l => Some l | _ => None end.
Definition g_coat m := match m with Coat c => Some (Some c) | _ => None end.
(** the commands for surfaces in a file; C45 says what they make *)
Definition commands (ms : list meaning) : list command := flat_map (fun m => match m with Cmd c => [c] | _ => [] end) ms.

(** ** one line *)
Lemma command_split l c args : command_line l c args <-> match split_first l with Some p => p | None => (l, ""%string) end = (c, args).
Proof.
  assert (G : forall l, match split_first l with Some (c, args) => blank_free c /\ l = (c ++ String " " args)%string | None => blank_free l end).
  { clear. induction l as [|a l IH]; [exact I|]. cbn. destruct (Ascii.eqb_spec a " ") as [->|N]; [split; [exact I|auto]|].
    destruct (split_first l) as [[c args]|]; cbn; [destruct IH as [B ->]; split; [split; auto|auto]|split; auto]. }
  assert (U : forall c d x y, blank_free c -> blank_free d -> (c ++ String " " x)%string = (d ++ String " " y)%string -> c = d /\ x = y).
  { clear. induction c as [|a c IH]; intros [|b d] x y C D E; cbn in E.
    - injection E. auto.
    - injection E as <- E. destruct D. congruence.
    - injection E as -> E. destruct C. congruence.
    - injection E as -> E. destruct (IH d x y) as [-> ->]; [apply C|apply D|auto|auto]. }
  assert (V : forall c d x, blank_free d -> (c ++ String " " x)%string = d -> False).
  { clear. induction c as [|a c IH]; intros d x D E; subst d; destruct D as [D0 D]; [congruence|]. eapply IH; [exact D|reflexivity]. }
  specialize (G l). destruct (split_first l) as [[c' args']|].
  - destruct G as [B ->]. split.
    + intros (C & [E|[E ->]]); [destruct (U c' c args' args) as [-> ->]; auto|exfalso; eapply V; [exact C|exact E]].
    + intros E. injection E as <- <-. split; auto.
  - split.
    + intros (C & [->|[-> ->]]); [exfalso; eapply V; [exact G|reflexivity]|auto].
    + intros E. injection E as <- <-. split; auto.
Qed.
Lemma is_quote_iff a : is_quote a = true <-> quote = a.
Proof.
  unfold is_quote, quote. rewrite Nat.eqb_eq. split; intros H; [|now subst].
  rewrite <- (ascii_nat_embedding a), H. reflexivity.
Qed.
Lemma lq_front p s : each (eq quote) p -> lstrip_quote (p ++ s) = lstrip_quote s.
Proof. induction p as [|a p IH]; [auto|]. intros [A B]. cbn. apply is_quote_iff in A. rewrite A. auto. Qed.
Lemma lq_stay s : (forall t, s <> String quote t) -> lstrip_quote s = s.
Proof. destruct s as [|a s]; [auto|]. intros H. cbn. destruct (is_quote a) eqn:E; [apply is_quote_iff in E; subst a; destruct (H s eq_refl)|auto]. Qed.
Lemma lq_exists s : exists p, each (eq quote) p /\ s = (p ++ lstrip_quote s)%string /\ forall t, lstrip_quote s <> String quote t.
Proof.
  induction s as [|a s (p & P & E & N)]; [exists ""%string; cbn; repeat split; auto; discriminate|]. cbn. destruct (is_quote a) eqn:Q.
  - exists (String a p). apply is_quote_iff in Q. cbn. rewrite <- E. auto.
  - exists ""%string. cbn. repeat split; auto. intros t X. injection X as -> _. rewrite (proj2 (is_quote_iff quote) eq_refl) in Q. discriminate Q.
Qed.
Lemma rev_app s t : rev_string (s ++ t) "" = (rev_string t "" ++ rev_string s "")%string.
Proof.
  assert (G : forall acc, rev_string (s ++ t) acc = rev_string t (rev_string s acc)). { induction s as [|a s IH]; intros acc; cbn; [auto|apply IH]. }
  rewrite G. apply rev_string_app.
Qed.
Lemma rev_inv s : rev_string (rev_string s "") "" = s.
Proof. rewrite rev_rev. reflexivity. Qed.
Lemma strip_quote_iff s n : strip_quote s = n <-> exists p q, s = (p ++ n ++ q)%string /\ each (eq quote) p /\ bare n /\ each (eq quote) q.
Proof.
  split.
  - intros <-. unfold strip_quote. destruct (lq_exists s) as (p & P & E & N). set (u := lstrip_quote s) in *.
    destruct (lq_exists (rev_string u "")) as (q & Q & F & N'). set (v := lstrip_quote (rev_string u "")) in *.
    assert (U : u = (rev_string v "" ++ rev_string q "")%string). { rewrite <- rev_app, <- F. symmetry. apply rev_inv. }
    exists p, (rev_string q ""). split; [congruence|]. split; [auto|]. split; [|apply each_rev; cbn; auto]. split.
    + intros t X. rewrite X in U. apply (N (t ++ rev_string q "")%string). exact U.
    + intros t X. apply (f_equal (fun s => rev_string s "")) in X. rewrite rev_inv, rev_app in X. apply (N' (rev_string t "")). exact X.
  - intros (p & q & -> & P & [B1 B2] & Q). unfold strip_quote. rewrite lq_front by auto. destruct n as [|a n].
    + cbn [append]. rewrite <- (app_nil_s q), lq_front by auto. reflexivity.
    + rewrite (lq_stay (String a n ++ q)) by (intros t X; change (String a (n ++ q) = String quote t) in X; injection X as -> _; apply (B1 n); auto). rewrite rev_app, lq_front by (apply each_rev; cbn; auto).
      rewrite lq_stay; [apply rev_inv|]. intros t X. apply (f_equal (fun s => rev_string s "")) in X. rewrite rev_inv in X. rewrite rev_cons in X. apply (B2 _ X).
Qed.
Definition effect (m : meaning) (s : zsystem) : zsystem :=
  match m with
  | Scale u => ZS M u (zs_name M s) (zs_waves M s) (zs_done M s) (zs_e M s) (zs_next M s)
  | Name n => ZS M (zs_scale M s) n (zs_waves M s) (zs_done M s) (zs_e M s) (zs_next M s)
  | Waves l => ZS M (zs_scale M s) (zs_name M s) l (zs_done M s) (zs_e M s) (zs_next M s)
  | Coat c => ZS M (zs_scale M s) (zs_name M s) (zs_waves M s) (zs_done M s) (fst (zs_e M s), Some c) (zs_next M s)
  | Cmd SURF => ZS M (zs_scale M s) (zs_name M s) (zs_waves M s) (zs_done M s ++ [zs_e M s]) (fresh M air (zs_next M s), None) (zs_next M s)
  | Cmd (DISZ d) => ZS M (zs_scale M s) (zs_name M s) (zs_waves M s) (zs_done M s) (zs_e M s) d
  | Cmd OTHER => s
  | Cmd c => on_last M make c s
  end.
Lemma waves_iff ws l : waves pyfloat ws = Some l <-> exists xs, Forall2 (fun w x => pyfloat w = Some (Some x)) ws xs /\ l = map (fun x => x / 1000000) xs.
Proof.
  revert l. induction ws as [|w ws IH]; intros l; cbn.
  - split; [intros E; injection E as <-; exists []; auto|]. intros (xs & F & ->). inversion F; subst. reflexivity.
  - unfold finite. split.
    + destruct (pyfloat w) as [[x|]|] eqn:P; cbn; try discriminate. destruct (waves pyfloat ws) as [r|] eqn:W; cbn; [|discriminate]. intros E. injection E as <-.
      destruct (proj1 (IH r) eq_refl) as (xs & F & ->). exists (x :: xs). split; [constructor; auto|]. cbn. f_equal. lra.
    + intros (xs & F & ->). inversion F as [|? x ? xs' P F']; subst. rewrite P. cbn. rewrite (proj2 (IH (map (fun x => x / 1000000) xs'))) by eauto. cbn. do 2 f_equal. lra.
Qed.
Lemma unit_iff w u : unit_of w = Some u <-> In (w, u) [("MM", 1 / 1000); ("INCH", 254 / 10000); ("IN", 254 / 10000)]%string.
Proof.
  unfold unit_of. split.
  - destruct (String.eqb_spec w "MM"); [intros E; injection E as <-; subst; left; auto|].
    destruct (String.eqb_spec w "INCH"); [intros E; injection E as <-; subst; right; left; auto|].
    destruct (String.eqb_spec w "IN"); [intros E; injection E as <-; subst; right; right; left; auto|discriminate].
  - intros [E|[E|[E|[]]]]; injection E as <- <-; reflexivity.
Qed.
Lemma line_sound l m s : means l m -> zmx_line M air make pyfloat pyint l s = Some (effect m s).
Proof.
  intros H. unfold zmx_line. destruct H;
    match goal with H : command_line _ _ _ |- _ => rewrite (proj1 (command_split _ _ _) H) end; cbn [String.eqb Ascii.eqb Bool.eqb];
    unfold word0, finite; try match goal with H : spells _ _ |- _ => apply spells_iff in H; rewrite H end; cbn [obind];
    try match goal with H : pyfloat _ = _ |- _ => rewrite H end; cbn [obind]; try reflexivity.
  - apply unit_iff in H1. rewrite H1. reflexivity.
  - cbn [effect]. rewrite (proj2 (strip_quote_iff _ n)); [reflexivity|]. eauto 6.
  - destruct (make n); [reflexivity|reflexivity|congruence].
  - rewrite (proj2 (waves_iff ws (map (fun x => x / 1000000) xs))); [reflexivity|]. eauto.
  - rewrite H1. reflexivity.
  - repeat match goal with |- context [String.eqb c ?n] => destruct (String.eqb_spec c n) as [->|?]; [exfalso; apply H0; cbn; tauto|] end. reflexivity.
Qed.
Lemma line_complete l s s' : zmx_line M air make pyfloat pyint l s = Some s' -> exists m, means l m.
Proof.
  unfold zmx_line. destruct (match split_first l with Some p => p | None => (l, ""%string) end) as [cmd args] eqn:E. apply command_split in E.
  assert (W : forall w, word0 args = Some w -> exists ws, spells (w :: ws) args).
  { unfold word0. intros w. destruct (words args) as [|w' ws] eqn:Q; [discriminate|]. intros X. injection X as <-. exists ws. apply spells_iff. auto. }
  unfold finite.
  destruct (String.eqb_spec cmd "UNIT") as [->|N1].
  { destruct (word0 args) as [w|]; cbn; [|discriminate]. destruct (W w eq_refl) as (ws & S). destruct (unit_of w) as [u|] eqn:U; [|discriminate]. intros _. apply unit_iff in U. eexists. eapply M_unit; eauto. }
  destruct (String.eqb_spec cmd "NAME") as [->|N2].
  { intros _. destruct (proj1 (strip_quote_iff args _) eq_refl) as (p & q & Q & P1 & P2 & P3). rewrite Q in E. eexists. eapply M_name; eauto. }
  destruct (String.eqb_spec cmd "SURF") as [->|N3]; [intros _; eexists; eapply M_surf; eauto|].
  destruct (String.eqb_spec cmd "CURV") as [->|N4].
  { destruct (word0 args) as [w|]; cbn; [|discriminate]. destruct (W w eq_refl) as (ws & S). destruct (pyfloat w) as [[x|]|] eqn:U; cbn; try discriminate. intros _. eexists. eapply M_curv; eauto. }
  destruct (String.eqb_spec cmd "DISZ") as [->|N5].
  { destruct (pyfloat args) as [d|] eqn:U; cbn; try discriminate. intros _. eexists. eapply M_disz; eauto. }
  destruct (String.eqb_spec cmd "GLAS") as [->|N6].
  { destruct (word0 args) as [w|]; cbn; [|discriminate]. destruct (W w eq_refl) as (ws & S). destruct (make w) eqn:U; try discriminate; intros _; eexists; eapply M_glas; eauto; congruence. }
  destruct (String.eqb_spec cmd "DIAM") as [->|N7].
  { destruct (word0 args) as [w|]; cbn; [|discriminate]. destruct (W w eq_refl) as (ws & S). destruct (pyfloat w) as [r|] eqn:U; cbn; try discriminate. intros _. eexists. eapply M_diam; eauto. }
  destruct (String.eqb_spec cmd "STOP") as [->|N8]; [intros _; eexists; eapply M_stop; eauto|].
  destruct (String.eqb_spec cmd "WAVL") as [->|N9].
  { destruct (waves pyfloat (words args)) as [l'|] eqn:U; cbn; try discriminate. intros _. apply waves_iff in U. destruct U as (xs & F & _). eexists. eapply M_wavl; eauto. apply spells_iff. auto. }
  destruct (String.eqb_spec cmd "COAT") as [->|N10].
  { destruct (word0 args) as [w|]; cbn; [|discriminate]. destruct (W w eq_refl) as (ws & S). intros _. eexists. eapply M_coat; eauto. }
  destruct (String.eqb_spec cmd "CONI") as [->|N11].
  { destruct (word0 args) as [w|]; cbn; [|discriminate]. destruct (W w eq_refl) as (ws & S). destruct (pyfloat w) as [[x|]|] eqn:U; cbn; try discriminate. intros _. eexists. eapply M_coni; eauto. }
  destruct (String.eqb_spec cmd "PARM") as [->|N12].
  { destruct (words args) as [|i [|a [|? ?]]] eqn:Q; try discriminate. apply spells_iff in Q. destruct (pyint i) as [n|] eqn:I; cbn; [|discriminate]. destruct (pyfloat a) as [[x|]|] eqn:U; cbn; try discriminate. intros _. eexists. eapply M_parm; eauto. }
  intros _. eexists. eapply M_other; [exact E|]. unfold known. cbn [In]. intuition.
Qed.

(** ** the file *)
Fixpoint run (ls : list string) (s : zsystem) : option zsystem :=
  match ls with [] => Some s | l :: ls => do s' <- zmx_line M air make pyfloat pyint l s; run ls s' end.
Lemma zmx_run ls : forall s, zmx_lines M air make pyfloat pyint ls s = run (flat_map kept ls) s.
Proof.
  induction ls as [|l ls IH]; intros s; [reflexivity|]. cbn [zmx_lines flat_map]. unfold kept at 1. destruct (blank l); [apply IH|]. cbn [app run].
  destruct (zmx_line M air make pyfloat pyint (strip l) s); cbn; [apply IH|auto].
Qed.
Lemma zmx_text_run s ls : layout ls s -> zmx_text M air make pyfloat pyint default_waves s = run ls (zs_start M air default_waves).
Proof. intros L. unfold zmx_text. rewrite zmx_run. unfold splitlines. rewrite splitlines_lines, (layout_lines _ _ L). reflexivity. Qed.
Lemma run_means ls ms : Forall2 means ls ms -> forall s, run ls s = Some (fold_left (fun s m => effect m s) ms s).
Proof. induction 1 as [|l m ls ms H _ IH]; intros s; cbn; [auto|]. rewrite (line_sound l m s H). cbn. apply IH. Qed.
Lemma given_fold {A} (f : meaning -> option A) (p : zsystem -> A) :
  (forall m s, p (effect m s) = match f m with Some x => x | None => p s end) ->
  forall ms s, given f ms (p s) (p (fold_left (fun s m => effect m s) ms s)).
Proof.
  intros E. induction ms as [|m ms IH] using rev_ind; intros s; [right; split; [intros ? []|auto]|]. rewrite fold_left_app. cbn [fold_left]. rewrite E. destruct (f m) as [x|] eqn:F.
  - left. exists ms, m, []. split; [auto|]. split; [auto|intros ? []].
  - destruct (IH s) as [(a & m0 & b & -> & F0 & N)|[N ->]].
    + left. exists a, m0, (b ++ [m]). split; [rewrite <- app_assoc; auto|]. split; [auto|]. intros m' I. apply in_app_or in I. destruct I as [I|[<-|[]]]; auto.
    + right. split; [|auto]. intros m' I. apply in_app_or in I. destruct I as [I|[<-|[]]]; auto.
Qed.
Lemma surfaces_fold ms : forall s, zs_surfaces M (fold_left (fun s m => effect m s) ms s) = zmx_from M air (find M make) (map fst (zs_done M s)) (fst (zs_e M s)) (zs_next M s) (commands ms).
Proof.
  induction ms as [|m ms IH]; intros s; [unfold zs_surfaces; cbn; rewrite map_app; reflexivity|]. cbn [fold_left]. rewrite IH.
  destruct m as [| | | |[]]; cbn [effect zs_done zs_e zs_next commands flat_map app zmx_from on_last fst]; try reflexivity. rewrite map_app. reflexivity.
Qed.
Fixpoint coats (c : option string) (ms : list meaning) : list (option string) :=
  match ms with [] => [c] | Cmd SURF :: ms => c :: coats None ms | Coat x :: ms => coats (Some x) ms | _ :: ms => coats c ms end.
Lemma coats_fold ms : forall s, zs_coatings M (fold_left (fun s m => effect m s) ms s) = map snd (zs_done M s) ++ coats (snd (zs_e M s)) ms.
Proof.
  induction ms as [|m ms IH]; intros s; [unfold zs_coatings; cbn; rewrite map_app; reflexivity|]. cbn [fold_left]. rewrite IH.
  destruct m as [| | | |[]]; cbn [effect zs_done zs_e coats on_last snd]; try reflexivity. rewrite map_app, <- app_assoc. reflexivity.
Qed.
Lemma coats_surf ms : forall c rest, exists l, coats c (ms ++ Cmd SURF :: rest) = l ++ coats None rest /\ length l = S (count_surf (commands ms)).
Proof.
  induction ms as [|m ms IH]; intros c rest; [exists [c]; auto|].
  destruct m as [| | | |[]]; cbn [app coats commands flat_map]; try apply IH.
  destruct (IH None rest) as (l & -> & L). exists (c :: l). split; [auto|]. cbn. unfold commands in L. rewrite L. reflexivity.
Qed.
Lemma coats_block block rest : (forall m, In m block -> m <> Cmd SURF) -> (rest = [] \/ exists r, rest = Cmd SURF :: r) ->
  forall c, exists x, nth_error (coats c (block ++ rest)) 0 = Some x /\ given g_coat block c x.
Proof.
  intros NS R. induction block as [|m block IH]; intros c.
  - exists c. split; [destruct R as [->|(r & ->)]; reflexivity|]. right. split; [intros ? []|auto].
  - assert (NS' : forall m, In m block -> m <> Cmd SURF) by (intros; apply NS; right; auto).
    assert (K : forall c', exists x, nth_error (coats c' (block ++ rest)) 0 = Some x /\ given g_coat block c' x) by (intros; apply IH; auto).
    destruct (K (match g_coat m with Some x => x | None => c end)) as (x & X & G). exists x. split.
    + rewrite <- X. destruct m as [| | | |[]]; try reflexivity. exfalso. apply (NS (Cmd SURF)); [left|]; auto.
    + destruct G as [(a & m0 & b & -> & F & N)|[N ->]]; [left; exists (m :: a), m0, b; auto|].
      destruct (g_coat m) as [y|] eqn:Y; [left; exists [], m, block; auto|]. right. split; [|auto]. intros m' [<-|I]; auto.
Qed.

(** * C92 *)
(** Every text has exactly one layout, every line at most one meaning *)
Theorem C92_layout : (forall s, exists ls, layout ls s) /\ (forall s ls ls', layout ls s -> layout ls' s -> ls = ls').
Proof. split; [apply layout_exists|]. intros s ls ls' A B. apply layout_lines in A, B. congruence. Qed.
(** If every line of the text means something, the text is read: surfaces as the commands say (C45), each with the
    coating last given in its block; scale, name, wavelengths as last given, else millimetres, no name and the default *)
Theorem C92_reads s ls ms : layout ls s -> Forall2 means ls ms ->
  exists z, zmx_text M air make pyfloat pyint default_waves s = Some z /\
    zs_surfaces M z = fst (zmx_to_system M air (find M make) (commands ms)) /\
    given g_scale ms (1 / 1000) (zs_scale M z) /\ given g_name ms ""%string (zs_name M z) /\ given g_waves ms default_waves (zs_waves M z) /\
    length (zs_coatings M z) = length (zs_surfaces M z) /\
    forall pre block rest, ms = pre ++ Cmd SURF :: block ++ rest -> (forall m, In m block -> m <> Cmd SURF) -> (rest = [] \/ exists r, rest = Cmd SURF :: r) ->
      exists c, nth_error (zs_coatings M z) (S (count_surf (commands pre))) = Some c /\ given g_coat block None c.
Proof.
  intros L F. rewrite (zmx_text_run _ _ L), (run_means _ _ F). eexists. split; [reflexivity|]. set (s0 := zs_start M air default_waves).
  split; [apply (surfaces_fold ms s0)|].
  split; [apply (given_fold g_scale (zs_scale M)); intros [| | | |[]] ?; reflexivity|].
  split; [apply (given_fold g_name (zs_name M)); intros [| | | |[]] ?; reflexivity|].
  split; [apply (given_fold g_waves (zs_waves M)); intros [| | | |[]] ?; reflexivity|].
  split; [unfold zs_coatings, zs_surfaces; rewrite !map_length; reflexivity|].
  intros pre block rest -> NS R. rewrite coats_fold. cbn [s0 zs_start zs_done zs_e map app snd].
  destruct (coats_surf pre None (block ++ rest)) as (l & -> & K). rewrite nth_error_app2 by lia. rewrite K, Nat.sub_diag. apply coats_block; auto.
Qed.
(** The reading fails exactly if some line means nothing: it has a command of the list, but not its arguments *)
Theorem C92_rejects s ls : layout ls s ->
  (zmx_text M air make pyfloat pyint default_waves s = None <-> exists l, In l ls /\ forall m, ~ means l m) /\
  forall l, (forall m, ~ means l m) -> exists c args, command_line l c args /\ In c known.
Proof.
  intros L. rewrite (zmx_text_run _ _ L). split.
  - generalize (zs_start M air default_waves) as st. clear L. induction ls as [|l ls IH]; intros st; cbn [run].
    + split; [discriminate|]. intros (l & [] & _).
    + destruct (zmx_line M air make pyfloat pyint l st) as [st'|] eqn:E; cbn [obind].
      * rewrite (IH st'). destruct (line_complete _ _ _ E) as (m & K). split.
        -- intros (l' & I & N). exists l'. split; [right; auto|auto].
        -- intros (l' & [<-|I] & N); [destruct (N m K)|eauto].
      * split; [|auto]. intros _. exists l. split; [left; auto|]. intros m K. rewrite (line_sound _ _ st K) in E. discriminate E.
  - intros l N. destruct (match split_first l with Some p => p | None => (l, ""%string) end) as [c args] eqn:E. apply command_split in E. exists c, args. split; [auto|].
    destruct (in_dec string_dec c known) as [I|I]; [auto|]. exfalso. apply (N (Cmd OTHER)). eapply M_other; eauto.
Qed.
(** Every line has at most one meaning *)
Theorem C92_one_meaning l m m' : means l m -> means l m' -> m = m'.
Proof.
  assert (U : forall c args c' args', command_line l c args -> command_line l c' args' -> c = c' /\ args = args').
  { intros c args c' args' A B. apply command_split in A, B. rewrite A in B. injection B as <- <-. auto. }
  assert (W : forall (P : string -> R -> Prop) ws xs ys, (forall w x y, P w x -> P w y -> x = y) -> Forall2 P ws xs -> Forall2 P ws ys -> xs = ys).
  { intros P ws xs ys D F. revert ys. induction F as [|w x ws xs X F IH]; intros ys G; inversion G; subst; [auto|]. f_equal; eauto. }
  intros A B. destruct A; inversion B; subst;
    match goal with H : command_line l _ _, K : command_line l _ _ |- _ => destruct (U _ _ _ _ H K) as [E1 E2]; try discriminate E1; clear K end;
    try (exfalso; subst; match goal with H : ~ In _ known |- _ => apply H; cbn; tauto end); subst;
    repeat match goal with H : spells _ _ |- _ => apply spells_iff in H end; try congruence.
  - assert (w = w0) by congruence. subst w0. apply unit_iff in H1, H4. congruence.
  - f_equal. transitivity (strip_quote (p ++ n ++ q)); [symmetry; apply strip_quote_iff; eauto 6|]. rewrite E2. apply strip_quote_iff. eauto 6.
  - f_equal. f_equal. apply (W (fun w x => pyfloat w = Some (Some x)) ws); [congruence|auto|]. congruence.
Qed.
End Text.

(** * a prescription written as a ZMX text *)
Section Written.
Variable M : Type.
Variable air : M.
Variable make : string -> made M.
Variable pyfloat : string -> option (option R).
Variable pyint : string -> option Z.
Variable default_waves : list R.
(** any way to write the numbers of some set, such as the finite floats *)
Variable rep : R -> Prop.
Variable show : R -> string.
Variable showz : Z -> string.

(** one surface: curvature, thickness behind it, glass behind it, radius of its edge, stop, conic constant, aspheric
    coefficients; [None] for infinite *)
Record row := Row { r_curv : R; r_thick : option R; r_glass : option (string * M); r_rad : option R; r_stop : bool; r_conic : R; r_asph : list R }.
Definition shown (x : option R) : string := match x with Some x => show x | None => "INFINITY" end.
Definition with_blank (c a : string) : string := (c ++ String " " a)%string.
Fixpoint parm_lines (i : Z) (l : list R) : list string :=
  match l with [] => [] | a :: l => with_blank (with_blank "PARM" (showz i)) (show a) :: parm_lines (i + 1) l end.
Definition row_lines (r : row) : list string :=
  [with_blank "SURF" (showz 0); with_blank "CURV" (show (r_curv r)); with_blank "DISZ" (shown (r_thick r))] ++
  match r_glass r with Some (n, _) => [with_blank "GLAS" n] | None => [] end ++
  [with_blank "DIAM" (shown (r_rad r))] ++ (if r_stop r then ["STOP"%string] else []) ++
  [with_blank "CONI" (show (r_conic r))] ++ parm_lines 1 (r_asph r).
Fixpoint wave_line (l : list R) : string := match l with [] => "" | x :: l => String " " (show x ++ wave_line l) end.
Definition file (u n : string) (ws : list R) (rows : list row) : list string :=
  [with_blank "UNIT" u; with_blank "NAME" (String quote (n ++ String quote "")); ("WAVL" ++ wave_line ws)%string] ++ flat_map row_lines rows.
(** lines indented by two blanks, ended by carriage return and line feed *)
Fixpoint written (ls : list string) : string :=
  match ls with [] => "" | l :: ls => (String " " (String " " "") ++ l ++ String "013" (String "010" (written ls)))%string end.
(** the surfaces meant: each stands behind the thickness of the one before *)
Fixpoint meant (d : option R) (rows : list row) : list (zsurf M) :=
  match rows with
  | [] => []
  | r :: rows => Z_ M (r_curv r) d (match r_glass r with Some (_, m) => m | None => air end) (r_rad r) (r_stop r) (r_conic r)
      (match r_asph r with [] => None | l => Some l end) :: meant (r_thick r) rows
  end.
Definition orep (x : option R) : Prop := match x with Some x => rep x | None => True end.
Definition row_ok (r : row) : Prop :=
  rep (r_curv r) /\ orep (r_thick r) /\ match r_glass r with Some (n, m) => word n /\ make n = Made M m | None => True end /\
  orep (r_rad r) /\ rep (r_conic r) /\ Forall rep (r_asph r).
Notation means := (means M make pyfloat pyint).
Hypothesis Hshow : forall x, rep x -> word (show x) /\ pyfloat (show x) = Some (Some x).
Hypothesis Hshowz : forall n, word (showz n) /\ pyint (showz n) = Some n.
Hypothesis Hinf : pyfloat "INFINITY" = Some None.

Lemma word_inf : word "INFINITY".
Proof. split; [discriminate|]. apply each_no_white. repeat split; unfold white; cbn; lia. Qed.
Lemma word_shown x : orep x -> word (shown x) /\ pyfloat (shown x) = Some x.
Proof. destruct x as [x|]; cbn; [apply Hshow|]. intros _. split; [apply word_inf|auto]. Qed.
Lemma spells_one w : word w -> spells [w] w.
Proof. intros W. apply spells_iff. apply C61_words. auto. Qed.
Lemma blank_is_white : white " ".
Proof. unfold white. cbn. tauto. Qed.
Lemma spells_two v w : word v -> word w -> spells [v; w] (v ++ String " " w).
Proof.
  intros V W. apply (S_word "" v (String " " w)); [exact I|auto|right; eauto using blank_is_white|].
  apply spells_iff. change (words (String " " "" ++ w) = [w]). rewrite words_white_front by (cbn; split; [apply blank_is_white|exact I]). apply C61_words; auto.
Qed.
Lemma line_of c a : blank_free c -> command_line (with_blank c a) c a.
Proof. intros B. split; auto. Qed.
Ltac bf := repeat split; discriminate.
Fixpoint parm_means (i : Z) (l : list R) : list meaning := match l with [] => [] | a :: l => Cmd (PARM i a) :: parm_means (i + 1) l end.
Definition row_means (r : row) : list meaning :=
  [Cmd SURF; Cmd (CURV (r_curv r)); Cmd (DISZ (r_thick r))] ++
  match r_glass r with Some (n, _) => [Cmd (GLAS n None)] | None => [] end ++
  [Cmd (DIAM (r_rad r))] ++ (if r_stop r then [Cmd STOP] else []) ++ [Cmd (CONI (r_conic r))] ++ parm_means 1 (r_asph r).
Lemma parm_ok l : Forall rep l -> forall i, Forall2 means (parm_lines i l) (parm_means i l).
Proof.
  induction 1 as [|a l Ra _ IH]; intros i; cbn; [constructor|]. constructor; [|apply IH].
  eapply (M_parm _ _ _ _ _ (showz i ++ String " " (show a))).
  - split; [bf|]. left. reflexivity.
  - apply spells_two; [apply Hshowz|apply Hshow; auto].
  - apply Hshowz.
  - apply Hshow; auto.
Qed.
Lemma row_meaning r : row_ok r -> Forall2 means (row_lines r) (row_means r).
Proof.
  intros (R1 & R2 & OK & R3 & R4 & R5). unfold row_lines, row_means. repeat apply Forall2_app.
  - repeat constructor.
    + eapply M_surf. apply line_of. bf.
    + eapply M_curv; [apply line_of; bf|apply spells_one, Hshow; auto|apply Hshow; auto].
    + eapply M_disz; [apply line_of; bf|apply word_shown; auto].
  - destruct (r_glass r) as [[n m]|]; [|constructor]. destruct OK as [W K]. repeat constructor. eapply M_glas; [apply line_of; bf|apply spells_one, W|congruence].
  - repeat constructor. eapply M_diam; [apply line_of; bf|apply spells_one, word_shown; auto|apply word_shown; auto].
  - destruct (r_stop r); [|constructor]. repeat constructor. eapply (M_stop _ _ _ _ _ ""). split; [bf|auto].
  - repeat constructor. eapply M_coni; [apply line_of; bf|apply spells_one, Hshow; auto|apply Hshow; auto].
  - apply parm_ok; auto.
Qed.
Lemma wave_spells l : Forall rep l -> spells (map show l) (wave_line l).
Proof.
  induction 1 as [|x l Rx _ IH]; cbn; [constructor; exact I|]. apply (S_word (String " " "") (show x)); [split; [apply blank_is_white|exact I]|apply Hshow; auto| |auto].
  destruct l as [|y l]; [auto|]. right. cbn. eexists _, _. split; [reflexivity|apply blank_is_white].
Qed.
Definition units : list (string * R) := [("MM", 1 / 1000); ("INCH", 254 / 10000); ("IN", 254 / 10000)]%string.
Definition file_means (u : R) (n : string) (ws : list R) (rows : list row) : list meaning :=
  [Scale u; Name n; Waves (map (fun x => x / 1000000) ws)] ++ flat_map row_means rows.
Lemma file_meaning w u n ws rows : In (w, u) units -> bare n -> Forall rep ws -> Forall row_ok rows -> Forall2 means (file w n ws rows) (file_means u n ws rows).
Proof.
  intros U B RW R. unfold file, file_means. apply Forall2_app.
  - constructor; [|constructor; [|constructor; [|constructor]]].
    + eapply M_unit; [apply line_of; bf| |exact U]. apply spells_one. unfold units in U. cbn [In] in U.
      destruct U as [U|[U|[U|[]]]]; injection U as <- _; (split; [discriminate|apply each_no_white; repeat split; unfold white; cbn; lia]).
    + apply (M_name _ _ _ _ _ (String quote "") n (String quote "")); [apply line_of; bf|cbn; auto|auto|cbn; auto].
    + destruct ws as [|x ws].
      * apply (M_wavl _ _ _ _ _ "" [] []); [split; [bf|auto]|constructor; exact I|constructor].
      * eapply (M_wavl _ _ _ _ _ (show x ++ wave_line ws) (map show (x :: ws)) (x :: ws)).
        -- split; [bf|left; reflexivity].
        -- apply spells_iff. pose proof (wave_spells (x :: ws) RW) as S. apply spells_iff in S. rewrite <- S. cbn [wave_line]. unfold words. reflexivity.
        -- revert RW. generalize (x :: ws). clear -Hshow. induction 1; constructor; [apply Hshow|]; auto.
  - clear U B. induction R as [|r rows H _ IH]; cbn [flat_map]; [constructor|]. apply Forall2_app; [apply row_meaning, H|exact IH].
Qed.
Lemma commands_app a b : commands (a ++ b) = commands a ++ commands b.
Proof. apply flat_map_app. Qed.
Lemma parm_from l : forall acc done e np rest i, i = (Z.of_nat (length acc) + 1)%Z -> (match z_asph M e with Some l => l | None => [] end) = acc ->
  zmx_from M air (find M make) done e np (commands (parm_means i l) ++ rest) =
  zmx_from M air (find M make) done (Z_ M (z_curv M e) (z_dist M e) (z_mat M e) (z_rad M e) (z_stop M e) (z_conic M e) (match l with [] => z_asph M e | _ => Some (acc ++ l) end)) np rest.
Proof.
  induction l as [|a l IH]; intros acc done e np rest i -> A; [destruct e; reflexivity|].
  cbn [parm_means commands flat_map app zmx_from on_surface]. destruct (Z.ltb_spec (Z.of_nat (length acc) + 1 - 1) 0); [lia|].
  fold (commands (parm_means (Z.of_nat (length acc) + 1 + 1) l)). rewrite A. replace (Z.to_nat (Z.of_nat (length acc) + 1 - 1)) with (length acc) by lia.
  assert (S : set_asph acc (length acc) a = acc ++ [a]).
  { clear. unfold set_asph. replace (S (length acc) - length acc)%nat with 1%nat by lia. cbn [repeat]. induction acc as [|x acc IH]; cbn; [reflexivity|]. f_equal. exact IH. }
  rewrite S. rewrite (IH (acc ++ [a])); [|rewrite app_length; cbn; lia|reflexivity]. cbn [z_curv z_dist z_mat z_rad z_stop z_conic z_asph].
  rewrite <- app_assoc. cbn [app]. destruct l; reflexivity.
Qed.
Lemma rows_from rows : Forall row_ok rows -> forall done e np,
  zmx_from M air (find M make) done e np (commands (flat_map row_means rows)) = done ++ e :: meant np rows.
Proof.
  induction 1 as [|r rows OK _ IH]; intros done e np; [reflexivity|]. cbn [flat_map meant]. rewrite commands_app. set (rest := commands (flat_map row_means rows)) in *. unfold row_means. rewrite !commands_app, <- !app_assoc.
  cbn [commands flat_map app zmx_from on_surface fresh z_curv z_dist z_mat z_rad z_stop z_conic z_asph].
  destruct OK as (_ & _ & OK & _). destruct (r_glass r) as [[n m]|]; cbn [commands flat_map app zmx_from on_surface].
  - destruct OK as [_ K]. assert (FK : find M make n = Some m) by (unfold find; now rewrite K). rewrite FK. destruct (r_stop r); cbn [commands flat_map app zmx_from on_surface z_curv z_dist z_mat z_rad z_stop z_conic z_asph];
      rewrite (parm_from (r_asph r) []) by reflexivity;
      cbn [z_curv z_dist z_mat z_rad z_stop z_conic z_asph app]; rewrite IH, <- app_assoc; destruct (r_asph r); reflexivity.
  - destruct (r_stop r); cbn [commands flat_map app zmx_from on_surface z_curv z_dist z_mat z_rad z_stop z_conic z_asph];
      rewrite (parm_from (r_asph r) []) by reflexivity;
      cbn [z_curv z_dist z_mat z_rad z_stop z_conic z_asph app]; rewrite IH, <- app_assoc; destruct (r_asph r); reflexivity.
Qed.
(** Any prescription, written with any layout, is read back *)
Theorem C92_written w u n ws rows s : In (w, u) units -> bare n -> Forall rep ws -> Forall row_ok rows -> layout (file w n ws rows) s ->
  exists z, zmx_text M air make pyfloat pyint default_waves s = Some z /\ zs_scale M z = u /\ zs_name M z = n /\
    zs_waves M z = map (fun x => x / 1000000) ws /\ zs_surfaces M z = fresh M air (Some 0) :: meant (Some 0) rows.
Proof.
  intros U B RW R L. rewrite (zmx_text_run _ _ _ _ _ _ _ _ L). rewrite (run_means _ _ _ _ _ _ _ (file_meaning w u n ws rows U B RW R)).
  eexists. split; [reflexivity|]. assert (H : forall A (p : zsystem M -> A), (forall m s, (match m with Cmd _ => True | _ => False end) -> p (effect M air make m s) = p s) ->
    forall st, p (fold_left (fun s m => effect M air make m s) (flat_map row_means rows) st) = p st).
  { intros A p E. assert (C : Forall (fun m => match m with Cmd _ => True | _ => False end) (flat_map row_means rows)).
    { apply Forall_forall. intros m I. apply in_flat_map in I. destruct I as (r & _ & I). unfold row_means in I. rewrite !in_app_iff in I. cbn [In] in I.
      assert (P : forall l i, In m (parm_means i l) -> match m with Cmd _ => True | _ => False end) by (clear; induction l; intros i; cbn; [intros []|intros [<-|I]; [auto|eapply IHl; eauto]]).
      destruct (r_glass r) as [[? ?]|], (r_stop r); cbn [In] in I; repeat match goal with H : _ \/ _ |- _ => destruct H end; try contradiction; try (subst; exact Logic.I); eapply P; eauto. }
    induction C as [|m ms Cm _ IH]; intros st; cbn; [auto|]. rewrite IH. auto. }
  unfold file_means. cbn [app fold_left]. repeat split.
  - rewrite (H _ (zs_scale M)); [reflexivity|]. intros [| | | |[]] ? []; reflexivity.
  - rewrite (H _ (zs_name M)); [reflexivity|]. intros [| | | |[]] ? []; reflexivity.
  - rewrite (H _ (zs_waves M)); [reflexivity|]. intros [| | | |[]] ? []; reflexivity.
  - rewrite surfaces_fold. cbn [effect zs_start zs_done zs_e zs_next map fst]. rewrite rows_from by auto. reflexivity.
Qed.
(** The lines indented and ended by carriage return and line feed are such a layout *)
Lemma trimmed_word w : word w -> trimmed w.
Proof.
  intros [N W]. apply each_no_white in W. destruct w as [|a w]; [congruence|]. split; [exists a, w; split; [auto|apply W]|]. split.
  - clear N. revert a W. induction w as [|b w IH]; intros a [A W]; [exists ""%string, a; auto|]. destruct (IH b W) as (t & c & -> & C). exists (String a t), c. auto.
  - eapply each_imp; [|exact W]. cbn. intros c C E. apply C, line_end_white, E.
Qed.
Lemma trimmed_blank l r : trimmed l -> trimmed r -> trimmed (with_blank l r).
Proof.
  intros ((a & t & -> & A) & _ & N) (_ & (u & b & -> & B) & K). split; [exists a, (t ++ String " " (u ++ String b ""))%string; auto|]. split.
  - exists (String a t ++ String " " u)%string, b. split; [unfold with_blank; rewrite app_assoc_s; reflexivity|auto].
  - unfold with_blank. apply each_app. split; [auto|]. split; [unfold line_end; cbn; lia|auto].
Qed.
Lemma trimmed_name n : each (fun a => ~ line_end a) n -> trimmed (String quote (n ++ String quote "")).
Proof.
  intros N. assert (Q : ~ white quote) by (unfold white; cbn; lia). split; [eauto|]. split; [exists (String quote n), quote; auto|].
  cbn. split; [intros E; apply Q, line_end_white, E|]. apply each_app. split; [auto|]. cbn. split; [intros E; apply Q, line_end_white, E|auto].
Qed.
Ltac tw := apply trimmed_word; split; [discriminate|apply each_no_white; repeat split; unfold white; cbn; lia].
Lemma trimmed_waves l : Forall rep l -> forall p, trimmed p -> trimmed (p ++ wave_line l).
Proof.
  induction 1 as [|x l Rx _ IH]; intros p P; cbn; [rewrite app_nil_s; auto|]. replace (p ++ String " " (show x ++ wave_line l))%string with (with_blank p (show x) ++ wave_line l)%string by (unfold with_blank; rewrite app_assoc_s; reflexivity).
  apply IH, trimmed_blank; [auto|]. apply trimmed_word, Hshow. auto.
Qed.
Lemma layout_written ls : Forall trimmed ls -> layout ls (written ls).
Proof.
  induction 1 as [|l ls T _ IH]; cbn [written]; [constructor; exact I|].
  change (String "013" (String "010" (written ls))) with (String "013" "" ++ String "010" (written ls))%string.
  apply L_line; [repeat split; apply blank_is_white|auto|split; [unfold white; cbn; tauto|exact I]|unfold line_end; cbn; tauto|auto].
Qed.
Theorem C92_written_layout w u n ws rows : In (w, u) units -> each (fun a => ~ line_end a) n -> Forall rep ws -> Forall row_ok rows ->
  layout (file w n ws rows) (written (file w n ws rows)).
Proof.
  intros U N RW R. apply layout_written. unfold file. apply Forall_app. split.
  - constructor; [|constructor; [|constructor; [|constructor]]].
    + apply trimmed_blank; [tw|]. unfold units in U. cbn [In] in U. destruct U as [U|[U|[U|[]]]]; injection U as <- _; tw.
    + apply trimmed_blank; [tw|apply trimmed_name; auto].
    + apply trimmed_waves; [auto|]. tw.
  - apply Forall_forall. intros l I. apply in_flat_map in I. destruct I as (r & Ir & I). rewrite Forall_forall in R. specialize (R r Ir).
    destruct R as (R1 & R2 & OK & R3 & R4 & R5).
    assert (SH : forall x, rep x -> trimmed (show x)) by (intros; apply trimmed_word, Hshow; auto). assert (SN : forall x, orep x -> trimmed (shown x)) by (intros; apply trimmed_word, word_shown; auto).
    assert (SZ : forall x, trimmed (showz x)) by (intros; apply trimmed_word, Hshowz).
    assert (P : forall a, Forall rep a -> forall i, In l (parm_lines i a) -> trimmed l).
    { clear I. induction 1 as [|x a Rx _ IH]; intros i; cbn [parm_lines In]; [intros []|]. intros [<-|J]; [apply trimmed_blank; [apply trimmed_blank; [tw|auto]|auto]|eapply IH; eauto]. }
    unfold row_lines in I. rewrite !in_app_iff in I. cbn [In] in I.
    destruct I as [[<-|[<-|[<-|[]]]]|[I|[[<-|[]]|[I|[[<-|[]]|I]]]]]; try (apply trimmed_blank; [tw|auto; fail]).
    + destruct (r_glass r) as [[g m]|]; [|destruct I]. destruct I as [<-|[]]. apply trimmed_blank; [tw|]. apply trimmed_word, OK.
    + destruct (r_stop r); [|destruct I]. destruct I as [<-|[]]. tw.
    + eapply P; eauto.
Qed.
End Written.

(** * examples and findings *)
(** a toy float for the examples: one digit or INFINITY *)
Definition toy (s : string) : option (option R) :=
  if String.eqb s "INFINITY" then Some None else
  match s with String a EmptyString => if ((48 <=? nat_of_ascii a) && (nat_of_ascii a <=? 57))%nat then Some (Some (INR (nat_of_ascii a - 48))) else None | _ => None end.
Definition toyz (s : string) : option Z := match s with String a EmptyString => Some (Z.of_nat (nat_of_ascii a - 48)) | _ => None end.
Definition glasses (n : string) : made nat := if String.eqb n "BK7" then Made nat 7%nat else if String.eqb n "" then OtherError nat else KeyError nat.
Definition lf : string := String "010" "".
Definition crlf : string := String "013" lf.
Definition tab : string := String "009" "".
Definition read := zmx_text nat 0%nat glasses toy toyz [].
Definition surfaces_of (t : string) : option (list (zsurf nat)) := do z <- read t; Some (zs_surfaces nat z).
Definition singlet : string := ("MODE SEQ" ++ crlf ++ "UNIT INCH X W" ++ crlf ++ crlf ++ "NAME ""a lens""" ++ crlf ++ "WAVL 1 2" ++ crlf ++
  "SURF 0" ++ crlf ++ "  DISZ INFINITY" ++ lf ++ "SURF 1" ++ crlf ++ "  STOP" ++ crlf ++ "  CURV 2 0 0" ++ crlf ++ tab ++ "GLAS  BK7 0 0" ++ crlf ++
  "  COAT AR extra " ++ crlf ++ "  DISZ 3" ++ crlf ++ "  DIAM 5 1" ++ crlf ++ "SURF 2" ++ crlf ++ "  PARM 2 4" ++ crlf ++ "  CONI 1" ++ crlf ++ "  DIAM INFINITY")%string.
Ltac compute_text := cbv -[INR Rmult Rdiv IZR]; reflexivity.
(** a text with comments, blank lines, both kinds of line ends, read *)
Example C92_reads_example : exists z, read singlet = Some z /\ zs_scale nat z = 254 / 10000 /\ zs_name nat z = "a lens"%string /\
  zs_waves nat z = [INR 1 * (1 / 1000000); INR 2 * (1 / 1000000)] /\ zs_coatings nat z = [None; None; Some "AR"%string; None] /\
  zs_surfaces nat z = [fresh nat 0%nat (Some 0); fresh nat 0%nat (Some 0); Z_ nat (INR 2) None 7%nat (Some (INR 5)) true 0 None;
    Z_ nat 0 (Some (INR 3)) 0%nat None false (INR 1) (Some [0; INR 4])].
Proof. eexists. split; [compute_text|]. cbn [zs_scale zs_name zs_waves zs_coatings zs_surfaces zs_done zs_e map app fst snd fresh]. repeat split. Qed.
(** the hypotheses of [C92_reads] for a text of three lines *)
Example C92_layout_example : exists ls ms, layout ls ("CURV 2" ++ crlf ++ "  STOP  " ++ lf ++ lf ++ "GCAT X")%string /\ ls = ["CURV 2"; "STOP"; "GCAT X"]%string /\
  Forall2 (means nat glasses toy toyz) ls ms /\ ms = [Cmd (CURV (INR 2)); Cmd STOP; Cmd OTHER].
Proof.
  do 2 eexists. split; [apply layout_iff; reflexivity|]. split; [reflexivity|]. split; [|reflexivity].
  constructor; [|constructor; [|constructor; [|constructor]]].
  - apply (M_curv _ _ _ _ _ "2" "2" []); [apply command_split; reflexivity|apply spells_iff; reflexivity|reflexivity].
  - apply (M_stop _ _ _ _ _ ""). apply command_split. reflexivity.
  - apply (M_other _ _ _ _ _ "GCAT" "X"); [apply command_split; reflexivity|]. cbn. intuition discriminate.
Qed.
(** a number that cannot be read ends the reading *)
Example C92_rejects_example : read ("SURF 0" ++ lf ++ "CURV none")%string = None /\ read ("UNIT CM")%string = None /\ read "PARM 1" = None /\ read "GLAS" = None.
Proof. repeat split. Qed.
(** a plane plate written with digits: the hypotheses of [C92_written] hold, the text written is read back *)
Definition digit (x : R) : Prop := x = 0 \/ x = 2.
Definition show_digit (x : R) : string := if Req_EM_T x 0 then "0" else "2".
Definition plate : list (row nat) := [Row nat 0 (Some 2) (Some ("BK7"%string, 7%nat)) (Some 2) true 0 []; Row nat 2 None None None false 0 [0; 2]].
Lemma show_digit_ok x : digit x -> word (show_digit x) /\ toy (show_digit x) = Some (Some x).
Proof.
  unfold show_digit. intros H. destruct (Req_EM_T x 0) as [->|N].
  - split; [split; [discriminate|apply each_no_white; repeat split; unfold white; cbn; lia]|]. reflexivity.
  - destruct H as [H|H]; [congruence|]. subst x. split; [split; [discriminate|apply each_no_white; repeat split; unfold white; cbn; lia]|].
    replace 2 with (INR 2) by (cbn; lra). reflexivity.
Qed.
(** integers in unary: 0 is a, others a mark and digits *)
Fixpoint marks (n : nat) : string := match n with O => "" | S n => String "i" (marks n) end.
Definition showz_ex (n : Z) : string := match n with Z0 => "o" | Zpos p => String "p" (marks (Pos.to_nat p)) | Zneg p => String "n" (marks (Pos.to_nat p)) end.
Definition pyint_ex (s : string) : option Z :=
  match s with
  | String "o" _ => Some 0%Z
  | String "p" t => Some (Z.of_nat (String.length t))
  | String "n" t => Some (- Z.of_nat (String.length t))%Z
  | _ => None
  end.
Lemma marks_length n : String.length (marks n) = n.
Proof. induction n; cbn; auto. Qed.
Lemma showz_ok n : word (showz_ex n) /\ pyint_ex (showz_ex n) = Some n.
Proof.
  assert (W : forall k, no_white (marks k)). { induction k; cbn; [auto|]. split; [unfold white; cbn; lia|auto]. }
  destruct n as [|p|p]; cbn [showz_ex pyint_ex].
  - split; [|reflexivity]. split; [discriminate|]. cbn. split; [unfold white; cbn; lia|auto].
  - split; [split; [discriminate|]; cbn; split; [unfold white; cbn; lia|apply W]|]. rewrite marks_length. f_equal. lia.
  - split; [split; [discriminate|]; cbn; split; [unfold white; cbn; lia|apply W]|]. rewrite marks_length. f_equal. lia.
Qed.
Example C92_written_example : exists z, zmx_text nat 0%nat glasses toy pyint_ex [] (written (file nat show_digit showz_ex "IN" "plate" [2] plate)) = Some z /\
  zs_scale nat z = 254 / 10000 /\ zs_name nat z = "plate"%string /\ zs_waves nat z = [2 / 1000000] /\
  zs_surfaces nat z = [fresh nat 0%nat (Some 0); Z_ nat 0 (Some 0) 7%nat (Some 2) true 0 None; Z_ nat 2 (Some 2) 0%nat None false 0 (Some [0; 2])].
Proof.
  assert (W : word "BK7") by (split; [discriminate|apply each_no_white; repeat split; unfold white; cbn; lia]).
  assert (R : Forall (row_ok nat glasses digit) plate).
  { unfold plate, digit. repeat (constructor; try (cbn; auto; fail)); try exact W; cbn; auto; repeat constructor; auto. }
  assert (D : Forall digit [2]) by (unfold digit; auto).
  assert (U : In ("IN"%string, 254 / 10000) units) by (cbn; auto).
  assert (N : each (fun a => ~ line_end a) "plate") by (repeat split; unfold line_end; cbn; lia).
  assert (B : bare "plate").
  { split; [intros t; discriminate|]. intros t E. apply (f_equal (fun s => rev_string s "")) in E. rewrite rev_app in E. cbn in E. discriminate E. }
  pose proof (C92_written_layout nat glasses toy pyint_ex digit show_digit showz_ex show_digit_ok showz_ok eq_refl _ _ "plate" _ _ U N D R) as L.
  destruct (C92_written nat 0%nat glasses toy pyint_ex [] digit show_digit showz_ex show_digit_ok showz_ok eq_refl _ _ _ _ _ _ U B D R L) as (z & Z & S1 & S2 & S3 & S4).
  exists z. split; [exact Z|]. split; [exact S1|]. split; [exact S2|]. split; [exact S3|exact S4].
Qed.
(** finding: a tab between the command and its argument makes the line an unknown command, which is skipped *)
Theorem C92_tab_refuted : exists a b z z', layout ["SURF 0"; a]%string ("SURF 0" ++ lf ++ a)%string /\ layout ["SURF 0"; b]%string ("SURF 0" ++ lf ++ b)%string /\
  words a = words b /\ words a = ["CURV"; "2"]%string /\ read ("SURF 0" ++ lf ++ a)%string = Some z /\ read ("SURF 0" ++ lf ++ b)%string = Some z' /\
  map (z_curv nat) (zs_surfaces nat z) = [0; INR 2] /\ map (z_curv nat) (zs_surfaces nat z') = [0; 0].
Proof.
  exists "CURV 2"%string, ("CURV" ++ tab ++ "2")%string. do 2 eexists. split; [apply layout_iff; reflexivity|]. split; [apply layout_iff; reflexivity|].
  repeat split.
Qed.
(** finding: the type of a surface is not read, so the decentres of a coordinate break become aspheric coefficients *)
Theorem C92_type_refuted l t : l = ("TYPE " ++ t)%string -> forall m, means nat glasses toy toyz l m -> m = Cmd OTHER.
Proof.
  intros -> m K. apply (C92_one_meaning nat glasses toy toyz _ _ _ K). apply (M_other _ _ _ _ _ "TYPE" t).
  - split; [repeat split; discriminate|left; reflexivity].
  - cbn. intuition discriminate.
Qed.
Example C92_type_example : surfaces_of ("SURF 1" ++ lf ++ "TYPE COORDBRK" ++ lf ++ "PARM 1 2" ++ lf ++ "PARM 3 5")%string
  = Some [fresh nat 0%nat (Some 0); Z_ nat 0 (Some 0) 0%nat None false 0 (Some [INR 2; 0; INR 5])].
Proof. reflexivity. Qed.
Print Assumptions C92_reads.
Print Assumptions C92_written.
