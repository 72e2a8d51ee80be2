(** Properties of the import of lens tables and ZMX files (C45). *)
From Coq Require Import Reals String List Arith ZArith Bool Lia Lra.
From Verif Require Import Base ImportModel.
Import ListNotations.
Open Scope R_scope.
Open Scope list_scope.

(** * specification of a table *)
(** the first column named [f] holds [v] in this row *)
Definition cell (columns : list string) (line : list value) (f : string) (v : value) : Prop :=
  exists k, nth_error columns k = Some f /\ (forall j, (j < k)%nat -> nth_error columns j <> Some f) /\ nth_error line k = Some v.
(** what a row says: number of a column or a default when there is no such column *)
Definition number (columns : list string) (line : list value) (f : string) (x : R) : Prop :=
  cell columns line f (Num x) \/ (~ In f columns /\ x = 0).
Definition says_curvature columns line (v : value) : Prop :=
  cell columns line "curvature" v \/
  (~ In "curvature"%string columns /\ exists r, number columns line "roc" r /\ v = Num (if Req_EM_T r 0 then 0 else 1 / r)).
Definition says_radius columns line (v : value) : Prop :=
  (cell columns line "radius" v /\ v <> Num 0 /\ v <> Txt "") \/
  ((cell columns line "radius" (Num 0) \/ cell columns line "radius" (Txt "") \/ ~ In "radius"%string columns) /\ exists d, number columns line "diameter" d /\ v = Num (d / 2)).
Definition is_stop columns line : Prop := cell columns line "type" (Txt "A").

Lemma column_spec columns f : match column columns f with
  | Some k => nth_error columns k = Some f /\ forall j, (j < k)%nat -> nth_error columns j <> Some f
  | None => ~ In f columns end.
Proof.
  induction columns as [|c cs IH]; cbn [column]; [intros []|]. destruct (String.eqb_spec c f) as [->|N].
  - split; [reflexivity|lia].
  - destruct (column cs f) as [k|]; cbn [option_map].
    + destruct IH as [A B]. split; [exact A|]. intros [|j] J; cbn; [congruence|apply B; lia].
    + intros [H|H]; contradiction.
Qed.
Lemma try_get_spec columns line f d v : try_get line columns f d = Some v -> (~ In f columns /\ v = d) \/ exists x, v = Some x /\ cell columns line f x.
Proof.
  unfold try_get. pose proof (column_spec columns f) as C. destruct (column columns f) as [k|]; intros H.
  - destruct (nth_error line k) as [x|] eqn:N; [|discriminate H]. injection H as <-. right. exists x. split; [auto|]. exists k. destruct C. auto.
  - injection H as <-. auto.
Qed.
Lemma cell_fun columns line f v w : cell columns line f v -> cell columns line f w -> v = w.
Proof.
  intros (k & A & B & C) (j & D & E & F). assert (k = j). { destruct (Nat.lt_trichotomy k j) as [L|[L|L]]; [exfalso; eapply E; eauto|auto|exfalso; eapply B; eauto]. } subst. congruence.
Qed.
Lemma cell_in columns line f v : cell columns line f v -> In f columns.
Proof. intros (k & A & _). eapply nth_error_In; eauto. Qed.

Section Mat.
Variable M : Type.
Variable make : option value -> option M.
Definition row_spec (mmap : option value -> option value) columns line (e : row_el M) : Prop :=
  says_curvature columns line (re_curvature M e) /\ number columns line "distance" (re_distance M e) /\ says_radius columns line (re_radius M e) /\
  exists v, ((exists x, v = Some x /\ cell columns line "material" x) \/ (~ In "material"%string columns /\ v = None)) /\ make (mmap v) = Some (re_material M e).

Lemma row_element_spec mmap columns line t e : row_element M make columns mmap line = Some (t, e) -> row_spec mmap columns line e /\ (is_txt t "A" = true <-> is_stop columns line).
Proof.
  unfold row_element. intros H.
  destruct (try_get line columns "type" (Some (Txt "S"))) as [typ|] eqn:T; [|discriminate H]. cbn [obind] in H.
  destruct (try_get line columns "curvature" None) as [curv|] eqn:C; [|discriminate H]. cbn [obind] in H.
  destruct (match curv with Some v => Some v | None => _ end) as [cv|] eqn:C2; [|discriminate H]. cbn [obind] in H.
  destruct (try_get line columns "distance" (Some (Num 0))) as [dist|] eqn:D; [|discriminate H]. cbn [obind] in H.
  destruct (match dist with Some (Num x) => Some x | _ => None end) as [d|] eqn:D2; [|discriminate H]. cbn [obind] in H.
  destruct (try_get line columns "radius" (Some (Num 0))) as [rad|] eqn:RR; [|discriminate H]. cbn [obind] in H.
  destruct (match rad with Some v => _ | None => None end) as [r|] eqn:R2; [|discriminate H]. cbn [obind] in H.
  destruct (try_get line columns "material" None) as [mat|] eqn:MM; [|discriminate H]. cbn [obind] in H.
  destruct (make (mmap mat)) as [m|] eqn:MK; [|discriminate H]. cbn [obind] in H. destruct typ as [ty|]; [|discriminate H]. cbn [obind] in H. injection H as <- <-.
  assert (NUM : forall f v x, try_get line columns f (Some (Num 0)) = Some v -> v = Some (Num x) -> number columns line f x).
  { intros f v x G E. apply try_get_spec in G. destruct G as [[N G]|(y & G & Cy)]; [right; split; [auto|]; rewrite E in G; injection G; auto|left; rewrite E in G; injection G as <-; auto]. }
  split; [split; [|split; [|split]]|].
  - cbn. apply try_get_spec in C. destruct C as [[N ->]|(x & -> & Cx)].
    + right. split; [auto|]. destruct (try_get line columns "roc" (Some (Num 0))) as [roc|] eqn:RO; [|discriminate C2]. cbn [obind] in C2. unfold from_roc in C2. destruct roc as [[x|]|]; try discriminate C2.
      exists x. split; [apply (NUM _ _ _ RO eq_refl)|]. destruct (Req_EM_T x 0); [injection C2; auto|]. rewrite fdiv_some in C2 by auto. cbn [obind] in C2. injection C2; auto.
    + left. injection C2 as <-. auto.
  - cbn. destruct dist as [[x|]|]; try discriminate D2. injection D2 as <-. apply (NUM _ _ _ D eq_refl).
  - cbn. unfold says_radius. destruct rad as [v|]; [|discriminate R2]. apply try_get_spec in RR. destruct (truthy v) eqn:TV.
    + injection R2 as <-. destruct RR as [[N G]|(y & G & Cy)].
      * injection G as ->. unfold truthy in TV. destruct (Req_EM_T 0 0); [discriminate TV|lra].
      * injection G as <-. left. split; [auto|]. split; intros ->; [unfold truthy in TV; destruct (Req_EM_T 0 0); [discriminate TV|lra]|discriminate TV].
    + destruct (try_get line columns "diameter" (Some (Num 0))) as [dia|] eqn:DI; [|discriminate R2]. cbn [obind] in R2. unfold half in R2. destruct dia as [[x|]|]; try discriminate R2. injection R2 as <-. right. split.
      * destruct RR as [[N G]|(y & G & Cy)]; [auto|]. injection G as <-. destruct v as [q|q]; unfold truthy in TV.
        -- destruct (Req_EM_T q 0); [subst; auto|discriminate TV].
        -- destruct (String.eqb_spec q ""); [subst; auto|discriminate TV].
      * exists x. split; [apply (NUM _ _ _ DI eq_refl)|auto].
  - cbn. exists mat. split; [|auto]. apply try_get_spec in MM. destruct MM as [[N ->]|(x & -> & Cx)]; [right; auto|left; eauto].
  - apply try_get_spec in T. destruct T as [[N G]|(y & G & Cy)].
    + injection G as ->. split; [intros H; discriminate H|]. intros S. apply cell_in in S. contradiction.
    + injection G as <-. unfold is_stop. split.
      * intros H. destruct ty as [x|s]; [discriminate H|]. cbn in H. apply String.eqb_eq in H. subst. auto.
      * intros S. rewrite (cell_fun _ _ _ _ _ Cy S). reflexivity.
Qed.
Lemma rows_spec mmap columns rows : forall els stop els' stop', rows_from M make columns mmap els stop rows = Some (els', stop') ->
  exists new, els' = els ++ new /\ length new = length rows /\
    (forall i line, nth_error rows i = Some line -> exists e, nth_error new i = Some e /\ row_spec mmap columns line e) /\
    ((exists i line, nth_error rows i = Some line /\ is_stop columns line /\ (forall j l, (i < j)%nat -> nth_error rows j = Some l -> ~ is_stop columns l) /\ stop' = Z.of_nat (length els + i)) \/
     ((forall j l, nth_error rows j = Some l -> ~ is_stop columns l) /\ stop' = stop)).
Proof.
  induction rows as [|line rows IH]; intros els stop els' stop' H; cbn [rows_from] in H.
  - injection H as <- <-. exists []. split; [rewrite app_nil_r; auto|]. split; [auto|]. split; [intros [|i] l X; discriminate X|]. right. split; [intros [|j] l X; discriminate X|auto].
  - destruct (row_element M make columns mmap line) as [[t e]|] eqn:E; [|discriminate H]. cbn [obind fst snd] in H. destruct (row_element_spec _ _ _ _ _ E) as [RS ST].
    destruct (IH _ _ _ _ H) as (new & -> & L & R & S). exists (e :: new). rewrite <- app_assoc. split; [auto|]. split; [cbn; auto|]. split.
    + intros [|i] l X; cbn in X; [injection X as <-; exists e; auto|apply R; auto].
    + rewrite app_length in S. cbn [length] in S. destruct S as [(i & l & N & A & B & C)|[B C]].
      * left. exists (S i), l. split; [auto|]. split; [auto|]. split; [intros [|j] l' J X; [lia|apply (B j); [lia|auto]]|]. rewrite C. f_equal. lia.
      * destruct (is_txt t "A") eqn:TA.
        -- left. exists 0%nat, line. split; [auto|]. split; [apply ST; auto|]. split; [intros [|j] l J X; [lia|apply (B j); auto]|]. rewrite C. f_equal. lia.
        -- right. split; [|auto]. intros [|j] l X; cbn in X; [injection X as <-; intros Y; apply ST in Y; congruence|apply (B j); auto].
Qed.

(** * C45 *)
(** Every row of the table becomes one element that says what the row says, in order; the stop is the last
    row of type A, or what it was if there is none *)
Theorem C45_table mmap columns stop data els stop' : system_from_array M make columns [] mmap stop data = Some (els, stop') ->
  length els = length data /\
  (forall i line, nth_error data i = Some line -> exists e, nth_error els i = Some e /\ row_spec mmap columns line e) /\
  ((exists i line, nth_error data i = Some line /\ is_stop columns line /\ (forall j l, (i < j)%nat -> nth_error data j = Some l -> ~ is_stop columns l) /\ stop' = Z.of_nat i) \/
   ((forall j l, nth_error data j = Some l -> ~ is_stop columns l) /\ stop' = stop)).
Proof.
  unfold system_from_array. destruct data as [|r data]; [intros H; discriminate H|]. cbn [apply_shifts obind]. intros H. apply rows_spec in H. destruct H as (new & -> & L & R & S). cbn [app]. auto.
Qed.
(** Text: a line becomes an element exactly if no other line has more words *)
Theorem C45_text mmap columns stop lines els stop' : system_from_text M make columns [] mmap stop lines = Some (els, stop') ->
  exists kept, kept = filter (fun l => forallb (fun l' => Nat.leb (length l') (length l)) lines) lines /\ length els = length kept /\
  (forall i line, nth_error kept i = Some line -> exists e, nth_error els i = Some e /\ row_spec mmap columns line e).
Proof.
  intros H. unfold system_from_text in H. destruct lines as [|l0 lines0] eqn:EL; [discriminate H|]. rewrite <- EL in *. clear EL. exists (filter (fun l => forallb (fun l' => Nat.leb (length l') (length l)) lines) lines). split; [auto|].
  assert (F : filter (fun l => Nat.eqb (length l) (longest lines)) lines = filter (fun l => forallb (fun l' => Nat.leb (length l') (length l)) lines) lines).
  { assert (UB : forall ls (l : list value), In l ls -> (length l <= longest ls)%nat). { clear. unfold longest. induction ls as [|x ls IH]; intros l; [intros []|]. intros [<-|I]; cbn; [lia|specialize (IH l I); lia]. }
    assert (AT : forall ls, ls = [] \/ exists l : list value, In l ls /\ length l = longest ls).
    { clear. unfold longest. induction ls as [|x ls IH]; [auto|]. right. cbn. destruct IH as [->|(l & I & E)].
      - exists x. split; [left; auto|]. cbn. lia.
      - destruct (Nat.le_ge_cases (fold_right Nat.max 0%nat (map (length (A:=value)) ls)) (length x)); [exists x; split; [left; auto|lia]|exists l; split; [right; auto|lia]]. }
    apply filter_ext_in. intros l I. apply Bool.eq_iff_eq_true. rewrite Nat.eqb_eq, forallb_forall. split.
    - intros E l' I'. apply Nat.leb_le. rewrite E. auto.
    - intros A. specialize (UB lines l I). destruct (AT lines) as [->|(l' & I' & E)]; [destruct I|]. specialize (A l' I'). apply Nat.leb_le in A. lia. }
  rewrite F in H. apply C45_table in H. destruct H as (L & R & _). auto.
Qed.
End Mat.

(** Shifting a column moves its entries down by that many rows, cyclically, and leaves the others alone *)
Lemma nth_skipn {A} k : forall (l : list A) i, nth_error (skipn k l) i = nth_error l (i + k).
Proof. induction k as [|k IH]; intros l i; [rewrite Nat.add_0_r; auto|]. destruct l as [|x l]; [destruct i; auto|]. rewrite Nat.add_succ_r. cbn. apply IH. Qed.
Lemma nth_firstn {A} k : forall (l : list A) j, (j < k)%nat -> nth_error (firstn k l) j = nth_error l j.
Proof. induction k as [|k IH]; intros l j J; [lia|]. destruct l as [|x l]; [destruct j; auto|]. destruct j; cbn; [auto|]. apply IH. lia. Qed.
Lemma roll_nth {A} (l : list A) v i : (i < length l)%nat -> nth_error (roll l v) i = nth_error l (Z.to_nat ((Z.of_nat i - v) mod Z.of_nat (length l))).
Proof.
  intros I. unfold roll. set (n := length l) in *. assert (NP : (0 < Z.of_nat n)%Z) by lia. set (k := Z.to_nat ((- v) mod Z.of_nat n)).
  pose proof (Z.mod_pos_bound (- v) (Z.of_nat n) NP) as B. assert (K : (k < n)%nat) by (unfold k; lia).
  assert (E : ((Z.of_nat i - v) mod Z.of_nat n = (Z.of_nat i + Z.of_nat k) mod Z.of_nat n)%Z).
  { unfold k. rewrite Z2Nat.id by lia. rewrite Z.add_mod_idemp_r by lia. f_equal; lia. }
  rewrite E. assert (LS : length (skipn k l) = (n - k)%nat) by (rewrite skipn_length; auto).
  destruct (Nat.lt_ge_cases i (n - k)) as [L|L].
  - rewrite nth_error_app1 by lia. rewrite Z.mod_small by lia. rewrite <- Nat2Z.inj_add, Nat2Z.id. apply nth_skipn.
  - rewrite nth_error_app2 by lia. rewrite LS. replace (Z.of_nat i + Z.of_nat k)%Z with (Z.of_nat (i - (n - k)) + 1 * Z.of_nat n)%Z by lia. rewrite Z.mod_add by lia. rewrite Z.mod_small by lia. rewrite Nat2Z.id.
    apply nth_firstn. lia.
Qed.
Lemma set_nth_spec {A} (l : list A) i x : forall j, nth_error (set_nth l i x) j = if (Nat.eqb j i && (j <? length l)%nat)%bool then Some x else nth_error l j.
Proof.
  revert i. induction l as [|y l IH]; intros i j; cbn [set_nth]; [rewrite Bool.andb_false_r; auto|]. destruct i as [|i], j as [|j]; cbn [nth_error Nat.eqb andb]; auto. rewrite IH. reflexivity.
Qed.
Theorem C45_shift columns f v data data' : apply_shifts columns [(f, v)] data = Some data' ->
  length data' = length data /\ exists c, nth_error columns c = Some f /\
  forall i row row', nth_error data i = Some row -> nth_error data' i = Some row' ->
    (forall j, j <> c -> nth_error row' j = nth_error row j) /\
    exists src, nth_error data (Z.to_nat ((Z.of_nat i - v) mod Z.of_nat (length data))) = Some src /\ nth_error row' c = nth_error src c.
Proof.
  cbn [apply_shifts]. pose proof (column_spec columns f) as C. destruct (column columns f) as [c|]; [|intros H; discriminate H]. cbn [obind]. destruct (get_column data c) as [col|] eqn:G; [|intros H; discriminate H]. cbn [obind]. intros H. injection H as <-.
  assert (GC : length col = length data /\ forall i row, nth_error data i = Some row -> exists x, nth_error row c = Some x /\ nth_error col i = Some x).
  { clear - G. revert col G. induction data as [|r data IH]; intros col G; cbn [get_column] in G.
    - injection G as <-. split; [auto|]. intros [|i] ? H; discriminate H.
    - destruct (nth_error r c) as [x|] eqn:X; [|discriminate G]. cbn [obind] in G. destruct (get_column data c) as [cc|]; [|discriminate G]. cbn [obind] in G. injection G as <-. destruct (IH cc eq_refl) as [L N]. split; [cbn; auto|].
      intros [|i] row H; cbn in H; [injection H as <-; exists x; auto|apply N; auto]. }
  destruct GC as [LC NC].
  assert (SC : forall (rows : list (list value)) cl, length cl = length rows -> length (set_column rows c cl) = length rows /\
    forall i row row', nth_error rows i = Some row -> nth_error (set_column rows c cl) i = Some row' -> exists x, nth_error cl i = Some x /\ row' = set_nth row c x).
  { clear. induction rows as [|r rows IH]; intros [|x cl] L; try discriminate L; cbn [set_column].
    - split; [auto|]. intros [|i] ? ? H; discriminate H.
    - injection L as L. destruct (IH cl L) as [L' N]. split; [cbn; auto|]. intros [|i] row row' H H'; cbn in H, H'; [injection H as <-; injection H' as <-; exists x; auto|]. apply N; auto. }
  assert (LR : length (roll col v) = length data) by (unfold roll; rewrite app_length, skipn_length, firstn_length; lia).
  destruct (SC data (roll col v) LR) as [L N]. split; [auto|]. exists c. split; [tauto|]. intros i row row' H H'. destruct (N i row row' H H') as (x & X & ->). split.
  - intros j J. rewrite set_nth_spec. destruct (Nat.eqb_spec j c); [contradiction|]. reflexivity.
  - assert (I : (i < length data)%nat) by (apply nth_error_Some; congruence). rewrite roll_nth in X by lia. rewrite LC in X. set (s := Z.to_nat ((Z.of_nat i - v) mod Z.of_nat (length data))) in *.
    assert (SL : (s < length data)%nat) by (unfold s; pose proof (Z.mod_pos_bound (Z.of_nat i - v) (Z.of_nat (length data)) ltac:(lia)); lia).
    destruct (nth_error data s) as [src|] eqn:ES; [|apply nth_error_None in ES; lia]. exists src. split; [auto|]. destruct (NC s src ES) as (y & Y & Y'). rewrite X in Y'. injection Y' as <-. rewrite Y, set_nth_spec, Nat.eqb_refl. cbn [andb].
    destruct (NC i row H) as (z & Z & _). assert (c < length row)%nat by (apply nth_error_Some; congruence). destruct (Nat.ltb_spec c (length row)); [auto|lia].
Qed.
(** finding: one line with an extra word makes all other lines disappear *)
Theorem C45_long_line_refuted : let line := [Txt "S"; Num 5; Num 1; Num 10; Txt "air"] in
  exists els, system_from_text unit (fun _ => Some tt) ["type"; "roc"; "distance"; "diameter"; "material"]%string [] (fun v => v) 1 [line; line; line ++ [Txt "#comment"]; line] = Some (els, 1%Z) /\ length els = 1%nat.
Proof.
  cbv zeta. unfold system_from_text, longest. cbn [map length app fold_right Nat.max filter Nat.eqb]. unfold system_from_array. cbn [apply_shifts obind rows_from]. unfold row_element, try_get. cbn.
  destruct (Req_EM_T 5 0); [lra|]. rewrite fdiv_some by lra. cbn. destruct (Req_EM_T 0 0); [|lra]. cbn. eexists. split; reflexivity.
Qed.

(** * ZMX files *)
(** [x] is the argument of the last command in [l] selected by [f]; or there is none *)
Definition last_is {A} (f : command -> option A) (l : list command) (x : A) : Prop :=
  exists l1 c l2, l = l1 ++ c :: l2 /\ f c = Some x /\ forall c', In c' l2 -> f c' = None.
Definition never {A} (f : command -> option A) (l : list command) : Prop := forall c, In c l -> f c = None.
Definition says {A} (f : command -> option A) (l : list command) (default x : A) : Prop := last_is f l x \/ (never f l /\ x = default).
Definition a_curv c := match c with CURV x => Some x | _ => None end.
Definition a_disz c := match c with DISZ x => Some x | _ => None end.
Definition a_diam c := match c with DIAM x => Some x | _ => None end.
Definition a_coni c := match c with CONI x => Some x | _ => None end.
Definition a_stop c := match c with STOP => Some true | _ => None end.
Definition a_parm (i : nat) c := match c with PARM k a => if (k =? Z.of_nat i + 1)%Z then Some a else None | _ => None end.
Definition coefficient {M} (e : zsurf M) (i : nat) : R := match z_asph M e with Some l => nth i l 0 | None => 0 end.
Definition no_surf (l : list command) : Prop := forall c, In c l -> c <> SURF.
Definition count_surf (l : list command) : nat := length (filter (fun c => match c with SURF => true | _ => false end) l).

Definition pick {A} (f : command -> option A) (x : A) (c : command) : A := match f c with Some y => y | None => x end.
Lemma says_fold {A} (f : command -> option A) d l : says f l d (fold_left (pick f) l d).
Proof.
  assert (G : forall l l0 x, says f l0 d x -> says f (l0 ++ l) d (fold_left (pick f) l x)).
  { clear. induction l as [|c l IH]; intros l0 x H; cbn [fold_left]; [rewrite app_nil_r; auto|]. replace (l0 ++ c :: l) with ((l0 ++ [c]) ++ l) by (rewrite <- app_assoc; auto). apply IH. unfold pick. destruct (f c) as [y|] eqn:E.
    - left. exists l0, c, []. split; [auto|]. split; [auto|intros ? []].
    - destruct H as [(l1 & c1 & l2 & -> & F & N)|[N ->]].
      + left. exists l1, c1, (l2 ++ [c]). split; [rewrite <- app_assoc; auto|]. split; [auto|]. intros c' I. apply in_app_or in I. destruct I as [I|[<-|[]]]; auto.
      + right. split; [|auto]. intros c' I. apply in_app_or in I. destruct I as [I|[<-|[]]]; auto. }
  apply (G l [] d). right. split; [intros ? []|auto].
Qed.

Section Zmx.
Variable M : Type.
Variable air : M.
Variable find : string -> option M.
Definition a_glas c := match c with GLAS n _ => find n | _ => None end.
Notation on := (on_surface M find).

Lemma zmx_done cmds : forall done e np, zmx_from M air find done e np cmds = done ++ zmx_from M air find [] e np cmds.
Proof.
  induction cmds as [|c cmds IH]; intros done e np; [reflexivity|]. destruct c; cbn [zmx_from]; try apply IH. rewrite (IH (done ++ [e])), (IH [e]). cbn [app]. rewrite <- app_assoc. reflexivity.
Qed.
Lemma zmx_block l : no_surf l -> forall done e np rest, zmx_from M air find done e np (l ++ rest) = zmx_from M air find done (fold_left (fun e c => on c e) l e) (fold_left (pick a_disz) l np) rest.
Proof.
  induction l as [|c l IH]; intros NS done e np rest; [reflexivity|]. assert (NL : no_surf l) by (intros x I; apply NS; right; auto). cbn [app fold_left].
  destruct c; cbn [zmx_from]; try (rewrite IH by auto; reflexivity). exfalso. apply (NS SURF); [left; auto|auto].
Qed.
Lemma zmx_next cmds : forall e np l rest, cmds = l ++ SURF :: rest -> exists e', zmx_from M air find [] e np cmds = e' ++ zmx_from M air find [] (fresh M air (fold_left (pick a_disz) l np)) (fold_left (pick a_disz) l np) rest /\ length e' = S (count_surf l).
Proof.
  intros e np l rest ->. revert e np. induction l as [|c l IH]; intros e np.
  - cbn [app zmx_from fold_left]. exists [e]. rewrite zmx_done. auto.
  - cbn [app fold_left]. destruct c; cbn [zmx_from]; try (destruct (IH e np) as (e' & H & L); exists e'; fail).
    + destruct (IH (fresh M air np) np) as (e' & H & L). exists (e :: e'). rewrite zmx_done, H. split; [reflexivity|]. cbn. rewrite L. reflexivity.
    + destruct (IH (on (CURV c) e) np) as (e' & H & L). exists e'. split; [exact H|exact L].
    + destruct (IH e d) as (e' & H & L). exists e'. split; [exact H|exact L].
    + destruct (IH (on (GLAS name numbers) e) np) as (e' & H & L). exists e'. split; [exact H|exact L].
    + destruct (IH (on (DIAM r) e) np) as (e' & H & L). exists e'. split; [exact H|exact L].
    + destruct (IH (on STOP e) np) as (e' & H & L). exists e'. split; [exact H|exact L].
    + destruct (IH (on (CONI k) e) np) as (e' & H & L). exists e'. split; [exact H|exact L].
    + destruct (IH (on (PARM i a) e) np) as (e' & H & L). exists e'. split; [exact H|exact L].
    + destruct (IH (on OTHER e) np) as (e' & H & L). exists e'. split; [exact H|exact L].
Qed.
Lemma zmx_first e np rest : (rest = [] \/ exists r, rest = SURF :: r) -> nth_error (zmx_from M air find [] e np rest) 0 = Some e.
Proof. intros [->|(r & ->)]; [reflexivity|]. cbn [zmx_from]. rewrite zmx_done. reflexivity. Qed.
Lemma set_asph_nth l i a j : nth j (set_asph l i a) 0 = if Nat.eqb j i then a else nth j l 0.
Proof.
  unfold set_asph. assert (LN : (i < length (l ++ repeat 0%R (S i - length l)))%nat) by (rewrite app_length, repeat_length; lia).
  destruct (Nat.eqb_spec j i) as [->|N].
  - apply nth_error_nth. rewrite set_nth_spec, Nat.eqb_refl. cbn [andb]. destruct (Nat.ltb_spec i (length (l ++ repeat 0%R (S i - length l)))); [auto|lia].
  - assert (E : nth_error (set_nth (l ++ repeat 0%R (S i - length l)) i a) j = nth_error (l ++ repeat 0%R (S i - length l)) j) by (rewrite set_nth_spec; destruct (Nat.eqb_spec j i); [contradiction|auto]).
    rewrite <- !nth_default_eq. unfold nth_default. rewrite E. destruct (Nat.lt_ge_cases j (length l)) as [L|L]; [rewrite nth_error_app1 by auto; auto|]. rewrite nth_error_app2 by auto.
    rewrite (proj2 (nth_error_None l j) L). destruct (nth_error (repeat 0%R (S i - length l)) (j - length l)) as [x|] eqn:X; [|auto]. apply nth_error_In, repeat_spec in X. auto.
Qed.
Lemma fold_fields l : forall e, let e' := fold_left (fun e c => on c e) l e in
  z_curv M e' = fold_left (pick a_curv) l (z_curv M e) /\ z_dist M e' = z_dist M e /\ z_mat M e' = fold_left (pick a_glas) l (z_mat M e) /\
  z_rad M e' = fold_left (pick a_diam) l (z_rad M e) /\ z_stop M e' = fold_left (pick a_stop) l (z_stop M e) /\ z_conic M e' = fold_left (pick a_coni) l (z_conic M e) /\
  (forall i, coefficient e' i = fold_left (pick (a_parm i)) l (coefficient e i)).
Proof.
  induction l as [|c l IH]; intros e; cbn [fold_left]; [repeat split; auto|]. destruct (IH (on c e)) as (A & B & C & D & E & F & G). cbv zeta in *. rewrite A, B, C, D, E, F.
  assert (P : forall i, coefficient (on c e) i = pick (a_parm i) (coefficient e i) c).
  { intros i. destruct c; try reflexivity; cbn [on_surface].
    - destruct (find name); reflexivity.
    - unfold pick, a_parm. destruct (Z.ltb_spec (i0 - 1) 0) as [L|L].
      + destruct (Z.eqb_spec i0 (Z.of_nat i + 1)); [lia|auto].
      + unfold coefficient at 1. cbn [z_asph]. rewrite set_asph_nth. destruct (Nat.eqb_spec i (Z.to_nat (i0 - 1))), (Z.eqb_spec i0 (Z.of_nat i + 1)); try lia; auto. unfold coefficient. destruct (z_asph M e); [auto|destruct i; auto]. }
  assert (Q : z_curv M (on c e) = pick a_curv (z_curv M e) c /\ z_dist M (on c e) = z_dist M e /\ z_mat M (on c e) = pick a_glas (z_mat M e) c /\ z_rad M (on c e) = pick a_diam (z_rad M e) c /\ z_stop M (on c e) = pick a_stop (z_stop M e) c /\ z_conic M (on c e) = pick a_coni (z_conic M e) c).
  { destruct c; cbn [on_surface]; try (repeat split; reflexivity).
    - unfold pick, a_glas. destruct (find name); repeat split; reflexivity.
    - destruct (i - 1 <? 0)%Z; repeat split; reflexivity. }
  destruct Q as (-> & -> & -> & -> & -> & ->). repeat split; auto. intros i. rewrite G, P. reflexivity.
Qed.
Definition surface_says (e : zsurf M) (block : list command) : Prop :=
  says a_curv block 0 (z_curv M e) /\ says a_glas block air (z_mat M e) /\ says a_diam block None (z_rad M e) /\ says a_stop block false (z_stop M e) /\
  says a_coni block 0 (z_conic M e) /\ forall i, says (a_parm i) block 0 (coefficient e i).
Lemma block_says l d : surface_says (fold_left (fun e c => on c e) l (fresh M air d)) l.
Proof.
  destruct (fold_fields l (fresh M air d)) as (A & B & C & D & E & F & G). cbv zeta in *. unfold surface_says. rewrite A, C, D, E, F. repeat split; try apply says_fold. intros i. rewrite G. apply says_fold.
Qed.
(** The k-th SURF makes element k (one extra element is in front), which has the curvature, glass, radius,
    conic constant, stop mark and aspheric coefficients (PARM k for r^(2k)) last given in its block, and the
    thickness last given before the block starts *)
Theorem C45_zmx cmds pre block rest : cmds = pre ++ SURF :: block ++ rest -> no_surf block -> (rest = [] \/ exists r, rest = SURF :: r) ->
  exists e, nth_error (fst (zmx_to_system M air find cmds)) (S (count_surf pre)) = Some e /\ surface_says e block /\ says a_disz pre (Some 0) (z_dist M e).
Proof.
  intros -> NS R. unfold zmx_to_system. cbn [fst]. destruct (zmx_next _ (fresh M air (Some 0)) (Some 0) pre (block ++ rest) eq_refl) as (e' & -> & L). rewrite nth_error_app2 by lia. rewrite L, Nat.sub_diag.
  rewrite zmx_block by auto. rewrite zmx_first by auto. eexists. split; [reflexivity|]. split; [apply block_says|]. destruct (fold_fields block (fresh M air (fold_left (pick a_disz) pre (Some 0)))) as (_ & -> & _). cbn [fresh z_dist]. apply says_fold.
Qed.
Theorem C45_zmx_count cmds : length (fst (zmx_to_system M air find cmds)) = S (count_surf cmds).
Proof.
  unfold zmx_to_system. cbn [fst]. assert (G : forall e np, length (zmx_from M air find [] e np cmds) = S (count_surf cmds)); [|apply G].
  induction cmds as [|c cmds IH]; intros e np; [reflexivity|]. destruct c; cbn [zmx_from]; try apply IH. rewrite zmx_done, app_length, IH. reflexivity.
Qed.
(** finding: the stop surface of the file is only marked, the stop of the system stays 1 *)
Theorem C45_zmx_stop_refuted : exists cmds e, nth_error (fst (zmx_to_system M air find cmds)) 3 = Some e /\ z_stop M e = true /\
  (forall j e', j <> 3%nat -> nth_error (fst (zmx_to_system M air find cmds)) j = Some e' -> z_stop M e' = false) /\ snd (zmx_to_system M air find cmds) = 1%Z.
Proof.
  exists [SURF; DISZ (Some 1); SURF; DISZ (Some 1); SURF; STOP; DISZ (Some 1); SURF]. eexists. split; [reflexivity|]. split; [reflexivity|]. split; [|reflexivity].
  intros [|[|[|[|[|j]]]]] e' J H; cbn in H; try (injection H as <-; reflexivity); try lia. destruct j; discriminate H.
Qed.
(** finding: a glass that is not in the library becomes air although the file gives its index *)
Theorem C45_zmx_glass_refuted n nd vd : find n = None -> exists e, nth_error (fst (zmx_to_system M air find [SURF; GLAS n (Some (nd, vd))])) 1 = Some e /\ z_mat M e = air.
Proof. intros H. unfold zmx_to_system. cbn. rewrite H. eexists. split; reflexivity. Qed.
(** finding: an object at infinity puts the first lens surface at an infinite distance *)
Theorem C45_zmx_infinity_refuted : exists e, nth_error (fst (zmx_to_system M air find [SURF; DISZ None; SURF; CURV 1])) 2 = Some e /\ z_dist M e = None.
Proof. eexists. split; reflexivity. Qed.
End Zmx.

(** a singlet as a table and as commands *)
Example C45_table_example : exists els, system_from_array unit (fun _ => Some tt) ["type"; "roc"; "distance"; "diameter"]%string [] (fun v => v) 1
  [[Txt "O"; Num 0; Num 0; Num 10]; [Txt "S"; Num 50; Num 5; Num 10]; [Txt "A"; Num (-50); Num 3; Num 10]] = Some (els, 2%Z).
Proof.
  unfold system_from_array. cbn [apply_shifts obind rows_from]. unfold row_element, try_get. cbn.
  repeat (match goal with |- context [Req_EM_T ?a ?b] => destruct (Req_EM_T a b); [try lra|try lra] end; cbn); rewrite !fdiv_some by lra; cbn; eexists; reflexivity.
Qed.
Example C45_zmx_example : exists e, nth_error (fst (zmx_to_system nat 0%nat (fun n => if String.eqb n "BK7" then Some 1%nat else None)
    [SURF; DISZ (Some 10); SURF; CURV 2; PARM 2 7; GLAS "BK7" None; DISZ (Some 3); SURF])) 2 = Some e /\
  z_curv nat e = 2 /\ z_mat nat e = 1%nat /\ z_dist nat e = Some 10 /\ coefficient e 1 = 7 /\ coefficient e 0 = 0.
Proof. eexists. split; [reflexivity|]. repeat split. Qed.
Example C45_shift_example : apply_shifts ["type"; "distance"]%string [("distance"%string, 1%Z)] [[Txt "O"; Num 1]; [Txt "S"; Num 2]; [Txt "S"; Num 3]]
  = Some [[Txt "O"; Num 3]; [Txt "S"; Num 1]; [Txt "S"; Num 2]].
Proof. reflexivity. Qed.
Print Assumptions C45_table.
Print Assumptions C45_text.
Print Assumptions C45_shift.
Print Assumptions C45_long_line_refuted.
Print Assumptions C45_zmx.
Print Assumptions C45_zmx_count.
Print Assumptions C45_zmx_stop_refuted.
Print Assumptions C45_zmx_glass_refuted.
Print Assumptions C45_zmx_infinity_refuted.
