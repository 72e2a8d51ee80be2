(** C61 continued: the remaining fields of a catalogue record *)
From Coq Require Import String Ascii ZArith Reals Bool Arith List Lra Lia.
From Verif Require Import Base SampleModel MaterialModel CatalogModel PropsMaterial PropsDispersion PropsCatalog.
Import ListNotations.
Open Scope R_scope.
Open Scope list_scope.

Section More.
Variable sfloat : string -> option R.
Variable sint : string -> option Z.
Ltac cmds H := unfold agf_field in H; rewrite !take2_prefix in H by reflexivity.
Ltac branch c l F P := repeat match type of F with (if prefix ?d l then _ else _) = _ =>
  destruct (prefix d l) eqn:E; [pose proof (prefix_two d c l eq_refl eq_refl E P) as X; discriminate X|clear E] end; cbv iota in F.

(** * formula number *)
(** [int(x)] of a number: k is x rounded towards zero *)
Definition towards_zero (x : R) (k : Z) : Prop := (0 <= x -> IZR k <= x < IZR k + 1) /\ (x < 0 -> IZR k - 1 < x <= IZR k).
Lemma Int_part_unique x k : IZR k <= x < IZR k + 1 -> Int_part x = k.
Proof.
  intros H. destruct (base_Int_part x) as [A B]. assert (L1 : IZR (Int_part x) < IZR (k + 1)) by (rewrite plus_IZR; lra).
  assert (L2 : IZR k < IZR (Int_part x + 1)) by (rewrite plus_IZR; lra). apply lt_IZR in L1, L2. lia.
Qed.
Lemma trunc_spec x k : towards_zero x k -> trunc x = k.
Proof.
  intros [P N]. unfold trunc. destruct (Rle_dec 0 x) as [H|H].
  - apply Int_part_unique. auto.
  - rewrite (Int_part_unique (- x) (- k)); [lia|]. rewrite opp_IZR. specialize (N ltac:(lra)). lra.
Qed.
(** a formula number counts from one; fractions are cut off, numbers of zero and below count from the end of the list *)
Theorem C61_agf_number ls g l name num more x k : agf_to_material sfloat ls = Some g -> last_line "NM" ls l ->
  words (drop 3 l) = name :: num :: more -> sfloat num = Some x -> towards_zero x k ->
  ((1 <= k)%Z -> nth_error agf_types (Z.to_nat (k - 1)) = Some (g_typ g)) /\
  ((k <= 0)%Z -> nth_error (rev agf_types) (Z.to_nat (- k)) = Some (g_typ g)).
Proof.
  intros H L W X T. revert W.
  apply (last_sets sfloat g_typ "NM" (fun l t => words (drop 3 l) = name :: num :: more ->
    ((1 <= k)%Z -> nth_error agf_types (Z.to_nat (k - 1)) = Some t) /\ ((k <= 0)%Z -> nth_error (rev agf_types) (Z.to_nat (- k)) = Some t))) with (l := l) (ls := ls) (g := glass0); auto; [discriminate| |].
  - intros l' g' h F P. apply (field_keep_typ sfloat l' g' h F P).
  - clear H L l ls g. intros l g h F P W. cmds F. rewrite P, W in F. destruct more as [|code more]; [discriminate F|]. rewrite X in F. cbn [obind] in F. rewrite (trunc_spec x k T) in F.
    destruct (py_item agf_types (k - 1)) as [typ|] eqn:Y; [|discriminate F]. injection F as <-. cbn [g_typ]. unfold py_item in Y. destruct (Z.ltb_spec (k - 1) (- Z.of_nat (length agf_types))) as [|LO]; [discriminate Y|].
    destruct (Z.ltb_spec (k - 1) 0) as [NEG|POS]; (split; intros KK; [try lia|try lia]).
    + rewrite <- Y. change (length agf_types) with 13%nat in *. assert (R : forall j, (j < 13)%nat -> nth_error (rev agf_types) j = nth_error agf_types (12 - j)).
      { intros j J. do 13 (destruct j as [|j]; [reflexivity|]). lia. }
      rewrite R by lia. f_equal. lia.
    + exact Y.
Qed.

(** * thermal data *)
(** three D, two E, then optionally the numbers used as reference temperature and resonance wavelength; the
    defaults are 20 and the d line; more numbers: the record is rejected *)
Theorem C61_agf_thermal_fields ls g l d0 d1 d2 e0 e1 more : agf_to_material sfloat ls = Some g -> last_line "TD" ls l ->
  map sfloat (words (drop 3 l)) = d0 :: d1 :: d2 :: e0 :: e1 :: more ->
  exists t w, g_thermal g = Some (RawThermal [d0; d1; d2] [e0; e1] t w) /\ (length more <= 2)%nat /\
    t = match more with t :: _ => t | [] => Some 20 end /\ w = match more with [_; w] => w | _ => Some lambda_d end.
Proof.
  intros H L. apply (last_sets sfloat g_thermal "TD" (fun l r => map sfloat (words (drop 3 l)) = d0 :: d1 :: d2 :: e0 :: e1 :: more ->
    exists t w, r = Some (RawThermal [d0; d1; d2] [e0; e1] t w) /\ (length more <= 2)%nat /\
    t = match more with t :: _ => t | [] => Some 20 end /\ w = match more with [_; w] => w | _ => Some lambda_d end)) with (l := l) (ls := ls) (g := glass0); auto; [discriminate| |].
  - apply field_keep_thermal.
  - clear. intros l g h F P D. cmds F. rewrite P in F. branch "TD"%string l F P. rewrite D in F. unfold make_thermal in F. cbn [skipn firstn] in F.
    destruct more as [|t [|w [|x more]]]; cbn [obind] in F; try discriminate F; injection F as <-; cbn [g_thermal length]; do 2 eexists; (split; [reflexivity|]); (split; [lia|]); auto.
Qed.

(** * transmission *)
(** the entries of the IT lines, in order: (wavelength, what follows the value) and value *)
Definition it_entry (l : string) : option ((option R * list (option R)) * option R) :=
  match map sfloat (words (drop 3 l)) with a :: b :: r => Some ((a, r), b) | _ => None end.
(** [v] is the value of the last entry of key [k] *)
Definition last_value {K V} (es : list (K * V)) (k : K) (v : V) : Prop :=
  exists a b, es = a ++ (k, v) :: b /\ Forall (fun e => fst e <> k) b.
Lemma oeqb_eq a b : oeqb a b = true <-> a = b.
Proof. destruct a as [x|], b as [y|]; cbn; try (split; congruence). destruct (Req_EM_T x y); split; congruence. Qed.
Lemma leqb_eq a : forall b, leqb a b = true <-> a = b.
Proof.
  induction a as [|x a IH]; intros [|y b]; cbn [leqb]; try (split; congruence). rewrite andb_true_iff, oeqb_eq, IH. split; [intros [-> ->]; auto|intros E; injection E; auto].
Qed.
Lemma keqb_eq a b : keqb a b = true <-> a = b.
Proof. destruct a, b. unfold keqb. cbn [fst snd]. rewrite andb_true_iff, oeqb_eq, leqb_eq. split; [intros [-> ->]; auto|intros E; injection E; auto]. Qed.
Lemma put_keys k v l x : In x (map fst (put_trans k v l)) <-> x = k \/ In x (map fst l).
Proof.
  induction l as [|[j u] l IH]; cbn [put_trans map fst In]; [intuition congruence|]. destruct (keqb j k) eqn:E; cbn [map fst In].
  - apply keqb_eq in E. subst. intuition congruence.
  - rewrite IH. intuition congruence.
Qed.
Lemma put_nodup k v l : NoDup (map fst l) -> NoDup (map fst (put_trans k v l)).
Proof.
  induction l as [|[j u] l IH]; cbn [put_trans map fst]; intros N; [constructor; [auto|constructor]|]. inversion N as [|? ? NI N']; subst. destruct (keqb j k) eqn:E; cbn [map fst].
  - constructor; auto.
  - constructor; [|auto]. rewrite put_keys. intros [->|I]; [|auto]. assert (keqb k k = true) by (apply keqb_eq; auto). congruence.
Qed.
Lemma put_in k v l x w : NoDup (map fst l) -> (In (x, w) (put_trans k v l) <-> (x = k /\ w = v) \/ (x <> k /\ In (x, w) l)).
Proof.
  induction l as [|[j u] l IH]; cbn [put_trans map fst In]; intros N; [intuition congruence|]. inversion N as [|? ? NI N']; subst. destruct (keqb j k) eqn:E.
  - apply keqb_eq in E. subst. cbn [In]. split.
    + intros [Q|I]; [injection Q as <- <-; auto|]. right. split; [|auto]. intros ->. apply NI. apply (in_map fst) in I. exact I.
    + intros [[-> ->]|[X [Q|I]]]; [auto|injection Q; congruence|auto].
  - assert (JK : j <> k) by (intros ->; assert (keqb k k = true) by (apply keqb_eq; auto); congruence). cbn [In]. rewrite IH by auto. split.
    + intros [Q|[H|[X I]]]; [injection Q as <- <-; auto|auto|auto].
    + intros [H|[X [Q|I]]]; auto.
Qed.
(** the table is a dictionary: one value for each key, that of the last line with the key *)
Theorem C61_agf_transmission ls g : agf_to_material sfloat ls = Some g -> exists es,
  map it_entry (filter (prefix "IT") ls) = map Some es /\ NoDup (map fst (g_trans g)) /\ forall k v, In (k, v) (g_trans g) <-> last_value es k v.
Proof.
  unfold agf_to_material. assert (G : forall ls g0 es0, NoDup (map fst (g_trans g0)) -> (forall k v, In (k, v) (g_trans g0) <-> last_value es0 k v) ->
    forall g, agf_fields sfloat ls g0 = Some g -> exists es, map it_entry (filter (prefix "IT") ls) = map Some es /\ NoDup (map fst (g_trans g)) /\ forall k v, In (k, v) (g_trans g) <-> last_value (es0 ++ es) k v).
  { clear. induction ls as [|l ls IH]; intros g0 es0 N0 I0 g H.
    - injection H as <-. exists []. rewrite app_nil_r. auto.
    - cbn [agf_fields] in H. cbn [filter]. destruct (String.eqb_spec l "") as [->|NE].
      + cbn [obind] in H. change (prefix "IT" "") with false. cbv iota. apply (IH g0); auto.
      + destruct (agf_field sfloat l g0) as [g1|] eqn:F; [|discriminate H]. cbn [obind] in H. destruct (prefix "IT" l) eqn:P.
        * cmds F. rewrite P in F. branch "IT"%string l F P. destruct (map sfloat (words (drop 3 l))) as [|a [|b r]] eqn:M; try discriminate F. injection F as <-.
          edestruct (fun N I => IH _ (es0 ++ [((a, r), b)]) N I g H) as (es & E & N & J); cbn [g_trans].
          -- apply put_nodup. auto.
          -- intros k v. rewrite put_in by auto. split.
             ++ intros [[-> ->]|[X I]]; [exists es0, []; auto|]. apply I0 in I. destruct I as (p & q & -> & Q). exists p, (q ++ [(a, r, b)]). split; [rewrite <- app_assoc; reflexivity|]. apply Forall_app. split; [auto|]. constructor; [cbn [fst]; congruence|auto].
             ++ intros (p & q & E & Q). destruct q as [|z q] using rev_ind.
                ** apply app_inj_tail in E. destruct E as [_ E]. injection E as <- <-. auto.
                ** clear IHq. rewrite app_comm_cons, app_assoc in E. apply app_inj_tail in E. destruct E as [-> <-]. apply Forall_app in Q. destruct Q as [Q Q2]. inversion Q2; subst. cbn [fst] in *. right. split; [congruence|]. apply I0. exists p, q. auto.
          -- exists ((a, r, b) :: es). cbn [map]. rewrite E. unfold it_entry at 1. rewrite M. split; [reflexivity|]. split; [auto|]. intros k v. rewrite J, <- app_assoc. reflexivity.
        * assert (T : g_trans g1 = g_trans g0).
          { cmds F. rewrite P in F. repeat match type of F with
            | (if ?b then _ else _) = _ => destruct b
            | match ?x with _ => _ end = _ => destruct x; cbn in F; try discriminate F
            | obind ?x _ = _ => destruct x; cbn in F; try discriminate F
            end; injection F as <-; reflexivity. }
          apply (IH g1); auto; rewrite T; auto. }
  intros H. edestruct (fun I => G ls glass0 [] (NoDup_nil _) I g H) as (es & E & N & J); [|exists es; auto].
  intros k v. split; [intros []|]. intros ([|] & q & E & _); discriminate E.
Qed.

(** * the remaining columns of the library rows *)
(** comment: the text of the last GC line; thermal expansion and density: first and third number of the last ED line; status: the seventh word of the NM line *)
Definition last_of (c : string) (ls : list string) (P : option string -> Prop) : Prop :=
  (forall l, last_line c ls l -> P (Some l)) /\ (Forall (fun x => prefix c x = false) ls -> P None).
Definition row_more (m : lib_mat) : Prop :=
  last_of "GC " (m_data m) (fun l => m_comment m = option_map (drop 3) l) /\
  last_of "ED " (m_data m) (fun l => match l with
    | Some l => exists a b c r, words (drop 3 l) = a :: b :: c :: r /\ m_tce m = sfloat a /\ m_density m = sfloat c
    | None => m_tce m = None /\ m_density m = None end) /\
  exists l rest, m_data m = l :: rest /\ m_status m = match skipn 6 (words (drop 3 l)) with s :: _ => sint s | [] => None end.
Lemma last_line_snoc c ls l x : last_line c (ls ++ [l]) x -> (x = l /\ prefix c l = true) \/ (prefix c l = false /\ last_line c ls x).
Proof.
  intros (a & b & E & P & B). destruct b as [|z b] using rev_ind.
  - apply app_inj_tail in E. destruct E as [_ <-]. auto.
  - clear IHb. rewrite app_comm_cons, app_assoc in E. apply app_inj_tail in E. destruct E as [-> <-]. apply Forall_app in B. destruct B as [B B2]. inversion B2; subst. right. split; [auto|]. exists a, b. auto.
Qed.
Lemma last_of_set c ls l (P : option string -> Prop) : prefix c l = true -> P (Some l) -> last_of c (ls ++ [l]) P.
Proof.
  intros C Q. split.
  - intros x X. apply last_line_snoc in X. destruct X as [[-> _]|[X _]]; [auto|congruence].
  - intros F. apply Forall_app in F. destruct F as [_ F]. inversion F; congruence.
Qed.
Lemma last_of_keep c ls l (P Q : option string -> Prop) : prefix c l = false -> (forall x, P x -> Q x) -> last_of c ls P -> last_of c (ls ++ [l]) Q.
Proof.
  intros C I [S N]. split.
  - intros x X. apply last_line_snoc in X. destruct X as [[_ X]|[_ X]]; [congruence|auto].
  - intros F. apply Forall_app in F. apply I, N, F.
Qed.
Theorem C61_agf_rows file ms : agf_read sfloat sint file = Some ms -> Forall row_more ms.
Proof.
  unfold agf_read. assert (G : forall ls acc, Forall row_more acc -> agf_loop sfloat sint acc ls = Some ms -> Forall row_more ms).
  2: { intros H. apply (G file []); auto. }
  induction ls as [|l ls IH]; intros acc A H; cbn [agf_loop] in H.
  - injection H as <-. now apply Forall_rev.
  - destruct (blank l); [eauto|]. destruct (prefix "!" l); [eauto|]. destruct (split_first l) as [[cmd args]|] eqn:S; [|discriminate H]. cbn [obind fst snd] in H.
    destruct (String.eqb cmd "CC"); [eauto|]. destruct (split_first_prefix sfloat sint _ _ _ "GC" S) as [GC _]; [apply nw; repeat constructor|]. change ("GC" ++ " ")%string with "GC "%string in GC.
    destruct (split_first_prefix sfloat sint _ _ _ "ED" S) as [ED _]; [apply nw; repeat constructor|]. change ("ED" ++ " ")%string with "ED "%string in ED.
    destruct (String.eqb_spec cmd "NM") as [->|NM].
    + destruct (agf_new sfloat sint args l) as [m|] eqn:M; [|discriminate H]. cbn [obind] in H. apply (IH (m :: acc)); [constructor; [|auto]|auto].
      change (String.eqb "NM" "GC") with false in GC. change (String.eqb "NM" "ED") with false in ED. unfold agf_new in M. destruct (words args) as [|name [|num [|code [|nd [|vd more]]]]] eqn:W; try discriminate M. injection M as <-. unfold row_more. cbn [m_data m_comment m_tce m_density m_status].
      split; [|split].
      * split; [intros x ([|? [|]] & b & E & P & _); try discriminate E; injection E as <- <-; congruence|auto].
      * split; [intros x ([|? [|]] & b & E & P & _); try discriminate E; injection E as <- <-; congruence|auto].
      * exists l, []. split; [auto|]. rewrite (drop3 sfloat sint _ _ _ S eq_refl), W. destruct more as [|? [|? ?]]; reflexivity.
    + destruct acc as [|m acc]; [discriminate H|]. destruct (agf_line sfloat cmd args l m) as [m'|] eqn:M; [|discriminate H]. cbn [obind] in H. apply (IH (m' :: acc)); [|auto]. inversion A as [|? ? (C1 & C2 & l0 & rest & D & ST) A']; subst. constructor; [|auto].
      unfold agf_line in M. rewrite GC, ED in M. unfold row_more. destruct (prefix "GC " l) eqn:PG; [|destruct (prefix "ED " l) eqn:PE].
      * apply String.eqb_eq in GC. subst cmd. change (String.eqb "GC" "ED") with false in ED. injection M as <-. cbn [m_data m_comment m_tce m_density m_status]. split; [|split].
        -- apply last_of_set; [auto|]. cbn [option_map]. rewrite (drop3 sfloat sint _ _ _ S eq_refl). reflexivity.
        -- eapply last_of_keep; [auto| |exact C2]. auto.
        -- exists l0, (rest ++ [l]). rewrite D, ST. auto.
      * apply String.eqb_eq in ED. subst cmd. destruct (words args) as [|a [|b [|c q]]] eqn:W; try discriminate M. injection M as <-. cbn [m_data m_comment m_tce m_density m_status]. split; [|split].
        -- eapply last_of_keep; [auto| |exact C1]. auto.
        -- apply last_of_set; [auto|]. exists a, b, c, q. rewrite (drop3 sfloat sint _ _ _ S eq_refl). auto.
        -- exists l0, (rest ++ [l]). rewrite D, ST. auto.
      * injection M as <-. cbn [m_data m_comment m_tce m_density m_status]. split; [|split].
        -- eapply last_of_keep; [auto| |exact C1]. auto.
        -- eapply last_of_keep; [auto| |exact C2]. auto.
        -- exists l0, (rest ++ [l]). rewrite D, ST. auto.
Qed.

(** * GLC: a negative number of coefficients leaves out that many words at the end; no number: all the words *)
Theorem C61_glc_count l name nd vd de skip a num coef k : words l = name :: nd :: vd :: de :: skip ++ a :: num :: coef -> length skip = 8%nat -> sint a = Some k ->
  exists typ, forall p q, coef = p ++ q ->
    (sint num = Some (Z.of_nat (length p)) \/ (sint num = Some (- Z.of_nat (length q))%Z /\ q <> []) \/ (sint num = None /\ q = [])) ->
    glc_to_material sfloat sint l = Some (name, typ, map sfloat p, sfloat de).
Proof.
  intros W S A. exists (glc_type k). intros p q -> N. unfold glc_to_material. rewrite W. replace (skipn 8 (skip ++ a :: num :: p ++ q)) with (a :: num :: p ++ q).
  2: { rewrite skipn_app, skipn_all2, S by lia. reflexivity. }
  cbv zeta. rewrite A. cbn [obind]. assert (FP : firstn (length p) (p ++ q) = p) by (rewrite firstn_app, Nat.sub_diag, firstn_all; cbn; apply app_nil_r).
  destruct N as [->|[[-> Q]|[-> ->]]].
  - unfold py_take. destruct (Z.ltb_spec (Z.of_nat (length p)) 0); [lia|]. rewrite Nat2Z.id, FP. reflexivity.
  - unfold py_take. destruct (Z.ltb_spec (- Z.of_nat (length q)) 0); [|destruct q; [congruence|cbn in *; lia]]. rewrite app_length. replace (Z.to_nat (Z.of_nat (length p + length q) + - Z.of_nat (length q))) with (length p) by lia. rewrite FP. reflexivity.
  - rewrite app_nil_r. reflexivity.
Qed.
End More.
Print Assumptions C61_agf_transmission.

(** * examples *)
Example C61_agf_number_example : towards_zero 2 2 /\ towards_zero (27 / 10) 2 /\ towards_zero (- 1 / 2) 0 /\ towards_zero (- 3) (-3) /\
  exists g, agf_to_material demo_float ["NM K1 0 517642 2 64"]%string = Some g /\ g_typ g = "hikari"%string.
Proof.
  unfold towards_zero. repeat split; intros; try lra. assert (T : trunc 0 = 0%Z) by (apply trunc_spec; split; intros; lra).
  unfold agf_to_material. cbn [agf_fields]. change (String.eqb "NM K1 0 517642 2 64" "") with false. cbv iota. unfold agf_field. change (take 2 _) with "NM"%string. change (words _) with ["K1"; "0"; "517642"; "2"; "64"]%string.
  cbn [String.eqb Ascii.eqb Bool.eqb]. change (demo_float "0") with (Some 0). cbn [obind]. rewrite T. eexists. split; reflexivity.
Qed.
Example C61_agf_thermal_fields_example : exists g, agf_to_material demo_float ["TD 1 2 3 4 5 6"]%string = Some g /\ last_line "TD" ["TD 1 2 3 4 5 6"]%string "TD 1 2 3 4 5 6" /\
  g_thermal g = Some (RawThermal [Some 1; Some 2; Some 3] [Some 4; Some 5] (Some 6) (Some lambda_d)).
Proof. eexists. split; [reflexivity|]. split; [|reflexivity]. exists [], []. repeat constructor. Qed.
Example C61_agf_transmission_example : exists g, agf_to_material demo_float ["IT 1 7 5"; "IT 2 8 5"; "IT 1 9 5"]%string = Some g /\
  In ((Some 1, [Some 5]), Some 9) (g_trans g) /\ ~ In ((Some 1, [Some 5]), Some 7) (g_trans g).
Proof.
  assert (H : exists g, agf_to_material demo_float ["IT 1 7 5"; "IT 2 8 5"; "IT 1 9 5"]%string = Some g) by (eexists; reflexivity). destruct H as (g & H). exists g. split; [exact H|].
  destruct (C61_agf_transmission demo_float _ g H) as (es & E & _ & I). assert (ES : es = [((Some 1, [Some 5]), Some 7); ((Some 2, [Some 5]), Some 8); ((Some 1, [Some 5]), Some 9)]).
  { assert (INJ : forall (A : Type) (x y : list A), map Some x = map Some y -> x = y) by (induction x as [|a x IH]; intros [|b y] Q; try discriminate Q; [auto|injection Q as -> Q; f_equal; auto]). apply INJ. rewrite <- E. reflexivity. }
  subst es. rewrite !I. split; [exists [((Some 1, [Some 5]), Some 7); ((Some 2, [Some 5]), Some 8)], []; auto|].
  intros (a & b & Q & F). destruct a as [|a0 [|a1 [|a2 a]]]; injection Q; intros; subst; try (inversion F; subst; match goal with H : Forall _ _ |- _ => inversion H; subst end; cbn [fst] in *; congruence); try (assert (9 = 7) by congruence; lra); try (assert (8 = 7) by congruence; lra).
  destruct a; discriminate.
Qed.
Example C61_agf_rows_example : option_map (map (fun m => (m_comment m, m_status m))) (agf_read demo_float demo_int demo_file) = Some [(None, Some 1%Z); (Some "blue"%string, None); (None, None); (None, None)] /\
  option_map (map (fun m => (m_tce m, m_density m))) (agf_read demo_float demo_int demo_file) = Some [(Some 7, Some 3); (None, None); (None, None); (None, None)].
Proof. split; reflexivity. Qed.
Example C61_glc_count_example : exists typ, glc_to_material demo_float (fun s => if String.eqb s "m1" then Some (-1)%Z else demo_int s) "A 2 64 3 0 0 0 0 0 0 0 0 3 m1 1 2 3 99" = Some ("A"%string, typ, [Some 1; Some 2; Some 3], Some 3).
Proof. eexists. reflexivity. Qed.
