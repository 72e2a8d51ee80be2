(** C61: glasses of catalogue files get the dispersion formula and coefficients of their record. *)
From Coq Require Import String Ascii ZArith Reals Bool Arith List Lra Lia.
From Verif Require Import Base SampleModel MaterialModel CatalogModel PropsMaterial PropsDispersion.
Import ListNotations.
Open Scope R_scope.
Open Scope list_scope.

(** * specification *)
(** white space characters *)
Definition white (a : ascii) : Prop := In (nat_of_ascii a) [9; 10; 11; 12; 13; 28; 29; 30; 31; 32]%nat.
(** a word: not empty, no white space in it *)
Fixpoint no_white (s : string) : Prop := match s with EmptyString => True | String a s => ~ white a /\ no_white s end.
Definition word (s : string) : Prop := s <> EmptyString /\ no_white s.
(** [l] is the last line of [ls] starting with [c] *)
Definition last_line (c : string) (ls : list string) (l : string) : Prop :=
  exists a b, ls = a ++ l :: b /\ prefix c l = true /\ Forall (fun x => prefix c x = false) b.
(** what the glass formula numbers of the AGF format mean; w: wavelength in micrometres *)
Definition agf_law (k : nat) (c : list R) (w n : R) : Prop :=
  match k, c with
  | 1%nat, [a0; a1; a2; a3; a4; a5] => 0 <= n /\ n ^ 2 = a0 + a1 * w ^ 2 + a2 / w ^ 2 + a3 / w ^ 4 + a4 / w ^ 6 + a5 / w ^ 8
  | 2%nat, [k1; l1; k2; l2; k3; l3] => w ^ 2 <> l1 /\ w ^ 2 <> l2 /\ w ^ 2 <> l3 /\ 0 <= n /\
      n ^ 2 - 1 = k1 * w ^ 2 / (w ^ 2 - l1) + k2 * w ^ 2 / (w ^ 2 - l2) + k3 * w ^ 2 / (w ^ 2 - l3)
  | 3%nat, [a; b; c; d; e; f] => let l := / (w ^ 2 - 28 / 1000) in w ^ 2 <> 28 / 1000 /\ n = a + b * l + c * l ^ 2 + d * w ^ 2 + e * w ^ 4 + f * w ^ 6
  | 5%nat, [n0; a; b] => n = n0 + a / w + b / Rpower w (35 / 10)
  | 6%nat, [k1; l1; k2; l2; k3; l3; k4; l4] => w ^ 2 <> l1 /\ w ^ 2 <> l2 /\ w ^ 2 <> l3 /\ w ^ 2 <> l4 /\ 0 <= n /\
      n ^ 2 - 1 = k1 * w ^ 2 / (w ^ 2 - l1) + k2 * w ^ 2 / (w ^ 2 - l2) + k3 * w ^ 2 / (w ^ 2 - l3) + k4 * w ^ 2 / (w ^ 2 - l4)
  | 7%nat, [a; b; c; d] => w ^ 2 <> c /\ 0 <= n /\ n ^ 2 = a + b / (w ^ 2 - c) - d * w ^ 2
  | 8%nat, [a; b; c; d] => w ^ 2 <> c /\ 0 <= n /\ n ^ 2 = a + b * w ^ 2 / (w ^ 2 - c) - d * w ^ 2
  | 9%nat, [a; b; c; d; e] => w ^ 2 <> c /\ w ^ 2 <> e /\ 0 <= n /\ n ^ 2 = a + b * w ^ 2 / (w ^ 2 - c) + d * w ^ 2 / (w ^ 2 - e)
  | 12%nat, [a0; a1; a2; a3; a4; a5; a6; a7] => 0 <= n /\
      n ^ 2 = a0 + a1 * w ^ 2 + a2 / w ^ 2 + a3 / w ^ 4 + a4 / w ^ 6 + a5 / w ^ 8 + a6 * w ^ 4 + a7 * w ^ 6
  | 13%nat, [a0; a1; a2; a3; a4; a5; a6; a7; a8] => 0 <= n /\
      n ^ 2 = a0 + a1 * w ^ 2 + a2 * w ^ 4 + a3 / w ^ 2 + a4 / w ^ 4 + a5 / w ^ 6 + a6 / w ^ 8 + a7 / w ^ 10 + a8 / w ^ 12
  | _, _ => False
  end.

(** * words *)
Lemma is_space_white a : is_space a = true <-> white a.
Proof.
  unfold is_space, white. set (n := nat_of_ascii a). clearbody n.
  rewrite orb_true_iff, !andb_true_iff, !Nat.leb_le. cbn [In]. lia.
Qed.
Lemma is_space_not_white a : is_space a = false <-> ~ white a.
Proof. rewrite <- is_space_white. destruct (is_space a); split; intros H; try congruence. Qed.
Lemma rev_string_app s acc : rev_string s acc = (rev_string s "" ++ acc)%string.
Proof.
  revert acc. induction s as [|a s IH]; intros acc; cbn; [auto|]. rewrite IH, (IH (String a "")).
  generalize (rev_string s ""). intros t. induction t as [|b t IHt]; cbn; [auto|]. now rewrite IHt.
Qed.
Lemma rev_rev s acc : rev_string (rev_string s acc) "" = (rev_string acc "" ++ s)%string.
Proof.
  revert acc. induction s as [|a s IH]; intros acc; cbn.
  - induction (rev_string acc "") as [|b t IHt]; cbn; [auto|]. now rewrite <- IHt.
  - rewrite IH. cbn. rewrite rev_string_app. generalize (rev_string acc ""). intros t. induction t as [|b t IHt]; cbn; [auto|]. now rewrite IHt.
Qed.
Lemma app_nil_s s : (s ++ "")%string = s.
Proof. induction s as [|a s IH]; cbn; [auto|now rewrite IH]. Qed.
Lemma app_assoc_s a b c : ((a ++ b) ++ c)%string = (a ++ (b ++ c))%string.
Proof. induction a as [|x a IH]; cbn; [auto|now rewrite IH]. Qed.
Lemma words_from_word cur w : no_white w -> words_from cur w = match rev_string w cur with EmptyString => [] | s => [rev_string s ""] end.
Proof.
  revert cur. induction w as [|a w IH]; intros cur N; cbn; [destruct cur; reflexivity|]. destruct N as [A N]. apply is_space_not_white in A. rewrite A. auto.
Qed.
Lemma words_from_split cur s c t : white c -> words_from cur (s ++ String c t) = words_from cur s ++ words_from "" t.
Proof.
  intros W. apply is_space_white in W. revert cur. induction s as [|a s IH]; intros cur; cbn.
  - rewrite W. destruct cur; reflexivity.
  - destruct (is_space a); [|auto]. destruct cur; cbn; [apply IH|]. now rewrite IH.
Qed.
(** the words of a text: none of the empty text, a word is its only one, and white space separates *)
Theorem C61_words :
  words "" = [] /\ (forall w, word w -> words w = [w]) /\
  (forall s c t, white c -> words (s ++ String c t) = words s ++ words t).
Proof.
  split; [reflexivity|]. split.
  - intros w [N W]. unfold words. rewrite words_from_word by auto. pose proof (rev_rev w "") as H. cbn in H.
    destruct (rev_string w "") as [|b t] eqn:E; [cbn in H; congruence|]. now rewrite H.
  - intros s c t W. apply words_from_split; auto.
Qed.

(** * AGF records *)
Lemma take2_prefix c l : String.length c = 2%nat -> String.eqb (take 2 l) c = prefix c l.
Proof.
  destruct c as [|a [|b [|]]]; cbn; try discriminate. intros _. unfold take. destruct l as [|x [|y l]]; cbn.
  - reflexivity.
  - destruct (Ascii.eqb_spec x a) as [->|n], (ascii_dec a a) as [_|]; try congruence; destruct (ascii_dec a x); auto.
  - assert (E : substring 0 0 l = ""%string) by (destruct l; auto). rewrite E.
    destruct (Ascii.eqb_spec x a), (ascii_dec a x); try congruence. destruct (Ascii.eqb_spec y b), (ascii_dec b y); try congruence.
    destruct l; auto.
Qed.
Lemma prefix_two c d l : String.length c = 2%nat -> String.length d = 2%nat -> prefix c l = true -> prefix d l = true -> c = d.
Proof.
  intros C D P Q. rewrite <- take2_prefix in P, Q by auto. apply String.eqb_eq in P, Q. congruence.
Qed.

Section Agf.
Variable sfloat : string -> option R.
Variable sint : string -> option Z.
Notation field := (agf_field sfloat).
Ltac cmds H :=
  unfold agf_field in H; rewrite !take2_prefix in H by reflexivity.
Lemma field_keep_coef l g h : field l g = Some h -> prefix "CD" l = false -> g_coef h = g_coef g.
Proof.
  intros H P. cmds H. rewrite P in H.
  repeat match type of H with
  | (if ?b then _ else _) = _ => destruct b
  | match ?x with _ => _ end = _ => destruct x; cbn in H; try discriminate H
  | obind ?x _ = _ => destruct x; cbn in H; try discriminate H
  end; injection H as <-; reflexivity.
Qed.
Lemma field_keep_typ l g h : field l g = Some h -> prefix "NM" l = false -> g_typ h = g_typ g /\ g_name h = g_name g /\ g_code h = g_code g.
Proof.
  intros H P. cmds H. rewrite P in H.
  repeat match type of H with
  | (if ?b then _ else _) = _ => destruct b
  | match ?x with _ => _ end = _ => destruct x; cbn in H; try discriminate H
  | obind ?x _ = _ => destruct x; cbn in H; try discriminate H
  end; injection H as <-; auto.
Qed.
Lemma field_keep_thermal l g h : field l g = Some h -> prefix "TD" l = false -> g_thermal h = g_thermal g.
Proof.
  intros H P. cmds H. rewrite P in H.
  repeat match type of H with
  | (if ?b then _ else _) = _ => destruct b
  | match ?x with _ => _ end = _ => destruct x; cbn in H; try discriminate H
  | obind ?x _ = _ => destruct x; cbn in H; try discriminate H
  end; injection H as <-; reflexivity.
Qed.
Lemma field_keep_range l g h : field l g = Some h -> prefix "LD" l = false -> g_range h = g_range g.
Proof.
  intros H P. cmds H. rewrite P in H.
  repeat match type of H with
  | (if ?b then _ else _) = _ => destruct b
  | match ?x with _ => _ end = _ => destruct x; cbn in H; try discriminate H
  | obind ?x _ = _ => destruct x; cbn in H; try discriminate H
  end; injection H as <-; reflexivity.
Qed.
(** a component set by the lines starting with [c] only has the value given by the last of them *)
Lemma last_sets {A} (p : glass -> A) (c : string) (P : string -> A -> Prop) :
  c <> ""%string ->
  (forall l g h, field l g = Some h -> prefix c l = false -> p h = p g) ->
  (forall l g h, field l g = Some h -> prefix c l = true -> P l (p h)) ->
  forall ls l g h, last_line c ls l -> agf_fields sfloat ls g = Some h -> P l (p h).
Proof.
  intros NE K S ls l g h (a & b & -> & C & B). revert g. induction a as [|x a IH]; intros g H.
  - cbn [app agf_fields] in H. destruct (String.eqb_spec l "") as [->|_]; [destruct c; [congruence|discriminate C]|].
    destruct (field l g) as [g'|] eqn:F; [|discriminate H]. cbn [obind] in H. specialize (S _ _ _ F C).
    assert (E : p h = p g'); [|rewrite E; exact S]. clear S F C. revert g' H. induction B as [|y b Y B IHB]; intros g' H.
    + cbn in H. injection H as <-. auto.
    + cbn [agf_fields] in H. destruct (String.eqb y "").
      * cbn [obind] in H. apply IHB; auto.
      * destruct (field y g') as [g2|] eqn:F; [|discriminate H]. cbn [obind] in H. rewrite (IHB _ H). eapply K; eauto.
  - cbn [app agf_fields] in H. destruct (String.eqb x ""); [apply (IH _ H)|]. destruct (field x g) as [g'|]; [|discriminate H]. apply (IH _ H).
Qed.
Lemma trunc_nat k : trunc (INR k) = Z.of_nat k.
Proof.
  unfold trunc. destruct (Rle_dec 0 (INR k)) as [_|N]; [|exfalso; apply N, pos_INR].
  rewrite INR_IZR_INZ. unfold Int_part. rewrite <- (tech_up (IZR (Z.of_nat k)) (Z.of_nat k + 1)%Z); [lia| |]; rewrite plus_IZR; lra.
Qed.
Lemma py_item_nat {A} (l : list A) k : py_item l (Z.of_nat k) = nth_error l k.
Proof.
  unfold py_item. destruct (Z.ltb_spec (Z.of_nat k) (- Z.of_nat (length l))%Z); [lia|].
  destruct (Z.ltb_spec (Z.of_nat k) 0); [lia|]. now rewrite Nat2Z.id.
Qed.
(** a record's name, formula, code and coefficients are those of its last NM and CD lines, whatever
    other lines (of known or unknown kind) it has and in whatever order they come *)
Theorem C61_agf_record ls g : agf_to_material sfloat ls = Some g ->
  (forall l, last_line "NM" ls l -> exists name num code more, words (drop 3 l) = name :: num :: code :: more /\
     g_name g = name /\ g_code g = sfloat code /\
     forall k, (1 <= k <= 13)%nat -> sfloat num = Some (INR k) -> nth_error agf_types (k - 1) = Some (g_typ g)) /\
  (forall l, last_line "CD" ls l -> g_coef g = map sfloat (words (drop 3 l))).
Proof.
  intros H. split; intros l L.
  - apply (last_sets (fun g => (g_typ g, g_name g, g_code g)) "NM"
      (fun l t => exists name num code more, words (drop 3 l) = name :: num :: code :: more /\
         snd (fst t) = name /\ snd t = sfloat code /\
         forall k, (1 <= k <= 13)%nat -> sfloat num = Some (INR k) -> nth_error agf_types (k - 1) = Some (fst (fst t)))) with (l := l) in H;
      [exact H|discriminate| | |exact L]; clear.
    + intros l g h F P. destruct (field_keep_typ _ _ _ F P) as (-> & -> & ->). auto.
    + intros l g h F P. cmds F. rewrite P in F. destruct (words (drop 3 l)) as [|name [|num [|code more]]]; try discriminate F.
      destruct (sfloat num) as [x|] eqn:X; [|discriminate F]. cbn [obind] in F.
      destruct (py_item agf_types (trunc x - 1)) as [typ|] eqn:T; [|discriminate F]. injection F as <-.
      exists name, num, code, more. cbn [g_typ g_name g_code fst snd]. repeat split. intros k K E. rewrite E in X. injection X as <-.
      rewrite trunc_nat in T. replace (Z.of_nat k - 1)%Z with (Z.of_nat (k - 1)) in T by lia. now rewrite py_item_nat in T.
  - apply (last_sets g_coef "CD" (fun l t => t = map sfloat (words (drop 3 l)))) with (l := l) in H; [exact H|discriminate| | |exact L]; clear.
    + apply field_keep_coef.
    + intros l g h F P. cmds F. rewrite P in F.
      repeat match type of F with (if prefix ?c l then _ else _) = _ =>
        destruct (prefix c l) eqn:E; [pose proof (prefix_two c "CD" l eq_refl eq_refl E P) as X; discriminate X|clear E] end.
      cbv iota in F; injection F as <-. reflexivity.
Qed.
Lemma all_some_map (c : list R) : all_some (map Some c) = Some c.
Proof. induction c as [|x c IH]; cbn; [auto|]. now rewrite IH. Qed.
Lemma fsqrt_iff x n : fsqrt x = Some n <-> 0 <= n /\ n ^ 2 = x.
Proof.
  split.
  - intros H. apply fsqrt_inv in H. destruct H as (_ & N & S). split; [auto|]. rewrite <- S. ring.
  - intros [N <-]. rewrite fsqrt_some by nra. f_equal. replace (n ^ 2) with (Rsqr n) by (unfold Rsqr; ring). now apply sqrt_Rsqr.
Qed.
Lemma fdiv_cases x y : (y = 0 /\ fdiv x y = None) \/ (y <> 0 /\ fdiv x y = Some (x / y)).
Proof. unfold fdiv. destruct (Req_EM_T y 0); auto. Qed.
(** number of coefficients of each formula *)
Definition arity (k : nat) : nat :=
  match k with 1 | 2 | 3 => 6 | 5 => 3 | 6 => 8 | 7 | 8 => 4 | 9 => 5 | 12 => 8 | 13 => 9 | _ => 0 end%nat.
Lemma zeros_repeat z : Forall (fun x => x = 0) z -> z = repeat 0 (length z).
Proof. induction 1 as [|x z -> _ IH]; cbn; [auto|now rewrite <- IH]. Qed.
Ltac listn c := repeat (destruct c as [|? c]; [discriminate|]); destruct c; [|discriminate].
Lemma inverse_powers_some n w l : w <> 0 -> inverse_powers n w l =
  Some (n + fold_right (fun ic r => snd ic / w ^ (2 * (fst ic + 1)) + r) 0 (combine (seq 0 (length l)) l)).
Proof.
  intros W. unfold inverse_powers.
  assert (E : forall q : list (nat * R), osum (map (fun ic => do q <- fdiv (snd ic) (w ^ (2 * (fst ic + 1))); Some q) q) =
    Some (fold_right (fun ic r => snd ic / w ^ (2 * (fst ic + 1)) + r) 0 q)).
  { induction q as [|[i x] q IH]; [reflexivity|]. cbn [map osum fold_right fst snd]. rewrite fdiv_some by (apply pow_nonzero; auto). cbn [obind].
    unfold osum in IH. rewrite IH. reflexivity. }
  rewrite E. reflexivity.
Qed.
Lemma sq_minus a b : a <> b -> a - b <> 0. Proof. lra. Qed.
Lemma agf_formula k c z w n : In k [1; 2; 3; 5; 6; 7; 8; 12; 13]%nat -> length c = arity k -> Forall (fun x => x = 0) z -> length (c ++ z) = 10%nat -> 0 < w ->
  forall typ, nth_error agf_types (k - 1) = Some typ ->
  typ_index typ (map Some (c ++ z)) (w * / 1000000) = Some n <-> agf_law k c w n.
Proof.
  intros K A Z L W typ T. assert (ZL : length z = (10 - length c)%nat) by (rewrite app_length in L; lia).
  apply zeros_repeat in Z. rewrite ZL, A in Z. subst z. clear L ZL. unfold typ_index. rewrite all_some_map.
  assert (W2 : w ^ 2 <> 0) by (apply pow_nonzero; lra).
  assert (ZD : forall x, fdiv (0 * w ^ 2) (w ^ 2 - 0) = Some 0 /\ x + 0 = x).
  { intros x. rewrite fdiv_some by lra. split; [f_equal; field; lra|ring]. }
  assert (S3 : forall x m, fsqrt x = Some m <-> 0 <= m /\ m ^ 2 = x) by apply fsqrt_iff.
  cbn [In] in K. decompose [or] K; subst; try contradiction; cbn [nth_error agf_types Nat.sub] in T; injection T as <-; cbn [arity] in A; listn c;
    cbn [find_formula formulas String.eqb Ascii.eqb Bool.eqb arity Nat.sub repeat app obind]; rewrite C32_units; cbv iota.
  - unfold n_schott, item. cbn [nth_error obind skipn]. rewrite inverse_powers_some by lra. cbn [obind combine seq length fold_right fst snd Nat.mul Nat.add].
    rewrite S3. cbn [agf_law]. split; intros [N E]; (split; [auto|]); rewrite E; field; lra.
  - unfold n_sellmeier_squared, sellmeier_terms. cbn [pairs obind map fst snd osum fold_right]. 
    rewrite (proj1 (ZD 0)). cbn [agf_law].
    destruct (fdiv_cases (r * w ^ 2) (w ^ 2 - r0)) as [[D ->]|[D ->]]; cbn [obind]; [split; [discriminate|intros (? & ? & ? & ? & ?); lra]|].
    destruct (fdiv_cases (r1 * w ^ 2) (w ^ 2 - r2)) as [[D1 ->]|[D1 ->]]; cbn [obind]; [split; [discriminate|intros (? & ? & ? & ? & ?); lra]|].
    destruct (fdiv_cases (r3 * w ^ 2) (w ^ 2 - r4)) as [[D2 ->]|[D2 ->]]; cbn [obind]; [split; [discriminate|intros (? & ? & ? & ? & ?); lra]|].
    rewrite S3. split; [intros [N E]; repeat split; auto; lra|intros (_ & _ & _ & N & E); split; auto; lra].
  - unfold n_herzberger, item. cbn [nth_error obind agf_law]. destruct (fdiv_cases 1 (w ^ 2 - 28 / 1000)) as [[D ->]|[D ->]]; cbn [obind]; [split; [discriminate|intros [? ?]; lra]|].
    replace (1 / (w ^ 2 - 28 / 1000)) with (/ (w ^ 2 - 28 / 1000)) by (unfold Rdiv; ring). split; [intros [= <-]; split; [lra|auto]|intros [_ ->]; auto].
  - unfold n_conrady, item. cbn [nth_error obind agf_law]. rewrite fdiv_some by lra. cbn [obind]. unfold cpow. destruct (Rlt_dec 0 w) as [_|]; [|contradiction]. cbn [obind].
    replace (35 / 10) with (7 / 2) by lra. rewrite fdiv_some by (apply Rgt_not_eq, exp_pos). cbn [obind]. split; [intros [= <-]; auto|intros ->; auto].
  - unfold n_sellmeier_squared, sellmeier_terms. cbn [pairs obind map fst snd osum fold_right].
    rewrite (proj1 (ZD 0)). cbn [agf_law].
    destruct (fdiv_cases (r * w ^ 2) (w ^ 2 - r0)) as [[D ->]|[D ->]]; cbn [obind]; [split; [discriminate|intros (? & ? & ? & ? & ? & ?); lra]|].
    destruct (fdiv_cases (r1 * w ^ 2) (w ^ 2 - r2)) as [[D1 ->]|[D1 ->]]; cbn [obind]; [split; [discriminate|intros (? & ? & ? & ? & ? & ?); lra]|].
    destruct (fdiv_cases (r3 * w ^ 2) (w ^ 2 - r4)) as [[D2 ->]|[D2 ->]]; cbn [obind]; [split; [discriminate|intros (? & ? & ? & ? & ? & ?); lra]|].
    destruct (fdiv_cases (r5 * w ^ 2) (w ^ 2 - r6)) as [[D3 ->]|[D3 ->]]; cbn [obind]; [split; [discriminate|intros (? & ? & ? & ? & ? & ?); lra]|].
    rewrite S3. split; [intros [N E]; repeat split; auto; lra|intros (_ & _ & _ & _ & N & E); split; auto; lra].
  - unfold n_handbook_of_optics1, item. cbn [nth_error obind agf_law].
    destruct (fdiv_cases r0 (w ^ 2 - r1)) as [[D ->]|[D ->]]; cbn [obind]; [split; [discriminate|intros (? & ? & ?); lra]|].
    rewrite S3. split; [intros [N E]; repeat split; auto; lra|intros (_ & N & E); auto].
  - unfold n_handbook_of_optics2, item. cbn [nth_error obind agf_law].
    destruct (fdiv_cases (r0 * w ^ 2) (w ^ 2 - r1)) as [[D ->]|[D ->]]; cbn [obind]; [split; [discriminate|intros (? & ? & ?); lra]|].
    rewrite S3. split; [intros [N E]; repeat split; auto; lra|intros (_ & N & E); auto].
  - unfold n_extended2, item. cbn [nth_error obind skipn firstn]. rewrite inverse_powers_some by lra. cbn [obind combine seq length fold_right fst snd Nat.mul Nat.add].
    rewrite S3. cbn [agf_law]. split; intros [N E]; (split; [auto|]); rewrite E; field; lra.
  - unfold n_hikari, item. cbn [nth_error obind skipn]. rewrite inverse_powers_some by lra. cbn [obind combine seq length fold_right fst snd Nat.mul Nat.add].
    rewrite S3. cbn [agf_law]. split; intros [N E]; (split; [auto|]); rewrite E; field; lra.
Qed.
(** a record of formula k with the coefficients c, padded with zeros to the ten of the format, gives
    a material whose index at w micrometres is the one the formula defines, and has none otherwise *)
Theorem C61_agf_index ls g nm cd name num more k c z w n :
  agf_to_material sfloat ls = Some g ->
  last_line "NM" ls nm -> words (drop 3 nm) = name :: num :: more -> sfloat num = Some (INR k) ->
  last_line "CD" ls cd -> map sfloat (words (drop 3 cd)) = map Some (c ++ z) ->
  In k [1; 2; 3; 5; 6; 7; 8; 12; 13]%nat -> length c = arity k -> Forall (fun x => x = 0) z -> length (c ++ z) = 10%nat -> 0 < w ->
  glass_index g (w * / 1000000) = Some n <-> agf_law k c w n.
Proof.
  intros H N NW NK CD CW K A Z L W. destruct (C61_agf_record _ _ H) as [HN HC].
  destruct (HN _ N) as (name' & num' & code & more' & E & _ & _ & T). rewrite NW in E. injection E as <- <- _.
  unfold glass_index. rewrite (HC _ CD), CW. apply agf_formula; auto. apply T; auto. cbn in K. lia.
Qed.
(** formulas 4, 10 and 11 are accepted but their materials have no index *)
Theorem C61_agf_missing_refuted ls g nm name num more k w :
  agf_to_material sfloat ls = Some g ->
  last_line "NM" ls nm -> words (drop 3 nm) = name :: num :: more -> sfloat num = Some (INR k) ->
  In k [4; 10; 11]%nat -> glass_index g w = None.
Proof.
  intros H N NW NK K. destruct (C61_agf_record _ _ H) as [HN _].
  destruct (HN _ N) as (name' & num' & code & more' & E & _ & _ & T). rewrite NW in E. injection E as <- <- _.
  specialize (T k). unfold glass_index, typ_index. cbn [In] in K. decompose [or] K; subst; try contradiction;
    (specialize (T ltac:(lia) NK); cbn [nth_error agf_types Nat.sub] in T; injection T as <-; reflexivity).
Qed.
(** formula 9: one is added to the square of the index *)
Theorem C61_agf_sellmeier4_refuted ls g nm cd name num more c z w n :
  agf_to_material sfloat ls = Some g ->
  last_line "NM" ls nm -> words (drop 3 nm) = name :: num :: more -> sfloat num = Some (INR 9) ->
  last_line "CD" ls cd -> map sfloat (words (drop 3 cd)) = map Some (c ++ z) ->
  length c = 5%nat -> Forall (fun x => x = 0) z -> length (c ++ z) = 10%nat -> 0 < w -> agf_law 9 c w n ->
  exists m, glass_index g (w * / 1000000) = Some m /\ m ^ 2 = n ^ 2 + 1 /\ m <> n.
Proof.
  intros H N NW NK CD CW A Z L W LAW. destruct (C61_agf_record _ _ H) as [HN HC].
  destruct (HN _ N) as (name' & num' & code & more' & E & _ & _ & T). rewrite NW in E. injection E as <- <- _.
  specialize (T 9%nat ltac:(lia) NK). unfold glass_index. rewrite (HC _ CD), CW. clear - T A Z L W LAW.
  assert (ZL : length z = 5%nat) by (rewrite app_length in L; lia). apply zeros_repeat in Z. rewrite ZL in Z. subst z. clear L ZL.
  unfold typ_index. rewrite all_some_map. cbn [nth_error agf_types Nat.sub] in T. injection T as <-. listn c. cbn [agf_law] in LAW.
  destruct LAW as (P1 & P2 & N & E). exists (sqrt (n ^ 2 + 1)).
  assert (M : sqrt (n ^ 2 + 1) ^ 2 = n ^ 2 + 1) by (replace (sqrt (n ^ 2 + 1) ^ 2) with (sqrt (n ^ 2 + 1) * sqrt (n ^ 2 + 1)) by ring; apply sqrt_sqrt; nra).
  split; [|split; [exact M|intros X; rewrite X in M; lra]].
  cbn [find_formula formulas String.eqb Ascii.eqb Bool.eqb repeat app obind]. rewrite C32_units. cbv iota.
  unfold n_sellmeier_squared_offset, even_tail, item, sellmeier_terms. cbn [length Nat.sub Nat.div Nat.divmod fst snd Nat.mul Nat.add tl firstn pairs obind map osum fold_right nth_error].
  assert (W2 : w ^ 2 <> 0) by (apply pow_nonzero; lra). rewrite !fdiv_some by lra. cbn [obind]. apply fsqrt_iff. split; [apply sqrt_pos|].
  rewrite M, E. field. repeat split; lra.
Qed.
(** the wavelength range is read from the first two characters instead of the first two numbers *)
Theorem C61_agf_range_refuted ls g l a b t : agf_to_material sfloat ls = Some g -> last_line "LD" ls l ->
  drop 3 l = String a (String b t) -> g_range g = Some (sfloat (String a ""), sfloat (String b "")).
Proof.
  intros H L D. revert D.
  apply (last_sets g_range "LD" (fun l r => drop 3 l = String a (String b t) -> r = Some (sfloat (String a ""), sfloat (String b "")))) with (l := l) (ls := ls) (g := glass0); auto; [discriminate| |].
  - apply field_keep_range.
  - clear. intros l g h F P D. cmds F. rewrite P in F.
    repeat match type of F with (if prefix ?c l then _ else _) = _ =>
      destruct (prefix c l) eqn:E; [pose proof (prefix_two c "LD" l eq_refl eq_refl E P) as X; discriminate X|clear E] end.
    cbv iota in F. rewrite D in F. cbn [chars] in F. injection F as <-. reflexivity.
Qed.
(** the seven numbers of a TD line are D0 D1 D2 E0 E1, the resonance wavelength and the reference
    temperature; the last two are exchanged, so that at the reference temperature the index is shifted *)
Theorem C61_agf_thermal_refuted ls g l d0 d1 d2 e0 e1 ltk temp : agf_to_material sfloat ls = Some g -> last_line "TD" ls l ->
  map sfloat (words (drop 3 l)) = map Some [d0; d1; d2; e0; e1; ltk; temp] ->
  glass_thermal g = Some (Thermal d0 d1 d2 e0 e1 ltk temp).
Proof.
  intros H L D. revert D.
  apply (last_sets g_thermal "TD" (fun l r => map sfloat (words (drop 3 l)) = map Some [d0; d1; d2; e0; e1; ltk; temp] ->
    glass_thermal (Glass "" "" [] None None None r None [] None []) = Some (Thermal d0 d1 d2 e0 e1 ltk temp))) with (l := l) (ls := ls) (g := glass0); auto; [discriminate| |].
  - apply field_keep_thermal.
  - clear. intros l g h F P D. cmds F. rewrite P in F.
    repeat match type of F with (if prefix ?c l then _ else _) = _ =>
      destruct (prefix c l) eqn:E; [pose proof (prefix_two c "TD" l eq_refl eq_refl E P) as X; discriminate X|clear E] end.
    cbv iota in F. rewrite D in F. cbn [map make_thermal skipn obind] in F. injection F as <-. reflexivity.
Qed.

(** * AGF files *)
(** lines that belong to a glass *)
Definition keeps (l : string) : bool := negb (blank l) && negb (prefix "!" l) && negb (prefix "CC " l).
Lemma split_first_app l a b : split_first l = Some (a, b) -> l = (a ++ String " " b)%string.
Proof.
  revert a b. induction l as [|x l IH]; intros a b H; [discriminate H|]. cbn [split_first] in H.
  destruct (Ascii.eqb_spec x " ") as [->|X]; [injection H as <- <-; reflexivity|].
  destruct (split_first l) as [[p q]|]; [|discriminate H]. cbn [obind fst snd] in H. injection H as <- <-. cbn [append]. f_equal. auto.
Qed.
Lemma split_first_prefix l a b c : split_first l = Some (a, b) -> no_white c ->
  String.eqb a c = prefix (c ++ " ") l /\ l = (a ++ String " " b)%string.
Proof.
  intros H NC. split; [|now apply split_first_app]. revert a b c H NC. induction l as [|x l IH]; intros a b c H NC; [discriminate H|]. cbn [split_first] in H.
  destruct (Ascii.eqb_spec x " ") as [->|X].
  - injection H as <- <-. destruct c as [|y c]; cbn [append prefix String.eqb]; [destruct (ascii_dec " " " "); [destruct l; auto|congruence]|].
    destruct NC as [Y _]. destruct (ascii_dec y " ") as [->|]; [|auto]. exfalso. apply Y. cbn. tauto.
  - destruct (split_first l) as [[p q]|]; [|discriminate H]. cbn [obind fst snd] in H. injection H as <- <-. destruct c as [|y c].
    + cbn [append prefix String.eqb]. destruct (ascii_dec " " x); [congruence|]. auto.
    + destruct NC as [Y NC]. pose proof (IH p q c eq_refl NC) as E1. cbn [append prefix].
      cbn [String.eqb]. destruct (Ascii.eqb_spec x y), (ascii_dec y x); try congruence; auto.
Qed.
Lemma nw c : Forall (fun a => is_space a = false) (list_ascii_of_string c) -> no_white c.
Proof. induction c as [|a c IH]; cbn; [auto|]. intros F. inversion F; subst. split; [now apply is_space_not_white|auto]. Qed.
(** what the library row of a record must hold *)
Definition row_of (m : lib_mat) : Prop := exists l rest, m_data m = l :: rest /\
  prefix "NM " l = true /\ Forall (fun x => prefix "NM " x = false) rest /\
  exists num nd vd more, words (drop 3 l) = m_name m :: num :: m_code m :: nd :: vd :: more /\ m_nd m = sfloat nd /\ m_vd m = sfloat vd.
Lemma drop3 l a b : split_first l = Some (a, b) -> String.length a = 2%nat -> drop 3 l = b.
Proof.
  intros H A. destruct (split_first_prefix _ _ _ EmptyString H I) as [_ ->]. destruct a as [|x [|y [|z a]]]; try discriminate A. reflexivity.
Qed.
Lemma agf_new_row args l m : split_first l = Some ("NM"%string, args) -> agf_new sfloat sint args l = Some m -> row_of m.
Proof.
  intros S H. unfold agf_new in H. destruct (words args) as [|name [|num [|code [|nd [|vd more]]]]] eqn:W; try discriminate H. injection H as <-.
  exists l, []. cbn [m_data m_name m_code m_nd m_vd]. split; [auto|]. split; [symmetry; apply (split_first_prefix _ _ _ "NM" S); apply nw; repeat constructor|]. split; [auto|].
  exists num, nd, vd, more. rewrite (drop3 _ _ _ S eq_refl). auto.
Qed.
Lemma agf_line_row cmd args l m m' : row_of m -> prefix "NM " l = false -> agf_line sfloat cmd args l m = Some m' ->
  row_of m' /\ m_data m' = m_data m ++ [l].
Proof.
  intros (x & rest & D & P & F & num & nd & vd & more & W & N & V) L H.
  assert (E : m_name m' = m_name m /\ m_code m' = m_code m /\ m_nd m' = m_nd m /\ m_vd m' = m_vd m /\ m_data m' = m_data m ++ [l]).
  { unfold agf_line in H. destruct (String.eqb cmd "GC"); [injection H as <-; auto 10|]. destruct (String.eqb cmd "ED"); [|injection H as <-; auto 10].
    destruct (words args) as [|a [|b [|c q]]]; try discriminate H. injection H as <-; auto 10. }
  destruct E as (E1 & E2 & E3 & E4 & E5). split; [|auto]. exists x, (rest ++ [l]). rewrite E5, D. split; [reflexivity|]. split; [auto|]. split.
  - apply Forall_app. auto.
  - exists num, nd, vd, more. rewrite E1, E2, E3, E4. auto.
Qed.
(** a file's lines are distributed over its glasses: every line that is neither blank nor a comment
    goes to the glass of the nearest NM line above, and that line names the glass *)
Theorem C61_agf_read file ms : agf_read sfloat sint file = Some ms ->
  concat (map m_data ms) = filter keeps file /\ Forall row_of ms.
Proof.
  unfold agf_read. assert (G : forall ls acc, Forall row_of acc -> agf_loop sfloat sint acc ls = Some ms ->
    concat (map m_data ms) = concat (map m_data (rev acc)) ++ filter keeps ls /\ Forall row_of ms).
  { induction ls as [|l ls IH]; intros acc A H; cbn [agf_loop] in H.
    - injection H as <-. cbn. rewrite app_nil_r. split; [auto|]. now apply Forall_rev.
    - cbn [filter]. unfold keeps at 1. destruct (blank l); cbn [negb andb]; [auto|]. destruct (prefix "!" l); cbn [negb andb]; [auto|].
      destruct (split_first l) as [[cmd args]|] eqn:S; [|discriminate H]. cbn [obind fst snd] in H.
      destruct (split_first_prefix _ _ _ "CC" S) as [C _]; [apply nw; repeat constructor|]. change ("CC" ++ " ")%string with "CC "%string in C. rewrite C in H.
      destruct (prefix "CC " l); cbn [negb]; [auto|].
      destruct (split_first_prefix _ _ _ "NM" S) as [N _]; [apply nw; repeat constructor|]. change ("NM" ++ " ")%string with "NM "%string in N. rewrite N in H.
      destruct (prefix "NM " l) eqn:P.
      + destruct (agf_new sfloat sint args l) as [m|] eqn:M; [|discriminate H]. cbn [obind] in H. apply String.eqb_eq in N. subst cmd.
        assert (D : m_data m = [l]). { unfold agf_new in M. destruct (words args) as [|? [|? [|? [|? [|? ?]]]]]; try discriminate M. injection M as <-. auto. }
        destruct (IH (m :: acc)) as [E F]; [constructor; [eapply agf_new_row; eauto|auto]|auto|]. split; [|auto]. rewrite E. cbn [rev].
        rewrite map_app, concat_app. cbn [map concat]. rewrite D, app_nil_r, <- app_assoc. reflexivity.
      + destruct acc as [|m acc]; [discriminate H|]. destruct (agf_line sfloat cmd args l m) as [m'|] eqn:M; [|discriminate H]. cbn [obind] in H.
        inversion A; subst. destruct (agf_line_row _ _ _ _ _ H2 P M) as [R D]. destruct (IH (m' :: acc)) as [E F]; [constructor; auto|auto|].
        split; [|auto]. rewrite E. cbn [rev]. rewrite !map_app, !concat_app. cbn [map concat]. rewrite D, !app_nil_r, <- !app_assoc. reflexivity. }
  intros H. destruct (G file [] (Forall_nil _) H) as [E F]. auto.
Qed.
(** reading succeeds exactly if the first kept line names a glass and every kept line is well formed *)
Definition well_formed (l : string) : Prop :=
  (exists a b, l = (a ++ String " " b)%string) /\
  (prefix "NM " l = true -> (5 <= length (words (drop 3 l)))%nat) /\
  (prefix "ED " l = true -> (3 <= length (words (drop 3 l)))%nat).
Lemma split_first_none l : split_first l = None <-> ~ exists a b, l = (a ++ String " " b)%string.
Proof.
  induction l as [|x l IH]; cbn [split_first].
  - split; [|auto]. intros _ ([|] & b & H); discriminate H.
  - destruct (Ascii.eqb_spec x " ") as [->|X].
    + split; [discriminate|]. intros H. exfalso. apply H. exists EmptyString, l. auto.
    + destruct (split_first l) as [[p q]|] eqn:S.
      * cbn. split; [discriminate|]. intros H. exfalso. apply H. destruct (split_first_prefix _ _ _ EmptyString S I) as [_ ->]. exists (String x p), q. auto.
      * cbn. split; [|auto]. intros _ (a & b & H). destruct a as [|y a]; cbn in H; injection H as H1 H2; [congruence|].
        apply (proj1 IH eq_refl). exists a, b. auto.
Qed.
Theorem C61_agf_accepts file :
  agf_read sfloat sint file <> None <->
  Forall well_formed (filter keeps file) /\ match filter keeps file with [] => True | l :: _ => prefix "NM " l = true end.
Proof.
  unfold agf_read. assert (G : forall ls acc, agf_loop sfloat sint acc ls <> None <->
    Forall well_formed (filter keeps ls) /\ (acc = [] -> match filter keeps ls with [] => True | l :: _ => prefix "NM " l = true end)).
  { induction ls as [|l ls IH]; intros acc; cbn [agf_loop filter].
    - split; [intros _; split; [constructor|auto]|discriminate].
    - change (keeps l) with (negb (blank l) && negb (prefix "!" l) && negb (prefix "CC " l))%bool. destruct (blank l); cbn [negb andb]; [apply IH|]. destruct (prefix "!" l); cbn [negb andb]; [apply IH|].
      destruct (split_first l) as [[cmd args]|] eqn:S; cbn [obind fst snd].
      2: { destruct (prefix "CC " l) eqn:C; cbn [negb].
           - exfalso. apply (proj1 (split_first_none l)); auto. destruct l as [|c1 [|c2 [|c3 l]]]; try discriminate C.
             + cbn [prefix] in C. destruct (ascii_dec "C" c1); discriminate C.
             + cbn [prefix] in C. destruct (ascii_dec "C" c1); [|discriminate C]. destruct (ascii_dec "C" c2); discriminate C.
             + cbn [prefix] in C. destruct (ascii_dec "C" c1) as [<-|]; [|discriminate C]. destruct (ascii_dec "C" c2) as [<-|]; [|discriminate C].
               destruct (ascii_dec " " c3) as [<-|]; [|discriminate C]. exists "CC"%string, l. auto.
           - split; [congruence|]. intros [F _]. inversion F; subst. destruct H1 as [H1 _]. apply split_first_none in S. contradiction. }
      destruct (split_first_prefix _ _ _ "CC" S) as [C _]; [apply nw; repeat constructor|]. change ("CC" ++ " ")%string with "CC "%string in C. rewrite C.
      destruct (prefix "CC " l); cbn [negb]; [apply IH|].
      destruct (split_first_prefix _ _ _ "NM" S) as [N _]; [apply nw; repeat constructor|]. change ("NM" ++ " ")%string with "NM "%string in N. rewrite N.
      destruct (split_first_prefix _ _ _ "ED" S) as [D _]; [apply nw; repeat constructor|]. change ("ED" ++ " ")%string with "ED "%string in D.
      assert (SP : exists a b, l = (a ++ String " " b)%string) by (exists cmd, args; apply (split_first_prefix _ _ _ EmptyString S I)).
      destruct (prefix "NM " l) eqn:P.
      + apply String.eqb_eq in N. subst cmd. assert (ED : prefix "ED " l = false) by (rewrite <- D; auto).
        assert (WF : well_formed l <-> (5 <= length (words args))%nat).
        { unfold well_formed. rewrite P, ED, (drop3 _ _ _ S eq_refl). intuition congruence. }
        unfold agf_new. destruct (words args) as [|name [|num [|code [|nd [|vd more]]]]] eqn:W; cbn [obind].
        1-5: split; [congruence|]; intros [F _]; inversion F; subst; apply WF in H1; cbn in H1; lia.
        rewrite IH. split.
        * intros [F _]. split; [|auto]. constructor; [apply WF; cbn; lia|auto].
        * intros [F _]. inversion F; subst. split; [auto|discriminate].
      + destruct acc as [|m acc].
        * split; [congruence|]. intros [_ F]. specialize (F eq_refl). congruence.
        * assert (M : (exists m', agf_line sfloat cmd args l m = Some m') <-> well_formed l).
          { unfold agf_line, well_formed. rewrite P. destruct (String.eqb_spec cmd "GC") as [->|_].
            - assert (ED : prefix "ED " l = false) by (rewrite <- D; auto). rewrite ED. split; [intros _; repeat split; auto; discriminate|eauto].
            - rewrite D. destruct (prefix "ED " l) eqn:ED.
              + apply String.eqb_eq in D. subst cmd. rewrite (drop3 _ _ _ S eq_refl). destruct (words args) as [|a [|b [|c q]]]; cbn [length].
                1-3: split; [intros (? & H); discriminate H|intros (_ & _ & H); specialize (H eq_refl); lia].
                split; [intros _; repeat split; auto; [discriminate|intros; lia]|eauto].
              + split; [intros _; repeat split; auto; discriminate|eauto]. }
          destruct (agf_line sfloat cmd args l m) as [m'|]; cbn [obind].
          -- rewrite IH. split; intros [F _].
             ++ split; [constructor; [apply M; eauto|auto]|discriminate].
             ++ inversion F; subst. split; [auto|discriminate].
          -- split; [congruence|]. intros [F _]. inversion F; subst. apply M in H1. destruct H1 as (? & H1). discriminate H1. }
  rewrite G. split; intros [F K]; (split; [auto|]); auto. now apply K.
Qed.
(** from the file to the index: every glass of a file *)
Theorem C61_agf file ms m g cd k c z w n :
  agf_read sfloat sint file = Some ms -> In m ms -> (forall l, In l file -> prefix "NM" l = prefix "NM " l) ->
  agf_to_material sfloat (m_data m) = Some g ->
  exists nm num more, In nm file /\ words (drop 3 nm) = m_name m :: num :: more /\ g_name g = m_name m /\
    (sfloat num = Some (INR k) -> last_line "CD" (m_data m) cd -> map sfloat (words (drop 3 cd)) = map Some (c ++ z) ->
     In k [1; 2; 3; 5; 6; 7; 8; 12; 13]%nat -> length c = arity k -> Forall (fun x => x = 0) z -> length (c ++ z) = 10%nat -> 0 < w ->
     glass_index g (w * / 1000000) = Some n <-> agf_law k c w n).
Proof.
  intros R I P H. destruct (C61_agf_read _ _ R) as [E F]. rewrite Forall_forall in F.
  destruct (F _ I) as (l & rest & D & PL & PR & num & nd & vd & more & W & _ & _).
  assert (SUB : forall x, In x (m_data m) -> In x file).
  { intros x X. apply (proj1 (filter_In keeps x file)). rewrite <- E. apply in_concat. exists (m_data m). split; [apply in_map; auto|auto]. }
  assert (L : last_line "NM" (m_data m) l).
  { exists [], rest. split; [auto|]. split; [rewrite P; auto; apply SUB; rewrite D; left; auto|].
    rewrite Forall_forall in *. intros x X. rewrite P; [auto|]. apply SUB. rewrite D. right; auto. }
  exists l, num, (m_code m :: nd :: vd :: more). split; [apply SUB; rewrite D; left; auto|]. split; [auto|]. split.
  - destruct (C61_agf_record _ _ H) as [HN _]. destruct (HN _ L) as (name & ? & ? & ? & W' & -> & _). rewrite W in W'. now injection W'.
  - intros NK CD CW K A Z LN W0. eapply C61_agf_index; eauto.
Qed.

(** * GLC *)
(** the OSLO formula numbers in use *)
Definition glc_law (k : Z) (c : list R) (w n : R) : Prop :=
  match k, c with
  | 1%Z, [a0; a1; a2; a3; a4; a5] => agf_law 1 [a0; a1; a2; a3; a4; a5] w n
  | 2%Z, [b1; b2; b3; c1; c2; c3] => agf_law 2 [b1; c1; b2; c2; b3; c3] w n
  | 3%Z, [n0; a; b] => agf_law 5 [n0; a; b] w n
  | _, _ => False
  end.
(** a line name nd vd density, eight unused fields, formula number, number of coefficients, coefficients, rest *)
Theorem C61_glc l name nd vd de skip a num coef rest c k w n :
  words l = name :: nd :: vd :: de :: skip ++ a :: num :: coef ++ rest -> length skip = 8%nat ->
  sint a = Some k -> sint num = Some (Z.of_nat (length coef)) -> map sfloat coef = map Some c ->
  (k = 1 \/ k = 2)%Z /\ length c = 6%nat \/ k = 3%Z /\ length c = 3%nat -> 0 < w ->
  exists typ, glc_to_material sfloat sint l = Some (name, typ, map Some c, sfloat de) /\
    glc_line sfloat l = Some (name, sfloat nd, sfloat vd, sfloat de, strip l) /\
    (typ_index typ (map Some c) (w * / 1000000) = Some n <-> glc_law k c w n).
Proof.
  intros W S A N C K W0. exists (glc_type k). split; [|split].
  - unfold glc_to_material. rewrite W. replace (skipn 8 (skip ++ a :: num :: coef ++ rest)) with (a :: num :: coef ++ rest).
    + cbv zeta. rewrite A. cbn [obind]. rewrite N. unfold py_take. destruct (Z.ltb_spec (Z.of_nat (length coef)) 0); [lia|]. rewrite Nat2Z.id.
      rewrite firstn_app, Nat.sub_diag, firstn_all. cbn [firstn]. rewrite app_nil_r, C. reflexivity.
    + rewrite skipn_app, skipn_all2, S by lia. reflexivity.
  - unfold glc_line. rewrite W. reflexivity.
  - assert (Z0 : forall m : nat, Forall (fun x => x = 0) (repeat 0 m)) by (induction m; constructor; auto).
    assert (P : w ^ 2 <> 0) by (apply pow_nonzero; lra).
    unfold typ_index. rewrite all_some_map. destruct K as [[[-> | ->] L]|[-> L]]; listn c;
      cbn [glc_law].
    + change (glc_type 1) with "schott"%string. cbn [find_formula formulas String.eqb Ascii.eqb Bool.eqb obind]. rewrite C32_units. cbv iota. unfold n_schott, item. cbn [nth_error obind skipn]. rewrite inverse_powers_some by lra. cbn [obind combine seq length fold_right fst snd Nat.mul Nat.add].
      rewrite fsqrt_iff. cbn [agf_law]. split; intros [X E]; (split; [auto|]); rewrite E; field; lra.
    + change (glc_type 2) with "sellmeier_squared_transposed"%string. cbn [find_formula formulas String.eqb Ascii.eqb Bool.eqb obind]. rewrite C32_units. cbv iota.
      assert (E : n_sellmeier_squared_transposed w [r; r0; r1; r2; r3; r4] = n_sellmeier_squared w [r; r2; r0; r3; r1; r4]) by reflexivity.
      rewrite E. pose proof (agf_formula 2 [r; r2; r0; r3; r1; r4] [0; 0; 0; 0] w n) as F. cbn [app] in F.
      specialize (F ltac:(cbn; auto) eq_refl (Z0 4%nat) eq_refl W0 "sellmeier_squared"%string eq_refl). rewrite <- F. unfold typ_index. rewrite all_some_map. cbn [find_formula formulas String.eqb Ascii.eqb Bool.eqb obind].
      rewrite C32_units. cbv iota. unfold n_sellmeier_squared, sellmeier_terms. cbn [pairs obind map fst snd osum fold_right].
      assert (D : fdiv (0 * w ^ 2) (w ^ 2 - 0) = Some 0) by (rewrite fdiv_some by lra; f_equal; field; lra). rewrite D. cbn [obind]. rewrite !Rplus_0_r. reflexivity.
    + change (glc_type 3) with "conrady"%string. cbn [find_formula formulas String.eqb Ascii.eqb Bool.eqb obind]. rewrite C32_units. cbv iota. unfold n_conrady, item. cbn [nth_error obind agf_law]. rewrite fdiv_some by lra. cbn [obind]. unfold cpow. destruct (Rlt_dec 0 w) as [_|]; [|contradiction]. cbn [obind].
      replace (35 / 10) with (7 / 2) by lra. rewrite fdiv_some by (apply Rgt_not_eq, exp_pos). cbn [obind]. split; [intros [= <-]; auto|intros ->; auto].
Qed.

(** * refractiveindex.info *)
(** sums and conditions over consecutive pairs of coefficients *)
Fixpoint sum2 (f : R -> R -> R) (c : list R) : R := match c with a :: b :: c => f a b + sum2 f c | _ => 0 end.
Fixpoint all2 (P : R -> R -> Prop) (c : list R) : Prop := match c with a :: b :: c => P a b /\ all2 P c | _ => True end.
(** powers with non-negative exponent *)
Definition pw (x e : R) : R := if Req_EM_T x 0 then if Req_EM_T e 0 then 1 else 0 else Rpower x e.
(** the database's dispersion formulas 1 to 9 *)
Definition rii_law (k : nat) (c : list R) (w n : R) : Prop :=
  match k, c with
  | 1%nat, c1 :: c => all2 (fun _ b => w ^ 2 <> b ^ 2) c /\ 0 <= n /\ n ^ 2 - 1 = c1 + sum2 (fun a b => a * w ^ 2 / (w ^ 2 - b ^ 2)) c
  | 2%nat, c1 :: c => all2 (fun _ b => w ^ 2 <> b) c /\ 0 <= n /\ n ^ 2 - 1 = c1 + sum2 (fun a b => a * w ^ 2 / (w ^ 2 - b)) c
  | 3%nat, c1 :: c => 0 <= n /\ n ^ 2 = c1 + sum2 (fun a b => a * pw w b) c
  | 4%nat, c1 :: c2 :: c3 :: c4 :: c5 :: c6 :: c7 :: c8 :: c9 :: c => w ^ 2 <> pw c4 c5 /\ w ^ 2 <> pw c8 c9 /\ 0 <= n /\
      n ^ 2 = c1 + c2 * pw w c3 / (w ^ 2 - pw c4 c5) + c6 * pw w c7 / (w ^ 2 - pw c8 c9) + sum2 (fun a b => a * pw w b) c
  | 5%nat, c1 :: c => n = c1 + sum2 (fun a b => a * pw w b) c
  | 6%nat, c1 :: c => all2 (fun _ b => b <> / w ^ 2) c /\ n - 1 = c1 + sum2 (fun a b => a / (b - / w ^ 2)) c
  | 7%nat, [c1; c2; c3; c4; c5; c6] => agf_law 3 [c1; c2; c3; c4; c5; c6] w n
  | 8%nat, [c1; c2; c3; c4] => w ^ 2 <> c3 /\ 0 <= n /\ (n ^ 2 - 1) / (n ^ 2 + 2) = c1 + c2 * w ^ 2 / (w ^ 2 - c3) + c4 * w ^ 2
  | 9%nat, [c1; c2; c3; c4; c5; c6] => w ^ 2 <> c3 /\ (w - c5) ^ 2 + c6 <> 0 /\ 0 <= n /\
      n ^ 2 = c1 + c2 / (w ^ 2 - c3) + c4 * (w - c5) / ((w - c5) ^ 2 + c6)
  | _, _ => False
  end.
(** the coefficient lists the database has for each formula *)
Definition rii_shape (k : nat) (c : list R) : Prop :=
  match k with
  | 1 | 2 => (1 <= length c)%nat
  | 3 | 5 => Nat.Odd (length c)
  | 4 => (9 <= length c)%nat /\ Nat.Odd (length c) /\ (0 <= nth 3 c 0 /\ 0 <= nth 4 c 0 /\ 0 <= nth 7 c 0 /\ 0 <= nth 8 c 0)%R
  | 6 => length c = 3%nat
  | 7 | 9 => length c = 6%nat
  | _ => False
  end%nat.
Definition formula_name (k : nat) : string :=
  nth k ["formula 0"; "formula 1"; "formula 2"; "formula 3"; "formula 4"; "formula 5"; "formula 6"; "formula 7"; "formula 8"; "formula 9"]%string EmptyString.
Lemma cpow_pos w p : 0 < w -> cpow w p = Some (pw w p).
Proof. intros W. unfold cpow, pw. destruct (Rlt_dec 0 w); [|contradiction]. destruct (Req_EM_T w 0); [lra|auto]. Qed.
Lemma cpow_nonneg x p : 0 <= x -> 0 <= p -> cpow x p = Some (pw x p).
Proof.
  intros X P. destruct (Req_EM_T x 0) as [->|N]; [|apply cpow_pos; lra]. unfold cpow, pw. destruct (Rlt_dec 0 0); [lra|].
  destruct (Req_EM_T 0 0) as [_|]; [|congruence]. destruct (Rlt_dec p 0); [lra|]. destruct (Req_EM_T p (IZR (Int_part p))) as [E|NE]; [destruct (Req_EM_T p 0); auto|].
  destruct (Req_EM_T p 0) as [->|]; [|auto]. exfalso. apply NE. replace (Int_part 0) with 0%Z; [auto|].
  unfold Int_part. rewrite <- (tech_up 0 1%Z); [auto|lra|lra].
Qed.
Lemma even_flat m : forall c : list R, (length c = 2 * m)%nat -> exists l, c = flat l.
Proof.
  induction m as [|m IH]; intros c H; [destruct c; [exists []; auto|discriminate H]|].
  destruct c as [|a [|b c]]; [cbn in H; lia|cbn in H; lia|]. destruct (IH c) as [l ->]; [cbn in H; lia|]. exists ((a, b) :: l). auto.
Qed.
Lemma terms_iff w f l s : sellmeier_terms (w ^ 2) f l = Some s <->
  all2 (fun _ b => w ^ 2 <> f b) (flat l) /\ s = sum2 (fun a b => a * w ^ 2 / (w ^ 2 - f b)) (flat l).
Proof.
  revert s. induction l as [|[a b] l IH]; intros s.
  - cbn. split; [intros [= <-]; auto|intros [_ ->]; auto].
  - unfold sellmeier_terms in *. cbn [map osum fold_right fst snd flat all2 sum2].
    destruct (fdiv_cases (a * w ^ 2) (w ^ 2 - f b)) as [[D ->]|[D ->]]; cbn [obind]; [split; [discriminate|intros [[? ?] _]; lra]|].
    destruct (fold_right _ _ _) as [t|] eqn:T; cbn [obind].
    + destruct (proj1 (IH t) T) as [A ->]. split; [intros [= <-]; repeat split; auto; lra|intros [_ ->]; auto].
    + split; [discriminate|]. intros [[_ A] _]. pose proof (proj2 (IH _) (conj A eq_refl)) as X. unfold osum in X. rewrite T in X. discriminate X.
Qed.
Lemma powers_sum w l : 0 < w -> powers w l = Some (sum2 (fun a b => a * pw w b) (flat l)).
Proof.
  intros W. unfold powers. induction l as [|[a b] l IH]; [reflexivity|]. cbn [map osum fold_right fst snd flat sum2]. rewrite cpow_pos by auto. cbn [obind].
  unfold osum in IH. rewrite IH. reflexivity.
Qed.
Lemma even_tail_prefix c0 c : exists l, even_tail (c0 :: c) = flat l /\
  (forall P, all2 P c <-> all2 P (flat l)) /\ (forall f, sum2 f c = sum2 f (flat l)).
Proof.
  unfold even_tail. cbn [length tl]. replace (S (length c) - 1)%nat with (length c) by lia.
  assert (G : forall m (c : list R), (length c <= m)%nat -> exists l, firstn (length c / 2 * 2) c = flat l /\
    (forall P, all2 P c <-> all2 P (flat l)) /\ (forall f, sum2 f c = sum2 f (flat l))); [|eapply G; eauto].
  induction m as [|m IH]; intros d H.
  - destruct d; [|cbn in H; lia]. exists []. cbn. tauto.
  - destruct d as [|a [|b d]].
    + exists []. cbn. tauto.
    + exists []. cbn. tauto.
    + destruct (IH d) as (l & E & A & B); [cbn in H; lia|]. exists ((a, b) :: l). cbn [length flat all2 sum2].
      assert (D : (S (S (length d)) / 2 * 2 = S (S (length d / 2 * 2)))%nat).
      { replace (S (S (length d))) with (length d + 1 * 2)%nat by lia. rewrite Nat.div_add by lia. lia. }
      rewrite D. cbn [firstn]. rewrite E. split; [auto|]. split; [intros P; rewrite A; tauto|intros f; now rewrite B].
Qed.
Lemma rii_formula k c w n typ : rii_shape k c -> 0 < w -> assoc rii_types (formula_name k) = Some typ ->
  typ_index typ (map Some c) (w * / 1000000) = Some n <-> rii_law k c w n.
Proof.
  intros SH W T. unfold typ_index. rewrite all_some_map. assert (W2 : w ^ 2 <> 0) by (apply pow_nonzero; lra).
  destruct k as [|[|[|[|[|[|[|[|[|[|k]]]]]]]]]]; try contradiction;
    cbn [formula_name nth assoc rii_types String.eqb Ascii.eqb Bool.eqb] in T; injection T as <-;
    cbn [find_formula formulas String.eqb Ascii.eqb Bool.eqb obind]; rewrite C32_units; cbv iota.
  - cbn in SH. destruct c as [|c0 c]; [cbn in SH; lia|]. unfold n_sellmeier_offset. cbn [rii_law item nth_error].
    destruct (even_tail_prefix c0 c) as (l & -> & A & B). rewrite pairs_flat. cbn [obind]. rewrite A, B.
    pose proof (terms_iff w (fun x => x ^ 2) l) as TI. destruct (sellmeier_terms _ _ l) as [t|]; cbn [obind].
    + destruct (proj1 (TI t) eq_refl) as [P ->]. rewrite fsqrt_iff. split; [intros [N E]; repeat split; auto; lra|intros (_ & N & E); split; auto; lra].
    + split; [discriminate|]. intros (P & _). specialize (proj2 (TI _) (conj P eq_refl)). discriminate.
  - cbn in SH. destruct c as [|c0 c]; [cbn in SH; lia|]. unfold n_sellmeier_squared_offset. cbn [rii_law item nth_error].
    destruct (even_tail_prefix c0 c) as (l & -> & A & B). rewrite pairs_flat. cbn [obind]. rewrite A, B.
    pose proof (terms_iff w (fun x => x) l) as TI. destruct (sellmeier_terms _ _ l) as [t|]; cbn [obind].
    + destruct (proj1 (TI t) eq_refl) as [P ->]. rewrite fsqrt_iff. split; [intros [N E]; repeat split; auto; lra|intros (_ & N & E); split; auto; lra].
    + split; [discriminate|]. intros (P & _). specialize (proj2 (TI _) (conj P eq_refl)). discriminate.
  - destruct SH as [m L]. destruct c as [|c0 c]; [cbn in L; lia|]. destruct (even_flat m c) as [l ->]; [cbn in L; lia|].
    unfold n_polynomial, n_cauchy, item. cbn [tl nth_error rii_law]. rewrite pairs_flat. cbn [obind]. rewrite powers_sum by auto. cbn [obind]. apply fsqrt_iff.
  - destruct SH as (L9 & [m L] & P3 & P4 & P7 & P8). do 9 (destruct c as [|? c]; [cbn in L9; lia|]).
    destruct (even_flat (m - 4) c) as [l ->]; [cbn in L; lia|]. cbn [nth] in P3, P4, P7, P8.
    unfold n_refractiveindex_info, item. cbn [skipn nth_error obind rii_law]. rewrite pairs_flat. cbn [obind].
    rewrite !(cpow_pos w) by auto. cbn [obind]. rewrite !cpow_nonneg by auto. cbn [obind]. rewrite powers_sum by auto.
    destruct (fdiv_cases (r0 * pw w r1) (w ^ 2 - pw r2 r3)) as [[D ->]|[D ->]]; cbn [obind]; [split; [discriminate|intros (? & ? & _); lra]|].
    destruct (fdiv_cases (r4 * pw w r5) (w ^ 2 - pw r6 r7)) as [[D1 ->]|[D1 ->]]; cbn [obind]; [split; [discriminate|intros (? & ? & _); lra]|].
    rewrite fsqrt_iff. split; [intros [N E]; repeat split; auto; lra|intros (_ & _ & N & E); auto].
  - destruct SH as [m L]. destruct c as [|c0 c]; [cbn in L; lia|]. destruct (even_flat m c) as [l ->]; [cbn in L; lia|].
    unfold n_cauchy, item. cbn [tl nth_error rii_law]. rewrite pairs_flat. cbn [obind]. rewrite powers_sum by auto. cbn [obind]. split; [intros [= <-]; auto|intros ->; auto].
  - cbn in SH. listn c. unfold n_gas_offset, n_gas, item, halves. cbn [tl nth_error length Nat.div Nat.divmod Nat.modulo Nat.sub fst snd Nat.eqb firstn skipn combine obind rii_law all2 sum2].
    rewrite fdiv_some by auto. cbn [obind map osum fold_right fst snd]. replace (1 / w ^ 2) with (/ w ^ 2) by (unfold Rdiv; ring).
    destruct (fdiv_cases r0 (r1 - / w ^ 2)) as [[D ->]|[D ->]]; cbn [obind]; [split; [discriminate|intros ([? _] & _); lra]|].
    split; [intros [= <-]; split; [split; [intros ->; apply D; ring|auto]|change (w * (w * 1)) with (w ^ 2); ring]|intros [_ E]; f_equal; lra].
  - cbn in SH. listn c. unfold n_herzberger, item. cbn [nth_error obind agf_law rii_law]. destruct (fdiv_cases 1 (w ^ 2 - 28 / 1000)) as [[D ->]|[D ->]]; cbn [obind]; [split; [discriminate|intros [? ?]; lra]|].
    replace (1 / (w ^ 2 - 28 / 1000)) with (/ (w ^ 2 - 28 / 1000)) by (unfold Rdiv; ring). split; [intros [= <-]; split; [lra|auto]|intros [_ ->]; auto].
  - cbn in SH. listn c. unfold n_exotic, item. cbn [nth_error obind rii_law].
    destruct (fdiv_cases r0 (w ^ 2 - r1)) as [[D ->]|[D ->]]; cbn [obind]; [split; [discriminate|intros (? & _); lra]|].
    destruct (fdiv_cases (r2 * (w - r3)) ((w - r3) ^ 2 + r4)) as [[D1 ->]|[D1 ->]]; cbn [obind]; [split; [discriminate|intros (_ & ? & _); lra]|].
    rewrite fsqrt_iff. split; [intros [N E]; repeat split; auto; lra|intros (_ & _ & N & E); auto].
Qed.
Lemma rii_step_keep e g h : rii_step sfloat e g = Some h -> prefix "formula" (e_typ e) = false -> q_typ h = q_typ g /\ q_coef h = q_coef g.
Proof.
  intros H P. unfold rii_step in H. rewrite P in H. cbn [obind] in H. destruct (String.eqb (e_typ e) "tabulated k"); [|injection H as <-; auto].
  destruct (e_data e); [|discriminate H]. injection H as <-. auto.
Qed.
Lemma rii_loop_keep l g h : Forall (fun e => prefix "formula" (e_typ e) = false) l -> rii_loop sfloat l g = Some h -> q_typ h = q_typ g /\ q_coef h = q_coef g.
Proof.
  intros F. revert g. induction F as [|e l E F IH]; intros g H; cbn [rii_loop] in H; [injection H as <-; auto|].
  destruct (rii_step sfloat e g) as [g'|] eqn:S; [|discriminate H]. cbn [obind] in H. destruct (IH _ H) as [-> ->]. eapply rii_step_keep; eauto.
Qed.
Lemma rii_last a e b g : rii_to_material sfloat (a ++ e :: b) = Some g -> prefix "formula" (e_typ e) = true ->
  Forall (fun e => prefix "formula" (e_typ e) = false) b ->
  exists text, e_coef e = Some text /\ assoc rii_types (e_typ e) = Some (q_typ g) /\ q_coef g = map sfloat (words text).
Proof.
  unfold rii_to_material. generalize (Rii "sellmeier" [] None None). induction a as [|x a IH]; intros g0 H P F; cbn [app rii_loop] in H.
  - destruct (rii_step sfloat e g0) as [g'|] eqn:S; [|discriminate H]. cbn [obind] in H. destruct (rii_loop_keep _ _ _ F H) as [-> ->].
    unfold rii_step in S. rewrite P in S. destruct (assoc rii_types (e_typ e)) as [t|]; [|discriminate S]. cbn [obind] in S.
    destruct (e_range e) as [r|]; [|discriminate S]. cbn [obind] in S. destruct (map sfloat (words r)) as [|lo [|hi [|]]]; try discriminate S.
    destruct (e_coef e) as [text|]; [|discriminate S]. cbn [obind] in S. exists text. split; [auto|].
    destruct (String.eqb (e_typ e) "tabulated k"); [|injection S as <-; auto]. destruct (e_data e); [|discriminate S]. injection S as <-. auto.
  - destruct (rii_step sfloat x g0) as [g'|]; [|discriminate H]. apply (IH _ H); auto.
Qed.
(** the index of a database page is the one of its last formula, with its coefficients *)
Theorem C61_rii a e b g text c k w n : rii_to_material sfloat (a ++ e :: b) = Some g ->
  e_typ e = formula_name k -> Forall (fun e => prefix "formula" (e_typ e) = false) b ->
  e_coef e = Some text -> map sfloat (words text) = map Some c -> rii_shape k c -> 0 < w ->
  rii_index g (w * / 1000000) = Some n <-> rii_law k c w n.
Proof.
  intros H T F X C SH W. assert (P : prefix "formula" (e_typ e) = true).
  { rewrite T. destruct k as [|[|[|[|[|[|[|[|[|[|k]]]]]]]]]]; try contradiction; reflexivity. }
  destruct (rii_last _ _ _ _ H P F) as (text' & X' & A & Q). rewrite X in X'. injection X' as <-.
  unfold rii_index. rewrite Q, C. apply rii_formula; auto. now rewrite <- T.
Qed.
(** formula 8: the index solves (n^2 - 1)/(n^2 - 2) = ..., not the Lorentz-Lorenz relation *)
Theorem C61_rii_retro_refuted a e b g text c1 c2 c3 c4 w n : rii_to_material sfloat (a ++ e :: b) = Some g ->
  e_typ e = formula_name 8 -> Forall (fun e => prefix "formula" (e_typ e) = false) b ->
  e_coef e = Some text -> map sfloat (words text) = map Some [c1; c2; c3; c4] -> 0 < w -> n ^ 2 <> 2 ->
  rii_index g (w * / 1000000) = Some n ->
  (n ^ 2 - 1) / (n ^ 2 - 2) = c1 + c2 * w ^ 2 / (w ^ 2 - c3) + c4 * w ^ 2 /\
  (n <> 1 -> ~ rii_law 8 [c1; c2; c3; c4] w n).
Proof.
  intros H T F X C W N2 I. destruct (rii_last _ _ _ _ H ltac:(rewrite T; reflexivity) F) as (text' & X' & A & Q). rewrite X in X'. injection X' as <-.
  unfold rii_index in I. rewrite Q, C in I. rewrite T in A. cbn [formula_name nth assoc rii_types String.eqb Ascii.eqb Bool.eqb] in A. injection A as A.
  rewrite <- A in I. unfold typ_index in I. rewrite all_some_map in I. cbn [find_formula formulas String.eqb Ascii.eqb Bool.eqb obind] in I. rewrite C32_units in I. cbv iota in I.
  unfold n_retro, item in I. cbn [nth_error obind] in I. destruct (fdiv_cases (c2 * w ^ 2) (w ^ 2 - c3)) as [[D E]|[D E]]; rewrite E in I; cbn [obind] in I; [discriminate I|].
  set (y := c1 + c2 * w ^ 2 / (w ^ 2 - c3) + c4 * w ^ 2) in *. destruct (fdiv_cases 1 (y - 1)) as [[D1 E1]|[D1 E1]]; rewrite E1 in I; cbn [obind] in I; [discriminate I|].
  apply fsqrt_iff in I. destruct I as [N0 N].
  assert (Y : (n ^ 2 - 2) * y = n ^ 2 - 1).
  { assert (Z : (n ^ 2 - 2) * (y - 1) = 1) by (rewrite N; field; auto). lra. }
  split; [apply (Rmult_eq_reg_l (n ^ 2 - 2)); [rewrite Y; field; lra|lra]|].
  intros N1 (_ & _ & L). fold y in L. assert (Z : (n ^ 2 + 2) * y = n ^ 2 - 1) by (rewrite <- L; field; nra).
  assert (y = 0) by lra. assert (M : n ^ 2 = 1) by nra. apply N1. nra.
Qed.
(** a page with tabulated indices only: a material of index one at every wavelength *)
Theorem C61_rii_tabulated_refuted es g w : Forall (fun e => prefix "formula" (e_typ e) = false) es ->
  rii_to_material sfloat es = Some g -> rii_index g w = Some 1.
Proof.
  intros F H. destruct (rii_loop_keep _ _ _ F H) as [T C]. unfold rii_index. rewrite T, C. unfold typ_index, coefficients_index. cbn.
  rewrite Rplus_0_r, fsqrt_some by lra. cbn. now rewrite sqrt_1.
Qed.
End Agf.
(** formula 6 with two terms: the coefficients are paired wrongly, the first with the third *)
Theorem C61_rii_gas_pairing w c1 b1 k1 b2 k2 n : 0 < w ->
  typ_index "gas_offset" (map Some [c1; b1; k1; b2; k2]) (w * / 1000000) = Some n <-> rii_law 6 [c1; b1; b2; k1; k2] w n.
Proof.
  intros W. unfold typ_index. rewrite all_some_map. assert (W2 : w ^ 2 <> 0) by (apply pow_nonzero; lra).
  cbn [find_formula formulas String.eqb Ascii.eqb Bool.eqb obind]; rewrite C32_units; cbv iota.
  unfold n_gas_offset, n_gas, item, halves. cbn [tl nth_error length Nat.div Nat.divmod Nat.modulo Nat.sub fst snd Nat.eqb firstn skipn combine obind rii_law all2 sum2].
  rewrite fdiv_some by auto. cbn [obind map osum fold_right fst snd]. replace (1 / w ^ 2) with (/ w ^ 2) by (unfold Rdiv; ring).
  destruct (fdiv_cases b1 (b2 - / w ^ 2)) as [[D ->]|[D ->]]; cbn [obind]; [split; [discriminate|intros ([? _] & _); lra]|].
  destruct (fdiv_cases k1 (k2 - / w ^ 2)) as [[D1 ->]|[D1 ->]]; cbn [obind]; [split; [discriminate|intros ((_ & ? & _) & _); lra]|].
  split; [intros [= <-]; repeat split; [lra|lra|change (w * (w * 1)) with (w ^ 2); ring]|intros [_ E]; f_equal; lra].
Qed.
Theorem C61_rii_gas_refuted : exists c w n m, 0 < w /\ rii_law 6 c w n /\ typ_index "gas_offset" (map Some c) (w * / 1000000) = Some m /\ m <> n.
Proof.
  exists [0; 1; 2; 3; 4], 1, 3, (13 / 6). split; [lra|]. split; [cbn; lra|]. split; [|lra]. apply C61_rii_gas_pairing; [lra|]. cbn. lra.
Qed.

(** * examples *)
(** decimal numbers without sign, point or exponent *)
Fixpoint demo_digits (s : string) (acc : Z) : option Z :=
  match s with
  | EmptyString => Some acc
  | String a s => let n := nat_of_ascii a in if ((48 <=? n) && (n <=? 57))%nat then demo_digits s (10 * acc + Z.of_nat (n - 48))%Z else None
  end.
Definition demo_int (s : string) : option Z := match s with EmptyString => None | _ => demo_digits s 0 end.
Definition demo_float (s : string) : option R := option_map IZR (demo_int s).
Definition demo_file : list string :=
  ["! comment"; "CC catalogue"; "NM K1 2 517642 2 64 0 1"; "ED 7 8 3"; "CD 3 0 0 0 0 0 0 0 0 0"; "TD 1 0 0 0 0 2 20"; "LD 31 25"; "  ";
   "NM K2 5 999999 6 30"; "GC blue"; "CD 1 2 3 0 0 0 0 0 0 0"; "NM K3 4 1 1 1"; "CD 1 2 3 0 0 0 0 0 0 0";
   "NM K4 9 1 1 1"; "CD 1 3 0 0 0 0 0 0 0 0"]%string.
Example C61_words_example : words "  NM  K1 2" = ["NM"; "K1"; "2"]%string /\ word "K1" /\ white " ".
Proof. split; [reflexivity|]. split; [split; [discriminate|]|cbn; tauto]. apply nw. repeat constructor. Qed.
Definition demo_k1 : list string := ["NM K1 2 517642 2 64 0 1"; "ED 7 8 3"; "CD 3 0 0 0 0 0 0 0 0 0"; "TD 1 0 0 0 0 2 20"; "LD 31 25"]%string.
Example C61_agf_read_example : option_map (map (fun m => (m_name m, m_code m, length (m_data m)))) (agf_read demo_float demo_int demo_file) =
    Some [("K1", "517642", 5%nat); ("K2", "999999", 3%nat); ("K3", "1", 2%nat); ("K4", "1", 2%nat)]%string /\
  option_map (fun ms => map m_data (firstn 1 ms)) (agf_read demo_float demo_int demo_file) = Some [demo_k1].
Proof. split; vm_compute; reflexivity. Qed.
Example C61_agf_accepts_example : option_map (@length _) (agf_read demo_float demo_int demo_file) = Some 4%nat /\
  option_map (@length _) (agf_read demo_float demo_int ["ED 1 2 3"; "NM K1 2 517642 2 64"]%string) = None.
Proof. split; vm_compute; reflexivity. Qed.
Example C61_agf_index_example : exists g, agf_to_material demo_float demo_k1 = Some g /\ g_name g = "K1"%string /\
  glass_index g (1 * / 1000000) = Some 2 /\ In "NM K1 2 517642 2 64 0 1"%string demo_file /\
  (forall l, In l demo_file -> prefix "NM" l = prefix "NM " l).
Proof.
  assert (T : trunc 2 = 2%Z) by (replace 2 with (INR 2) by (cbn; lra); apply trunc_nat).
  assert (H : exists g, agf_to_material demo_float demo_k1 = Some g).
  { assert (F1 : agf_field demo_float "NM K1 2 517642 2 64 0 1" glass0 = Some (Glass "K1" "sellmeier_squared" [] (demo_float "517642") None None None None [] None [])).
    { unfold agf_field. change (take 2 _) with "NM"%string. change (words _) with ["K1"; "2"; "517642"; "2"; "64"; "0"; "1"]%string.
      cbn [String.eqb Ascii.eqb Bool.eqb]. change (demo_float "2") with (Some 2). cbn [obind]. rewrite T. reflexivity. }
    unfold agf_to_material, demo_k1. cbn [agf_fields]. change (String.eqb "NM K1 2 517642 2 64 0 1" "") with false. cbv iota. rewrite F1. eexists. reflexivity. }
  destruct H as [g H]. exists g. split; [exact H|].
  assert (NM : last_line "NM" demo_k1 "NM K1 2 517642 2 64 0 1") by (exists [], (tl demo_k1); split; [reflexivity|]; split; [reflexivity|]; repeat constructor).
  assert (CD : last_line "CD" demo_k1 "CD 3 0 0 0 0 0 0 0 0 0") by (exists (firstn 2 demo_k1), (skipn 3 demo_k1); split; [reflexivity|]; split; [reflexivity|]; repeat constructor).
  destruct (C61_agf_record _ _ _ H) as [HN _]. destruct (HN _ NM) as (name & num & code & more & W & G & _). split; [rewrite G; injection W as <-; reflexivity|].
  split; [|split; [cbn; auto|intros l I; cbn in I; decompose [or] I; subst; try contradiction; reflexivity]].
  apply (C61_agf_index demo_float demo_k1 g "NM K1 2 517642 2 64 0 1" "CD 3 0 0 0 0 0 0 0 0 0" "K1" "2" ["517642"; "2"; "64"; "0"; "1"]%string
    2 [3; 0; 0; 0; 0; 0] [0; 0; 0; 0] 1 2); auto; try reflexivity; try lra.
  - cbn. auto.
  - cbn. repeat split; lra.
Qed.
Example C61_agf_thermal_example : dn_thermal (Thermal 1 0 0 0 0 2 20) 20 (3 / 2) (Some (1 * / 1000000)) = Some (15 / 2) /\
  dn_thermal (Thermal 1 0 0 0 0 20 2) 20 (3 / 2) (Some (1 * / 1000000)) = Some 0.
Proof. split; apply C50_thermal_formula; cbn; lra. Qed.
Example C61_agf_range_example : demo_float "31" = Some 31 /\ demo_float "3" = Some 3 /\ demo_float "1" = Some 1.
Proof. repeat split. Qed.
(** a glass of formula 9 with index 2 gets the index sqrt 5 *)
Example C61_agf_sellmeier4_example : agf_law 9 [1; 3; 0; 0; 0] 1 2 /\ typ_index "sellmeier_squared_offset" (map Some [1; 3; 0; 0; 0; 0; 0; 0; 0; 0]) (1 * / 1000000) = Some (sqrt 5).
Proof.
  split; [cbn; lra|]. unfold typ_index. rewrite all_some_map. cbn [find_formula formulas String.eqb Ascii.eqb Bool.eqb obind]. rewrite C32_units. cbv iota.
  unfold n_sellmeier_squared_offset, even_tail, item, sellmeier_terms. cbn [length Nat.sub Nat.div Nat.divmod fst snd Nat.mul Nat.add tl firstn pairs obind map osum fold_right nth_error].
  rewrite !fdiv_some by lra. cbn [obind]. rewrite fsqrt_some by lra. do 2 f_equal. field.
Qed.
Definition demo_glc : string := "BK7 2 64 3 0 0 0 0 0 0 0 0 2 6 1 2 0 0 0 0 99".
Example C61_glc_example : exists typ, glc_to_material demo_float demo_int demo_glc = Some ("BK7"%string, typ, map Some [1; 2; 0; 0; 0; 0], Some 3) /\
  typ_index typ (map Some [1; 2; 0; 0; 0; 0]) (1 * / 1000000) = Some 2.
Proof.
  destruct (C61_glc demo_float demo_int demo_glc "BK7" "2" "64" "3" ["0"; "0"; "0"; "0"; "0"; "0"; "0"; "0"]%string "2" "6" ["1"; "2"; "0"; "0"; "0"; "0"]%string ["99"]%string
    [1; 2; 0; 0; 0; 0] 2 1 2) as (typ & G & _ & I); try reflexivity; [left; auto|lra|].
  exists typ. split; [exact G|]. apply I. cbn. repeat split; lra.
Qed.
Definition demo_page : list rii_entry :=
  [Entry "formula 1" (Some "1 2") (Some "1") None; Entry "formula 2" (Some "0 2") (Some "1 2 0 0 5") None; Entry "tabulated k" None None (Some "1 2")]%string.
Example C61_rii_example : exists g, rii_to_material demo_float demo_page = Some g /\ rii_index g (1 * / 1000000) = Some 2.
Proof.
  eexists. split; [reflexivity|]. eapply (C61_rii demo_float (firstn 1 demo_page) (nth 1 demo_page (Entry "" None None None)) (skipn 2 demo_page) _ "1 2 0 0 5" [1; 2; 0; 0; 5] 2 1 2);
    try reflexivity; try lra.
  - repeat constructor.
  - cbn. lia.
  - cbn. repeat split; lra.
Qed.
Example C61_rii_retro_example : exists g, rii_to_material demo_float [Entry "formula 8" (Some "0 2") (Some "0 3 0 0") None]%string = Some g /\
  rii_index g (1 * / 1000000) = Some (sqrt (5 / 2)).
Proof.
  eexists. split; [reflexivity|]. unfold rii_index. cbn [q_typ q_coef]. change (map demo_float _) with (map Some [0; 3; 0; 0]). unfold typ_index. rewrite all_some_map.
  cbn [find_formula formulas String.eqb Ascii.eqb Bool.eqb obind]. rewrite C32_units. cbv iota. unfold n_retro, item. cbn [nth_error obind].
  rewrite fdiv_some by lra. cbn [obind]. rewrite fdiv_some by lra. cbn [obind]. rewrite fsqrt_some by lra. do 2 f_equal. field.
Qed.
Example C61_rii_tabulated_example : exists g, rii_to_material demo_float [Entry "tabulated nk" None None (Some "1 2 3")]%string = Some g /\ rii_index g (1 * / 1000000) = Some 1.
Proof. eexists. split; [reflexivity|]. apply (C61_rii_tabulated_refuted demo_float [Entry "tabulated nk" None None (Some "1 2 3")]%string); [repeat constructor|reflexivity]. Qed.

Print Assumptions C61_words.
Print Assumptions C61_agf_record.
Print Assumptions C61_agf_index.
Print Assumptions C61_agf_missing_refuted.
Print Assumptions C61_agf_sellmeier4_refuted.
Print Assumptions C61_agf_range_refuted.
Print Assumptions C61_agf_thermal_refuted.
Print Assumptions C61_agf_read.
Print Assumptions C61_agf_accepts.
Print Assumptions C61_agf.
Print Assumptions C61_glc.
Print Assumptions C61_rii.
Print Assumptions C61_rii_retro_refuted.
Print Assumptions C61_rii_tabulated_refuted.
Print Assumptions C61_rii_gas_pairing.
Print Assumptions C61_rii_gas_refuted.
