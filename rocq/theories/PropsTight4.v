(** Further theorems of C78: importing again, and the text made of the bytes of a section name. *)
From Coq Require Import String Ascii ZArith Bool Arith List Lia.
From Verif Require Import Base CatalogModel LibraryModel ImporterModel PropsImporter.
Import ListNotations.
Open Scope string_scope.

(** ** importing again *)
(** the other importers record the file and its date: refreshing an unchanged file any number of
    times adds its catalogue once *)
Theorem C78_recorded_refresh i parser has_parser fs fil st c cats s : (i <> OsloDir /\ i <> OsloGlc) -> choose fil = Some i ->
  (forall a, In a (c :: cats) -> Some (c_file a) = file_attribute i fil /\ c_date a = f_mtime st) ->
  has_parser fil = true -> fs fil = Some st -> parser fil st = Some (c :: cats) -> working s = committed s -> first_of fil (working s) = None ->
  forall n, committed (load_all has_parser parser s (repeat (fs, fil, Refresh) (S n))) = (committed s ++ c :: cats)%list.
Proof.
  intros NO _ CF HP FS PA W F n. destruct (CF c (or_introl eq_refl)) as (CC & CD).
  assert (FA : file_attribute i fil = Some fil) by (destruct i; destruct NO; try contradiction; reflexivity).
  rewrite FA in CC. injection CC as CC.
  cbn [repeat load_all]. unfold load. unfold prepare. rewrite F, HP, FS, PA. cbn [fst]. rewrite W.
  set (db := (committed s ++ c :: cats)%list).
  assert (FD : first_of fil db = Some c).
  { unfold first_of, db in *. rewrite W in F. clear - F CC. revert F. induction (committed s) as [|a l IH]; cbn [find List.app].
    - intros _. unfold of_file. rewrite CC, String.eqb_refl. reflexivity.
    - destruct (of_file fil a); [discriminate|exact IH]. }
  clearbody db. clear F W. induction n as [|n IH]; cbn [repeat load_all]; [reflexivity|].
  assert (L : load has_parser parser fs (Session db db) fil Refresh = (Session db db, Skipped)).
  { unfold load, prepare. cbn [working]. rewrite FD, FS, CD, Z.leb_refl. reflexivity. }
  rewrite L. exact IH.
Qed.
Example C78_recorded_refresh_example : let cat := Catalog "schott" "zemax" "agf" "schott.agf" 1%Z (Some 1%Z) [Item KMaterial "N-BK7" ""] in
  choose "schott.agf" = Some ZemaxAgf /\ (ZemaxAgf <> OsloDir /\ ZemaxAgf <> OsloGlc) /\ Some (c_file cat) = file_attribute ZemaxAgf "schott.agf" /\ c_date cat = f_mtime (File 1 1 "") /\
  first_of "schott.agf" [] = None.
Proof. cbv zeta. split; [reflexivity|]. split; [split; discriminate|]. repeat split. Qed.

(** ** the text of bytes *)
(** Specification: the Python literal of bytes.  Printable characters stand for themselves, except
    backslash and the quote; tab, line feed and carriage return have their escapes; any other byte
    is written with two lower case hexadecimal digits. *)
Definition hexdigit (a : ascii) (n : nat) : Prop := nth_error (list_ascii_of_string "0123456789abcdef") n = Some a.
Definition printable (a : ascii) : Prop := (32 <= nat_of_ascii a <= 126)%nat.
Inductive written (q : ascii) : ascii -> string -> Prop :=
| W_self a : printable a -> a <> "\"%char -> a <> q -> written q a (String a "")
| W_backslash : written q "\" "\\"
| W_quote : written q q (String "\" (String q ""))
| W_tab : written q "009" "\t"
| W_feed : written q "010" "\n"
| W_return : written q "013" "\r"
| W_hex a h l x y : ~ printable a -> a <> "009"%char -> a <> "010"%char -> a <> "013"%char ->
    nat_of_ascii a = (16 * h + l)%nat -> hexdigit x h -> hexdigit y l -> written q a (String "\" (String "x" (String x (String y "")))).
Inductive literal (q : ascii) : string -> string -> Prop :=
| L_end : literal q "" ""
| L_byte a w s t : written q a w -> literal q s t -> literal q (String a s) (w ++ t).
Lemma escape_written q a : q = "'"%char \/ q = """"%char -> written q a (escape q a).
Proof.
  intros Q. unfold escape. destruct (Ascii.eqb_spec a "\"%char) as [->|NB]; [constructor|].
  destruct (Ascii.eqb_spec a q) as [->|NQ]; [constructor|].
  destruct (nat_of_ascii a =? 9)%nat eqn:E9; [apply Nat.eqb_eq in E9; rewrite <- (ascii_nat_embedding a), E9; constructor|].
  destruct (nat_of_ascii a =? 10)%nat eqn:E10; [apply Nat.eqb_eq in E10; rewrite <- (ascii_nat_embedding a), E10; constructor|].
  destruct (nat_of_ascii a =? 13)%nat eqn:E13; [apply Nat.eqb_eq in E13; rewrite <- (ascii_nat_embedding a), E13; constructor|].
  apply Nat.eqb_neq in E9, E10, E13.
  destruct ((32 <=? nat_of_ascii a) && (nat_of_ascii a <? 127))%nat eqn:P.
  - apply andb_true_iff in P. destruct P as [P1 P2]. apply Nat.leb_le in P1. apply Nat.ltb_lt in P2. constructor; [unfold printable; lia|auto|auto].
  - apply W_hex with (h := (nat_of_ascii a / 16)%nat) (l := (nat_of_ascii a mod 16)%nat).
    + unfold printable. intros [P1 P2]. apply andb_false_iff in P. destruct P as [P|P]; [apply Nat.leb_gt in P; lia|apply Nat.ltb_ge in P; lia].
    + intros ->. apply E9. reflexivity.
    + intros ->. apply E10. reflexivity.
    + intros ->. apply E13. reflexivity.
    + apply Nat.div_mod. discriminate.
    + assert (L : (nat_of_ascii a / 16 < 16)%nat) by (apply Nat.div_lt_upper_bound; [discriminate|]; pose proof (nat_ascii_bounded a); lia).
      revert L. generalize (nat_of_ascii a / 16)%nat. intros n L. do 16 (destruct n as [|n]; [reflexivity|]). lia.
    + assert (L : (nat_of_ascii a mod 16 < 16)%nat) by (apply Nat.mod_upper_bound; discriminate).
      revert L. generalize (nat_of_ascii a mod 16)%nat. intros n L. do 16 (destruct n as [|n]; [reflexivity|]). lia.
Qed.
Lemma has_in a s : has a s = true <-> In a (list_ascii_of_string s).
Proof. unfold has. rewrite existsb_exists. split; [intros (x & I & E); apply Ascii.eqb_eq in E; subst; auto|]. intros I. exists a. split; [auto|apply Ascii.eqb_refl]. Qed.
(** The text of bytes is the literal of the bytes; double quotes are used exactly if the bytes
    contain a single quote and no double quote. *)
Theorem C78_bytes_literal s : exists q t, str_bytes s = "b" ++ String q t ++ String q "" /\ literal q s t /\
  let uses c := In c (list_ascii_of_string s) in
  (uses "'"%char /\ ~ uses """"%char -> q = """"%char) /\ (~ (uses "'"%char /\ ~ uses """"%char) -> q = "'"%char).
Proof.
  unfold str_bytes. set (q := if (has "'" s && negb (has """" s))%bool then """"%char else "'"%char).
  exists q, (String.concat "" (map (escape q) (list_ascii_of_string s))). split; [reflexivity|]. split.
  - assert (Q : q = "'"%char \/ q = """"%char) by (unfold q; destruct (_ && _)%bool; auto). clearbody q.
    induction s as [|a s IH]; [constructor|]. cbn [list_ascii_of_string map].
    replace (String.concat "" (escape q a :: map (escape q) (list_ascii_of_string s))) with (escape q a ++ String.concat "" (map (escape q) (list_ascii_of_string s))).
    + constructor; [apply escape_written; exact Q|exact IH].
    + destruct (map (escape q) (list_ascii_of_string s)); cbn [String.concat]; [|reflexivity].
      generalize (escape q a). clear. induction s as [|b s IH]; cbn [String.append]; [reflexivity|rewrite IH; reflexivity].
  - cbv zeta. rewrite <- !has_in. unfold q. destruct (has "'" s), (has """" s); cbn; split; intros H; try reflexivity; exfalso; intuition congruence.
Qed.
(** reading the literal again: different bytes have different texts *)
Lemma written_first q a w b v t t' : q = "'"%char \/ q = """"%char -> written q a w -> written q b v -> w ++ t = v ++ t' -> a = b /\ t = t'.
Proof.
  intros Q A B E.
  assert (HH : forall x h k, hexdigit x h -> hexdigit x k -> h = k).
  { intros x h k H K. unfold hexdigit in *. assert (ND : NoDup (list_ascii_of_string "0123456789abcdef")) by (repeat (constructor; [cbn; intuition discriminate|]); constructor).
    apply (proj1 (NoDup_nth_error _) ND); [apply nth_error_Some; congruence|congruence]. }
  destruct A; inversion B; subst; cbn [String.append] in E; try (injection E; intros; subst; auto; fail); try (exfalso; destruct Q; subst; injection E; intros; subst; congruence).
  injection E. intros TT X2 X1. subst. split; auto.
  rewrite <- (ascii_nat_embedding a), <- (ascii_nat_embedding b). f_equal.
  match goal with H1 : hexdigit ?x h, H2 : hexdigit ?x ?k |- _ => pose proof (HH _ _ _ H1 H2) end.
  match goal with H1 : hexdigit ?x l, H2 : hexdigit ?x ?k |- _ => pose proof (HH _ _ _ H1 H2) end. lia.
Qed.
Theorem C78_bytes_injective s s' : str_bytes s = str_bytes s' -> s = s'.
Proof.
  intros E. destruct (C78_bytes_literal s) as (q & t & S & L & U). destruct (C78_bytes_literal s') as (q' & t' & S' & L' & U').
  rewrite S, S' in E. cbn [String.append] in E. injection E as EQ ET. subst q'.
  assert (Q : q = "'"%char \/ q = """"%char).
  { cbv zeta in U. destruct (has "'" s) eqn:A, (has """" s) eqn:B; rewrite <- !has_in, A, B in U; [left; apply U; intuition congruence|right; apply U; intuition congruence|left; apply U; intuition congruence|left; apply U; intuition congruence]. }
  assert (T : t = t').
  { clear - ET. revert t' ET. induction t as [|a t IH]; intros [|b t'] ET; cbn [String.append] in ET; auto.
    - injection ET as _ ET. destruct t'; discriminate.
    - injection ET as _ ET. destruct t; discriminate.
    - injection ET as -> ET. f_equal. apply IH, ET. }
  subst t'. clear - L L' Q. revert s' L'. induction L as [|a w s t W L IH]; intros s' L'.
  - inversion L' as [|b v s2 t2 V L2]; subst; [reflexivity|]. exfalso. destruct V; discriminate.
  - remember (w ++ t) as x eqn:X. destruct L' as [|b v s2 t2 V L2].
    + exfalso. destruct W; discriminate.
    + destruct (written_first q b v a w t2 t Q V W X) as [-> ->]. f_equal. apply IH, L2.
Qed.
Example C78_bytes_example : str_bytes "it's" = "b""it's""" /\ str_bytes (String "009" (String "200" "a\")) = "b'\t\xc8a\\'" /\ str_bytes "a" <> str_bytes "b".
Proof. split; [reflexivity|]. split; [reflexivity|discriminate]. Qed.
Print Assumptions C78_recorded_refresh.
Print Assumptions C78_bytes_literal.
Print Assumptions C78_bytes_injective.
