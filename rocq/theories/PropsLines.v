(** C92, continued: the lines of a text, blank ones included. *)
From Coq Require Import String Ascii Bool List Lia Arith.
From Verif Require Import Base CatalogModel ZmxTextModel PropsCatalog PropsZmxText.
Import ListNotations.
Open Scope string_scope.
Open Scope list_scope.

(** a text is the sequence of its lines; each ends with one character or with the pair 13, 10; the last may lack its end *)
Inductive text_lines : list string -> string -> Prop :=
| T_end : text_lines [] ""
| T_last u : u <> ""%string -> each (fun a => ~ line_end a) u -> text_lines [u] u
| T_pair u ls s : each (fun a => ~ line_end a) u -> text_lines ls s -> text_lines (u :: ls) (u ++ String "013" (String "010" s))
| T_line u b ls s : each (fun a => ~ line_end a) u -> line_end b -> ~ (b = "013"%char /\ exists t, s = String "010" t) -> text_lines ls s ->
    text_lines (u :: ls) (u ++ String b s).
Lemma from_no_end u : each (fun a => ~ line_end a) u -> forall cur s, splitlines_from cur (u ++ s) = splitlines_from (rev_string u cur) s.
Proof. induction u as [|a u IH]; intros N cur s; [reflexivity|]. destruct N as [A N]. cbn. apply is_break_not in A. rewrite A. apply IH. auto. Qed.
Lemma code_13 a : is_cr a = true <-> a = "013"%char.
Proof. unfold is_cr. rewrite Nat.eqb_eq. split; [|now intros ->]. intros E. rewrite <- (ascii_nat_embedding a), E. reflexivity. Qed.
Lemma code_10 a : is_lf a = true <-> a = "010"%char.
Proof. unfold is_lf. rewrite Nat.eqb_eq. split; [|now intros ->]. intros E. rewrite <- (ascii_nat_embedding a), E. reflexivity. Qed.
Lemma rev_nonempty u : forall acc, acc <> ""%string -> rev_string u acc <> ""%string.
Proof. induction u as [|a u IH]; intros acc A; cbn; [auto|]. apply IH. discriminate. Qed.
Lemma text_lines_read ls s : text_lines ls s -> splitlines s = ls.
Proof.
  unfold splitlines. induction 1 as [|u NE N|u ls s N _ IH|u b ls s N B NP _ IH].
  - reflexivity.
  - replace (splitlines_from "" u) with (splitlines_from "" (u ++ "")) by (f_equal; clear; induction u as [|a u IH]; [reflexivity|cbn; now f_equal]). rewrite from_no_end by auto. cbn. destruct u as [|a u]; [congruence|]. cbn.
    destruct (rev_string u (String a "")) eqn:R; [exfalso; eapply rev_nonempty; [|exact R]; discriminate|]. rewrite <- R.
    change (rev_string u (String a "")) with (rev_string (String a u) ""). rewrite rev_rev. reflexivity.
  - rewrite from_no_end by auto. cbn. rewrite rev_rev, IH. reflexivity.
  - rewrite from_no_end by auto. cbn. apply is_break_iff in B. rewrite B, rev_rev. f_equal. destruct s as [|c s]; [exact IH|].
    destruct (is_cr b && is_lf c)%bool eqn:C; [|exact IH]. exfalso. apply andb_true_iff in C. destruct C as [C1 C2]. apply code_13 in C1. apply code_10 in C2. subst. apply NP. eauto.
Qed.
Lemma text_lines_exist s : exists ls, text_lines ls s.
Proof.
  assert (CUT : forall s, each (fun a => ~ line_end a) s \/ exists u b t, s = (u ++ String b t)%string /\ each (fun a => ~ line_end a) u /\ line_end b).
  { clear. induction s as [|a s IH]; [left; exact I|]. destruct (is_break a) eqn:B.
    - right. exists ""%string, a, s. apply is_break_iff in B. cbn. auto.
    - apply is_break_not in B. destruct IH as [N|(u & b & t & -> & N & E)]; [left; cbn; auto|]. right. exists (String a u), b, t. cbn. auto. }
  assert (LA : forall u t, String.length (u ++ t) = (String.length u + String.length t)%nat) by (induction u; intros; cbn; auto).
  assert (G : forall n s, (String.length s <= n)%nat -> exists ls, text_lines ls s); [|eapply G; reflexivity].
  clear s. induction n as [|n IH]; intros s L.
  - destruct s; [exists []; constructor|cbn in L; lia].
  - destruct (CUT s) as [N|(u & b & t & -> & N & B)].
    + destruct s as [|a s]; [exists []; constructor|]. exists [String a s]. constructor; [discriminate|auto].
    + rewrite LA in L. cbn in L. destruct (is_cr b) eqn:CR.
      * destruct t as [|c t].
        { destruct (IH ""%string) as (ls & H); [cbn; lia|]. exists (u :: ls). apply T_line; auto. intros [_ (x & X)]. discriminate. }
        destruct (is_lf c) eqn:LF.
        { apply code_13 in CR. apply code_10 in LF. subst. destruct (IH t) as (ls & H); [cbn in L; lia|]. exists (u :: ls). apply T_pair; auto. }
        destruct (IH (String c t)) as (ls & H); [lia|]. exists (u :: ls). apply T_line; auto. intros [_ (x & X)]. injection X as -> ->. apply Bool.diff_true_false. rewrite <- LF. reflexivity.
      * destruct (IH t) as (ls & H); [lia|]. exists (u :: ls). apply T_line; auto. intros [-> _]. discriminate.
Qed.
Theorem C92_splitlines s ls : splitlines s = ls <-> text_lines ls s.
Proof.
  split; [|apply text_lines_read]. intros <-. destruct (text_lines_exist s) as (ls & H). rewrite (text_lines_read _ _ H). exact H.
Qed.
(** two line feeds enclose a blank line, the pair 13, 10 does not *)
Example C92_splitlines_example : splitlines (String "a" (String "010" (String "010" (String "b" (String "013" (String "010" (String "c" ""))))))) = ["a"; ""; "b"; "c"]%string.
Proof. reflexivity. Qed.
