(** Properties of the lens catalog reader (C35). *)
From Coq Require Import List Arith ZArith Reals Lia Bool Lra.
From Verif Require Import ZmfModel.
Import ListNotations.
Open Scope Z_scope.

Lemma xor_from_length mantissa p d a b : length (xor_from mantissa p d a b) = length d.
Proof. revert p. induction d; cbn; auto. Qed.
Lemma key_byte_range mantissa x : 0 <= key_byte mantissa x < 256.
Proof. unfold key_byte. apply Z.mod_pos_bound. lia. Qed.
Lemma lxor_byte a b : byte_ok a -> byte_ok b -> byte_ok (Z.lxor a b).
Proof.
  unfold byte_ok. intros A B. assert (P : 0 <= Z.lxor a b) by (apply Z.lxor_nonneg; lia). split; [auto|].
  destruct (Z.eq_dec (Z.lxor a b) 0) as [->|N]; [lia|]. change 256 with (2 ^ 8). apply Z.log2_lt_pow2; [lia|].
  eapply Z.le_lt_trans; [apply Z.log2_lxor; lia|].
  assert (L : forall x, 0 <= x < 256 -> Z.log2 x < 8). { intros x X. destruct (Z.eq_dec x 0) as [->|]; [reflexivity|]. apply Z.log2_lt_pow2; [lia|]. change (2 ^ 8) with 256. lia. }
  pose proof (L a A). pose proof (L b B). lia.
Qed.

(** * C35 *)
(** the cipher is its own inverse, keeps lengths, bytes and prefixes, whatever the key stream *)
Theorem C35_involution mantissa data a b :
  zmf_obfuscate mantissa (zmf_obfuscate mantissa data a b) a b = data /\
  length (zmf_obfuscate mantissa data a b) = length data /\
  (Forall byte_ok data -> Forall byte_ok (zmf_obfuscate mantissa data a b)) /\
  (forall n, zmf_obfuscate mantissa (firstn n data) a b = firstn n (zmf_obfuscate mantissa data a b)).
Proof.
  unfold zmf_obfuscate. generalize 0%nat. induction data as [|d data IH]; intros p.
  - cbn. repeat split; auto. intros [|n]; reflexivity.
  - destruct (IH (S p)) as [A [B [C D]]]. cbn. split; [|split; [auto|split]].
    + rewrite A, Z.lxor_assoc, Z.lxor_nilpotent, Z.lxor_0_r. auto.
    + intros F. inversion F; subst. constructor; [|auto]. apply lxor_byte; [auto|]. apply key_byte_range.
    + intros [|n]; [reflexivity|]. cbn. rewrite D. auto.
Qed.
(** different texts have different ciphers *)
Theorem C35_injective mantissa x y a b : zmf_obfuscate mantissa x a b = zmf_obfuscate mantissa y a b -> x = y.
Proof.
  intros H. rewrite <- (proj1 (C35_involution mantissa x a b)), H. apply C35_involution.
Qed.

(** writer, as the file format is documented by the reader's struct layout *)
Definition put32 (n : Z) : list Z := [n mod 256; n / 256 mod 256; n / 256 / 256 mod 256; n / 256 / 256 / 256].
Definition put_lens mantissa double (l : lens) : list Z :=
  (l_name l ++ repeat 0 (100 - length (l_name l))) ++ put32 (l_version l) ++ put32 (l_elements l) ++ put32 (l_shape l) ++
  put32 (l_aspheric l) ++ put32 (l_grin l) ++ put32 (l_toroidal l) ++ put32 (Z.of_nat (length (l_data l))) ++ l_efl l ++ l_enp l ++
  zmf_obfuscate mantissa (l_data l) (double (l_efl l)) (double (l_enp l)).
Definition put_file mantissa double (ls : list lens) : list Z := put32 1001 ++ flat_map (put_lens mantissa double) ls.
Definition word (n : Z) : Prop := 0 <= n < 2 ^ 32.
(** what can be stored: a name without NUL at its ends, 32-bit fields, a shape code the reader
    knows, a text that starts with its version line *)
Definition storable (l : lens) : Prop :=
  (length (l_name l) <= 100)%nat /\ hd 1 (l_name l) <> 0 /\ last (l_name l) 1 <> 0 /\
  word (l_version l) /\ word (l_elements l) /\ 0 <= l_shape l < 5 /\ word (l_aspheric l) /\ word (l_grin l) /\ word (l_toroidal l) /\
  word (Z.of_nat (length (l_data l))) /\ length (l_efl l) = 8%nat /\ length (l_enp l) = 8%nat /\
  exists text, l_data l = vers (l_version l) ++ text.

Lemma u32_put n : word n -> u32 (put32 n) = n.
Proof.
  unfold word. intros H. unfold u32, put32. pose proof (Z.div_mod n 256 ltac:(lia)). pose proof (Z.div_mod (n / 256) 256 ltac:(lia)).
  pose proof (Z.div_mod (n / 256 / 256) 256 ltac:(lia)). lia.
Qed.
Lemma skipn_exact {A} (x y : list A) n : length x = n -> skipn n (x ++ y) = y.
Proof. intros <-. rewrite skipn_app, skipn_all, Nat.sub_diag. auto. Qed.
Lemma firstn_exact {A} (x y : list A) n : length x = n -> firstn n (x ++ y) = x.
Proof. intros <-. rewrite firstn_app, firstn_all, Nat.sub_diag. cbn. apply app_nil_r. Qed.
Lemma field_at x w y pos : length x = pos -> word w -> field (x ++ put32 w ++ y) pos = w.
Proof. intros L W. unfold field. rewrite skipn_exact by auto. rewrite firstn_exact by reflexivity. apply u32_put. auto. Qed.
Lemma lstrip_id l : hd 1 l <> 0 -> lstrip l = l.
Proof. destruct l as [|[| |] l]; cbn; auto. lia. Qed.
Lemma lstrip_zeros n l : lstrip (repeat 0 n ++ l) = lstrip l.
Proof. induction n; cbn; auto. Qed.
Lemma hd_rev (l : list Z) : hd 1 (rev l) = last l 1.
Proof. destruct l as [|z l] using rev_ind; [reflexivity|]. rewrite rev_app_distr, last_last. reflexivity. Qed.
Lemma strip_pad name n : hd 1 name <> 0 -> last name 1 <> 0 -> strip (name ++ repeat 0 n) = name.
Proof.
  intros H L. unfold strip. assert (R : forall k, rev (repeat 0 k) = repeat 0 k).
  { induction k; [reflexivity|]. cbn [repeat rev]. rewrite IHk. symmetry. apply repeat_cons. }
  destruct name as [|z name].
  - cbn [app]. rewrite <- (app_nil_r (repeat 0 n)), lstrip_zeros. reflexivity.
  - rewrite (lstrip_id ((z :: name) ++ repeat 0 n)) by exact H.
    rewrite rev_app_distr, R, lstrip_zeros, lstrip_id by (rewrite hd_rev; auto). apply rev_involutive.
Qed.
Lemma startswith_app p t : startswith (p ++ t) p = true.
Proof. induction p; [reflexivity|]. cbn [startswith app]. rewrite Z.eqb_refl. auto. Qed.

Lemma startswith_spec p d : startswith d p = true -> exists t, d = p ++ t.
Proof.
  revert d. induction p as [|a p IH]; intros d H; [exists d; reflexivity|]. destruct d as [|b d]; [discriminate H|]. cbn [startswith] in H.
  apply andb_true_iff in H. destruct H as [E H]. apply Z.eqb_eq in E. subst. destruct (IH d H) as [t ->]. exists t. reflexivity.
Qed.

Definition header (l : lens) : list Z :=
  (l_name l ++ repeat 0 (100 - length (l_name l))) ++ put32 (l_version l) ++ put32 (l_elements l) ++ put32 (l_shape l) ++
  put32 (l_aspheric l) ++ put32 (l_grin l) ++ put32 (l_toroidal l) ++ put32 (Z.of_nat (length (l_data l))) ++ l_efl l ++ l_enp l.
Lemma header_length l : storable l -> length (header l) = 144%nat.
Proof.
  intros [A [_ [_ [_ [_ [_ [_ [_ [_ [_ [B [C _]]]]]]]]]]]]. unfold header. rewrite !app_length, repeat_length, B, C.
  unfold put32. cbn [length]. lia.
Qed.
Lemma put_header mantissa double l : put_lens mantissa double l = header l ++ zmf_obfuscate mantissa (l_data l) (double (l_efl l)) (double (l_enp l)).
Proof. unfold put_lens, header. rewrite <- !app_assoc. reflexivity. Qed.
Lemma read_put mantissa double l rest : storable l ->
  read_lens mantissa double (header l) (zmf_obfuscate mantissa (l_data l) (double (l_efl l)) (double (l_enp l)) ++ rest) = Some (l, rest).
Proof.
  intros S. pose proof S as [N [H1 [H2 [W1 [W2 [W3 [W4 [W5 [W6 [W7 [E1 [E2 [text T]]]]]]]]]]]]].
  assert (W3' : word (l_shape l)) by (unfold word; lia).
  set (nm := l_name l ++ repeat 0 (100 - length (l_name l))). assert (LN : length nm = 100%nat) by (unfold nm; rewrite app_length, repeat_length; lia).
  assert (F1 : field (header l) 100 = l_version l). { apply field_at; auto. }
  assert (F2 : field (header l) 104 = l_elements l).
  { unfold header. fold nm. rewrite app_assoc. apply field_at; auto. rewrite app_length, LN. reflexivity. }
  assert (F3 : field (header l) 108 = l_shape l).
  { unfold header. fold nm. rewrite app_assoc, app_assoc. apply field_at; auto. rewrite !app_length, LN. reflexivity. }
  assert (F4 : field (header l) 112 = l_aspheric l).
  { unfold header. fold nm. rewrite app_assoc, app_assoc, app_assoc. apply field_at; auto. rewrite !app_length, LN. reflexivity. }
  assert (F5 : field (header l) 116 = l_grin l).
  { unfold header. fold nm. rewrite app_assoc, app_assoc, app_assoc, app_assoc. apply field_at; auto. rewrite !app_length, LN. reflexivity. }
  assert (F6 : field (header l) 120 = l_toroidal l).
  { unfold header. fold nm. rewrite app_assoc, app_assoc, app_assoc, app_assoc, app_assoc. apply field_at; auto. rewrite !app_length, LN. reflexivity. }
  assert (F7 : field (header l) 124 = Z.of_nat (length (l_data l))).
  { unfold header. fold nm. rewrite app_assoc, app_assoc, app_assoc, app_assoc, app_assoc, app_assoc. apply field_at; auto. rewrite !app_length, LN. reflexivity. }
  assert (F8 : firstn 8 (skipn 128 (header l)) = l_efl l).
  { unfold header. fold nm. rewrite app_assoc, app_assoc, app_assoc, app_assoc, app_assoc, app_assoc, app_assoc.
    rewrite skipn_exact by (rewrite !app_length, LN; reflexivity). apply firstn_exact. auto. }
  assert (F9 : firstn 8 (skipn 136 (header l)) = l_enp l).
  { unfold header. fold nm. rewrite app_assoc, app_assoc, app_assoc, app_assoc, app_assoc, app_assoc, app_assoc, app_assoc.
    rewrite skipn_exact by (rewrite !app_length, LN, E1; reflexivity). rewrite <- E2. apply firstn_all. }
  assert (F0 : firstn 100 (header l) = nm). { unfold header. fold nm. apply firstn_exact. auto. }
  unfold read_lens. rewrite F0, F1, F2, F3, F4, F5, F6, F7, F8, F9. rewrite Nat2Z.id.
  destruct (Z.ltb_spec (l_shape l) 5); [|lia]. cbn [negb]. unfold read.
  destruct (C35_involution mantissa (l_data l) (double (l_efl l)) (double (l_enp l))) as [I [L _]].
  rewrite firstn_exact, skipn_exact by auto. rewrite L, Nat.eqb_refl. cbn [negb]. rewrite I.
  rewrite T at 1. rewrite startswith_app. cbn [negb]. unfold nm. rewrite strip_pad by auto. destruct l; reflexivity.
Qed.
Lemma read_puts mantissa double ls : forall fuel junk, Forall storable ls -> (length junk < 144)%nat ->
  (length ls < fuel)%nat -> read_lenses mantissa double fuel (flat_map (put_lens mantissa double) ls ++ junk) = Some ls.
Proof.
  induction ls as [|l ls IH]; intros fuel junk S J F; destruct fuel as [|fuel]; try (cbn in F; lia).
  - cbn [flat_map app]. cbn [read_lenses]. unfold read. destruct (Nat.eqb_spec (length (firstn 144 junk)) 144) as [E|E]; [|reflexivity].
    rewrite firstn_length in E. lia.
  - inversion S as [|? ? S1 S2]; subst. cbn [flat_map]. rewrite put_header, <- !app_assoc. cbn [read_lenses]. unfold read at 1.
    rewrite firstn_exact, skipn_exact by (apply header_length; auto). rewrite header_length by auto. rewrite Nat.eqb_refl. cbn [negb].
    rewrite read_put by auto. rewrite IH; auto. cbn in F. lia.
Qed.
(** reading what was written gives the same lenses in the same order, any number of them; up to
    143 trailing bytes are ignored *)
Theorem C35_roundtrip mantissa double ls junk : Forall storable ls -> (length junk < 144)%nat ->
  zmf_read mantissa double (put_file mantissa double ls ++ junk) = Some (1001, ls).
Proof.
  intros S J. unfold zmf_read, put_file, read. rewrite <- app_assoc. rewrite firstn_exact, skipn_exact by reflexivity.
  cbn [length Nat.eqb negb put32]. change (u32 (put32 1001)) with 1001. cbn [Z.eqb Pos.eqb negb].
  rewrite read_puts; auto. rewrite app_length. cbn [length put32]. rewrite app_length.
  assert (G : (length ls <= length (flat_map (put_lens mantissa double) ls))%nat).
  { clear J. induction S as [|l ls S1 S2 IH]; cbn [flat_map length]; [lia|]. rewrite app_length, put_header, app_length, header_length by auto. lia. }
  lia.
Qed.
(** a file cut inside a description, of another version, or with a text that does not decrypt to its version line is rejected *)
Theorem C35_rejects mantissa double l n : storable l -> (n < length (l_data l))%nat ->
  read_lens mantissa double (header l) (firstn n (zmf_obfuscate mantissa (l_data l) (double (l_efl l)) (double (l_enp l)))) = None.
Proof.
  intros S NL. pose proof S as [N [H1 [H2 [W1 [W2 [W3 [W4 [W5 [W6 [W7 [E1 [E2 [text T]]]]]]]]]]]]].
  set (nm := l_name l ++ repeat 0 (100 - length (l_name l))). assert (LN : length nm = 100%nat) by (unfold nm; rewrite app_length, repeat_length; lia).
  assert (F7 : field (header l) 124 = Z.of_nat (length (l_data l))).
  { unfold header. fold nm. rewrite app_assoc, app_assoc, app_assoc, app_assoc, app_assoc, app_assoc. apply field_at; auto. rewrite !app_length, LN. reflexivity. }
  unfold read_lens. destruct (negb (field (header l) 108 <? 5)); [auto|]. rewrite F7, Nat2Z.id. unfold read.
  destruct (C35_involution mantissa (l_data l) (double (l_efl l)) (double (l_enp l))) as [_ [L _]].
  rewrite firstn_length, firstn_length, L. destruct (Nat.eqb_spec (Nat.min (length (l_data l)) (Nat.min n (length (l_data l)))) (length (l_data l))); [lia|]. reflexivity.
Qed.
Theorem C35_version mantissa double f ls v : zmf_read mantissa double f = Some (v, ls) ->
  v = 1001 /\ forall l, In l ls -> exists text, l_data l = vers (l_version l) ++ text.
Proof.
  unfold zmf_read. cbn [read]. destruct (negb _); [discriminate|]. destruct (Z.eqb_spec (u32 (firstn 4 f)) 1001) as [E|E]; cbn [negb]; [|discriminate].
  destruct (read_lenses mantissa double (length f) (skipn 4 f)) as [l'|] eqn:R; [|discriminate]. intros H. injection H as <- <-. split; [auto|]. clear E.
  revert R. generalize (skipn 4 f). generalize (length f). intros n. revert l'. induction n as [|n IH]; intros l' g; cbn [read_lenses].
  - intros H. injection H as <-. intros l [].
  - cbn [read]. destruct (negb _); [intros H; injection H as <-; intros l []|].
    destruct (read_lens mantissa double (firstn 144 g) (skipn 144 g)) as [[l g']|] eqn:RL; [|discriminate].
    destruct (read_lenses mantissa double n g') as [ls|] eqn:RS; [|discriminate]. intros H. injection H as <-. intros q [<-|I]; [|eapply IH; eauto].
    unfold read_lens in RL. destruct (negb (field (firstn 144 g) 108 <? 5)); [discriminate RL|]. unfold read in RL.
    match type of RL with (if ?c then None else _) = _ => destruct c end; [discriminate RL|].
    match type of RL with context[startswith ?d ?p] => destruct (startswith d p) eqn:SW end; [|discriminate RL]. cbn [negb] in RL.
    apply startswith_spec in SW. assert (E : forall x y : lens * list Z, Some x = Some y -> x = y) by congruence. apply E in RL.
    assert (E' : l = fst (l, g')) by reflexivity. rewrite <- RL in E'. rewrite E'. exact SW.
Qed.
(** ** C35: the cipher, byte by byte.  Spec: the key of byte [p] is read off the printed number: [text ds x] is the beginning of what Python's
    [f"{x:.8e}"] prints for a number with the nine significant digits [ds], and the key is the number written in characters 4, 5 and 6 of it *)
Definition text (ds : list Z) (x : R) : list Z :=
  (if Rlt_dec x 0 then [45] else []) ++ match ds with d :: ds => (48 + d) :: 46 :: map (Z.add 48) ds | [] => [] end.
Definition number (cs : list Z) : Z := fold_left (fun n c => 10 * n + (c - 48)) cs 0.
Definition digit (d : Z) : Prop := 0 <= d < 10.
Lemma number_snoc l c : number (l ++ [c]) = 10 * number l + (c - 48).
Proof. unfold number. rewrite fold_left_app. reflexivity. Qed.
Lemma slice_digits m hi w lo k : m = (hi * 1000 + w) * k + lo -> 0 < k -> 0 <= lo < k -> 0 <= w < 1000 -> m / k mod 1000 = w.
Proof.
  intros E K L W. assert (Q : m / k = w + hi * 1000) by (symmetry; apply Z.div_unique with (r := lo); lia).
  rewrite Q, Z.mod_add by lia. apply Z.mod_small. lia.
Qed.
Theorem C35_stream (mantissa : R -> Z) data a b p d : nth_error data p = Some d ->
  let v := cos (6 * a + 3 * b)%R in let x := (13.2 * (cos (655 * PI / 180 * v) + v + sin (17 * INR (p + 3))) * INR (p + 1))%R in
  forall ds, length ds = 9%nat -> Forall digit ds -> mantissa x = number (map (Z.add 48) ds) ->
  nth_error (zmf_obfuscate mantissa data a b) p = Some (Z.lxor d (number (firstn 3 (skipn 4 (text ds x))) mod 256)).
Proof.
  intros N v x ds L D M. unfold zmf_obfuscate.
  assert (X : forall l q k, nth_error l k = Some d -> nth_error (xor_from mantissa q l a b) k = Some (Z.lxor d (keystream mantissa a b (q + k)))).
  { clear. induction l as [|e l IH]; intros q [|k] H; try discriminate H; cbn in *; [injection H as ->; rewrite Nat.add_0_r; reflexivity|]. rewrite (IH (S q) k H). rewrite Nat.add_succ_r. reflexivity. }
  rewrite (X data 0%nat p N). f_equal. f_equal. cbn [Nat.add]. unfold keystream. cbv zeta. fold v.
  assert (EX : (132 / 10 * (cos (655 * (PI / 180) * v) + v + sin (17 * (INR p + 3))) * (INR p + 1))%R = x).
  { unfold x. rewrite !plus_INR. change (INR 1) with 1%R. replace (INR 3) with 3%R by (cbn; lra). replace (655 * PI / 180 * v)%R with (655 * (PI / 180) * v)%R by (unfold Rdiv; ring). lra. }
  rewrite EX. unfold key_byte. f_equal. rewrite M. clear - L D.
  destruct ds as [|d0 [|d1 [|d2 [|d3 [|d4 [|d5 [|d6 [|d7 [|d8 [|]]]]]]]]]]; try discriminate L.
  repeat match goal with H : Forall digit (_ :: _) |- _ => apply Forall_cons_iff in H; let A := fresh "A" in destruct H as [A H]; unfold digit in A end.
  unfold text. destruct (Rlt_dec x 0); cbn [app map skipn firstn]; unfold number; cbn [fold_left].
  - apply (slice_digits _ (10 * d0 + d1) _ (d5 * 1000 + d6 * 100 + d7 * 10 + d8)); [ring|lia|lia|lia].
  - apply (slice_digits _ (100 * d0 + 10 * d1 + d2) _ (d6 * 100 + d7 * 10 + d8)); [ring|lia|lia|lia].
Qed.
Example C35_stream_example : number (firstn 3 (skipn 4 (text [1;2;3;4;5;6;7;8;9] (-1)))) = 345 /\ number (firstn 3 (skipn 4 (text [1;2;3;4;5;6;7;8;9] 1))) = 456 /\ Forall digit [1;2;3;4;5;6;7;8;9].
Proof. unfold text. destruct (Rlt_dec (-1) 0); [|lra]. destruct (Rlt_dec 1 0); [lra|]. repeat split; try reflexivity. repeat constructor; unfold digit; lia. Qed.
(** ** C35: the version line ends with at least six decimal digits that spell the version *)
Theorem C35_decimal n : 0 <= n < 10 ^ 19 -> number (dec6 n) = n /\ (6 <= length (dec6 n))%nat /\ Forall (fun c => digit (c - 48)) (dec6 n).
Proof.
  intros N. assert (G : forall fuel m, 0 <= m < 10 ^ Z.of_nat fuel -> number (digits fuel m) = m /\ Forall (fun c => digit (c - 48)) (digits fuel m)).
  { clear. induction fuel as [|fuel IH]; intros m M; [cbn in M; assert (m = 0) by lia; subst; cbn; auto|]. cbn [digits]. destruct (Z.ltb_spec m 10).
    - split; [unfold number; cbn [fold_left]; lia|]. repeat constructor; unfold digit; lia.
    - rewrite Nat2Z.inj_succ, Z.pow_succ_r in M by lia. pose proof (Z.div_mod m 10 ltac:(lia)) as DM. pose proof (Z.mod_pos_bound m 10 ltac:(lia)).
      destruct (IH (m / 10)) as [I1 I2]; [split; [apply Z.div_pos; lia|apply Z.div_lt_upper_bound; lia]|]. rewrite number_snoc, I1. split; [lia|]. apply Forall_app. split; [auto|]. repeat constructor; unfold digit; lia. }
  destruct (G 20%nat n) as [G1 G2]; [cbn [Z.of_nat]; lia|]. unfold dec6. split; [|split].
  - assert (Z0 : forall k l, number (repeat 48 k ++ l) = number l). { clear. intros k l. unfold number. rewrite fold_left_app. f_equal. induction k as [|k IH]; [reflexivity|]. cbn [repeat fold_left]. exact IH. }
    rewrite Z0. exact G1.
  - rewrite app_length, repeat_length. lia.
  - apply Forall_app. split; [|auto]. clear. generalize (6 - length (digits 20 n))%nat. induction n0; cbn; constructor; unfold digit; auto; lia.
Qed.
Example C35_example : storable (Lens [76; 49] 120802 1 1 0 0 0 [0;0;0;0;0;0;0;0] [1;2;3;4;5;6;7;8] (vers 120802 ++ [77; 79])) /\
  vers 120802 = [86; 69; 82; 83; 32; 49; 50; 48; 56; 48; 50; 10] /\ vers 7 = [86; 69; 82; 83; 32; 48; 48; 48; 48; 48; 55; 10].
Proof.
  split; [|split; reflexivity]. unfold storable, word. cbn [l_name l_version l_elements l_shape l_aspheric l_grin l_toroidal l_efl l_enp l_data].
  change (length (vers 120802 ++ [77; 79])) with 14%nat. cbn [length hd last]. repeat split; try lia. exists [77; 79]. auto.
Qed.
Print Assumptions C35_involution.
Print Assumptions C35_injective.
Print Assumptions C35_roundtrip.
Print Assumptions C35_rejects.
Print Assumptions C35_version.
Print Assumptions C35_stream.
Print Assumptions C35_decimal.
