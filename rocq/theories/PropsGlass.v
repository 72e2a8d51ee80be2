(** Property C100: materials found by their names, and materials made again from their dictionaries. *)
From Coq Require Import Reals List String Ascii Bool ZArith Lra Lia.
From Verif Require Import Base MaterialModel LibraryModel PropsLibrary GlassModel.
Import ListNotations.
Open Scope R_scope.
Open Scope string_scope.

(** * Names *)
(** ** Specification *)
Fixpoint no_slash (s : string) : Prop := match s with EmptyString => True | String a s => a <> "/"%char /\ no_slash s end.
Definition item_of {obj} (a : answer obj) : answer (made obj) := match a with Found o => Found (Item o) | KeyError => KeyError | ParseError => ParseError end.
(** the basic materials come before the library *)
Definition or_basic {obj} (asked : bool) (name : string) (a : answer obj) : answer (made obj) :=
  match (if asked then basic_of name else None) with Some b => Found (Basic b) | None => item_of a end.

(** ** Strings *)
Lemma app_assoc_s (a b c : string) : (a ++ b) ++ c = a ++ b ++ c.
Proof. induction a as [|x a IH]; cbn; [reflexivity|]. rewrite IH. reflexivity. Qed.
Lemma app_nil_s (a : string) : a ++ "" = a.
Proof. induction a as [|x a IH]; cbn; [reflexivity|]. rewrite IH. reflexivity. Qed.
Lemma split_plain s : no_slash s -> forall cur, split_from cur s = [cur ++ s].
Proof.
  induction s as [|a s IH]; cbn [no_slash split_from]; intros H cur; [rewrite app_nil_s; reflexivity|]. destruct H as [H1 H2].
  destruct (Ascii.eqb_spec a "/"); [contradiction|]. rewrite IH by exact H2. rewrite app_assoc_s. reflexivity.
Qed.
Lemma split_app a b : no_slash a -> forall cur, split_from cur (a ++ "/" ++ b) = (cur ++ a) :: split_from "" b.
Proof.
  induction a as [|x a IH]; cbn [no_slash append split_from]; intros H cur; [cbn [Ascii.eqb]; rewrite app_nil_s; reflexivity|]. destruct H as [H1 H2].
  destruct (Ascii.eqb_spec x "/"); [contradiction|]. change (String "/" b) with ("/" ++ b). rewrite IH by exact H2. rewrite app_assoc_s. reflexivity.
Qed.
Lemma split_any x s : exists ys, forall cur, exists y, split_from cur (x ++ "/" ++ s) = ((y :: ys) ++ split s)%list.
Proof.
  induction x as [|a x IH]; [exists []; intros cur; exists cur; cbn; reflexivity|]. destruct IH as (ys & IH). change (String a x ++ "/" ++ s) with (String a (x ++ "/" ++ s)). cbn [split_from].
  destruct (Ascii.eqb a "/").
  - destruct (IH "") as (y & E). exists (y :: ys). intros cur. exists cur. rewrite E. reflexivity.
  - exists ys. intros cur. destruct (IH (cur ++ String a "")) as (y & E). exists y. exact E.
Qed.
Lemma lower_app a b : lower (a ++ b) = lower a ++ lower b.
Proof. induction a as [|x a IH]; cbn; [reflexivity|]. rewrite IH. reflexivity. Qed.
Lemma lower_ascii_slash a : a <> "/"%char -> lower_ascii a <> "/"%char.
Proof. destruct a as [[] [] [] [] [] [] [] []]; vm_compute; congruence. Qed.
Lemma lower_ascii_twice a : lower_ascii (lower_ascii a) = lower_ascii a.
Proof. destruct a as [[] [] [] [] [] [] [] []]; reflexivity. Qed.
Lemma lower_twice s : lower (lower s) = lower s.
Proof. induction s as [|a s IH]; cbn; [reflexivity|]. rewrite IH, lower_ascii_twice. reflexivity. Qed.
Lemma lower_no_slash s : no_slash s -> no_slash (lower s).
Proof. induction s as [|a s IH]; cbn; [auto|]. intros [H1 H2]. split; [apply lower_ascii_slash; exact H1|auto]. Qed.
Lemma split_lower1 a : no_slash a -> split (lower a) = [lower a].
Proof. intros A. unfold split. rewrite split_plain by (apply lower_no_slash; exact A). reflexivity. Qed.
Lemma split_lower2 a b : no_slash a -> split (lower (a ++ "/" ++ b)) = lower a :: split (lower b).
Proof. intros A. rewrite !lower_app. change (lower "/") with "/". unfold split. rewrite split_app by (apply lower_no_slash; exact A). reflexivity. Qed.
Lemma select_lower db name cat source : select db KMaterial (Some (lower name)) (option_map lower cat) source = select db KMaterial (Some name) cat source.
Proof.
  assert (E : forall a b, nocase_eqb a (lower b) = nocase_eqb a b) by (intros; unfold nocase_eqb; rewrite lower_twice; reflexivity).
  assert (F : forall A (l : list A) (f g : A -> bool), (forall x, f x = g x) -> filter f l = filter g l) by (intros; apply filter_ext; auto).
  unfold select, opt_filter. destruct cat as [c|]; cbn [option_map]; f_equal; (erewrite F; [|intros x; apply E]); [|reflexivity]. f_equal. destruct source; [f_equal|]; apply F; intros; apply E.
Qed.
Lemma get_lower obj parse db name cat source : get obj parse db "material" (Some (lower name)) (option_map lower cat) source = get obj parse db "material" (Some name) cat source.
Proof. unfold get. cbn [kind_of String.eqb Ascii.eqb Bool.eqb]. rewrite select_lower. reflexivity. Qed.

Section Names.
Variables (float : string -> option R) (obj : Type) (parse : catalog -> item -> option obj).
Notation make := (make float obj parse).
Notation get := (get obj parse).

(** a name alone, and a name with its catalog: first the basic materials, then the library, capitals or not *)
Theorem C100_lookup db name : no_slash name ->
  make db name = or_basic true (lower name) (get db "material" (Some name) None None) /\
  forall cat, no_slash cat -> float cat = None \/ float name = None ->
    make db (full_name (Some cat) name) = or_basic (String.eqb (lower cat) "basic") (lower name) (get db "material" (Some name) (Some cat) None).
Proof.
  intros N. split.
  - unfold GlassModel.make, from_string, split. rewrite split_plain by exact N. cbn [append floats]. destruct (float name); cbn [obind]; unfold by_name; rewrite split_lower1 by exact N; cbn [rev app hd_error tl];
      unfold or_basic; rewrite <- (get_lower obj parse db name None None); cbn [option_map]; destruct (basic_of (lower name)); reflexivity.
  - intros cat C F. cbn [full_name]. unfold GlassModel.make. assert (Z : from_string float (cat ++ "/" ++ name) = None).
    { unfold from_string, split. rewrite split_app by exact C. rewrite split_plain by exact N. cbn [append floats]. destruct F as [-> | ->]; [reflexivity|]. destruct (float cat); reflexivity. }
    rewrite Z. unfold by_name. rewrite split_lower2 by exact C. rewrite split_lower1 by exact N. cbn [rev app hd_error tl]. unfold or_basic.
    rewrite <- (get_lower obj parse db name (Some cat) None). cbn [option_map]. destruct (String.eqb (lower cat) "basic"); [destruct (basic_of (lower name)); reflexivity|reflexivity].
Qed.
(** two numbers are a model glass whatever the library holds; one number is looked up as a name and never a model glass *)
Theorem C100_numbers db a b n v : no_slash a -> no_slash b -> float a = Some n -> float b = Some v ->
  make db (a ++ "/" ++ b) = Found (Abbe n v) /\ (forall n' v', make db a <> Found (Abbe n' v')).
Proof.
  intros A B FA FB. split.
  - unfold GlassModel.make, from_string, split. rewrite split_app by exact A. rewrite split_plain by exact B. cbn [append floats]. rewrite FA, FB. reflexivity.
  - intros n' v'. rewrite (proj1 (C100_lookup db a A)). unfold or_basic. destruct (basic_of (lower a)); [discriminate|]. destruct (get _ _ _ _ _); discriminate.
Qed.
(** the text of an index alone is refused: no model glass is made of it *)
Theorem C100_one_number_refuted db a n : no_slash a -> float a = Some n -> basic_of (lower a) = None -> (forall c i, ~ matches db KMaterial (Some a) None None c i) -> make db a = KeyError.
Proof.
  intros A FA B M. rewrite (proj1 (C100_lookup db a A)). unfold or_basic. rewrite B. destruct (C48_sound_complete obj parse db "material" KMaterial (Some a) None None eq_refl) as (K & _).
  rewrite (proj2 K M). reflexivity.
Qed.
(** a material of the library is found again by its full name if no other has the same names *)
Theorem C100_saved db c i o : matches db KMaterial (Some (i_name i)) (Some (c_name c)) None c i -> no_slash (c_name c) -> no_slash (i_name i) -> float (c_name c) = None \/ float (i_name i) = None ->
  lower (c_name c) <> "basic" \/ basic_of (lower (i_name i)) = None ->
  (forall c' i', matches db KMaterial (Some (i_name i)) (Some (c_name c)) None c' i' -> c' = c /\ i' = i) -> parse c i = Some o ->
  make db (full_name (Some (c_name c)) (i_name i)) = Found (Item o).
Proof.
  intros M NC NI F B U P. rewrite (proj2 (C100_lookup db (i_name i) NI) (c_name c) NC F). unfold or_basic.
  assert (BB : (if String.eqb (lower (c_name c)) "basic" then basic_of (lower (i_name i)) else None) = None).
  { destruct (String.eqb_spec (lower (c_name c)) "basic"); [|reflexivity]. destruct B; [contradiction|assumption]. }
  rewrite BB. destruct (C48_sound_complete obj parse db "material" KMaterial (Some (i_name i)) (Some (c_name c)) None eq_refl) as (_ & _ & S & _ & E).
  destruct E as ((o' & G) & _); [eauto|intros c' i' M'; destruct (U c' i' M') as [-> ->]; congruence|]. rewrite G. destruct (S o' G) as (c' & i' & M' & P'). destruct (U c' i' M') as [-> ->]. cbn. congruence.
Qed.
(** the basic materials, capitals or not *)
Theorem C100_basic db b s : no_slash s -> lower s = basic_name b -> make db s = Found (Basic b) /\ (float "basic" = None -> make db (full_name (Some "basic") s) = Found (Basic b)).
Proof.
  intros N E. assert (B : basic_of (basic_name b) = Some b) by (destruct b; reflexivity). split; [rewrite (proj1 (C100_lookup db s N))|intros F; rewrite (proj2 (C100_lookup db s N) "basic"); [|cbn; repeat split; discriminate|left; exact F]]; unfold or_basic; rewrite E, B; reflexivity.
Qed.
(** with the source before the catalog; anything before the source is ignored *)
Theorem C100_source db src cat name : no_slash src -> no_slash cat -> no_slash name ->
  let s := src ++ "/" ++ cat ++ "/" ++ name in
  make db s = or_basic (String.eqb (lower cat) "basic") (lower name) (get db "material" (Some name) (Some cat) (Some (lower src))) /\
  forall x, make db (x ++ "/" ++ s) = make db s.
Proof.
  intros S C N s. assert (SP : split (lower s) = [lower src; lower cat; lower name]) by (unfold s; rewrite split_lower2 by exact S; rewrite split_lower2 by exact C; rewrite split_lower1 by exact N; reflexivity).
  assert (LL : forall l (r : list R), floats float l = Some r -> List.length r = List.length l).
  { induction l as [|y l IH]; cbn; intros r H; [injection H as <-; reflexivity|]. destruct (float y); [|discriminate]. cbn [obind] in H. destruct (floats float l); [|discriminate]. injection H as <-. cbn. f_equal. auto. }
  assert (FS : forall t, (3 <= List.length (split t))%nat -> from_string float t = None).
  { intros t H. unfold from_string. destruct (floats float (split t)) as [r|] eqn:E; [|reflexivity]. apply LL in E. destruct r as [|? [|? [|]]]; cbn in E; try reflexivity; lia. }
  assert (L3 : (3 <= List.length (split s))%nat) by (unfold s, split; rewrite split_app by exact S; rewrite split_app by exact C; rewrite split_plain by exact N; cbn; lia).
  split.
  - unfold GlassModel.make. rewrite FS by exact L3. unfold by_name. rewrite SP. cbn [rev app hd_error tl]. unfold or_basic. rewrite <- (get_lower obj parse db name (Some cat) (Some (lower src))). cbn [option_map].
    destruct (String.eqb (lower cat) "basic"); [destruct (basic_of (lower name)); reflexivity|reflexivity].
  - intros x. unfold GlassModel.make. rewrite (FS s L3). rewrite FS.
    + unfold by_name. rewrite SP. rewrite lower_app. change (lower ("/" ++ s)) with ("/" ++ lower s). destruct (split_any (lower x) (lower s)) as (ys & Y). destruct (Y "") as (y & E). unfold split at 1. rewrite E, SP.
      rewrite rev_app_distr. cbn [rev app hd_error tl]. reflexivity.
    + destruct (split_any x s) as (ys & Y). destruct (Y "") as (y & E). unfold split at 1. rewrite E, app_length. cbn [List.length]. lia.
Qed.
End Names.
(** a source written with capitals is never found although it is there: the name is lowered, the source compared with case *)
Theorem C100_source_refuted float : exists obj parse db c i o, matches db KMaterial (Some (i_name i)) (Some (c_name c)) (Some (c_source c)) c i /\ parse c i = Some o /\
  get obj parse db "material" (Some (i_name i)) (Some (c_name c)) (Some (c_source c)) = Found o /\ no_slash (c_source c) /\ no_slash (c_name c) /\ no_slash (i_name i) /\
  make float obj parse db (c_source c ++ "/" ++ c_name c ++ "/" ++ i_name i) = KeyError.
Proof.
  set (i := LibraryModel.Item KMaterial "BK7" ""). set (c := Catalog "schott" "Zemax" "agf" "schott.agf" 1 None [i]).
  exists nat, (fun _ _ => Some 1%nat), [c], c, i, 1%nat. assert (S : no_slash "Zemax" /\ no_slash "schott" /\ no_slash "BK7") by (cbn; repeat split; discriminate). destruct S as (S1 & S2 & S3).
  split; [unfold matches; cbn; repeat split; auto; intros n E; injection E as <-; reflexivity|]. split; [reflexivity|]. split; [reflexivity|]. split; [exact S1|]. split; [exact S2|]. split; [exact S3|].
  destruct (C100_source float nat (fun _ _ => Some 1%nat) [c] "Zemax" "schott" "BK7" S1 S2 S3) as (E & _). cbn [c i c_source c_name i_name]. rewrite E. reflexivity.
Qed.
(** a name with a slash is not found by the full name of its own material *)
Theorem C100_slash_refuted float : float "a" = None -> exists obj parse db c i o, matches db KMaterial (Some (i_name i)) (Some (c_name c)) None c i /\ parse c i = Some o /\ no_slash (c_name c) /\
  get obj parse db "material" (Some (i_name i)) (Some (c_name c)) None = Found o /\ make float obj parse db (full_name (Some (c_name c)) (i_name i)) = KeyError.
Proof.
  intros F. set (i := LibraryModel.Item KMaterial "a/b" ""). set (c := Catalog "misc" "rii" "rii" "library.yml" 1 None [i]).
  exists nat, (fun _ _ => Some 1%nat), [c], c, i, 1%nat. split; [unfold matches; cbn; repeat split; auto; intros n E; try discriminate; injection E as <-; reflexivity|]. split; [reflexivity|]. split; [cbn; repeat split; discriminate|]. split; [reflexivity|].
  destruct (C100_source float nat (fun _ _ => Some 1%nat) [c] "misc" "a" "b") as (E & _); try (cbn; repeat split; discriminate). cbn [c i c_name i_name full_name]. change ("misc" ++ "/" ++ "a/b") with ("misc" ++ "/" ++ "a" ++ "/" ++ "b"). rewrite E. reflexivity.
Qed.
(** a library of one catalog; numbers 3/2 and 60 are read *)
Definition read (s : string) : option R := if String.eqb s "1.5" then Some (3/2) else if String.eqb s "60" then Some 60 else None.
Example C100_names_example : exists db, let mk := make read nat (fun _ i => Some (String.length (i_name i))) db in
  mk "SCHOTT/N-BK7" = Found (Item 5%nat) /\ mk "n-bk7" = Found (Item 5%nat) /\ mk "x/y/zemax/Schott/N-bk7" = Found (Item 5%nat) /\ mk "Basic/Air" = Found (Basic Air) /\ mk "AIR" = Found (Basic Air) /\
  mk "schott/air" = Found (Item 3%nat) /\ mk "1.5/60" = Found (Abbe (3/2) 60) /\ mk "1.5" = KeyError /\ mk "hoya/N-BK7" = KeyError /\ mk "vacuum/1.5" = KeyError.
Proof.
  exists [Catalog "Schott" "zemax" "agf" "schott.agf" 1 None [LibraryModel.Item KMaterial "N-BK7" ""; LibraryModel.Item KMaterial "AIR" ""]]. cbn zeta. repeat split.
Qed.

(** * Dictionaries *)
(** ** Specification: what is left of a material that is written to a dictionary and made again *)
Definition reloaded (b : common) : common :=
  Common (if String.eqb (b_name b) "" then "-" else b_name b) (b_solid b) (b_mirror b)
    (match b_catalog b with Some c => if String.eqb c "" then None else Some c | None => None end)
    (match b_thermal b with TObj h => TMap (thermal_dict h) | _ => TNone end).
Definition faithful (b : common) : Prop := b_name b <> "" /\ b_catalog b <> Some "" /\ b_thermal b = TNone.

(** ** Keywords *)
Fixpoint absent (k : string) (d : mdict) : Prop := match d with [] => True | (j, _) :: d => j <> k /\ absent k d end.
Lemma take_absent k d : absent k d -> take k d = (None, d).
Proof. induction d as [|[j v] d IH]; cbn; [reflexivity|]. intros [H1 H2]. destruct (String.eqb_spec j k); [contradiction|]. rewrite IH by exact H2. reflexivity. Qed.
Lemma take_app k d e : absent k d -> take k (d ++ e)%list = (fst (take k e), (d ++ snd (take k e))%list).
Proof. induction d as [|[j v] d IH]; cbn; [intros _; destruct (take k e); reflexivity|]. intros [H1 H2]. destruct (String.eqb_spec j k); [contradiction|]. rewrite IH by exact H2. reflexivity. Qed.
Definition foreign (d : mdict) : Prop := absent "name" d /\ absent "solid" d /\ absent "mirror" d /\ absent "catalog" d /\ absent "thermal" d.
Lemma common_keys b d k : common_dict b = Ok d -> k <> "name" -> k <> "solid" -> k <> "mirror" -> k <> "catalog" -> k <> "thermal" -> absent k d.
Proof.
  unfold common_dict, opt. intros E K1 K2 K3 K4 K5. destruct (b_thermal b) as [|h|[|? ?]]; cbn in E; try discriminate; injection E as <-;
    destruct (nonempty (b_name b)), (b_solid b), (b_mirror b), (b_catalog b) as [c|]; try destruct (nonempty c); cbn; auto 10.
Qed.
Lemma init_common_spec b d e : common_dict b = Ok d -> foreign e -> init_common (d ++ e)%list = match e with [] => Ok (reloaded b) | _ => Raise TypeError end.
Proof.
  intros E (F1 & F2 & F3 & F4 & F5). apply take_absent in F1, F2, F3, F4, F5. destruct b as [name solid mirror cat th]. unfold reloaded, common_dict, opt, nonempty in *. cbn [b_name b_solid b_mirror b_catalog b_thermal] in *.
  destruct th as [|h|[|? ?]]; cbn in E; try discriminate; injection E as <-;
    destruct (String.eqb name ""), solid, mirror, cat as [c|]; try destruct (String.eqb c ""); cbn [negb app]; unfold init_common, kw;
    repeat (first [rewrite F1|rewrite F2|rewrite F3|rewrite F4|rewrite F5|cbn [take String.eqb Ascii.eqb Bool.eqb rbind as_str as_bool as_map app]]); destruct e; reflexivity.
Qed.
Definition special_dict (s : special) : mdict :=
  match s with
  | SPlain => []
  | SModel n => [("n", MNum n)]
  | SAbbe a => [("n", MNum (am_n a)); ("v", match am_v a with Some v => MNum v | None => MInf end)] ++ line "lambda_ref" (am_ref a) lambda_d ++ line "lambda_short" (am_short a) lambda_F ++ line "lambda_long" (am_long a) lambda_C
  | SCoef typ c => [("typ", MStr typ); ("coefficients", MNums c)]
  end%list.
Lemma mat_dict_parts m d : mat_dict m = Ok d -> exists d0, common_dict (m_common m) = Ok d0 /\ d = (d0 ++ special_dict (m_special m))%list.
Proof. unfold mat_dict. destruct (common_dict (m_common m)) as [d0|]; [|discriminate]. cbn. intros E. injection E as <-. exists d0. auto. Qed.

(** whatever class makes the dictionary of a material into a material, the attributes that matter are kept *)
Lemma construct_spec m d c : mat_dict m = Ok d ->
  match construct c d with
  | Ok m' => m_common m' = reloaded (m_common m) /\ (forall formula w, index formula m' w = index formula m w) /\ (c = class_of m -> m_special m' = m_special m)
  | Raise x => c <> class_of m /\ x = TypeError
  end.
Proof.
  intros E. apply mat_dict_parts in E as (d0 & E & ->).
  assert (A : forall k, k <> "name" -> k <> "solid" -> k <> "mirror" -> k <> "catalog" -> k <> "thermal" -> absent k d0) by (intros; eapply common_keys; eauto).
  assert (I : forall e, foreign e -> init_common (d0 ++ e)%list = match e with [] => Ok (reloaded (m_common m)) | _ => Raise TypeError end) by (intros; apply init_common_spec; assumption).
  assert (An := A "n" ltac:(discriminate) ltac:(discriminate) ltac:(discriminate) ltac:(discriminate) ltac:(discriminate)).
  assert (Av := A "v" ltac:(discriminate) ltac:(discriminate) ltac:(discriminate) ltac:(discriminate) ltac:(discriminate)).
  assert (Ar := A "lambda_ref" ltac:(discriminate) ltac:(discriminate) ltac:(discriminate) ltac:(discriminate) ltac:(discriminate)).
  assert (Al := A "lambda_long" ltac:(discriminate) ltac:(discriminate) ltac:(discriminate) ltac:(discriminate) ltac:(discriminate)).
  assert (As := A "lambda_short" ltac:(discriminate) ltac:(discriminate) ltac:(discriminate) ltac:(discriminate) ltac:(discriminate)).
  assert (Ac := A "coefficients" ltac:(discriminate) ltac:(discriminate) ltac:(discriminate) ltac:(discriminate) ltac:(discriminate)).
  assert (At := A "typ" ltac:(discriminate) ltac:(discriminate) ltac:(discriminate) ltac:(discriminate) ltac:(discriminate)). clear A.
  assert (DD : lambda_C - lambda_F <> 0) by (unfold lambda_C, lambda_F; lra).
  assert (MR : b_mirror (reloaded (m_common m)) = b_mirror (m_common m)) by reflexivity.
  destruct m as [b s]. cbn [m_common m_special] in *. unfold class_of. cbn [m_special].
  destruct s as [|n|[n v r l sh]|typ cs]; cbn [special_dict am_n am_v am_ref am_long am_short]; unfold line;
    [| |destruct v as [v|], (Req_EM_T r lambda_d) as [->|], (Req_EM_T sh lambda_F) as [->|], (Req_EM_T l lambda_C) as [->|]|];
    destruct c; cbn [construct app]; unfold kw;
    repeat (rewrite take_app by assumption; cbn [take String.eqb Ascii.eqb Bool.eqb fst snd rbind as_num as_inf as_nums as_str]);
    rewrite ?I by (unfold foreign; cbn; repeat split; discriminate); cbn [rbind];
    try (split; [discriminate|reflexivity]);
    (split; [reflexivity|]); (split; [|intros; try discriminate; reflexivity]); intros formula w; unfold index; cbn [m_special m_common]; try reflexivity;
    unfold abbe_index; cbn [am_n am_v am_ref am_long am_short]; rewrite fdiv_some by exact DD; reflexivity.
Qed.
(** its own class makes it again; the material is the same exactly if it has a name, its catalog has one and it has no thermal
    coefficients *)
Theorem C100_reload m d : mat_dict m = Ok d -> exists m', construct (class_of m) d = Ok m' /\ m_common m' = reloaded (m_common m) /\ m_special m' = m_special m /\
  (forall formula w, index formula m' w = index formula m w) /\ (m' = m <-> faithful (m_common m)).
Proof.
  intros E. pose proof (construct_spec m d (class_of m) E) as S. destruct (construct (class_of m) d) as [m'|x]; [|destruct S; congruence]. destruct S as (S1 & S2 & S3). specialize (S3 eq_refl). exists m'. split; [reflexivity|]. split; [exact S1|]. split; [exact S3|]. split; [exact S2|].
  assert (R : reloaded (m_common m) = m_common m <-> faithful (m_common m)).
  { destruct m as [[name solid mirror cat th] s]. unfold reloaded, faithful. cbn. split.
    - intros H. injection H as H1 H2 H3. destruct (String.eqb_spec name ""); [subst; discriminate|]. split; [assumption|]. split; [intros ->; discriminate|]. destruct th; congruence.
    - intros (H1 & H2 & ->). destruct (String.eqb_spec name ""); [contradiction|]. destruct cat as [c|]; [|reflexivity]. destruct (String.eqb_spec c ""); [congruence|reflexivity]. }
  destruct m as [b s], m' as [b' s']. cbn [m_common m_special] in *. subst b' s'. rewrite <- R. split; [intros H; congruence|intros ->; reflexivity].
Qed.
(** any other class refuses the dictionary or makes a material of the same index at all wavelengths *)
Theorem C100_any_class m d c : mat_dict m = Ok d ->
  construct c d = Raise TypeError \/ exists m', construct c d = Ok m' /\ m_common m' = reloaded (m_common m) /\ forall formula w, index formula m' w = index formula m w.
Proof.
  intros E. pose proof (construct_spec m d c E) as S. destruct (construct c d) as [m'|x]; [right; exists m'; tauto|left; destruct S as (_ & ->); reflexivity].
Qed.
(** once made again without thermal coefficients it stays as it is *)
Theorem C100_stable m d m' : mat_dict m = Ok d -> construct (class_of m) d = Ok m' -> (forall h, b_thermal (m_common m) <> TObj h) ->
  exists d', mat_dict m' = Ok d' /\ construct (class_of m') d' = Ok m'.
Proof.
  intros E C T. destruct (C100_reload m d E) as (m'' & C' & B & S & _). rewrite C in C'. injection C' as <-.
  assert (F : faithful (m_common m')).
  { rewrite B. unfold faithful, reloaded. cbn. split; [destruct (String.eqb_spec (b_name (m_common m)) ""); [discriminate|assumption]|]. split; [destruct (b_catalog (m_common m)) as [c|]; [destruct (String.eqb_spec c ""); [discriminate|congruence]|discriminate]|].
    destruct (b_thermal (m_common m)) as [|h|]; [reflexivity|destruct (T h eq_refl)|reflexivity]. }
  assert (D : exists d', mat_dict m' = Ok d') by (unfold mat_dict, common_dict; destruct F as (_ & _ & ->); cbn; eauto). destruct D as (d' & D). exists d'. split; [exact D|].
  destruct (C100_reload m' d' D) as (m3 & C3 & _ & _ & _ & I). rewrite C3. f_equal. apply I. exact F.
Qed.
(** thermal coefficients do not survive: a dictionary is left where the object was, so the shift cannot be computed and the
    material cannot be written a second time *)
Theorem C100_thermal_refuted m h : b_thermal (m_common m) = TObj h -> (forall t n w, shift m t n w = Ok (dn_thermal h t n w)) /\
  exists d m', mat_dict m = Ok d /\ construct (class_of m) d = Ok m' /\ (forall t n w, shift m' t n w = Raise AttributeError) /\ mat_dict m' = Raise AttributeError.
Proof.
  intros T. split; [intros; unfold shift; rewrite T; reflexivity|]. assert (D : exists d, mat_dict m = Ok d) by (unfold mat_dict, common_dict; rewrite T; cbn; eauto). destruct D as (d & D).
  destruct (C100_reload m d D) as (m' & C & B & _). exists d, m'. split; [exact D|]. split; [exact C|]. assert (T' : b_thermal (m_common m') = TMap (thermal_dict h)) by (rewrite B; unfold reloaded; cbn; rewrite T; reflexivity).
  split; [intros; unfold shift; rewrite T'; reflexivity|]. unfold mat_dict, common_dict. rewrite T'. reflexivity.
Qed.
(** what [Thermal] makes of keyword arguments: its first two are required, the others have defaults *)
Fixpoint entry (k : string) (d : mdict) : option mval := match d with [] => None | (j, v) :: d => if String.eqb j k then Some v else entry k d end.
Definition thermal_of (d : mdict) : option thermal :=
  if forallb (fun kv => existsb (String.eqb (fst kv)) ["d"; "e"; "tref"; "lref"]) d then
    match entry "d" d, entry "e" d with
    | Some (MNums [d0; d1; d2]), Some (MNums [e0; e1]) =>
        Some (Thermal d0 d1 d2 e0 e1 (match entry "tref" d with Some (MNum t) => t | _ => 20 end) (match entry "lref" d with Some (MNum l) => l | _ => lambda_d end))
    | _, _ => None
    end
  else None.
(** the saved thermal data are the arguments that make the same thermal data again (which the reloaded material would
    need to do), each of them once *)
Theorem C100_thermal_data h : thermal_of (thermal_dict h) = Some h /\ NoDup (map fst (thermal_dict h)).
Proof. split; [destruct h; reflexivity|]. cbn. repeat constructor; cbn; intuition discriminate. Qed.
(** a model glass, a mirror, a glass with thermal coefficients and one without a name *)
Definition flint : mat := Mat (Common "flint" true false (Some "mine") TNone) (SAbbe (AbbeMat (8/5) (Some 36) lambda_d (7/10000000) lambda_F)).
Definition hot : mat := Mat (Common "hot" true false None (TObj (Thermal 1 0 0 1 0 20 (1/5)))) (SCoef "schott" [2; 1]).
Definition anonymous : mat := Mat (Common "" false true (Some "") TNone) SPlain.
Example C100_dict_example :
  (exists d, mat_dict flint = Ok d /\ List.length d = 5%nat /\ construct CAbbe d = Ok flint /\ construct CModel d = Raise TypeError) /\
  (exists d m, mat_dict hot = Ok d /\ construct CCoef d = Ok m /\ m <> hot /\ mat_dict m = Raise AttributeError) /\
  (exists d m, mat_dict anonymous = Ok d /\ construct CPlain d = Ok m /\ m = Mat (Common "-" false true None TNone) SPlain /\ exists m', construct CAbbe d = Ok m' /\ index (fun _ => None) m' 0 = Some 1).
Proof.
  assert (LN : 7/10000000 <> lambda_C) by (unfold lambda_C; lra). split; [|split].
  - assert (D : exists d, mat_dict flint = Ok d /\ List.length d = 5%nat).
    { unfold mat_dict, flint, line. cbn. destruct (Req_EM_T lambda_d lambda_d); [|congruence]. destruct (Req_EM_T lambda_F lambda_F); [|congruence]. destruct (Req_EM_T (7/10000000) lambda_C); [contradiction|]. cbn. eexists. split; reflexivity. }
    destruct D as (d & D & L). exists d. split; [exact D|]. split; [exact L|]. destruct (C100_reload flint d D) as (m' & C & _ & _ & _ & I). assert (M : m' = flint) by (apply I; unfold faithful; cbn; repeat split; discriminate). subst m'. split; [exact C|].
    unfold mat_dict, flint, line in D. cbn in D. destruct (Req_EM_T lambda_d lambda_d); [|congruence]. destruct (Req_EM_T lambda_F lambda_F); [|congruence]. destruct (Req_EM_T (7/10000000) lambda_C); [contradiction|]. injection D as <-. reflexivity.
  - destruct (C100_thermal_refuted hot _ eq_refl) as (_ & d & m & D & C & _ & N). exists d, m. split; [exact D|]. split; [exact C|]. split; [|exact N]. intros ->. rewrite D in N. discriminate.
  - do 2 eexists. split; [reflexivity|]. split; [reflexivity|]. split; [reflexivity|]. eexists. split; [reflexivity|]. unfold index, abbe_index. cbn. rewrite fdiv_some; [reflexivity|]. unfold lambda_C, lambda_F. lra.
Qed.
Print Assumptions C100_lookup. Print Assumptions C100_source. Print Assumptions C100_reload. Print Assumptions C100_any_class.
