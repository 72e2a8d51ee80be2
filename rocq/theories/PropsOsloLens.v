(** C106: the text of an OSLO lens file and the focal length of what is imported from it. *)
From Coq Require Import Reals String Ascii List Arith ZArith Bool Lia Lra.
From Verif Require Import Base Vec RotModel RotProofs PlacementModel PlacementProofs ElementModel TraceProofs PropsRescale ParaxialModel ParaxialProofs PropsParaxial LimitProofs PropsLimit ReverseModel PropsReverse PropsInverse PupilModel PropsPupil ParaxTraceModel PropsConjugates PropsSolve PropsCardinal PropsDesign SampleModel MaterialModel CatalogModel OsloModel OsloLensModel.
Import ListNotations.
Open Scope R_scope.
Open Scope string_scope.
Open Scope list_scope.

(** * Specification *)
(** the element of a surface: offset [d] along the axis, curvature, conic constant, aspheric coefficients, glass, radius *)
Definition element_of (d c k : R) (a : option (list R)) (m : option material) (r : option R) (e : element) : Prop :=
  good_place (e_place e) /\ p_offset (e_place e) = V 0 0 d /\ p_angles (e_place e) = v0 /\ e_radius e = r /\ e_kind e = Sph m (Surf c k a false).
(** what was read is finite and all numbers *)
Definition complete (s : surface material) (d k : R) (a : option (list R)) : Prop :=
  u_dist _ s = Some d /\ u_conic _ s = Some k /\ u_asph _ s = match a with None => None | Some l => Some (map Some l) end.

(** one surface of a file: radius of curvature (planes have none), thickness, glass, conic constant, as words *)
Record ox := Ox { o_rd : option string; o_thick : string; o_glass : option string; o_cc : option string }.
(** what it is: curvature, thickness, conic constant, material *)
Record nx := Nx { n_c : R; n_t : R; n_k : R; n_m : option material }.
(** each surface at the thickness of the one before *)
Fixpoint carried (d : R) (xs : list nx) : list (R * nx) := match xs with [] => [] | x :: xs => (d, x) :: carried (n_t x) xs end.
Definition placed (r : option R) (p : R * nx) (e : element) : Prop := element_of (fst p) (n_c (snd p)) (n_k (snd p)) None (n_m (snd p)) r e.
(** lines of a surface in a LEN file; [close]: NXT or END *)
Definition opt_line (cmd : string) (a : option string) : list (list string) := match a with Some a => [[cmd; a]] | None => [] end.
Definition len_words (q : ox) (close : string) : list (list string) :=
  opt_line "RD" (o_rd q) ++ [["TH"; o_thick q]; match o_glass q with Some g => ["GLA"; g] | None => ["AIR"] end; [close]].
Fixpoint len_text (qs : list ox) : list (list string) :=
  match qs with [] => [] | [q] => len_words q "END" | q :: qs => len_words q "NXT" ++ len_text qs end.
(** commands of a surface in an OLC file *)
Definition olc_words (q : ox) : list (list string) :=
  opt_line "RD" (o_rd q) ++ [["TH"; o_thick q]] ++ opt_line "GLA" (o_glass q) ++ opt_line "CC" (o_cc q).
Fixpoint olc_text (qs : list ox) : list (list string) :=
  match qs with [] => [] | [q] => olc_words q | q :: qs => olc_words q ++ [["NXT"]] ++ olc_text qs end.
(** lines that concern the surfaces *)
Definition len_concerns (ws : list string) : bool :=
  match ws with cmd :: _ => existsb (String.eqb cmd) ["AIR"; "TH"; "AP"; "GLA"; "AST"; "RD"; "NXT"; "END"]%string | [] => false end.
Definition olc_concerns (ws : list string) : bool :=
  match ws with cmd :: _ => existsb (String.eqb cmd) ["RD"; "GLA"; "TH"; "CC"; "NXT"]%string || String.eqb (substring 0 2 cmd) "AS" | [] => false end.

(** * Elements *)
Lemma axis_unit u : unit_or_axis ez = Some u -> u = ez.
Proof. intros H. destruct (unit_or_axis_spec ez) as (w & W & _ & _ & _ & UN). rewrite W in H. injection H as <-. apply UN. unfold dot. cbn. ring. Qed.
Lemma init_at d : exists p, init d ez v0 None = Some p /\ good_place p /\ p_offset p = V 0 0 d /\ p_angles p = v0 /\ p_distance p = Rabs d.
Proof.
  unfold init. destruct (update_spec d ez v0) as (p & U & NF & FO & A & DI & u & HU & OF & _). rewrite U. cbn [obind]. exists p. split; [auto|]. split; [split; auto|].
  apply axis_unit in HU. subst u. split; [rewrite OF; apply vec_eq; cbn; ring|auto].
Qed.
Lemma set_at d : exists p q, init 0 ez v0 None = Some p /\ set_distance p d = Some q /\ good_place q /\ p_offset q = V 0 0 d /\ p_angles q = v0 /\ p_distance q = Rabs d.
Proof.
  destruct (centred_axis 0 (Rle_refl 0)) as (p & I & _ & D & DR & A). exists p. unfold set_distance. rewrite DR, A.
  destruct (update_spec d ez v0) as (q & U & NF & FO & A' & DI & u & HU & OF & _). exists q. rewrite U. split; [auto|]. split; [auto|]. split; [split; auto|].
  apply axis_unit in HU. subst u. split; [rewrite OF; apply vec_eq; cbn; ring|auto].
Qed.
Lemma numbers_map l a : numbers l = Some a <-> l = map Some a.
Proof.
  revert a. induction l as [|x l IH]; intros a; cbn.
  - split; [intros H; injection H as <-; reflexivity|destruct a; [reflexivity|discriminate]].
  - destruct x as [x|]; cbn [obind].
    + destruct (numbers l) as [r|]; cbn [obind].
      * split; [intros H; injection H as <-; cbn; f_equal; apply IH; reflexivity|]. destruct a as [|y a]; [discriminate|]. cbn. intros H. injection H as <- H. apply IH in H. injection H as ->. reflexivity.
      * split; [discriminate|]. destruct a as [|y a]; [discriminate|]. cbn. intros H. injection H as _ H. apply IH in H. discriminate.
    + split; [discriminate|]. destruct a; discriminate.
Qed.
Lemma oslo_surf_iff e s : oslo_surf e = Some s <-> exists k a, s = Surf (u_curv _ e) k a false /\ u_conic _ e = Some k /\ u_asph _ e = match a with None => None | Some l => Some (map Some l) end.
Proof.
  unfold oslo_surf. destruct (u_conic _ e) as [k|]; cbn [obind].
  2:{ split; [discriminate|]. intros (k & a & _ & K & _). discriminate. }
  destruct (u_asph _ e) as [l|].
  - destruct (numbers l) as [a|] eqn:N; cbn [obind].
    + split; [intros H; injection H as <-; exists k, (Some a); repeat split; f_equal; apply numbers_map; auto|].
      intros (k' & [a'|] & -> & K & A); [|discriminate]. injection K as <-. injection A as A. apply numbers_map in A. rewrite A in N. injection N as <-. reflexivity.
    + split; [discriminate|]. intros (k' & [a'|] & -> & K & A); [|discriminate]. injection A as A. apply numbers_map in A. congruence.
  - split; [intros H; injection H as <-; exists k, None; auto|]. intros (k' & [a'|] & -> & K & A); [discriminate|]. injection K as <-. reflexivity.
Qed.
(** both readers make the same of a surface: there is an element exactly if the surface is complete *)
Definition becomes (s : surface material) (e : element) : Prop := exists d k a, complete s d k a /\ element_of d (u_curv _ s) k a (u_mat _ s) (u_rad _ s) e.
Lemma olc_one s e : olc_spheroid s = Some e -> becomes s e.
Proof.
  unfold olc_spheroid. destruct (u_dist _ s) as [d|] eqn:D; cbn [obind]; [|discriminate]. destruct (init_at d) as (p & -> & G & O & A & _). cbn [obind].
  destruct (oslo_surf s) as [x|] eqn:S; cbn [obind]; [|discriminate]. intros H. injection H as <-. apply oslo_surf_iff in S. destruct S as (k & a & -> & K & AS).
  exists d, k, a. split; [repeat split; auto|]. repeat split; auto; apply G.
Qed.
Lemma len_one s e : len_spheroid s = Some e -> becomes s e.
Proof.
  unfold len_spheroid. destruct (u_dist _ s) as [d|] eqn:D; cbn [obind]; [|discriminate]. destruct (set_at d) as (p & q & -> & E & G & O & A & _). cbn [obind]. rewrite E. cbn [obind].
  destruct (oslo_surf s) as [x|] eqn:S; cbn [obind]; [|discriminate]. intros H. injection H as <-. apply oslo_surf_iff in S. destruct S as (k & a & -> & K & AS).
  exists d, k, a. split; [repeat split; auto|]. repeat split; auto; apply G.
Qed.
Lemma olc_some s d k a : complete s d k a -> exists e, olc_spheroid s = Some e.
Proof.
  intros (D & K & A). unfold olc_spheroid. rewrite D. cbn [obind]. destruct (init_at d) as (p & -> & _). cbn [obind]. rewrite (proj2 (oslo_surf_iff s _)) by (exists k, a; eauto). cbn [obind]. eauto.
Qed.
Lemma len_some s d k a : complete s d k a -> exists e, len_spheroid s = Some e.
Proof.
  intros (D & K & A). unfold len_spheroid. rewrite D. cbn [obind]. destruct (set_at d) as (p & q & -> & E & _). cbn [obind]. rewrite E. cbn [obind]. rewrite (proj2 (oslo_surf_iff s _)) by (exists k, a; eauto). cbn [obind]. eauto.
Qed.
Lemma all_of_some f (P : surface material -> element -> Prop) : (forall s e, f s = Some e -> P s e) -> forall ss es, all_of f ss = Some es -> Forall2 P ss es.
Proof.
  intros F. induction ss as [|s ss IH]; intros es H; cbn in H; [injection H as <-; constructor|].
  destruct (f s) as [e|] eqn:E; cbn [obind] in H; [|discriminate]. destruct (all_of f ss) as [r|]; cbn [obind] in H; [|discriminate]. injection H as <-. constructor; auto.
Qed.
Lemma all_of_exists f ss : Forall (fun s => exists e, f s = Some e) ss -> exists es, all_of f ss = Some es.
Proof. induction 1 as [|s ss (e & E) _ (es & IH)]; cbn; [eauto|]. rewrite E, IH. cbn [obind]. eauto. Qed.

(** Whatever surfaces a reader leaves become elements with their distance, curvature, conic constant, aspheric
    coefficients, glass and radius, in order, provided that none is at infinity and no number is missing *)
Theorem C106_elements ss : 
  (Forall (fun s => exists d k a, complete s d k a) ss <-> exists es, all_of len_spheroid ss = Some es) /\
  (Forall (fun s => exists d k a, complete s d k a) ss <-> exists es, all_of olc_spheroid ss = Some es) /\
  (forall es, all_of len_spheroid ss = Some es -> Forall2 becomes ss es) /\ (forall es, all_of olc_spheroid ss = Some es -> Forall2 becomes ss es).
Proof.
  assert (B : forall es, Forall2 becomes ss es -> Forall (fun s => exists d k a, complete s d k a) ss).
  { intros es H. induction H as [|s e ss es (d & k & a & C & _) _ IH]; constructor; eauto. }
  assert (L := all_of_some len_spheroid becomes len_one ss). assert (O := all_of_some olc_spheroid becomes olc_one ss).
  repeat split; auto.
  - intros F. apply all_of_exists. eapply Forall_impl; [|exact F]. intros s (d & k & a & C). eapply len_some; eauto.
  - intros (es & H). eapply B; eauto.
  - intros F. apply all_of_exists. eapply Forall_impl; [|exact F]. intros s (d & k & a & C). eapply olc_some; eauto.
  - intros (es & H). eapply B; eauto.
Qed.

(** * Texts *)
Section Files.
Variable air : material.
Variable make : string -> made material.
Variable num : string -> option R.
Variable int : string -> option Z.
Variable upper glass_map : string -> string.

(** the words mean these numbers and materials *)
Definition len_means (q : ox) (x : nx) : Prop :=
  match o_rd q with None => n_c x = 0 | Some a => exists r, num a = Some r /\ r <> 0 /\ n_c x = / r end /\
  num (o_thick q) = Some (n_t x) /\ n_t x <= 100 /\ n_k x = 0 /\
  match o_glass q with Some g => exists m, make g = Made m /\ n_m x = Some m | None => n_m x = Some air end.
(** in OLC files a radius 0 is a plane, unknown glasses are air, the object has a glass only if one is given *)
Definition olc_means (first : bool) (q : ox) (x : nx) : Prop :=
  match o_rd q with None => n_c x = 0 | Some a => exists r, num a = Some r /\ n_c x = if Req_EM_T r 0 then 0 else / r end /\
  num (o_thick q) = Some (n_t x) /\ match o_cc q with Some a => num a = Some (n_k x) | None => n_k x = 0 end /\
  match o_glass q with
  | Some g => match make (glass_map (upper g)) with Made m => n_m x = Some m | NotFound => n_m x = Some air | Raises => False end
  | None => n_m x = if first then None else Some air
  end.
(** other lines: UNI must give a number *)
Definition len_harmless (ws : list string) : Prop := forall args, ws = "UNI" :: args -> exists a x, hd_error args = Some a /\ num a = Some x.

Notation lstep := (len_step material air make num).
Notation lloop := (len_loop material air make num).
Notation ostep := (olc_step material air make num int upper glass_map).
Notation oloop := (olc_loop material air make num int upper glass_map).
Definition core (s : len_state material) := (l_done _ s, l_cur _ s, l_th _ s).
Lemma len_cong l s s' : core s = core s' -> option_map core (lstep l s) = option_map core (lstep l s').
Proof.
  unfold core. intros H. injection H as D C T. unfold len_step. destruct (words l) as [|cmd args]; [cbn; unfold core; congruence|]. rewrite D, C, T.
  repeat match goal with |- option_map _ (if ?b then _ else _) = _ => destruct b; try reflexivity end.
  all: try (destruct (hd_error args) as [a|]; cbn [obind]; [|reflexivity]).
  all: try (destruct (num a) as [x|]; cbn [obind]; [|reflexivity]; reflexivity).
  - destruct (if String.eqb a "CHK" then _ else _) as [b|]; cbn [obind]; [|reflexivity]. destruct (num b); reflexivity.
  - destruct (make a); reflexivity.
  - destruct (num a) as [x|]; cbn [obind]; [|reflexivity]. destruct (fdiv 1 x); reflexivity.
  - cbn. unfold core. congruence.
Qed.
Lemma len_loop_cong ls : forall s s', core s = core s' -> option_map core (lloop ls s) = option_map core (lloop ls s').
Proof.
  induction ls as [|l ls IH]; intros s s' H; cbn [len_loop]; [cbn; congruence|]. pose proof (len_cong l s s' H) as E.
  destruct (lstep l s) as [t|], (lstep l s') as [t'|]; cbn [obind option_map] in *; try discriminate; [|reflexivity]. apply IH. congruence.
Qed.
Lemma len_skip l s : len_concerns (words l) = false -> len_harmless (words l) -> exists s', lstep l s = Some s' /\ core s' = core s.
Proof.
  unfold len_concerns, len_harmless, len_step. destruct (words l) as [|cmd args]; [eauto|]. cbn [existsb]. intros C H.
  repeat (apply orb_false_iff in C; destruct C as [?E C]). rewrite E, E0, E1, E2, E3, E4, E5, E6. cbn [orb].
  destruct (String.eqb_spec cmd "LEN") as [->|X]; [eauto|]. destruct (String.eqb_spec cmd "UNI") as [->|Y]; [|eauto].
  destruct (H args eq_refl) as (a & x & -> & N). cbn [obind]. rewrite N. cbn [obind]. eauto.
Qed.
Lemma len_filter ls : Forall (fun l => len_harmless (words l)) ls -> forall s, option_map core (lloop ls s) = option_map core (lloop (filter (fun l => len_concerns (words l)) ls) s).
Proof.
  induction 1 as [|l ls H _ IH]; intros s; [reflexivity|]. cbn [filter]. destruct (len_concerns (words l)) eqn:C.
  - cbn [len_loop]. destruct (lstep l s); cbn [obind]; [apply IH|reflexivity].
  - cbn [len_loop]. destruct (len_skip l s C H) as (s' & -> & E). cbn [obind]. rewrite <- IH. apply len_loop_cong. auto.
Qed.
(** the surface that a block makes of the element at hand *)
Definition seen (d : R) (x : nx) : surface material := Surface material (Some d) (n_c x) (Some (n_k x)) None (n_m x) None false.
Ltac say W := unfold len_step, olc_step; rewrite W; cbn [String.eqb Ascii.eqb Bool.eqb hd_error obind].
Lemma len_block q x close ls rest d done th ds sc : len_means q x -> (close = "NXT" \/ close = "END") -> map words ls = len_words q close ++ rest ->
  exists ls', map words ls' = rest /\ lloop ls (Len _ done (surface0 _ (Some d) None) th ds sc) = lloop ls' (Len _ (done ++ [seen d x]) (surface0 _ (Some (n_t x)) None) (Some (n_t x)) ds sc).
Proof.
  intros (RD & TH & LE & K & GL) CL E. unfold len_words in E.
  assert (F : forall ls e, map words ls = [["TH"; o_thick q]; match o_glass q with Some g => ["GLA"; g] | None => ["AIR"] end; [close]] ++ rest ->
    u_rad _ e = None -> u_stop _ e = false -> u_asph _ e = None -> u_conic _ e = Some 0 -> u_dist _ e = Some d -> u_curv _ e = n_c x ->
    exists ls', map words ls' = rest /\ lloop ls (Len _ done e th ds sc) = lloop ls' (Len _ (done ++ [seen d x]) (surface0 _ (Some (n_t x)) None) (Some (n_t x)) ds sc)).
  { clear ls E. intros ls e E R S A C D U. destruct ls as [|l1 [|l2 [|l3 ls]]]; try discriminate. cbn [map app] in E. injection E as W1 W2 W3 E. exists ls. split; [exact E|]. cbn [len_loop].
    assert (S1 : forall s, lstep l1 s = Some (Len _ (l_done _ s) (l_cur _ s) (Some (n_t x)) (l_desc _ s) (l_scale _ s))).
    { intros s. say W1. rewrite TH. cbn [obind]. destruct (Rlt_dec 100 (n_t x)); [lra|reflexivity]. }
    assert (S2 : forall s, lstep l2 s = Some (let e := l_cur _ s in Len _ (l_done _ s) (Surface _ (u_dist _ e) (u_curv _ e) (u_conic _ e) (u_asph _ e) (n_m x) (u_rad _ e) (u_stop _ e)) (l_th _ s) (l_desc _ s) (l_scale _ s))).
    { intros s. say W2. destruct (o_glass q) as [g|].
      - cbn [String.eqb Ascii.eqb Bool.eqb hd_error obind]. destruct GL as (m & -> & ->). reflexivity.
      - cbn [String.eqb Ascii.eqb Bool.eqb hd_error obind]. rewrite GL. reflexivity. }
    assert (S3 : forall s, lstep l3 s = Some (Len _ (l_done _ s ++ [l_cur _ s]) (surface0 _ (l_th _ s) None) (l_th _ s) (l_desc _ s) (l_scale _ s))).
    { intros s. say W3. destruct CL as [-> | ->]; reflexivity. }
    rewrite S1. cbn [obind]. rewrite S2. cbn [obind]. rewrite S3. cbn [obind l_done l_cur l_th l_desc l_scale]. unfold seen. rewrite R, S, A, C, D, U, K. reflexivity. }
  destruct (o_rd q) as [a|]; cbn [opt_line app] in E.
  - destruct ls as [|l0 ls]; [discriminate|]. cbn [map] in E. injection E as W0 E. destruct RD as (r & N & RN & CR). cbn [len_loop].
    assert (S0 : lstep l0 (Len _ done (surface0 _ (Some d) None) th ds sc) = Some (Len _ done (Surface _ (Some d) (n_c x) (Some 0) None None None false) th ds sc)).
    { say W0. rewrite N. cbn [obind]. rewrite fdiv_some by auto. cbn [obind]. rewrite CR. unfold Rdiv. rewrite Rmult_1_l. reflexivity. }
    rewrite S0. cbn [obind]. apply F; auto.
  - apply F; auto.
Qed.
Lemma len_blocks qs xs : Forall2 len_means qs xs -> forall d ls done th ds sc, qs <> [] -> map words ls = len_text qs ->
  exists s, lloop ls (Len _ done (surface0 _ (Some d) None) th ds sc) = Some s /\ l_done _ s = done ++ map (fun p => seen (fst p) (snd p)) (carried d xs).
Proof.
  induction 1 as [|q x qs xs M F IH]; intros d ls done th ds sc N E; [contradiction|]. destruct qs as [|q' qs].
  - inversion F; subst. cbn [len_text] in E. rewrite <- (app_nil_r (len_words q "END")) in E.
    destruct (len_block q x "END" ls [] d done th ds sc M (or_intror eq_refl) E) as (ls' & E' & ->). destruct ls'; [|discriminate]. cbn [len_loop]. eexists. split; reflexivity.
  - change (len_text (q :: q' :: qs)) with (len_words q "NXT" ++ len_text (q' :: qs)) in E.
    destruct (len_block q x "NXT" ls (len_text (q' :: qs)) d done th ds sc M (or_introl eq_refl) E) as (ls' & E' & ->).
    destruct (IH (n_t x) ls' (done ++ [seen d x]) (Some (n_t x)) ds sc) as (s & S & D); [discriminate|exact E'|]. exists s. split; [exact S|]. rewrite D. cbn [carried map fst snd]. rewrite <- app_assoc. reflexivity.
Qed.
Lemma seen_placed p : complete (seen (fst p) (snd p)) (fst p) (n_k (snd p)) None.
Proof. repeat split. Qed.
Lemma seen_becomes p e : becomes (seen (fst p) (snd p)) e -> placed None p e.
Proof.
  intros (d & k & a & (D & K & A) & E). cbn in D, K, A. injection D as <-. injection K as <-. destruct a as [a|]; [discriminate|]. exact E.
Qed.
Lemma seen_list ps es : Forall2 becomes (map (fun p => seen (fst p) (snd p)) ps) es -> Forall2 (placed None) ps es.
Proof.
  revert es. induction ps as [|p ps IH]; intros es H; inversion H; subst; constructor; [apply seen_becomes; auto|auto].
Qed.
(** A LEN file: every surface becomes its element, whatever other lines are in between *)
Theorem C106_len qs xs text : qs <> [] -> Forall2 len_means qs xs -> Forall (fun l => len_harmless (words l)) text ->
  map words (filter (fun l => len_concerns (words l)) text) = len_text qs ->
  exists es, lens_from_len air make num text = Some es /\ Forall2 (placed None) (carried 0 xs) es.
Proof.
  intros N F H E. unfold lens_from_len, len_to_system. pose proof (len_filter text H (Len _ [] (surface0 _ (Some 0) None) (Some 0) None None)) as C.
  destruct (len_blocks qs xs F 0 _ [] (Some 0) None None N E) as (s & S & D). rewrite S in C. cbn [option_map] in C.
  destruct (lloop text _) as [s'|]; [|discriminate]. cbn [option_map] in C. unfold core in C. injection C as C _ _. cbn [obind]. rewrite C, D. cbn [app].
  destruct (C106_elements (map (fun p => seen (fst p) (snd p)) (carried 0 xs))) as (X & _ & B & _).
  destruct X as (X & _). destruct X as (es & A).
  { apply Forall_map. apply Forall_forall. intros p _. do 3 eexists. apply seen_placed. }
  exists es. split; [exact A|]. apply seen_list. auto.
Qed.

Lemma olc_skip l s : olc_concerns (words l) = false -> ostep l s = Some s.
Proof.
  unfold olc_concerns, olc_step. destruct (words l) as [|cmd args]; [auto|]. cbn [existsb]. intros C. apply orb_false_iff in C. destruct C as [C AS].
  repeat (apply orb_false_iff in C; destruct C as [?E C]). rewrite E, E0, E1, E2, E3. unfold take. rewrite AS.
  destruct (String.eqb_spec cmd "ASP") as [->|X]; [discriminate AS|]. destruct (ignored_olc cmd); reflexivity.
Qed.
Lemma olc_filter ls : forall s, oloop ls s = oloop (filter (fun l => olc_concerns (words l)) ls) s.
Proof.
  induction ls as [|l ls IH]; intros s; [reflexivity|]. cbn [filter]. destruct (olc_concerns (words l)) eqn:C; cbn [olc_loop].
  - destruct (ostep l s); cbn [obind]; [apply IH|reflexivity].
  - rewrite olc_skip by auto. cbn [obind]. apply IH.
Qed.
Lemma olc_block (first : bool) q x ls rest d done th : olc_means first q x -> map words ls = olc_words q ++ rest ->
  exists ls', map words ls' = rest /\ oloop ls (Olc _ done (surface0 _ (Some d) (if first then None else Some air)) th) = oloop ls' (Olc _ done (seen d x) (Some (n_t x))).
Proof.
  intros (RD & TH & CC & GL) E. unfold olc_words in E. rewrite <- !app_assoc in E.
  set (m0 := if first then None else Some air) in *.
  (* radius *)
  assert (A : exists ls1, map words ls1 = [["TH"; o_thick q]] ++ opt_line "GLA" (o_glass q) ++ opt_line "CC" (o_cc q) ++ rest /\
    oloop ls (Olc _ done (surface0 _ (Some d) m0) th) = oloop ls1 (Olc _ done (Surface _ (Some d) (n_c x) (Some 0) None m0 None false) th)).
  { destruct (o_rd q) as [a|]; cbn [opt_line app] in E.
    - destruct ls as [|l ls]; [discriminate|]. cbn [map] in E. injection E as W E. exists ls. split; [exact E|]. cbn [olc_loop]. say W. destruct RD as (r & -> & C).
      destruct (Req_EM_T r 0) as [R0|R0]; cbn [obind]; rewrite C; [reflexivity|]. unfold Rdiv. rewrite Rmult_1_l. reflexivity.
    - exists ls. split; [exact E|]. rewrite RD. reflexivity. }
  destruct A as (ls1 & E1 & ->). cbn [app] in E1. destruct ls1 as [|l ls1]; [discriminate|]. cbn [map] in E1. injection E1 as W1 E1. cbn [olc_loop].
  assert (S1 : forall s, ostep l s = Some (Olc _ (o_done _ s) (o_cur _ s) (Some (n_t x)))) by (intros s; say W1; rewrite TH; reflexivity).
  rewrite S1. cbn [obind o_done o_cur]. clear S1 W1 l.
  assert (B : exists ls2, map words ls2 = opt_line "CC" (o_cc q) ++ rest /\
    oloop ls1 (Olc _ done (Surface _ (Some d) (n_c x) (Some 0) None m0 None false) (Some (n_t x))) = oloop ls2 (Olc _ done (Surface _ (Some d) (n_c x) (Some 0) None (n_m x) None false) (Some (n_t x)))).
  { destruct (o_glass q) as [g|]; cbn [opt_line app] in E1.
    - destruct ls1 as [|l ls2]; [discriminate|]. cbn [map] in E1. injection E1 as W E1. exists ls2. split; [exact E1|]. cbn [olc_loop]. say W. destruct (make (glass_map (upper g))); [rewrite GL; reflexivity|rewrite GL; reflexivity|contradiction].
    - exists ls1. split; [exact E1|]. rewrite GL. reflexivity. }
  destruct B as (ls2 & E2 & ->). destruct (o_cc q) as [a|]; cbn [opt_line app] in E2.
  - destruct ls2 as [|l ls3]; [discriminate|]. cbn [map] in E2. injection E2 as W E2. exists ls3. split; [exact E2|]. cbn [olc_loop]. say W. unfold seen. rewrite CC. reflexivity.
  - exists ls2. split; [exact E2|]. unfold seen. rewrite CC. reflexivity.
Qed.
Fixpoint olc_all (first : bool) (qs : list ox) (xs : list nx) : Prop :=
  match qs, xs with [], [] => True | q :: qs, x :: xs => olc_means first q x /\ olc_all false qs xs | _, _ => False end.
Lemma olc_blocks qs : forall first xs d ls done th, olc_all first qs xs -> qs <> [] -> map words ls = olc_text qs ->
  exists s, oloop ls (Olc _ done (surface0 _ (Some d) (if first : bool then None else Some air)) th) = Some s /\ o_done _ s ++ [o_cur _ s] = done ++ map (fun p => seen (fst p) (snd p)) (carried d xs).
Proof.
  induction qs as [|q qs IH]; intros first [|x xs] d ls done th M N E; try contradiction. destruct M as [M F]. destruct qs as [|q' qs].
  - destruct xs; [|contradiction]. cbn [olc_text] in E. rewrite <- (app_nil_r (olc_words q)) in E.
    destruct (olc_block first q x ls [] d done th M E) as (ls' & E' & ->). destruct ls'; [|discriminate]. cbn [olc_loop]. eexists. split; reflexivity.
  - change (olc_text (q :: q' :: qs)) with (olc_words q ++ [["NXT"]] ++ olc_text (q' :: qs)) in E.
    destruct (olc_block first q x ls _ d done th M E) as (ls' & E' & ->). destruct ls' as [|l ls']; [discriminate|]. cbn [app map] in E'. injection E' as W E'. cbn [olc_loop]. say W. cbn [ignored_olc existsb String.eqb Ascii.eqb Bool.eqb orb take substring o_th obind o_done o_cur].
    destruct (IH false xs (n_t x) ls' (done ++ [seen d x]) (Some (n_t x)) F) as (s & S & D); [discriminate|exact E'|]. exists s. split; [exact S|]. rewrite D. cbn [carried map fst snd]. rewrite <- app_assoc. reflexivity.
Qed.
(** An OLC text *)
Theorem C106_olc qs xs dat : qs <> [] -> olc_all true qs xs -> map words (filter (fun l => olc_concerns (words l)) (split_semi dat)) = olc_text qs ->
  exists es, lens_from_olc air make num int upper glass_map dat = Some es /\ Forall2 (placed None) (carried 0 xs) es.
Proof.
  intros N F E. unfold lens_from_olc, olc_to_system. rewrite olc_filter. destruct (olc_blocks qs true xs 0 _ [] None F N E) as (s & -> & D). cbn [obind]. rewrite D. cbn [app].
  destruct (C106_elements (map (fun p => seen (fst p) (snd p)) (carried 0 xs))) as (_ & X & _ & B).
  destruct X as (X & _). destruct X as (es & A).
  { apply Forall_map. apply Forall_forall. intros p _. do 3 eexists. apply seen_placed. }
  exists es. split; [exact A|]. apply seen_list. auto.
Qed.
End Files.

(** * Focal lengths *)
(** a refracting medium of index [n] behind the surface *)
Definition clear_behind (l : R) (x : nx) (n : R) : Prop := exists m, n_m x = Some m /\ m_mirror m = false /\ m_index m l = n /\ 0 < n.
(** the object is in air, by name or because nothing is said *)
Definition in_air (l : R) (x : nx) : Prop := n_m x = None \/ clear_behind l x 1.
(** sum over the surfaces of index step, curvature and height; [ns] the index behind each surface *)
Fixpoint bending (n0 : R) (xs : list nx) (ns hs : list R) : R :=
  match xs, ns, hs with
  | x :: xs, n :: ns, h :: hs => (n - n0) * n_c x * h + bending n xs ns hs
  | _, _, _ => 0
  end.
Lemma placed_distance r d x e : placed r (d, x) e -> p_distance (e_place e) = Rabs d.
Proof.
  intros ((NF & _) & O & _). cbn [fst] in O. destruct NF as (P & U & OF). rewrite OF in O. rewrite <- (Rabs_pos_eq _ P).
  apply Rsqr_eq_abs_0. unfold Rsqr. transitivity (dot (V 0 0 d) (V 0 0 d)); [rewrite <- O|unfold dot; cbn; ring].
  transitivity (p_distance (e_place e) * p_distance (e_place e) * dot (p_direction (e_place e)) (p_direction (e_place e))); [rewrite U; ring|]. unfold dot, vmul3. cbn [vx vy vz]. ring.
Qed.
Lemma placed_clear r l d x n e : placed r (d, x) e -> clear_behind l x n ->
  lens_surface l e /\ (forall n0, surface_power l n0 e = (n - n0) * n_c x) /\ (forall n0, index_after e n0 l = n) /\ (forall es, refractive_index (e :: es) l 0 = n) /\
  exists m, e_kind e = Sph (Some m) (Surf (n_c x) (n_k x) None false) /\ m_index m l = n.
Proof.
  intros (_ & _ & A & _ & K) (m & M & MM & MI & N). cbn [fst snd] in K. rewrite M in K.
  split; [split; [exact A|rewrite K; intros mt s E; injection E as <- <-; split; [discriminate|intros m' E; injection E as <-; rewrite MI; auto]]|].
  split; [intros n0; unfold surface_power; rewrite K; cbn [bend s_asph s_c]; rewrite MI; reflexivity|].
  split; [intros n0; unfold index_after; rewrite K; exact MI|]. split; [intros es; unfold refractive_index; cbn [firstn rev app first_index]; rewrite K; exact MI|]. exists m. auto.
Qed.
Lemma placed_air r l d x e es : placed r (d, x) e -> in_air l x -> lens_surface l e /\ refractive_index (e :: es) l 0 = 1.
Proof.
  intros P [N|C].
  - destruct P as (_ & _ & A & _ & K). cbn [fst snd] in K. rewrite N in K. split.
    + split; [exact A|]. rewrite K. intros mt s E. injection E as <- <-. split; [discriminate|]. intros m E. discriminate.
    + unfold refractive_index. cbn [firstn rev app first_index]. rewrite K. reflexivity.
  - destruct (placed_clear r l d x 1 e P C) as (L & _ & _ & R1 & _). auto.
Qed.
Lemma singlet_focal r axis l o a b i n ni es y u : Forall2 (placed r) (carried 0 [o; a; b; i]) es -> 0 <= n_t a ->
  in_air l o -> clear_behind l a n -> clear_behind l b 1 -> clear_behind l i ni ->
  let power := (n - 1) * (n_c a - n_c b + (n - 1) * n_t a * n_c a * n_c b / n) in power <> 0 -> fst u * snd y - snd u * fst y <> 0 ->
  exists rs, ptrace axis l es y u (refractive_index es l 0) = Some rs /\ focal_length rs = Some (- / power, / power).
Proof.
  intros F2 T CO CA CB CI power P LG. cbn [carried] in F2. inversion F2 as [|? eo ? ? MO F3]; subst. inversion F3 as [|? ea ? ? MA F4]; subst. inversion F4 as [|? eb ? ? MB F5]; subst. inversion F5 as [|? ei ? ? MI F6]; subst. inversion F6; subst. clear F2 F3 F4 F5 F6.
  destruct (placed_air _ _ _ _ _ [ea; eb; ei] MO CO) as (LO & N0). destruct (placed_clear _ _ _ _ _ _ MI CI) as (LI & _).
  destruct (placed_clear _ _ _ _ _ _ MA CA) as (LA & PA & IA & _ & ma & KA & NA). destruct (placed_clear _ _ _ _ _ _ MB CB) as (LB & PB & IB & _ & mb & KB & NB).
  assert (DB : p_distance (e_place eb) = n_t a) by (rewrite (placed_distance _ _ _ _ MB); apply Rabs_pos_eq; auto).
  assert (NN : 0 < n) by (destruct CA as (? & _ & _ & <- & H); exact H).
  assert (F : Forall (lens_surface l) [eo; ea; eb; ei]) by (repeat apply Forall_cons; auto).
  assert (AB : after [ea; eb] 1 l = 1) by (cbn; rewrite IB; reflexivity).
  assert (PW : let '(_, _, c, _) := blocks2 l 1 [ea; eb] in c = - power).
  { cbn [blocks2]. rewrite IA, PA, PB, DB. unfold power. field. lra. }
  destruct (available axis l eo ea [eb] ei y u F N0 AB LG) as (rs & f0 & f & fd0 & fd1 & pd0 & pd1 & TR & FL & FD & PD).
  { cbn zeta iota beta. destruct (blocks2 l 1 [ea; eb]) as [[[A B] C] D]. rewrite PW. lra. }
  exists rs. rewrite N0. split; [exact TR|].
  destruct (C86_lens axis l eo ea eb ei y u rs f0 f fd0 fd1 pd0 pd1 ma _ mb _ F N0 KA KB NB TR FL FD PD) as (E & -> & _).
  rewrite NA, DB in E. cbn [bend s_asph s_c] in E. fold power in E.
  assert (f = / power). { rewrite <- E. unfold Rdiv. rewrite Rmult_1_l, Rinv_inv. reflexivity. }
  subst f. exact FL.
Qed.

(** A LEN file of a lens has the focal length of the lensmaker's equation with the numbers of its lines *)
Theorem C106_len_singlet air make num qs o a b i text axis l n ni y u : Forall2 (len_means air make num) qs [o; a; b; i] ->
  Forall (fun l => len_harmless num (words l)) text -> map words (filter (fun l => len_concerns (words l)) text) = len_text qs ->
  0 <= n_t a -> in_air l o -> clear_behind l a n -> clear_behind l b 1 -> clear_behind l i ni ->
  let power := (n - 1) * (n_c a - n_c b + (n - 1) * n_t a * n_c a * n_c b / n) in power <> 0 -> fst u * snd y - snd u * fst y <> 0 ->
  exists es rs, lens_from_len air make num text = Some es /\ ptrace axis l es y u (refractive_index es l 0) = Some rs /\ focal_length rs = Some (- / power, / power).
Proof.
  intros F H E T CO CA CB CI power P LG. destruct (C106_len air make num qs [o; a; b; i] text) as (es & IM & PL); auto; [intros ->; inversion F|].
  destruct (singlet_focal None axis l o a b i n ni es y u PL T CO CA CB CI P LG) as (rs & TR & FL). exists es, rs. auto.
Qed.
(** and so does an OLC text, whose object is in air without saying so *)
Theorem C106_olc_singlet air make num int upper glass_map qs o a b i dat axis l n ni y u : olc_all air make num upper glass_map true qs [o; a; b; i] ->
  map words (filter (fun l => olc_concerns (words l)) (split_semi dat)) = olc_text qs ->
  0 <= n_t a -> in_air l o -> clear_behind l a n -> clear_behind l b 1 -> clear_behind l i ni ->
  let power := (n - 1) * (n_c a - n_c b + (n - 1) * n_t a * n_c a * n_c b / n) in power <> 0 -> fst u * snd y - snd u * fst y <> 0 ->
  exists es rs, lens_from_olc air make num int upper glass_map dat = Some es /\ ptrace axis l es y u (refractive_index es l 0) = Some rs /\ focal_length rs = Some (- / power, / power).
Proof.
  intros F E T CO CA CB CI power P LG. destruct (C106_olc air make num int upper glass_map qs [o; a; b; i] dat) as (es & IM & PL); auto; [intros ->; inversion F|].
  destruct (singlet_focal None axis l o a b i n ni es y u PL T CO CA CB CI P LG) as (rs & TR & FL). exists es, rs. auto.
Qed.
(** Any number of surfaces of either file: a ray parallel to the axis meets the surfaces at heights whose sum, each weighted
    by index step and curvature, is its entrance height over the reported focal length *)
Theorem C106_powers axis l o xs i ns ni es y u rs f0 f y' u' rs' : Forall2 (placed None) (carried 0 (o :: xs ++ [i])) es -> xs <> [] ->
  in_air l o -> Forall2 (clear_behind l) xs ns -> clear_behind l i ni ->
  ptrace axis l es y u (refractive_index es l 0) = Some rs -> focal_length rs = Some (f0, f) ->
  ptrace axis l es y' u' (refractive_index es l 0) = Some rs' -> fst u' = 0 ->
  fst y' = f * bending 1 xs ns (map (fun r => fst (ry r)) (tl rs')).
Proof.
  intros F2 NX CO CX CI TR FL TR' U0. cbn [carried] in F2. inversion F2 as [|? eo ? er MO FX]; subst. clear F2.
  assert (SP : exists ex ei, er = ex ++ [ei] /\ lens_surface l ei /\ Forall (lens_surface l) ex /\ (ex = [] -> xs = []) /\ forall n0 hs, weighted l n0 ex hs = bending n0 xs ns hs).
  { clear - FX CX CI. generalize dependent er. generalize (n_t o) as d. induction CX as [|x n xs ns C CX IH]; intros d er FX; cbn [app carried] in FX.
    - inversion FX as [|? ei ? ? MI FN]; subst. inversion FN; subst. exists [], ei. destruct (placed_clear _ _ _ _ _ _ MI CI) as (LI & _). split; [reflexivity|]. split; [exact LI|]. split; [constructor|]. split; [auto|]. intros n0 [|h hs]; reflexivity.
    - inversion FX as [|? e ? er' M FX']; subst. destruct (IH _ _ FX') as (ex & ei & -> & LI & LX & _ & W). exists (e :: ex), ei. destruct (placed_clear _ _ _ _ _ _ M C) as (L & P & I & _).
      split; [reflexivity|]. split; [auto|]. split; [constructor; auto|]. split; [discriminate|]. intros n0 [|h hs]; [reflexivity|]. cbn [weighted bending]. rewrite P, I, W. reflexivity. }
  destruct SP as (ex & ei & -> & LI & LX & NE & W). destruct (placed_air _ _ _ _ _ (ex ++ [ei]) MO CO) as (LO & N0). rewrite N0 in *.
  destruct ex as [|e ex]; [exfalso; auto|]. inversion LX; subst. cbn [app] in *.
  assert (F : Forall (lens_surface l) (eo :: e :: ex ++ [ei])) by (constructor; [auto|]; constructor; [auto|]; apply Forall_app; auto).
  pose proof (C86_power_sum axis l eo e ex ei y u rs f0 f y' u' rs') as Q. cbv zeta in Q. rewrite N0 in Q. specialize (Q F Rlt_0_1 TR FL TR' U0). rewrite W in Q. lra.
Qed.

(** the lens of C103 (radii 3 and -6, thickness 3, index 4/3) in both files, with other lines in between *)
Definition water : material := Material (fun _ => 4/3) false true.
Definition some_air : material := Material (fun _ => 1) false false.
Definition find_water (s : string) : made material := if String.eqb s "WATER" then Made water else NotFound.
Definition digits (s : string) : option R :=
  if String.eqb s "3" then Some 3 else if String.eqb s "-6" then Some (-6) else if String.eqb s "7" then Some 7 else if String.eqb s "5" then Some 5 else if String.eqb s "0" then Some 0 else if String.eqb s "1" then Some 1 else None.
Definition example_text : list string :=
  ["LEN NEW demo 6 4"; "UNI 1"; ""; "TH 7"; "AIR"; "NXT"; "RD 3"; "EBR 2"; " TH  3"; "GLA WATER"; "NXT"; "RD -6"; "TH 5"; "AIR"; "NXT"; "// image"; "TH 0"; "AIR"; "END"; "WV 1"]%string.
Definition example_olc : string := "TH 7; NXT; RD 3; TH 3; GLA WATER; AP 2; NXT; RD -6; TH 5; NXT; RD 0; TH 0; CC 1".
Example C106_len_example : exists es rs, lens_from_len some_air find_water digits example_text = Some es /\
  ptrace true 1 es (1, 1) (0, 1/9) (refractive_index es 1 0) = Some rs /\ focal_length rs = Some (- (72/11), 72/11).
Proof.
  destruct (C106_len_singlet some_air find_water digits [Ox None "7" None None; Ox (Some "3") "3" (Some "WATER") None; Ox (Some "-6") "5" None None; Ox None "0" None None]
    (Nx 0 7 0 (Some some_air)) (Nx (/3) 3 0 (Some water)) (Nx (/ -6) 5 0 (Some some_air)) (Nx 0 0 0 (Some some_air)) example_text true 1 (4/3) 1 (1, 1) (0, 1/9)) as (es & rs & IM & TR & FL).
  - repeat apply Forall2_cons; try apply Forall2_nil; unfold len_means; cbn; repeat split; try lra; try (exists water; split; reflexivity).
    + exists 3. repeat split; lra.
    + exists (-6). repeat split; lra.
  - unfold example_text. repeat apply Forall_cons; try apply Forall_nil; unfold len_harmless; intros args E; try discriminate E. injection E as <-. exists "1"%string, 1. split; reflexivity.
  - reflexivity.
  - cbn. lra.
  - right. exists some_air. cbn. repeat split; lra.
  - exists water. cbn. repeat split; lra.
  - exists some_air. cbn. repeat split; lra.
  - exists some_air. cbn. repeat split; lra.
  - cbn. lra.
  - cbn. lra.
  - exists es, rs. split; [exact IM|]. split; [exact TR|]. rewrite FL. cbn [n_c n_t]. f_equal. f_equal; field.
Qed.
Example C106_olc_example : exists es rs, lens_from_olc some_air find_water digits (fun _ => None) (fun s => s) (fun s => s) example_olc = Some es /\
  ptrace true 1 es (1, 1) (0, 1/9) (refractive_index es 1 0) = Some rs /\ focal_length rs = Some (- (72/11), 72/11).
Proof.
  destruct (C106_olc_singlet some_air find_water digits (fun _ => None) (fun s => s) (fun s => s) [Ox None "7" None None; Ox (Some "3") "3" (Some "WATER") None; Ox (Some "-6") "5" None None; Ox (Some "0") "0" None (Some "1")]
    (Nx 0 7 0 None) (Nx (/3) 3 0 (Some water)) (Nx (/ -6) 5 0 (Some some_air)) (Nx 0 0 1 (Some some_air)) example_olc true 1 (4/3) 1 (1, 1) (0, 1/9)) as (es & rs & IM & TR & FL).
  - cbn. unfold olc_means. cbn. repeat split; try lra.
    + exists 3. split; [reflexivity|]. destruct (Req_EM_T 3 0); [lra|reflexivity].
    + exists (-6). split; [reflexivity|]. destruct (Req_EM_T (-6) 0); [lra|reflexivity].
    + exists 0. split; [reflexivity|]. destruct (Req_EM_T 0 0); [reflexivity|lra].
  - reflexivity.
  - cbn. lra.
  - left. reflexivity.
  - exists water. cbn. repeat split; lra.
  - exists some_air. cbn. repeat split; lra.
  - exists some_air. cbn. repeat split; lra.
  - cbn. lra.
  - cbn. lra.
  - exists es, rs. split; [exact IM|]. split; [exact TR|]. rewrite FL. cbn [n_c n_t]. f_equal. f_equal; field.
Qed.
(** a surface with conic constant and aspheric coefficients, in front of the one before *)
Example C106_elements_example : exists e, olc_spheroid (Surface material (Some (-2)) (1/3) (Some 4) (Some [Some 0; Some 5]) (Some water) (Some 6) true) = Some e /\
  p_offset (e_place e) = V 0 0 (-2) /\ e_kind e = Sph (Some water) (Surf (1/3) 4 (Some [0; 5]) false) /\ e_radius e = Some 6.
Proof.
  set (s := Surface _ _ _ _ _ _ _ _). destruct (C106_elements [s]) as (_ & (X & _) & _ & B). destruct X as (es & E).
  { constructor; [|constructor]. exists (-2), 4, (Some [0; 5]). repeat split. }
  pose proof (B es E) as F. inversion F as [|? e ? ? (d & k & a & (D & K & A) & M) N]; subst. inversion N; subst. cbn in D, K, A. injection D as <-. injection K as <-.
  destruct a as [[|a0 [|a1 [|? ?]]]|]; try discriminate. cbn in A. injection A as <- <-. destruct M as (_ & O & _ & R1 & KK). exists e.
  cbn [all_of] in E. destruct (olc_spheroid s); [|discriminate]. cbn in E. injection E as ->. auto.
Qed.
Print Assumptions C106_elements.
Print Assumptions C106_len.
Print Assumptions C106_olc.
Print Assumptions C106_len_singlet.
Print Assumptions C106_olc_singlet.
Print Assumptions C106_powers.
