(** Further theorems for C62, C64, C65, C66 and C78: the names, file endings, commands and signs listed in the code, and the
    drawing of whole systems. *)
From Coq Require Import String ZArith Reals Bool List Lra Lia.
From Verif Require Import Base Vec ElementModel SampleModel MaterialModel CatalogModel OsloModel PropsCatalog PropsOslo LibraryModel ImporterModel PropsImporter AnalysisModel PropsAnalysis PolySeidelModel PropsPlacement DrawModel PropsDraw.
Import ListNotations.
Open Scope R_scope.
Open Scope list_scope.

(** ** C66: the options of [Analysis] by name *)
(** by subject *)
Definition known_options : list string :=
  ["run"; "update"; "print"; "figwidth"; "defocus"; "resize_full"; "refocus_full"; "trace_gaussian"] ++
  ["print_gaussian"; "print_system"; "print_paraxial"; "print_full"] ++
  ["plot_paraxial"; "plot_gaussian"; "plot_full"; "plot_rays"; "plot_transverse"; "plot_spots"; "plot_opds"; "plot_longitudinal"] ++
  ["system"; "text"; "figures"] ++ ["setup_axes"; "post_setup_axes"; "pre_setup_fanplot"; "pre_setup_xyplot"; "transverse"; "spots"; "opds"; "longitudinal"].
Definition known_option (k : string) : bool := existsb (String.eqb k) known_options.
(** all given options are known, or the first that is not is reported *)
Theorem C66_known kwargs k : analysis_init Method kwargs = NoOption k <->
  exists pre v post, kwargs = pre ++ (k, v) :: post /\ known_option k = false /\ Forall (fun kv => known_option (fst kv) = true) pre.
Proof.
  assert (HA : forall k, has_attribute k = known_option k).
  { intros q. unfold has_attribute, known_option. apply eq_true_iff_eq. rewrite !existsb_exists.
    assert (S : forall x, In x (options ++ other_attributes) <-> In x known_options) by (intros x; unfold options, other_attributes, known_options; cbn [app In]; tauto).
    split; intros (x & I & E); exists x; (split; [apply S; exact I|exact E]). }
  generalize Method as run. induction kwargs as [|[q w] kw IH]; intros run; cbn [analysis_init].
  - split; [destruct run as [|[|]]; discriminate|]. intros (pre & v & post & E & _). destruct pre; discriminate.
  - rewrite HA. destruct (known_option q) eqn:Q.
    + rewrite IH. split; intros (pre & v & post & E & K & F).
      * exists ((q, w) :: pre), v, post. rewrite E. split; [reflexivity|]. split; [exact K|]. constructor; auto.
      * destruct pre as [|p pre]; [injection E as -> -> ->; congruence|]. injection E as <- E. inversion F; subst. eauto 8.
    + split.
      * intros H. injection H as ->. exists [], w, kw. auto.
      * intros (pre & v & post & E & K & F). destruct pre as [|p pre]; [injection E as -> -> ->; reflexivity|]. injection E as <- E. inversion F; subst. cbn [fst] in *. congruence.
Qed.
Example C66_known_example : analysis_init Method [("plot_opds", false); ("plot_all", true)]%string = NoOption "plot_all" /\ known_option "plot_all" = false.
Proof. split; reflexivity. Qed.

(** ** C78: file endings and equations *)
Theorem C78_endings fil :
  (choose fil = Some OsloDir <-> exists stem, lower fil = stem ++ ".dir")%string /\
  (choose fil = Some OsloGlc <-> exists stem, lower fil = stem ++ ".glc")%string /\
  (choose fil = Some ZemaxZmf <-> exists stem, lower fil = stem ++ ".zmf")%string /\
  (choose fil = Some ZemaxAgf <-> exists stem, lower fil = stem ++ ".agf")%string /\
  (choose fil = Some RiiYml <-> exists stem, lower fil = stem ++ "library.yml")%string /\
  (choose fil = Some CodevXml <-> exists stem, lower fil = stem ++ ".xml")%string.
Proof. repeat split; try (intros H; eapply C78_choose; [|exact H]; cbn; tauto); (intros H; eapply C78_choose; [|exact H]; cbn; tauto). Qed.
Example C78_endings_example : choose "a/Thorlabs.DIR" = Some OsloDir /\ choose "x.glc" = Some OsloGlc /\ choose "library.yml" = Some RiiYml /\ choose "other.yml" = None.
Proof. repeat split. Qed.
(** dispersion formula for an equation of a Code V glass *)
Inductive codev_formula : string -> string -> Prop :=
| Code_laurent e : e = "Laurent"%string \/ e = "Glass Manufacturer Laurent"%string -> codev_formula e "schott"
| Code_sellmeier : codev_formula "Standard Sellmeier" "sellmeier"
| Code_maker : codev_formula "Glass Manufacturer Sellmeier" "sellmeier_squared_offset"
| Code_herzberger : codev_formula "Herzberger" "herzberger"
| Code_cauchy : codev_formula "Cauchy" "conrady".
Theorem C78_codev_equation pyfloat g : (exists name typ c, codevxml_to_material pyfloat g = Some (name, typ, c)) <->
  (exists e typ, v_equation g = Some e /\ codev_formula e typ) /\ v_name g <> None /\ Forall (fun t => pyfloat t <> None) (v_coef g).
Proof.
  assert (A : forall e t, assoc cv_types e = Some t <-> codev_formula e t).
  { intros e t. split.
    - unfold cv_types. cbn [assoc]. repeat match goal with |- context [String.eqb ?x e] => destruct (String.eqb_spec x e) as [<-|]; [intros H; injection H as <-; constructor; auto|] end. discriminate.
    - intros H. destruct H as [e [->| ->]| | | |]; reflexivity. }
  unfold codevxml_to_material. split.
  - intros (name & typ & c & H). destruct (v_equation g) as [e|]; [|discriminate]. cbn [obind] in H. destruct (assoc cv_types e) as [t|] eqn:T; [|discriminate]. cbn [obind] in H.
    destruct (v_name g); [|discriminate]. cbn [obind] in H. destruct (all_some (map pyfloat (v_coef g))) as [l|] eqn:L; [|discriminate]. split; [exists e, t; split; [reflexivity|apply A; exact T]|]. split; [discriminate|].
    clear H. revert l L. induction (v_coef g) as [|x xs IH]; intros l L; [constructor|]. cbn in L. destruct (pyfloat x) eqn:X; [|discriminate]. cbn in L. destruct (all_some (map pyfloat xs)) eqn:Y; [|discriminate]. constructor; [congruence|]. eapply IH; reflexivity.
  - intros ((e & t & E & F) & N & C). rewrite E. cbn [obind]. apply A in F. rewrite F. cbn [obind]. destruct (v_name g) as [n|]; [|contradiction]. cbn [obind].
    assert (L : exists l, all_some (map pyfloat (v_coef g)) = Some l).
    { clear - C. induction C as [|x xs X _ (l & IH)]; [exists []; reflexivity|]. cbn. destruct (pyfloat x) as [z|]; [|contradiction]. cbn. rewrite IH. cbn. eauto. }
    destruct L as (l & ->). cbn [obind]. eauto.
Qed.
Theorem C78_codev_formula pyfloat g name typ c e : codevxml_to_material pyfloat g = Some (name, typ, c) -> v_equation g = Some e -> codev_formula e typ.
Proof.
  intros H E. unfold codevxml_to_material in H. rewrite E in H. cbn [obind] in H. destruct (assoc cv_types e) as [t|] eqn:T; [|discriminate]. cbn [obind] in H. destruct (v_name g); [|discriminate]. cbn [obind] in H.
  destruct (all_some _); [|discriminate]. cbn [obind] in H. injection H as _ <- _. unfold cv_types in T. cbn [assoc] in T.
  repeat match type of T with context [String.eqb ?x e] => destruct (String.eqb_spec x e) as [<-|]; [injection T as <-; constructor; auto|] end. discriminate.
Qed.
Example C78_codev_equation_example : let g := CvGlass (Some "ABC1") (Some "517642") (Some "1") (Some "Cauchy") ["x"] in
  codevxml_to_material (fun _ => Some 2) g = Some ("C1"%string, "conrady"%string, [2]) /\ codev_formula "Cauchy" "conrady".
Proof. split; [reflexivity|constructor]. Qed.

(** ** C62: aperture commands leave an OSLO catalogue lens unchanged *)
Theorem C62_apertures (M : Type) (air : M) make num int upper glass_map text s cmd : hd_error (words text) = Some cmd ->
  In cmd ["AP"; "APN"; "AX1"; "AX2"; "AY1"; "AY2"; "ATP"; "AAC"; "CVX"]%string -> olc_step M air make num int upper glass_map text s = Some s.
Proof.
  intros H I. unfold olc_step. destruct (words text) as [|c args]; [discriminate|]. cbn in H. injection H as ->.
  cbn in I. repeat (destruct I as [<-|I]; [reflexivity|]). contradiction.
Qed.
Example C62_apertures_example : hd_error (words "AAC 1 2") = Some "AAC"%string. Proof. reflexivity. Qed.

(** ** C65: the signs of the Buchdahl coefficients *)
Theorem C65_buchdahl_signs s0 s1 s2 s3 s4 s5 s6 s7 s8 s9 s t0 t1 t2 t3 t4 t5 t6 t7 t8 t9 t :
  buchdahl_values (s0 :: s1 :: s2 :: s3 :: s4 :: s5 :: s6 :: s7 :: s8 :: s9 :: s) (t0 :: t1 :: t2 :: t3 :: t4 :: t5 :: t6 :: t7 :: t8 :: t9 :: t) =
  Some [- s1; - s2; s3; - s4; - s5; s6; - s7; s8; - s9; t1; t2; - t3; t4; t5; - t6; t7; - t8; t9].
Proof. unfold buchdahl_values. cbn. f_equal. repeat (apply (f_equal2 (@cons R)); [ring|]). reflexivity. Qed.
Theorem C65_buchdahl_short s t : (length s < 10 \/ length t < 10)%nat <-> buchdahl_values s t = None.
Proof.
  unfold buchdahl_values. destruct (Nat.ltb_spec (length (slice_1_10 s ++ map Ropp (slice_1_10 t))) 18) as [H|H];
    rewrite app_length, map_length in H; unfold slice_1_10 in H; rewrite !firstn_length in H; destruct s, t; cbn [tl length] in *; split; intros K; try reflexivity; try discriminate; lia.
Qed.
Example C65_buchdahl_signs_example : buchdahl_values [0; 1; 2; 3; 4; 5; 6; 7; 8; 9] [0; 1; 2; 3; 4; 5; 6; 7; 8; 9] =
  Some [-1; -2; 3; -4; -5; 6; -7; 8; -9; 1; 2; -3; 4; 5; -6; 7; -8; 9] /\ buchdahl_values [1] [2] = None.
Proof. split; [rewrite C65_buchdahl_signs; reflexivity|apply C65_buchdahl_short; cbn; lia]. Qed.

(** ** C64: the drawing of a system shows every surface, where and as it is *)
Theorem C64_system axis points es r : system_cut axis points es = Some r -> Forall (fun e => built (e_place e)) es ->
  forall k e o m s, nth_error es k = Some e -> nth_error (ElementModel.origins es) k = Some o -> e_kind e = Sph (Some m) s ->
  exists out p, In out r /\ shows out p /\ length p = points /\
    Forall (fun pt => exists w y, pt = (height axis w, vz w) /\ PlacementModel.to_normal (e_place e) (vsub3 w o) = Some y /\ surface_sag s y = Some 0 /\ across axis y = 0) p.
Proof.
  unfold system_cut. intros H B k e o m s E O K. destruct (drawn_of axis points v0 es) as [l|] eqn:D; [|discriminate]. cbn [obind] in H.
  destruct (C64_placed axis points es l D B) as (L & N). destruct (nth_error l k) as [d|] eqn:ND.
  2: { apply nth_error_None in ND. assert (k < length es)%nat by (apply nth_error_Some; congruence). lia. }
  destruct (N k e d o m s E ND O K) as (_ & LP & F). destruct (C64_complete l r d H (nth_error_In _ _ ND)) as (out & I & S). eauto 8.
Qed.
Example C64_system_example : exists p r, let e := El p (Some 3) (Sph (Some demo_glass) (Surf 0 0 None false)) in system_cut 1 2 [e] = Some r /\ Forall (fun e => built (e_place e)) [e].
Proof.
  destruct (C08_frames_rigid 1 ez v0 None []) as (q & p & I & RU & _ & (FN & _) & _). exists p.
  destruct (FN (V 0 (- (3)) 0)) as (w1 & E1 & _). destruct (FN (V 0 3 0)) as (w2 & E2 & _).
  assert (B : built p) by (exists 1, ez, v0, None, [], q; auto).
  eexists. cbv zeta. split; [|constructor; [exact B|constructor]].
  unfold system_cut, drawn_of, profile_of, surface_cut. cbn [e_radius e_kind e_place obind]. unfold linspace, surface_sag, along. cbn. destruct (Req_EM_T 0 0); [|lra]. cbn.
  replace (- (3) + 0 * ((3 - - (3)) / 1)) with (- (3)) by field. replace (- (3) + 1 * ((3 - - (3)) / 1)) with 3 by field. 
  rewrite Ropp_0, E1, E2. reflexivity.
Qed.
