(** C83: what the printed reports say. *)
From Coq Require Import Reals String Bool Arith ZArith Lia Lra Sorted List.
From Verif Require Import Base Vec PlacementModel LayoutModel ElementModel ParaxialModel ParaxialProofs PupilModel ParaxTraceModel SeidelModel
  SimplexModel SimplexEnum PropsSimplex PolySeidelModel FirstOrder Hamilton LimitProofs PropsLimit PrintModel.
Import ListNotations.
Open Scope R_scope.

(** ** the element table *)
Definition no_mirror (e : element) : Prop := match e_kind e with Sph (Some m) _ => m_mirror m = false | _ => True end.
Definition is_surface (e : element) : Prop := e_kind e <> Plain.

Lemma get_n_mu_index e n l : no_mirror e -> match e_kind e with Plain => n | Sph m _ => fst (get_n_mu m n l) end = index_after e n l.
Proof.
  unfold no_mirror, index_after. destruct (e_kind e) as [|[m|] s]; auto. intros M. unfold get_n_mu. rewrite M. auto.
Qed.
Lemma sys_index newton es : Forall no_mirror es -> forall y u n l c i s, nth_error (sys_propagate newton es y u n l c) i = Some s ->
  st_n s = after (firstn (S i) es) n l.
Proof.
  induction 1 as [|e es N NS IH]; intros y u n l c i s H; [destruct i; discriminate|].
  cbn [sys_propagate] in H. destruct (propagate newton e _ _ n l c) as [[[y' u'] n'] t'] eqn:P.
  assert (E : n' = index_after e n l).
  { rewrite <- (get_n_mu_index e n l N). unfold propagate in P. destruct (e_kind e) as [|m s0]; [congruence|]. destruct (get_n_mu m n l). cbn. congruence. }
  destruct i; cbn [nth_error] in H.
  - injection H as <-. cbn. exact E.
  - apply IH in H. rewrite H, E. reflexivity.
Qed.

(** the index in each line that names a material is that in which the traced rays leave this element *)
Lemma table_index newton es y u l c i s : Forall no_mirror es -> nth_error (geo_trace newton es y u (refractive_index es l 0) l c) i = Some s ->
  refractive_index es l i = st_n s.
Proof.
  intros N H. destruct es as [|e es]; [destruct i; discriminate|]. rewrite !refractive_index_after in *.
  destruct i; cbn [geo_trace nth_error] in H; [injection H as <-; reflexivity|].
  apply sys_index in H; [|inversion N; auto]. rewrite H. reflexivity.
Qed.

Lemma element_lines_some nd vd name all l es : forall i r, element_lines nd vd name all l i es = Some r ->
  List.length r = List.length es /\ forall k e, nth_error es k = Some e -> exists a, element_line nd vd name all l (i + k) e = Some a /\ nth_error r k = Some a.
Proof.
  induction es as [|e es IH]; intros i r H; cbn in H.
  - injection H as <-. split; auto. intros [|k]; discriminate.
  - destruct (element_line nd vd name all l i e) as [a|] eqn:A; [|discriminate]. cbn in H.
    destruct (element_lines nd vd name all l (S i) es) as [r'|] eqn:R; [|discriminate]. cbn in H. injection H as <-.
    destruct (IH _ _ R) as (L & F). split; [cbn; auto|]. intros [|k] e' K; cbn in *.
    + injection K as <-. rewrite Nat.add_0_r. eauto.
    + rewrite Nat.add_succ_r. apply F. auto.
Qed.

Theorem C83_element_table newton nd vd name es l y u c r i e : Forall no_mirror es -> element_table nd vd name es l = Some r ->
  nth_error es i = Some e ->
  List.length r = List.length es /\
  exists m s q diameter rest, e_kind e = Sph m s /\
    nth_error r i = Some ([Int i; Txt "S"; Num (Some (p_distance (e_place e))); Num q; Num diameter] ++ rest) /\
    (s_c s = 0 /\ q = None \/ s_c s <> 0 /\ exists x, q = Some x /\ x * s_c s = 1) /\
    match e_radius e with None => diameter = None | Some a => exists b, diameter = Some b /\ b = a + a end /\
    match m with
    | None => rest = [Txt "None"; Num None; Num None; Num None]
    | Some m => forall st, nth_error (geo_trace newton es y u (refractive_index es l 0) l c) i = Some st ->
        rest = [Txt (name m); Num (Some (st_n st)); Num (nd m); Num (vd m)]
    end.
Proof.
  intros N T E. destruct (element_lines_some _ _ _ _ _ _ _ _ T) as (L & F). split; auto.
  destruct (F i e E) as (a & A & RA). cbn [plus] in A. unfold element_line, curvature_of in A.
  destruct (e_kind e) as [|m s] eqn:K; [discriminate|]. cbn [typeletter obind] in A.
  exists m, s, (roc (s_c s)), (do r <- e_radius e; Some (r * 2)).
  eexists. split; [auto|]. split; [rewrite RA, <- A; reflexivity|]. split; [|split].
  - unfold roc. destruct (Req_EM_T (s_c s) 0); [left; auto|right]. split; auto. eexists; split; eauto. field; auto.
  - destruct (e_radius e); cbn; auto. eexists; split; eauto. ring.
  - destruct m; auto. intros st ST. rewrite (table_index newton es y u l c i st); auto.
Qed.
Print Assumptions C83_element_table.

(** a table is printed exactly if every element is a surface *)
Theorem C83_table_exists nd vd name es l : (exists r, element_table nd vd name es l = Some r) <-> Forall is_surface es.
Proof.
  unfold element_table. generalize es at 1 as all. intros all. generalize 0%nat as i. induction es as [|e es IH]; intros i; cbn.
  - split; [constructor|eauto].
  - assert (EL : (exists a, element_line nd vd name all l i e = Some a) <-> is_surface e).
    { unfold element_line, is_surface. destruct (e_kind e); cbn; split; intros H; try discriminate; eauto; [destruct H; discriminate|congruence]. }
    destruct (element_line nd vd name all l i e) as [a|] eqn:A; cbn.
    + specialize (IH (S i)). split.
      * intros (r & H). constructor; [apply EL; eauto|apply IH]. destruct (element_lines nd vd name all l (S i) es); [eauto|discriminate].
      * intros H. inversion H; subst.
        match goal with Q : Forall is_surface es |- _ => apply IH in Q; destruct Q as (r & ->) end. cbn. eauto.
    + split; [intros (r & H); discriminate|]. intros H. inversion H; subst. destruct EL as (_ & EL). destruct EL; [auto|discriminate].
Qed.
Print Assumptions C83_table_exists.

(** ** lines of coefficients *)
Lemma coeff_lines_iff k es coeff : forall i, (exists r, coeff_lines k es coeff i = Some r) <->
  forall j a, nth_error coeff j = Some a -> List.length a = k /\ exists e, nth_error es (i + j) = Some e /\ is_surface e.
Proof.
  induction coeff as [|a coeff IH]; intros i; cbn.
  - split; [intros _ [|j] a; discriminate|eauto].
  - split.
    + intros (r & H) j b J. destruct (nth_error es i) as [e|] eqn:E; [|discriminate]. cbn in H.
      destruct (typeletter (e_kind e)) eqn:T; [|discriminate]. cbn in H.
      destruct (Nat.eqb_spec (List.length a) k); [|discriminate].
      destruct j; cbn in J.
      * injection J as <-. split; auto. exists e. rewrite Nat.add_0_r. split; auto. unfold is_surface. intros Q. rewrite Q in T. discriminate.
      * rewrite Nat.add_succ_r. apply (IH (S i)); auto. destruct (coeff_lines k es coeff (S i)); [eauto|discriminate].
    + intros H. destruct (H 0%nat a eq_refl) as (L & e & E & S). rewrite Nat.add_0_r in E. rewrite E. cbn.
      assert (T : typeletter (e_kind e) = Some "S"%string) by (unfold is_surface in S; destruct (e_kind e); [congruence|reflexivity]).
      rewrite T. cbn. rewrite L, Nat.eqb_refl. destruct (proj2 (IH (Datatypes.S i))) as (r & R).
      { intros j b J. destruct (H (Datatypes.S j) b J) as (L' & e' & E' & S'). rewrite Nat.add_succ_r in E'. eauto. }
      rewrite R. cbn. eauto.
Qed.
Lemma coeff_lines_rows k es coeff : forall i r, coeff_lines k es coeff i = Some r ->
  List.length r = List.length coeff /\ forall j a, nth_error coeff j = Some a -> nth_error r j = Some ([Int (i + j); Txt "S"%string] ++ map Num a).
Proof.
  induction coeff as [|a coeff IH]; intros i r H; cbn in H.
  - injection H as <-. split; auto. intros [|j]; discriminate.
  - destruct (nth_error es i) as [e|]; [|discriminate]. cbn in H. destruct (typeletter (e_kind e)) eqn:T; [|discriminate]. cbn in H.
    assert (s = "S"%string) as -> by (destruct (e_kind e); cbn in T; congruence).
    destruct (List.length a =? k)%nat; [|discriminate]. destruct (coeff_lines k es coeff (S i)) as [r'|] eqn:R; [|discriminate].
    cbn in H. injection H as <-. destruct (IH _ _ R) as (L & F). split; [cbn; auto|]. intros [|j] b J; cbn in J.
    + injection J as <-. rewrite Nat.add_0_r. reflexivity.
    + rewrite Nat.add_succ_r. apply (F j b J).
Qed.
Lemma column_sums_spec k xs : Forall (fun x => List.length x = k) xs ->
  exists t, column_sums k (map (map Some) xs) = map Some t /\ List.length t = k /\
    forall j, (j < k)%nat -> nth j t 0 = fold_right Rplus 0 (map (fun x => nth j x 0) xs).
Proof.
  induction 1 as [|x xs L _ IH]; cbn.
  - exists (repeat 0 k). rewrite repeat_length. split; [|split; auto].
    + clear. induction k; cbn; f_equal; auto.
    + intros j _. clear. revert j; induction k; intros [|j]; cbn; auto.
  - destruct IH as (t & E & LT & F). rewrite E. exists (map (fun p => fst p + snd p) (combine x t)).
    split; [|split].
    + clear. revert t; induction x as [|a x IH]; intros [|b t]; cbn; auto. f_equal. apply IH.
    + rewrite map_length, combine_length. lia.
    + intros j J. rewrite <- F by auto. clear F E. revert t k j L LT J.
      induction x as [|a x IH]; intros [|b t] [|k] j L LT J; cbn in *; try lia. destruct j; auto. apply (IH t k); lia.
Qed.

(** a report is printed exactly if each line has as many numbers as there are labels and belongs to a surface; the lines
    carry the numbers of their elements, the last one the sum of each column *)
Theorem C83_coeffs es xs labels sum :
  ((exists ls, print_coeffs es (map (map Some) xs) labels sum = Some ls) <->
    forall i x, nth_error xs i = Some x -> List.length x = List.length labels /\ exists e, nth_error es i = Some e /\ is_surface e) /\
  forall ls, print_coeffs es (map (map Some) xs) labels sum = Some ls ->
    nth_error ls 0 = Some (Txt "#" :: Txt "T" :: map Txt labels) /\
    (forall i x, nth_error xs i = Some x -> nth_error ls (S i) = Some (Int i :: Txt "S" :: map (fun v => Num (Some v)) x)) /\
    (sum = false -> List.length ls = S (List.length xs)) /\
    (sum = true -> List.length ls = S (S (List.length xs)) /\ exists t, List.length t = List.length labels /\
      nth_error ls (S (List.length xs)) = Some (Txt "" :: Txt "" :: map (fun v => Num (Some v)) t) /\
      forall k, (k < List.length labels)%nat -> nth k t 0 = fold_right Rplus 0 (map (fun x => nth k x 0) xs)).
Proof.
  unfold print_coeffs. split.
  - pose proof (coeff_lines_iff (List.length labels) es (map (map Some) xs) 0) as I. split.
    + intros (ls & H) i x X. destruct (coeff_lines _ _ _ 0) as [r|]; [|discriminate].
      destruct (proj1 I ltac:(eauto) i (map Some x)) as (L & E); [rewrite nth_error_map, X; auto|]. rewrite map_length in L. auto.
    + intros H. destruct (proj2 I) as (r & ->); [|cbn; eauto]. intros j a A. rewrite nth_error_map in A.
      destruct (nth_error xs j) as [x|] eqn:X; [|discriminate]. cbn in A. injection A as <-. rewrite map_length. auto.
  - intros ls H. destruct (coeff_lines (List.length labels) es (map (map Some) xs) 0) as [r|] eqn:R; [|discriminate]. cbn in H. injection H as <-.
    destruct (coeff_lines_rows _ _ _ _ _ R) as (L & F). rewrite map_length in L. split; [reflexivity|]. split; [|split].
    + intros i x X. cbn [nth_error]. rewrite nth_error_app1 by (rewrite L; apply nth_error_Some; congruence).
      rewrite (F i (map Some x)) by (rewrite nth_error_map, X; auto). cbn [app plus]. rewrite map_map. reflexivity.
    + intros ->. cbn [List.length]. rewrite app_nil_r. auto.
    + intros ->. split; [cbn [List.length]; rewrite app_length; cbn; lia|].
      destruct (column_sums_spec (List.length labels) xs) as (t & T & LT & TS).
      { apply Forall_forall. intros x X. apply In_nth_error in X. destruct X as (i & X).
        destruct (proj1 (coeff_lines_iff _ _ _ _) (ex_intro _ r R) i (map Some x)) as (Q & _); [rewrite nth_error_map, X; auto|].
        rewrite map_length in Q. auto. }
      exists t. split; auto. split; auto. cbn [nth_error]. rewrite nth_error_app2 by lia. rewrite L, Nat.sub_diag. cbn [nth_error app].
      rewrite T, map_map. reflexivity.
Qed.
Print Assumptions C83_coeffs.

(** ** the relative path of the axis ray *)
Lemma axial_step newton e l c n : centred e -> conic_refracting l c e -> 0 < n ->
  propagate newton e (Some (V 0 0 (- p_distance (e_place e)))) (Some ez) n l c =
    (Some v0, Some ez, index_after e n l, Some (p_distance (e_place e) * n)) /\ 0 < index_after e n l.
Proof.
  intros C K N. set (d := p_distance (e_place e)).
  destruct (element_lin newton e l c n (fun _ => V 0 0 (- d)) (fun _ => ez) v0 v0 C K N (vlin_const _) (vlin_const _))
    as (Y' & U' & T & dz & uz & (eps & EP & NE) & LY & LU & NP). split; [|auto].
  specialize (NE 0). rewrite Rabs_R0 in NE. specialize (NE EP). cbv beta in NE.
  assert (Y0 : Y' 0 = v0). { destruct LY as ((A & _) & (B & _) & (D & _)). apply vec_eq; auto. }
  assert (U0 : U' 0 = ez). { destruct LU as ((A & _) & (B & _) & (D & _)). apply vec_eq; auto. }
  rewrite Y0, U0 in NE. rewrite NE. do 2 f_equal.
  assert (I : match e_kind e with Plain => plane_intercept (V 0 0 (- d)) ez | Sph _ s => intercept newton s (V 0 0 (- d)) ez end = Some d).
  { destruct K as (_ & K). destruct (e_kind e) as [|m s].
    - destruct (plane_lin d (fun _ => V 0 0 (- d)) (fun _ => ez) v0 v0 (vlin_const _) (vlin_const _)) as (t' & f & (F0 & _) & (q & Q & E)).
      rewrite (E 0) by (rewrite Rabs_R0; auto). rewrite F0. reflexivity.
    - destruct K as (A & AL & NP' & _). unfold intercept. rewrite A.
      destruct (intercept_lin s d (fun _ => V 0 0 (- d)) (fun _ => ez) v0 v0 AL NP' (vlin_const _) (vlin_const _)) as (t' & f & (F0 & _) & (q & Q & E)).
      rewrite (E 0) by (rewrite Rabs_R0; auto). rewrite F0. reflexivity. }
  unfold propagate in NE. cbn [obind] in NE. destruct (e_kind e) as [|m s].
  - rewrite I in NE. cbn [obind] in NE. congruence.
  - rewrite I in NE. cbn [obind] in NE. destruct (get_n_mu m n l). congruence.
Qed.
Lemma axial_trace newton es l c : Forall centred es -> Forall (conic_refracting l c) es -> forall n, 0 < n ->
  forall i e, nth_error es i = Some e ->
  nth_error (sys_propagate newton es (Some v0) (Some ez) n l c) i =
    Some (Step (Some v0) (Some ez) (after (firstn (S i) es) n l) (Some ez) (Some (p_distance (e_place e) * after (firstn i es) n l))).
Proof.
  induction 1 as [|e es C CS IH]; intros K n N i e' E; [destruct i; discriminate|]. inversion K; subst.
  destruct (centred_frame e C) as (D & O & TN & FN). destruct (axial_step newton e l c n C) as (P & NP); auto.
  cbn [sys_propagate obind onormal]. rewrite O, !TN.
  replace (vsub3 v0 (V 0 0 (p_distance (e_place e)))) with (V 0 0 (- p_distance (e_place e))) by (apply vec_eq; cbn; ring).
  rewrite P. destruct i; cbn [nth_error] in *.
  - injection E as <-. reflexivity.
  - cbn [onormal obind]. rewrite !FN. rewrite (IH H2 _ NP i e' E). reflexivity.
Qed.
Lemma nth_error_combine {A B} (a : list A) : forall (b : list B) i, nth_error (combine a b) i =
  match nth_error a i, nth_error b i with Some x, Some y => Some (x, y) | _, _ => None end.
Proof.
  induction a as [|x a IH]; intros [|y b] [|i]; cbn; auto. destruct (nth_error a i); auto.
Qed.
Lemma cumsum1_next l : forall acc i x, nth_error l (S i) = Some x -> exists a, nth_error (LayoutModel.cumsum1 acc l) i = Some a /\ nth_error (LayoutModel.cumsum1 acc l) (S i) = Some (a + x).
Proof.
  induction l as [|v l IH]; intros acc i x H; [destruct i; discriminate|]. destruct i; cbn [nth_error LayoutModel.cumsum1] in *.
  - destruct l as [|w l]; [discriminate|]. injection H as <-. exists (acc + v). auto.
  - apply IH. auto.
Qed.
Lemma cumsum_o_next l : forall acc i x, nth_error l (S i) = Some x -> exists a, nth_error (cumsum_o acc l) i = Some a /\ nth_error (cumsum_o acc l) (S i) = Some (oadd a x).
Proof.
  induction l as [|v l IH]; intros acc i x H; [destruct i; discriminate|]. destruct i; cbn [nth_error cumsum_o] in *.
  - destruct l as [|w l]; [discriminate|]. injection H as <-. exists (oadd acc v). auto.
  - apply IH. auto.
Qed.

(** the line of the axis ray at each element; the column "rel path" changes from one element to the next by the optical
    less the geometric distance *)
Definition axis_line (n z rel : R) : list (option R) := map Some [n; z; rel; 0; 0; 0; 0; 0; 1].
Theorem C83_relative_path newton e0 es l c n : centred e0 -> Forall centred es -> Forall (conic_refracting l c) es -> 0 < n ->
  let rows := geometric_rows (e0 :: es) (geo_trace newton (e0 :: es) v0 ez n l c) in
  nth_error rows 0 = Some (axis_line n (p_distance (e_place e0)) (- p_distance (e_place e0))) /\
  forall i e, nth_error es i = Some e -> exists n0 z0 r0 n1 z1 r1,
    nth_error rows i = Some (axis_line n0 z0 r0) /\ nth_error rows (S i) = Some (axis_line n1 z1 r1) /\
    z1 - z0 = p_distance (e_place e) /\ r1 - r0 = (n0 - 1) * (z1 - z0) /\
    n1 = match e_kind e with Sph (Some m) _ => m_index m l | _ => n0 end.
Proof.
  intros C0 CS KS N rows. destruct (centred_frame e0 C0) as (D & O & TN & FN).
  assert (R0 : nth_error rows 0 = Some (axis_line n (p_distance (e_place e0)) (- p_distance (e_place e0)))).
  { unfold rows, geometric_rows. cbn. unfold geometric_row, axis_line. cbn. rewrite !Rplus_0_l. unfold Rminus. rewrite Rplus_0_l. reflexivity. }
  split; [exact R0|].
  assert (ROW : forall i e, nth_error es i = Some e -> forall n0 z0 r0, nth_error rows i = Some (axis_line n0 z0 r0) ->
    n0 = after (firstn i es) n l ->
    nth_error rows (S i) = Some (axis_line (after (firstn (S i) es) n l) (z0 + p_distance (e_place e)) (r0 + (n0 - 1) * p_distance (e_place e)))).
  { intros i e E n0 z0 r0 RI N0. unfold rows, geometric_rows in RI |- *. rewrite nth_error_map, !nth_error_combine in RI |- *.
    pose proof (axial_trace newton es l c CS KS n N i e E) as AX.
    assert (G : nth_error (geo_trace newton (e0 :: es) v0 ez n l c) (S i) = nth_error (sys_propagate newton es (Some v0) (Some ez) n l c) i).
    { cbn [geo_trace nth_error]. rewrite !FN. reflexivity. }
    rewrite AX in G. rewrite G.
    destruct (cumsum1_next (map p_distance (map e_place (e0 :: es))) 0 i (p_distance (e_place e))) as (z & Z0 & Z1).
    { cbn [map nth_error]. rewrite !nth_error_map, E. reflexivity. }
    destruct (cumsum_o_next (map st_t (geo_trace newton (e0 :: es) v0 ez n l c)) (Some 0) i (Some (p_distance (e_place e) * after (firstn i es) n l))) as (p & P0 & P1).
    { rewrite nth_error_map, G. reflexivity. }
    unfold path. rewrite Z1, P1. unfold path in RI. rewrite Z0, P0 in RI.
    destruct (nth_error (geo_trace newton (e0 :: es) v0 ez n l c) i) as [st|]; [|discriminate]. cbn [option_map fst snd] in RI |- *.
    unfold geometric_row, axis_line in *. cbn [app xyz obind st_y st_u st_n vx vy vz v0 ez map] in *.
    destruct p as [p|]; cbn [obind] in RI; [|discriminate]. assert (z = z0) by congruence. assert (p - z = r0) by congruence. subst z r0. cbn [oadd obind].
    subst n0. do 4 f_equal. f_equal. ring. }
  assert (ALL : forall i, (i <= List.length es)%nat -> exists z r, nth_error rows i = Some (axis_line (after (firstn i es) n l) z r)).
  { induction i as [|i IH]; intros I; [eauto|]. destruct IH as (z & r & R); [lia|].
    destruct (nth_error es i) as [e|] eqn:E; [|apply nth_error_None in E; lia]. rewrite (ROW i e E _ _ _ R eq_refl). eauto. }
  intros i e E. assert (I : (i < List.length es)%nat) by (apply nth_error_Some; congruence).
  destruct (ALL i ltac:(lia)) as (z & r & R). do 6 eexists. split; [exact R|]. split; [apply (ROW i e E _ _ _ R eq_refl)|].
  split; [ring|]. split; [ring|]. clear - E. revert n i E. induction es as [|a es IH]; intros n i E; [destruct i; discriminate|].
  destruct i; cbn [nth_error firstn] in *.
  - injection E as ->. reflexivity.
  - unfold after in *. cbn [fold_left firstn]. apply IH. auto.
Qed.
Print Assumptions C83_relative_path.

(** the seven columns of the third order report are the seven coefficients under their names, and the last line their sums *)
Theorem C83_transverse3 es xs : (List.length xs <= List.length es)%nat -> Forall is_surface es ->
  let total f := Num (Some (fold_right Rplus 0 (map f xs))) in
  exists ls, print_transverse3 es xs = Some ls /\
    nth_error ls 0 = Some (map Txt ["#"; "T"; "SA3"; "CMA3"; "AST3"; "PTZ3"; "DIS3"; "TACHC"; "TCHC"])%string /\
    (forall i x, nth_error xs i = Some x ->
      nth_error ls (S i) = Some [Int i; Txt "S"; Num (Some (tsc x)); Num (Some (cc x)); Num (Some (tac x)); Num (Some (tpc x)); Num (Some (dc x)); Num (Some (tachc x)); Num (Some (tchc x))]) /\
    nth_error ls (S (List.length xs)) = Some [Txt ""; Txt ""; total tsc; total cc; total tac; total tpc; total dc; total tachc; total tchc].
Proof.
  intros LE SU total. set (f := fun x => [tsc x; cc x; tac x; tpc x; dc x; tachc x; tchc x]).
  assert (CR : map coef_row xs = map (map Some) (map f xs)) by (rewrite map_map; reflexivity).
  unfold print_transverse3. rewrite CR.
  destruct (C83_coeffs es (map f xs) ["SA3"; "CMA3"; "AST3"; "PTZ3"; "DIS3"; "TACHC"; "TCHC"]%string true) as (EX & SP).
  destruct (proj2 EX) as (ls & LS).
  { intros i x X. rewrite nth_error_map in X. destruct (nth_error xs i) as [x0|] eqn:X0; [|discriminate]. cbn in X. injection X as <-. split; [reflexivity|].
    assert (I : (i < List.length es)%nat) by (enough (i < List.length xs)%nat by lia; apply nth_error_Some; congruence).
    destruct (nth_error es i) as [e|] eqn:E; [|apply nth_error_None in E; lia]. exists e. split; auto. rewrite Forall_forall in SU. apply SU. eapply nth_error_In; eauto. }
  exists ls. split; [exact LS|]. destruct (SP ls LS) as (H0 & HR & _ & HS). split; [exact H0|]. split.
  - intros i x X. rewrite (HR i (f x)) by (rewrite nth_error_map, X; reflexivity). reflexivity.
  - destruct (HS eq_refl) as (_ & t & LT & TL & TS). rewrite map_length in TL. rewrite TL.
    destruct t as [|a [|b [|c0 [|d [|e [|g [|h [|? ?]]]]]]]]; try discriminate.
    pose proof (TS 0%nat ltac:(cbn; lia)) as T0. pose proof (TS 1%nat ltac:(cbn; lia)) as T1. pose proof (TS 2%nat ltac:(cbn; lia)) as T2.
    pose proof (TS 3%nat ltac:(cbn; lia)) as T3. pose proof (TS 4%nat ltac:(cbn; lia)) as T4. pose proof (TS 5%nat ltac:(cbn; lia)) as T5.
    pose proof (TS 6%nat ltac:(cbn; lia)) as T6. rewrite map_map in T0, T1, T2, T3, T4, T5, T6. cbn [nth f] in T0, T1, T2, T3, T4, T5, T6.
    unfold total. cbn [map]. rewrite T0, T1, T2, T3, T4, T5, T6. reflexivity.
Qed.
Print Assumptions C83_transverse3.
(** the lines of the paraxial report: axial distance, index, and height and index times slope of both rays *)
Theorem C83_paraxial es rs : List.length rs = List.length es -> Forall is_surface es ->
  exists ls, print_paraxial es rs = Some ls /\ List.length ls = S (List.length es) /\
    nth_error ls 0 = Some (map Txt ["#"; "T"; "path"; "n"; "axial y"; "axial nu"; "chief y"; "chief nu"])%string /\
    forall i r, nth_error rs i = Some r -> exists z, z = fold_right Rplus 0 (map (fun e => p_distance (e_place e)) (firstn (S i) es)) /\
      nth_error ls (S i) = Some [Int i; Txt "S"; Num (Some z); Num (Some (rn r)); Num (Some (fst (ry r))); Num (Some (fst (ru r))); Num (Some (snd (ry r))); Num (Some (snd (ru r)))].
Proof.
  intros LE SU. set (f := fun zr : R * prow => let (z, r) := zr in [z; rn r; fst (ry r); fst (ru r); snd (ry r); snd (ru r)]).
  set (zs := combine (path (map e_place es)) rs).
  assert (LP : forall l acc, List.length (LayoutModel.cumsum1 acc l) = List.length l) by (induction l; intros; cbn; auto).
  assert (LZ : List.length zs = List.length es) by (unfold zs, path; rewrite combine_length, LP, !map_length; lia).
  assert (CR : map (fun zr => paraxial_row (fst zr) (snd zr)) zs = map (map Some) (map f zs)) by (rewrite map_map; apply map_ext; intros (z & r); reflexivity).
  unfold print_paraxial. fold zs. rewrite CR.
  destruct (C83_coeffs es (map f zs) ["path"; "n"; "axial y"; "axial nu"; "chief y"; "chief nu"]%string false) as (EX & SP).
  destruct (proj2 EX) as (ls & LS).
  { intros i x X. rewrite nth_error_map in X. destruct (nth_error zs i) as [(z & r)|] eqn:X0; [|discriminate]. cbn in X. injection X as <-. split; [reflexivity|].
    assert (I : (i < List.length es)%nat) by (rewrite <- LZ; apply nth_error_Some; congruence).
    destruct (nth_error es i) as [e|] eqn:E; [|apply nth_error_None in E; lia]. exists e. split; auto. rewrite Forall_forall in SU. apply SU. eapply nth_error_In; eauto. }
  exists ls. split; [exact LS|]. destruct (SP ls LS) as (H0 & HR & HL & _). split; [rewrite (HL eq_refl), map_length, LZ; auto|]. split; [exact H0|].
  intros i r X. eexists. split; [reflexivity|].
  assert (PZ : forall l acc i, (i < List.length l)%nat -> nth_error (LayoutModel.cumsum1 acc l) i = Some (acc + fold_right Rplus 0 (firstn (S i) l))).
  { induction l as [|v l IH]; intros acc [|k] K; cbn [List.length] in K; try lia; cbn [LayoutModel.cumsum1 nth_error].
    - cbn. f_equal. ring.
    - rewrite IH by lia. cbn [firstn fold_right]. f_equal. ring. }
  assert (I : (i < List.length es)%nat) by (rewrite <- LE; apply nth_error_Some; congruence).
  rewrite (HR i (f (fold_right Rplus 0 (map (fun e => p_distance (e_place e)) (firstn (S i) es)), r))); [reflexivity|].
  rewrite nth_error_map. unfold zs. rewrite nth_error_combine, X. unfold path. rewrite PZ by (rewrite !map_length; auto).
  rewrite map_map, Rplus_0_l, firstn_map. reflexivity.
Qed.
Print Assumptions C83_paraxial.
(** each of the seventeen polynomial aberrations is printed after its name *)
Theorem C83_seidel s t ls : print_seidel s t = Some ls -> exists v, seidel s t = Some v /\ List.length ls = 17%nat /\
  forall k n x, nth_error v k = Some (n, x) <-> nth_error ls k = Some [Txt n; Num (Some x)].
Proof.
  unfold print_seidel. destruct (seidel s t) as [v|] eqn:E; [|discriminate]. intros H. cbn [obind] in H. injection H as <-. exists v. split; auto. split.
  - rewrite map_length. unfold seidel in E. destruct (_ || _)%bool; [discriminate|]. injection E as <-. reflexivity.
  - intros k n x. rewrite nth_error_map. destruct (nth_error v k) as [(n' & x')|]; cbn; split; congruence.
Qed.
Print Assumptions C83_seidel.

(** ** polynomial reports *)
Definition poly_line (i : itable) (cols : list (list R)) (ke : nat * list nat) : list cell :=
  label i (snd ke) ++ map (fun col => Num (Some (nth (fst ke) col 0))) cols.
Lemma oseq_forall2 {A} (l : list (option A)) : forall r, oseq l = Some r -> Forall2 (fun o x => o = Some x) l r.
Proof.
  induction l as [|[x|] l IH]; intros r H; cbn in H; try discriminate.
  - injection H as <-. constructor.
  - destruct (oseq l) as [r'|]; [|discriminate]. cbn in H. injection H as <-. constructor; auto.
Qed.
Lemma filter_combine_spec (g : list nat -> bool) j : forall b,
  let l := filter (fun ke => g (snd ke)) (combine (seq b (List.length j)) j) in
  StronglySorted lt (map fst l) /\ forall k e, In (k, e) l <-> (b <= k)%nat /\ nth_error j (k - b) = Some e /\ g e = true.
Proof.
  induction j as [|e j IH]; intros b; cbn [List.length seq combine filter snd].
  - split; [constructor|]. intros k e. split; [intros []|]. intros (_ & H & _). destruct (k - b)%nat; discriminate.
  - destruct (IH (S b)) as (S1 & I1). cbv zeta in *.
    set (l := filter (fun ke : nat * list nat => g (snd ke)) (combine (seq (S b) (List.length j)) j)) in *.
    assert (I2 : forall k x, In (k, x) l <-> (S b <= k)%nat /\ nth_error (e :: j) (k - b) = Some x /\ g x = true).
    { intros k x. rewrite I1. split; intros (A & B & D); repeat apply conj; auto.
      - replace (k - b)%nat with (S (k - S b)) by lia. exact B.
      - replace (k - b)%nat with (S (k - S b)) in B by lia. exact B. }
    destruct (g e) eqn:G.
    + split.
      * cbn [map fst]. constructor; auto. apply Forall_forall. intros k K. apply in_map_iff in K. destruct K as ((k' & x) & <- & K).
        apply I2 in K. cbn. lia.
      * intros k x. cbn [In]. rewrite I2. split.
        -- intros [H|H]; [|intuition lia]. injection H as <- <-. rewrite Nat.sub_diag. cbn. auto.
        -- intros (A & B & D). destruct (Nat.eq_dec k b) as [->|NE]; [left; rewrite Nat.sub_diag in B; cbn in B; congruence|right].
           repeat apply conj; auto. lia.
    + split; auto. intros k x. rewrite I2. split; [intuition lia|]. intros (A & B & D). repeat apply conj; auto.
      destruct (Nat.eq_dec k b) as [->|NE]; [|lia]. rewrite Nat.sub_diag in B. cbn in B. congruence.
Qed.

(** the lines are those of the monomials below the cutoff, in the order of their numbers; each carries the number of its
    monomial, its exponents and, for each wanted element, the coefficient of this monomial behind it *)
Theorem C83_poly_lines m i j a elements cutoff ls : (1 <= m)%nat -> (Z.of_nat (simplex_size 3 m) <= 65536)%Z ->
  simplex_enum 3 m = Some (i, j) -> poly_lines i j a elements cutoff = Some ls ->
  exists ks, StronglySorted lt ks /\
    (forall k, In k ks <-> exists e, nth_error j k = Some e /\ match cutoff with None => True | Some c => (list_sum e < c)%nat end) /\
    Forall2 (fun k line => exists x y z cells, nth_error j k = Some [x; y; z] /\ line = [Int k; Int x; Int y; Int z] ++ cells /\
      Forall2 (fun element c => exists col, nth_error a element = Some col /\ c = Num (Some (nth k col 0)))
        (match elements with Some l => l | None => seq 1 (List.length a - 1) end) cells) ks ls.
Proof.
  intros M SZ EN H.
  assert (JV : forall k e, nth_error j k = Some e -> i e = k /\ List.length e = 3%nat /\ (list_sum e < m)%nat).
  { destruct (C02_index_tables_inverse 3 m ltac:(lia) M SZ) as (i' & j' & EN' & _ & Q & _). rewrite EN in EN'. injection EN' as <- <-. exact Q. }
  unfold poly_lines in H. set (els := match elements with Some l => l | None => _ end) in *.
  set (keep := fun e => match cutoff with None => true | Some c => (list_sum e <? c)%nat end) in *.
  destruct (oseq (map (nth_error a) els)) as [cols|] eqn:OC; [|discriminate]. cbn [obind] in H.
  apply oseq_forall2 in OC. destruct (filter_combine_spec keep j 0) as (ST & IN). cbv zeta in ST, IN.
  assert (HL : ls = map (poly_line i cols) (filter (fun ke => keep (snd ke)) (combine (seq 0 (List.length j)) j))) by (symmetry; injection H; auto). clear H.
  set (l := filter (fun ke => keep (snd ke)) (combine (seq 0 (List.length j)) j)) in *.
  assert (KE : forall e, keep e = true <-> match cutoff with None => True | Some c => (list_sum e < c)%nat end).
  { intros e. unfold keep. destruct cutoff; [apply Nat.ltb_lt|tauto]. }
  exists (map fst l). split; [auto|]. split.
  - intros k. rewrite in_map_iff. split.
    + intros ((k' & e) & <- & K). apply IN in K. cbn. exists e. rewrite Nat.sub_0_r in K. rewrite <- KE. tauto.
    + intros (e & E & C). exists (k, e). split; auto. apply IN. rewrite Nat.sub_0_r, KE. auto with arith.
  - subst ls. assert (ALL : Forall (fun ke => nth_error j (fst ke) = Some (snd ke)) l).
    { apply Forall_forall. intros (k & e) K. apply IN in K. rewrite Nat.sub_0_r in K. cbn. tauto. }
    clear - ALL JV OC. induction ALL as [|(k & e) l K ALL IH]; cbn [map]; constructor; auto. cbn [fst snd] in *.
    destruct (JV k e K) as (IE & LE & _). destruct e as [|x [|y [|z [|? ?]]]]; try discriminate.
    exists x, y, z, (map (fun col => Num (Some (nth k col 0))) cols). split; auto. split; [unfold poly_line, label; cbn; rewrite IE; reflexivity|].
    clearbody els. clear - OC. remember (map (nth_error a) els) as os eqn:E. revert els E. induction OC as [|o c os cols OE _ IH]; intros [|el els] E; try discriminate; cbn; constructor.
    + cbn in E. exists c. split; [congruence|auto].
    + apply IH. cbn in E. congruence.
Qed.
Print Assumptions C83_poly_lines.

Lemma print_names_nth i ns : forall s t js k a b x y e, nth_error ns k = Some (a, b) -> nth_error s k = Some x -> nth_error t k = Some y -> nth_error js k = Some e ->
  nth_error (print_names_from i ns s t js) (2 * k) = Some ([Txt "s"%string] ++ label i e ++ [Txt a; Num (Some x)]) /\
  nth_error (print_names_from i ns s t js) (2 * k + 1) = Some ([Txt "t"%string] ++ label i e ++ [Txt b; Num (Some y)]).
Proof.
  induction ns as [|(a0 & b0) ns IH]; intros [|x0 s] [|y0 t] [|e0 js] [|k] a b x y e A B C D; try discriminate; cbn in A, B, C, D.
  - injection A as <- <-. injection B as <-. injection C as <-. injection D as <-. split; reflexivity.
  - replace (2 * S k)%nat with (S (S (2 * k))) by lia. replace (S (S (2 * k)) + 1)%nat with (S (S (2 * k + 1))) by lia.
    cbn [print_names_from nth_error]. apply IH; auto.
Qed.
(** each name is printed with the coefficients and the exponents of the monomial it belongs to *)
Theorem C83_names m i j s t k a b x y : (1 <= m)%nat -> (Z.of_nat (simplex_size 3 m) <= 65536)%Z -> simplex_enum 3 m = Some (i, j) ->
  nth_error names k = Some (a, b) -> nth_error s (S k) = Some x -> nth_error t (S k) = Some y -> (S k < List.length j)%nat ->
  exists p q r, nth_error j (S k) = Some [p; q; r] /\
    nth_error (print_names i j s t) (2 * k) = Some [Txt "s"; Int (S k); Int p; Int q; Int r; Txt a; Num (Some x)] /\
    nth_error (print_names i j s t) (2 * k + 1) = Some [Txt "t"; Int (S k); Int p; Int q; Int r; Txt b; Num (Some y)].
Proof.
  intros M SZ EN NA NS NT NJ. destruct (nth_error j (S k)) as [e|] eqn:E; [|apply nth_error_None in E; lia].
  destruct (C02_index_tables_inverse 3 m ltac:(lia) M SZ) as (i' & j' & EN' & _ & Q & _). rewrite EN in EN'. injection EN' as <- <-.
  destruct (Q _ _ E) as (IE & LE & _). destruct e as [|p [|q [|r [|? ?]]]]; try discriminate. exists p, q, r. split; auto.
  unfold print_names. destruct s as [|s0 s]; [discriminate|]. destruct t as [|t0 t]; [discriminate|]. destruct j as [|j0 j]; [discriminate|].
  destruct (print_names_nth i names s t j k a b x y [p; q; r]) as (P1 & P2); auto. cbn [tl]. rewrite P1, P2. unfold label. rewrite IE. split; reflexivity.
Qed.
Print Assumptions C83_names.

(** ** pupils and conjugates can be read back from their texts *)
Fixpoint find (s : string) (t : list line) : option cell :=
  match t with [] => None | (a, c) :: t => if String.eqb a s then c else find s t end.
Fixpoint last_line (t : list line) : option line := match t with [] => None | [x] => Some x | _ :: t => last_line t end.
Fixpoint split_pupil (t : list line) : list line * list line :=
  match t with
  | [] => ([], [])
  | (a, None) :: t => ([], t)
  | x :: t => let '(b, c) := split_pupil t in (x :: b, c)
  end.
Definition flag (d : bool) (c : option cell) : bool := match c with Some (Flag b) => b | _ => d end.
Definition number (d : R) (c : option cell) : R := match c with Some (Num (Some x)) => x | _ => d end.
Definition proj (c : option cell) : projection := match c with Some (Proj p) => p | _ => Rectilinear end.
Definition read_pupil (t : list line) : pupil :=
  let k := match last_line t with
    | Some (a, _) => if String.eqb a "NA" then NaPupil else if String.eqb a "Slope" then SlopePupil else if String.eqb a "Radius" then RadiusPupil else FnoPupil
    | None => NaPupil end in
  Pupil k (number 0 (match last_line t with Some (_, c) => c | None => None end)) (number 0 (find "Pupil Distance" t))
    (flag true (find "Track Distance" t)) (flag false (find "Update Radius" t)) (flag false (find "Aim" t)) (flag false (find "Telecentric" t))
    (number 1 (find "Refractive Index" t)) (proj (find "Projection" t)).
Definition read_conjugate (t : list line) : conjugate :=
  let '(b, p) := split_pupil t in
  let fin := match find "Radius" b with Some _ => true | None => false end in
  Conjugate fin (if fin then number 0 (find "Radius" b) else number 0 (find "Semi-Angle" b) * PI / 180) (read_pupil p) (proj (find "Projection" b)) (flag false (find "Update Radius" b)).
Lemma read_pupil_text p : read_pupil (pupil_text p) = p.
Proof.
  destruct p as [k v d ud ur a t n pr]. unfold pupil_text. cbn [pu_kind pu_val pu_distance pu_update_distance pu_update_radius pu_aim pu_telecentric pu_index pu_projection].
  destruct (Req_EM_T n 1) as [->|NE]; destruct k, ud, ur, a, t, pr; reflexivity.
Qed.
Lemma read_conjugate_text c : read_conjugate (conjugate_text c) = c.
Proof.
  destruct c as [f v p pr ur]. unfold conjugate_text, read_conjugate. cbn [cj_finite cj_val cj_pupil cj_projection cj_update_radius].
  pose proof (read_pupil_text p) as RP. assert (A : v * 180 / PI * PI / 180 = v) by (field; apply PI_neq0).
  generalize dependent (pupil_text p). intros t RP. destruct f, pr, ur; cbn - [read_pupil Rmult Rdiv PI]; rewrite RP, ?A; reflexivity.
Qed.
(** no two pupils and no two conjugates have the same text *)
Theorem C83_texts : (forall p q, pupil_text p = pupil_text q -> p = q) /\ (forall c d, conjugate_text c = conjugate_text d -> c = d).
Proof.
  split; [intros p q H; rewrite <- (read_pupil_text p), H; apply read_pupil_text|].
  intros c d H. rewrite <- (read_conjugate_text c), H. apply read_conjugate_text.
Qed.
Print Assumptions C83_texts.

(** ** examples and findings *)
Definition vac : material := Material (fun _ => 1) false true.
Definition bk : material := Material (fun _ => 3/2) false true.
(** a plane block of glass in air and an image plane; all distances are [d] *)
Lemma block_exists d : 0 <= d -> exists p, centred (El p None Plain) /\ p_distance p = d /\ forall r k, e_place (El p r k) = p /\ centred (El p r k).
Proof.
  intros D. destruct (centred_axis d D) as (p & _ & UP & PD & DI & AN). exists p. assert (forall r k, centred (El p r k)) by (intros; split; auto). auto.
Qed.
Definition plane (m : option material) : kind := Sph m (Surf 0 0 None false).
Definition block (p q : placement) : list element := [El p (Some 1) (plane (Some vac)); El q (Some 2) (plane (Some bk)); El q None (plane None)].

Example C83_element_table_example newton : exists p q r, element_table (fun _ => Some (3/2)) (fun _ => Some 60) (fun m => "BK"%string) (block p q) 1 = Some r /\
  Forall no_mirror (block p q) /\ nth_error (block p q) 1 <> None /\ List.length r = 3%nat /\
  nth_error r 1 = Some [Int 1; Txt "S"; Num (Some 3); Num None; Num (Some (2 * 2)); Txt "BK"; Num (Some (3/2)); Num (Some (3/2)); Num (Some 60)] /\
  exists st, nth_error (geo_trace newton (block p q) v0 ez (refractive_index (block p q) 1 0) 1 false) 1 = Some st /\ st_n st = 3/2.
Proof.
  destruct (block_exists 0) as (p & _ & P0 & CP); [lra|]. destruct (block_exists 3) as (q & _ & Q0 & CQ); [lra|]. exists p, q.
  eexists. split; [reflexivity|]. split; [repeat constructor|]. split; [discriminate|]. split; [reflexivity|]. split.
  - cbn [nth_error e_place e_kind plane curvature_of s_c]. unfold roc, refractive_index. cbn. rewrite Q0. destruct (Req_EM_T 0 0); [reflexivity|lra].
  - cbn [geo_trace block nth_error sys_propagate]. destruct (propagate newton _ _ _ _ _ _) as [[[y u] n] t] eqn:P. eexists. split; [reflexivity|].
    cbn [st_n]. unfold propagate in P. cbn [e_kind plane get_n_mu bk m_mirror m_index] in P. congruence.
Qed.
Example C83_table_exists_example p : Forall is_surface [El p (Some 1) (plane (Some bk))] /\ ~ Forall is_surface [El p (Some 1) (plane None); El p None Plain].
Proof.
  split; [repeat constructor; discriminate|]. intros H. inversion H as [|? ? _ H2]. inversion H2 as [|? ? Q _]. apply Q. reflexivity.
Qed.
(** a system with a plain [Element] in it cannot be printed *)
Theorem C83_plain_refuted nd vd name l : exists es, es <> [] /\ Forall no_mirror es /\ Forall centred es /\ Forall (conic_refracting l false) es /\ element_table nd vd name es l = None.
Proof.
  destruct (block_exists 1) as (p & C & _ & _); [lra|]. exists [El p None Plain].
  split; [discriminate|]. split; [repeat constructor|]. split; [repeat constructor; apply C|]. split; [|reflexivity].
  repeat constructor. discriminate.
Qed.
Print Assumptions C83_plain_refuted.
(** the line of a mirror in glass does not show the index in which the ray travels *)
Theorem C83_mirror_refuted newton nd vd name : exists es r st, element_table nd vd name es 1 = Some r /\
  nth_error (geo_trace newton es v0 ez (refractive_index es 1 0) 1 false) 1 = Some st /\ st_n st = 3/2 /\
  exists line, nth_error r 1 = Some line /\ nth_error line 6 = Some (Num (Some 1)).
Proof.
  destruct (block_exists 1) as (p & C & _ & _); [lra|].
  exists [El p None (plane (Some bk)); El p None (plane (Some silver))]. eexists. 
  cbn [geo_trace nth_error sys_propagate]. destruct (propagate newton _ _ _ _ _ _) as [[[y u] n] t] eqn:P. eexists.
  split; [reflexivity|]. split; [reflexivity|]. split.
  - cbn [st_n]. unfold propagate in P. cbn [e_kind plane get_n_mu silver m_mirror] in P. unfold refractive_index in P. cbn in P. congruence.
  - eexists. split; reflexivity.
Qed.
Print Assumptions C83_mirror_refuted.

Example C83_coeffs_example p : exists ls, print_coeffs (block p p) (map (map Some) [[1; 2]; [3; 4]; [5; 6]]) ["a"; "b"]%string true = Some ls /\
  nth_error ls 4 = Some [Txt ""; Txt ""; Num (Some (1 + (3 + (5 + 0)))); Num (Some (2 + (4 + (6 + 0))))].
Proof. eexists. split; reflexivity. Qed.

Lemma block_refracting (q : placement) l c : Forall (conic_refracting l c) [El q (Some 2) (plane (Some bk)); El q None (plane None)].
Proof.
  repeat constructor; cbn; auto; try (intros _ H; injection H; lra); try discriminate; lra.
Qed.
Example C83_relative_path_example : exists p q l c n, centred (El p (Some 1) (plane (Some vac))) /\
  Forall centred [El q (Some 2) (plane (Some bk)); El q None (plane None)] /\
  Forall (conic_refracting l c) [El q (Some 2) (plane (Some bk)); El q None (plane None)] /\ 0 < n.
Proof.
  destruct (block_exists 0) as (p & _ & P0 & CP); [lra|]. destruct (block_exists 3) as (q & _ & Q0 & CQ); [lra|]. exists p, q, 1, true, 1.
  split; [apply CP|]. split; [repeat constructor; apply CQ|]. split; [apply block_refracting|lra].
Qed.
(** the axis ray gets a relative path in glass although it is the reference *)
Theorem C83_relative_path_refuted newton : exists es z r n, nth_error (geometric_rows es (geo_trace newton es v0 ez (refractive_index es 1 0) 1 false)) 0 = Some (axis_line 1 0 0) /\
  nth_error (geometric_rows es (geo_trace newton es v0 ez (refractive_index es 1 0) 1 false)) 2 = Some (axis_line n z r) /\ r = 3/2.
Proof.
  destruct (block_exists 0) as (p & _ & P0 & CP); [lra|]. destruct (block_exists 3) as (q & _ & Q0 & CQ); [lra|].
  destruct (C83_relative_path newton (El p (Some 1) (plane (Some vac))) [El q (Some 2) (plane (Some bk)); El q None (plane None)] 1 false 1) as (R0 & RS).
  { apply CP. } { repeat constructor; apply CQ. } { apply block_refracting. } { lra. }
  destruct (RS 0%nat _ eq_refl) as (n0 & z0 & r0 & n1 & z1 & r1 & A & B & DZ & DR & DN).
  destruct (RS 1%nat _ eq_refl) as (n0' & z0' & r0' & n2 & z2 & r2 & A' & B' & DZ' & DR' & DN').
  rewrite R0 in A. rewrite B in A'. unfold axis_line in A, A'. cbn [map] in A, A'. cbn [e_place e_kind plane bk m_index] in *. rewrite ?P0, ?Q0 in *.
  assert (n0 = 1) by congruence. assert (r0 = -0) by congruence. assert (n0' = n1) by congruence. assert (r0' = r1) by congruence. subst n0 r0 n0' r0'.
  exists (block p q), z2, r2, n2. unfold block. replace (refractive_index _ 1 0) with 1 by reflexivity.
  split; [rewrite R0, Ropp_0; reflexivity|]. split; [exact B'|]. rewrite DZ in DR. rewrite DZ' in DR'. lra.
Qed.
Print Assumptions C83_relative_path_refuted.

Example C83_poly_lines_example : exists i j ls, simplex_enum 3 3 = Some (i, j) /\ poly_lines i j [repeat 0 10; repeat 1 10] None (Some 2%nat) = Some ls /\ List.length ls = 4%nat.
Proof.
  destruct (C02_index_tables_inverse 3 3 ltac:(lia) ltac:(lia) ltac:(vm_compute; discriminate)) as (i & j & E & _).
  exists i, j. eexists. split; [exact E|]. vm_compute in E. injection E as <- <-. split; [reflexivity|]. reflexivity.
Qed.
Example C83_names_example : exists i j, simplex_enum 3 3 = Some (i, j) /\ nth_error names 1 = Some ("field curvature", "distortion")%string /\ (2 < List.length j)%nat /\
  nth_error (print_names i j [1; 2; 3] [4; 5; 6]) 3 = Some [Txt "t"; Int 2; Int 0; Int 1; Int 0; Txt "distortion"; Num (Some 6)].
Proof.
  destruct (C02_index_tables_inverse 3 3 ltac:(lia) ltac:(lia) ltac:(vm_compute; discriminate)) as (i & j & E & _).
  exists i, j. split; [exact E|]. vm_compute in E. injection E as <- <-. split; [reflexivity|]. split; [cbn; lia|]. reflexivity.
Qed.
Example C83_texts_example : let p := Pupil NaPupil (1/4) 10 true false true false 1 Rectilinear in
  pupil_text p = [("Pupil Distance", Some (Num (Some 10))); ("Aim", Some (Flag true)); ("NA", Some (Num (Some (1/4))))]%string.
Proof.
  cbv zeta. unfold pupil_text. cbn [pu_index]. destruct (Req_EM_T 1 1); [reflexivity|lra].
Qed.
Example C83_transverse3_example p : (List.length [Coefs 1 2 3 4 5 6 7] <= List.length (block p p))%nat /\ Forall is_surface (block p p).
Proof. split; [cbn; lia|]. repeat constructor; discriminate. Qed.
Example C83_paraxial_example p : let r := PRow (1, 0) (0, 1) 1 in List.length [r; r; r] = List.length (block p p) /\ Forall is_surface (block p p).
Proof. split; [reflexivity|]. repeat constructor; discriminate. Qed.
Example C83_seidel_example : exists ls, print_seidel (repeat 1 10) (repeat 2 10) = Some ls /\ nth_error ls 1 = Some [Txt "s2"; Num (Some (-(2)))].
Proof. eexists. split; reflexivity. Qed.
