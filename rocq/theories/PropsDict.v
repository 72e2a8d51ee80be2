(** Properties C29 (serialise and re-load) and C30 (construction does not change the
    description). *)
From Coq Require Import Reals List String Bool ZArith Lra Psatz.
From Verif Require Import Base Vec RotModel PlacementModel PlacementProofs PupilModel DictModel.
Import ListNotations.
Open Scope R_scope.
Open Scope string_scope.
Open Scope list_scope.

(** ** dictionaries with optional entries *)
Definition slots := list (string * option value).
Fixpoint dict_of (l : slots) : dict :=
  match l with [] => [] | (k, Some v) :: l => (k, v) :: dict_of l | (_, None) :: l => dict_of l end.
Fixpoint sget (k : string) (l : slots) : option value :=
  match l with [] => None | (j, v) :: l => if String.eqb j k then v else sget k l end.
Fixpoint sdel (k : string) (l : slots) : slots :=
  match l with [] => [] | (j, v) :: l => if String.eqb j k then l else (j, v) :: sdel k l end.
Fixpoint mem (k : string) (l : slots) : bool :=
  match l with [] => false | (j, _) :: l => String.eqb j k || mem k l end.
Fixpoint distinct (l : slots) : bool :=
  match l with [] => true | (j, _) :: l => negb (mem j l) && distinct l end.
Lemma not_mem k l : mem k l = false -> dget k (dict_of l) = None /\ ddel k (dict_of l) = dict_of l.
Proof.
  induction l as [|[j [v|]] l IH]; cbn; [auto| |]; intros H; apply orb_false_iff in H; destruct H as (J & M);
    destruct (IH M) as (A & B); [rewrite J, A, B; auto|auto].
Qed.
Lemma slot_get k l : distinct l = true -> dget k (dict_of l) = sget k l /\ ddel k (dict_of l) = dict_of (sdel k l).
Proof.
  induction l as [|[j v] l IH]; cbn; [auto|]. intros H. apply andb_true_iff in H. destruct H as (N & D).
  apply negb_true_iff in N. destruct (IH D) as (A & B). destruct (String.eqb j k) eqn:J.
  - apply String.eqb_eq in J. subst j. destruct v as [v|]; cbn; [rewrite String.eqb_refl; auto|]. apply not_mem; auto.
  - destruct v as [v|]; cbn; [rewrite J, A, B; auto|auto].
Qed.
Lemma slot_kw k w l : distinct l = true ->
  kw k w (dict_of l) = (match sget k l with Some v => v | None => w end, dict_of (sdel k l)).
Proof. intros H. unfold kw. destruct (slot_get k l H) as (-> & ->). reflexivity. Qed.
Lemma slot_opt c k v : opt c k v = dict_of [(k, if c then Some v else None)].
Proof. destruct c; reflexivity. Qed.
Lemma slot_app a b : dict_of a ++ dict_of b = dict_of (a ++ b).
Proof. induction a as [|[k [v|]] a IH]; cbn; [auto|rewrite IH; auto|auto]. Qed.
Lemma slot_one k v : [(k, v)] = dict_of [(k, Some v)].
Proof. reflexivity. Qed.
Ltac slot_kw := rewrite slot_kw by reflexivity; cbn [sget sdel String.eqb Ascii.eqb Bool.eqb].

(** * C29 *)
Definition pupil_slots (nick : option value) (p : pupil) : slots :=
  [("type", if String.eqb (kind_name (pu_kind p)) "radius" then None else Some (VStr (kind_name (pu_kind p)))); ("nickname", nick);
   ("distance", Some (VNum (pu_distance p)));
   ("update_distance", if pu_update_distance p then None else Some (VBool false));
   ("update_radius", if pu_update_radius p then Some (VBool true) else None);
   ("aim", if pu_aim p then Some (VBool true) else None);
   ("projection", if rectilinear (pu_projection p) then None else Some (VStr (proj_name (pu_projection p))));
   ("telecentric", if pu_telecentric p then Some (VBool true) else None);
   ("refractive_index", if is1 (pu_index p) then None else Some (VNum (pu_index p)));
   (kind_name (pu_kind p), Some (VNum (pu_val p)))].
Definition nick_value (nick : option string) : option value :=
  match nick with Some s => if String.eqb s "" then None else Some (VStr s) | None => None end.
Lemma pupil_dict_slots nick p : pupil_dict nick p = dict_of (pupil_slots (nick_value nick) p).
Proof.
  unfold pupil_dict, name_dict, pupil_slots, nick_value. destruct p as [k v d ud ur aim tele n proj].
  cbn [pu_kind pu_val pu_distance pu_update_distance pu_update_radius pu_aim pu_telecentric pu_index pu_projection].
  match goal with |- (_ ++ ?m) ++ _ = _ => replace m
    with (dict_of [("nickname", match nick with Some s => if s =? "" then None else Some (VStr s) | None => None end)]) end.
  2:{ destruct nick as [s|]; [destruct (s =? ""); reflexivity|reflexivity]. }
  rewrite !slot_opt, (slot_one "distance"), (slot_one (kind_name k)), !slot_app. cbn [app].
  repeat f_equal.
  - destruct (kind_name k =? "radius"); reflexivity.
  - destruct ud; reflexivity.
  - destruct ur; reflexivity.
  - destruct aim; reflexivity.
  - destruct (rectilinear proj); reflexivity.
  - destruct tele; reflexivity.
  - destruct (is1 n); reflexivity.
Qed.
Lemma as_proj_name j : as_proj (match (if rectilinear j then None else Some (VStr (proj_name j))) with Some v => v | None => VStr "rectilinear" end) = Ok j.
Proof. destruct j; reflexivity. Qed.
Ltac by_slots := unfold kw_required; repeat slot_kw.
Theorem C29_pupil p : pupil_make (pupil_dict None p) = (Ok p, ddel "type" (pupil_dict None p)).
Proof.
  rewrite pupil_dict_slots. destruct p as [k v d ud ur aim tele n proj]. unfold pupil_make, pop_type, pupil_slots.
  cbn [pu_kind pu_val pu_distance pu_update_distance pu_update_radius pu_aim pu_telecentric pu_index pu_projection nick_value].
  assert (D : distinct (pupil_slots None (Pupil k v d ud ur aim tele n proj)) = true) by (destruct k; reflexivity).
  unfold pupil_slots in D. cbn [pu_kind pu_val pu_distance pu_update_distance pu_update_radius pu_aim pu_telecentric pu_index pu_projection] in D.
  rewrite slot_kw by exact D. destruct (slot_get "type" _ D) as (_ & ->).
  assert (X : 1 = 1) by reflexivity.
  assert (N : match (if is1 n then None else Some (VNum n)) with Some v => v | None => VNum 1 end = VNum n).
  { unfold is1. destruct (Req_EM_T n 1) as [->|]; reflexivity. }
  f_equal. destruct k; cbn -[is1 rectilinear kw dict_of]; unfold pupil_init, kw_required; cbn [kind_name];
    (match goal with |- context [dget ?q (dict_of ?l)] => destruct (slot_get q l eq_refl) as (-> & ->) end); cbn -[is1 rectilinear kw dict_of];
    repeat slot_kw; cbn [dict_of no_more rbind]; rewrite N, as_proj_name; destruct ud, ur, aim, tele; reflexivity.
Qed.
(** a nickname makes the dictionary unreadable, for every pupil and every nickname *)
Theorem C29_nickname_refuted p s : s <> "" -> fst (pupil_make (pupil_dict (Some s) p)) = Raise TypeError.
Proof.
  intros H. rewrite pupil_dict_slots. destruct p as [k v d ud ur aim tele n proj]. unfold pupil_make, pop_type, pupil_slots, nick_value.
  cbn [pu_kind pu_val pu_distance pu_update_distance pu_update_radius pu_aim pu_telecentric pu_index pu_projection].
  replace (s =? "") with false by (symmetry; apply String.eqb_neq; auto).
  assert (D : distinct (pupil_slots (Some (VStr s)) (Pupil k v d ud ur aim tele n proj)) = true) by (destruct k; reflexivity).
  unfold pupil_slots in D. cbn [pu_kind pu_val pu_distance pu_update_distance pu_update_radius pu_aim pu_telecentric pu_index pu_projection] in D.
  rewrite slot_kw by exact D. cbn [fst].
  destruct k; cbn -[is1 rectilinear kw dict_of]; unfold pupil_init, kw_required; cbn [kind_name];
    (match goal with |- context [dget ?q (dict_of ?l)] => destruct (slot_get q l eq_refl) as (-> & ->) end); cbn -[is1 rectilinear kw dict_of];
    repeat slot_kw; cbn [dict_of no_more rbind]; reflexivity.
Qed.

(** conjugates: everything but update_radius survives *)
Theorem C29_conjugate c : fst (conjugate_make (conjugate_dict None c)) =
  Ok (Conjugate (cj_finite c) (cj_val c) (cj_pupil c) (cj_projection c) false).
Proof.
  destruct c as [f v p proj ur]. unfold conjugate_make, pop_type, kw, conjugate_dict.
  cbn [cj_finite cj_val cj_pupil cj_projection cj_update_radius].
  assert (P := C29_pupil p). set (pd := pupil_dict None p) in *. clearbody pd.
  unfold is0. destruct (Req_EM_T v 0) as [->|N]; destruct f, proj; cbn -[pupil_make]; unfold conjugate_init; cbn -[pupil_make]; rewrite P; reflexivity.
Qed.
Theorem C29_conjugate_refuted : exists c, conjugate_make (conjugate_dict None c) <> (Ok c, ddel "type" (conjugate_dict None c)) /\
  c = default_image.
Proof.
  exists default_image. split; [|reflexivity]. intros E. assert (F := f_equal fst E). rewrite C29_conjugate in F.
  injection F. discriminate.
Qed.

Section Materials.
Variable floats : string -> option (list R).
Variable lookup : string -> res material.
Variable dCF : list R.

(** spec: what an element re-loads exactly: a Spheroid whose placement came from [update],
    whose axis flags are exact, whose material can be found under its name and whose
    aperture fits its curvature *)
Definition reloadable (e : element) : Prop :=
  el_class e = ESpheroid /\
  (exists d u a, PlacementModel.update d u a = Some (el_placement e)) /\
  (p_straight (el_placement e) = true -> p_direction (el_placement e) = ez) /\
  (p_normal (el_placement e) = true -> p_angles (el_placement e) = v0) /\
  (forall m, el_material e = Some m -> material_make floats lookup (material_str m) = Ok m) /\
  fits (el_radius e) (el_curvature e) (el_conic e) = true.

Lemma as_nums_map l : as_list as_num (map VNum l) = Ok l.
Proof. induction l as [|x l IH]; cbn; [auto|]. rewrite IH. reflexivity. Qed.
Lemma as_dicts_map l : as_list as_dict (map VDict l) = Ok l.
Proof. induction l as [|x l IH]; cbn; [auto|]. rewrite IH. reflexivity. Qed.

(** a placement rebuilt from its own attributes is itself *)
Lemma update_again d u a p : PlacementModel.update d u a = Some p ->
  PlacementModel.update (p_distance p) (p_direction p) (p_angles p) = Some p.
Proof.
  intros E. unfold PlacementModel.update in E. destruct (unit_or_axis u) as [w|] eqn:W; cbn [obind] in E; [|discriminate].
  assert (U : dot w w = 1).
  { unfold unit_or_axis in W. destruct (Req_EM_T (norm u) 0) as [Z|Z].
    - rewrite !fdiv_some in W by lra. cbn in W. injection W as <-. unfold dot. cbn. lra.
    - rewrite !fdiv_some in W by auto. cbn [obind] in W. injection W as <-.
      transitivity (dot u u / (norm u * norm u)); [unfold dot; cbn; field; auto|]. rewrite norm_sqr. field.
      rewrite <- norm_sqr. nra. }
  set (dd := if Rlt_dec d 0 then d * -1 else d) in *. set (ww := if Rlt_dec d 0 then vmul3 (-1) w else w) in *.
  replace (if Rlt_dec d 0 then (d * -1, vmul3 (-1) w) else (d, w)) with (dd, ww) in E by (unfold dd, ww; destruct (Rlt_dec d 0); reflexivity).
  assert (UW : dot ww ww = 1).
  { unfold ww. destruct (Rlt_dec d 0); [|auto]. rewrite dot_scale_l, dot_scale_r. lra. }
  assert (ND : ~ dd < 0) by (unfold dd; destruct (Rlt_dec d 0); lra).
  assert (A : p_distance p = dd /\ p_direction p = ww /\ p_angles p = a).
  { destruct (andb (allclose a v0) (allclose ww ez)); [injection E as <-; auto|].
    destruct (allclose ww ez); [injection E as <-; auto|]. destruct (axis_rotation ww); [cbn [obind] in E|discriminate].
    injection E as <-; auto. }
  destruct A as (-> & -> & ->). unfold PlacementModel.update.
  replace (unit_or_axis ww) with (Some ww).
  2:{ unfold unit_or_axis. rewrite (norm_unit ww UW). destruct (Req_EM_T 1 0); [lra|]. rewrite !fdiv_some by lra. cbn [obind].
      f_equal. destruct ww. apply vec_eq; cbn; field. }
  cbn [obind]. destruct (Rlt_dec dd 0); [contradiction|]. exact E.
Qed.

Lemma isclose_refl x : isclose x x = true.
Proof.
  unfold isclose. destruct (Rle_dec _ _) as [|N]; [auto|]. exfalso. apply N.
  replace (x - x) with 0 by ring. rewrite Rabs_R0. pose proof (Rabs_pos x). unfold tol. lra.
Qed.
Lemma update_axis d z a : 0 <= d -> 0 < z -> allclose a v0 = true ->
  PlacementModel.update d (V 0 0 z) a = Some (Placement d ez (vmul3 d ez) a true true None None).
Proof.
  intros D Z A. assert (N : norm (V 0 0 z) = z).
  { unfold norm, dot. cbn. replace (0 * 0 + 0 * 0 + z * z) with (z * z) by ring. apply sqrt_square. lra. }
  unfold PlacementModel.update, unit_or_axis. rewrite N. destruct (Req_EM_T z 0); [lra|]. rewrite !fdiv_some by lra. cbn [obind vx vy vz].
  replace (V (0 / z) (0 / z) (z / z)) with ez by (unfold ez; apply vec_eq; cbn; field; lra).
  destruct (Rlt_dec d 0); [lra|]. rewrite A. unfold allclose. rewrite !isclose_refl. reflexivity.
Qed.
Theorem C29_element e : reloadable e -> fst (element_make floats lookup (element_dict None e)) = Ok e.
Proof.
  intros (K & (d0 & u0 & a0 & U) & ST & NO & MAT & FIT). destruct e as [k p r m c q asph alt].
  cbn [el_class el_placement el_radius el_material el_curvature el_conic el_aspherics el_alternate] in *. subst k.
  apply update_again in U. destruct p as [d u o a st no ra rn]. cbn [p_distance p_direction p_angles p_straight p_normal] in *.
  assert (MM : forall s, (exists m', m = Some m' /\ s = material_str m') -> material_make_value floats lookup (VStr s) = Ok m).
  { intros s (m' & -> & ->). unfold material_make_value. rewrite (MAT m' eq_refl). reflexivity. }
  unfold element_make, pop_type, element_dict, transform_dict. cbn [el_class el_placement el_radius el_material el_curvature el_conic el_aspherics el_alternate].
  cbn [p_distance p_direction p_angles p_straight p_normal class_type name_dict].
  set (sl := [("distance", if is0 d then None else Some (VNum d)); ("direction", if st then None else Some (vec_value u));
     ("angles", if no then None else Some (vec_value a)); ("radius", match r with Some x => Some (VNum x) | None => None end);
     ("material", match m with Some x => Some (VStr (material_str x)) | None => None end);
     ("curvature", if is0 c then None else Some (VNum c)); ("conic", if is0 q then None else Some (VNum q));
     ("aspherics", match asph with Some l => Some (VList (map VNum l)) | None => None end);
     ("alternate_intersection", if alt then Some (VBool true) else None)]).
  match goal with |- context [kw "type" _ ?D] => replace D with (dict_of sl) end.
  2:{ clear. unfold sl. destruct (is0 d), st, no, r, m, (is0 c), (is0 q), asph, alt; reflexivity. }
  rewrite slot_kw by reflexivity. cbn [sget sdel String.eqb Ascii.eqb Bool.eqb fst sl].
  unfold spheroid_init. repeat slot_kw. cbn [dict_of no_more rbind].
  assert (Z : forall x, match (if is0 x then None else Some (VNum x)) with Some v => v | None => VNum 0 end = VNum x).
  { intros x. unfold is0. destruct (Req_EM_T x 0) as [->|]; reflexivity. }
  rewrite !Z. cbn [as_num rbind].
  replace (match (if st then None else Some (vec_value u)) with Some v => v | None => vec_value ez end) with (vec_value u).
  2:{ destruct st; [rewrite ST by auto|]; reflexivity. }
  replace (match (if no then None else Some (vec_value a)) with Some v => v | None => vec_value v0 end) with (vec_value a).
  2:{ destruct no; [rewrite NO by auto|]; reflexivity. }
  replace (as_vec (vec_value u)) with (Ok u) by (destruct u; reflexivity).
  replace (as_vec (vec_value a)) with (Ok a) by (destruct a; reflexivity). cbn [rbind].
  rewrite U. cbn [rbind].
  replace (material_make_value floats lookup (match match m with Some x => Some (VStr (material_str x)) | None => None end with Some v => v | None => VNone end))
    with (Ok m).
  2:{ destruct m as [m|]; [|reflexivity]. cbn. rewrite (MAT m eq_refl). reflexivity. }
  cbn [rbind].
  replace (as_bool (match (if alt then Some (VBool true) else None) with Some v => v | None => VBool false end)) with (Ok alt) by (destruct alt; reflexivity).
  cbn [rbind].
  destruct r as [r|], asph as [l|]; cbn [as_num as_nums rbind]; rewrite ?as_nums_map; cbn [rbind]; rewrite FIT; reflexivity.
Qed.

(** an element re-loads to itself; and what is lost otherwise *)
Theorem C29_element_refuted :
  (* tilts below the tolerance of the flags are dropped *)
  (exists e a, PlacementModel.update 0 ez (V a 0 0) = Some (el_placement e) /\ a <> 0 /\
     fst (element_make floats lookup (element_dict None e)) <> Ok e) /\
  (* plain Element and Interface objects write a type that cannot be read *)
  (forall e, el_class e <> ESpheroid -> fst (element_make floats lookup (element_dict None e)) = Raise KeyError) /\
  (* model glasses are written under the name "-" *)
  (forall s n v, floats s = Some [n; v] -> floats "-" = None ->
     exists m, material_make floats lookup s = Ok m /\ material_make floats lookup (material_str m) = lookup "-").
Proof.
  split; [|split].
  - assert (E : exists p, PlacementModel.update 0 ez (V (/ 1000000000) 0 0) = Some p /\ p_angles p = V (/ 1000000000) 0 0 /\
        p_distance p = 0 /\ p_straight p = true /\ p_normal p = true /\ p_direction p = ez).
    { eexists. split; [apply update_axis; [lra|lra|]|cbn; auto].
      unfold allclose, v0. cbn [vx vy vz]. rewrite !isclose_refl, andb_true_r. unfold isclose. destruct (Rle_dec _ _) as [|N]; [auto|]. exfalso. apply N.
      rewrite Rabs_R0, Rminus_0_r, Rabs_pos_eq by lra. unfold tol. lra. }
    destruct E as (p & E & A & DI & S & N & DR).
    exists (Element ESpheroid p None None 0 0 None false), (/ 1000000000). split; [exact E|]. split; [lra|].
    unfold element_dict, transform_dict. cbn [el_class el_placement el_radius el_material el_curvature el_conic el_aspherics el_alternate].
    rewrite S, N, DI. unfold is0. destruct (Req_EM_T 0 0); [|lra]. cbn [negb opt app name_dict class_type String.eqb Ascii.eqb Bool.eqb].
    unfold element_make, pop_type, kw. cbn [dget ddel String.eqb Ascii.eqb Bool.eqb fst].
    unfold spheroid_init, kw. cbn [dget ddel no_more rbind as_num as_vec vec_value vx vy vz ez v0].
    intros X. destruct (PlacementModel.update 0 ez v0) as [p'|] eqn:U.
    + unfold ez, v0 in U, X. rewrite U in X. cbn in X. injection X as X; subst p'.
      assert (AA : p_angles p = V 0 0 0).
      { rewrite update_axis in U; [injection U as <-; reflexivity|lra|lra|]. unfold allclose, v0. rewrite !isclose_refl. reflexivity. }
      rewrite A in AA. injection AA as AA. lra.
    + unfold ez, v0 in U, X. rewrite U in X. cbn in X. discriminate.
  - intros e H. unfold element_make, pop_type, kw, element_dict. destruct (el_class e); [reflexivity|reflexivity|contradiction].
  - intros s n v F D. exists (Abbe "-" n v). unfold material_make. rewrite F. split; [reflexivity|]. cbn [material_str]. rewrite D. reflexivity.
Qed.

(** systems: all but the list of fields (recomputed from the defaults) and the
    update_radius flags of the conjugates *)
Theorem C29_system s : Forall (reloadable) (sy_elements s) -> sy_wavelengths s <> [] ->
  cj_update_radius (sy_object s) = false -> cj_update_radius (sy_image s) = false ->
  system_init floats lookup dCF (system_dict s) =
  Ok (System (sy_description s) (sy_stop s) (sy_scale s) (sy_wavelengths s) (default_fields (sy_object s)) (sy_object s) (sy_image s)
        (sy_pickups s) (sy_validators s) (sy_solves s) (sy_elements s)).
Proof.
  intros EL WL UO UI. destruct s as [desc stop scale wl fl ob im pk va so es].
  cbn [sy_description sy_stop sy_scale sy_wavelengths sy_fields sy_object sy_image sy_pickups sy_validators sy_solves sy_elements] in *.
  assert (CJ : forall def c, cj_update_radius c = false -> conjugate_or def (VDict (conjugate_dict None c)) = Ok c).
  { intros def c U. unfold conjugate_or. destruct (conjugate_dict None c) as [|kv l] eqn:E.
    - exfalso. unfold conjugate_dict in E. destruct (name_dict _ _ _); discriminate.
    - rewrite <- E, C29_conjugate. destruct c. cbn in U. subst. reflexivity. }
  assert (EM : as_list (fun v => try d <- as_dict v; fst (element_make floats lookup d)) (map VDict (map (element_dict None) es)) = Ok es).
  { clear - EL. induction EL as [|e es E EL IH]; cbn [map as_list]; [reflexivity|]. cbn [as_dict rbind]. rewrite C29_element by auto.
    cbn [rbind]. rewrite IH. reflexivity. }
  unfold system_init, system_dict, kw.
  cbn [sy_description sy_stop sy_scale sy_wavelengths sy_fields sy_object sy_image sy_pickups sy_validators sy_solves sy_elements].
  cbn [dget ddel String.eqb Ascii.eqb Bool.eqb no_more rbind as_dicts].
  rewrite <- (map_map (element_dict None) VDict), as_dicts_map. cbn [rbind]. rewrite EM. cbn [rbind].
  destruct wl as [|w wl]; [contradiction|]. cbn [map as_nums]. change (VNum w :: map VNum wl) with (map VNum (w :: wl)). rewrite as_nums_map.
  cbn [rbind]. rewrite !CJ by auto. cbn [rbind list_or_nil as_dicts]. rewrite !as_dicts_map. reflexivity.
Qed.
(** the fields are lost, whatever they were *)
Theorem C29_fields_refuted : exists s, Forall reloadable (sy_elements s) /\ sy_wavelengths s <> [] /\
  exists s', system_init floats lookup dCF (system_dict s) = Ok s' /\ sy_fields s' <> sy_fields s.
Proof.
  set (c := Conjugate false 0 default_pupil Rectilinear false).
  exists (System "" 1%Z 1 [1] [1/2] c c [] [] [] []). cbn [sy_elements sy_wavelengths]. split; [constructor|]. split; [discriminate|].
  eexists. split; [apply C29_system; try reflexivity; [constructor|discriminate]|]. cbn [sy_fields]. unfold default_fields, c, is0. cbn.
  destruct (Req_EM_T 0 0); [|lra]. intros X. injection X. lra.
Qed.
(** a doublet surface meeting the hypotheses *)
Example C29_element_example : (lookup "schott/n-bk7" = Ok (Listed "n-bk7" (Some "schott") 5)) -> floats "schott/n-bk7" = None ->
  exists p, PlacementModel.update 3 (V 0 0 2) v0 = Some p /\ (p_normal p = true -> p_angles p = v0) /\
  reloadable (Element ESpheroid p (Some 5) (Some (Listed "n-bk7" (Some "schott") 5)) (1 / 20) (-1 / 2) (Some [1; 2]) false).
Proof.
  intros L F.
  assert (U : PlacementModel.update 3 (V 0 0 2) v0 = Some (Placement 3 ez (vmul3 3 ez) v0 true true None None)).
  { apply update_axis; [lra|lra|]. unfold allclose. rewrite !isclose_refl. reflexivity. }
  eexists. split; [exact U|]. split; [auto|]. unfold reloadable. cbn. repeat split; eauto.
  - intros m X. injection X as <-. unfold material_make. cbn. rewrite F. exact L.
  - unfold is0. destruct (Req_EM_T (1 / 20) 0); [auto|]. destruct (Rle_dec (-1 / 2) (-1)); [auto|].
    destruct (Rle_dec _ _) as [|N]; [auto|]. exfalso. apply N. replace (1 / ((1 + -1 / 2) * (1 / 20 * (1 / 20 * 1)))) with 800 by field. lra.
Qed.
End Materials.

(** * C30 *)
(** construction removes exactly the "type" key *)
Theorem C30_pupil d : snd (pupil_make d) = ddel "type" d /\
  (dget "type" d = None -> snd (pupil_make d) = d /\ pupil_make (snd (pupil_make d)) = pupil_make d).
Proof.
  unfold pupil_make, pop_type, kw. cbn [snd]. split; [reflexivity|]. intros H.
  assert (E : ddel "type" d = d).
  { clear - H. induction d as [|[k v] d IH]; [reflexivity|]. cbn [dget ddel] in *. destruct (String.eqb k "type"); [discriminate|]. rewrite IH; auto. }
  rewrite !E. auto.
Qed.
(** finding: a second construction from the same dictionary fails, or silently gives another
    kind of object, for every pupil that is not a radius pupil and every finite conjugate *)
Theorem C30_pupil_refuted p : pu_kind p <> RadiusPupil ->
  let d := pupil_dict None p in
  fst (pupil_make d) = Ok p /\ snd (pupil_make d) <> d /\ fst (pupil_make (snd (pupil_make d))) = Raise TypeError.
Proof.
  intros K d. unfold d. rewrite C29_pupil. cbn [fst snd]. split; [reflexivity|].
  rewrite pupil_dict_slots. cbn [nick_value].
  assert (D : distinct (pupil_slots None p) = true) by (destruct p as [[] ? ? ? ? ? ? ? ?]; reflexivity).
  destruct (slot_get "type" _ D) as (G & ->). split.
  - intros X. rewrite <- X in G. assert (D' : distinct (sdel "type" (pupil_slots None p)) = true) by (destruct p as [[] ? ? ? ? ? ? ? ?]; reflexivity).
    destruct (slot_get "type" _ D') as (G' & _). rewrite G' in G. destruct p as [[] ? ? ? ? ? ? ? ?]; cbn in G; try discriminate. apply K; reflexivity.
  - destruct p as [k v di ud ur aim tele n proj]. cbn [pu_kind] in K.
    destruct k; [| |contradiction|]; cbn -[is1 rectilinear kw dict_of pupil_make]; unfold pupil_make, pop_type;
      rewrite slot_kw by reflexivity; cbn [sget sdel String.eqb Ascii.eqb Bool.eqb fst pupil_types];
      unfold pupil_init, kw_required; cbn [kind_name];
      match goal with |- context [dget ?q (dict_of ?l)] => destruct (slot_get q l eq_refl) as (-> & ->) end; cbn -[is1 rectilinear kw dict_of]; reflexivity.
Qed.
Theorem C30_conjugate_refuted p : pu_kind p = RadiusPupil ->
  let c := Conjugate true 0 p Rectilinear false in
  let d := conjugate_dict None c in
  fst (conjugate_make d) = Ok c /\ fst (conjugate_make (snd (conjugate_make d))) = Ok (Conjugate false 0 p Rectilinear false).
Proof.
  intros K c d. unfold d. rewrite C29_conjugate. split; [reflexivity|].
  assert (P := C29_pupil p).
  assert (T : ddel "type" (pupil_dict None p) = pupil_dict None p).
  { rewrite pupil_dict_slots. cbn [nick_value].
    assert (D : distinct (pupil_slots None p) = true) by (destruct p as [[] ? ? ? ? ? ? ? ?]; reflexivity).
    destruct (slot_get "type" _ D) as (_ & ->). destruct p as [[] ? ? ? ? ? ? ? ?]; try discriminate. reflexivity. }
  rewrite T in P. set (pd := pupil_dict None p) in *.
  assert (D : conjugate_dict None c = [("type", VStr "finite"); ("pupil", VDict pd)]).
  { unfold conjugate_dict, c. cbn. unfold is0. destruct (Req_EM_T 0 0); [reflexivity|lra]. }
  rewrite D. unfold conjugate_make, pop_type, kw. cbn -[pupil_make pd]. unfold conjugate_init. cbn -[pupil_make pd]. rewrite P. cbn -[pupil_make pd].
  rewrite P. reflexivity.
Qed.
Example C30_example : pu_kind (Pupil NaPupil (1/10) 5 true false false false 1 Rectilinear) <> RadiusPupil /\
  dget "type" (pupil_dict None default_pupil) = None.
Proof. split; [discriminate|]. rewrite pupil_dict_slots. cbn. unfold is1. destruct (Req_EM_T 1 1); reflexivity. Qed.

Print Assumptions C29_pupil.
Print Assumptions C29_nickname_refuted.
Print Assumptions C29_conjugate.
Print Assumptions C29_conjugate_refuted.
Print Assumptions C29_element.
Print Assumptions C29_element_refuted.
Print Assumptions C29_system.
Print Assumptions C29_fields_refuted.
Print Assumptions C30_pupil.
Print Assumptions C30_pupil_refuted.
Print Assumptions C30_conjugate_refuted.

(** what the shorthand keywords mean: field angles in degrees, radii of curvature, diameters *)
Theorem C29_degrees x : exists c, fst (conjugate_make [("angle_deg", VNum x)]) = Ok c /\ cj_val c * 180 = x * PI /\
  cj_finite c = false /\ pu_kind (cj_pupil c) = RadiusPupil /\ pu_val (cj_pupil c) = 0 /\ pu_distance (cj_pupil c) = 1 /\ pu_index (cj_pupil c) = 1.
Proof. eexists. split; [reflexivity|]. cbn. split; [field|]. auto. Qed.
(** any other word as type is refused *)
Theorem C29_types floats lookup s d :
  (s <> "finite" -> s <> "infinite" -> conjugate_make (("type", VStr s) :: d) = (Raise KeyError, d)) /\
  (s <> "spheroid" -> element_make floats lookup (("type", VStr s) :: d) = (Raise KeyError, d)) /\
  (s <> "na" -> s <> "slope" -> s <> "radius" -> s <> "fno" -> pupil_make (("type", VStr s) :: d) = (Raise KeyError, d)).
Proof.
  repeat apply conj.
  - intros A B. unfold conjugate_make, pop_type, kw. cbn [dget ddel String.eqb Ascii.eqb Bool.eqb].
    rewrite (proj2 (String.eqb_neq s "finite") A), (proj2 (String.eqb_neq s "infinite") B). reflexivity.
  - intros A. unfold element_make, pop_type, kw. cbn [dget ddel String.eqb Ascii.eqb Bool.eqb]. rewrite (proj2 (String.eqb_neq s "spheroid") A). reflexivity.
  - intros A B C D. unfold pupil_make, pop_type, kw, pupil_types. cbn [dget ddel String.eqb Ascii.eqb Bool.eqb].
    rewrite (proj2 (String.eqb_neq s "na") A), (proj2 (String.eqb_neq s "slope") B), (proj2 (String.eqb_neq s "radius") C), (proj2 (String.eqb_neq s "fno") D). reflexivity.
Qed.
(** files are terse: a pupil, conjugate or surface with default attributes writes nothing but its size *)
Theorem C29_terse r d :
  pupil_dict None (Pupil RadiusPupil r d true false false false 1 Rectilinear) = [("distance", VNum d); ("radius", VNum r)] /\
  (forall p, conjugate_dict None (Conjugate false 0 p Rectilinear false) = [("pupil", VDict (pupil_dict None p))]) /\
  (forall q, p_distance q = 0 -> p_straight q = true -> p_normal q = true ->
     element_dict None (Element ESpheroid q None None 0 0 None false) = []).
Proof.
  unfold pupil_dict, conjugate_dict, element_dict, transform_dict. cbn. unfold is0, is1. destruct (Req_EM_T 1 1); [|lra]. destruct (Req_EM_T 0 0) as [Z|]; [|lra]. cbn.
  repeat split. intros q Q S N. rewrite Q, S, N. destruct (Req_EM_T 0 0); [reflexivity|lra].
Qed.
Theorem C29_shorthand floats lookup roc dia k :
  match fst (element_make floats lookup [("roc", VNum roc); ("diameter", VNum dia); ("conic", VNum k)]) with
  | Ok e => el_curvature e * roc = 1 /\ el_radius e = Some (dia / 2) /\ el_conic e = k /\ el_material e = None /\
      ((1 + k) * (dia / 2) ^ 2 <= roc ^ 2)
  | Raise ZeroDivisionError => roc = 0
  | Raise AssertionError => roc <> 0 /\ roc ^ 2 < (1 + k) * (dia / 2) ^ 2
  | Raise _ => False
  end.
Proof.
  assert (U : PlacementModel.update 0 ez v0 = Some (Placement 0 ez (vmul3 0 ez) v0 true true None None)).
  { apply (update_axis 0 1 v0); [lra|lra|]. unfold allclose. rewrite !isclose_refl. reflexivity. }
  unfold element_make, pop_type, kw, spheroid_init. cbn -[PlacementModel.update fits is0]. unfold kw. cbn -[PlacementModel.update fits is0].
  change (V 0 0 1) with ez. change (V 0 0 0) with v0. rewrite U. cbn -[fits is0]. unfold is0 at 1. destruct (Req_EM_T roc 0) as [Z|Z]; [exact Z|]. cbn -[fits].
  assert (R2 : 0 < roc ^ 2) by nra.
  assert (IC : (1 / roc) ^ 2 = / roc ^ 2) by (field; auto). unfold fits. unfold is0. destruct (Req_EM_T (1 / roc) 0) as [C|C].
  { exfalso. assert (1 / roc * roc = 1) by (field; auto). rewrite C in H. lra. }
  destruct (Rle_dec k (-1)) as [K|K]; cbn [rbind].
  - cbn. repeat split; auto; [field; auto|]. nra.
  - assert (B : 1 / ((1 + k) * (1 / roc) ^ 2) = roc ^ 2 / (1 + k)) by (field; split; auto; lra). rewrite B.
    assert (D : forall x, x <= roc ^ 2 / (1 + k) <-> (1 + k) * x <= roc ^ 2).
    { intros x. split; intros H.
      - apply (Rmult_le_compat_l (1 + k)) in H; [|lra]. replace ((1 + k) * (roc ^ 2 / (1 + k))) with (roc ^ 2) in H by (field; lra). exact H.
      - apply (Rmult_le_reg_l (1 + k)); [lra|]. replace ((1 + k) * (roc ^ 2 / (1 + k))) with (roc ^ 2) by (field; lra). exact H. }
    destruct (Rle_dec ((dia / 2) ^ 2) (roc ^ 2 / (1 + k))) as [L|L]; cbn [el_curvature el_radius el_conic el_material].
    + apply D in L. repeat split; auto. field; auto.
    + split; [auto|]. destruct (Rlt_dec (roc ^ 2) ((1 + k) * (dia / 2) ^ 2)); [auto|]. exfalso. apply L, D. lra.
Qed.
(** the default system, and the default fields of one with an extended object *)
Theorem C29_default_system floats lookup dCF : exists s, system_init floats lookup dCF [] = Ok s /\
  sy_stop s = 1%Z /\ sy_scale s * 1000 = 1 /\ sy_wavelengths s = dCF /\ sy_fields s = [0] /\ sy_elements s = [] /\
  cj_finite (sy_object s) = false /\ cj_val (sy_object s) = 0 /\ cj_update_radius (sy_object s) = false /\
  cj_finite (sy_image s) = true /\ cj_val (sy_image s) = 0 /\ cj_update_radius (sy_image s) = true /\
  cj_pupil (sy_object s) = cj_pupil (sy_image s) /\
  let p := cj_pupil (sy_object s) in pu_kind p = RadiusPupil /\ pu_val p = 1 /\ pu_distance p = 1 /\
    pu_update_distance p = true /\ pu_update_radius p = true /\ pu_aim p = false /\ pu_telecentric p = false /\ pu_index p = 1 /\ pu_projection p = Rectilinear.
Proof.
  eexists. split; [reflexivity|]. cbn.
  assert (F : default_fields default_object = [0]) by (unfold default_fields, is0; cbn; destruct (Req_EM_T 0 0); [auto|lra]).
  rewrite F. repeat split. field.
Qed.
Theorem C29_default_fields floats lookup dCF a : a <> 0 ->
  exists s, system_init floats lookup dCF [("object", VDict [("angle", VNum a)]); ("stop", VInt 3)] = Ok s /\
  sy_fields s = [0; 7 / 10; 1] /\ cj_val (sy_object s) = a /\ sy_stop s = 3%Z.
Proof.
  intros A. eexists. split; [reflexivity|]. cbn. unfold default_fields, is0. cbn. destruct (Req_EM_T a 0); [contradiction|]. auto.
Qed.
Example C29_shorthand_example : exists e,
  fst (element_make (fun _ => None) (fun _ => Raise KeyError) [("roc", VNum 5); ("diameter", VNum 6); ("conic", VNum 0)]) = Ok e.
Proof.
  pose proof (C29_shorthand (fun _ => None) (fun _ => Raise KeyError) 5 6 0) as H.
  destruct (fst _) as [e|x] eqn:E in H; [eauto|]. exfalso. destruct x; try contradiction; lra.
Qed.
Print Assumptions C29_degrees.
Print Assumptions C29_types.
Print Assumptions C29_terse.
Print Assumptions C29_shorthand.
Print Assumptions C29_default_system.
Print Assumptions C29_default_fields.
