(** Property C22: the reversed system is paraxially the inverse. *)
From Coq Require Import Reals List Lra Lia Psatz.
From Verif Require Import Base Vec RotModel RotProofs PlacementModel PlacementProofs ElementModel
  PropsRescale ParaxialModel ParaxialProofs LimitProofs PropsLimit ReverseModel PropsReverse.
Import ListNotations.
Open Scope R_scope.

(** ** elementary matrices *)
Definition Tm (t : R) : m4 := M4 (V4 1 0 t 0) (V4 0 1 0 t) (V4 0 0 1 0) (V4 0 0 0 1).
Definition Rm (f : R) : m4 := M4 (V4 1 0 0 0) (V4 0 1 0 0) (V4 f 0 1 0) (V4 0 f 0 1).
(** reversing the direction of a ray: (y, nu) -> (y, -nu) *)
Definition Jm : m4 := M4 (V4 1 0 0 0) (V4 0 1 0 0) (V4 0 0 (-1) 0) (V4 0 0 0 (-1)).

Lemma m4_ext a b : (forall x y p q, mv4 a (V4 x y p q) = mv4 b (V4 x y p q)) -> a = b.
Proof.
  intros H. pose proof (H 1 0 0 0) as H0. pose proof (H 0 1 0 0) as H1. pose proof (H 0 0 1 0) as H2. pose proof (H 0 0 0 1) as H3.
  unfold mv4, dot4 in *. cbn [w0 w1 w2 w3] in *.
  injection H0 as A0 A1 A2 A3. injection H1 as B0 B1 B2 B3. injection H2 as C0 C1 C2 C3. injection H3 as D0 D1 D2 D3.
  apply m4_eq; apply v4_eq; lra.
Qed.
Lemma Rm_mv f a b p q : mv4 (Rm f) (V4 a b p q) = V4 a b (f * a + p) (f * b + q).
Proof. unfold Rm. lit4. Qed.
Lemma Tm_mv t a b p q : mv4 (Tm t) (V4 a b p q) = V4 (a + t * p) (b + t * q) p q.
Proof. apply transfer_mv. Qed.
Lemma Jm_mv a b p q : mv4 Jm (V4 a b p q) = V4 a b (- p) (- q).
Proof. unfold Jm. lit4. Qed.
Lemma eye_mv a b p q : mv4 eye4 (V4 a b p q) = V4 a b p q.
Proof. unfold eye4. lit4. Qed.
Lemma JJ : mm4 Jm Jm = eye4.
Proof. apply m4_ext; intros. rewrite mv4_mm4, !Jm_mv, eye_mv. apply v4_eq; cbn; ring. Qed.
Lemma Rm_0 : Rm 0 = eye4.
Proof. apply m4_ext; intros. rewrite Rm_mv, eye_mv. apply v4_eq; cbn; ring. Qed.

(** a matrix undone by itself with rays reversed *)
Definition undone (m : m4) : Prop := mm4 m (mm4 Jm (mm4 m Jm)) = eye4.
Lemma undone_T t : undone (Tm t).
Proof.
  apply m4_ext; intros. rewrite !mv4_mm4, Jm_mv, Tm_mv, Jm_mv, Tm_mv, eye_mv. apply v4_eq; cbn; ring.
Qed.
Lemma undone_R f : undone (Rm f).
Proof.
  apply m4_ext; intros. rewrite !mv4_mm4, Jm_mv, Rm_mv, Jm_mv, Rm_mv, eye_mv. apply v4_eq; cbn; ring.
Qed.
(** product in order of traversal *)
Definition prod (l : list m4) : m4 := fold_left (fun m a => mm4 a m) l eye4.
Lemma prod_acc l : forall m, fold_left (fun m a => mm4 a m) l m = mm4 (prod l) m.
Proof.
  induction l as [|a l IH]; intros m; unfold prod; cbn [fold_left]; [rewrite mm4_eye_l; reflexivity|].
  rewrite IH, (IH (mm4 a eye4)), mm4_eye_r, mm4_assoc. reflexivity.
Qed.
Lemma prod_cons a l : prod (a :: l) = mm4 (prod l) a.
Proof. unfold prod at 1. cbn [fold_left]. rewrite prod_acc, mm4_eye_r. reflexivity. Qed.
Lemma prod_app a b : prod (a ++ b) = mm4 (prod b) (prod a).
Proof. unfold prod at 1. rewrite fold_left_app. rewrite prod_acc. reflexivity. Qed.

Lemma prod_rev l : Forall undone l -> mm4 (prod (rev l)) (mm4 Jm (mm4 (prod l) Jm)) = eye4.
Proof.
  induction l as [|a l IH]; intros F.
  - cbn [rev]. unfold prod. cbn [fold_left]. rewrite !mm4_eye_l, JJ. reflexivity.
  - inversion F as [|? ? A Fl]; subst. cbn [rev]. rewrite prod_app, !prod_cons. unfold prod at 1. cbn [fold_left]. rewrite mm4_eye_l.
    (* a P' J (P a) J = a (P' J P J) (J a J) *)
    transitivity (mm4 a (mm4 (mm4 (prod (rev l)) (mm4 Jm (mm4 (prod l) Jm))) (mm4 Jm (mm4 a Jm)))).
    + rewrite <- !mm4_assoc. do 4 f_equal. rewrite (mm4_assoc Jm Jm), JJ, mm4_eye_l. reflexivity.
    + rewrite (IH Fl), mm4_eye_l. exact A.
Qed.
Lemma prod_rev' l : Forall undone l -> mm4 (mm4 Jm (mm4 (prod l) Jm)) (prod (rev l)) = eye4.
Proof.
  intros F. assert (F' : Forall undone (rev l)) by (apply Forall_rev; auto).
  pose proof (prod_rev (rev l) F') as E. rewrite rev_involutive in E.
  (* prod l J (prod (rev l)) J = 1, conjugate by J *)
  transitivity (mm4 Jm (mm4 (mm4 (prod l) (mm4 Jm (mm4 (prod (rev l)) Jm))) Jm)).
  - rewrite <- !mm4_assoc. rewrite JJ, mm4_eye_r. reflexivity.
  - rewrite E, mm4_eye_l. apply JJ.
Qed.

(** ** untilted surfaces *)
Definition untilted (e : relem) : Prop := updated (e_place (fst e)) /\ p_angles (e_place (fst e)) = v0.
(** a refracting surface (aspheric terms allowed) into a medium of positive index *)
Definition lens (l : R) (e : relem) : Prop :=
  exists m s c, e_kind (fst e) = Sph (Some m) s /\ m_mirror m = false /\ 0 < m_index m l /\ vertex_curvature s = Some c.
(** the last one: a surface with zero vertex curvature or without material *)
Definition screen (l : R) (e : relem) : Prop :=
  exists m s c, e_kind (fst e) = Sph m s /\ vertex_curvature s = Some c /\
    match m with None => True | Some m => m_mirror m = false /\ 0 < m_index m l /\ c = 0 end.

Lemma prim e l n0 m s c : untilted e -> e_kind (fst e) = Sph m s -> vertex_curvature s = Some c -> 0 < n0 ->
  match m with None => True | Some m => m_mirror m = false /\ 0 < m_index m l end ->
  paraxial_matrix (fst e) n0 l = (match m with None => n0 | Some m => m_index m l end,
    Some (mm4 (Rm (match m with None => 0 | Some m => (n0 - m_index m l) * c end)) (Tm (dist e / n0)))).
Proof.
  intros (U & A) K VC N0 M. unfold paraxial_matrix, index_after, transfer_matrix, dist. rewrite K.
  rewrite fdiv_some by lra. cbn [obind]. rewrite VC. cbn [obind]. rewrite A. cbn [vx vz v0].
  fold flip4. rewrite flip4_T, cos_0. unfold refraction_matrix. destruct m as [m|].
  - destruct M as (MI & MP). rewrite MI. set (n := m_index m l) in *.
    assert (MU : 0 < n / n0) by (apply Rdiv_lt_0_compat; auto).
    assert (S : sqrt ((n / n0) ^ 2 + 1 ^ 2 - 1) = n / n0).
    { replace ((n / n0) ^ 2 + 1 ^ 2 - 1) with ((n / n0) * (n / n0)) by ring. apply sqrt_square. lra. }
    rewrite fdiv_some by lra. cbn [obind]. rewrite fsqrt_some by nra. cbn [obind]. rewrite S.
    rewrite fdiv_some by lra. cbn [obind]. rewrite fdiv_some by lra. cbn [obind].
    replace (n / n0 / (n / n0 * 1)) with 1 by (field; lra). rewrite fdiv_some by lra. cbn [obind].
    f_equal. f_equal. apply m4_ext; intros x y p q. rewrite !mv4_mm4.
    rewrite flip4_mv, transfer_mv, lens_mv, flip4_mv, Tm_mv, Rm_mv.
    apply v4_eq; cbn [w0 w1 w2 w3]; field; lra.
  - cbn [obind]. f_equal. f_equal. apply m4_ext; intros x y p q. rewrite mm4_eye_l, !mv4_mm4.
    rewrite flip4_mv, transfer_mv, flip4_mv, Tm_mv, Rm_mv.
    apply v4_eq; cbn [w0 w1 w2 w3]; ring.
Qed.

(** elements [xs] traversed from index [n] have the elementary matrices [ps] and end in index [n'] *)
Fixpoint chain (xs : list relem) (n l : R) (ps : list m4) (n' : R) : Prop :=
  match xs with
  | [] => ps = [] /\ n = n'
  | e :: xs => exists n1 t f ps1, paraxial_matrix (fst e) n l = (n1, Some (mm4 (Rm f) (Tm t))) /\
      ps = Tm t :: Rm f :: ps1 /\ chain xs n1 l ps1 n'
  end.
Lemma chain_app xs : forall ys n l ps n1 qs n2, chain xs n l ps n1 -> chain ys n1 l qs n2 -> chain (xs ++ ys) n l (ps ++ qs) n2.
Proof.
  induction xs as [|e xs IH]; intros ys n l ps n1 qs n2 C1 C2; cbn [chain app] in *.
  - destruct C1 as (-> & ->). exact C2.
  - destruct C1 as (k & t & f & ps1 & P & -> & C). exists k, t, f, (ps1 ++ qs). split; [auto|]. split; [reflexivity|]. eauto.
Qed.
Lemma chain_matrix xs : forall n l ps n' k a, chain xs n l ps n' ->
  snd (mfold (k, Some a) (matrices (map fst xs) n l)) = Some (mm4 (prod ps) a).
Proof.
  induction xs as [|e xs IH]; intros n l ps n' k a C; cbn [chain] in C.
  - destruct C as (-> & _). cbn. unfold prod. cbn. rewrite mm4_eye_l. reflexivity.
  - destruct C as (n1 & t & f & ps1 & P & -> & C). cbn [map matrices]. rewrite P. cbn [mfold fold_left obind].
    change (snd (mfold (n1, Some (mm4 (mm4 (Rm f) (Tm t)) a)) (matrices (map fst xs) n1 l)) = Some (mm4 (prod (Tm t :: Rm f :: ps1)) a)).
    rewrite (IH n1 l ps1 n' n1 _ C). rewrite !prod_cons. rewrite !mm4_assoc. reflexivity.
Qed.

Definition idx (l : R) (e : relem) (n0 : R) : R := index_after (fst e) n0 l.
Definition midx (l : R) (m : option material) (n : R) : R := match m with None => n | Some m => m_index m l end.

(** the forward system: lens surfaces and a screen at the end *)
Fixpoint optics (l : R) (es : list relem) : Prop :=
  match es with
  | [] => False
  | [f] => screen l f
  | e :: es => lens l e /\ optics l es
  end.

Lemma vertex_reverse s c : vertex_curvature s = Some c -> vertex_curvature (reverse_surf s) = Some (- c).
Proof.
  unfold vertex_curvature, reverse_surf. cbn [s_asph s_c]. destruct (s_asph s) as [[|a ?]|]; cbn [map]; intros E; try discriminate;
  injection E as <-; f_equal; ring.
Qed.
Lemma untilted_revd e d m : untilted e -> 0 <= d -> untilted (revd e d m).
Proof.
  intros (U & A) D. split; [apply updated_revd; auto|]. unfold revd. destruct (e_kind (fst e)); cbn; auto.
Qed.
Lemma kind_revd e d m m0 s : e_kind (fst e) = Sph m0 s -> e_kind (fst (revd e d m)) = Sph m (reverse_surf s).
Proof. intros K. unfold revd. rewrite K. reflexivity. Qed.

(** one reversed surface *)
Lemma prim_rev e d l n m s c mp : untilted e -> e_kind (fst e) = Sph (Some m) s -> m_mirror m = false -> 0 < m_index m l ->
  vertex_curvature s = Some c -> 0 <= d -> n = m_index m l ->
  match mp with None => True | Some m => m_mirror m = false /\ 0 < m_index m l end ->
  paraxial_matrix (fst (revd e d mp)) n l = (midx l mp n,
    Some (mm4 (Rm (match mp with None => 0 | Some p => (m_index p l - n) * c end)) (Tm (d / n)))).
Proof.
  intros U K MI MP VC D -> M.
  rewrite (prim (revd e d mp) l (m_index m l) mp (reverse_surf s) (- c) (untilted_revd e d mp U D) (kind_revd _ _ _ _ _ K)
    (vertex_reverse _ _ VC) MP M). rewrite dist_revd. unfold midx. destruct mp as [p|]; [|reflexivity].
  f_equal. f_equal. f_equal. f_equal. ring.
Qed.

Definition good_prev (l : R) (mp : option material) : Prop :=
  match mp with None => True | Some m => m_mirror m = false /\ 0 < m_index m l end.

Lemma lens_material l e : lens l e -> exists m s c, material_of e = Some m /\ e_kind (fst e) = Sph (Some m) s /\
  m_mirror m = false /\ 0 < m_index m l /\ vertex_curvature s = Some c.
Proof. intros (m & s & c & K & H). exists m, s, c. unfold material_of. rewrite K. tauto. Qed.

Definition vc (e : relem) : R :=
  match e_kind (fst e) with Sph _ s => match vertex_curvature s with Some c => c | None => 0 end | Plain => 0 end.
Definition power_rev (l : R) (mp : option material) (e : relem) : R :=
  match mp with None => 0 | Some p => (m_index p l - idx l e 1) * vc e end.

Lemma reversed_chain l es : forall e mp, Forall untilted (e :: es) -> lens l e -> optics l es -> good_prev l mp ->
  exists ps x xs n1,
    chain es (idx l e 1) l (ps ++ [Rm 0]) n1 /\ Forall undone ps /\
    rgen mp (e :: es) = x :: xs /\
    chain xs (idx l x 1) l (rev ps ++ [Rm (power_rev l mp e)]) (midx l mp (idx l e 1)).
Proof.
  induction es as [|g es IH]; intros e mp U L O GP; [contradiction|].
  inversion U as [|? ? UE US]; subst. inversion US as [|? ? UG _]; subst.
  destruct (lens_material l e L) as (m & s & c & ME & KE & MI & MP & VC).
  assert (IE : idx l e 1 = m_index m l) by (unfold idx, index_after; rewrite KE; reflexivity).
  assert (VE : vc e = c) by (unfold vc; rewrite KE, VC; reflexivity).
  assert (DG : 0 <= dist g) by (apply dist_nonneg; apply UG).
  assert (LAST : chain [revd e (dist g) mp] (m_index m l) l
    ([Tm (dist g / m_index m l); Rm (power_rev l mp e)]) (midx l mp (m_index m l))).
  { cbn [chain]. exists (midx l mp (m_index m l)), (dist g / m_index m l), (power_rev l mp e), [].
    split; [|split; [reflexivity|auto]].
    unfold power_rev. rewrite IE, VE. apply (prim_rev e (dist g) l (m_index m l) m s c mp); auto. }
  destruct es as [|h es].
  - destruct O as (mg & sg & cg & KG & VG & MG).
    exists [Tm (dist g / m_index m l)], (revd g 0 (Some m)), [revd e (dist g) mp], (midx l mg (m_index m l)).
    assert (IX : idx l (revd g 0 (Some m)) 1 = m_index m l).
    { unfold idx, index_after. rewrite (kind_revd g 0 (Some m) _ _ KG). reflexivity. }
    split; [|split; [|split]].
    + cbn [chain]. rewrite IE. exists (midx l mg (m_index m l)), (dist g / m_index m l), 0, [].
      split; [|split; [reflexivity|auto]].
      rewrite (prim g l (m_index m l) mg sg cg UG KG VG MP).
      * unfold midx. destruct mg as [mg|]; [|reflexivity]. destruct MG as (_ & _ & ->). rewrite Rmult_0_r. reflexivity.
      * destruct mg; [tauto|auto].
    + constructor; [apply undone_T|constructor].
    + cbn [rgen]. rewrite ME. reflexivity.
    + rewrite IX, IE. exact LAST.
  - assert (O' : lens l g /\ optics l (h :: es)) by exact O. destruct O' as (LG & OG).
    destruct (IH g (Some m) US LG OG (conj MI MP)) as (ps & x & xs & n1 & C1 & UN & RG & C2).
    destruct (lens_material l g LG) as (mg & sg & cg & MEG & KG & MIG & MPG & VCG).
    assert (IG : idx l g 1 = m_index mg l) by (unfold idx, index_after; rewrite KG; reflexivity).
    assert (VG : vc g = cg) by (unfold vc; rewrite KG, VCG; reflexivity).
    set (t := dist g / m_index m l). set (fg := power_rev l (Some m) g) in *.
    assert (PG : paraxial_matrix (fst g) (m_index m l) l = (m_index mg l, Some (mm4 (Rm fg) (Tm t)))).
    { unfold fg, power_rev. rewrite IG, VG. apply (prim g l (m_index m l) (Some mg) sg cg UG KG VCG MP). auto. }
    exists (Tm t :: Rm fg :: ps), x, (xs ++ [revd e (dist g) mp]), n1.
    split; [|split; [|split]].
    + rewrite IE. change (chain (g :: h :: es) (m_index m l) l (Tm t :: Rm fg :: ps ++ [Rm 0]) n1).
      cbn [chain]. exists (m_index mg l), t, fg, (ps ++ [Rm 0]). split; [exact PG|]. split; [reflexivity|].
      rewrite IG in C1. exact C1.
    + constructor; [apply undone_T|]. constructor; [apply undone_R|auto].
    + change (rgen mp (e :: g :: h :: es)) with (rgen (material_of e) (g :: h :: es) ++ [revd e (dist g) mp]).
      rewrite ME, RG. reflexivity.
    + cbn [rev]. replace (((rev ps ++ [Rm fg]) ++ [Tm t]) ++ [Rm (power_rev l mp e)])
        with ((rev ps ++ [Rm fg]) ++ [Tm t; Rm (power_rev l mp e)]) by (rewrite <- !app_assoc; reflexivity).
      eapply chain_app; [exact C2|]. cbn [midx]. rewrite IE. exact LAST.
Qed.

(** * C22 *)
(** Every untilted refracting system (object side first, aspheric surfaces included)
    whose last surface has no power and all whose other elements carry a material: the paraxial
    matrices of system and reversed system both exist and they are inverse to
    each other, with the ray direction flipped. *)
Theorem C22_inverse l e es : Forall untilted (e :: es) -> lens l e -> optics l es ->
  exists es1 n n1 m m1, reverse (e :: es) = Some es1 /\
    sys_matrix (map fst (e :: es)) l 1 None = (n, Some m) /\ sys_matrix (map fst es1) l 1 None = (n1, Some m1) /\
    mm4 m1 (mm4 Jm (mm4 m Jm)) = eye4 /\ mm4 (mm4 Jm (mm4 m Jm)) m1 = eye4.
Proof.
  intros U L O. destruct (reversed_chain l es e None U L O I) as (ps & x & xs & n1 & C1 & UN & RG & C2).
  assert (P : placed (e :: es)) by (eapply Forall_impl; [|exact U]; intros a H; apply H).
  exists (rgen None (e :: es)).
  pose proof (chain_matrix es _ _ _ _ 1 eye4 C1) as E1. pose proof (chain_matrix xs _ _ _ _ 1 eye4 C2) as E2.
  rewrite mm4_eye_r in E1, E2.
  assert (S : forall y ys, sys_matrix (map fst (y :: ys)) l 1 None = mfold (1, Some eye4) (matrices (map fst ys) (idx l y 1) l)).
  { intros y ys. unfold sys_matrix, paraxial_matrices, slice. cbn [map skipn]. rewrite refractive_index_after.
    cbn [firstn map after fold_left]. reflexivity. }
  destruct (mfold (1, Some eye4) (matrices (map fst es) (idx l e 1) l)) as [n M] eqn:F1.
  destruct (mfold (1, Some eye4) (matrices (map fst xs) (idx l x 1) l)) as [n' M'] eqn:F2.
  cbn [snd] in E1, E2. subst M M'. exists n, n', (prod (ps ++ [Rm 0])), (prod (rev ps ++ [Rm (power_rev l None e)])).
  split; [apply reverse_rgen; auto|]. split; [rewrite S; exact F1|]. split; [rewrite RG, S; exact F2|].
  cbn [power_rev]. rewrite !prod_app, !prod_cons. unfold prod at 1 3 6 7. cbn [fold_left]. rewrite !Rm_0, !mm4_eye_l.
  split; [apply prod_rev; auto|apply prod_rev'; auto].
Qed.

Lemma prim_plain e l n0 : untilted e -> e_kind (fst e) = Plain -> 0 < n0 ->
  paraxial_matrix (fst e) n0 l = (n0, Some (mm4 (Rm 0) (Tm (dist e / n0)))).
Proof.
  intros U K N. unfold paraxial_matrix, index_after, transfer_matrix, dist. rewrite K, fdiv_some by lra.
  cbn [obind]. rewrite Rm_0, mm4_eye_l. reflexivity.
Qed.
Lemma prim_mirror e l n0 m s c : untilted e -> e_kind (fst e) = Sph (Some m) s -> vertex_curvature s = Some c -> 0 < n0 ->
  m_mirror m = true ->
  paraxial_matrix (fst e) n0 l = (m_index m l, Some (mm4 (Rm (2 * c)) (Tm (dist e / n0)))).
Proof.
  intros (U & A) K VC N0 MI. unfold paraxial_matrix, index_after, transfer_matrix, dist. rewrite K.
  rewrite fdiv_some by lra. cbn [obind]. rewrite VC. cbn [obind]. rewrite A. cbn [vx vz v0].
  fold flip4. rewrite flip4_T, cos_0. unfold refraction_matrix. rewrite MI. rewrite fdiv_some by lra. cbn [obind].
  f_equal. f_equal. apply m4_ext; intros x y p q. rewrite !mv4_mm4.
  rewrite flip4_mv, transfer_mv, lens_mv, flip4_mv, Tm_mv, Rm_mv.
  apply v4_eq; cbn [w0 w1 w2 w3]; field; lra.
Qed.

Definition vac : material := Material (fun _ => 1) false false.
Definition flat : surf := Surf 0 0 None false.
Lemma sys_matrix_chain l y ys ps n' : chain ys (idx l y 1) l ps n' ->
  exists n, sys_matrix (map fst (y :: ys)) l 1 None = (n, Some (prod ps)).
Proof.
  intros C. pose proof (chain_matrix ys _ _ _ _ 1 eye4 C) as E. rewrite mm4_eye_r in E.
  assert (S : sys_matrix (map fst (y :: ys)) l 1 None = mfold (1, Some eye4) (matrices (map fst ys) (idx l y 1) l)).
  { unfold sys_matrix, paraxial_matrices, slice. cbn [map skipn]. rewrite refractive_index_after.
    cbn [firstn map after fold_left]. reflexivity. }
  destruct (mfold (1, Some eye4) (matrices (map fst ys) (idx l y 1) l)) as [n M]. cbn in E. subst M. exists n. exact S.
Qed.

(** A stop without material inside the system: its missing material is handed to the
    next surface, whose power disappears.  Here a surface of water with a plain stop behind it. *)
Theorem C22_stop_refuted : exists e1 e2 e3 e4 es1 n n1 m m1,
  Forall untilted [e1; e2; e3; e4] /\ lens 1 e1 /\ lens 1 e2 /\ e_kind (fst e3) = Plain /\ screen 1 e4 /\
  reverse [e1; e2; e3; e4] = Some es1 /\
  sys_matrix (map fst [e1; e2; e3; e4]) 1 1 None = (n, Some m) /\ sys_matrix (map fst es1) 1 1 None = (n1, Some m1) /\
  mm4 m1 (mm4 Jm (mm4 m Jm)) <> eye4.
Proof.
  destruct (centred_axis 1) as (p & _ & UP & PD & _ & AN); [lra|].
  pose (e1 := (El p None (Sph (Some vac) flat), None) : relem).
  pose (e2 := (El p None (Sph (Some water) (Surf (1/10) 0 None false)), None) : relem).
  pose (e3 := (El p (Some 1) Plain, None) : relem).
  pose (e4 := (El p None (Sph (Some water) flat), None) : relem).
  assert (U : forall k : relem, untilted (El p (e_radius (fst k)) (e_kind (fst k)), None : option material)) by (intros; split; auto).
  assert (U1 : untilted e1) by apply (U e1). assert (U2 : untilted e2) by apply (U e2).
  assert (U3 : untilted e3) by apply (U e3). assert (U4 : untilted e4) by apply (U e4).
  assert (PL : placed [e1; e2; e3; e4]) by (repeat apply Forall_cons; [..|apply Forall_nil]; apply UP).
  assert (V2 : vertex_curvature (Surf (1/10) 0 None false) = Some (1/10)) by reflexivity.
  assert (V0 : vertex_curvature flat = Some 0) by reflexivity.
  pose (r := rgen None [e1; e2; e3; e4]).
  destruct (sys_matrix_chain 1 e1 [e2; e3; e4] [Tm 1; Rm ((1 - 4/3) * (1/10)); Tm (1/(4/3)); Rm 0; Tm (1/(4/3)); Rm ((4/3-4/3) * 0)] (4/3)) as (n & M).
  { cbn [chain]. change (idx 1 e1 1) with 1.
    exists (4/3), 1, ((1 - 4/3) * (1/10)). eexists. split; [|split; [reflexivity|]].
    - rewrite (prim e2 1 1 (Some water) _ _ U2 eq_refl V2) by (cbn; try split; try lra; auto).
      unfold dist. cbn [fst e2 e_place]. rewrite PD. replace (1/1) with 1 by field. reflexivity.
    - exists (4/3), (1/(4/3)), 0. eexists. split; [|split; [reflexivity|]].
      + rewrite (prim_plain e3 1 (4/3) U3 eq_refl) by lra. unfold dist. cbn [fst e3 e_place]. rewrite PD. reflexivity.
      + exists (4/3), (1/(4/3)), ((4/3-4/3) * 0). eexists. split; [|split; [reflexivity|auto]].
        rewrite (prim e4 1 (4/3) (Some water) _ _ U4 eq_refl V0) by (cbn; try split; try lra; auto).
        unfold dist. cbn [fst e4 e_place]. rewrite PD. reflexivity. }
  destruct (sys_matrix_chain 1 (revd e4 0 None) [revd e3 1 (Some water); revd e2 1 (Some vac); revd e1 1 None]
    [Tm 1; Rm 0; Tm 1; Rm ((1 - 1) * - (1/10)); Tm 1; Rm 0] 1) as (n1 & M1).
  { cbn [chain]. change (idx 1 (revd e4 0 None) 1) with 1.
    exists 1, 1, 0. eexists. split; [|split; [reflexivity|]].
    - rewrite (prim_plain (revd e3 1 (Some water)) 1 1 (untilted_revd e3 1 (Some water) U3 Rle_0_1) eq_refl) by lra.
      rewrite dist_revd. replace (1/1) with 1 by field. reflexivity.
    - exists 1, 1, ((1 - 1) * - (1/10)). eexists. split; [|split; [reflexivity|]].
      + rewrite (prim (revd e2 1 (Some vac)) 1 1 (Some vac) _ _ (untilted_revd e2 1 (Some vac) U2 Rle_0_1) eq_refl (vertex_reverse _ _ V2))
          by (cbn; try split; try lra; auto). rewrite dist_revd. replace (1/1) with 1 by field. reflexivity.
      + exists 1, 1, 0. eexists. split; [|split; [reflexivity|auto]].
        rewrite (prim (revd e1 1 None) 1 1 None _ _ (untilted_revd e1 1 None U1 Rle_0_1) eq_refl (vertex_reverse _ _ V0)) by (try lra; auto).
        rewrite dist_revd. replace (1/1) with 1 by field. reflexivity. }
  exists e1, e2, e3, e4, r, n, n1. do 2 eexists.
  split; [repeat apply Forall_cons; [..|apply Forall_nil]; auto|].
  split; [exists vac, flat, 0; cbn; repeat split; auto; lra|].
  split; [exists water, (Surf (1/10) 0 None false), (1/10); cbn; repeat split; auto; lra|].
  split; [reflexivity|].
  split; [exists (Some water), flat, 0; cbn; repeat split; auto; lra|].
  split; [apply (reverse_rgen _ PL)|]. split; [exact M|].
  split.
  - unfold r. cbn [rgen app]. replace (dist e4) with 1 by (symmetry; exact PD). replace (dist e3) with 1 by (symmetry; exact PD).
    replace (dist e2) with 1 by (symmetry; exact PD). exact M1.
  - intros E. apply (f_equal (fun m => mv4 m (V4 1 0 0 0))) in E. revert E.
    rewrite !mv4_mm4, Jm_mv. rewrite !prod_cons. unfold prod. cbn [fold_left]. rewrite !mv4_mm4.
    rewrite Tm_mv, Rm_mv, Tm_mv, Rm_mv, Tm_mv, Rm_mv, eye_mv, Jm_mv, Tm_mv, Rm_mv, Tm_mv, Rm_mv, Tm_mv, Rm_mv, !eye_mv.
    intros E. injection E. intros. lra.
Qed.

(** A mirror: its material moves to the next element, the reversed system has the
    mirror in another place. *)
Theorem C22_mirror_refuted : exists e1 e2 e3 es1 n n1 m m1,
  Forall untilted [e1; e2; e3] /\ lens 1 e1 /\ material_of e2 = Some silver /\ screen 1 e3 /\
  reverse [e1; e2; e3] = Some es1 /\
  sys_matrix (map fst [e1; e2; e3]) 1 1 None = (n, Some m) /\ sys_matrix (map fst es1) 1 1 None = (n1, Some m1) /\
  mm4 m1 (mm4 Jm (mm4 m Jm)) <> eye4.
Proof.
  destruct (centred_axis 1) as (p & _ & UP & PD & _ & AN); [lra|].
  pose (e1 := (El p None (Sph (Some vac) flat), None) : relem).
  pose (e2 := (El p None (Sph (Some silver) (Surf (1/10) 0 None false)), None) : relem).
  pose (e3 := (El p None (Sph (Some vac) flat), None) : relem).
  assert (U : forall k : relem, untilted (El p (e_radius (fst k)) (e_kind (fst k)), None : option material)) by (intros; split; auto).
  assert (U1 : untilted e1) by apply (U e1). assert (U2 : untilted e2) by apply (U e2).
  assert (U3 : untilted e3) by apply (U e3).
  assert (PL : placed [e1; e2; e3]) by (repeat apply Forall_cons; [..|apply Forall_nil]; apply UP).
  assert (V2 : vertex_curvature (Surf (1/10) 0 None false) = Some (1/10)) by reflexivity.
  assert (V0 : vertex_curvature flat = Some 0) by reflexivity.
  pose (r := rgen None [e1; e2; e3]).
  destruct (sys_matrix_chain 1 e1 [e2; e3] [Tm 1; Rm (2 * (1/10)); Tm 1; Rm ((1-1) * 0)] 1) as (n & M).
  { cbn [chain]. change (idx 1 e1 1) with 1.
    exists 1, 1, (2 * (1/10)). eexists. split; [|split; [reflexivity|]].
    - rewrite (prim_mirror e2 1 1 silver _ _ U2 eq_refl V2) by (cbn; try lra; auto).
      unfold dist. cbn [fst e2 e_place]. rewrite PD. replace (1/1) with 1 by field. reflexivity.
    - exists 1, 1, ((1-1) * 0). eexists. split; [|split; [reflexivity|auto]].
      rewrite (prim e3 1 1 (Some vac) _ _ U3 eq_refl V0) by (cbn; try split; try lra; auto).
      unfold dist. cbn [fst e3 e_place]. rewrite PD. replace (1/1) with 1 by field. reflexivity. }
  destruct (sys_matrix_chain 1 (revd e3 0 (Some silver)) [revd e2 1 (Some vac); revd e1 1 None]
    [Tm 1; Rm ((1 - 1) * - (1/10)); Tm 1; Rm 0] 1) as (n1 & M1).
  { cbn [chain]. change (idx 1 (revd e3 0 (Some silver)) 1) with 1.
    exists 1, 1, ((1 - 1) * - (1/10)). eexists. split; [|split; [reflexivity|]].
    + rewrite (prim (revd e2 1 (Some vac)) 1 1 (Some vac) _ _ (untilted_revd e2 1 (Some vac) U2 Rle_0_1) eq_refl (vertex_reverse _ _ V2))
          by (cbn; try split; try lra; auto). rewrite dist_revd. replace (1/1) with 1 by field. reflexivity.
    + exists 1, 1, 0. eexists. split; [|split; [reflexivity|auto]].
        rewrite (prim (revd e1 1 None) 1 1 None _ _ (untilted_revd e1 1 None U1 Rle_0_1) eq_refl (vertex_reverse _ _ V0)) by (try lra; auto).
        rewrite dist_revd. replace (1/1) with 1 by field. reflexivity. }
  exists e1, e2, e3, r, n, n1. do 2 eexists.
  split; [repeat apply Forall_cons; [..|apply Forall_nil]; auto|].
  split; [exists vac, flat, 0; cbn; repeat split; auto; lra|].
  split; [reflexivity|].
  split; [exists (Some vac), flat, 0; cbn; repeat split; auto; lra|].
  split; [apply (reverse_rgen _ PL)|]. split; [exact M|].
  split.
  - unfold r. cbn [rgen app]. replace (dist e3) with 1 by (symmetry; exact PD).
    replace (dist e2) with 1 by (symmetry; exact PD). exact M1.
  - intros E. apply (f_equal (fun m => mv4 m (V4 1 0 0 0))) in E. revert E.
    rewrite !mv4_mm4, Jm_mv. rewrite !prod_cons. unfold prod. cbn [fold_left]. rewrite !mv4_mm4.
    rewrite Tm_mv, Rm_mv, Tm_mv, Rm_mv, eye_mv, Jm_mv, Tm_mv, Rm_mv, Tm_mv, Rm_mv, !eye_mv.
    intros E. injection E. intros. lra.
Qed.

(** a thick lens in air between object and image, with an aspheric surface *)
Example C22_example : exists p0 p1 e es, init 0 ez v0 None = Some p0 /\ init 3 ez v0 None = Some p1 /\
  e = (El p0 None (Sph (Some vac) flat), None) /\
  es = [(El p1 (Some 4) (Sph (Some water) (Surf (1/20) 0 (Some [1/1000]) false)), None);
        (El p1 (Some 4) (Sph (Some vac) (Surf (-1/30) (1/2) None false)), None);
        (El p1 None (Sph None flat), None)] /\
  Forall untilted (e :: es) /\ lens 1 e /\ optics 1 es.
Proof.
  destruct (centred_axis 0) as (p0 & E0 & U0 & _ & _ & A0); [lra|].
  destruct (centred_axis 3) as (p1 & E1 & U1 & _ & _ & A1); [lra|].
  exists p0, p1. do 2 eexists. split; [auto|]. split; [auto|]. split; [reflexivity|]. split; [reflexivity|].
  split; [repeat apply Forall_cons; [..|apply Forall_nil]; split; auto|].
  split; [exists vac, flat, 0; cbn; repeat split; auto; lra|].
  cbn [optics]. split; [|split].
  - do 3 eexists. split; [reflexivity|]. split; [reflexivity|]. split; [cbn; lra|reflexivity].
  - do 3 eexists. split; [reflexivity|]. split; [reflexivity|]. split; [cbn; lra|reflexivity].
  - do 3 eexists. split; [reflexivity|]. split; [reflexivity|exact I].
Qed.

Print Assumptions C22_inverse.
Print Assumptions C22_stop_refuted.
Print Assumptions C22_mirror_refuted.
