(** Properties C21, C22: reversal. *)
From Coq Require Import Reals List Lra Lia Psatz.
From Verif Require Import Base Vec RotModel RotProofs PlacementModel PlacementProofs ElementModel
  PropsRescale ParaxialModel ParaxialProofs LimitProofs PropsLimit ReverseModel.
Import ListNotations.
Open Scope R_scope.

(** * placements *)
Definition with_distance (p : placement) (d : R) : placement :=
  Placement d (p_direction p) (vmul3 d (p_direction p)) (p_angles p) (p_straight p) (p_normal p)
    (p_rot_axis p) (p_rot_normal p).
Lemma set_distance_updated p d : updated p -> 0 <= d ->
  set_distance p d = Some (with_distance p d) /\ updated (with_distance p d).
Proof.
  intros UP D. destruct (updated_fix _ UP) as ((P & U & O) & _ & C).
  assert (S : set_distance p d = Some (with_distance p d)).
  { unfold set_distance. destruct (unit_or_axis_spec (p_direction p)) as (u & HU & _ & _ & _ & UN).
    rewrite (UN U) in HU. clear UN u. unfold update in *. rewrite HU in *. cbn [obind] in *.
    destruct (Rlt_dec (p_distance p) 0); [lra|]. destruct (Rlt_dec d 0); [lra|].
    unfold with_distance.
    destruct (allclose (p_angles p) v0) eqn:A1; destruct (allclose (p_direction p) ez) eqn:A2; cbn [andb] in *.
    - injection C as C. rewrite <- C. cbn. reflexivity.
    - destruct (axis_rotation (p_direction p)) as [r1|]; [|discriminate]. cbn [obind] in *.
      injection C as C. rewrite <- C. cbn. reflexivity.
    - injection C as C. rewrite <- C. cbn. reflexivity.
    - destruct (axis_rotation (p_direction p)) as [r1|]; [|discriminate]. cbn [obind] in *.
      injection C as C. rewrite <- C. cbn. reflexivity. }
  split; [auto|]. exists d, (p_direction p), (p_angles p). exact S.
Qed.
Lemma with_distance_own p : updated p -> with_distance p (p_distance p) = p.
Proof.
  intros UP. destruct (updated_fix _ UP) as ((P & U & O) & _ & C). unfold with_distance. destruct p; cbn in *. congruence.
Qed.

Definition dist (e : relem) : R := p_distance (e_place (fst e)).
Definition placed (es : list relem) : Prop := Forall (fun e => updated (e_place (fst e))) es.
Lemma dist_nonneg e : updated (e_place (fst e)) -> 0 <= dist e.
Proof. intros U. destruct (updated_fix _ U) as ((P & _) & _). exact P. Qed.

(** what [reverse_one] does, when nothing fails *)
Definition revd (e : relem) (d : R) (m : option material) : relem :=
  let p := with_distance (e_place (fst e)) d in
  match e_kind (fst e) with
  | Plain => (El p (e_radius (fst e)) Plain, m)
  | Sph _ s => (El p (e_radius (fst e)) (Sph m (reverse_surf s)), snd e)
  end.
Lemma reverse_one_revd e d m : updated (e_place (fst e)) -> 0 <= d -> reverse_one e d m = Some (revd e d m).
Proof.
  intros U D. unfold reverse_one, revd. rewrite (proj1 (set_distance_updated _ d U D)). cbn [obind].
  destruct (e_kind (fst e)); reflexivity.
Qed.
Lemma dist_revd e d m : dist (revd e d m) = d.
Proof. unfold dist, revd. destruct (e_kind (fst e)); reflexivity. Qed.
Lemma material_revd e d m : material_of (revd e d m) = m.
Proof. unfold material_of, revd. destruct (e_kind (fst e)); reflexivity. Qed.
Lemma updated_revd e d m : updated (e_place (fst e)) -> 0 <= d -> updated (e_place (fst (revd e d m))).
Proof.
  intros U D. unfold revd. destruct (e_kind (fst e)); cbn; apply set_distance_updated; auto.
Qed.
Lemma revd_revd e d m d' m' : updated (e_place (fst e)) ->
  (revd (revd e d m) d' m' = e <-> dist e = d' /\ material_of e = m').
Proof.
  intros U. pose proof (with_distance_own _ U) as W.
  unfold revd, dist, material_of. destruct e as [[p r [|mt s]] a]; cbn [fst snd e_place e_radius e_kind] in *.
  - change (with_distance (with_distance p d) d') with (with_distance p d'). split.
    + intros E. injection E as E ->. rewrite <- E. auto.
    + intros [<- ->]. rewrite W. reflexivity.
  - change (with_distance (with_distance p d) d') with (with_distance p d').
    assert (S : reverse_surf (reverse_surf s) = s).
    { unfold reverse_surf. destruct s as [c k [a0|] al]; cbn [s_c s_k s_asph s_alt].
      - f_equal; [ring|]. f_equal. rewrite map_map. rewrite <- (map_id a0) at 2. apply map_ext. intros; ring.
      - f_equal. ring. }
    split.
    + intros E. injection E as E -> _. rewrite <- E. auto.
    + intros [<- ->]. rewrite W, S. reflexivity.
Qed.

(** the loop as a recursion from the front, with the material before the first element *)
Fixpoint rgen (mprev : option material) (es : list relem) : list relem :=
  match es with
  | [] => []
  | e :: es => rgen (material_of e) es ++ [revd e (match es with [] => 0 | f :: _ => dist f end) mprev]
  end.
Lemma reverse_loop_rgen es : forall mp, placed es ->
  exists r, reverse_loop es (skipn 1 (map dist es ++ [0])) (mp :: map material_of es) = Some r /\ rev r = rgen mp es.
Proof.
  induction es as [|e es IH]; intros mp P; [exists []; auto|].
  inversion P as [|? ? U Us]; subst.
  destruct (IH (material_of e) Us) as (r & E & RR). cbn [map app skipn rgen] in *.
  destruct es as [|f es].
  - cbn [map app reverse_loop]. rewrite (reverse_one_revd e 0 mp U) by lra. cbn [obind]. eexists; split; reflexivity.
  - cbn [map app reverse_loop] in *. inversion Us; subst.
    rewrite (reverse_one_revd e (dist f) mp U) by (apply dist_nonneg; auto). cbn [obind].
    rewrite E. cbn [obind]. eexists; split; [reflexivity|]. cbn [rev]. rewrite RR. reflexivity.
Qed.
Lemma reverse_rgen es : placed es -> reverse es = Some (rgen None es).
Proof.
  intros P. unfold reverse. destruct (reverse_loop_rgen es None P) as (r & E & RR).
  cbv zeta. match goal with |- context [reverse_loop es ?d ?m] =>
    change (reverse_loop es d m) with (reverse_loop es (skipn 1 (map dist es ++ [0])) (None :: map material_of es)) end.
  rewrite E. cbn [obind]. rewrite RR. reflexivity.
Qed.

Definition mat_before (mp : option material) (es : list relem) (i : nat) : option material :=
  match i with O => mp | S i => match nth_error es i with Some e => material_of e | None => None end end.
Definition dist_at (es : list relem) (i : nat) : R := match nth_error es i with Some e => dist e | None => 0 end.

Lemma rgen_length es : forall mp, length (rgen mp es) = length es.
Proof. induction es as [|e es IH]; intros mp; [reflexivity|]. cbn. rewrite app_length, IH. cbn. lia. Qed.
Lemma rgen_nth es : forall mp i e, nth_error es i = Some e ->
  nth_error (rgen mp es) (length es - 1 - i) = Some (revd e (dist_at es (S i)) (mat_before mp es i)).
Proof.
  induction es as [|x es IH]; intros mp i e N; [destruct i; discriminate|].
  cbn [rgen length]. destruct i as [|i]; cbn [nth_error] in N.
  - injection N as ->. rewrite nth_error_app2 by (rewrite rgen_length; lia). rewrite rgen_length.
    replace (S (length es) - 1 - 0 - length es)%nat with 0%nat by lia. cbn. f_equal. f_equal.
    unfold dist_at. destruct es; reflexivity.
  - assert (L : (i < length es)%nat) by (apply nth_error_Some; congruence).
    rewrite nth_error_app1 by (rewrite rgen_length; lia).
    replace (S (length es) - 1 - S i)%nat with (length es - 1 - i)%nat by lia.
    rewrite (IH _ i e N). f_equal. f_equal. destruct i; reflexivity.
Qed.
Lemma rgen_placed es : forall mp, placed es -> placed (rgen mp es).
Proof.
  induction es as [|e es IH]; intros mp P; [constructor|]. inversion P as [|? ? U Us]; subst.
  cbn [rgen]. apply Forall_app. split; [apply IH; auto|]. constructor; [|constructor].
  apply updated_revd; auto. destruct es as [|f es]; [lra|]. inversion Us; subst. apply dist_nonneg; auto.
Qed.

Lemma nth_error_ext {A} : forall (a b : list A), (forall i, nth_error a i = nth_error b i) -> a = b.
Proof.
  induction a as [|x a IH]; intros [|y b] H; auto; try (specialize (H 0%nat); discriminate).
  f_equal; [specialize (H 0%nat); cbn in H; congruence|]. apply IH. intros i. apply (H (S i)).
Qed.

(** * C21 *)
(** Reversing never fails for elements whose placement was set by the constructor or
    the setters.  Reversing twice gives back exactly the system (every attribute of
    every element, and the order) iff the first element has distance zero and the last
    one no material. *)
Theorem C21_twice (es : list relem) : placed es -> es <> [] ->
  exists es1 es2, reverse es = Some es1 /\ reverse es1 = Some es2 /\
    (es2 = es <-> (exists e, nth_error es 0 = Some e /\ p_distance (e_place (fst e)) = 0) /\
                  (exists e, nth_error es (length es - 1) = Some e /\ material_of e = None)).
Proof.
  intros P NE. exists (rgen None es), (rgen None (rgen None es)).
  split; [apply reverse_rgen; auto|]. split; [apply reverse_rgen, rgen_placed; auto|].
  set (n := length es). assert (NP : (0 < n)%nat) by (unfold n; destruct es; [contradiction|cbn; lia]).
  set (r1 := rgen None es). set (r2 := rgen None r1).
  assert (L1 : length r1 = n) by apply rgen_length. assert (L2 : length r2 = n) by (unfold r2; rewrite rgen_length; auto).
  (* element i after two reversals *)
  assert (K : forall i e, nth_error es i = Some e ->
    exists e2, nth_error r2 i = Some e2 /\
      (e2 = e <-> dist e = match i with O => 0 | S _ => dist e end /\
                  material_of e = if Nat.eq_dec i (n - 1) then None else material_of e)).
  { intros i e N. assert (LI : (i < n)%nat) by (apply nth_error_Some; congruence).
    pose proof (rgen_nth es None i e N) as N1. fold r1 n in N1.
    pose proof (rgen_nth r1 None _ _ N1) as N2. fold r2 in N2. rewrite L1 in N2.
    replace (n - 1 - (n - 1 - i))%nat with i in N2 by lia.
    eexists; split; [exact N2|]. rewrite revd_revd.
    2:{ unfold placed in P. rewrite Forall_forall in P. apply P. eapply nth_error_In; eauto. }
    assert (DD : dist_at r1 (S (n - 1 - i)) = match i with O => 0 | S _ => dist e end).
    { unfold dist_at. destruct i as [|i].
      - replace (nth_error r1 (S (n - 1 - 0))) with (@None relem); [reflexivity|].
        symmetry. apply nth_error_None. lia.
      - destruct (nth_error es i) as [f|] eqn:F; [|apply nth_error_None in F; fold n in F; lia].
        pose proof (rgen_nth es None i f F) as F1. fold r1 n in F1.
        replace (S (n - 1 - S i)) with (n - 1 - i)%nat by lia. rewrite F1, dist_revd. unfold dist_at. rewrite N. reflexivity. }
    assert (MM : mat_before None r1 (n - 1 - i) = if Nat.eq_dec i (n - 1) then None else material_of e).
    { destruct (Nat.eq_dec i (n - 1)) as [->|NI]; [replace (n - 1 - (n - 1))%nat with 0%nat by lia; reflexivity|].
      destruct (n - 1 - i)%nat as [|j] eqn:J; [lia|]. cbn [mat_before].
      destruct (nth_error es (S i)) as [f|] eqn:F; [|apply nth_error_None in F; fold n in F; lia].
      pose proof (rgen_nth es None (S i) f F) as F1. fold r1 n in F1.
      replace (n - 1 - S i)%nat with j in F1 by lia. rewrite F1, material_revd. cbn [mat_before]. rewrite N. reflexivity. }
    rewrite DD, MM. reflexivity. }
  split.
  - intros E. fold r2 in E. split.
    + destruct (nth_error es 0) as [e|] eqn:N; [|apply nth_error_None in N; fold n in N; lia].
      exists e. split; [auto|]. destruct (K 0%nat e N) as (e2 & N2 & I). rewrite E, N in N2. injection N2 as <-.
      apply I. reflexivity.
    + fold n. destruct (nth_error es (n - 1)) as [e|] eqn:N; [|apply nth_error_None in N; fold n in N; lia].
      exists e. split; [auto|]. destruct (K _ e N) as (e2 & N2 & I). rewrite E, N in N2. injection N2 as <-.
      destruct (proj1 I eq_refl) as [_ M]. destruct (Nat.eq_dec (n - 1) (n - 1)); [auto|lia].
  - intros [(e0 & N0 & D0) (en & Nn & Mn)]. fold n in Nn.
    apply (nth_error_ext r2 es). intros i. destruct (nth_error es i) as [e|] eqn:N.
    + destruct (K i e N) as (e2 & N2 & I). rewrite N2. f_equal. apply I. split.
      * destruct i; [|reflexivity]. rewrite N in N0. injection N0 as ->. exact D0.
      * destruct (Nat.eq_dec i (n - 1)) as [->|]; [|reflexivity]. rewrite N in Nn. injection Nn as ->. exact Mn.
    + apply nth_error_None in N. apply nth_error_None. fold n in N. lia.
Qed.

(** Element i moves to position n-1-i with its radius; its distance becomes that of its
    successor, its material that of its predecessor, its curvature and aspheric terms
    change sign. *)
Theorem C21_layout es i e : placed es -> nth_error es i = Some e ->
  exists es1 e1, reverse es = Some es1 /\ length es1 = length es /\ nth_error es1 (length es - 1 - i) = Some e1 /\
    e_radius (fst e1) = e_radius (fst e) /\
    p_direction (e_place (fst e1)) = p_direction (e_place (fst e)) /\
    p_angles (e_place (fst e1)) = p_angles (e_place (fst e)) /\
    (forall f, nth_error es (S i) = Some f -> p_distance (e_place (fst e1)) = p_distance (e_place (fst f))) /\
    (forall f, i <> 0%nat -> nth_error es (i - 1) = Some f -> material_of e1 = material_of f) /\
    (forall m s, e_kind (fst e) = Sph m s -> exists m1 s1, e_kind (fst e1) = Sph m1 s1 /\ s_c s1 = - s_c s /\
       s_k s1 = s_k s /\ s_asph s1 = option_map (map Ropp) (s_asph s)).
Proof.
  intros P N. exists (rgen None es), (revd e (dist_at es (S i)) (mat_before None es i)).
  split; [apply reverse_rgen; auto|]. split; [apply rgen_length|]. split; [apply rgen_nth; auto|].
  split; [unfold revd; destruct (e_kind (fst e)); reflexivity|].
  split; [unfold revd; destruct (e_kind (fst e)); reflexivity|].
  split; [unfold revd; destruct (e_kind (fst e)); reflexivity|].
  split.
  - intros f F. change (dist (revd e (dist_at es (S i)) (mat_before None es i)) = dist f). rewrite dist_revd.
    unfold dist_at. rewrite F. reflexivity.
  - split.
    + intros f NZ F. rewrite material_revd. destruct i as [|i]; [lia|]. cbn [mat_before].
      replace (S i - 1)%nat with i in F by lia. rewrite F. reflexivity.
    + intros m s K. unfold revd. rewrite K. cbn. exists (mat_before None es i), (reverse_surf s).
      split; [reflexivity|]. cbn. split; [ring|]. split; [auto|]. destruct (s_asph s); reflexivity.
Qed.

(** The aperture stop is an index and is not remapped: after reversal the stop is
    the element that was at the mirrored position. *)
Theorem C21_stop_refuted : exists (s s1 : system unit) a a1, placed (sy_elements s) /\
  system_reverse s = Some s1 /\ aperture s = Some a /\ aperture s1 = Some a1 /\
  e_radius (fst a) = Some 1 /\ e_radius (fst a1) = Some 5 /\ 
  ~ (exists d m, a1 = revd a d m).
Proof.
  destruct (centred_axis 0) as (p0 & _ & U0 & _); [lra|]. destruct (centred_axis 1) as (p1 & _ & U1 & _); [lra|].
  pose (es := [(El p0 (Some 2) Plain, None : option material); (El p1 (Some 1) Plain, None); (El p1 (Some 5) Plain, None); (El p1 (Some 3) Plain, None)]).
  assert (P : placed es) by (repeat apply Forall_cons; [..|apply Forall_nil]; auto).
  exists (System es 1 tt tt), (System (rgen None es) 1 tt tt). do 2 eexists.
  split; [exact P|]. split; [unfold system_reverse; cbn [sy_elements]; rewrite (reverse_rgen _ P); reflexivity|].
  split; [reflexivity|]. split; [reflexivity|]. split; [reflexivity|]. split; [reflexivity|].
  intros (d & m & E). unfold revd in E. cbn in E. injection E. intros. lra.
Qed.

(** a doublet between object and image meeting the conditions *)
Example C21_example : exists p0 p1 es, init 0 ez v0 None = Some p0 /\ init 5 (V 0 3 4) (V 0 (1/10) 0) None = Some p1 /\
  placed es /\ es <> [] /\
  es = [(El p0 None (Sph (Some silver) (Surf 0 0 None false)), None);
        (El p1 (Some 10) (Sph (Some water) (Surf (1/50) (1/2) (Some [1; 2]) false)), None);
        (El p1 None Plain, None)] /\ reverse es <> Some es.
Proof.
  destruct (init_spec 0 ez v0 None) as (p0 & E0 & _). destruct (init_spec 5 (V 0 3 4) (V 0 (1/10) 0) None) as (p1 & E1 & _).
  exists p0, p1. eexists. split; [auto|]. split; [auto|].
  assert (P : forall d u a p, init d u a None = Some p -> updated p).
  { intros d u a p E. unfold init in E. exists d, u, a. destruct (update d u a); auto. }
  match goal with |- context [?x <> []] => idtac end.
  assert (PL : placed [(El p0 None (Sph (Some silver) (Surf 0 0 None false)), None);
        (El p1 (Some 10) (Sph (Some water) (Surf (1/50) (1/2) (Some [1; 2]) false)), None);
        (El p1 None Plain, None)]).
  { repeat apply Forall_cons; [..|apply Forall_nil]; cbn; eauto. }
  split; [exact PL|]. split; [discriminate|]. split; [reflexivity|]. rewrite (reverse_rgen _ PL). cbn. discriminate.
Qed.

Print Assumptions C21_twice.
Print Assumptions C21_layout.
Print Assumptions C21_stop_refuted.
