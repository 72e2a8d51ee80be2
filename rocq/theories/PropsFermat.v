(** Property C82: Fermat's principle.  The optical length of a broken line whose corners slide on the surfaces is
    stationary at a traced ray, and a stationary broken line is a traced ray. *)
From Coq Require Import Reals ZArith List Lra Lia Psatz.
From Verif Require Import Base Vec RotModel RotProofs PlacementModel PlacementProofs ElementModel ElementProofs TraceProofs
  PropsElement PropsTrace OpdModel PropsConcentric PropsOpd FirstOrder Hamilton Smooth.
Import ListNotations.
Open Scope R_scope.

(** * specification *)
(** length of the broken line [Q 0], ..., [Q k], each part times the index of its medium *)
Fixpoint broken_line (ns : nat -> R) (Q : nat -> vec) (k : nat) : R :=
  match k with O => 0 | S k => broken_line ns Q k + ns k * norm (vsub3 (Q (S k)) (Q k)) end.
(** the lab point [X] lies on the surface of element [k], if that acts on rays *)
Definition slides (es : list element) (k : nat) (X : vec) : Prop := forall e m s, nth_error es k = Some e -> e_kind e = Sph (Some m) s ->
  exists o q, nth_error (origins es) k = Some o /\ to_normal (e_place e) (vsub3 X o) = Some q /\ surface_sag s q = Some 0.
(** the ray goes forward on its way to elements 1 ... [k] *)
Definition forward (k : nat) (ray : list step) : Prop := forall i s t, (1 <= i <= k)%nat -> nth_error ray i = Some s -> st_t s = Some t -> 0 < t.

(** unit vector from [A] to [B] *)
Definition heading (A B : vec) : vec := vmul3 (/ norm (vsub3 B A)) (vsub3 B A).
(** the index behind each element *)
Definition media (l n : R) (es : list element) (ns : nat -> R) : Prop := ns 0%nat = n /\ forall i e, nth_error es (S i) = Some e ->
  ns (S i) = match e_kind e with Sph (Some m) _ => if m_mirror m then ns i else m_index m l | _ => ns i end.
(** the directions [w], [v] before and behind element [k] at the lab point [X]: through the surface along its normal, or back from a mirror *)
Definition passes (es : list element) (k : nat) (X w v : vec) : Prop := forall e m s, nth_error es k = Some e -> e_kind e = Sph (Some m) s ->
  exists o q N M, nth_error (origins es) k = Some o /\ to_normal (e_place e) (vsub3 X o) = Some q /\ surface_normal s q = Some N /\ from_normal (e_place e) N = Some M /\
    if m_mirror m then dot M w * dot M v < 0 else 0 < dot M w /\ 0 < dot M v.
(** no small displacement of the corners on their surfaces changes the length in first order *)
Definition stationary (es : list element) (ns : nat -> R) (P : nat -> vec) (k : nat) : Prop := forall (Q : R -> nat -> vec) (dQ : nat -> vec),
  (forall i, (i <= k)%nat -> vlin (fun h => Q h i) (P i) (dQ i)) -> (forall h, Q h 0%nat = P 0%nat /\ Q h k = P k) ->
  (forall i, (1 <= i < k)%nat -> near (fun h => slides es i (Q h i))) -> derivable_pt_lim (fun h => broken_line ns (Q h) k) 0 0.

(** * proofs *)
Lemma norm_lin A a a' : vlin A a a' -> 0 < norm a -> lin (fun h => norm (A h)) (norm a) (dot a a' / norm a).
Proof.
  intros L P. pose proof (vlin_dot _ _ _ _ _ _ L L) as D. assert (0 < dot a a) by (rewrite <- norm_sqr; nra).
  eapply lin_eq; [apply (lin_sqrt _ _ _ D H)|reflexivity|]. fold (norm a). rewrite (dot_comm a' a). field. lra.
Qed.
Lemma norm_along t U : 0 < t -> dot U U = 1 -> norm (vmul3 t U) = t.
Proof. intros T U1. unfold norm. replace (dot (vmul3 t U) (vmul3 t U)) with (t * t * dot U U) by vec_ring. rewrite U1, Rmult_1_r. apply sqrt_square. lra. Qed.

Lemma heading_unit A B : 0 < norm (vsub3 B A) -> dot (heading A B) (heading A B) = 1 /\ vsub3 B A = vmul3 (norm (vsub3 B A)) (heading A B).
Proof.
  intros P. unfold heading. generalize dependent (vsub3 B A). intros d P. split.
  - replace (dot (vmul3 (/ norm d) d) (vmul3 (/ norm d) d)) with (/ norm d * / norm d * dot d d) by (generalize (/ norm d); intros; vec_ring). rewrite <- norm_sqr. field. lra.
  - apply vec_eq; cbn; field; lra.
Qed.
Lemma same_parts u v N : N <> v0 -> cross u N = cross v N -> dot u N = dot v N -> u = v.
Proof.
  intros NZ C D. assert (N2 : dot N N <> 0) by (intros Z; apply dot_zero in Z; contradiction).
  assert (K : forall a, vmul3 (dot N N) a = vadd3 (vmul3 (dot a N) N) (cross N (cross a N))) by (intros a; vec_ring).
  pose proof (K u) as KU. rewrite C, D, <- K in KU. assert (X : forall x y, dot N N * x = dot N N * y -> x = y) by (intros x y H; apply (Rmult_eq_reg_l _ _ _ H N2)).
  apply vec_eq; apply X; [exact (f_equal vx KU)|exact (f_equal vy KU)|exact (f_equal vz KU)].
Qed.
Lemma cross_sqr u N : dot u u = 1 -> dot (cross u N) (cross u N) = dot N N - dot u N * dot u N.
Proof. intros U. transitivity (dot u u * dot N N - dot u N * dot u N); [vec_ring|rewrite U; ring]. Qed.
Lemma same_side u v N : N <> v0 -> dot u u = 1 -> dot v v = 1 -> cross u N = cross v N -> 0 <= dot u N * dot v N -> u = v.
Proof.
  intros NZ U V C S. apply (same_parts u v N NZ C). pose proof (cross_sqr u N U) as A. pose proof (cross_sqr v N V) as B. rewrite C in A.
  assert (E : dot u N * dot u N = dot v N * dot v N) by lra. set (x := dot u N) in *. set (y := dot v N) in *. clearbody x y.
  assert (Z : (x - y) * (x + y) = 0) by lra. apply Rmult_integral in Z as [Z|Z]; [lra|]. assert (x = - y) by lra. subst x. assert (y = 0) by nra. lra.
Qed.
(** ** the derivative of the length of any broken line *)
Fixpoint length_rate (ns : nat -> R) (W dQ : nat -> vec) (k : nat) : R :=
  match k with O => 0 | S k => length_rate ns W dQ k + ns k * dot (W k) (vsub3 (dQ (S k)) (dQ k)) end.
Lemma broken_lin ns (Q : R -> nat -> vec) P dQ k : (forall i, (i <= k)%nat -> vlin (fun h => Q h i) (P i) (dQ i)) ->
  (forall i, (i < k)%nat -> 0 < norm (vsub3 (P (S i)) (P i))) ->
  lin (fun h => broken_line ns (Q h) k) (broken_line ns P k) (length_rate ns (fun i => heading (P i) (P (S i))) dQ k).
Proof.
  induction k as [|k IH]; intros L NZ; cbn [broken_line length_rate]; [apply lin_const|].
  apply lin_plus; [apply IH; intros; [apply L|apply NZ]; lia|].
  pose proof (norm_lin _ _ _ (vlin_sub _ _ _ _ _ _ (L (S k) ltac:(lia)) (L k ltac:(lia))) (NZ k ltac:(lia))) as D.
  eapply lin_eq; [apply lin_mult; [apply lin_const|exact D]|ring|]. unfold heading. pose proof (NZ k ltac:(lia)) as Z. set (d := vsub3 (P (S k)) (P k)) in *. set (w := vsub3 (dQ (S k)) (dQ k)).
  replace (dot (vmul3 (/ norm d) d) w) with (dot d w / norm d) by (unfold Rdiv; generalize (/ norm d); intros; vec_ring). ring.
Qed.
Definition only (j : nat) (d : vec) (i : nat) : vec := if Nat.eq_dec i j then d else v0.
Lemma rate_only ns W j d k : length_rate ns W (only (S j) d) k =
  (if le_dec (S j) k then ns j * dot (W j) d else 0) - (if le_dec (S (S j)) k then ns (S j) * dot (W (S j)) d else 0).
Proof.
  assert (Z1 : forall a b, dot a (vsub3 b v0) = dot a b) by (intros; vec_ring). assert (Z2 : forall a b, dot a (vsub3 v0 b) = - dot a b) by (intros; vec_ring).
  assert (Z3 : forall a, dot a (vsub3 v0 v0) = 0) by (intros; vec_ring).
  induction k as [|k IH]; cbn [length_rate]; [destruct (le_dec (S j) 0), (le_dec (S (S j)) 0); lia || ring|]. rewrite IH. unfold only.
  destruct (Nat.eq_dec (S k) (S j)) as [E|E].
  - injection E as ->. destruct (Nat.eq_dec j (S j)); [lia|]. rewrite Z1. destruct (le_dec (S j) j), (le_dec (S (S j)) j), (le_dec (S j) (S j)), (le_dec (S (S j)) (S j)); try lia. ring.
  - destruct (Nat.eq_dec k (S j)) as [->|E2].
    + rewrite Z2. destruct (le_dec (S j) (S j)), (le_dec (S (S j)) (S j)), (le_dec (S j) (S (S j))), (le_dec (S (S j)) (S (S j))); try lia. ring.
    + rewrite Z3. destruct (le_dec (S j) k), (le_dec (S (S j)) k), (le_dec (S j) (S k)), (le_dec (S (S j)) (S k)); try lia; ring.
Qed.
(** a curve on the surface with a given tangent *)
Lemma sag_shift sf p t : sag_spec sf (V (vx p) (vy p) (vz p + t)) = sag_spec sf p + t.
Proof. unfold sag_spec, r2_of. cbn [vx vy vz]. ring. Qed.
Lemma surface_curve sf p N d : surface_normal sf p = Some N -> surface_sag sf p = Some 0 -> dot N d = 0 ->
  exists Y, vlin Y p d /\ near (fun h => surface_sag sf (Y h) = Some 0).
Proof.
  intros SN SG T. set (Z := fun h => vadd3 p (vmul3 h d)).
  assert (LZ : vlin Z p d).
  { assert (E1 : vadd3 p (vmul3 0 d) = p) by vec_ring. assert (E2 : vadd3 v0 (vadd3 (vmul3 1 d) (vmul3 0 v0)) = d) by vec_ring.
    pose proof (vlin_add _ _ _ _ _ _ (vlin_const p) (vlin_scale _ _ _ _ _ _ lin_id (vlin_const d))) as L. rewrite E1, E2 in L. exact L. }
  pose proof (sag_lin sf Z p d N LZ SN) as LS. pose proof (normal_domain _ _ _ SN) as W.
  assert (S0 : sag_spec sf p = 0) by (rewrite surface_sag_spec in SG by lra; injection SG; auto). rewrite S0, T in LS.
  exists (fun h => V (vx (Z h)) (vy (Z h)) (vz (Z h) + - sag_spec sf (Z h))). split.
  - destruct LZ as (X & Y & ZZ). split; [exact X|]. split; [exact Y|]. cbn [vz]. eapply lin_eq; [apply lin_plus; [exact ZZ|apply lin_opp; exact LS]|ring|ring].
  - assert (NW : near (fun e => 0 < 1 - (1 + s_k sf) * s_c sf ^ 2 * r2_of (Z e))).
    { destruct LZ as (X & Y1 & _). eapply (lin_pos _ (1 - (1 + s_k sf) * s_c sf ^ 2 * r2_of p)); [|exact W]. unfold r2_of. eapply lin_eq; [solve [lin_auto]|reflexivity|reflexivity]. }
    eapply near_impl; [|exact NW]. intros h H. cbn beta in H. rewrite surface_sag_spec by (unfold r2_of in *; cbn [vx vy]; lra). rewrite sag_shift. f_equal. ring.
Qed.
Lemma orthogonal_all a N : (forall d, dot N d = 0 -> dot a d = 0) -> cross a N = v0.
Proof.
  intros H. apply dot_zero. rewrite <- (H (cross N (cross a N))) by vec_ring. vec_ring.
Qed.

Section Fermat.
Variable newton : (R -> option R) -> (R -> option R) -> option R -> option R.
Notation trace := (geo_trace newton).

(** one corner *)
Lemma corner es y u n l c i e e' s s' U U' Q P dP : physical l es -> 0 < n -> dot u u = 1 ->
  nth_error es i = Some e -> nth_error es (S i) = Some e' ->
  nth_error (trace es y u n l c) i = Some s -> nth_error (trace es y u n l c) (S i) = Some s' ->
  lab_point es (S i) (trace es y u n l c) P -> lab_direction es i (trace es y u n l c) U -> lab_direction es (S i) (trace es y u n l c) U' ->
  vlin Q P dP -> near (fun h => slides es (S i) (Q h)) ->
  st_n s' * dot U' dP = st_n s * dot U dP.
Proof.
  intros G N U1 He He' S S' (e1 & o' & s1 & p & PP & E1 & O' & S1 & YP & FP & EP) (e2 & s2 & v & E2 & S2 & UV & FV) (e3 & s3 & v' & E3 & S3 & UV' & FV') LQ SL.
  rewrite He' in E1, E3. injection E1 as <-. injection E3 as <-. rewrite He in E2. injection E2 as <-. rewrite S' in S1, S3. injection S1 as <-. injection S3 as <-. rewrite S in S2. injection S2 as <-.
  assert (GE : good_element l e) by (unfold physical in G; rewrite Forall_forall in G; apply G; eapply nth_error_In; eauto).
  assert (GE' : good_element l e') by (unfold physical in G; rewrite Forall_forall in G; apply G; eapply nth_error_In; eauto).
  destruct (normal_maps _ (proj1 GE)) as (r & RR & F & T). destruct (normal_maps _ (proj1 GE')) as (r' & RR' & F' & T').
  rewrite F in FV. injection FV as <-. rewrite F' in FV', FP. injection FV' as <-. injection FP as <-.
  assert (II : st_i s' = Some (vm (vm v r) (mT r'))).
  { rewrite (link newton es y u n l c i e e' s s' He He' S S'), UV. unfold onormal. cbn [obind]. rewrite F. cbn [obind]. apply T'. }
  destruct (C16_surface_laws newton es y u n l c i e e' s s' v' G N U1 He He' S S' ltac:(rewrite YP; discriminate) UV') as (w & p' & IW & YP' & LAW).
  rewrite II in IW. injection IW as IW. rewrite YP in YP'. injection YP' as <-.
  (* the variation in the frame of the surface *)
  set (d := vm dP (mT r')).
  assert (D1 : dot (vm v' r') dP = dot v' d) by (unfold d; rewrite <- (rotation_dot (mT r') (vm v' r') dP (rotation_mT _ RR')); rewrite vm_back by auto; reflexivity).
  assert (D2 : dot (vm v r) dP = dot w d) by (unfold d; rewrite <- IW; symmetry; apply rotation_dot, rotation_mT, RR').
  assert (LF : vlin (fun h => vm (vsub3 (Q h) o') (mT r')) p d).
  { assert (PE : p = vm (vsub3 P o') (mT r')) by (rewrite EP; replace (vsub3 (vadd3 o' (vm p r')) o') with (vm p r') by (generalize (vm p r'); intros z; vec_ring); rewrite vm_back by auto; reflexivity).
    rewrite PE. unfold d. pose proof (vlin_vm _ _ _ (mT r') (vlin_sub _ _ _ _ _ _ LQ (vlin_const o'))) as Z. replace dP with (vsub3 dP v0) by vec_ring. exact Z. }
  rewrite D1, D2.
  destruct (e_kind e') as [|[m|] sf] eqn:K; [destruct LAW as (-> & ->); reflexivity| |destruct LAW as (-> & ->); reflexivity].
  assert (TAN : forall M, surface_normal sf p = Some M -> dot M d = 0).
  { intros M SM. apply (tangent sf _ p d M LF SM). eapply near_impl; [|exact SL]. intros h H. destruct (H e' m sf He' K) as (o2 & q & O2 & TQ & SG). rewrite O' in O2. injection O2 as <-.
    rewrite T' in TQ. injection TQ as ->. exact SG. }
  destruct (m_mirror m).
  - destruct LAW as (M & SM & (_ & _ & CR & _) & NN). rewrite NN. f_equal. apply (along_normal v' w M d); auto. eapply surface_normal_nz; eauto.
  - destruct LAW as (NI & LAW). destruct (Req_EM_T (st_n s') (st_n s)) as [E|E]; [rewrite LAW, E; reflexivity|].
    destruct LAW as (M & SM & (_ & CR & _)).
    assert (K1 : forall a q b, dot (vmul3 a q) b = a * dot q b) by (intros a q b; vec_ring). rewrite <- !K1. apply (along_normal _ _ M); [eapply surface_normal_nz; eauto| |auto].
    assert (K2 : forall a q b, cross (vmul3 a q) b = vmul3 a (cross q b)) by (intros a q b; vec_ring). rewrite !K2. auto.
Qed.

(** ** the optical length of a varied ray changes only by its ends *)
Theorem C82_fermat es y u n l c k ns (Q : R -> nat -> vec) (P dP : nat -> vec) U0 : physical l es -> 0 < n -> dot u u = 1 ->
  let ray := trace es y u n l c in
  (forall i, (i <= S k)%nat -> lab_point es i ray (P i)) -> (forall i s, nth_error ray i = Some s -> ns i = st_n s) -> forward (S k) ray ->
  (forall i, (i <= S k)%nat -> vlin (fun h => Q h i) (P i) (dP i)) -> (forall i, (1 <= i <= k)%nat -> near (fun h => slides es i (Q h i))) ->
  lab_direction es 0 ray U0 ->
  exists p U, lab_direction es k ray U /\ optical_path (S k) ray = Some p /\
    lin (fun h => broken_line ns (Q h) (S k)) p (ns k * dot U (dP (S k)) - n * dot U0 (dP 0%nat)).
Proof.
  intros G N U1 ray LP IX FW LQ SL L0.
  assert (N0 : ns 0%nat = n /\ optical_path 0 ray = Some 0).
  { destruct (LP 0%nat ltac:(lia)) as (e & o & s & _ & _ & E & _). unfold ray in *. destruct es as [|e0 es]; [discriminate|]. split; [exact (IX 0%nat _ eq_refl)|reflexivity]. }
  destruct N0 as (N0 & OP0).
  induction k as [|k IH].
  - destruct (LP 0%nat ltac:(lia)) as (e & o & s & q & qq & E & O & S & Y & F & EP). destruct (LP 1%nat ltac:(lia)) as (e' & o' & s' & q' & qq' & E' & O' & S' & Y' & F' & EP').
    destruct (C16_straight_lines newton es y u n l c 0 e e' s s' o o' G N U1 E E' S S' O O' q' Y') as (p1 & v & P1 & P1' & UU & t & A & B & C & D & H & UN & HT & LN).
    assert (U0 = UU) by (destruct L0 as (e2 & s2 & v2 & E2 & S2 & UV2 & FV2); rewrite E in E2; injection E2 as <-; rewrite S in S2; injection S2 as <-; congruence). subst UU.
    assert (NS : 0 < st_n s) by (apply (trace_good newton es y u n l c 0 e s G N U1 E S)).
    assert (T0 : 0 < t) by (pose proof (FW 1%nat s' _ ltac:(lia) S' HT); nra).
    assert (PD : vsub3 (P 1%nat) (P 0%nat) = vmul3 t U0) by (rewrite EP, EP'; rewrite Y in A; injection A as <-; rewrite F in C; injection C as <-; rewrite F' in H; injection H as <-; exact LN).
    exists (st_n s * t), U0. split; [exact L0|]. split; [rewrite optical_path_next, OP0; cbn [obind]; rewrite S'; cbn [obind]; rewrite HT; cbn [obind]; f_equal; ring|].
    cbn [broken_line]. rewrite <- N0. assert (NN : ns 0%nat = st_n s) by (apply IX; exact S). rewrite NN.
    pose proof (norm_lin _ _ _ (vlin_sub _ _ _ _ _ _ (LQ 1%nat ltac:(lia)) (LQ 0%nat ltac:(lia)))) as NL. rewrite PD, norm_along in NL by auto.
    eapply lin_eq; [apply lin_plus; [apply lin_const|apply lin_mult; [apply lin_const|apply NL; auto]]|ring|].
    replace (dot (vmul3 t U0) (vsub3 (dP 1%nat) (dP 0%nat)) / t) with (dot U0 (dP 1%nat) - dot U0 (dP 0%nat)); [ring|].
    replace (dot (vmul3 t U0) (vsub3 (dP 1%nat) (dP 0%nat))) with (t * (dot U0 (dP 1%nat) - dot U0 (dP 0%nat))) by (generalize (dP 1%nat) (dP 0%nat); intros a b; vec_ring). field. lra.
  - destruct IH as (p & U & LU & OP & LB); [intros; apply LP; lia|intros i s t I; apply FW; lia|intros; apply LQ; lia|intros; apply SL; lia|].
    destruct (LP (S k) ltac:(lia)) as (e & o & s & q & qq & E & O & S & Y & F & EP). destruct (LP (Datatypes.S (Datatypes.S k)) ltac:(lia)) as (e' & o' & s' & q' & qq' & E' & O' & S' & Y' & F' & EP').
    destruct (C16_straight_lines newton es y u n l c (Datatypes.S k) e e' s s' o o' G N U1 E E' S S' O O' q' Y') as (p1 & v & P1 & P1' & UU & t & A & B & C & D & H & UN & HT & LN).
    assert (NS : 0 < st_n s) by (apply (trace_good newton es y u n l c _ e s G N U1 E S)).
    assert (T0 : 0 < t) by (pose proof (FW _ s' _ (ltac:(lia) : (1 <= Datatypes.S (Datatypes.S k) <= Datatypes.S (Datatypes.S k))%nat) S' HT); nra).
    assert (PD : vsub3 (P (Datatypes.S (Datatypes.S k))) (P (Datatypes.S k)) = vmul3 t UU) by (rewrite EP, EP'; rewrite Y in A; injection A as <-; rewrite F in C; injection C as <-; rewrite F' in H; injection H as <-; exact LN).
    assert (LU' : lab_direction es (Datatypes.S k) ray UU) by (exists e, s, v; auto).
    destruct LU as (eb & sb & vb & Eb & Sb & Vb & Fb).
    pose proof (corner es y u n l c k eb e sb s U UU _ _ _ G N U1 Eb E Sb S (LP (Datatypes.S k) ltac:(lia)) ltac:(exists eb, sb, vb; auto) LU' (LQ (Datatypes.S k) ltac:(lia)) (SL (Datatypes.S k) ltac:(lia))) as CO.
    exists (p + st_n s * t), UU. split; [exact LU'|]. split; [rewrite optical_path_next, OP; cbn [obind]; rewrite S'; cbn [obind]; rewrite HT; reflexivity|].
    change (lin (fun h => broken_line ns (Q h) (Datatypes.S k) + ns (Datatypes.S k) * norm (vsub3 (Q h (Datatypes.S (Datatypes.S k))) (Q h (Datatypes.S k)))) (p + st_n s * t) (ns (Datatypes.S k) * dot UU (dP (Datatypes.S (Datatypes.S k))) - n * dot U0 (dP 0%nat))).
    rewrite (IX _ _ S). rewrite (IX _ _ Sb) in LB.
    pose proof (norm_lin _ _ _ (vlin_sub _ _ _ _ _ _ (LQ (Datatypes.S (Datatypes.S k)) ltac:(lia)) (LQ (Datatypes.S k) ltac:(lia)))) as NL. rewrite PD, norm_along in NL by auto.
    eapply lin_eq; [apply lin_plus; [exact LB|apply lin_mult; [apply lin_const|apply NL; auto]]|ring|].
    replace (dot (vmul3 t UU) (vsub3 (dP (Datatypes.S (Datatypes.S k))) (dP (Datatypes.S k))) / t) with (dot UU (dP (Datatypes.S (Datatypes.S k))) - dot UU (dP (Datatypes.S k))); [lra|].
    replace (dot (vmul3 t UU) (vsub3 (dP (Datatypes.S (Datatypes.S k))) (dP (Datatypes.S k)))) with (t * (dot UU (dP (Datatypes.S (Datatypes.S k))) - dot UU (dP (Datatypes.S k)))) by (generalize (dP (Datatypes.S (Datatypes.S k))) (dP (Datatypes.S k)); intros a b; vec_ring). field. lra.
Qed.

(** with fixed ends nothing is left *)
Theorem C82_ray_is_stationary es y u n l c k ns P : physical l es -> 0 < n -> dot u u = 1 ->
  let ray := trace es y u n l c in
  (forall i, (i <= S k)%nat -> lab_point es i ray (P i)) -> (forall i s, nth_error ray i = Some s -> ns i = st_n s) -> forward (S k) ray ->
  stationary es ns P (S k).
Proof.
  intros G N U1 ray LP IX FW Q dQ LQ FX SL.
  assert (L0 : exists U0, lab_direction es 0 ray U0).
  { destruct (LP 0%nat ltac:(lia)) as (e & o & s & q & qq & E & O & S & Y & F & EP). destruct (LP 1%nat ltac:(lia)) as (e' & o' & s' & q' & qq' & E' & O' & S' & Y' & F' & EP').
    destruct (C16_straight_lines newton es y u n l c 0 e e' s s' o o' G N U1 E E' S S' O O' q' Y') as (p1 & v & P1 & P1' & UU & t & A & B & C & D & _). exists UU, e, s, v. auto. }
  destruct L0 as (U0 & L0).
  destruct (C82_fermat es y u n l c k ns Q P dQ U0 G N U1 LP IX FW LQ ltac:(intros; apply SL; lia) L0) as (p & U & _ & _ & (_ & D)).
  assert (Z : forall i, (i <= S k)%nat -> (forall h, Q h i = P i) -> dQ i = v0).
  { intros i I H. destruct (vlin_unique (fun h => Q h i) (P i) (dQ i) (P i) v0 (LQ i I)) as (_ & E); [|exact E]. apply (vlin_near (fun _ => P i)); [|apply vlin_const]. apply near_true. intros h. symmetry. apply H. }
  rewrite (Z 0%nat) in D by (lia || (intros; apply FX)). rewrite (Z (S k)) in D by (lia || (intros; apply FX)).
  replace 0 with (ns k * dot U v0 - n * dot U0 v0) at 2 by (unfold dot, v0; cbn; ring). exact D.
Qed.

(** element [i] finds the point [B] when looking from [A] towards [B] *)
Definition found (es : list element) (i : nat) (A B : vec) : Prop := exists e o a w, nth_error es i = Some e /\ nth_error (origins es) i = Some o /\
  to_normal (e_place e) (vsub3 A o) = Some a /\ to_normal (e_place e) (heading A B) = Some w /\
  match e_kind e with Plain => plane_intercept a w | Sph _ s => intercept newton s a w end = Some (norm (vsub3 B A)).

Lemma vary es ns P k j Y D : stationary es ns P (S k) -> (forall i, (i <= k)%nat -> 0 < norm (vsub3 (P (S i)) (P i))) -> (j < k)%nat ->
  (forall i, (1 <= i <= k)%nat -> slides es i (P i)) -> vlin Y (P (S j)) D -> near (fun h => slides es (S j) (Y h)) ->
  ns j * dot (heading (P j) (P (S j))) D = ns (S j) * dot (heading (P (S j)) (P (S (S j)))) D.
Proof.
  intros ST NZ J SL LY SY. set (Q := fun h i => if Nat.eq_dec i (S j) then Y h else P i).
  assert (LQ : forall i, (i <= S k)%nat -> vlin (fun h => Q h i) (P i) (only (S j) D i)).
  { intros i _. unfold Q, only. destruct (Nat.eq_dec i (S j)) as [->|E]; [exact LY|apply vlin_const]. }
  assert (D0 : derivable_pt_lim (fun h => broken_line ns (Q h) (S k)) 0 0).
  { apply (ST Q (only (S j) D) LQ).
    - intros h. unfold Q. split; [reflexivity|]. destruct (Nat.eq_dec (S k) (S j)); [lia|reflexivity].
    - intros i I. unfold Q. destruct (Nat.eq_dec i (S j)) as [->|E]; [exact SY|]. apply near_true. intros _. apply SL. lia. }
  destruct (broken_lin ns Q P (only (S j) D) (S k) LQ ltac:(intros; apply NZ; lia)) as (_ & D1).
  pose proof (uniqueness_limite _ _ _ _ D0 D1) as E. rewrite rate_only in E. destruct (le_dec (S j) (S k)), (le_dec (S (S j)) (S k)); try lia. lra.
Qed.
Lemma media_pos l n es ns : physical l es -> 0 < n -> media l n es ns -> forall i, (i < length es)%nat -> 0 < ns i.
Proof.
  intros G N (M0 & MS). induction i as [|i IH]; intros I; [rewrite M0; auto|]. destruct (nth_error es (S i)) as [e|] eqn:E; [|apply nth_error_None in E; lia].
  rewrite (MS i e E). pose proof (IH ltac:(lia)) as P. assert (GE : good_element l e) by (unfold physical in G; rewrite Forall_forall in G; apply G; eapply nth_error_In; eauto).
  destruct GE as (_ & GE). destruct (e_kind e) as [|[m|] sf]; auto. destruct (m_mirror m) eqn:MM; auto.
Qed.
(** the direction the code computes is the one that makes the length stationary *)
Lemma refracted n0 n1 w v N : 0 < n0 -> 0 < n1 -> N <> v0 -> dot w w = 1 -> dot v v = 1 -> 0 < dot N w -> 0 < dot N v ->
  cross (vsub3 (vmul3 n0 w) (vmul3 n1 v)) N = v0 -> if Req_EM_T (n0 / n1) 1 then v = w else refract_normal w N (n0 / n1) = Some v.
Proof.
  intros P0 P1 NZ W V NW NV C.
  assert (CR : vmul3 n1 (cross v N) = vmul3 n0 (cross w N)).
  { apply vec_eq; [apply (f_equal vx) in C|apply (f_equal vy) in C|apply (f_equal vz) in C]; cbn in C |- *; lra. }
  destruct (Req_EM_T (n0 / n1) 1) as [E|E].
  - assert (n0 = n1) by (apply (Rmult_eq_reg_r (/ n1)); [rewrite Rinv_r by lra; exact E|apply Rinv_neq_0_compat; lra]). subst n0.
    apply (same_side v w N NZ V W); [|rewrite (dot_comm v), (dot_comm w); nra].
    apply vec_eq; apply (Rmult_eq_reg_l n1); try lra; [exact (f_equal vx CR)|exact (f_equal vy CR)|exact (f_equal vz CR)].
  - destruct (C10_snell n0 n1 w N P0 P1 W NZ) as (TIR & SN). destruct (refract_normal w N (n0 / n1)) as [u|] eqn:RF.
    + destruct (SN u eq_refl) as (U & CU & _). f_equal. destruct (C12_other_side_reversible w N (n0 / n1) u ltac:(apply Rdiv_lt_0_compat; auto) W NZ RF) as (UN & _).
      apply (same_side u v N NZ U V); [|rewrite (dot_comm v); nra].
      apply vec_eq; apply (Rmult_eq_reg_l n1); try lra; [exact (f_equal vx (eq_trans CU (eq_sym CR)))|exact (f_equal vy (eq_trans CU (eq_sym CR)))|exact (f_equal vz (eq_trans CU (eq_sym CR)))].
    + exfalso. destruct TIR as (TIR & _). specialize (TIR eq_refl). unfold total_reflection in TIR.
      assert (NC : n0 * norm (cross w N) = n1 * norm (cross v N)).
      { assert (K : forall a q, 0 < a -> norm (vmul3 a q) = a * norm q).
        { intros a q A. unfold norm. replace (dot (vmul3 a q) (vmul3 a q)) with (a * a * dot q q) by vec_ring. rewrite sqrt_mult_alt by nra. rewrite sqrt_square by lra. reflexivity. }
        rewrite <- !K by auto. rewrite CR. reflexivity. }
      rewrite NC in TIR. assert (L : norm (cross v N) <= norm N).
      { unfold norm. apply sqrt_le_1_alt. rewrite (cross_sqr v N V). pose proof (Rle_0_sqr (dot v N)) as Z. unfold Rsqr in Z. lra. }
      nra.
Qed.
Lemma reflected w v N : N <> v0 -> dot w w = 1 -> dot v v = 1 -> dot N w * dot N v < 0 -> cross (vsub3 w v) N = v0 -> refract_normal w N (-1) = Some v.
Proof.
  intros NZ W V S C. destruct (C11_reflection w N W NZ) as (u & RF & (U & DU & CU & _) & _). rewrite RF. f_equal.
  assert (CR : cross v N = cross w N).
  { apply vec_eq; [apply (f_equal vx) in C|apply (f_equal vy) in C|apply (f_equal vz) in C]; cbn in C |- *; lra. }
  apply (same_side u v N NZ U V); [congruence|]. rewrite DU, (dot_comm w), (dot_comm v). lra.
Qed.

Lemma origins_next es i e e' o o' : nth_error es i = Some e -> nth_error es (S i) = Some e' -> nth_error (origins es) i = Some o -> nth_error (origins es) (S i) = Some o' ->
  o' = vadd3 o (p_offset (e_place e')).
Proof.
  unfold origins. generalize v0. revert i. induction es as [|e0 es IH]; intros i a E E' O O'; [destruct i; discriminate|]. destruct i as [|i]; cbn [map cumsum3 nth_error] in *.
  - destruct es as [|e1 es]; [discriminate|]. cbn [nth_error map cumsum3] in *. congruence.
  - exact (IH i _ E E' O O').
Qed.
Lemma propagate_kind e m sf a w n0 l p U n1 t : e_kind e = Sph m sf -> propagate newton e (Some a) (Some w) n0 l false = (Some p, U, n1, t) ->
  n1 = fst (get_n_mu m n0 l) /\ U = match snd (get_n_mu m n0 l) with None => None | Some mu => if Req_EM_T mu 0 then Some w else refract sf (Some p) (Some w) mu end.
Proof.
  intros K H. unfold propagate in H. rewrite K in H. cbn [obind] in H. destruct (get_n_mu m n0 l) as (nn & mu). cbn [fst snd].
  match type of H with (?y, _, _, _) = _ => assert (Y : y = Some p) by congruence end. rewrite Y in H. split; congruence.
Qed.

(** ** a stationary broken line is the traced ray *)
Theorem C82_stationary_is_ray es y u n l k ns P : physical l es -> 0 < n -> dot u u = 1 -> (S k < length es)%nat -> media l n es ns ->
  (forall i, (i <= k)%nat -> 0 < norm (vsub3 (P (S i)) (P i))) -> (forall i, (1 <= i <= k)%nat -> slides es i (P i)) ->
  (forall i, (i <= k)%nat -> found es (S i) (P i) (P (S i))) ->
  (forall i, (i < k)%nat -> passes es (S i) (P (S i)) (heading (P i) (P (S i))) (heading (P (S i)) (P (S (S i))))) ->
  stationary es ns P (S k) ->
  let ray := trace es y u n l false in lab_point es 0 ray (P 0%nat) -> lab_direction es 0 ray (heading (P 0%nat) (P 1%nat)) ->
  forall i, (i <= k)%nat -> lab_direction es i ray (heading (P i) (P (S i))) /\ lab_point es (S i) ray (P (S i)).
Proof.
  intros G N U1 LE MD NZ SL FD PS ST ray L0 D0.
  assert (GE : forall i e, nth_error es i = Some e -> good_element l e) by (intros i e E; unfold physical in G; rewrite Forall_forall in G; apply G; eapply nth_error_In; eauto).
  (* one element further *)
  assert (AD : forall i, (i <= k)%nat -> lab_point es i ray (P i) -> lab_direction es i ray (heading (P i) (P (S i))) -> (forall s, nth_error ray i = Some s -> st_n s = ns i) ->
     exists e' o' s' a w r, nth_error es (S i) = Some e' /\ nth_error (origins es) (S i) = Some o' /\ nth_error ray (S i) = Some s' /\ rotation r /\
       (forall v, from_normal (e_place e') v = Some (vm v r)) /\ (forall v, to_normal (e_place e') v = Some (vm v (mT r))) /\
       w = vm (heading (P i) (P (S i))) (mT r) /\ st_y s' = Some (vm (vsub3 (P (S i)) o') (mT r)) /\
       propagate newton e' (Some a) (Some w) (ns i) l false = (st_y s', st_u s', st_n s', st_t s')).
  { intros i I (e & o & s & p & pp & E & O & S & Y & F & EP) (e2 & s2 & v & E2 & S2 & V & FV) NI. rewrite E in E2. injection E2 as <-. rewrite S in S2. injection S2 as <-.
    destruct (FD i I) as (e' & o' & a & w & E' & O' & TA & TW & HIT).
    destruct (normal_maps _ (proj1 (GE _ _ E'))) as (r & RR & F' & T').
    destruct (trace_next newton es y u n l false i e e' s E E' S) as (s' & S' & PR & II).
    assert (IW : st_i s' = Some w) by (rewrite II, V; unfold onormal; cbn [obind]; rewrite FV; exact TW).
    assert (OO : o' = vadd3 o (p_offset (e_place e'))).
    { exact (origins_next es i e e' o o' E E' O O'). }
    rewrite Y in PR. unfold onormal in PR at 1. cbn [obind] in PR. rewrite F in PR. cbn [obind] in PR.
    replace (vsub3 pp (p_offset (e_place e'))) with (vsub3 (P i) o') in PR by (rewrite EP, OO; vec_ring). rewrite TA, IW, (NI s S) in PR.
    exists e', o', s', a, w, r. repeat (split; [assumption|]). split; [rewrite T' in TW; congruence|]. split; [|exact PR].
    unfold propagate in PR. cbn [obind] in PR. rewrite HIT in PR. cbn [obind] in PR.
    assert (YY : st_y s' = Some (at_ray a w (norm (vsub3 (P (Datatypes.S i)) (P i))))) by (destruct (e_kind e') as [|m sf]; [|destruct (get_n_mu m (ns i) l)]; congruence).
    rewrite YY. f_equal. rewrite T' in TA, TW. injection TA as <-. injection TW as <-. destruct (heading_unit (P i) (P (Datatypes.S i)) (NZ i I)) as (_ & HD).
    replace (P (Datatypes.S i)) with (vadd3 (P i) (vmul3 (norm (vsub3 (P (Datatypes.S i)) (P i))) (heading (P i) (P (Datatypes.S i))))) at 3 by (rewrite <- HD; vec_ring).
    unfold at_ray. rewrite <- vm_scale, <- vm_add. f_equal. generalize (vmul3 (norm (vsub3 (P (Datatypes.S i)) (P i))) (heading (P i) (P (Datatypes.S i)))). intros z. vec_ring. }
  assert (MAIN : forall i, (i <= k)%nat -> lab_point es i ray (P i) /\ lab_direction es i ray (heading (P i) (P (S i))) /\ forall s, nth_error ray i = Some s -> st_n s = ns i).
  { induction i as [|i IH]; intros I.
    - split; [exact L0|]. split; [exact D0|]. destruct MD as (-> & _). intros s S. unfold ray in S. destruct es as [|e0 es]; [discriminate|]. injection S as <-. reflexivity.
    - destruct (IH ltac:(lia)) as (LI & DI & NI). destruct (AD i ltac:(lia) LI DI NI) as (e' & o' & s' & a & w & r & E' & O' & S' & RR & F' & T' & WE & YY & PR).
      assert (LP : lab_point es (S i) ray (P (S i))).
      { exists e', o', s', (vm (vsub3 (P (S i)) o') (mT r)), (vsub3 (P (S i)) o'). repeat (split; [assumption|]). split; [rewrite F'; f_equal; rewrite <- (vm_back (vsub3 (P (S i)) o') (mT r) (rotation_mT _ RR)) at 2; reflexivity|vec_ring]. }
      split; [exact LP|].
      destruct (heading_unit (P i) (P (S i)) (NZ i ltac:(lia))) as (HU & _). destruct (heading_unit (P (S i)) (P (S (S i))) (NZ (S i) ltac:(lia))) as (HU' & _).
      set (W := heading (P i) (P (S i))) in *. set (W' := heading (P (S i)) (P (S (S i)))) in *.
      assert (N0 : 0 < ns i) by (apply (media_pos l n es ns G N MD); lia). assert (N1 : 0 < ns (S i)) by (apply (media_pos l n es ns G N MD); lia).
      assert (WU : dot w w = 1) by (rewrite WE, rotation_dot by (apply rotation_mT; auto); exact HU).
      set (v := vm W' (mT r)). assert (VU : dot v v = 1) by (unfold v; rewrite rotation_dot by (apply rotation_mT; auto); exact HU').
      assert (LV : forall d D, D = vm d r -> dot w d = dot W D /\ dot v d = dot W' D).
      { intros d D ->. unfold v. rewrite WE. assert (K : forall x, dot (vm x (mT r)) d = dot x (vm d r)) by (intros x; vec_ring). rewrite !K. auto. }
      destruct MD as (_ & MS). pose proof (MS i e' E') as NS. 
      assert (FREE : (forall m s, e_kind e' <> Sph (Some m) s) -> ns (S i) = ns i -> W' = W).
      { intros NK NE. assert (A : forall D, ns i * dot W D = ns (S i) * dot W' D).
            { intros D. apply (vary es ns P k i (fun h => vadd3 (P (S i)) (vmul3 h D)) D ST NZ ltac:(lia) SL).
              - assert (E1 : vadd3 (P (S i)) (vmul3 0 D) = P (S i)) by vec_ring. assert (E2 : vadd3 v0 (vadd3 (vmul3 1 D) (vmul3 0 v0)) = D) by vec_ring.
                pose proof (vlin_add _ _ _ _ _ _ (vlin_const (P (S i))) (vlin_scale _ _ _ _ _ _ lin_id (vlin_const D))) as L. rewrite E1, E2 in L. exact L.
              - apply near_true. intros h e m s E K2. rewrite E' in E. injection E as <-. exfalso. exact (NK _ _ K2). }
            rewrite NE in A. apply vec_eq; [specialize (A (V 1 0 0))|specialize (A (V 0 1 0))|specialize (A (V 0 0 1))]; unfold dot in A; cbn [vx vy vz] in A; nra. }
      assert (GOAL : st_u s' = Some v /\ st_n s' = ns (S i)).
      { rewrite YY in PR. destruct (e_kind e') as [|[m|] sf] eqn:K.
        - (* no surface *)
          specialize (FREE ltac:(intros; discriminate) NS).
          unfold propagate in PR. rewrite K in PR. cbn [obind] in PR.
          split; [unfold v; rewrite FREE, <- WE; congruence|rewrite NS; congruence].
        - (* a surface *)
          destruct (PS i ltac:(lia) e' m sf E' K) as (o2 & q & Nq & M & O2 & TQ & SN & FM & SIDE). rewrite O' in O2. injection O2 as <-. rewrite T' in TQ. injection TQ as <-. rewrite F' in FM. injection FM as <-.
          assert (SG : surface_sag sf (vm (vsub3 (P (S i)) o') (mT r)) = Some 0).
          { destruct (SL (S i) ltac:(lia) e' m sf E' K) as (o3 & q3 & O3 & TQ3 & SG3). rewrite O' in O3. injection O3 as <-. rewrite T' in TQ3. injection TQ3 as <-. exact SG3. }
          assert (NNZ : Nq <> v0) by (eapply surface_normal_nz; eauto).
          assert (SD : dot Nq w = dot (vm Nq r) W /\ dot Nq v = dot (vm Nq r) W') by (destruct (LV Nq _ eq_refl) as (A & B); rewrite !(dot_comm Nq), !(dot_comm (vm Nq r)); auto).
          destruct SD as (SD1 & SD2).
          assert (OR : cross (vsub3 (vmul3 (ns i) w) (vmul3 (ns (S i)) v)) Nq = v0).
          { apply orthogonal_all. intros d TD. destruct (surface_curve sf _ Nq d SN SG TD) as (Y & LY & NY).
            destruct (LV d _ eq_refl) as (A & B).
            assert (EQ : ns i * dot W (vm d r) = ns (S i) * dot W' (vm d r)).
            { apply (vary es ns P k i (fun h => vadd3 o' (vm (Y h) r)) (vm d r) ST NZ ltac:(lia) SL).
              - assert (E2 : vadd3 v0 (vm d r) = vm d r) by (generalize (vm d r); intros; vec_ring).
                assert (E1 : vadd3 o' (vm (vm (vsub3 (P (S i)) o') (mT r)) r) = P (S i)).
                { replace (vm (vm (vsub3 (P (S i)) o') (mT r)) r) with (vsub3 (P (S i)) o') by (symmetry; exact (vm_back (vsub3 (P (S i)) o') (mT r) (rotation_mT _ RR))). vec_ring. }
                pose proof (vlin_add _ _ _ _ _ _ (vlin_const o') (vlin_vm _ _ _ r LY)) as L. rewrite E1, E2 in L. exact L.
              - eapply near_impl; [|exact NY]. intros h H e m2 s2 E K2. cbn beta in H. rewrite E' in E. injection E as <-. rewrite K in K2. injection K2 as <- <-.
                exists o', (Y h). split; [exact O'|]. split; [|exact H]. rewrite T'. f_equal. replace (vsub3 (vadd3 o' (vm (Y h) r)) o') with (vm (Y h) r) by (generalize (vm (Y h) r); intros; vec_ring). apply vm_back. auto. }
            rewrite <- A, <- B in EQ. transitivity (ns i * dot w d - ns (S i) * dot v d); [generalize (ns i) (ns (S i)); intros x z; clear; vec_ring|lra]. }
          destruct (propagate_kind _ _ _ _ _ _ _ _ _ _ _ K PR) as (PN & PU). unfold get_n_mu in PN, PU. destruct (m_mirror m) eqn:MM; cbn [fst snd] in PN, PU.
          + assert (RF : refract_normal w Nq (-1) = Some v).
            { apply reflected; auto; [rewrite SD1, SD2; exact SIDE|]. rewrite NS in OR.
              apply vec_eq; apply (Rmult_eq_reg_l (ns i)); try lra; [apply (f_equal vx) in OR|apply (f_equal vy) in OR|apply (f_equal vz) in OR]; cbn in OR |- *; lra. }
            split; [|congruence]. rewrite PU. destruct (Req_EM_T (-1) 0); [lra|]. unfold refract. destruct (Req_EM_T (-1) 1); [lra|]. cbn [obind]. rewrite SN. cbn [obind]. exact RF.
          + split; [|congruence]. rewrite NS in *. rewrite fdiv_some in PU by lra. rewrite PU. destruct SIDE as (SA & SB).
            pose proof (refracted (ns i) (m_index m l) w v Nq N0 N1 NNZ WU VU ltac:(rewrite SD1; exact SA) ltac:(rewrite SD2; exact SB) OR) as RF. unfold refract.
            destruct (Req_EM_T (ns i / m_index m l) 0) as [Z|_]; [exfalso; assert (0 < ns i / m_index m l) by (apply Rdiv_lt_0_compat; auto); lra|].
            destruct (Req_EM_T (ns i / m_index m l) 1); [rewrite RF; reflexivity|]. cbn [obind]. rewrite SN. cbn [obind]. exact RF.
        - specialize (FREE ltac:(intros; discriminate) NS). destruct (propagate_kind _ _ _ _ _ _ _ _ _ _ _ K PR) as (PN & PU). cbn [get_n_mu fst snd] in PN, PU.
          split; [|congruence]. rewrite PU. unfold v. rewrite FREE, <- WE. destruct (Req_EM_T 1 0); [lra|]. unfold refract. destruct (Req_EM_T 1 1); [reflexivity|lra]. }
      destruct GOAL as (GU & GN). split.
      + exists e', s', v. repeat (split; [assumption|]). rewrite F'. f_equal. unfold v. exact (vm_back W' (mT r) (rotation_mT _ RR)).
      + intros s S. rewrite S' in S. injection S as <-. exact GN. }
  intros i I. destruct (MAIN i I) as (LI & DI & NI). split; [exact DI|].
  destruct (AD i I LI DI NI) as (e' & o' & s' & a & w & r & E' & O' & S' & RR & F' & T' & WE & YY & PR).
  exists e', o', s', (vm (vsub3 (P (S i)) o') (mT r)), (vsub3 (P (S i)) o'). repeat (split; [assumption|]). split; [rewrite F'; f_equal; exact (vm_back (vsub3 (P (S i)) o') (mT r) (rotation_mT _ RR))|vec_ring].
Qed.
End Fermat.

(** ** the ray 4 from the centre of a ball *)
Definition ball_corners (i : nat) : vec := match i with O => V 0 4 0 | S O => V 0 4 7 | _ => V 0 (44/25) (367/25) end.
Definition ball_media (i : nat) : R := match i with S O => 4/3 | _ => 1 end.
Lemma ball_corner i : (i <= 2)%nat -> lab_point ball i ball_trace (ball_corners i).
Proof.
  intros I. destruct i as [|[|[|i]]]; [| | |lia]; do 5 eexists; repeat split; try reflexivity; apply vec_eq; cbn; field.
Qed.
Lemma ball_indices i s : nth_error ball_trace i = Some s -> ball_media i = st_n s.
Proof. intros H. destruct i as [|[|[|i]]]; [injection H as <-; reflexivity..|destruct i; discriminate]. Qed.
Lemma ball_forward : forward 2 ball_trace.
Proof. intros i s t I S T. destruct i as [|[|[|i]]]; [lia| | |lia]; injection S as <-; injection T as <-; lra. Qed.
Lemma ball_slides : slides ball 1 (V 0 4 7).
Proof.
  intros e m s E K. injection E as <-. cbn in K. injection K as <- <-. exists (V 0 0 5), (V 0 4 2). split; [cbn; f_equal; apply vec_eq; cbn; ring|]. split; [cbn; f_equal; apply vec_eq; cbn; ring|].
  rewrite surface_sag_spec by (unfold r2_of; cbn; lra). f_equal. unfold sag_spec, r2_of. cbn [s_c s_k s_asph vx vy vz].
  replace (1 - (1 + 0) * (/ 5) ^ 2 * (0 * 0 + 4 * 4)) with (3/5 * (3/5)) by field. rewrite sqrt_square by lra. field.
Qed.
Lemma ball_normal : surface_normal (Surf (/ 5) 0 None false) (V 0 4 2) = Some (V 0 (-4/3) 1).
Proof.
  unfold surface_normal. cbn [s_c s_k s_asph]. destruct (Req_EM_T (/ 5) 0); [lra|]. rewrite (half_root _ (3/5)) by (unfold r2_of; cbn [vx vy]; lra). cbn [obind]. rewrite fdiv_some by lra. cbn [obind].
  f_equal. apply vec_eq; cbn; field.
Qed.
(** the corner on the ball may move sideways *)
Example C82_fermat_example newton : let ray := geo_trace newton ball (V 0 4 0) ez 1 1 false in
  physical 1 ball /\ (forall i, (i <= 2)%nat -> lab_point ball i ray (ball_corners i)) /\ (forall i s, nth_error ray i = Some s -> ball_media i = st_n s) /\ forward 2 ray /\
  lab_direction ball 0 ray ez /\
  exists Q, (forall i, (i <= 2)%nat -> vlin (fun h => Q h i) (ball_corners i) (only 1 (V 1 0 0) i)) /\ near (fun h => slides ball 1 (Q h 1%nat)).
Proof.
  cbv zeta. rewrite ball_traced. split; [exact ball_good|]. split; [exact ball_corner|]. split; [exact ball_indices|]. split; [exact ball_forward|]. split; [apply ball_ends|].
  destruct (ball_slides (sphere_el 5 (/ 5) (4/3)) _ _ eq_refl eq_refl) as (o & q & O & T & SG).
  assert (Oo : o = V 0 0 5) by (cbn in O; injection O as <-; apply vec_eq; cbn; ring). subst o. assert (Qq : q = V 0 4 2) by (cbn in T; injection T as <-; apply vec_eq; cbn; ring). subst q.
  destruct (surface_curve _ _ _ (V 1 0 0) ball_normal SG ltac:(unfold dot; cbn; ring)) as (Y & LY & NY).
  exists (fun h i => if Nat.eq_dec i 1 then vadd3 (V 0 0 5) (Y h) else ball_corners i). split.
  - intros i _. unfold only. destruct (Nat.eq_dec i 1) as [->|]; [|apply vlin_const].
    pose proof (vlin_add _ _ _ _ _ _ (vlin_const (V 0 0 5)) LY) as L. replace (vadd3 (V 0 0 5) (V 0 4 2)) with (ball_corners 1) in L by (apply vec_eq; cbn; ring). replace (vadd3 v0 (V 1 0 0)) with (V 1 0 0) in L by vec_ring. exact L.
  - eapply near_impl; [|exact NY]. intros h H e m s E K. injection E as <-. cbn in K. injection K as <- <-. exists (V 0 0 5), (Y h). split; [exact O|]. split; [|exact H].
    cbn. f_equal. vec_ring.
Qed.
Lemma ball_headings : heading (V 0 4 0) (V 0 4 7) = ez /\ norm (vsub3 (V 0 4 7) (V 0 4 0)) = 7 /\
  heading (V 0 4 7) (V 0 (44/25) (367/25)) = V 0 (-7/25) (24/25) /\ norm (vsub3 (V 0 (44/25) (367/25)) (V 0 4 7)) = 8.
Proof.
  assert (N1 : norm (vsub3 (V 0 4 7) (V 0 4 0)) = 7) by (unfold norm; replace (dot _ _) with (7 * 7) by (unfold dot; cbn; ring); apply sqrt_square; lra).
  assert (N2 : norm (vsub3 (V 0 (44/25) (367/25)) (V 0 4 7)) = 8) by (unfold norm; replace (dot _ _) with (8 * 8) by (unfold dot; cbn; field); apply sqrt_square; lra).
  unfold heading. rewrite N1, N2. repeat split; apply vec_eq; cbn; field.
Qed.
Example C82_stationary_is_ray_example newton : let ray := geo_trace newton ball (V 0 4 0) ez 1 1 false in let P := ball_corners in
  physical 1 ball /\ media 1 1 ball ball_media /\ (forall i, (i <= 1)%nat -> 0 < norm (vsub3 (P (S i)) (P i))) /\ (forall i, (1 <= i <= 1)%nat -> slides ball i (P i)) /\
  (forall i, (i <= 1)%nat -> found newton ball (S i) (P i) (P (S i))) /\
  (forall i, (i < 1)%nat -> passes ball (S i) (P (S i)) (heading (P i) (P (S i))) (heading (P (S i)) (P (S (S i))))) /\
  stationary ball ball_media P 2 /\ lab_point ball 0 ray (P 0%nat) /\ lab_direction ball 0 ray (heading (P 0%nat) (P 1%nat)).
Proof.
  cbv zeta. destruct ball_headings as (H1 & N1 & H2 & N2).
  assert (ST : stationary ball ball_media ball_corners 2).
  { apply (C82_ray_is_stationary newton ball (V 0 4 0) ez 1 1 false 1 ball_media ball_corners ball_good ltac:(lra) ltac:(unfold dot, ez; cbn; ring));
      rewrite ball_traced; [exact ball_corner|exact ball_indices|exact ball_forward]. }
  rewrite ball_traced. split; [exact ball_good|]. split.
  { split; [reflexivity|]. intros i e E. destruct i as [|[|i]]; [injection E as <-; reflexivity..|destruct i; discriminate]. }
  split. { intros i I. destruct i as [|[|i]]; [| |lia]; cbn [ball_corners]; lra. }
  split. { intros i I. replace i with 1%nat by lia. exact ball_slides. }
  split.
  { intros i I. destruct i as [|[|i]]; [| |lia].
    - exists (sphere_el 5 (/ 5) (4/3)), (V 0 0 5), (V 0 4 (-5)), ez. split; [reflexivity|]. split; [cbn; f_equal; apply vec_eq; cbn; ring|]. cbn [ball_corners]. rewrite H1, N1.
      split; [cbn; f_equal; apply vec_eq; cbn; ring|]. split; [reflexivity|]. cbn [sphere_el e_kind intercept s_asph]. unfold conic_intercept. cbn [s_c s_k s_alt].
      destruct (Req_EM_T (/ 5) 0); [lra|]. destruct (Req_EM_T 0 0); [|lra]. unfold dot, ez. cbn [vx vy vz]. rewrite (half_root _ (3/5)) by lra. cbn [obind]. rewrite fdiv_some by lra. f_equal. field.
    - exists (sphere_el 10 (- / 5) 1), (V 0 0 15), (V 0 4 (-8)), (V 0 (-7/25) (24/25)). split; [reflexivity|]. split; [cbn; f_equal; apply vec_eq; cbn; ring|]. cbn [ball_corners]. rewrite H2, N2.
      split; [cbn; f_equal; apply vec_eq; cbn; ring|]. split; [reflexivity|]. cbn [sphere_el e_kind intercept s_asph]. unfold conic_intercept. cbn [s_c s_k s_alt].
      destruct (Req_EM_T (- / 5) 0); [lra|]. destruct (Req_EM_T 0 0); [|lra]. unfold dot. cbn [vx vy vz]. rewrite (half_root _ (4/5)) by lra. cbn [obind]. rewrite fdiv_some by lra. f_equal. field. }
  split.
  { intros i I. replace i with 0%nat by lia. cbn [ball_corners]. rewrite H1, H2. intros e m s E K. injection E as <-. cbn in K. injection K as <- <-.
    exists (V 0 0 5), (V 0 4 2), (V 0 (-4/3) 1), (V 0 (-4/3) 1). split; [cbn; f_equal; apply vec_eq; cbn; ring|]. split; [cbn; f_equal; apply vec_eq; cbn; ring|]. split; [exact ball_normal|]. split; [reflexivity|].
    cbn [m_mirror]. unfold dot, ez. cbn [vx vy vz]. lra. }
  split; [exact ST|]. cbn [ball_corners]. rewrite H1. split; apply ball_ends.
Qed.
Example C82_ray_is_stationary_example newton : let ray := geo_trace newton ball (V 0 4 0) ez 1 1 false in
  physical 1 ball /\ (forall i, (i <= 2)%nat -> lab_point ball i ray (ball_corners i)) /\ (forall i s, nth_error ray i = Some s -> ball_media i = st_n s) /\ forward 2 ray.
Proof. cbv zeta. rewrite ball_traced. split; [exact ball_good|]. split; [exact ball_corner|]. split; [exact ball_indices|exact ball_forward]. Qed.
Print Assumptions C82_fermat.
Print Assumptions C82_ray_is_stationary.
Print Assumptions C82_stationary_is_ray.
