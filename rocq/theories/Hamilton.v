(** How the optical path of a family of exact rays changes with its parameter. *)
From Coq Require Import Reals ZArith List Lra Lia Psatz.
From Verif Require Import Base Vec RotModel RotProofs PlacementModel PlacementProofs ElementModel ElementProofs TraceProofs
  PropsElement PropsTrace OpdModel PropsOpd FirstOrder.
Import ListNotations.
Open Scope R_scope.

(** ** vectors *)
Lemma vlin_add A B a b a' b' : vlin A a a' -> vlin B b b' -> vlin (fun e => vadd3 (A e) (B e)) (vadd3 a b) (vadd3 a' b').
Proof. intros (X & Y & Z) (X' & Y' & Z'). unfold vadd3. split; [|split]; cbn [vx vy vz]; apply lin_plus; auto. Qed.
Lemma vlin_sub A B a b a' b' : vlin A a a' -> vlin B b b' -> vlin (fun e => vsub3 (A e) (B e)) (vsub3 a b) (vsub3 a' b').
Proof. intros (X & Y & Z) (X' & Y' & Z'). unfold vsub3. split; [|split]; cbn [vx vy vz]; apply lin_minus; auto. Qed.
Lemma vlin_const v : vlin (fun _ => v) v v0.
Proof. split; [|split]; apply lin_const. Qed.
Lemma vlin_scale T A t t' a a' : lin T t t' -> vlin A a a' -> vlin (fun e => vmul3 (T e) (A e)) (vmul3 t a) (vadd3 (vmul3 t' a) (vmul3 t a')).
Proof. intros L (X & Y & Z). unfold vmul3, vadd3. split; [|split]; cbn [vx vy vz]; apply lin_mult; auto. Qed.
Lemma vlin_dot A B a b a' b' : vlin A a a' -> vlin B b b' -> lin (fun e => dot (A e) (B e)) (dot a b) (dot a' b + dot a b').
Proof.
  intros (X & Y & Z) (X' & Y' & Z'). unfold dot. eapply lin_eq; [solve [lin_auto]|reflexivity|ring].
Qed.
Lemma vlin_vm A a a' m : vlin A a a' -> vlin (fun e => vm (A e) m) (vm a m) (vm a' m).
Proof.
  intros H. unfold vm. assert (D : forall b, lin (fun e => dot (A e) b) (dot a b) (dot a' b)).
  { intros b. eapply lin_eq; [apply (vlin_dot A (fun _ => b) a b a' v0 H), vlin_const|reflexivity|unfold dot, v0; cbn; ring]. }
  split; [|split]; cbn [vx vy vz]; apply D.
Qed.
Lemma vlin_at0 A a a' : vlin A a a' -> A 0 = a.
Proof. intros ((X & _) & (Y & _) & (Z & _)). apply vec_eq; auto. Qed.
Lemma lin_near f g a b : near (fun e => f e = g e) -> lin f a b -> lin g a b.
Proof.
  intros N (A & D). split; [rewrite <- (near_0 _ N); auto|]. destruct N as (d & DP & N). intros eps EP. destruct (D eps EP) as (del & H).
  assert (M : 0 < Rmin d del) by (apply Rmin_pos; auto; apply cond_pos). exists (mkposreal _ M). intros h HN HL. cbn in HL.
  rewrite <- (N (0 + h)), <- (N 0).
  - apply H; auto. eapply Rlt_le_trans; [exact HL|apply Rmin_r].
  - rewrite Rabs_R0. auto.
  - rewrite Rplus_0_l. eapply Rlt_le_trans; [exact HL|apply Rmin_l].
Qed.
Lemma vlin_near A B a b : near (fun e => A e = B e) -> vlin A a b -> vlin B a b.
Proof.
  intros N (X & Y & Z). split; [|split]; [apply (lin_near _ _ _ _ (near_impl _ _ (fun e E => f_equal vx E) N) X)|
    apply (lin_near _ _ _ _ (near_impl _ _ (fun e E => f_equal vy E) N) Y)|apply (lin_near _ _ _ _ (near_impl _ _ (fun e E => f_equal vz E) N) Z)].
Qed.
Lemma lin_unique f a b a' b' : lin f a b -> lin f a' b' -> a = a' /\ b = b'.
Proof. intros (A & D) (A' & D'). split; [congruence|eapply uniqueness_limite; eauto]. Qed.
Lemma vlin_unique A a b a' b' : vlin A a b -> vlin A a' b' -> a = a' /\ b = b'.
Proof.
  intros (X & Y & Z) (X' & Y' & Z'). destruct (lin_unique _ _ _ _ _ X X'), (lin_unique _ _ _ _ _ Y Y'), (lin_unique _ _ _ _ _ Z Z').
  split; apply vec_eq; auto.
Qed.
Lemma ovlin_unique F a b a' b' : ovlin F a b -> ovlin F a' b' -> a = a' /\ b = b'.
Proof.
  intros (f & L & N) (g & L' & N'). apply (vlin_unique f); [auto|]. eapply vlin_near; [|exact L']. eapply near_impl; [|exact (near_and _ _ N N')].
  intros e (E & E'). cbn in *. congruence.
Qed.
(** a family of unit vectors turns at right angles *)
Lemma unit_turn A a a' : vlin A a a' -> near (fun e => dot (A e) (A e) = 1) -> dot a a' = 0.
Proof.
  intros L N. pose proof (vlin_dot _ _ _ _ _ _ L L) as D.
  destruct (lin_unique _ _ _ _ _ (lin_near _ (fun _ => 1) _ _ N D) (lin_const 1)) as (_ & E). rewrite (dot_comm a' a) in E. lra.
Qed.
Lemma dot_vm a b m : rotation m -> dot (vm a m) (vm b m) = dot a b.
Proof. apply rotation_dot. Qed.

(** ** surfaces *)
Lemma normal_domain s p N : surface_normal s p = Some N -> 0 < 1 - (1 + s_k s) * s_c s ^ 2 * r2_of p.
Proof.
  unfold surface_normal. destruct (Req_EM_T (s_c s) 0) as [->|C]; [intros _; lra|]. cbv zeta.
  destruct (Rlt_dec (1 - (1 + s_k s) * s_c s ^ 2 * r2_of p) 0) as [L|L]; [rewrite fsqrt_none by auto; discriminate|].
  rewrite fsqrt_some by lra. cbn [obind]. destruct (Req_dec (1 - (1 + s_k s) * s_c s ^ 2 * r2_of p) 0) as [E|E]; [|intros; lra].
  rewrite E, sqrt_0, fdiv_zero. discriminate.
Qed.
(** the sag along a curve changes with the normal times the velocity *)
Lemma sag_lin s Y y dy N : vlin Y y dy -> surface_normal s y = Some N -> lin (fun e => sag_spec s (Y e)) (sag_spec s y) (dot N dy).
Proof.
  intros L SN. pose proof (normal_domain _ _ _ SN) as H. rewrite (surface_normal_spec s y H) in SN. cbv zeta in SN. match type of SN with Some ?n = Some _ => assert (EN : N = n) by congruence end. subst N. clear SN.
  pose proof (vlin_at0 _ _ _ L) as Y0. destruct L as (X & Y1 & Z).
  assert (RR : lin (fun e => r2_of (Y e)) (r2_of y) (2 * (vx y * vx dy + vy y * vy dy))).
  { unfold r2_of. eapply lin_eq; [solve [lin_auto]|reflexivity|ring]. }
  split; [rewrite Y0; reflexivity|]. destruct RR as (R0 & DR). destruct Z as (Z0 & DZ).
  set (dr := 2 * (vx y * vx dy + vy y * vy dy)) in *. set (rr := fun e => r2_of (Y e)) in *. change (rr 0 = r2_of y) in R0.
  assert (DC : derivable_pt_lim (fun t => s_c s * rr t / (1 + sqrt (1 - (1 + s_k s) * s_c s ^ 2 * rr t))) 0
     (s_c s / sqrt (1 - (1 + s_k s) * s_c s ^ 2 * rr 0) / 2 * dr)).
  { apply (derivable_pt_lim_comp rr (fun x => s_c s * x / (1 + sqrt (1 - (1 + s_k s) * s_c s ^ 2 * x)))); auto.
    apply deriv_conic. rewrite R0. auto. }
  assert (DA : derivable_pt_lim (fun t => match s_asph s with None => 0 | Some l => even_poly 0 l (rr t) end) 0
     (match s_asph s with None => 0 | Some l => even_slope 0 l (rr 0) / 2 * dr end)).
  { destruct (s_asph s) as [l|].
    - apply (derivable_pt_lim_comp rr (even_poly 0 l)); auto. apply deriv_even.
    - apply derivable_pt_lim_const. }
  pose proof (derivable_pt_lim_minus _ _ _ _ _ (derivable_pt_lim_minus _ _ _ _ _ DZ DC) DA) as D.
  cbv beta in D. rewrite R0 in D. unfold minus_fct in D.
  match type of D with derivable_pt_lim _ _ ?l => match goal with |- derivable_pt_lim _ _ ?m => replace m with l end end.
  - exact D.
  - unfold dot, dr. cbn [vx vy vz]. pose proof (sqrt_lt_R0 _ H). destruct (s_asph s); unfold Rdiv; field; lra.
Qed.
(** a curve on the surface is perpendicular to the normal *)
Lemma tangent s Y y dy N : vlin Y y dy -> surface_normal s y = Some N -> near (fun e => surface_sag s (Y e) = Some 0) -> dot N dy = 0.
Proof.
  intros L SN H. pose proof (sag_lin s Y y dy N L SN) as D. pose proof (normal_domain _ _ _ SN) as W. pose proof (vlin_at0 _ _ _ L) as Y0.
  assert (NW : near (fun e => 0 < 1 - (1 + s_k s) * s_c s ^ 2 * r2_of (Y e))).
  { destruct L as (X & Y1 & _). eapply (lin_pos _ (1 - (1 + s_k s) * s_c s ^ 2 * r2_of y)); [|exact W]. unfold r2_of. eapply lin_eq; [solve [lin_auto]|reflexivity|reflexivity]. }
  assert (Z : near (fun e => sag_spec s (Y e) = 0)).
  { eapply near_impl; [|exact (near_and _ _ H NW)]. intros e (A & B). cbn in A. rewrite surface_sag_spec in A by lra. injection A as A. exact A. }
  destruct (lin_unique _ _ _ _ _ (lin_near _ (fun _ => 0) _ _ Z D) (lin_const 0)) as (_ & E). exact E.
Qed.
(** vectors whose difference is along the normal have the same tangential part *)
Lemma along_normal q w N d : N <> v0 -> cross q N = cross w N -> dot N d = 0 -> dot q d = dot w d.
Proof.
  intros NZ C T. assert (N2 : dot N N <> 0) by (intros Z; apply dot_zero in Z; contradiction).
  apply Rmult_eq_reg_l with (dot N N); auto.
  assert (K : forall a, dot N N * dot a d = dot a N * dot N d + dot (cross (cross N a) N) d) by (intros a; vec_ring).
  assert (CC : forall a, cross N a = vneg (cross a N)) by (intros a; vec_ring).
  rewrite !K, T, !CC, C. ring.
Qed.

(** ** the trace *)
Definition position_at (i : nat) (ray : list step) : option vec := do s <- nth_error ray i; st_y s.
Definition direction_at (i : nat) (ray : list step) : option vec := do s <- nth_error ray i; st_u s.
Section Path.
Variable newton : (R -> option R) -> (R -> option R) -> option R -> option R.
Notation trace := (geo_trace newton).

Lemma sys_link es : forall y u n l c i e e' s s', nth_error es i = Some e -> nth_error es (S i) = Some e' ->
  nth_error (sys_propagate newton es y u n l c) i = Some s -> nth_error (sys_propagate newton es y u n l c) (S i) = Some s' ->
  st_i s' = onormal (to_normal (e_place e')) (onormal (from_normal (e_place e)) (st_u s)).
Proof.
  induction es as [|e0 es IH]; intros y u n l c i e e' s s' E E' S S'; [destruct i; discriminate|]. cbn [sys_propagate] in S, S'.
  destruct (propagate newton e0 _ _ n l c) as [[[y1 u1] n1] t1]. destruct i as [|i]; cbn [nth_error] in *.
  - injection E as <-. injection S as <-. cbn [st_u]. destruct es as [|e1 es]; [discriminate|]. cbn [sys_propagate nth_error] in *. injection E' as <-.
    destruct (propagate newton e1 _ _ n1 l c) as [[[y2 u2] n2] t2]. injection S' as <-. reflexivity.
  - eapply IH; eauto.
Qed.
Lemma link es y u n l c i e e' s s' : nth_error es i = Some e -> nth_error es (S i) = Some e' ->
  nth_error (trace es y u n l c) i = Some s -> nth_error (trace es y u n l c) (S i) = Some s' ->
  st_i s' = onormal (to_normal (e_place e')) (onormal (from_normal (e_place e)) (st_u s)).
Proof.
  destruct es as [|e0 es]; [destruct i; discriminate|]. cbn [geo_trace]. destruct i as [|i]; cbn [nth_error].
  - intros E E' S S'. injection E as <-. injection S as <-. cbn [st_u]. destruct es as [|e1 es]; [discriminate|]. cbn [sys_propagate nth_error] in *. injection E' as <-.
    destruct (propagate newton e1 _ _ n l c) as [[[y2 u2] n2] t2]. injection S' as <-. reflexivity.
  - intros. eapply sys_link; eauto.
Qed.
Lemma sys_index es : forall y u y' u' n l c i s s', nth_error (sys_propagate newton es y u n l c) i = Some s ->
  nth_error (sys_propagate newton es y' u' n l c) i = Some s' -> st_n s = st_n s'.
Proof.
  induction es as [|e0 es IH]; intros y u y' u' n l c i s s' S S'; [destruct i; discriminate|]. cbn [sys_propagate] in S, S'.
  assert (N : forall y u, snd (fst (propagate newton e0 y u n l c)) = match e_kind e0 with Plain => n | Sph m _ => fst (get_n_mu m n l) end).
  { intros a b. unfold propagate. destruct (e_kind e0); [reflexivity|]. destruct (get_n_mu mat n l) as [n' mu]. reflexivity. }
  pose proof (N (do y <- y; to_normal (e_place e0) (vsub3 y (p_offset (e_place e0)))) (onormal (to_normal (e_place e0)) u)) as N1.
  pose proof (N (do y <- y'; to_normal (e_place e0) (vsub3 y (p_offset (e_place e0)))) (onormal (to_normal (e_place e0)) u')) as N2.
  destruct (propagate newton e0 _ (onormal _ u) n l c) as [[[y1 u1] n1] t1]. destruct (propagate newton e0 _ (onormal _ u') n l c) as [[[y2 u2] n2] t2]. cbn [fst snd] in N1, N2.
  rewrite <- N2 in N1. subst n2. destruct i as [|i]; cbn [nth_error] in *; [injection S as <-; injection S' as <-; reflexivity|]. eapply IH; eauto.
Qed.
Lemma trace_index es y u y' u' n l c i s s' : nth_error (trace es y u n l c) i = Some s -> nth_error (trace es y' u' n l c) i = Some s' -> st_n s = st_n s'.
Proof.
  destruct es as [|e0 es]; [destruct i; discriminate|]. cbn [geo_trace]. destruct i as [|i]; cbn [nth_error]; [intros S S'; injection S as <-; injection S' as <-; reflexivity|]. apply sys_index.
Qed.
Lemma optical_path_next k : forall ray, optical_path (S k) ray = do p <- optical_path k ray; do s <- nth_error ray (S k); do t <- st_t s; Some (p + t).
Proof.
  induction k as [|k IH]; intros [|s ray]; [reflexivity| |reflexivity|].
  - cbn [optical_path nth_error]. destruct (st_t s) as [t|]; cbn [obind]; [|reflexivity]. destruct ray as [|s' ray]; cbn [optical_path nth_error obind]; [reflexivity|].
    destruct (st_t s'); reflexivity.
  - change (optical_path (S (S k)) (s :: ray)) with (do t <- st_t s; do p <- optical_path (S k) ray; Some (t + p)).
    change (optical_path (S k) (s :: ray)) with (do t <- st_t s; do p <- optical_path k ray; Some (t + p)). rewrite IH. cbn [nth_error].
    destruct (st_t s); cbn [obind]; [|reflexivity]. destruct (optical_path k ray); cbn [obind]; [|reflexivity].
    destruct (match ray with [] => None | _ :: l => nth_error l k end) as [s'|]; cbn [obind]; [|reflexivity]. destruct (st_t s'); cbn [obind]; [|reflexivity]. f_equal. ring.
Qed.
Lemma origins_some es i e : nth_error es i = Some e -> exists o, nth_error (origins es) i = Some o.
Proof.
  unfold origins. generalize v0. revert i. induction es as [|e0 es IH]; intros i a E; [destruct i; discriminate|]. destruct i as [|i]; cbn [map cumsum3 nth_error]; [eauto|].
  cbn [nth_error] in E. apply (IH _ (vadd3 a (p_offset (e_place e0)))) in E. exact E.
Qed.

(** from one element to the next *)
Lemma path_step es Y U n l c i y dy v dv y' dy' v' dv' e e' : physical l es -> 0 < n -> near (fun h => dot (U h) (U h) = 1) ->
  let ray h := trace es (Y h) (U h) n l c in
  nth_error es i = Some e -> nth_error es (S i) = Some e' ->
  ovlin (fun h => position_at i (ray h)) y dy -> ovlin (fun h => direction_at i (ray h)) v dv ->
  ovlin (fun h => position_at (S i) (ray h)) y' dy' -> ovlin (fun h => direction_at (S i) (ray h)) v' dv' ->
  (forall m sf, e_kind e' = Sph (Some m) sf -> near (fun h => exists p, position_at (S i) (ray h) = Some p /\ surface_sag sf p = Some 0)) ->
  exists n1 n2 t, (forall h s, nth_error (ray h) i = Some s -> st_n s = n1) /\ (forall h s, nth_error (ray h) (S i) = Some s -> st_n s = n2) /\
    olin (fun h => do s <- nth_error (ray h) (S i); st_t s) t (n2 * dot v' dy' - n1 * dot v dy).
Proof.
  intros G N UN ray He He' (FY & LY & NY) (FV & LV & NV) (FY' & LY' & NY') (FV' & LV' & NV') ON.
  assert (GE : good_element l e) by (unfold physical in G; rewrite Forall_forall in G; apply G; eapply nth_error_In; eauto).
  assert (GE' : good_element l e') by (unfold physical in G; rewrite Forall_forall in G; apply G; eapply nth_error_In; eauto).
  destruct (normal_maps _ (proj1 GE)) as (r & RR & F & T). destruct (normal_maps _ (proj1 GE')) as (r' & RR' & F' & T').
  destruct (origins_some _ _ _ He) as (o & Ho). destruct (origins_some _ _ _ He') as (o' & Ho').
  pose proof (near_0 _ NY) as Y0. pose proof (near_0 _ NV) as V0. pose proof (near_0 _ NY') as Y0'. pose proof (near_0 _ NV') as V0'. pose proof (near_0 _ UN) as U0. cbn beta in Y0, V0, Y0', V0', U0.
  unfold position_at, direction_at in *.
  destruct (nth_error (ray 0) i) as [s0|] eqn:S0; cbn [obind] in Y0, V0; [|discriminate].
  destruct (nth_error (ray 0) (S i)) as [s0'|] eqn:S0'; cbn [obind] in Y0', V0'; [|discriminate].
  exists (st_n s0), (st_n s0').
  assert (N1 : forall h s, nth_error (ray h) i = Some s -> st_n s = st_n s0) by (intros h s SH; apply (trace_index es (Y h) (U h) (Y 0) (U 0) n l c i); auto).
  assert (N2 : forall h s, nth_error (ray h) (S i) = Some s -> st_n s = st_n s0') by (intros h s SH; apply (trace_index es (Y h) (U h) (Y 0) (U 0) n l c (S i)); auto).
  (* lab frame *)
  set (P := fun h => vadd3 o (vm (FY h) r)). set (P' := fun h => vadd3 o' (vm (FY' h) r')). set (W := fun h => vm (FV h) r).
  assert (LP : vlin P (vadd3 o (vm y r)) (vm dy r)).
  { pose proof (vlin_add _ _ _ _ _ _ (vlin_const o) (vlin_vm _ _ _ r LY)) as Q. unfold P. replace (vm dy r) with (vadd3 v0 (vm dy r)) by vec_ring. exact Q. }
  assert (LP' : vlin P' (vadd3 o' (vm y' r')) (vm dy' r')).
  { pose proof (vlin_add _ _ _ _ _ _ (vlin_const o') (vlin_vm _ _ _ r' LY')) as Q. unfold P'. replace (vm dy' r') with (vadd3 v0 (vm dy' r')) by vec_ring. exact Q. }
  pose proof (vlin_vm _ _ _ r LV) as LW. fold W in LW.
  set (tau := fun h => dot (vsub3 (P' h) (P h)) (W h)).
  assert (LT : lin tau (dot (vsub3 (vadd3 o' (vm y' r')) (vadd3 o (vm y r))) (vm v r)) (dot (vsub3 (vm dy' r') (vm dy r)) (vm v r) + dot (vsub3 (vadd3 o' (vm y' r')) (vadd3 o (vm y r))) (vm dv r))).
  { unfold tau. apply vlin_dot; [apply vlin_sub; auto|auto]. }
  (* straight lines *)
  assert (ST : near (fun h => exists s s', nth_error (ray h) i = Some s /\ nth_error (ray h) (S i) = Some s' /\ dot (W h) (W h) = 1 /\
      exists t, st_t s' = Some (st_n s * t) /\ vsub3 (P' h) (P h) = vmul3 t (W h))).
  { eapply near_impl; [|exact (near_and _ _ UN (near_and _ _ NY (near_and _ _ NV NY')))]. intros h (UH & YH & VH & YH'). cbn beta in *.
    destruct (nth_error (ray h) i) as [s|] eqn:S; cbn [obind] in YH, VH; [|discriminate]. destruct (nth_error (ray h) (Datatypes.S i)) as [s'|] eqn:S'; cbn [obind] in YH'; [|discriminate].
    exists s, s'. split; [auto|]. split; [auto|].
    destruct (C16_straight_lines newton es (Y h) (U h) n l c i e e' s s' o o' G N UH He He' S S' Ho Ho' _ YH') as (p & w & P1 & P1' & U1 & t & A & B & C & D & E & UU & HT & LN).
    rewrite YH in A. injection A as <-. rewrite VH in B. injection B as <-. rewrite F in C, D. injection C as <-. injection D as <-. rewrite F' in E. injection E as <-.
    split; [exact UU|]. exists t. split; [exact HT|]. exact LN. }
  assert (TN : near (fun h => (do s <- nth_error (ray h) (S i); st_t s) = Some (st_n s0 * tau h))).
  { eapply near_impl; [|exact ST]. intros h (s & s' & S & S' & UU & t & HT & LN). cbn beta. rewrite S'. cbn [obind]. rewrite HT, (N1 h s S). f_equal. f_equal. unfold tau. rewrite LN.
    transitivity (t * dot (W h) (W h)); [rewrite UU; ring|]. generalize (W h). intros q. vec_ring. }
  (* derivative of the length *)
  assert (TURN : dot (vm v r) (vm dv r) = 0).
  { apply (unit_turn W); [exact LW|]. eapply near_impl; [|exact ST]. intros h (s & s' & _ & _ & UU & _). exact UU. }
  destruct (near_0 _ ST) as (s & s' & S & S' & UU & t & HT & LN). unfold P, P', W in LN. rewrite (vlin_at0 _ _ _ LY), (vlin_at0 _ _ _ LY'), (vlin_at0 _ _ _ LV) in LN.
  assert (DT : dot (vsub3 (vm dy' r') (vm dy r)) (vm v r) + dot (vsub3 (vadd3 o' (vm y' r')) (vadd3 o (vm y r))) (vm dv r) = dot (vm (vm v r) (mT r')) dy' - dot v dy).
  { rewrite LN. replace (dot (vmul3 t (vm v r)) (vm dv r)) with (t * dot (vm v r) (vm dv r)) by (generalize (vm v r) (vm dv r); intros a b; vec_ring). rewrite TURN.
    replace (dot (vsub3 (vm dy' r') (vm dy r)) (vm v r)) with (dot (vm dy' r') (vm v r) - dot (vm dy r) (vm v r)) by (generalize (vm dy' r') (vm dy r) (vm v r); intros a b d; vec_ring).
    rewrite (dot_vm dy v r RR), (dot_comm dy v).
    rewrite <- (rotation_dot (mT r') (vm dy' r') (vm v r) (rotation_mT _ RR')). rewrite vm_back by auto. rewrite (dot_comm dy'). ring. }
  (* the surface *)
  assert (SURF : st_n s0 * dot (vm (vm v r) (mT r')) dy' = st_n s0' * dot v' dy').
  { assert (II : st_i s0' = Some (vm (vm v r) (mT r'))).
    { rewrite (link es (Y 0) (U 0) n l c i e e' s0 s0' He He' S0 S0'), V0. unfold onormal. cbn [obind]. rewrite F. cbn [obind]. rewrite T', (vlin_at0 _ _ _ LV). reflexivity. }
    rewrite (vlin_at0 _ _ _ LV') in V0'. rewrite (vlin_at0 _ _ _ LY') in Y0'.
    destruct (C16_surface_laws newton es (Y 0) (U 0) n l c i e e' s0 s0' v' G N U0 He He' S0 S0' ltac:(rewrite Y0'; discriminate) V0') as (w & p & IW & YP & LAW).
    rewrite II in IW. injection IW as <-. rewrite Y0' in YP. injection YP as <-. set (w := vm (vm v r) (mT r')) in *. clearbody w.
    destruct (e_kind e') as [|[m|] sf] eqn:K; [destruct LAW as (-> & ->); reflexivity| |destruct LAW as (-> & ->); reflexivity].
    assert (TAN : forall M, surface_normal sf y' = Some M -> dot M dy' = 0).
    { intros M SM. apply (tangent sf FY' y' dy' M LY' SM). eapply near_impl; [|exact (near_and _ _ NY' (ON m sf eq_refl))]. intros h (A & p & B & C). cbn beta in A, B. rewrite A in B. injection B as ->. exact C. }
    destruct (m_mirror m).
    - destruct LAW as (M & SM & (_ & _ & CR & _) & NN). rewrite NN. f_equal. symmetry. apply (along_normal v' w M dy'); auto. eapply surface_normal_nz; eauto.
    - destruct LAW as (NI & LAW). destruct (Req_EM_T (st_n s0') (st_n s0)) as [E|E]; [rewrite LAW, E; reflexivity|].
      destruct LAW as (M & SM & (_ & CR & _)).
      assert (K1 : forall a q b, dot (vmul3 a q) b = a * dot q b) by (intros a q b; vec_ring). rewrite <- !K1. apply (along_normal _ _ M); [eapply surface_normal_nz; eauto| |auto].
      assert (K2 : forall a q b, cross (vmul3 a q) b = vmul3 a (cross q b)) by (intros a q b; vec_ring). rewrite !K2. auto. }
  eexists. split; [exact N1|]. split; [exact N2|]. exists (fun h => st_n s0 * tau h). split; [|exact TN].
  rewrite DT in LT. eapply lin_eq; [apply lin_mult; [apply lin_const|exact LT]|reflexivity|]. rewrite <- SURF. ring.
Qed.
End Path.
