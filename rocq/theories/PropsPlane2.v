(** Property C79, second part: a stack of plane refracting layers with one common normal. *)
From Coq Require Import Reals List Lra Lia Psatz.
From Verif Require Import Base Vec RotModel RotProofs RotEuler PlacementModel PlacementProofs ElementModel ElementProofs TraceProofs PropsElement PropsTrace PropsPlane.
Import ListNotations.
Open Scope R_scope.

(** a plane dummy or a plane refracting surface with lab normal [N] *)
Definition layer (N : vec) (e : element) : Prop :=
  normal_of e = N /\
  match e_kind e with
  | Plain => True
  | Sph m s => flat s /\ match m with Some m => m_mirror m = false | None => True end
  end.
(** sum of (thickness / sqrt(index^2 - w2)) from height [h] on; the list holds the index
    before a surface and the height of that surface *)
Fixpoint glide (w2 h : R) (l : list (R * R)) : R :=
  match l with
  | [] => 0
  | (n, h') :: l => (h' - h) / sqrt (n * n - w2) + glide w2 h' l
  end.

Lemma split_dir N U : dot N N = 1 -> dot U U = 1 -> dot (along N U) (along N U) = 1 - dot U N * dot U N.
Proof.
  intros NN UU. transitivity (dot U U - 2 * dot U N * dot U N + dot U N * dot U N * dot N N); [unfold along; vec_ring|]. rewrite NN, UU. ring.
Qed.
Lemma along_normal N U : dot N N = 1 -> dot (along N U) N = 0.
Proof. intros NN. transitivity (dot U N - dot U N * dot N N); [unfold along; vec_ring|]. rewrite NN. ring. Qed.

Section Layers.
Variable newton : (R -> option R) -> (R -> option R) -> option R -> option R.
Notation trace := (geo_trace newton).
Notation sysp := (sys_propagate newton).

Lemma layer_step e N P0 U0 n l y u n' t : good_element l e -> layer N e -> 0 < n -> dot U0 U0 = 1 -> 0 <= dot U0 N ->
  propagate newton e (do y <- Some P0; to_normal (e_place e) (vsub3 y (p_offset (e_place e))))
    (onormal (to_normal (e_place e)) (Some U0)) n l false = (y, u, n', t) ->
  0 < n' /\
  (dot U0 N = 0 -> y = None) /\
  (0 < dot U0 N -> exists p k, y = Some p /\ k = dot (vsub3 (p_offset (e_place e)) P0) N / dot U0 N /\
     from_normal (e_place e) p = Some (vadd3 (vsub3 P0 (p_offset (e_place e))) (vmul3 k U0)) /\
     (n * n * dot (along N U0) (along N U0) > n' * n' -> u = None) /\
     (n * n * dot (along N U0) (along N U0) <= n' * n' -> exists v, u = Some v /\
       from_normal (e_place e) v = Some (vadd3 (vmul3 (n / n') (along N U0)) (vmul3 (sqrt (1 - (n / n') * (n / n') * dot (along N U0) (along N U0))) N)))).
Proof.
  intros G (NE & LA) NP UU DN P. pose proof (normal_unit _ _ G) as NU. rewrite NE in NU.
  destruct G as (G & GM). destruct (normal_maps _ G) as (r & RR & F & T).
  unfold normal_of in NE. rewrite F in NE. cbn [obind onormal] in P. rewrite !T in P. unfold propagate in P. cbn [obind] in P.
  assert (SD := split_dir N U0 NU UU).
  set (off := p_offset (e_place e)) in *. set (y0 := vm (vsub3 P0 off) (mT r)) in *. set (u0 := vm U0 (mT r)) in *.
  assert (YZ : vz y0 = dot (vsub3 P0 off) N) by (unfold y0; rewrite dot_normal, NE; auto).
  assert (UZ : vz u0 = dot U0 N) by (unfold u0; rewrite dot_normal, NE; auto).
  assert (IC : match e_kind e with Plain => plane_intercept y0 u0 | Sph _ s => intercept newton s y0 u0 end = fdiv (- vz y0) (vz u0)).
  { destruct (e_kind e) as [|m s]; [reflexivity|]. destruct LA as ((C & A) & _). unfold intercept. rewrite A. unfold conic_intercept.
    destruct (Req_EM_T (s_c s) 0); [reflexivity|contradiction]. }
  rewrite IC in P. rewrite YZ, UZ in P.
  assert (BACK : forall k, vm (at_ray y0 u0 k) r = vadd3 (vsub3 P0 off) (vmul3 k U0)).
  { intros k. unfold at_ray, y0, u0. rewrite vm_add, vm_scale, !rotation_inv_l by auto. reflexivity. }
  (* what becomes of the direction, for a finite position *)
  assert (DIR : 0 < dot U0 N -> n * n * dot (along N U0) (along N U0) <= n * n /\
    vadd3 (vmul3 (n / n) (along N U0)) (vmul3 (sqrt (1 - (n / n) * (n / n) * dot (along N U0) (along N U0))) N) = U0).
  { intros D. split; [rewrite SD; nra|]. replace (n / n) with 1 by (field; lra). rewrite SD.
    replace (1 - 1 * 1 * (1 - dot U0 N * dot U0 N)) with (dot U0 N * dot U0 N) by ring. rewrite sqrt_square by lra. unfold along. generalize (dot U0 N). clear. intros. vec_ring. }
  destruct (Req_dec (dot U0 N) 0) as [Z|Z].
  { rewrite Z in *. rewrite fdiv_zero in P. cbn [obind] in P. destruct (e_kind e) as [|m s].
    - injection P as <- <- <- <-. split; [auto|]. split; [auto|]. intros; lra.
    - destruct (good_n_mu m n l NP GM) as (n1 & mu & E & N1 & _). rewrite E in P. injection P as <- <- <- <-.
      split; [auto|]. split; [auto|]. intros; lra. }
  assert (DP : 0 < dot U0 N) by lra. rewrite fdiv_some in P by auto. cbn [obind] in P.
  set (k := - dot (vsub3 P0 off) N / dot U0 N) in *.
  assert (KK : k = dot (vsub3 off P0) N / dot U0 N) by (unfold k; f_equal; clear; vec_ring).
  assert (SAME : n' = n -> u = Some u0 -> (n * n * dot (along N U0) (along N U0) > n' * n' -> u = None) /\
     (n * n * dot (along N U0) (along N U0) <= n' * n' -> exists v, u = Some v /\
       from_normal (e_place e) v = Some (vadd3 (vmul3 (n / n') (along N U0)) (vmul3 (sqrt (1 - (n / n') * (n / n') * dot (along N U0) (along N U0))) N)))).
  { intros -> ->. destruct (DIR DP) as (D1 & D2). split; [intros; lra|]. intros _. exists u0. split; [auto|]. rewrite F, D2. unfold u0. rewrite rotation_inv_l; auto. }
  destruct (e_kind e) as [|m s].
  - injection P as <- <- <- <-. split; [auto|]. split; [intros; lra|]. intros _. exists (at_ray y0 u0 k), k.
    split; [auto|]. split; [exact KK|]. split; [rewrite F, BACK; reflexivity|]. apply SAME; auto.
  - destruct LA as ((C & A) & MM).
    destruct (good_n_mu m n l NP GM) as (n1 & mu & E & N1 & _ & X1 & X2). rewrite E in P.
    injection P as <- P2 -> _. split; [auto|]. split; [intros; lra|]. intros _. exists (at_ray y0 u0 k), k.
    split; [auto|]. split; [exact KK|]. split; [rewrite F, BACK; reflexivity|].
    assert (MU : mu * n' = n).
    { destruct m as [m|]; [specialize (X2 m eq_refl); rewrite MM in X2; apply X2|]. destruct (X1 eq_refl) as (-> & ->). ring. }
    assert (MP : 0 < mu) by nra. assert (MD : n / n' = mu) by (rewrite <- MU; field; lra).
    destruct (Req_EM_T mu 0); [lra|]. unfold refract in P2. destruct (Req_EM_T mu 1) as [E1|E1].
    + apply SAME; [rewrite E1 in MU; lra|auto].
    + cbn [obind] in P2. unfold surface_normal in P2. destruct (Req_EM_T (s_c s) 0); [|contradiction]. rewrite A in P2. cbn [obind] in P2.
      change (V 0 0 1) with ez in P2. unfold refract_normal in P2.
      replace (dot ez ez) with 1 in P2 by (unfold dot, ez; cbn; ring).
      replace (dot u0 ez) with (dot U0 N) in P2 by (rewrite <- UZ; clear; unfold dot, ez; cbn; ring).
      rewrite Rabs_pos_eq, !fdiv_some in P2 by lra. cbn [obind] in P2. destruct (Req_EM_T mu (-1)); [lra|].
      set (q := 1 - mu * mu * dot (along N U0) (along N U0)) in *.
      replace (mu * dot U0 N / 1 * (mu * dot U0 N / 1) - (mu ^ 2 - 1) / 1) with q in P2 by (unfold q; rewrite SD; field).
      assert (Q : n * n * dot (along N U0) (along N U0) = n' * n' * (1 - q)) by (unfold q; rewrite <- MU; ring).
      split.
      * intros H. assert (q < 0) by (rewrite Q in H; assert (0 < n' * n') by nra; clear - H H0; apply Rnot_le_lt; intros X; nra). rewrite fsqrt_none in P2 by auto. symmetry. exact P2.
      * intros H. assert (0 <= q) by (rewrite Q in H; assert (0 < n' * n') by nra; clear - H H0; apply Rnot_lt_le; intros X; nra). rewrite fsqrt_some in P2 by auto. cbn [obind] in P2. eexists. split; [symmetry; exact P2|].
        rewrite F, MD. fold q. f_equal. unfold sign. destruct (Rlt_dec 0 mu); [|lra].
        rewrite vm_add, !vm_scale. unfold u0. rewrite rotation_inv_l, NE by auto. unfold along.
        generalize (sqrt q) (dot U0 N). clear. intros. vec_ring; field.
Qed.

(** indices do not depend on the ray or on clipping *)
Lemma index_run es : forall y u y' u' n l c c', map st_n (sysp es y u n l c) = map st_n (sysp es y' u' n l c').
Proof.
  induction es as [|e es IH]; intros; [reflexivity|]. cbn [sys_propagate].
  destruct (propagate newton e _ _ n l c) as [[[y1 u1] n1] t1] eqn:P.
  match goal with |- context [propagate newton e ?a ?b n l c'] => destruct (propagate newton e a b n l c') as [[[y2 u2] n2] t2] eqn:Q end.
  cbn [map st_n].
  assert (K : n1 = n2).
  { unfold propagate in P, Q. destruct (e_kind e); [congruence|]. destruct (get_n_mu _ _ _) as [n3 mu]. congruence. }
  subst n2. f_equal. apply IH.
Qed.

Lemma layer_run es N : dot N N = 1 -> forall O P0 U0 n l i s e o, Forall (good_element l) es -> Forall (layer N) (firstn (S i) es) ->
  0 < n -> dot U0 U0 = 1 -> 0 <= dot U0 N ->
  nth_error (sysp es (Some P0) (Some U0) n l false) i = Some s -> nth_error es i = Some e ->
  nth_error (cumsum3 O (map (fun e => p_offset (e_place e)) es)) i = Some o ->
  let W := vmul3 n (along N U0) in
  let ns := n :: map st_n (sysp es (Some P0) (Some U0) n l false) in
  ((st_y s <> None /\ st_u s <> None) <-> (forall k m, (k <= i)%nat -> nth_error ns k = Some m -> dot W W < m * m) /\ dot W W <= st_n s * st_n s) /\
  (forall p v, st_y s = Some p -> st_u s = Some v -> exists P U, from_normal (e_place e) p = Some P /\ from_normal (e_place e) v = Some U /\
     vmul3 (st_n s) (along N U) = W /\ 0 <= dot U N /\
     vadd3 o P = vadd3 (vadd3 (vadd3 O P0) (vmul3 (dot o N - dot (vadd3 O P0) N) N))
       (vmul3 (glide (dot W W) (dot (vadd3 O P0) N) (firstn (S i) (combine ns (map (fun o => dot o N) (cumsum3 O (map (fun e => p_offset (e_place e)) es)))))) W)).
Proof.
  intros NN. induction es as [|e0 es IH]; intros O P0 U0 n l i s e o G LA NP UU DN Hs He Ho W ns. { destruct i; discriminate. }
  assert (G0 : good_element l e0) by (inversion G; auto). assert (GS : Forall (good_element l) es) by (inversion G; auto).
  cbn [firstn] in LA. assert (L0 : layer N e0) by (inversion LA; auto). assert (LS : Forall (layer N) (firstn i es)) by (inversion LA; auto).
  clear G LA. unfold ns; clear ns. cbn [sys_propagate] in *.
  destruct (propagate newton e0 _ _ n l false) as [[[y1 u1] n1] t1] eqn:P.
  destruct (layer_step _ _ _ _ _ _ _ _ _ _ G0 L0 NP UU DN P) as (N1 & GRAZE & GO).
  assert (SD := split_dir N U0 NN UU).
  assert (WW : dot W W = n * n * dot (along N U0) (along N U0)) by (unfold W; clear; generalize (along N U0); intros; vec_ring).
  destruct (Req_dec (dot U0 N) 0) as [Z|Z].
  { (* grazing: nothing goes on *)
    rewrite (GRAZE Z) in *. assert (DY : st_y s = None).
    { destruct i as [|i]; cbn [nth_error] in Hs; [injection Hs as <-; reflexivity|].
      destruct (dead_stays newton es _ _ _ _ _ _ _ (or_introl eq_refl) Hs) as (D & _). exact D. }
    split; [|intros; congruence]. split; [intros (D & _); congruence|]. intros (D & _). exfalso.
    specialize (D 0%nat n (Nat.le_0_l _) eq_refl). rewrite WW, SD, Z in D. nra. }
  assert (DP : 0 < dot U0 N) by lra. destruct (GO DP) as (p1 & k & -> & KK & FP & TIR & REF). clear GO GRAZE.
  assert (W0 : dot W W < n * n) by (rewrite WW, SD; assert (0 < n * n) by nra; assert (0 < dot U0 N * dot U0 N) by nra; clear - H H0; nra).
  set (O1 := vadd3 O (p_offset (e_place e0))) in *.
  set (P1 := vadd3 (vsub3 P0 (p_offset (e_place e0))) (vmul3 k U0)) in *.
  assert (CO : sqrt (n * n - dot W W) = n * dot U0 N).
  { rewrite WW, SD. replace (n * n - n * n * (1 - dot U0 N * dot U0 N)) with ((n * dot U0 N) * (n * dot U0 N)) by ring. apply sqrt_square. nra. }
  assert (D1 : dot O1 N - dot (vadd3 O P0) N = k * dot U0 N).
  { rewrite KK. transitivity (dot (vsub3 (p_offset (e_place e0)) P0) N); [unfold O1; clear; generalize (p_offset (e_place e0)); intros; vec_ring|field; auto]. }
  assert (STEP : vadd3 O1 P1 = vadd3 (vadd3 (vadd3 O P0) (vmul3 (dot O1 N - dot (vadd3 O P0) N) N)) (vmul3 ((dot O1 N - dot (vadd3 O P0) N) / sqrt (n * n - dot W W)) W)).
  { rewrite CO, D1. replace (k * dot U0 N / (n * dot U0 N)) with (k / n) by (field; split; lra).
    unfold W, along. transitivity (vadd3 (vadd3 O P0) (vmul3 k U0)).
    - unfold O1, P1. clear. generalize (p_offset (e_place e0)). intros. vec_ring.
    - replace (vmul3 (k / n) (vmul3 n (vsub3 U0 (vmul3 (dot U0 N) N)))) with (vmul3 k (vsub3 U0 (vmul3 (dot U0 N) N))).
      + generalize (dot U0 N). clear. intros. vec_ring.
      + generalize (vsub3 U0 (vmul3 (dot U0 N) N)). clear - NP. intros [a b d]. apply vec_eq; cbn; field; lra. }
  assert (ON : dot (vadd3 O1 P1) N = dot O1 N).
  { rewrite STEP. assert (WN : dot W N = 0).
    { unfold W. transitivity (n * dot (along N U0) N); [clear; generalize (along N U0); intros; vec_ring|]. rewrite along_normal by auto. ring. }
    revert WN. generalize (dot O1 N) (sqrt (n * n - dot W W)). clear - NN. intros h q WN. generalize dependent W. intros W WN.
    transitivity (dot (vadd3 O P0) N + (h - dot (vadd3 O P0) N) * dot N N + (h - dot (vadd3 O P0) N) / q * dot W N).
    - generalize ((h - dot (vadd3 O P0) N) / q) (h - dot (vadd3 O P0) N). clear. generalize (vadd3 O P0). intros; vec_ring.
    - rewrite NN, WN. ring. }
  cbn [map cumsum3] in Ho |- *. fold O1 in Ho |- *. cbn [st_n].
  destruct (Rle_dec (dot W W) (n1 * n1)) as [LE|GT].
  2:{ (* totally reflected here *)
    assert (U1 : u1 = None) by (apply TIR; rewrite <- WW; lra). subst u1.
    assert (DY : st_y s = None \/ st_u s = None).
    { destruct i as [|i]; cbn [nth_error] in Hs; [injection Hs as <-; right; reflexivity|].
      destruct (dead_stays newton es _ _ _ _ _ _ _ (or_intror eq_refl) Hs) as (D & _). left; exact D. }
    split.
    - split; [intros (A & B); destruct DY; contradiction|]. intros (D & D'). exfalso. destruct i as [|i].
      + cbn [nth_error] in Hs. injection Hs as <-. cbn [st_n] in D'. lra.
      + specialize (D 1%nat n1 ltac:(lia) eq_refl). lra.
    - intros p v A B. destruct DY; congruence. }
  destruct (REF ltac:(rewrite <- WW; lra)) as (v1 & -> & FV). clear TIR REF.
  set (U1 := vadd3 (vmul3 (n / n1) (along N U0)) (vmul3 (sqrt (1 - n / n1 * (n / n1) * dot (along N U0) (along N U0))) N)) in *.
  set (q := 1 - n / n1 * (n / n1) * dot (along N U0) (along N U0)) in *.
  assert (QN : q = (n1 * n1 - dot W W) / (n1 * n1)) by (unfold q; rewrite WW; field; lra).
  assert (Q0 : 0 <= q). { rewrite QN. apply Rmult_le_pos; [lra|]. apply Rlt_le, Rinv_0_lt_compat. nra. }
  assert (U1N : dot U1 N = sqrt q).
  { transitivity (n / n1 * dot (along N U0) N + sqrt q * dot N N); [unfold U1; generalize (along N U0) (sqrt q); clear; intros; vec_ring|]. rewrite along_normal, NN by auto. ring. }
  assert (UU1 : dot U1 U1 = 1).
  { transitivity (n / n1 * (n / n1) * dot (along N U0) (along N U0) + 2 * (n / n1) * sqrt q * dot (along N U0) N + sqrt q * sqrt q * dot N N).
    - unfold U1. generalize (along N U0) (sqrt q). clear; intros; vec_ring.
    - rewrite sqrt_sqrt, along_normal, NN by auto. unfold q. ring. }
  assert (AL : vmul3 n1 (along N U1) = W).
  { unfold along at 1. rewrite U1N. unfold U1, W. generalize (along N U0) (sqrt q). clear - N1. intros [a b d] z. apply vec_eq; cbn; field; lra. }
  assert (D0 : 0 <= dot U1 N) by (rewrite U1N; apply sqrt_pos).
  cbn [onormal obind] in Hs |- *. rewrite FP, FV in Hs |- *.
  destruct i as [|i].
  - cbn [nth_error] in Hs, He, Ho. injection Hs as <-. injection He as <-. injection Ho as <-. cbn [st_y st_u st_n].
    split.
    + split; [intros _|intros _; split; discriminate]. split; [|auto]. intros [|k'] m K E; [injection E as <-; auto|lia].
    + intros p v E1 E2. injection E1 as <-. injection E2 as <-. exists P1, U1. split; [auto|]. split; [auto|]. split; [auto|]. split; [auto|].
      cbn [combine map firstn glide]. rewrite Rplus_0_r. exact STEP.
  - cbn [nth_error] in Hs, He, Ho.
    destruct (IH O1 P1 U1 n1 l i s e o GS LS N1 UU1 D0 Hs He Ho) as (IA & IB). clear IH. rewrite AL in IA, IB.
    split.
    + rewrite IA. split.
      * intros (A & B). split; [|auto]. intros [|j] m K E; [injection E as <-; auto|]. apply (A j m); [lia|]. exact E.
      * intros (A & B). split; [|auto]. intros j m K E. apply (A (S j) m); [lia|]. exact E.
    + intros p v Y V. destruct (IB p v Y V) as (P2 & U2 & F1 & F2 & T & D & PO). exists P2, U2. split; [auto|]. split; [auto|]. split; [auto|]. split; [auto|].
      rewrite PO, ON. change (n :: n1 :: ?l) with (n :: (n1 :: l)). cbn [map combine]. 
      change (firstn (S (S i)) (?x :: ?l)) with (x :: firstn (S i) l). cbn [glide].
      match goal with |- context [glide (dot W W) (dot O1 N) ?ll] => generalize (glide (dot W W) (dot O1 N) ll) end. intros g.
      rewrite STEP. generalize ((dot O1 N - dot (vadd3 O P0) N) / sqrt (n * n - dot W W)) (dot O1 N) (dot (vadd3 O P0) N) (dot o N). clear.
      generalize (vadd3 O P0). intros. clearbody W. vec_ring.
Qed.

(** * Which rays get through a stack of plane layers (no apertures): exactly those whose
    tangential optical direction cosine is below every index passed and does not exceed
    the last one, i.e. that are nowhere beyond the critical angle *)
Theorem C79_layers_survive es y u n l i s e0 U0 N : physical l es -> 0 < n -> dot u u = 1 -> dot N N = 1 ->
  Forall (layer N) (firstn i (tl es)) -> nth_error es 0 = Some e0 -> from_normal (e_place e0) u = Some U0 -> 0 < dot U0 N ->
  nth_error (trace es y u n l false) i = Some s ->
  let w2 := n * n * dot (along N U0) (along N U0) in
  (st_y s <> None /\ st_u s <> None) <->
  (forall k s', (k < i)%nat -> nth_error (trace es y u n l false) k = Some s' -> w2 < st_n s' * st_n s') /\ w2 <= st_n s * st_n s.
Proof.
  intros G NP UU NN LA E0 FU DN Hs w2. destruct es as [|x es]; [discriminate|]. cbn [nth_error] in E0. injection E0 as ->. cbn [tl] in LA.
  assert (G0 : good_element l e0) by (inversion G; auto). assert (GS : Forall (good_element l) es) by (inversion G; auto).
  destruct (normal_maps _ (proj1 G0)) as (r & RR & F & _).
  assert (UU0 : dot U0 U0 = 1) by (rewrite F in FU; injection FU as <-; rewrite rotation_dot; auto).
  assert (W2 : dot (vmul3 n (along N U0)) (vmul3 n (along N U0)) = w2) by (unfold w2; clear; generalize (along N U0); intros; vec_ring).
  cbn [geo_trace] in Hs |- *. rewrite F, FU in Hs |- *. destruct i as [|i].
  - cbn [nth_error] in Hs. injection Hs as <-. cbn [st_y st_u st_n]. split; [intros _|intros _; split; discriminate].
    split; [intros; lia|]. unfold w2. rewrite split_dir by auto. assert (0 < n * n) by nra. assert (0 < dot U0 N * dot U0 N) by nra. clear - H H0. nra.
  - cbn [nth_error] in Hs.
    assert (HE : exists e o, nth_error es i = Some e /\ nth_error (cumsum3 v0 (map (fun e => p_offset (e_place e)) es)) i = Some o).
    { assert (X : (i < length es)%nat).
      { rewrite <- (length_sys newton es (Some (vm y r)) (Some U0) n l false). apply nth_error_Some. congruence. }
      destruct (nth_error es i) eqn:E1; [|apply nth_error_None in E1; lia].
      destruct (nth_error (cumsum3 v0 (map (fun e => p_offset (e_place e)) es)) i) eqn:E2; [eauto|]. apply nth_error_None in E2. rewrite length_cumsum, map_length in E2. lia. }
    destruct HE as (e & o & He & Ho).
    destruct (layer_run es N NN v0 _ U0 n l i s e o GS LA NP UU0 (Rlt_le _ _ DN) Hs He Ho) as (A & _).
    rewrite A, W2. split.
    + intros (B & C). split; [|exact C]. intros [|k] s' K E; cbn [nth_error] in E.
      * injection E as <-. cbn [st_n]. apply (B 0%nat n); [lia|reflexivity].
      * apply (B (S k)); [lia|]. cbn [nth_error]. rewrite nth_error_map, E. reflexivity.
    + intros (B & C). split; [|exact C]. intros [|k] m K E; cbn [nth_error] in E.
      * injection E as <-. apply (B 0%nat _ ltac:(lia) eq_refl).
      * rewrite nth_error_map in E. destruct (nth_error (sysp es _ _ n l false) k) as [s'|] eqn:E'; [|discriminate]. cbn in E. injection E as <-.
        apply (B (S k) s'); [lia|]. exact E'.
Qed.

(** * A stack of plane layers: index times the direction component along the layers is
    the same in all of them; in a medium of the starting index the ray is parallel to the
    incoming one; and the position is the start, moved to the height of the surface along
    the normal and sideways by the sum of the layer contributions *)
Theorem C79_layers es y u n l c i s e o p v e0 o0 P0 U0 N : physical l es -> 0 < n -> dot u u = 1 -> dot N N = 1 ->
  Forall (layer N) (firstn i (tl es)) ->
  nth_error es 0 = Some e0 -> nth_error (origins es) 0 = Some o0 ->
  from_normal (e_place e0) y = Some P0 -> from_normal (e_place e0) u = Some U0 -> 0 < dot U0 N ->
  nth_error (trace es y u n l c) i = Some s -> nth_error es i = Some e -> nth_error (origins es) i = Some o ->
  st_y s = Some p -> st_u s = Some v -> (0 < i)%nat ->
  exists P U, from_normal (e_place e) p = Some P /\ from_normal (e_place e) v = Some U /\
    vmul3 (st_n s) (along N U) = vmul3 n (along N U0) /\ 0 <= dot U N /\
    (st_n s = n -> U = U0) /\
    vadd3 o P = vadd3 (vadd3 (vadd3 o0 P0) (vmul3 (dot (vsub3 o (vadd3 o0 P0)) N) N))
      (vmul3 (glide (n * n * dot (along N U0) (along N U0)) (dot (vadd3 o0 P0) N)
         (firstn i (combine (map st_n (trace es y u n l c)) (map (fun o => dot o N) (tl (origins es)))))) (vmul3 n (along N U0))).
Proof.
  intros G NP UU NN LA E0 O0 FP FU DN Hs He Ho Hp Hv IP.
  assert (UN := C16_unit_directions newton es y u n l c i e s G NP UU He Hs). destruct UN as (UN & _ & SP). specialize (UN v Hv).
  destruct es as [|x es]; [discriminate|]. cbn [nth_error] in E0. injection E0 as ->. cbn [tl] in LA.
  assert (HC : nth_error (trace (e0 :: es) y u n l false) i = Some s).
  { destruct c; [|exact Hs]. apply (C15_clip_conservative newton); [exact Hs|congruence]. }
  assert (G0 : good_element l e0) by (inversion G; auto). assert (GS : Forall (good_element l) es) by (inversion G; auto).
  assert (GE : good_element l e). { unfold physical in G. rewrite Forall_forall in G. apply G. eapply nth_error_In; eauto. }
  destruct (normal_maps _ (proj1 G0)) as (r & RR & F & _).
  assert (UU0 : dot U0 U0 = 1) by (rewrite F in FU; injection FU as <-; rewrite rotation_dot; auto).
  assert (W2 : dot (vmul3 n (along N U0)) (vmul3 n (along N U0)) = n * n * dot (along N U0) (along N U0)) by (clear; generalize (along N U0); intros; vec_ring).
  unfold origins in *. cbn [map cumsum3 nth_error tl] in *. injection O0 as O0. rewrite O0 in *.
  cbn [geo_trace] in HC |- *. rewrite FP, FU in HC |- *. destruct i as [|i]; [lia|].
  cbn [nth_error] in HC, He, Ho.
  destruct (layer_run es N NN o0 P0 U0 n l i s e o GS LA NP UU0 (Rlt_le _ _ DN) HC He Ho) as (_ & A).
  destruct (A p v Hp Hv) as (P & U & A1 & A2 & A3 & A4 & A5). rewrite W2 in A5. exists P, U. split; [auto|]. split; [auto|]. split; [auto|]. split; [auto|]. split.
  - intros SN. rewrite SN in A3.
    assert (AE : along N U = along N U0).
    { revert A3. generalize (along N U) (along N U0). clear - NP. intros [a b d] [a' b' d'] E. injection E as X Y Z. f_equal; eapply Rmult_eq_reg_l; eauto; lra. }
    assert (U1 : dot U U = 1).
    { destruct (normal_maps _ (proj1 GE)) as (r' & RR' & F' & _). rewrite F' in A2. injection A2 as <-. rewrite rotation_dot; auto. }
    assert (DD : dot U N = dot U0 N).
    { pose proof (split_dir N U NN U1) as S1. pose proof (split_dir N U0 NN UU0) as S0. rewrite AE in S1. assert (dot U N * dot U N = dot U0 N * dot U0 N) by lra. clear - H A4 DN. nra. }
    transitivity (vadd3 (along N U) (vmul3 (dot U N) N)); [unfold along; generalize (dot U N); clear; intros; vec_ring|].
    rewrite AE, DD. unfold along. generalize (dot U0 N). clear; intros; vec_ring.
  - rewrite A5. cbn [map]. rewrite (index_run es (Some P0) (Some U0) (Some P0) (Some U0) n l c false).
    replace (dot (vsub3 o (vadd3 o0 P0)) N) with (dot o N - dot (vadd3 o0 P0) N) by (clear; generalize (vadd3 o0 P0); intros; vec_ring). reflexivity.
Qed.

(** * The plane-parallel plate: the ray leaves parallel to itself, displaced sideways from
    its own continuation by the textbook amount *)
Theorem C79_plate e0 e1 e2 y u n l c s1 s p v o0 o1 o2 P0 U0 N : physical l [e0; e1; e2] -> 0 < n -> dot u u = 1 -> dot N N = 1 ->
  layer N e1 -> layer N e2 -> origins [e0; e1; e2] = [o0; o1; o2] ->
  from_normal (e_place e0) y = Some P0 -> from_normal (e_place e0) u = Some U0 -> 0 < dot U0 N ->
  nth_error (trace [e0; e1; e2] y u n l c) 1 = Some s1 -> nth_error (trace [e0; e1; e2] y u n l c) 2 = Some s ->
  st_y s = Some p -> st_u s = Some v -> st_n s = n ->
  let T := along N U0 in let A := vadd3 o0 P0 in
  exists P, from_normal (e_place e2) p = Some P /\ from_normal (e_place e2) v = Some U0 /\
    vadd3 o2 P = vadd3 (vadd3 A (vmul3 (dot (vsub3 o2 A) N / dot U0 N) U0))
      (vmul3 (dot (vsub3 o2 o1) N * (n / sqrt (st_n s1 * st_n s1 - n * n * dot T T) - 1 / dot U0 N)) T).
Proof.
  intros G NP UU NN L1 L2 OR FP FU DN H1 H2 Hp Hv SN T A.
  destruct (C79_layers [e0; e1; e2] y u n l c 2 s e2 o2 p v e0 o0 P0 U0 N) as (P & U & A1 & A2 & _ & _ & A3 & A4); auto.
  { cbn [tl firstn]. repeat apply Forall_cons; auto. }
  { rewrite OR. reflexivity. } { rewrite OR. reflexivity. }
  specialize (A3 SN). subst U. exists P. split; [auto|]. split; [auto|].
  assert (UU0 : dot U0 U0 = 1).
  { assert (G0 : good_element l e0) by (inversion G; auto). destruct (normal_maps _ (proj1 G0)) as (r & RR & F & _). rewrite F in FU; injection FU as <-; rewrite rotation_dot; auto. }
  rewrite OR in A4. cbn [tl map] in A4.
  destruct (trace [e0; e1; e2] y u n l c) as [|s0 [|s1' tr]] eqn:TR; try discriminate. cbn [nth_error] in H1. injection H1 as ->.
  cbn [map combine firstn glide] in A4.
  assert (S0 : st_n s0 = n) by (cbn [geo_trace] in TR; injection TR as <- _; reflexivity).
  rewrite S0 in A4. fold A in A4. fold T in A4 |- *.
  assert (CO : sqrt (n * n - n * n * dot T T) = n * dot U0 N).
  { unfold T. rewrite split_dir by auto. replace (n * n - n * n * (1 - dot U0 N * dot U0 N)) with ((n * dot U0 N) * (n * dot U0 N)) by ring. apply sqrt_square. nra. }
  rewrite CO in A4. rewrite A4. clear A4.
  assert (U0E : U0 = vadd3 T (vmul3 (dot U0 N) N)) by (unfold T, along; generalize (dot U0 N); clear; intros; vec_ring).
  replace (dot (vsub3 o2 A) N) with (dot o2 N - dot A N) by (clear; clearbody A; vec_ring).
  replace (dot (vsub3 o2 o1) N) with (dot o2 N - dot o1 N) by (clear; vec_ring).
  rewrite U0E at 3. 
  assert (CN : dot U0 N <> 0) by lra. revert CN. generalize (dot U0 N) (dot o2 N) (dot o1 N) (dot A N). intros q h2 h1 hA CN.
  destruct (Req_dec (sqrt (st_n s1 * st_n s1 - n * n * dot T T)) 0) as [Z|Z].
  - unfold Rdiv. rewrite Z, Rinv_0. clearbody A T. clear - NP CN. destruct A as [a1 a2 a3], T as [t1 t2 t3], N as [n1 n2 n3]. apply vec_eq; cbn; field; split; lra.
  - revert Z. generalize (sqrt (st_n s1 * st_n s1 - n * n * dot T T)). intros z Z. clearbody A T. clear - NP CN Z. destruct A as [a1 a2 a3], T as [t1 t2 t3], N as [n1 n2 n3]. apply vec_eq; cbn; field; repeat split; lra.
Qed.
End Layers.

(** a corner of three mirrors facing z, x and y, at distances 5, 7 and 9 *)
Definition steel : material := Material (fun _ => 1) true true.
Definition glassy (k : R) : material := Material (fun _ => k) false true.
Definition level : surf := Surf 0 0 None false.
Lemma launch_frame : exists p, init 0 ez v0 None = Some p /\ good_place p /\ p_offset p = v0 /\ (forall y, from_normal p y = Some y).
Proof.
  destruct (on_axis 0) as (p & I & NF & FO & O & F & _); [lra|]. exists p. split; [auto|]. split; [split; auto|]. split; [rewrite O; reflexivity|auto].
Qed.
Lemma corner_system : exists p0 p1 p2 p3,
  let e0 := El p0 None Plain in let e1 := El p1 None (Sph (Some steel) level) in let e2 := El p2 None (Sph (Some steel) level) in let e3 := El p3 None (Sph (Some steel) level) in
  let es := [e0; e1; e2; e3] in
  physical 1 es /\ (forall y, from_normal p0 y = Some y) /\ origins es = [v0; V 0 0 5; V 7 0 5; V 7 9 5] /\
  normal_of e1 = ez /\ normal_of e2 = ex /\ normal_of e3 = ey.
Proof.
  destruct launch_frame as (p0 & _ & G0 & O0 & F0).
  destruct (placed 5 ez) as (p1 & _ & G1 & O1 & F1); [lra|unfold dot, ez; cbn; ring|auto|].
  destruct (placed 7 ex) as (p2 & _ & G2 & O2 & F2); [lra|unfold dot, ex; cbn; ring|left; left; unfold ex; cbn; rewrite Rabs_R1; lra|].
  destruct (placed 9 ey) as (p3 & _ & G3 & O3 & F3); [lra|unfold dot, ey; cbn; ring|left; right; unfold ey; cbn; rewrite Rabs_R1; lra|].
  exists p0, p1, p2, p3. cbv zeta. unfold normal_of. cbn [e_place]. rewrite F1, F2, F3. split.
  { unfold physical. repeat apply Forall_cons; [..|apply Forall_nil]; split; cbn; auto; intros; lra. }
  split; [exact F0|]. split; [|auto]. unfold origins. cbn [map cumsum3 e_place]. rewrite O0, O1, O2, O3. unfold v0, ex, ey, ez.
  repeat f_equal; apply vec_eq; cbn; ring.
Qed.
Example C79_corner_example newton : exists es s, physical 1 es /\
  nth_error (geo_trace newton es v0 (V (2/3) (1/3) (2/3)) 1 1 false) 3 = Some s /\
  exists e p v P L, nth_error es 3 = Some e /\ st_y s = Some p /\ st_u s = Some v /\ from_normal (e_place e) v = Some (V (-2/3) (-1/3) (-2/3)) /\
    from_normal (e_place e) p = Some P /\ vadd3 (V 7 9 5) P = V (14 - 2/3 * L) (18 - 1/3 * L) (10 - 2/3 * L).
Proof.
  destruct corner_system as (p0 & p1 & p2 & p3 & H). cbv zeta in H. destruct H as (G & F0 & OR & N1 & N2 & N3).
  set (e0 := El p0 None Plain) in *. set (e1 := El p1 None (Sph (Some steel) level)) in *. set (e2 := El p2 None (Sph (Some steel) level)) in *. set (e3 := El p3 None (Sph (Some steel) level)) in *.
  set (es := [e0; e1; e2; e3]) in *. set (u := V (2/3) (1/3) (2/3)).
  assert (UU : dot u u = 1) by (unfold dot, u; cbn; field).
  assert (PM : Forall plane_mirror (firstn 3 (tl es))).
  { cbn [es tl firstn]. repeat apply Forall_cons; [..|apply Forall_nil]; repeat split. }
  assert (IM : Forall (fun e => is_mirror e = true) (firstn 3 (tl es))).
  { cbn [es tl firstn]. repeat apply Forall_cons; [..|apply Forall_nil]; reflexivity. }
  destruct (nth_error (geo_trace newton es v0 u 1 1 false) 3) as [s|] eqn:Hs.
  2:{ exfalso. apply nth_error_None in Hs. unfold es in Hs. cbn [geo_trace length] in Hs. rewrite length_sys in Hs. cbn in Hs. lia. }
  exists es, s. split; [exact G|]. split; [exact Hs|].
  assert (AL : st_y s <> None /\ st_u s <> None).
  { apply (proj2 (C79_mirrors_survive newton es v0 u 1 1 3 s e0 u G Rlt_0_1 UU PM IM eq_refl (F0 u) Hs)).
    intros k e K E. destruct k as [|[|[|k]]]; [..|lia]; cbn [es tl nth_error firstn turns] in E |- *; injection E as <-.
    - rewrite N1. unfold dot, u, ez. cbn. lra.
    - rewrite N2. change (is_mirror e1) with true. cbn iota. rewrite N1. unfold turned, dot, u, ez, ex. cbn. lra.
    - rewrite N3. change (is_mirror e1) with true. change (is_mirror e2) with true. cbn iota. rewrite N1, N2. unfold turned, dot, u, ez, ex, ey. cbn. lra. }
  destruct AL as (Y & V'). destruct (st_y s) as [p|] eqn:Hp; [|contradiction]. destruct (st_u s) as [v|] eqn:Hv; [|contradiction].
  assert (FM : filter (fun x => is_mirror (fst x)) (firstn 3 (tl (combine es (origins es)))) = [(e1, V 0 0 5); (e2, V 7 0 5); (e3, V 7 9 5)]) by (rewrite OR; reflexivity).
  destruct (C79_corner_cube newton es v0 u 1 1 false 3 s e3 (V 7 9 5) p v e0 v0 v0 u e1 e2 e3 (V 0 0 5) (V 7 0 5) (V 7 9 5) (V 7 9 5) G Rlt_0_1 UU PM FM)
    as (P & L & A1 & A2 & A3 & A4); auto.
  - rewrite N1, N2, N3. unfold right_angled, dot, ex, ey, ez. cbn. repeat split; ring.
  - rewrite N1. unfold dot, ez; cbn; ring.
  - rewrite N2. unfold dot, ex; cbn; ring.
  - rewrite N3. unfold dot, ey; cbn; ring.
  - rewrite OR. reflexivity.
  - rewrite OR. reflexivity.
  - exists e3, p, v, P, L. split; [reflexivity|]. split; [reflexivity|]. split; [reflexivity|]. split; [rewrite A2; f_equal; unfold u; apply vec_eq; cbn; field|]. split; [exact A1|].
    transitivity (vsub3 (vmul3 2 (V 7 9 5)) (vadd3 (vadd3 v0 v0) (vmul3 L u))); [rewrite <- A4; unfold u, v0; clear; destruct P; apply vec_eq; cbn; ring|]. unfold u, v0. apply vec_eq; cbn; field.
Qed.
(** two of its mirrors: deviated by 180 degrees in the plane across their edge *)
Example C79_two_example newton : exists es s, physical 1 es /\
  nth_error (geo_trace newton es v0 (V (2/3) (1/3) (2/3)) 1 1 false) 2 = Some s /\
  exists e v U, nth_error es 2 = Some e /\ st_u s = Some v /\ from_normal (e_place e) v = Some U /\ dot U ey = 1/3 /\ dot U (V (2/3) (1/3) (2/3)) = -7/9.
Proof.
  destruct corner_system as (p0 & p1 & p2 & p3 & H). cbv zeta in H. destruct H as (G & F0 & OR & N1 & N2 & N3).
  set (e0 := El p0 None Plain) in *. set (e1 := El p1 None (Sph (Some steel) level)) in *. set (e2 := El p2 None (Sph (Some steel) level)) in *. set (e3 := El p3 None (Sph (Some steel) level)) in *.
  set (es := [e0; e1; e2; e3]) in *. set (u := V (2/3) (1/3) (2/3)).
  assert (UU : dot u u = 1) by (unfold dot, u; cbn; field).
  assert (PM : Forall plane_mirror (firstn 2 (tl es))).
  { cbn [es tl firstn]. repeat apply Forall_cons; [..|apply Forall_nil]; repeat split. }
  assert (IM : Forall (fun e => is_mirror e = true) (firstn 2 (tl es))).
  { cbn [es tl firstn]. repeat apply Forall_cons; [..|apply Forall_nil]; reflexivity. }
  destruct (nth_error (geo_trace newton es v0 u 1 1 false) 2) as [s|] eqn:Hs.
  2:{ exfalso. apply nth_error_None in Hs. unfold es in Hs. cbn [geo_trace length] in Hs. rewrite length_sys in Hs. cbn in Hs. lia. }
  exists es, s. split; [exact G|]. split; [exact Hs|].
  assert (AL : st_y s <> None /\ st_u s <> None).
  { apply (proj2 (C79_mirrors_survive newton es v0 u 1 1 2 s e0 u G Rlt_0_1 UU PM IM eq_refl (F0 u) Hs)).
    intros k e K E. destruct k as [|[|k]]; [..|lia]; cbn [es tl nth_error firstn turns] in E |- *; injection E as <-.
    - rewrite N1. unfold dot, u, ez. cbn. lra.
    - rewrite N2. change (is_mirror e1) with true. cbn iota. rewrite N1. unfold turned, dot, u, ez, ex. cbn. lra. }
  destruct AL as (Y & V'). destruct (st_y s) as [p|] eqn:Hp; [|contradiction]. destruct (st_u s) as [v|] eqn:Hv; [|contradiction].
  destruct (C79_two_mirrors newton es v0 u 1 1 false 2 s e2 p v e0 u e1 e2 G Rlt_0_1 UU PM eq_refl eq_refl (F0 u) Hs eq_refl Hp Hv) as (U & A1 & A2 & A3).
  rewrite N1, N2 in A2, A3. exists e2, v, U. split; [reflexivity|]. split; [reflexivity|]. split; [exact A1|].
  replace (cross ez ex) with ey in A2, A3 by (unfold cross, ex, ey, ez; apply vec_eq; cbn; ring).
  rewrite A2, A3. unfold u, dot, ex, ey, ez. cbn. split; field.
Qed.
(** a tilted glass plate of thickness 2 in air, normal (0, 3/5, 4/5), hit along z *)
Example C79_plate_example newton : exists es s, physical 1 es /\ nth_error (geo_trace newton es v0 ez 1 1 false) 2 = Some s /\
  exists e p v P, nth_error es 2 = Some e /\ st_y s = Some p /\ st_u s = Some v /\ from_normal (e_place e) v = Some ez /\ from_normal (e_place e) p = Some P /\
    vx (vadd3 (V 0 (21/5) (28/5)) P) = 0 /\ vy (vadd3 (V 0 (21/5) (28/5)) P) = 2 * (1 / sqrt (189/100) - 5/4) * (-12/25).
Proof.
  set (N := V 0 (3/5) (4/5)).
  assert (NN : dot N N = 1) by (unfold dot, N; cbn; field).
  assert (NS : (/ 100000000 < Rabs (vx N) \/ / 100000000 < Rabs (vy N)) \/ N = ez) by (left; right; unfold N; cbn; rewrite Rabs_pos_eq; lra).
  destruct launch_frame as (p0 & _ & G0 & O0 & F0).
  destruct (placed 5 N ltac:(lra) NN NS) as (p1 & _ & G1 & O1 & F1).
  destruct (placed 2 N ltac:(lra) NN NS) as (p2 & _ & G2 & O2 & F2).
  set (e0 := El p0 None Plain). set (e1 := El p1 None (Sph (Some (glassy (3/2))) level)). set (e2 := El p2 None (Sph (Some (glassy 1)) level)).
  assert (G : physical 1 [e0; e1; e2]).
  { unfold physical. repeat apply Forall_cons; [..|apply Forall_nil]; split; cbn; auto; intros; lra. }
  assert (OR : origins [e0; e1; e2] = [v0; V 0 3 4; V 0 (21/5) (28/5)]).
  { unfold origins. cbn [map cumsum3 e_place e0 e1 e2]. rewrite O0, O1, O2. unfold v0, N. repeat f_equal; apply vec_eq; cbn; field. }
  assert (L1 : layer N e1) by (split; [unfold normal_of; cbn [e_place e1]; rewrite F1; reflexivity|repeat split]).
  assert (L2 : layer N e2) by (split; [unfold normal_of; cbn [e_place e2]; rewrite F2; reflexivity|repeat split]).
  assert (UU : dot ez ez = 1) by (unfold dot, ez; cbn; ring).
  assert (DN : dot ez N = 4/5) by (unfold dot, ez, N; cbn; field).
  assert (AL2 : dot (along N ez) (along N ez) = 9/25) by (rewrite split_dir, DN by auto; field).
  assert (FE : from_normal (e_place e0) ez = Some ez) by apply F0.
  destruct (nth_error (geo_trace newton [e0; e1; e2] v0 ez 1 1 false) 2) as [s|] eqn:Hs.
  2:{ exfalso. apply nth_error_None in Hs. cbn [geo_trace length] in Hs. rewrite length_sys in Hs. cbn in Hs. lia. }
  destruct (nth_error (geo_trace newton [e0; e1; e2] v0 ez 1 1 false) 1) as [s1|] eqn:Hs1.
  2:{ exfalso. apply nth_error_None in Hs1. cbn [geo_trace length] in Hs1. rewrite length_sys in Hs1. cbn in Hs1. lia. }
  assert (IX : st_n s1 = 3/2 /\ st_n s = 1).
  { revert Hs Hs1. cbn [geo_trace]. cbn [sys_propagate].
    match goal with |- context [propagate newton e1 ?a ?b 1 1 false] => destruct (propagate newton e1 a b 1 1 false) as [[[y1 u1] n1] t1] eqn:P1 end.
    match goal with |- context [propagate newton e2 ?a ?b n1 1 false] => destruct (propagate newton e2 a b n1 1 false) as [[[y2 u2] n2] t2] eqn:P2 end.
    cbn [nth_error]. intros E1 E2. injection E1 as <-. injection E2 as <-. cbn [st_n]. unfold propagate in P1, P2. cbn [e1 e2 e_kind get_n_mu glassy m_mirror m_index] in P1, P2. split; congruence. }
  destruct IX as (I1 & I2).
  assert (AL : st_y s <> None /\ st_u s <> None).
  { apply (proj2 (C79_layers_survive newton [e0; e1; e2] v0 ez 1 1 2 s e0 ez N G Rlt_0_1 UU NN ltac:(cbn; repeat apply Forall_cons; auto) eq_refl FE ltac:(lra) Hs)).
    rewrite AL2. split; [|rewrite I2; lra]. intros [|[|k]] s' K E; [..|lia].
    - cbn [geo_trace nth_error] in E. injection E as <-. cbn [st_n]. lra.
    - rewrite Hs1 in E. injection E as <-. rewrite I1. lra. }
  destruct AL as (Y & V'). destruct (st_y s) as [p|] eqn:Hp; [|contradiction]. destruct (st_u s) as [v|] eqn:Hv; [|contradiction].
  destruct (C79_plate newton e0 e1 e2 v0 ez 1 1 false s1 s p v v0 (V 0 3 4) (V 0 (21/5) (28/5)) v0 ez N G Rlt_0_1 UU NN L1 L2 OR (F0 v0) FE ltac:(lra) Hs1 Hs Hp Hv I2) as (P & A1 & A2 & A3).
  exists [e0; e1; e2], s. split; [exact G|]. split; [exact Hs|]. exists e2, p, v, P. split; [reflexivity|]. split; [exact Hp|]. split; [exact Hv|]. split; [exact A2|]. split; [exact A1|].
  rewrite A3, AL2, I1, DN. replace (3/2 * (3/2) - 1 * 1 * (9/25)) with (189/100) by field.
  assert (SQ : sqrt (189/100) <> 0) by (apply Rgt_not_eq, sqrt_lt_R0; lra). revert SQ. generalize (sqrt (189/100)). intros q SQ.
  unfold along. rewrite DN. unfold N, v0, ez, dot. cbn. split; field; auto.
Qed.

Print Assumptions C79_mirrors_image.
Print Assumptions C79_mirrors_survive.
Print Assumptions C79_corner_cube.
Print Assumptions C79_two_mirrors.
Print Assumptions C79_layers_survive.
Print Assumptions C79_layers.
Print Assumptions C79_plate.
