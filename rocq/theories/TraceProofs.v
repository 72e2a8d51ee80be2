(** System-wide trace invariants. *)
From Coq Require Import Reals List Lra Lia Psatz.
From Verif Require Import Base Vec RotModel RotProofs RotEuler PlacementModel PlacementProofs ElementModel ElementProofs.
Import ListNotations.
Open Scope R_scope.

Definition inside (radius : option R) (y : vec) : Prop :=
  match radius with None => True | Some r => vx y * vx y + vy y * vy y <= r * r end.

Section WithNewton.
Variable newton : (R -> option R) -> (R -> option R) -> option R -> option R.
Notation propagate := (propagate newton).
Notation sys_propagate := (sys_propagate newton).
Notation intercept := (intercept newton).

Lemma propagate_none e y0 u0 n0 l c y u n t : (y0 = None \/ u0 = None) ->
  propagate e y0 u0 n0 l c = (y, u, n, t) -> y = None /\ t = None.
Proof.
  intros H. unfold ElementModel.propagate.
  assert (T : (do y0 <- y0; do u0 <- u0; match e_kind e with Plain => plane_intercept y0 u0 | Sph _ s => intercept s y0 u0 end) = None).
  { destruct y0, u0; cbn; auto; destruct H; discriminate. }
  rewrite T. cbn [obind].
  assert (Y : (do y0 <- y0; do u0 <- u0; @None vec) = None) by (destruct y0, u0; reflexivity).
  rewrite Y. destruct (e_kind e).
  - intros E. injection E; intros; subst; auto.
  - destruct (get_n_mu _ _ _). intros E. injection E; intros; subst; auto.
Qed.

Lemma propagate_clip e y0 u0 n0 l y u n t v :
  propagate e y0 u0 n0 l true = (y, u, n, t) -> u = Some v ->
  exists p, y = Some p /\ inside (e_radius e) p.
Proof.
  unfold ElementModel.propagate.
  set (tt := do y0 <- y0; do u0 <- u0; match e_kind e with Plain => plane_intercept y0 u0 | Sph _ s => intercept s y0 u0 end).
  set (yy := do y0 <- y0; do u0 <- u0; do t <- tt; Some (at_ray y0 u0 t)).
  set (uu := clip (e_radius e) yy u0).
  assert (C : forall w, uu = Some w -> exists p, yy = Some p /\ inside (e_radius e) p).
  { intros w. unfold uu, clip, inside. destruct yy as [p|]; [|discriminate].
    destruct (e_radius e) as [r|]; [|eauto]. unfold r2_of.
    destruct (Rle_dec _ _); [eauto|discriminate]. }
  destruct (e_kind e) as [|m s].
  - intros E ->. injection E; intros; subst. eapply C; eauto.
  - destruct (get_n_mu m n0 l) as [n' [mu|]].
    2:{ intros E ->. injection E; intros; discriminate. }
    intros E ->. injection E as EY EU EN ET. subst y.
    destruct (Req_EM_T mu 0); [eapply C; eauto|].
    unfold refract in EU. destruct (Req_EM_T mu 1); [eapply C; eauto|].
    destruct yy as [p|]; [|discriminate]. cbn [obind] in EU.
    destruct uu as [w|] eqn:W; [|discriminate]. eapply C; eauto.
Qed.

(** a ray dead (position or direction not finite) stays dead *)
Lemma dead_stays es : forall y u n l c j s, (y = None \/ u = None) ->
  nth_error (sys_propagate es y u n l c) j = Some s -> st_y s = None /\ (c = true -> st_u s = None).
Proof.
  induction es as [|e es IH]; intros y u n l c j s H; cbn [ElementModel.sys_propagate].
  { destruct j; discriminate. }
  set (y' := do y <- y; to_normal (e_place e) (vsub3 y (p_offset (e_place e)))).
  set (i := onormal (to_normal (e_place e)) u).
  assert (H' : y' = None \/ i = None).
  { unfold y', i, onormal. destruct H as [ -> | -> ]; cbn; auto. }
  destruct (propagate e y' i n l c) as [[[y1 u1] n1] t1] eqn:P.
  pose proof (propagate_none _ _ _ _ _ _ _ _ _ _ H' P) as [Y1 T1].
  destruct j as [|j]; cbn [nth_error].
  - intros E. injection E as <-. cbn [st_y st_u]. split; auto.
    intros ->. destruct u1 as [v|] eqn:U1; auto.
    destruct (propagate_clip _ _ _ _ _ _ _ _ _ v P eq_refl) as (p & ? & _). congruence.
  - apply IH. left. rewrite Y1. reflexivity.
Qed.

Lemma trace_dead es : forall y u n l c i j si sj, (i < j)%nat ->
  nth_error (sys_propagate es y u n l c) i = Some si ->
  nth_error (sys_propagate es y u n l c) j = Some sj ->
  st_y si = None \/ st_u si = None -> st_y sj = None /\ (c = true -> st_u sj = None).
Proof.
  induction es as [|e es IH]; intros y u n l c i j si sj L; cbn [ElementModel.sys_propagate].
  { destruct i; discriminate. }
  destruct (propagate e _ _ n l c) as [[[y1 u1] n1] t1] eqn:P.
  destruct j as [|j]; [lia|]. destruct i as [|i]; cbn [nth_error].
  - intros E. injection E as <-. cbn [st_y st_u]. intros Hj D. eapply dead_stays; [|exact Hj].
    destruct D as [ -> | -> ]; cbn; auto.
  - intros Hi Hj D. eapply (IH _ _ _ _ _ i j); [lia|exact Hi|exact Hj|exact D].
Qed.

Lemma trace_clip es : forall y u n l i si e v,
  nth_error (sys_propagate es y u n l true) i = Some si -> nth_error es i = Some e ->
  st_u si = Some v -> exists p, st_y si = Some p /\ inside (e_radius e) p.
Proof.
  induction es as [|e es IH]; intros y u n l i si e' v; cbn [ElementModel.sys_propagate].
  { destruct i; discriminate. }
  destruct (propagate e _ _ n l true) as [[[y1 u1] n1] t1] eqn:P.
  destruct i as [|i]; cbn [nth_error].
  - intros E E'. injection E as <-. injection E' as <-. cbn [st_y st_u]. apply (propagate_clip _ _ _ _ _ _ _ _ _ _ P).
  - apply IH.
Qed.

(** ** physical elements *)
(** placement as produced by the class (any constructor arguments and setters) *)
Definition good_place (p : placement) : Prop := normal_form p /\ frame_ok p.
(** index positive at the traced wavelength *)
Definition pos_material (m : option material) (l : R) : Prop :=
  match m with Some m => m_mirror m = false -> 0 < m_index m l | None => True end.
Definition good_element (l : R) (e : element) : Prop :=
  good_place (e_place e) /\ match e_kind e with Plain => True | Sph m _ => pos_material m l end.

Definition ounit (u : option vec) : Prop := forall v, u = Some v -> dot v v = 1.

Lemma surface_normal_nz s p n : surface_normal s p = Some n -> n <> v0.
Proof.
  unfold surface_normal. intros H E. subst n.
  destruct (Req_EM_T (s_c s) 0).
  - destruct (s_asph s); injection H; intros; lra.
  - destruct (fsqrt _); [|discriminate]. cbn [obind] in H.
    destruct (fdiv _ _); [|discriminate]. cbn [obind] in H. injection H; intros; lra.
Qed.

Lemma reflect_normal u0 r : r <> v0 -> refract_normal u0 r (-1) =
  Some (vsub3 u0 (vmul3 (2 * (dot u0 r / dot r r)) r)).
Proof.
  intros N. assert (R2 : dot r r <> 0) by (intros Z; apply dot_zero in Z; contradiction).
  unfold refract_normal. rewrite fdiv_some by auto. cbn [obind].
  destruct (Req_EM_T (-1) (-1)); [|lra]. rewrite Rabs_left by lra.
  f_equal. f_equal. f_equal. f_equal. unfold Rdiv. ring.
Qed.

Lemma refract_unit s y u0 mu v : mu = 1 \/ mu = -1 \/ 0 < mu -> ounit u0 ->
  refract s y u0 mu = Some v -> dot v v = 1.
Proof.
  intros M U. unfold refract. destruct (Req_EM_T mu 1) as [E|E]; [apply U|].
  destruct y as [y|]; [|discriminate]. destruct u0 as [u0|]; [|discriminate]. cbn [obind].
  specialize (U u0 eq_refl).
  destruct (surface_normal s y) as [r|] eqn:N; [|discriminate]. cbn [obind].
  apply surface_normal_nz in N.
  assert (R2 : dot r r <> 0) by (intros Z; apply dot_zero in Z; contradiction).
  destruct M as [M|[M|M]]; [contradiction| |].
  - subst mu. rewrite reflect_normal by auto. intros H. injection H as <-.
    set (a := dot u0 r / dot r r). 
    assert (A : a * dot r r = dot u0 r) by (unfold a; field; auto).
    transitivity (dot u0 u0 - 4 * a * dot u0 r + 4 * a * (a * dot r r)); [vec_ring|].
    rewrite A, U. ring.
  - destruct (refract_normal_pos u0 r mu U N M) as [H1 H2].
    destruct (Rle_dec (mu ^ 2 * dot (cross u0 r) (cross u0 r)) (dot r r)) as [L|L].
    + destruct (H1 L) as (q & _ & Q & ->). intros K. injection K as <-.
      apply (refracted_unit u0 r mu q U R2 Q).
    + rewrite H2 by lra. discriminate.
Qed.

Lemma good_n_mu m n0 l : 0 < n0 -> pos_material m l ->
  exists n mu, get_n_mu m n0 l = (n, Some mu) /\ 0 < n /\ (mu = 1 \/ mu = -1 \/ 0 < mu) /\
    (m = None -> n = n0 /\ mu = 1) /\
    (forall m', m = Some m' -> if m_mirror m' then n = n0 /\ mu = -1 else n = m_index m' l /\ mu * n = n0).
Proof.
  intros N P. unfold get_n_mu. destruct m as [m|].
  - cbn in P. destruct (m_mirror m) eqn:M.
    + exists n0, (-1). split; [auto|]. split; [auto|]. split; [auto|]. split; [discriminate|].
      intros m' E. injection E as <-. rewrite M. auto.
    + specialize (P eq_refl). rewrite fdiv_some by lra.
      eexists; eexists; split; [reflexivity|]. split; [auto|].
      split; [right; right; apply Rdiv_lt_0_compat; auto|]. split; [discriminate|].
      intros m' E. injection E as <-. rewrite M. split; [auto|field; lra].
  - exists n0, 1. repeat split; auto; discriminate.
Qed.

(** one element *)
Lemma propagate_spec e y0 u0 n0 l c y u n t :
  good_element l e -> 0 < n0 -> ounit u0 ->
  propagate e y0 u0 n0 l c = (y, u, n, t) ->
  ounit u /\ 0 < n /\
  (forall p, y = Some p -> exists p0 v0 tt, y0 = Some p0 /\ u0 = Some v0 /\
     t = Some (tt * n0) /\ p = at_ray p0 v0 tt /\
     match e_kind e with
     | Plain => vz p = 0
     | Sph _ s => intercept s p0 v0 = Some tt /\
        (s_asph s = None -> if Req_EM_T (s_c s) 0 then vz p = 0 else quadric (s_c s) (s_k s) p = 0)
     end).
Proof.
  intros (GP & GM) N U. unfold ElementModel.propagate.
  set (tt := do y0 <- y0; do u0 <- u0; match e_kind e with Plain => plane_intercept y0 u0 | Sph _ s => intercept s y0 u0 end).
  set (yy := do y0 <- y0; do u0 <- u0; do t <- tt; Some (at_ray y0 u0 t)).
  set (uu := if c then clip (e_radius e) yy u0 else u0).
  assert (UU : ounit uu).
  { intros v. unfold uu, clip. destruct c; [|apply U].
    destruct yy as [p|]; [|discriminate]. destruct (e_radius e) as [r|]; [|apply U].
    destruct (Rle_dec _ _); [apply U|discriminate]. }
  assert (PT : forall p, yy = Some p -> exists p0 v0 t0, y0 = Some p0 /\ u0 = Some v0 /\
     tt = Some t0 /\ p = at_ray p0 v0 t0 /\
     match e_kind e with
     | Plain => vz p = 0
     | Sph _ s => intercept s p0 v0 = Some t0 /\
        (s_asph s = None -> if Req_EM_T (s_c s) 0 then vz p = 0 else quadric (s_c s) (s_k s) p = 0)
     end).
  { intros p. unfold yy. destruct y0 as [p0|]; [|discriminate]. destruct u0 as [w0|]; [|discriminate].
    cbn [obind]. destruct tt as [t0|] eqn:T; [|discriminate]. cbn [obind]. intros E. injection E as <-.
    exists p0, w0, t0. split; [auto|]. split; [auto|]. split; [auto|]. split; [auto|].
    unfold tt in T. cbn [obind] in T. 
    assert (PL : forall a b d, fdiv (- vz a) (vz b) = Some d -> vz (at_ray a b d) = 0).
    { intros a b d H. apply fdiv_inv in H. destruct H as (H & ->).
      unfold at_ray, vadd3, vmul3. cbn [vz]. field. auto. }
    destruct (e_kind e) as [|m s].
    - apply PL. exact T.
    - split; [exact T|]. intros A. unfold ElementModel.intercept in T. rewrite A in T.
      destruct (Req_EM_T (s_c s) 0) as [C|C].
      + unfold conic_intercept in T. destruct (Req_EM_T (s_c s) 0); [|contradiction]. apply PL; auto.
      + apply conic_on_quadric; auto. }
  destruct (e_kind e) as [|m s].
  - intros E. injection E as <- <- <- <-. split; [auto|]. split; [auto|].
    intros p HP. destruct (PT p HP) as (p0 & w0 & t0 & -> & -> & -> & ? & ?).
    exists p0, w0, t0. repeat split; auto.
  - destruct (good_n_mu m n0 l N GM) as (n' & mu & -> & N' & M & _).
    intros E. injection E as <- <- <- <-. split; [|split; auto].
    + intros v. destruct (Req_EM_T mu 0); [apply UU|]. apply refract_unit; auto.
    + intros p HP. destruct (PT p HP) as (p0 & w0 & t0 & -> & -> & -> & ? & ?).
      exists p0, w0, t0. repeat split; auto; apply H0.
Qed.

Lemma normal_maps p : good_place p -> exists r, rotation r /\
  (forall y, from_normal p y = Some (vm y r)) /\ (forall y, to_normal p y = Some (vm y (mT r))).
Proof. intros (_ & F). apply normal_rigid; auto. Qed.

(** one element in the lab frame *)
Lemma lab_step e y0 u0 n0 l c y u n t : good_element l e -> 0 < n0 -> ounit u0 ->
  propagate e (do y <- y0; to_normal (e_place e) (vsub3 y (p_offset (e_place e))))
    (onormal (to_normal (e_place e)) u0) n0 l c = (y, u, n, t) ->
  ounit u /\ 0 < n /\ ounit (onormal (from_normal (e_place e)) u) /\
  (forall p, y = Some p -> exists P0 U0 P tt, y0 = Some P0 /\ u0 = Some U0 /\
     from_normal (e_place e) p = Some P /\ t = Some (tt * n0) /\
     vadd3 P (p_offset (e_place e)) = vadd3 P0 (vmul3 tt U0) /\
     match e_kind e with
     | Plain => vz p = 0
     | Sph _ s => s_asph s = None -> if Req_EM_T (s_c s) 0 then vz p = 0 else quadric (s_c s) (s_k s) p = 0
     end /\
     match e_kind e with
     | Sph _ s => exists p0 v0, to_normal (e_place e) (vsub3 P0 (p_offset (e_place e))) = Some p0 /\
        to_normal (e_place e) U0 = Some v0 /\ intercept s p0 v0 = Some tt /\ p = at_ray p0 v0 tt
     | Plain => True
     end).
Proof.
  intros G N U. pose proof G as (GP & _). destruct (normal_maps _ GP) as (r & R & F & T).
  intros P.
  assert (UI : ounit (onormal (to_normal (e_place e)) u0)).
  { intros v. unfold onormal. destruct u0 as [w|]; [|discriminate]. cbn [obind]. rewrite T.
    intros E. injection E as <-. rewrite rotation_dot by (apply rotation_mT; auto). apply U; auto. }
  destruct (propagate_spec _ _ _ _ _ _ _ _ _ _ G N UI P) as (A & B & C).
  split; [auto|]. split; [auto|]. split.
  { intros v. unfold onormal. destruct u as [w|]; [|discriminate]. cbn [obind]. rewrite F.
    intros E. injection E as <-. rewrite rotation_dot by auto. apply A; auto. }
  intros p Hp. destruct (C p Hp) as (p0 & w0 & tt & Y0 & U0 & HT & HP & HS).
  unfold onormal in U0. destruct y0 as [P0|]; [|discriminate]. destruct u0 as [W0|]; [|discriminate].
  cbn [obind] in *. rewrite T in *. injection Y0 as <-. injection U0 as <-.
  exists P0, W0, (vm p r), tt. repeat split; auto.
  - subst p. unfold at_ray. rewrite vm_add, vm_scale, !rotation_inv_l by auto. vec_ring.
  - destruct (e_kind e); [auto|]. apply HS.
  - destruct (e_kind e); [auto|]. rewrite T. eexists; eexists. repeat split; eauto. apply HS.
Qed.
End WithNewton.

(** ** whole traces *)
Section Traces.
Variable newton : (R -> option R) -> (R -> option R) -> option R -> option R.
Notation propagate := (propagate newton).
Notation sys_propagate := (sys_propagate newton).
Notation intercept := (intercept newton).

(** what a trace step is computed from *)
Lemma trace_step es : forall y u n l c i e s, Forall (good_element l) es -> 0 < n -> ounit u ->
  nth_error es i = Some e -> nth_error (sys_propagate es y u n l c) i = Some s ->
  exists y0 u0 n0, 0 < n0 /\ ounit u0 /\
    propagate e (do y <- y0; to_normal (e_place e) (vsub3 y (p_offset (e_place e))))
      (onormal (to_normal (e_place e)) u0) n0 l c = (st_y s, st_u s, st_n s, st_t s) /\
    st_i s = onormal (to_normal (e_place e)) u0 /\
    match i with
    | O => y0 = y /\ u0 = u /\ n0 = n
    | S j => forall e' s', nth_error es j = Some e' -> nth_error (sys_propagate es y u n l c) j = Some s' ->
        y0 = onormal (from_normal (e_place e')) (st_y s') /\
        u0 = onormal (from_normal (e_place e')) (st_u s') /\ n0 = st_n s'
    end.
Proof.
  induction es as [|e0 es IH]; intros y u n l c i e s G N U; [destruct i; discriminate|].
  inversion G as [|? ? G0 GS]; subst.
  cbn [ElementModel.sys_propagate].
  destruct (propagate e0 _ _ n l c) as [[[y1 u1] n1] t1] eqn:P.
  destruct (lab_step newton e0 y u n l c y1 u1 n1 t1 G0 N U P) as (A & B & C & _).
  destruct i as [|i]; cbn [nth_error].
  - intros E S. injection E as <-. injection S as <-. exists y, u, n. cbn [st_y st_u st_n st_t st_i].
    rewrite P. auto 10.
  - intros E S. destruct (IH _ _ _ _ _ _ _ _ GS B C E S) as (y0 & u0 & n0 & H1 & H2 & H3 & H4 & H5).
    exists y0, u0, n0. repeat (split; [assumption|]).
    destruct i as [|j].
    + intros e' s' E' S'. injection E' as <-. injection S' as <-. exact H5.
    + cbn [nth_error]. exact H5.
Qed.

Lemma length_sys es : forall y u n l c, length (sys_propagate es y u n l c) = length es.
Proof.
  induction es as [|e es IH]; intros; cbn [ElementModel.sys_propagate]; [reflexivity|].
  destruct (propagate e _ _ n l c) as [[[? ?] ?] ?]. cbn [length]. rewrite IH. reflexivity.
Qed.

Lemma cumsum_step l : forall a i x y z, nth_error (cumsum3 a l) i = Some x -> nth_error (cumsum3 a l) (S i) = Some y ->
  nth_error l (S i) = Some z -> y = vadd3 x z.
Proof.
  induction l as [|v l IH]; intros a i x y z; [destruct i; discriminate|].
  cbn [cumsum3]. destruct i as [|i].
  - cbn [nth_error]. destruct l as [|w l]; [discriminate|]. cbn [cumsum3 nth_error]. congruence.
  - intros H1 H2 H3. cbn [nth_error] in H1. change (nth_error (cumsum3 (vadd3 a v) l) (S i) = Some y) in H2.
    change (nth_error l (S i) = Some z) in H3. eapply IH; eauto.
Qed.
Lemma length_cumsum l : forall a, length (cumsum3 a l) = length l.
Proof. induction l; intros; cbn; auto. Qed.
End Traces.
