(** Properties C15, C16: whole-system ray trace. *)
From Coq Require Import Reals List Lra Lia Psatz.
From Verif Require Import Base Vec RotModel RotProofs RotEuler PlacementModel PlacementProofs ElementModel ElementProofs TraceProofs PropsElement.
Import ListNotations.
Open Scope R_scope.

Section Trace.
(** any behaviour of the numerical root finder used for aspheric surfaces *)
Variable newton : (R -> option R) -> (R -> option R) -> option R -> option R.
Notation trace := (geo_trace newton).

(** * C15 *)
(** a ray that still has a direction after element j passed the clear aperture of
    every element up to j (element 0 carries the launched ray) *)
Theorem C15_valid_inside es y u n l i j si sj e : (1 <= i <= j)%nat ->
  nth_error (trace es y u n l true) i = Some si ->
  nth_error (trace es y u n l true) j = Some sj ->
  nth_error es i = Some e -> st_u sj <> None ->
  exists p, st_y si = Some p /\
    forall r, e_radius e = Some r -> vx p * vx p + vy p * vy p <= r * r.
Proof.
  intros L Hi Hj He V. destruct es as [|e0 es]; [destruct i; discriminate|].
  destruct i as [|i]; [lia|]. destruct j as [|j]; [lia|].
  cbn [geo_trace nth_error] in *.
  assert (U : exists v, st_u si = Some v).
  { destruct (Nat.eq_dec i j) as [<-|D].
    - rewrite Hi in Hj. injection Hj as <-. destruct (st_u si); [eauto|contradiction].
    - destruct (st_u si) eqn:U; [eauto|]. exfalso. apply V.
      eapply (trace_dead newton es); [ |exact Hi|exact Hj|right; exact U|reflexivity]. lia. }
  destruct U as (v & U). destruct (trace_clip newton es _ _ _ _ _ _ _ v Hi He U) as (p & P & I).
  exists p. split; [auto|]. intros r R. unfold inside in I. rewrite R in I. exact I.
Qed.

(** clipped, missed and totally reflected rays never come back, with or without
    clipping *)
Theorem C15_lost_stays_lost es y u n l c i j si sj : (i < j)%nat ->
  nth_error (trace es y u n l c) i = Some si ->
  nth_error (trace es y u n l c) j = Some sj ->
  st_y si = None \/ st_u si = None ->
  st_y sj = None /\ (c = true -> st_u sj = None).
Proof.
  intros L Hi Hj D. destruct es as [|e0 es]; [destruct i; discriminate|].
  destruct j as [|j]; [lia|]. cbn [geo_trace nth_error] in *. destruct i as [|i].
  - injection Hi as <-. destruct D; discriminate.
  - cbn [nth_error] in Hi. eapply (trace_dead newton es); [ |exact Hi|exact Hj|exact D]. lia.
Qed.

(** conversely clipping removes only rays outside an aperture: where the clipped
    trace has a direction it agrees with the unclipped one *)
Lemma clip_conservative es : forall y u n l i s,
  nth_error (sys_propagate newton es y u n l true) i = Some s -> st_u s <> None ->
  nth_error (sys_propagate newton es y u n l false) i = Some s.
Proof.
  induction es as [|e es IH]; intros y u n l i s; [destruct i; discriminate|].
  cbn [sys_propagate].
  set (y' := do y <- y; to_normal (e_place e) (vsub3 y (p_offset (e_place e)))).
  set (i' := onormal (to_normal (e_place e)) u).
  destruct (propagate newton e y' i' n l true) as [[[y1 u1] n1] t1] eqn:P.
  destruct (propagate newton e y' i' n l false) as [[[y2 u2] n2] t2] eqn:Q.
  assert (K : y1 = y2 /\ n1 = n2 /\ t1 = t2 /\ (u1 <> None -> u1 = u2)).
  { unfold propagate in P, Q.
    set (tt := do y0 <- y'; do u0 <- i'; match e_kind e with Plain => plane_intercept y0 u0 | Sph _ s => intercept newton s y0 u0 end) in *.
    set (yy := do y0 <- y'; do u0 <- i'; do t <- tt; Some (at_ray y0 u0 t)) in *.
    assert (C : clip (e_radius e) yy i' = i' \/ clip (e_radius e) yy i' = None).
    { unfold clip. destruct yy; auto. destruct (e_radius e); auto. destruct (Rle_dec _ _); auto. }
    destruct (e_kind e) as [|m sf].
    - injection P as <- <- <- <-. injection Q as <- <- <- <-. repeat split; auto.
      intros V. destruct C; congruence.
    - destruct (get_n_mu m n l) as [n' [mu|]].
      + injection P as <- <- <- <-. injection Q as <- <- <- <-. repeat split; auto.
        destruct C as [C|C]; rewrite C; auto.
        destruct (Req_EM_T mu 0); [congruence|]. unfold refract.
        destruct (Req_EM_T mu 1); [congruence|]. destruct yy; cbn [obind]; congruence.
      + injection P as <- <- <- <-. injection Q as <- <- <- <-. repeat split; auto. }
  destruct K as (-> & -> & -> & K).
  destruct i as [|i]; cbn [nth_error].
  - intros E V. injection E as <-. cbn [st_u] in V. rewrite K by auto. reflexivity.
  - intros E V. destruct u1 as [v|] eqn:U1.
    + rewrite <- K by discriminate. apply IH; auto.
    + exfalso. apply V.
      eapply (dead_stays newton es _ (onormal (from_normal (e_place e)) None)); [|exact E|reflexivity].
      right. reflexivity.
Qed.
Theorem C15_clip_conservative es y u n l i s :
  nth_error (trace es y u n l true) i = Some s -> st_u s <> None ->
  nth_error (trace es y u n l false) i = Some s.
Proof.
  destruct es as [|e es]; [destruct i; discriminate|]. cbn [geo_trace].
  destruct i as [|i]; cbn [nth_error]; [auto|]. apply clip_conservative.
Qed.

(** * C16 *)
(** every material has a positive index at the traced wavelength and every
    placement was produced by the constructor and the setters of the class *)
Definition physical (l : R) (es : list element) : Prop := Forall (good_element l) es.

Lemma trace_good es y u n l c i e s : physical l es -> 0 < n -> dot u u = 1 ->
  nth_error es i = Some e -> nth_error (trace es y u n l c) i = Some s ->
  ounit (st_u s) /\ ounit (st_i s) /\ 0 < st_n s.
Proof.
  intros G N U He Hs. destruct es as [|e0 es]; [destruct i; discriminate|].
  assert (G0 : good_element l e0) by (inversion G; auto).
  assert (GS : Forall (good_element l) es) by (inversion G; auto).
  cbn [geo_trace] in Hs. destruct i as [|i]; cbn [nth_error] in *.
  - injection Hs as <-. cbn. repeat split; auto; intros v E; congruence.
  - destruct (normal_maps (e_place e0) (proj1 G0)) as (r & R & F & T). rewrite !F in Hs.
    assert (U' : ounit (from_normal (e_place e0) u)).
    { intros v. rewrite F. intros E. injection E as <-. rewrite rotation_dot; auto. }
    rewrite F in U'.
    destruct (trace_step newton es _ _ _ _ _ _ _ _ GS N U' He Hs) as (y0 & u0 & n0 & N0 & UU & P & I & _).
    assert (GE : good_element l e).
    { unfold physical in G. rewrite Forall_forall in GS. apply GS. eapply nth_error_In; eauto. }
    destruct (lab_step newton e y0 u0 n0 l c _ _ _ _ GE N0 UU P) as (A & B & _).
    split; [auto|]. split; [|auto]. rewrite I. intros v. unfold onormal.
    destruct u0 as [w|]; [|discriminate]. cbn [obind].
    destruct (normal_maps (e_place e) (proj1 GE)) as (r' & R' & F' & T'). rewrite T'.
    intros E. injection E as <-. rewrite rotation_dot by (apply rotation_mT; auto). apply UU. auto.
Qed.

(** all directions, before and after refraction, are unit vectors *)
Theorem C16_unit_directions es y u n l c i e s : physical l es -> 0 < n -> dot u u = 1 ->
  nth_error es i = Some e -> nth_error (trace es y u n l c) i = Some s ->
  (forall v, st_u s = Some v -> dot v v = 1) /\ (forall v, st_i s = Some v -> dot v v = 1) /\ 0 < st_n s.
Proof. apply trace_good. Qed.

(** points of an element that needs no root finder are on the element's surface *)
Definition on_surface (e : element) (p : vec) : Prop :=
  match e_kind e with
  | Plain => vz p = 0
  | Sph _ s => s_c s * (vx p * vx p + vy p * vy p + (1 + s_k s) * (vz p * vz p)) = 2 * vz p
  end.
Definition analytic (e : element) : Prop :=
  match e_kind e with Plain => True | Sph _ s => s_asph s = None end.

Lemma trace_pair es y u n l c i e e' s s' : physical l es -> 0 < n -> dot u u = 1 ->
  nth_error es i = Some e -> nth_error es (S i) = Some e' ->
  nth_error (trace es y u n l c) i = Some s -> nth_error (trace es y u n l c) (S i) = Some s' ->
  forall p, st_y s' = Some p -> exists P0 U0 P tt,
    onormal (from_normal (e_place e)) (st_y s) = Some P0 /\
    onormal (from_normal (e_place e)) (st_u s) = Some U0 /\
    from_normal (e_place e') p = Some P /\ st_t s' = Some (tt * st_n s) /\
    vadd3 P (p_offset (e_place e')) = vadd3 P0 (vmul3 tt U0) /\ dot U0 U0 = 1 /\
    match e_kind e' with
    | Plain => vz p = 0
    | Sph _ s => s_asph s = None -> if Req_EM_T (s_c s) 0 then vz p = 0 else quadric (s_c s) (s_k s) p = 0
    end /\
    match e_kind e' with
    | Sph _ s => exists p0 v0, to_normal (e_place e') (vsub3 P0 (p_offset (e_place e'))) = Some p0 /\
       to_normal (e_place e') U0 = Some v0 /\ intercept newton s p0 v0 = Some tt /\ p = at_ray p0 v0 tt
    | Plain => True
    end.
Proof.
  intros G N U He He' Hs Hs' p Hp. destruct es as [|e0 es]; [destruct i; discriminate|].
  assert (G0 : good_element l e0) by (inversion G; auto).
  assert (GS : Forall (good_element l) es) by (inversion G; auto).
  destruct (normal_maps (e_place e0) (proj1 G0)) as (r & R & F & T).
  cbn [geo_trace] in Hs, Hs'. rewrite !F in Hs, Hs'.
  assert (U' : ounit (Some (vm u r))).
  { intros v E. injection E as <-. rewrite rotation_dot; auto. }
  change (nth_error es i = Some e') in He'.
  change (nth_error (sys_propagate newton es (Some (vm y r)) (Some (vm u r)) n l c) i = Some s') in Hs'.
  destruct (trace_step newton es _ _ _ _ _ _ _ _ GS N U' He' Hs') as (y0 & u0 & n0 & N0 & UU & P & I & L).
  assert (GE : good_element l e').
  { rewrite Forall_forall in GS. apply GS. eapply nth_error_In; eauto. }
  destruct (lab_step newton e' y0 u0 n0 l c _ _ _ _ GE N0 UU P) as (_ & _ & _ & C).
  destruct (C p Hp) as (P0 & U0 & PP & tt & Y0 & V0 & FP & HT & EQ & SF & NW).
  exists P0, U0, PP, tt. 
  assert (K : y0 = onormal (from_normal (e_place e)) (st_y s) /\
    u0 = onormal (from_normal (e_place e)) (st_u s) /\ n0 = st_n s).
  { destruct i as [|j].
    - cbn [nth_error] in *. injection Hs as <-. injection He as <-. cbn [st_y st_u st_n onormal obind].
      rewrite !F. exact L.
    - cbn [nth_error] in Hs, He. apply L; auto. }
  destruct K as (K1 & K2 & K3). rewrite <- K1, <- K2, <- K3.
  repeat (split; [solve [auto]|]). auto.
Qed.

Theorem C16_on_surface es y u n l c i e e' s s' : physical l es -> 0 < n -> dot u u = 1 ->
  nth_error es i = Some e -> nth_error es (S i) = Some e' ->
  nth_error (trace es y u n l c) i = Some s -> nth_error (trace es y u n l c) (S i) = Some s' ->
  analytic e' -> forall p, st_y s' = Some p -> on_surface e' p.
Proof.
  intros G N U He He' Hs Hs' A p Hp.
  destruct (trace_pair _ _ _ _ _ _ _ _ _ _ _ G N U He He' Hs Hs' p Hp)
    as (P0 & U0 & P & tt & _ & _ & _ & _ & _ & _ & SF & _).
  unfold on_surface. unfold analytic in A. destruct (e_kind e') as [|m sf]; [auto|].
  specialize (SF A). destruct (Req_EM_T (s_c sf) 0) as [Z|Z]; [rewrite Z, SF; ring|].
  unfold quadric, r2_of in SF. nra.
Qed.

(** for aspheric surfaces the point is on the surface if the root finder delivers
    roots *)
Theorem C16_on_asphere es y u n l c i e e' s s' m sf : physical l es -> 0 < n -> dot u u = 1 ->
  nth_error es i = Some e -> nth_error es (S i) = Some e' ->
  nth_error (trace es y u n l c) i = Some s -> nth_error (trace es y u n l c) (S i) = Some s' ->
  e_kind e' = Sph m sf -> s_asph sf <> None ->
  (forall f f' x0 x, newton f f' x0 = Some x -> f x = Some 0) ->
  forall p, st_y s' = Some p -> surface_sag sf p = Some 0.
Proof.
  intros G N U He He' Hs Hs' K A O p Hp.
  destruct (trace_pair _ _ _ _ _ _ _ _ _ _ _ G N U He He' Hs Hs' p Hp)
    as (P0 & U0 & P & tt & _ & _ & _ & _ & _ & _ & _ & NW).
  rewrite K in NW. destruct NW as (p0 & w0 & _ & _ & I & ->).
  unfold intercept in I. destruct (s_asph sf); [|contradiction].
  unfold newton_intercept in I. apply O in I. exact I.
Qed.

(** lab frame: from one element to the next the ray runs straight along its
    direction, over the length whose optical length is the reported path *)
Theorem C16_straight_lines es y u n l c i e e' s s' o o' : physical l es -> 0 < n -> dot u u = 1 ->
  nth_error es i = Some e -> nth_error es (S i) = Some e' ->
  nth_error (trace es y u n l c) i = Some s -> nth_error (trace es y u n l c) (S i) = Some s' ->
  nth_error (origins es) i = Some o -> nth_error (origins es) (S i) = Some o' ->
  forall p', st_y s' = Some p' ->
  exists p v P P' U t, st_y s = Some p /\ st_u s = Some v /\
    from_normal (e_place e) p = Some P /\ from_normal (e_place e) v = Some U /\
    from_normal (e_place e') p' = Some P' /\
    dot U U = 1 /\ st_t s' = Some (st_n s * t) /\
    vsub3 (vadd3 o' P') (vadd3 o P) = vmul3 t U.
Proof.
  intros G N U He He' Hs Hs' Ho Ho' p' Hp.
  destruct (trace_pair _ _ _ _ _ _ _ _ _ _ _ G N U He He' Hs Hs' p' Hp)
    as (P0 & U0 & P & tt & A & B & C & D & E & UU & _).
  destruct (st_y s) as [p|]; [|discriminate]. destruct (st_u s) as [v|]; [|discriminate].
  exists p, v, P0, P, U0, tt. cbn [onormal obind] in A, B.
  repeat (split; [solve [auto]|]). split; [rewrite D; f_equal; ring|].
  unfold origins in Ho, Ho'.
  rewrite (cumsum_step _ _ _ _ _ (p_offset (e_place e')) Ho Ho').
  - transitivity (vsub3 (vadd3 P (p_offset (e_place e'))) P0); [vec_ring|]. rewrite E. vec_ring.
  - rewrite nth_error_map, He'. reflexivity.
Qed.

(** at a refracting or reflecting element the reported directions obey the law of
    refraction/reflection of C10, C11 with the surface normal at the hit point *)
Theorem C16_surface_laws es y u n l c i e e' s s' v : physical l es -> 0 < n -> dot u u = 1 ->
  nth_error es i = Some e -> nth_error es (S i) = Some e' ->
  nth_error (trace es y u n l c) i = Some s -> nth_error (trace es y u n l c) (S i) = Some s' ->
  st_y s' <> None -> st_u s' = Some v -> exists w p, st_i s' = Some w /\ st_y s' = Some p /\
  match e_kind e' with
  | Plain | Sph None _ => v = w /\ st_n s' = st_n s
  | Sph (Some m) sf =>
      if m_mirror m then
        exists N, surface_normal sf p = Some N /\ mirrored w v N /\ st_n s' = st_n s
      else st_n s' = m_index m l /\
        if Req_EM_T (st_n s') (st_n s) then v = w
        else exists N, surface_normal sf p = Some N /\ snell (st_n s) (st_n s') w v N
  end.
Proof.
  intros G N U He He' Hs Hs' YY V.
  destruct (trace_good _ _ _ _ _ _ _ _ _ G N U He Hs) as (_ & _ & Npos).
  destruct es as [|e0 es]; [destruct i; discriminate|].
  assert (G0 : good_element l e0) by (inversion G; auto).
  assert (GS : Forall (good_element l) es) by (inversion G; auto).
  destruct (normal_maps (e_place e0) (proj1 G0)) as (r & R & F & T).
  cbn [geo_trace] in Hs, Hs'. rewrite !F in Hs, Hs'.
  assert (U' : ounit (Some (vm u r))).
  { intros w E. injection E as <-. rewrite rotation_dot; auto. }
  change (nth_error es i = Some e') in He'.
  change (nth_error (sys_propagate newton es (Some (vm y r)) (Some (vm u r)) n l c) i = Some s') in Hs'.
  destruct (trace_step newton es _ _ _ _ _ _ _ _ GS N U' He' Hs') as (y0 & u0 & n0 & N0 & UU & P & I & L).
  assert (GE : good_element l e').
  { rewrite Forall_forall in GS. apply GS. eapply nth_error_In; eauto. }
  assert (K : n0 = st_n s).
  { destruct i as [|j].
    - cbn [nth_error] in *. injection Hs as <-. apply L.
    - cbn [nth_error] in Hs, He. apply (L e s); auto. }
  subst n0. clear L.
  assert (UI : ounit (st_i s')).
  { rewrite I. intros w. unfold onormal. destruct u0 as [w0|]; [|discriminate]. cbn [obind].
    destruct (normal_maps (e_place e') (proj1 GE)) as (r' & R' & F' & T'). rewrite T'.
    intros E. injection E as <-. rewrite rotation_dot by (apply rotation_mT; auto). apply UU. auto. }
  rewrite <- I in P. set (ii := st_i s') in *.
  unfold propagate in P.
  match type of P with context [if c then clip _ ?a _ else _] => set (yy := a) in * end.
  assert (UC : forall w, (if c then clip (e_radius e') yy ii else ii) = Some w -> ii = Some w).
  { intros w. destruct c; auto. unfold clip. destruct yy; [|discriminate].
    destruct (e_radius e'); auto. destruct (Rle_dec _ _); [auto|discriminate]. }
  destruct GE as (_ & GM).
  destruct (e_kind e') as [|m sf].
  - injection P as P1 P2 P3 P4. rewrite V in P2. apply UC in P2.
    destruct (st_y s') as [p|]; [|contradiction]. exists v, p. repeat split; auto.
  - destruct (get_n_mu m (st_n s) l) as [n' om] eqn:NM.
    injection P as P1 P2 P3 P4. rewrite V in P2. rewrite P1 in P2, UC.
    destruct (st_y s') as [p|] eqn:Yp; [|contradiction].
    set (uc := if c then clip (e_radius e') (Some p) ii else ii) in *.
    destruct m as [m|].
    + destruct (m_mirror m) eqn:MI.
      * unfold get_n_mu in NM. rewrite MI in NM. injection NM as <- <-.
        destruct (Req_EM_T (-1) 0); [lra|]. unfold refract in P2. destruct (Req_EM_T (-1) 1); [lra|].
        cbn [obind] in P2. destruct uc as [w|] eqn:W; [|discriminate]. cbn [obind] in P2.
        specialize (UC w eq_refl). exists w, p. split; [auto|]. split; [auto|].
        destruct (surface_normal sf p) as [NN|] eqn:SN; [|discriminate]. cbn [obind] in P2.
        destruct (C11_reflection w NN (UI w UC) (surface_normal_nz _ _ _ SN)) as (v' & E & M & _).
        rewrite P2 in E. injection E as <-. exists NN. auto.
      * assert (MP : 0 < m_index m l) by (apply GM; auto).
        unfold get_n_mu in NM. rewrite MI, fdiv_some in NM by lra. injection NM as <- <-.
        assert (MU : 0 < st_n s / m_index m l) by (apply Rdiv_lt_0_compat; auto).
        destruct (Req_EM_T (st_n s / m_index m l) 0); [lra|].
        unfold refract in P2. 
        destruct (Req_EM_T (st_n s / m_index m l) 1) as [E1|E1].
        -- apply UC in P2. exists v, p. split; [auto|]. split; [auto|]. split; [auto|].
           destruct (Req_EM_T (st_n s') (st_n s)) as [|NE]; [auto|].
           exfalso. apply NE. rewrite <- P3. apply (f_equal (fun z => z * m_index m l)) in E1.
           replace (st_n s / m_index m l * m_index m l) with (st_n s) in E1 by (field; lra). lra.
        -- cbn [obind] in P2. destruct uc as [w|] eqn:W; [|discriminate]. cbn [obind] in P2.
           specialize (UC w eq_refl). exists w, p. split; [auto|]. split; [auto|]. split; [auto|].
           destruct (Req_EM_T (st_n s') (st_n s)) as [EE|NE].
           ++ exfalso. apply E1. rewrite <- EE, <- P3. field. lra.
           ++ destruct (surface_normal sf p) as [NN|] eqn:SN; [|discriminate]. cbn [obind] in P2.
              exists NN. split; [auto|]. rewrite <- P3.
              apply (C10_snell (st_n s) (m_index m l) w NN Npos MP (UI w UC) (surface_normal_nz _ _ _ SN)). auto.
    + unfold get_n_mu in NM. injection NM as <- <-. destruct (Req_EM_T 1 0); [lra|].
      unfold refract in P2. destruct (Req_EM_T 1 1); [|lra]. apply UC in P2.
      exists v, p. auto.
Qed.
End Trace.

(** a placement along the axis at distance d *)
Lemma on_axis d : 0 <= d -> exists p, init d ez v0 None = Some p /\ normal_form p /\ frame_ok p /\
  p_offset p = V 0 0 d /\ (forall y, from_normal p y = Some y) /\ (forall y, to_normal p y = Some y).
Proof.
  intros D. destruct (init_spec d ez v0 None) as (p & E & NF & FO). exists p.
  split; [auto|]. split; [auto|]. split; [auto|].
  unfold init in E. 
  assert (U : unit_or_axis ez = Some ez).
  { destruct (unit_or_axis_spec ez) as (u & -> & _ & _ & _ & H). rewrite H; auto. unfold dot, ez; cbn; ring. }
  unfold update in E. rewrite U in E. cbn [obind] in E. destruct (Rlt_dec d 0); [lra|].
  assert (S1 : allclose ez ez = true).
  { apply allclose_ez. unfold ez, tol; cbn [vx vy vz]. rewrite Rabs_R0. unfold Rminus. rewrite Rplus_opp_r, Rabs_R0. lra. }
  assert (S2 : allclose v0 v0 = true).
  { apply allclose_v0. unfold v0, tol; cbn [vx vy vz]. rewrite Rabs_R0. lra. }
  rewrite S1, S2 in E. cbn [andb obind] in E. injection E as <-. cbn [p_offset].
  split; [apply vec_eq; unfold ez; cbn; ring|].
  split; intros; reflexivity.
Qed.

(** object plane, aperture of radius 1 at distance 5: a ray at height 1/2 parallel to
    the axis passes, one at height 2 is clipped *)
Example C15_example newton : exists es, physical 1 es /\
  (exists s, nth_error (geo_trace newton es (V 0 (1/2) 0) ez 1 1 true) 1 = Some s /\ st_u s = Some ez /\ st_y s = Some (V 0 (1/2) 0)) /\
  (exists s, nth_error (geo_trace newton es (V 0 2 0) ez 1 1 true) 1 = Some s /\ st_u s = None).
Proof.
  destruct (on_axis 0) as (p0 & _ & NF0 & FO0 & O0 & F0 & T0); [lra|].
  destruct (on_axis 5) as (p1 & _ & NF1 & FO1 & O1 & F1 & T1); [lra|].
  exists [El p0 None Plain; El p1 (Some 1) Plain].
  split; [unfold physical; repeat apply Forall_cons; [..|apply Forall_nil]; split; cbn; auto; split; auto|].
  assert (K : forall h, sys_propagate newton [El p1 (Some 1) Plain] (Some (V 0 h 0)) (Some ez) 1 1 true =
    [Step (Some (V 0 h 0)) (if Rle_dec (h * h) 1 then Some ez else None) 1 (Some ez) (Some 5)]).
  { intros h. cbn [sys_propagate e_place obind onormal]. rewrite O1, !T1. unfold propagate. cbn [e_kind e_radius obind].
    unfold plane_intercept. rewrite fdiv_some by (unfold ez; cbn; lra). cbn [obind].
    replace (- vz (vsub3 (V 0 h 0) (V 0 0 5)) / vz ez) with 5 by (unfold ez; cbn; field).
    replace (at_ray (vsub3 (V 0 h 0) (V 0 0 5)) ez 5) with (V 0 h 0).
    2:{ apply vec_eq; unfold at_ray, ez; cbn; ring. }
    unfold clip, r2_of. cbn [vx vy vz]. rewrite Rmult_1_r.
    replace (0 * 0 + h * h) with (h * h) by ring. rewrite Rmult_1_r. reflexivity. }
  split; cbn [geo_trace e_place nth_error]; rewrite !F0.
  - rewrite K. eexists; split; [reflexivity|]. cbn [st_u st_y]. destruct (Rle_dec _ _); [auto|lra].
  - rewrite K. eexists; split; [reflexivity|]. cbn [st_u]. destruct (Rle_dec _ _); [lra|auto].
Qed.

(** a refracting system meeting the hypotheses of C16, with a tilted element *)
Example C16_example : exists p0 p1 p2, init 0 ez v0 None = Some p0 /\
  init 5 (V 0 3 4) (V 0 (1/10) 0) None = Some p1 /\ init 2 ez v0 None = Some p2 /\
  let es := [El p0 None Plain;
             El p1 (Some 10) (Sph (Some (Material (fun _ => 3/2) false true)) (Surf (1/50) 0 None false));
             El p2 (Some 10) (Sph (Some (Material (fun _ => 1) true false)) (Surf 0 0 None false))] in
  physical 1 es /\ 0 < 1 /\ dot ez ez = 1 /\
  Forall analytic es /\ length (origins es) = 3%nat.
Proof.
  destruct (init_spec 0 ez v0 None) as (p0 & E0 & ?).
  destruct (init_spec 5 (V 0 3 4) (V 0 (1/10) 0) None) as (p1 & E1 & ?).
  destruct (init_spec 2 ez v0 None) as (p2 & E2 & ?).
  exists p0, p1, p2. split; [auto|]. split; [auto|]. split; [auto|]. cbv zeta.
  split.
  { unfold physical; repeat apply Forall_cons; [..|apply Forall_nil]; split; cbn; auto; try discriminate; intros; lra. }
  split; [lra|]. split; [unfold dot, ez; cbn; ring|].
  split; [repeat constructor|reflexivity].
Qed.

Print Assumptions C15_valid_inside.
Print Assumptions C15_lost_stays_lost.
Print Assumptions C15_clip_conservative.
Print Assumptions C16_unit_directions.
Print Assumptions C16_on_surface.
Print Assumptions C16_on_asphere.
Print Assumptions C16_straight_lines.
Print Assumptions C16_surface_laws.
