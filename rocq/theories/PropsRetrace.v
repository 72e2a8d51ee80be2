(** Property C90: light retraces its path through the reversed system; exact ray trace. *)
From Coq Require Import Reals List Lra Lia Psatz.
From Verif Require Import Base Vec RotModel RotProofs PlacementModel PlacementProofs ElementModel ElementProofs TraceProofs
  PropsElement PropsRescale LimitProofs ReverseModel PropsReverse PolyChain PropsStigmatic PropsConcentric.
Import ListNotations.
Open Scope R_scope.

(** ** Specification *)
(** a point of the reversed system: mirrored at the plane of the vertex *)
Definition mirrored (p : vec) : vec := V (vx p) (vy p) (- vz p).
(** a direction of the reversed system: opposite and mirrored *)
Definition turned (u : vec) : vec := V (- vx u) (- vy u) (vz u).
Definition omap (f : vec -> vec) (o : option vec) : option vec := match o with Some v => Some (f v) | None => None end.
(** the steps of a trace in the opposite order: the same points, incoming and outgoing directions
    exchanged, the path to the point that came next, and the index [n] of the medium in front *)
Fixpoint backs (n : R) (F : list step) : list step :=
  match F with
  | a :: ((b :: _) as F') => backs (st_n a) F' ++ [Step (omap mirrored (st_y a)) (omap turned (st_i a)) n (omap turned (st_u a)) (st_t b)]
  | _ => []
  end.
(** a refracting conic surface or plane *)
Definition refracting (l : R) (e : relem) : Prop :=
  exists m s, e_kind (fst e) = Sph (Some m) s /\ m_mirror m = false /\ 0 < m_index m l /\ s_asph s = None /\ s_alt s = false.
(** the ray arrives along the normal at the sheet of the sag, and its leaving direction is not
    parallel to an asymptote (for a plane: to the plane) *)
Definition crosses (e : element) (p i u : vec) : Prop := forall m s, e_kind e = Sph m s ->
  sheet (s_c s) (s_k s) p /\ 0 < 1 - (1 + s_k s) * s_c s ^ 2 * r2_of p /\
  0 <= dot i (sheet_normal (s_c s) (s_k s) p) /\ (s_c s = 0 -> vz u <> 0) /\ (s_c s <> 0 -> lead (s_k s) u <> 0).
(** all elements but the last are crossed *)
Fixpoint crossed (es : list element) (F : list step) : Prop :=
  match es, F with
  | e :: ((_ :: _) as es'), a :: F' => (exists p i u, st_y a = Some p /\ st_i a = Some i /\ st_u a = Some u /\ crosses e p i u) /\ crossed es' F'
  | _, _ => True
  end.

(** ** the mirrored surface *)
Lemma turned_iso : isometry turned.
Proof. unfold isometry, turned. split; [intros; vec_ring|]. split; intros; vec_ring. Qed.
Lemma mirrored_sheet c k p : sheet c k p -> sheet (c * -1) k (mirrored p).
Proof.
  unfold sheet, mirrored. cbn [vx vy vz]. replace ((c * -1) ^ 2) with (c ^ 2) by ring. intros (A & B). split; [exact A|]. rewrite B. unfold Rdiv. ring.
Qed.
Lemma mirrored_normal c k p : 0 < 1 - (1 + k) * c ^ 2 * r2_of p -> sheet_normal (c * -1) k (mirrored p) = turned (sheet_normal c k p).
Proof.
  unfold sheet_normal, mirrored, turned, r2_of. cbn [vx vy vz]. replace ((c * -1) ^ 2) with (c ^ 2) by ring. intros P. pose proof (sqrt_lt_R0 _ P).
  apply vec_eq; cbn [vx vy vz]; try reflexivity; field; lra.
Qed.
Section Back.
Variable newton : (R -> option R) -> (R -> option R) -> option R -> option R.
Lemma back_hit s p u t : s_asph s = None -> s_alt s = false -> dot u u = 1 ->
  sheet (s_c s) (s_k s) p -> 0 < 1 - (1 + s_k s) * s_c s ^ 2 * r2_of p -> 0 <= dot u (sheet_normal (s_c s) (s_k s) p) ->
  (s_c s = 0 -> vz u <> 0) -> (s_c s <> 0 -> lead (s_k s) u <> 0) ->
  intercept newton (reverse_surf s) (mirrored (at_ray p u t)) (turned u) = Some t /\ at_ray (mirrored (at_ray p u t)) (turned u) t = mirrored p.
Proof.
  intros A AL U S P D Z L.
  assert (B : at_ray (mirrored (at_ray p u t)) (turned u) t = mirrored p) by (unfold at_ray, mirrored, turned; vec_ring).
  split; [|exact B]. unfold intercept, reverse_surf. cbn [s_asph]. rewrite A.
  destruct (Req_EM_T (s_c s) 0) as [C|C].
  - unfold conic_intercept. cbn [s_c s_k s_alt]. destruct (Req_EM_T (s_c s * -1) 0) as [_|Q]; [|exfalso; apply Q; rewrite C; ring].
    cbn [turned vz]. rewrite fdiv_some by (apply Z; exact C). f_equal.
    assert (PZ : vz p = 0) by (destruct S as (_ & S); rewrite S, C; unfold Rdiv; ring).
    unfold mirrored, at_ray, vadd3, vmul3. cbn [vx vy vz]. rewrite PZ. field. apply Z, C.
  - apply C13_found; cbn [s_asph s_c s_k s_alt]; rewrite ?B.
    + reflexivity.
    + intros Q. apply C. lra.
    + rewrite (proj2 (proj2 turned_iso)). exact U.
    + intros Q. apply (L C). rewrite <- Q. unfold lead, turned. cbn [vx vy vz]. ring.
    + apply mirrored_sheet. exact S.
    + replace ((s_c s * -1) ^ 2) with (s_c s ^ 2) by ring. exact P.
    + rewrite AL, mirrored_normal, (proj2 (proj2 turned_iso)) by exact P. exact D.
Qed.
Lemma back_refract s p i u mu : s_asph s = None -> dot i i = 1 -> 0 < mu -> 0 < 1 - (1 + s_k s) * s_c s ^ 2 * r2_of p ->
  0 <= dot i (sheet_normal (s_c s) (s_k s) p) -> refract s (Some p) (Some i) mu = Some u ->
  dot u u = 1 /\ 0 <= dot u (sheet_normal (s_c s) (s_k s) p) /\ refract (reverse_surf s) (Some (mirrored p)) (Some (turned u)) (/ mu) = Some (turned i).
Proof.
  intros A I M P D H.
  assert (UU : dot u u = 1) by (apply (refract_unit s (Some p) (Some i) mu u); [right; right; exact M|intros v Q; injection Q as <-; exact I|exact H]).
  split; [exact UU|]. unfold refract in *. destruct (Req_EM_T mu 1) as [E|NE].
  - injection H as <-. subst mu. rewrite Rinv_1. destruct (Req_EM_T 1 1); [|lra]. auto.
  - assert (IM : 0 < / mu) by (apply Rinv_0_lt_compat; exact M).
    destruct (Req_EM_T (/ mu) 1) as [E|_]; [exfalso; apply NE; rewrite <- (Rinv_inv mu), E, Rinv_1; reflexivity|].
    cbn [obind] in *. rewrite (conic_normal s p A P) in H. cbn [obind] in H.
    set (N := sheet_normal (s_c s) (s_k s) p) in *. assert (NZ : N <> v0) by apply sheet_normal_nz.
    destruct (refr_form _ _ _ _ NZ M H) as (h & W & WN). split; [exact WN|].
    rewrite conic_normal; [|cbn; rewrite A; reflexivity|cbn [s_c s_k reverse_surf]; replace ((s_c s * -1) ^ 2) with (s_c s ^ 2) by ring; exact P].
    cbn [s_c s_k reverse_surf obind]. rewrite mirrored_normal by exact P. fold N. rewrite (iso_refract _ _ _ _ turned_iso).
    rewrite (refr_known u N (/ mu) i (- / mu * h)); auto.
    rewrite W. unfold vadd3, vmul3. apply vec_eq; cbn [vx vy vz]; field; lra.
Qed.
(** one surface, forward and backward *)
Lemma back_step f m s yr i n0 l c p u n tn t : e_kind f = Sph (Some m) s -> m_mirror m = false -> 0 < m_index m l -> s_asph s = None -> s_alt s = false ->
  0 < n0 -> dot i i = 1 -> propagate newton f (Some yr) (Some i) n0 l c = (Some p, Some u, n, tn) -> crosses f p i u ->
  n = m_index m l /\ dot u u = 1 /\ forall pl m', m_mirror m' = false -> m_index m' l = n0 ->
  propagate newton (El pl (e_radius f) (Sph (Some m') (reverse_surf s))) (Some (mirrored (at_ray p u t))) (Some (turned u)) n l c = (Some (mirrored p), Some (turned i), n0, Some (t * n)).
Proof.
  intros K M N A AL N0 I H C. destruct (C _ _ K) as (S & P & D & Z & L). unfold propagate in H. rewrite K in H. cbn [obind] in H.
  unfold get_n_mu in H. rewrite M, fdiv_some in H by lra.
  assert (MU : 0 < n0 / m_index m l) by (apply Rdiv_lt_0_compat; assumption).
  destruct (intercept newton s yr i) as [t0|]; cbn [obind] in H; [|discriminate].
  set (q := at_ray yr i t0) in *.
  assert (CL : (c = true -> clip (e_radius f) (Some p) (Some i) = Some i) /\ refract s (Some p) (Some i) (n0 / m_index m l) = Some u /\ n = m_index m l).
  { destruct (Req_EM_T (n0 / m_index m l) 0) as [Q|_]; [lra|].
    assert (EQ : q = p) by congruence. rewrite EQ in H. assert (EN : n = m_index m l) by congruence.
    assert (ER : refract s (Some p) (if c then clip (e_radius f) (Some p) (Some i) else Some i) (n0 / m_index m l) = Some u) by congruence. clear H.
    destruct c; [|split; [discriminate|auto]].
    unfold clip in *. destruct (e_radius f) as [r|]; [|auto]. destruct (Rle_dec (r2_of p) (r * r)) as [Q|Q]; [auto|].
    exfalso. unfold refract in ER. destruct (Req_EM_T _ 1); [discriminate|]. cbn in ER. discriminate. }
  destruct CL as (CL & RF & ->). split; [reflexivity|].
  destruct (back_refract s p i u _ A I MU P D RF) as (UU & UN & RB). split; [exact UU|]. intros pl m' M' N'.
  destruct (back_hit s p u t A AL UU S P UN Z L) as [HB AB].
  unfold propagate. cbn [e_kind e_radius obind]. rewrite HB. cbn [obind]. rewrite AB.
  assert (CB : (if c then clip (e_radius f) (Some (mirrored p)) (Some (turned u)) else Some (turned u)) = Some (turned u)).
  { destruct c; [|reflexivity]. specialize (CL eq_refl). clear - CL. unfold clip in *. destruct (e_radius f) as [r|]; [|reflexivity].
    unfold r2_of, mirrored in *. cbn [vx vy]. destruct (Rle_dec _ _); [reflexivity|discriminate]. }
  rewrite CB. unfold get_n_mu. rewrite M', N', fdiv_some by lra.
  assert (R : m_index m l / n0 = / (n0 / m_index m l)) by (field; lra).
  assert (IP : 0 < / (n0 / m_index m l)) by (apply Rinv_0_lt_compat; exact MU). rewrite R.
  destruct (Req_EM_T (/ (n0 / m_index m l)) 0) as [Q|_]; [lra|]. rewrite RB. reflexivity.
Qed.
(** the object surface, which has no material after the reversal *)
Lemma back_object s p u n l c r t pl : s_asph s = None -> s_alt s = false -> dot u u = 1 ->
  sheet (s_c s) (s_k s) p -> 0 < 1 - (1 + s_k s) * s_c s ^ 2 * r2_of p -> 0 <= dot u (sheet_normal (s_c s) (s_k s) p) ->
  (s_c s = 0 -> vz u <> 0) -> (s_c s <> 0 -> lead (s_k s) u <> 0) -> (forall a, c = true -> r = Some a -> r2_of p <= a * a) ->
  propagate newton (El pl r (Sph None (reverse_surf s))) (Some (mirrored (at_ray p u t))) (Some (turned u)) n l c = (Some (mirrored p), Some (turned u), n, Some (t * n)).
Proof.
  intros A AL U S P D Z L R. destruct (back_hit s p u t A AL U S P D Z L) as [HB AB].
  unfold propagate. cbn [e_kind e_radius obind]. rewrite HB. cbn [obind]. rewrite AB.
  assert (CB : (if c then clip r (Some (mirrored p)) (Some (turned u)) else Some (turned u)) = Some (turned u)).
  { destruct c; [|reflexivity]. unfold clip. destruct r as [r|]; [|reflexivity]. specialize (R r eq_refl eq_refl).
    unfold r2_of, mirrored in *. cbn [vx vy]. destruct (Rle_dec _ _); [reflexivity|lra]. }
  rewrite CB. cbn [get_n_mu]. destruct (Req_EM_T 1 0); [lra|]. unfold refract. destruct (Req_EM_T 1 1); [reflexivity|lra].
Qed.
(** what a step to a centred element is *)
Lemma centred_step f es p u n l c : centred f -> 0 < n ->
  exists q w n' tn, propagate newton f (Some (vsub3 p (V 0 0 (p_distance (e_place f))))) (Some u) n l c = (q, w, n', tn) /\
  sys_propagate newton (f :: es) (Some p) (Some u) n l c = Step q w n' (Some u) tn :: sys_propagate newton es q w n' l c /\
  (forall x, q = Some x -> exists t, tn = Some (t * n) /\ at_ray p u t = vadd3 x (V 0 0 (p_distance (e_place f)))).
Proof.
  intros C N. destruct (centred_frame f C) as (_ & O & T & F).
  destruct (propagate newton f (Some (vsub3 p (V 0 0 (p_distance (e_place f))))) (Some u) n l c) as [[[q w] n'] tn] eqn:E.
  exists q, w, n', tn. split; [reflexivity|]. split.
  - cbn [sys_propagate obind]. unfold onormal. cbn [obind]. rewrite O, !T, E. f_equal.
    f_equal; [destruct q|destruct w]; cbn [obind]; rewrite ?F; reflexivity.
  - intros x ->. unfold propagate in E. cbn [obind] in E.
    assert (Q : exists t, (do t <- match e_kind f with Plain => plane_intercept (vsub3 p (V 0 0 (p_distance (e_place f)))) u | Sph _ s => intercept newton s (vsub3 p (V 0 0 (p_distance (e_place f)))) u end;
      Some (at_ray (vsub3 p (V 0 0 (p_distance (e_place f)))) u t)) = Some x /\ match e_kind f with Plain => plane_intercept (vsub3 p (V 0 0 (p_distance (e_place f)))) u | Sph _ s => intercept newton s (vsub3 p (V 0 0 (p_distance (e_place f)))) u end = Some t /\ tn = Some (t * n)).
    { destruct (e_kind f) as [|m s].
      - destruct (plane_intercept _ u) as [t|]; cbn [obind] in E |- *; [|discriminate]. exists t. split; [congruence|]. split; [reflexivity|congruence].
      - destruct (get_n_mu m n l) as [n1 mu]. destruct (intercept newton s _ u) as [t|]; cbn [obind] in E |- *; [|discriminate]. exists t. split; [congruence|]. split; [reflexivity|congruence]. }
    destruct Q as (t & Q1 & Q2 & ->). exists t. split; [reflexivity|]. rewrite Q2 in Q1. cbn [obind] in Q1.
    assert (Q3 : x = at_ray (vsub3 p (V 0 0 (p_distance (e_place f)))) u t) by congruence. rewrite Q3. unfold at_ray. vec_ring.
Qed.
Lemma revd_step e m s d m' B q u n l c r : centred (fst e) -> 0 <= d -> e_kind (fst e) = Sph m s ->
  propagate newton (El (with_distance (e_place (fst e)) d) (e_radius (fst e)) (Sph m' (reverse_surf s))) (Some (mirrored (vadd3 q (V 0 0 d)))) (Some u) n l c = r ->
  sys_propagate newton (fst (revd e d m') :: B) (Some (mirrored q)) (Some u) n l c =
  let '(y, w, n', t) := r in Step y w n' (Some u) t :: sys_propagate newton B y w n' l c.
Proof.
  intros C D K H. unfold revd. rewrite K. cbn [fst].
  assert (C' : centred (El (with_distance (e_place (fst e)) d) (e_radius (fst e)) (Sph m' (reverse_surf s)))).
  { destruct C as (U & X & Y). split; [|split]; cbn [e_place with_distance p_direction p_angles]; auto. apply set_distance_updated; auto. }
  destruct (centred_frame _ C') as (_ & O & T & F). cbn [e_place] in *.
  cbn [sys_propagate e_place]. unfold onormal. cbn [obind]. rewrite O, !T. cbn [with_distance p_distance].
  replace (vsub3 (mirrored q) (V 0 0 d)) with (mirrored (vadd3 q (V 0 0 d))) by (unfold mirrored, vadd3, vsub3; cbn [vx vy vz]; apply vec_eq; cbn [vx vy vz]; ring).
  rewrite H. destruct r as [[[y w] n'] t]. f_equal. f_equal; [destruct y|destruct w]; cbn [obind]; rewrite ?F; reflexivity.
Qed.
(** the index in front of the last step *)
Definition before (n : R) (F : list step) : R := last (n :: map st_n (removelast F)) n.
Lemma last_cons2 {A} (a b : A) l d : last (a :: b :: l) d = last (b :: l) d. Proof. reflexivity. Qed.
Lemma last_default {A} (b : A) l d d' : last (b :: l) d = last (b :: l) d'.
Proof. revert b. induction l as [|a l IH]; intros b; [reflexivity|]. rewrite !last_cons2. apply IH. Qed.
Lemma before_cons n a b F : before n (a :: b :: F) = before (st_n a) (b :: F).
Proof.
  unfold before. change (removelast (a :: b :: F)) with (a :: removelast (b :: F)). cbn [map]. rewrite last_cons2. apply last_default.
Qed.
Lemma rgen_nonempty es mp : es <> [] -> rgen mp es <> [].
Proof. intros E Z. apply E. apply length_zero_iff_nil. rewrite <- (rgen_length es mp), Z. reflexivity. Qed.
Lemma tl_app {A} (a b : list A) : a <> [] -> tl (a ++ b) = tl a ++ b.
Proof. destruct a; [contradiction|reflexivity]. Qed.
Lemma back_all l c es : forall m p u n, Forall (fun e => centred (fst e)) es -> Forall (refracting l) (removelast es) -> es <> [] ->
  m_mirror m = false -> m_index m l = n -> 0 < n -> dot u u = 1 ->
  let F := sys_propagate newton (map fst es) (Some p) (Some u) n l c in
  crossed (map fst es) F -> forall pN, st_y (last F (Step None None 0 None None)) = Some pN ->
  exists iN p1, st_i (last F (Step None None 0 None None)) = Some iN /\ st_y (hd (Step None None 0 None None) F) = Some p1 /\
  forall B, sys_propagate newton (map fst (tl (rgen (Some m) es)) ++ B) (Some (mirrored pN)) (Some (turned iN)) (before n F) l c =
    backs n F ++ sys_propagate newton B (Some (mirrored p1)) (Some (turned u)) n l c.
Proof.
  induction es as [|f es IH]; intros m p u n CS RS NE M MN N U F CR pN PN; [contradiction|]. clear NE.
  inversion CS as [|? ? CF CS']; subst. cbn [map] in *.
  destruct (centred_step (fst f) (map fst es) p u _ l c CF N) as (q & w & n1 & tn & E & SE & _).
  unfold F in *. rewrite SE in *. clear SE. destruct es as [|g es].
  - cbn [map sys_propagate last st_y st_i hd] in *. subst q. exists u, pN. split; [reflexivity|]. split; [reflexivity|]. intros B. reflexivity.
  - change (removelast (f :: g :: es)) with (f :: removelast (g :: es)) in RS. inversion RS as [|? ? RF RS']; subst.
    cbn [map] in *. cbn [crossed] in CR. destruct CR as ((p1 & i1 & u1 & Y1 & I1 & U1 & CX) & CR). cbn [st_y st_i st_u] in Y1, I1, U1.
    injection I1 as <-. subst q w. destruct RF as (mf & s & K & MF & NF & AF & ALF).
    inversion CS' as [|? ? CG _]; subst.
    destruct (back_step _ _ _ _ _ _ _ _ _ _ _ _ 0 K MF NF AF ALF N U E CX) as (N1 & U1 & _).
    assert (N1P : 0 < n1) by (rewrite N1; exact NF).
    destruct (centred_step (fst g) (map fst es) p1 u1 n1 l c CG N1P) as (q2 & w2 & n2 & tn2 & E2 & SE2 & HT).
    specialize (IH mf p1 u1 n1 CS' RS' ltac:(discriminate) MF (eq_sym N1) N1P U1). cbn [map] in IH. rewrite SE2 in *. clear SE2.
    specialize (IH CR pN). rewrite last_cons2 in PN |- *. destruct (IH PN) as (iN & p2 & LI & HY & G). clear IH.
    cbn [hd st_y] in HY. subst q2. destruct (HT p2 eq_refl) as (t & -> & AT).
    exists iN, p1. split; [exact LI|]. split; [reflexivity|]. intros B.
    destruct (back_step _ _ _ _ _ _ _ _ _ _ _ _ t K MF NF AF ALF N U E CX) as (_ & _ & BK).
    change (rgen (Some m) (f :: g :: es)) with (rgen (material_of f) (g :: es) ++ [revd f (dist g) (Some m)]).
    replace (material_of f) with (Some mf) by (unfold material_of; rewrite K; reflexivity).
    rewrite tl_app by (apply rgen_nonempty; discriminate). rewrite map_app, <- app_assoc. cbn [map app].
    rewrite before_cons. cbn [st_n]. rewrite G. cbn [backs st_n st_y st_i st_u st_t omap]. rewrite <- app_assoc. f_equal. cbn [app].
    assert (D : 0 <= dist g) by (apply dist_nonneg; apply CG).
    specialize (BK (with_distance (e_place (fst f)) (dist g)) m M eq_refl). rewrite AT in BK.
    apply (revd_step f (Some mf) s (dist g) (Some m) B p2 (turned u1) n1 l c _ CF D K BK).
Qed.
End Back.

(** ** the theorem *)
(** a ray through a centred system of refracting surfaces, turned round where it arrives and sent
    through the reversed system, passes the same points in the opposite order *)
Theorem C90_retraced newton e0 es y u l c n s0 m0 pN :
  Forall (fun e => centred (fst e)) (e0 :: es) -> Forall (refracting l) (removelast es) -> es <> [] ->
  e_kind (fst e0) = Sph (Some m0) s0 -> m_mirror m0 = false -> m_index m0 l = n -> 0 < n -> s_asph s0 = None -> s_alt s0 = false ->
  dot u u = 1 -> (forall a, c = true -> e_radius (fst e0) = Some a -> r2_of y <= a * a) ->
  let F := geo_trace newton (map fst (e0 :: es)) y u n l c in
  crossed (map fst (e0 :: es)) F -> st_y (last F (Step None None 0 None None)) = Some pN ->
  exists es1 iN, reverse (e0 :: es) = Some es1 /\ st_i (last F (Step None None 0 None None)) = Some iN /\
  geo_trace newton (map fst es1) (mirrored pN) (turned iN) (before n F) l c =
  Step (Some (mirrored pN)) (Some (turned iN)) (before n F) (Some (turned iN)) (Some 0) :: backs n F.
Proof.
  intros CS RS NE K M MN N A AL U CLP F CR PN. inversion CS as [|? ? C0 CS']; subst x l0.
  assert (PL : placed (e0 :: es)) by (eapply Forall_impl; [|exact CS]; intros a (Q & _); exact Q).
  rewrite (reverse_rgen _ PL). destruct es as [|g es]; [contradiction|].
  destruct (centred_frame _ C0) as (_ & _ & _ & FN).
  unfold F in *. cbn [map geo_trace] in *. rewrite !FN in *. cbn [crossed] in CR. destruct CR as ((p & i & u' & Y & I & U' & CX) & CR).
  cbn [st_y st_i st_u] in Y, I, U'. injection Y as <-. injection I as <-. injection U' as <-. destruct (CX _ _ K) as (S & P & D & Z & L).
  inversion CS' as [|? ? CG _]; subst x l0.
  destruct (centred_step newton (fst g) (map fst es) y u n l c CG N) as (q2 & w2 & n2 & tn2 & E2 & SE2 & HT).
  pose proof (back_all newton l c (g :: es) m0 y u n CS' RS NE M MN N U) as BA. cbn [map] in BA. rewrite SE2 in *. clear SE2.
  rewrite last_cons2 in *. destruct (BA CR pN PN) as (iN & p1 & LI & HY & G). clear BA. cbn [hd st_y] in HY. subst q2.
  destruct (HT p1 eq_refl) as (t & -> & AT).
  exists (rgen None (e0 :: g :: es)), iN. split; [reflexivity|]. split; [exact LI|].
  change (rgen None (e0 :: g :: es)) with (rgen (material_of e0) (g :: es) ++ [revd e0 (dist g) None]).
  replace (material_of e0) with (Some m0) by (unfold material_of; rewrite K; reflexivity).
  assert (RC : Forall (fun e => centred (fst e)) (rgen (Some m0) (g :: es))).
  { clear - CS'. generalize (Some m0). induction CS' as [|e es' C CS' IH]; intros mp; [constructor|]. cbn [rgen]. apply Forall_app. split; [apply IH|].
    constructor; [|constructor]. destruct C as (U & X & Y).
    assert (DD : 0 <= match es' with [] => 0 | f :: _ => dist f end) by (destruct CS' as [|f ? (Q & _)]; [lra|apply dist_nonneg, Q]).
    unfold revd. destruct (e_kind (fst e)); (split; [|split]); cbn [fst e_place with_distance p_direction p_angles]; auto; apply set_distance_updated; auto. }
  pose proof (rgen_nonempty (g :: es) (Some m0) NE) as RN. destruct (rgen (Some m0) (g :: es)) as [|h R] eqn:EG; [contradiction|].
  inversion RC as [|? ? CH _]; subst x l0. destruct (centred_frame _ CH) as (_ & _ & _ & FH).
  cbn [app map geo_trace tl] in *. rewrite !FH, map_app. cbn [map]. f_equal.
  rewrite before_cons. cbn [st_n]. rewrite G. cbn [backs st_n st_y st_i st_u st_t omap]. f_equal.
  assert (DG : 0 <= dist g) by (apply dist_nonneg; apply CG).
  pose proof (back_object newton s0 y u n l c (e_radius (fst e0)) t (with_distance (e_place (fst e0)) (dist g)) A AL U S P D Z L CLP) as BK. rewrite AT in BK.
  rewrite (revd_step newton e0 (Some m0) s0 (dist g) None [] p1 (turned u) n l c _ C0 DG K BK). reflexivity.
Qed.

(** the optical path of a trace *)
Fixpoint path_sum (F : list step) : option R := match F with [] => Some 0 | a :: F => do x <- st_t a; do s <- path_sum F; Some (x + s) end.
Lemma path_app F a s x : path_sum F = Some s -> st_t a = Some x -> path_sum (F ++ [a]) = Some (s + x).
Proof.
  revert s. induction F as [|b F IH]; intros s H X; cbn [path_sum app] in *.
  - rewrite X. cbn. injection H as <-. f_equal. ring.
  - destruct (st_t b) as [xb|]; [|discriminate]. cbn [obind] in *. destruct (path_sum F) as [sf|]; [|discriminate]. cbn [obind] in H. injection H as <-.
    rewrite (IH sf eq_refl X). cbn [obind]. f_equal. ring.
Qed.
Lemma backs_path F : forall n a s, path_sum F = Some s -> path_sum (backs n (a :: F)) = Some s.
Proof.
  induction F as [|b F IH]; intros n a s H; [exact H|]. cbn [path_sum] in H. destruct (st_t b) as [xb|] eqn:T; [|discriminate]. cbn [obind] in H.
  destruct (path_sum F) as [sf|]; [|discriminate]. injection H as <-.
  change (backs n (a :: b :: F)) with (backs (st_n a) (b :: F) ++ [Step (omap mirrored (st_y a)) (omap turned (st_i a)) n (omap turned (st_u a)) (st_t b)]).
  transitivity (Some (sf + xb)); [|f_equal; ring]. apply path_app; [apply IH; reflexivity|exact T].
Qed.
(** it arrives where it was launched, in the opposite direction, after the same optical path *)
Theorem C90_returns newton e0 es y u l c n s0 m0 pN s :
  Forall (fun e => centred (fst e)) (e0 :: es) -> Forall (refracting l) (removelast es) -> es <> [] ->
  e_kind (fst e0) = Sph (Some m0) s0 -> m_mirror m0 = false -> m_index m0 l = n -> 0 < n -> s_asph s0 = None -> s_alt s0 = false ->
  dot u u = 1 -> (forall a, c = true -> e_radius (fst e0) = Some a -> r2_of y <= a * a) ->
  let F := geo_trace newton (map fst (e0 :: es)) y u n l c in
  crossed (map fst (e0 :: es)) F -> st_y (last F (Step None None 0 None None)) = Some pN -> path_sum F = Some s ->
  exists es1 iN, reverse (e0 :: es) = Some es1 /\ st_i (last F (Step None None 0 None None)) = Some iN /\
  let G := geo_trace newton (map fst es1) (mirrored pN) (turned iN) (before n F) l c in
  let z := last G (Step None None 0 None None) in
  st_y z = Some (mirrored y) /\ st_u z = Some (turned u) /\ st_n z = n /\ path_sum G = Some s.
Proof.
  intros CS RS NE K M MN N A AL U CLP F CR PN PS. destruct (C90_retraced newton e0 es y u l c n s0 m0 pN CS RS NE K M MN N A AL U CLP CR PN) as (es1 & iN & RV & LI & G).
  exists es1, iN. split; [exact RV|]. split; [exact LI|]. cbv zeta. fold F in G. rewrite G. clear G. destruct es as [|g es]; [contradiction|].
  unfold F in *. cbn [map geo_trace sys_propagate] in *.
  match type of PS with context[let '(_, _) := ?X in _] => destruct X as [[[q w] n1] t1] end.
  match goal with |- context[before n ?X] => set (FF := X) in *; set (b := before n FF); clearbody b end. unfold FF in *. clear FF.
  cbn [path_sum st_t obind] in PS. destruct t1 as [t1|]; [|discriminate]. cbn [obind] in PS.
  match type of PS with context[path_sum ?X] => set (T := X) in *; clearbody T end.
  destruct (path_sum T) as [ps|] eqn:PT; [|discriminate]. cbn [obind] in PS. injection PS as <-.
  change (backs n (?a :: ?b :: T)) with (backs n (a :: b :: T)).
  match goal with |- context[backs n (?a :: ?b :: T)] => set (a0 := a); set (b0 := b) end.
  assert (LS : last (Step (Some (mirrored pN)) (Some (turned iN)) b (Some (turned iN)) (Some 0) :: backs n (a0 :: b0 :: T)) (Step None None 0 None None) = Step (omap mirrored (st_y a0)) (omap turned (st_i a0)) n (omap turned (st_u a0)) (st_t b0)).
  { change (backs n (a0 :: b0 :: T)) with (backs (st_n a0) (b0 :: T) ++ [Step (omap mirrored (st_y a0)) (omap turned (st_i a0)) n (omap turned (st_u a0)) (st_t b0)]).
    rewrite app_comm_cons. apply last_last. }
  rewrite LS. split; [reflexivity|]. split; [reflexivity|]. split; [reflexivity|].
  cbn [path_sum st_t obind]. rewrite (backs_path (b0 :: T) n a0 (t1 + ps)). { reflexivity. }
  cbn [path_sum]. unfold b0. cbn [st_t obind]. rewrite PT. reflexivity.
Qed.

(** ** Example: the ray through the glass ball of C81 *)
Definition ball_els : list relem := [(sphere_el 0 0 1, None); (sphere_el 5 (/ 5) (4/3), None); (sphere_el 10 (- / 5) 1, None)].
Lemma sphere_el_centred d c n : 0 <= d -> centred (sphere_el d c n).
Proof. intros D. split; [|split; reflexivity]. exists d, ez, v0. pose proof (place_front d D) as E. unfold init in E. destruct (update d ez v0); [exact E|discriminate]. Qed.
Example C90_retraced_example newton :
  Forall (fun e => centred (fst e)) ball_els /\ Forall (refracting 1) (removelast (tl ball_els)) /\
  let F := geo_trace newton (map fst ball_els) (V 0 4 0) ez 1 1 false in
  crossed (map fst ball_els) F /\ st_y (last F (Step None None 0 None None)) = Some (V 0 (44/25) (-8/25)) /\ path_sum F = Some (53/3).
Proof.
  split; [repeat constructor; apply sphere_el_centred; lra|].
  split. { constructor; [|constructor]. do 2 eexists. split; [reflexivity|]. cbn. repeat split; lra. }
  cbv zeta. change (geo_trace newton (map fst ball_els) (V 0 4 0) ez 1 1 false) with (geo_trace newton ball (V 0 4 0) ez 1 1 false).
  rewrite ball_traced. unfold ball_trace. cbn [ball_els map fst crossed last st_y st_i st_u path_sum st_t obind]. split; [|split; [reflexivity|f_equal; field]].
  split.
  - exists (V 0 4 0), ez, ez. split; [reflexivity|]. split; [reflexivity|]. split; [reflexivity|].
    intros m s K. injection K as _ <-. unfold sheet, sheet_normal, lead, dot, r2_of, ez. cbn [s_c s_k vx vy vz].
    replace (1 - (1 + 0) * 0 ^ 2 * (0 * 0 + 4 * 4)) with 1 by ring. rewrite sqrt_1. repeat split; try lra; try field.
  - split; [|exact I]. exists (V 0 4 2), ez, (V 0 (-7/25) (24/25)). split; [reflexivity|]. split; [reflexivity|]. split; [reflexivity|].
    intros m s K. injection K as _ <-. unfold sheet, sheet_normal, lead, dot, r2_of, ez. cbn [s_c s_k vx vy vz].
    replace (1 - (1 + 0) * (/ 5) ^ 2 * (0 * 0 + 4 * 4)) with ((3/5) * (3/5)) by field. rewrite sqrt_square by lra.
    repeat split; try lra; try field.
Qed.
Print Assumptions C90_retraced.
Print Assumptions C90_returns.
