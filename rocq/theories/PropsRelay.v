(** Property C91: chains of stigmatic surfaces are free of spherical aberration; exact trace, any placement. *)
From Coq Require Import Reals List Lra Lia Psatz.
From Verif Require Import Base Vec RotModel RotProofs PlacementModel PlacementProofs ElementModel ElementProofs TraceProofs
  PropsElement PropsStigmatic.
Import ListNotations.
Open Scope R_scope.

(** ** Specification *)
(** the point all rays pass, or the common direction [D] of parallel rays together with the wave
    front [dot x D = w] *)
Inductive conjugate := At (X : vec) | Toward (D : vec) (w : R).
(** the ray [p, u] belongs to the bundle; [d] is its way to the point or to the wave front *)
Definition on (c : conjugate) (p u : vec) (d : R) : Prop :=
  match c with At X => vadd3 p (vmul3 d u) = X | Toward D w => u = D /\ d = w - dot p D end.
Definition conic (s : surf) : Prop := s_asph s = None /\ s_alt s = false.
Definition mirrored (v : vec) : vec := V (vx v) (vy v) (- vz v).
Definition reflected (c : conjugate) : conjugate := match c with At X => At (mirrored X) | Toward D w => Toward (mirrored D) w end.
(** [stigmatic l n0 c e n c' K]: light from [c] in index [n0] is sent to [c'] in index [n], in the frame
    of the element, with optical path [K] between them *)
Inductive stigmatic (l n0 : R) : conjugate -> element -> R -> conjugate -> R -> Prop :=
(** ellipsoid or hyperboloid, collimated light to its far focus *)
| S_collimate pl rad m s : let n := m_index m l in let f := n / (s_c s * (n - n0)) in
    m_mirror m = false -> 0 < n -> n0 <> n -> conic s -> s_c s <> 0 -> s_k s = - (n0 / n) ^ 2 ->
    stigmatic l n0 (Toward ez 0) (El pl rad (Sph (Some m) s)) n (At (axial f)) (n * f)
(** and light of a focus into a collimated beam *)
| S_source pl rad m s : let n := m_index m l in let f := n0 / (s_c s * (n0 - n)) in
    m_mirror m = false -> 0 < n -> n0 <> n -> conic s -> s_c s <> 0 -> s_k s = - (n / n0) ^ 2 ->
    stigmatic l n0 (At (axial f)) (El pl rad (Sph (Some m) s)) n (Toward ez 0) (- (n0 * f))
(** conic mirror, focus to focus *)
| S_foci pl rad m s e : let f := / (s_c s * (1 + e)) in let f' := / (s_c s * (1 - e)) in
    m_mirror m = true -> conic s -> s_c s <> 0 -> e ^ 2 <> 1 -> s_k s = - e ^ 2 ->
    stigmatic l n0 (At (axial f)) (El pl rad (Sph (Some m) s)) n0 (At (axial f')) (- (n0 * (f + f')))
(** paraboloid mirror, both ways *)
| S_lamp pl rad m s : let f := / (2 * s_c s) in
    m_mirror m = true -> conic s -> s_c s <> 0 -> s_k s = -1 ->
    stigmatic l n0 (At (axial f)) (El pl rad (Sph (Some m) s)) n0 (Toward (vneg ez) 0) (- (n0 * f))
(** (parallel light on a paraboloid is lost by the closed form of the intersection, see C13: the surface has to be
    given as an asphere all of whose terms vanish) *)
| S_dish pl rad m s zs : let f := / (2 * s_c s) in
    m_mirror m = true -> s_asph s = Some zs -> Forall (fun z => z = 0) zs -> s_c s <> 0 -> s_k s = -1 ->
    stigmatic l n0 (Toward ez 0) (El pl rad (Sph (Some m) s)) n0 (At (axial f)) (- (n0 * f))
(** sphere, aplanatic points and centre *)
| S_aplanatic pl rad m s : let n := m_index m l in
    m_mirror m = false -> 0 < n -> n0 <> n -> conic s -> s_c s <> 0 -> s_k s = 0 ->
    stigmatic l n0 (At (axial ((n0 + n) / (n0 * s_c s)))) (El pl rad (Sph (Some m) s)) n (At (axial ((n0 + n) / (n * s_c s)))) 0
| S_centre pl rad m s : let n := m_index m l in
    m_mirror m = false -> 0 < n -> n0 <> n -> conic s -> s_c s <> 0 -> s_k s = 0 ->
    stigmatic l n0 (At (axial (/ s_c s))) (El pl rad (Sph (Some m) s)) n (At (axial (/ s_c s))) ((n - n0) / s_c s)
(** plane mirror *)
| S_flat pl rad m s c : m_mirror m = true -> conic s -> s_c s = 0 ->
    stigmatic l n0 c (El pl rad (Sph (Some m) s)) n0 (reflected c) 0
(** surface without material *)
| S_pass pl rad k c : (k = Plain \/ exists s, k = Sph None s) -> stigmatic l n0 c (El pl rad k) n0 c 0.
(** into and out of the frame of an element *)
Definition enters (p : placement) (c c' : conjugate) : Prop :=
  match c, c' with
  | At X, At X' => to_normal p (vsub3 X (p_offset p)) = Some X'
  | Toward D w, Toward D' w' => to_normal p D = Some D' /\ w' = w - dot (p_offset p) D
  | _, _ => False
  end.
Definition leaves (p : placement) (c c' : conjugate) : Prop :=
  match c, c' with
  | At X, At X' => from_normal p X = Some X'
  | Toward D w, Toward D' w' => from_normal p D = Some D' /\ w' = w
  | _, _ => False
  end.
(** the image of every element is the object of the next; [c'] is in the frame of the last element *)
Inductive relay (l : R) : R -> conjugate -> list element -> R -> conjugate -> R -> Prop :=
| R_last n0 c e n a c' K : enters (e_place e) c a -> stigmatic l n0 a e n c' K -> relay l n0 c [e] n c' K
| R_next n0 c e es n a b c1 K m c' K' : enters (e_place e) c a -> stigmatic l n0 a e n b K -> leaves (e_place e) b c1 ->
    relay l n c1 es m c' K' -> relay l n0 c (e :: es) m c' (K + K').
(** the ray meets the vertex sheet of the conic from the side of its normal *)
Definition struck (e : element) (a : step) : Prop := forall m s p i, e_kind e = Sph (Some m) s -> st_y a = Some p -> st_i a = Some i ->
  sheet (s_c s) (s_k s) p /\ 0 < 1 - (1 + s_k s) * s_c s ^ 2 * r2_of p /\ 0 < dot i (sheet_normal (s_c s) (s_k s) p) /\ (s_c s <> 0 -> s_asph s = None -> lead (s_k s) i <> 0).
(** every surface is reached and left like that *)
Definition hits (es : list element) (F : list step) : Prop := Forall2 (fun e a => (exists p u, st_y a = Some p /\ st_u a = Some u) /\ struck e a) es F.
Definition nothing : step := Step None None 0 None None.
Fixpoint path_sum (F : list step) : option R := match F with [] => Some 0 | a :: F => do x <- st_t a; do s <- path_sum F; Some (x + s) end.

(** ** one element *)
Section Relay.
Variable newton : (R -> option R) -> (R -> option R) -> option R -> option R.
Lemma on_later c p u d t : dot u u = 1 -> on c p u d -> on c (at_ray p u t) u (d - t).
Proof.
  intros U. destruct c as [X|D w]; cbn [on].
  - intros <-. unfold at_ray. vec_ring.
  - intros (<- & ->). split; [reflexivity|]. unfold at_ray. replace (dot (vadd3 p (vmul3 t u)) u) with (dot p u + t * dot u u) by vec_ring. rewrite U. ring.
Qed.
Lemma prop_hit e y i n0 l p u n tn : propagate newton e (Some y) (Some i) n0 l false = (Some p, u, n, tn) -> exists t, p = at_ray y i t /\ tn = Some (t * n0).
Proof.
  unfold propagate. cbn [obind]. destruct (e_kind e) as [|m s].
  - destruct (plane_intercept y i) as [t|]; cbn [obind]; [|discriminate]. intros H. exists t. split; congruence.
  - destruct (get_n_mu m n0 l) as [n1 mu]. destruct (intercept newton s y i) as [t|]; cbn [obind]; [|discriminate]. intros H. exists t. split; congruence.
Qed.
Lemma zero_slope zs : Forall (fun z => z = 0) zs -> forall j r, even_slope j zs r = 0.
Proof. induction 1 as [|z zs -> _ IH]; intros j r; cbn [even_slope]; [reflexivity|]. rewrite IH. ring. Qed.
Lemma zero_normal s p : s_asph s = None \/ (exists zs, s_asph s = Some zs /\ Forall (fun z => z = 0) zs) -> 0 < 1 - (1 + s_k s) * s_c s ^ 2 * r2_of p ->
  surface_normal s p = Some (sheet_normal (s_c s) (s_k s) p).
Proof.
  intros A P. rewrite surface_normal_spec by exact P. cbv zeta. f_equal. unfold sheet_normal, r2_of.
  assert (E : match s_asph s with None => 0 | Some l => even_slope 0 l (vx p * vx p + vy p * vy p) end = 0) by (destruct A as [->|(zs & -> & Z)]; [reflexivity|apply zero_slope, Z]).
  rewrite E. pose proof (sqrt_lt_R0 _ P). unfold r2_of in *. apply vec_eq; cbn [vx vy vz]; unfold Rdiv; ring.
Qed.
Lemma reflect_sheet pl rad m s y i n0 l p u n tn : m_mirror m = true -> s_asph s = None \/ (exists zs, s_asph s = Some zs /\ Forall (fun z => z = 0) zs) -> 0 < 1 - (1 + s_k s) * s_c s ^ 2 * r2_of p ->
  propagate newton (El pl rad (Sph (Some m) s)) (Some y) (Some i) n0 l false = (Some p, Some u, n, tn) ->
  n = n0 /\ let N := sheet_normal (s_c s) (s_k s) p in u = vsub3 i (vmul3 (2 * (dot i N / dot N N)) N).
Proof.
  intros M A P H. destruct (prop_hit _ _ _ _ _ _ _ _ _ H) as (t & EP & _). unfold propagate in H. cbn [e_kind obind get_n_mu] in H. rewrite M in H.
  destruct (intercept newton s y i) as [t0|]; cbn [obind] in H; [|discriminate]. assert (E0 : at_ray y i t0 = p) by congruence. rewrite E0 in H.
  destruct (Req_EM_T (-1) 0); [lra|]. unfold refract in H. destruct (Req_EM_T (-1) 1); [lra|]. cbn [obind] in H. rewrite (zero_normal s p A P) in H. cbn [obind] in H.
  rewrite reflect_normal in H by apply sheet_normal_nz. split; [congruence|]. cbv zeta. congruence.
Qed.
Lemma stigmatic_sound l n0 c e n c' K y i p u n1 tn d : stigmatic l n0 c e n c' K -> 0 < n0 -> dot i i = 1 ->
  propagate newton e (Some y) (Some i) n0 l false = (Some p, Some u, n1, tn) -> struck e (Step (Some p) (Some u) n1 (Some i) tn) -> on c p i d ->
  n1 = n /\ exists d', on c' p u d' /\ n * d' - n0 * d = K.
Proof.
  intros ST N0 U PR SK ON. destruct (prop_hit _ _ _ _ _ _ _ _ _ PR) as (t & EP & ET).
  assert (MT : forall m s, e_kind e = Sph (Some m) s -> s_c s <> 0 -> s_asph s = None -> meets (s_c s) (s_k s) y i t).
  { intros m s E C A0. destruct (SK m s p i E eq_refl eq_refl) as (S & P & D & L). unfold meets. rewrite <- EP. auto. }
  destruct ST.
  - destruct H2 as (A & AL). specialize (MT m s eq_refl H3 A). destruct ON as (-> & ->). pose proof MT as (SH & P & D0 & L).
    destruct (C72_collimated newton pl rad m s y n0 l H N0 H0 H1 A AL H3 H4) as (t0 & u0 & d0 & PR' & _ & RE & _ & OP).
    { rewrite H4 in P. assert (R2 : r2_of (at_ray y ez t) = vx y * vx y + vy y * vy y) by (unfold r2_of, at_ray, vadd3, vmul3, ez; cbn [vx vy]; ring). rewrite R2 in P. fold n. lra. }
    rewrite PR in PR'. assert (u0 = u) by congruence. subst u0. split; [exact (f_equal (fun q => snd (fst q)) PR')|]. assert (EP0 : at_ray y ez t0 = p) by congruence. rewrite EP0 in RE.
    exists d0. split; [exact RE|]. fold n f in OP. rewrite <- OP. rewrite <- EP0. unfold dot, at_ray, vadd3, vmul3, ez. cbn [vx vy vz]. ring.
  - destruct H2 as (A & AL). specialize (MT m s eq_refl H3 A). cbn [on] in ON. rewrite EP in ON.
    destruct (C72_point_source newton pl rad m s y i n0 l t d H N0 H0 H1 A AL H3 H4 U MT ON) as (PR' & OP). rewrite PR in PR'. split; [exact (f_equal (fun q => snd (fst q)) PR')|].
    exists (- vz p). split; [|rewrite EP; fold n f in OP; lra]. split; [congruence|]. unfold dot, ez. cbn [vx vy vz]. ring.
  - destruct H0 as (A & AL). specialize (MT m s eq_refl H1 A). cbn [on] in ON. rewrite EP in ON.
    destruct (C72_mirror_foci newton pl rad m s y i n0 l t d e H A AL H1 H2 H3 U MT ON) as (u0 & d0 & PR' & RE & OP). rewrite PR in PR'. split; [exact (f_equal (fun q => snd (fst q)) PR')|].
    assert (u0 = u) by congruence. subst u0. exists d0. rewrite <- EP in RE. split; [exact RE|]. fold f f' in OP. rewrite <- OP. ring.
  - destruct H0 as (A & AL). specialize (MT m s eq_refl H1 A). cbn [on] in ON. rewrite EP in ON.
    destruct (C72_paraboloid newton pl rad m s y i n0 l t d H A AL H1 H2 U MT ON) as (PR' & OP). rewrite PR in PR'. split; [exact (f_equal (fun q => snd (fst q)) PR')|].
    exists (vz p). split; [split; [congruence|unfold dot, vneg, ez; cbn [vx vy vz]; ring]|]. fold f in OP. rewrite <- OP, <- EP. ring.
  - destruct ON as (-> & ->). destruct (SK m s p ez eq_refl eq_refl eq_refl) as (SH & P & D0 & _).
    destruct (reflect_sheet _ _ _ _ _ _ _ _ _ _ _ _ H (or_intror (ex_intro _ zs (conj H0 H1))) P PR) as (-> & RU). split; [reflexivity|].
    destruct (sheet_facts (s_c s) (s_k s) p SH P) as (w & W & WZ & CR & SN). rewrite H3 in WZ. assert (W1 : w = 1) by (rewrite WZ; ring). rewrite W1 in *. clear W1 w W WZ.
    cbv zeta in RU. set (N := sheet_normal (s_c s) (s_k s) p) in *.
    exists (- (vz p + f)). split.
    + cbn [on]. assert (NN : N = V (- s_c s * vx p) (- s_c s * vy p) 1) by (transitivity (vmul3 1 N); [vec_ring|exact SN]). rewrite NN in RU. clear NN SN. rewrite RU. unfold dot, vsub3, vadd3, vmul3, ez, axial, f. cbn [vx vy vz].
      assert (G : - s_c s * vx p * (- s_c s * vx p) + - s_c s * vy p * (- s_c s * vy p) + 1 * 1 = 1 + 2 * (s_c s * vz p)) by (replace (1 + 2 * (s_c s * vz p)) with (1 + s_c s * (vz p * (1 + 1))) by ring; rewrite <- CR; ring).
      assert (G0 : 0 < 1 + 2 * (s_c s * vz p)) by (rewrite <- G; pose proof (Rle_0_sqr (- s_c s * vx p)); pose proof (Rle_0_sqr (- s_c s * vy p)); unfold Rsqr in *; lra).
      rewrite G. apply vec_eq; cbn [vx vy vz]; field; split; lra.
    + unfold dot, ez. cbn [vx vy vz]. ring.
  - destruct H2 as (A & AL). specialize (MT m s eq_refl H3 A). cbn [on] in ON. rewrite EP in ON.
    destruct (C72_aplanatic newton pl rad m s y i n0 l t d H N0 H0 H1 A AL H3 H4 U MT ON) as (u0 & d0 & PR' & RE & OP & _). rewrite PR in PR'. split; [exact (f_equal (fun q => snd (fst q)) PR')|].
    assert (u0 = u) by congruence. subst u0. exists d0. rewrite <- EP in RE. split; [exact RE|]. fold n in OP. lra.
  - destruct H2 as (A & AL). specialize (MT m s eq_refl H3 A). cbn [on] in ON. rewrite EP in ON.
    destruct (C72_centre newton pl rad m s y i n0 l t d H N0 H0 H1 A AL H3 H4 U MT ON) as (PR' & OP). rewrite PR in PR'. split; [exact (f_equal (fun q => snd (fst q)) PR')|].
    assert (u = i) by congruence. subst u. exists d. rewrite <- EP in ON. split; [exact ON|]. assert (D : d = / s_c s) by (apply (Rmult_eq_reg_l (s_c s)); [rewrite OP, Rinv_r by exact H3; reflexivity|exact H3]). rewrite D. unfold Rdiv. ring.
  - destruct (SK m s p i eq_refl eq_refl eq_refl) as (SH & P & D0 & _). destruct (reflect_sheet _ _ _ _ _ _ _ _ _ _ _ _ H (or_introl (proj1 H0)) P PR) as (-> & RU). split; [reflexivity|].
    rewrite H1 in *. assert (NN : sheet_normal 0 (s_k s) p = ez) by (unfold sheet_normal, ez; apply vec_eq; cbn [vx vy vz]; unfold Rdiv; ring).
    assert (PZ : vz p = 0) by (destruct SH as (_ & ->); unfold Rdiv; ring). rewrite NN in RU. assert (UM : u = mirrored i) by (rewrite RU; unfold mirrored, dot, vsub3, vmul3, ez; cbn [vx vy vz]; apply vec_eq; cbn [vx vy vz]; field).
    exists d. split; [|ring]. clear - ON UM PZ. rewrite UM. destruct c as [X|D w]; cbn [on reflected] in *.
    + rewrite <- ON. unfold mirrored, vadd3, vmul3. cbn [vx vy vz]. rewrite PZ. apply vec_eq; cbn [vx vy vz]; ring.
    + destruct ON as (-> & ->). split; [reflexivity|]. unfold mirrored, dot. cbn [vx vy vz]. rewrite PZ. ring.
  - assert (E : n1 = n0 /\ u = i).
    { unfold propagate in PR. cbn [obind e_kind] in PR. destruct H as [->|[s ->]].
      - destruct (plane_intercept y i); cbn [obind] in PR; split; congruence.
      - cbn [get_n_mu] in PR. destruct (intercept newton s y i); cbn [obind] in PR; [|discriminate].
        destruct (Req_EM_T 1 0); [lra|]. unfold refract in PR. destruct (Req_EM_T 1 1); [|lra]. split; congruence. }
    destruct E as (-> & ->). split; [reflexivity|]. exists d. split; [exact ON|ring].
Qed.
Lemma back_dot r a b : rotation r -> dot (vm a (mT r)) (vm b (mT r)) = dot a b.
Proof. intros H. rewrite dot_vm. replace (mT (mT r)) with r by (destruct r as [[] [] []]; reflexivity). rewrite rotation_inv_l by exact H. reflexivity. Qed.
(** ** C91: the chain *)
Theorem C91_relay l es : forall n0 c n c' K y u d0, Forall (good_element l) es -> relay l n0 c es n c' K -> 0 < n0 -> dot u u = 1 -> on c y u d0 ->
  let F := sys_propagate newton es (Some y) (Some u) n0 l false in hits es F ->
  exists p w d T, st_y (last F nothing) = Some p /\ st_u (last F nothing) = Some w /\ st_n (last F nothing) = n /\ on c' p w d /\
    path_sum F = Some T /\ T + n * d = n0 * d0 + K.
Proof.
  intros n0 c n c' K y u d0 G RE. revert y u d0 G. induction RE as [n0 c e n a c' K EN ST|n0 c e es n a b c1 K m c' K' EN ST LV RE IH]; intros y u d0 G N0 U ON.
  all: inversion_clear G as [|? ? GE GS]; pose proof GE as (GP & _); destruct (normal_maps _ GP) as (r & RO & FN & TN); cbn [sys_propagate obind]; unfold onormal; cbn [obind]; rewrite !TN.
  all: set (yi := vm (vsub3 y (p_offset (e_place e))) (mT r)); set (ui := vm u (mT r)).
  all: assert (UI : dot ui ui = 1) by (unfold ui; rewrite back_dot by exact RO; exact U).
  all: assert (OI : on a yi ui d0) by (
    clear - EN ON TN RO; destruct c as [X|D w], a as [X'|D' w']; cbn [enters on] in *; try contradiction;
    [rewrite TN in EN; assert (X' = vm (vsub3 X (p_offset (e_place e))) (mT r)) as -> by congruence; unfold yi, ui; rewrite <- ON, <- vm_scale, <- vm_add; f_equal; vec_ring
    |destruct EN as (EN & ->); rewrite TN in EN; assert (D' = vm D (mT r)) as -> by congruence; destruct ON as (-> & ->); split; [reflexivity|]; unfold yi; rewrite back_dot by exact RO; vec_ring]).
  all: destruct (propagate newton e (Some yi) (Some ui) n0 l false) as [[[p w] n1] tn] eqn:PR; intros H; match type of H with hits _ ?X => set (F := X) in |- * end; inversion_clear H as [|? ? ? ? ((p1 & w1 & EP & EW) & SK) HS]; cbn [st_y st_u] in EP, EW; subst p w.
  all: assert (OU : ounit (Some ui)) by (intros v E; injection E as <-; exact UI).
  all: destruct (propagate_spec newton _ _ _ _ _ _ _ _ _ _ GE N0 OU PR) as (UW & N1 & _); specialize (UW w1 eq_refl).
  all: destruct (prop_hit _ _ _ _ _ _ _ _ _ PR) as (t & EP & ET); assert (O2 : on a p1 ui (d0 - t)) by (rewrite EP; apply on_later; assumption).
  all: destruct (stigmatic_sound _ _ _ _ _ _ _ _ _ _ _ _ _ _ ST N0 UI PR SK O2) as (-> & d1 & O1 & K1).
  - exists p1, w1, d1, (t * n0 + 0). unfold F. cbn [last st_y st_u st_n path_sum st_t obind]. rewrite ET. cbn [obind]. split; [reflexivity|]. split; [reflexivity|]. split; [reflexivity|]. split; [exact O1|]. split; [reflexivity|]. lra.
  - cbn [obind] in F, HS. rewrite !FN in *.
    assert (O3 : on c1 (vm p1 r) (vm w1 r) d1).
    { clear - LV O1 FN RO. destruct b as [X|D w], c1 as [X'|D' w']; cbn [leaves on] in *; try contradiction.
      - rewrite FN in LV. assert (X' = vm X r) as -> by congruence. rewrite <- O1, vm_add, vm_scale. reflexivity.
      - destruct LV as (LV & ->). rewrite FN in LV. assert (D' = vm D r) as -> by congruence. destruct O1 as (-> & ->). split; [reflexivity|]. rewrite rotation_dot by exact RO. reflexivity. }
    assert (U3 : dot (vm w1 r) (vm w1 r) = 1) by (rewrite rotation_dot by exact RO; exact UW).
    destruct (IH _ _ _ GS N1 U3 O3 HS) as (p & w & d & T & E1 & E2 & E3 & E4 & E5 & E6).
    assert (LN : last F nothing = last (sys_propagate newton es (Some (vm p1 r)) (Some (vm w1 r)) n l false) nothing).
    { unfold F. rewrite !FN. clear - RE. destruct es as [|e1 es]; [inversion RE|]. pose proof (length_sys newton (e1 :: es) (Some (vm p1 r)) (Some (vm w1 r)) n l false) as Q. destruct (sys_propagate newton (e1 :: es) (Some (vm p1 r)) (Some (vm w1 r)) n l false) as [|b F]; [discriminate Q|reflexivity]. }
    rewrite LN. exists p, w, d, (t * n0 + T). split; [exact E1|]. split; [exact E2|]. split; [exact E3|]. split; [exact E4|]. split; [|lra].
    unfold F. rewrite !FN. cbn [path_sum st_t obind]. rewrite ET, E5. reflexivity.
Qed.
(** a screen through the image: every ray of the bundle ends in one and the same point, and all of them take
    the same optical path *)
Theorem C91_spot l es e X n0 c n K y u d0 : Forall (good_element l) (es ++ [e]) -> relay l n0 c (es ++ [e]) n (At X) K -> e_kind e = Plain -> vz X = 0 ->
  0 < n0 -> dot u u = 1 -> on c y u d0 -> let F := sys_propagate newton (es ++ [e]) (Some y) (Some u) n0 l false in hits (es ++ [e]) F ->
  st_y (last F nothing) = Some X /\ path_sum F = Some (n0 * d0 + K).
Proof.
  intros G RE EK XZ N0 U ON F H. destruct (C91_relay l _ _ _ _ _ _ _ _ _ G RE N0 U ON H) as (p & w & d & T & E1 & E2 & E3 & E4 & E5 & E6). fold F in E1, E2, E3, E5.
  assert (Z : d = 0).
  { assert (L : vz p = 0 /\ vz w <> 0).
    { clear - E1 E2 EK. unfold F in *. clear F. revert E1 E2. generalize (Some y) (Some u) n0. induction es as [|a es IH]; intros y0 u0 n0'; cbn [app sys_propagate].
      - unfold propagate. rewrite EK. cbn [last st_y st_u]. destruct (do y <- y0; to_normal _ _) as [yi|]; [|discriminate]. unfold onormal. destruct (do x <- u0; to_normal (e_place e) x) as [ui|]; cbn [obind]; [|discriminate].
        unfold plane_intercept, fdiv. destruct (Req_EM_T (vz ui) 0) as [|NZ]; cbn [obind]; [discriminate|]. intros E1 E2. assert (w = ui) by congruence. subst w. split; [|exact NZ].
        assert (p = at_ray yi ui (- vz yi / vz ui)) as -> by congruence. unfold at_ray. cbn [vadd3 vmul3 vz]. field. exact NZ.
      - destruct (propagate _ _ _ _ _ _ _) as [[[q v] n1] tn]. intros E1 E2. apply (IH (onormal (from_normal (e_place a)) q) (onormal (from_normal (e_place a)) v) n1).
        + destruct es; cbn [app sys_propagate] in *; destruct (propagate _ _ _ _ _ _ _) as [[[? ?] ?] ?]; exact E1.
        + destruct es; cbn [app sys_propagate] in *; destruct (propagate _ _ _ _ _ _ _) as [[[? ?] ?] ?]; exact E2. }
    destruct L as (L1 & L2). cbn [on] in E4. apply (f_equal vz) in E4. cbn [vadd3 vmul3 vz] in E4. rewrite L1, XZ in E4. assert (D : d * vz w = 0) by lra. destruct (Rmult_integral _ _ D); [assumption|contradiction]. }
  subst d. cbn [on] in E4. assert (p = X) by (rewrite <- E4; vec_ring). subst p. split; [exact E1|]. rewrite E5. f_equal. lra.
Qed.
End Relay.
(** *** two mirrors (Cassegrain): a paraboloid, a hyperboloid facing it and a screen behind the first *)
From Verif Require Import PolyChain PropsBracket PropsCoddington.
Definition mirror_mat : material := Material (fun _ => 1) true true.
Definition facing (d : R) : placement := Placement d (V 0 0 (-1)) (V 0 0 (- d)) v0 false true (Some half_turn) (Some half_turn).
Definition cassegrain : list element :=
  [El (at_place 0) None (Sph (Some mirror_mat) (Surf (- / 20) (-1) (Some [0]) false));
   El (facing 8) None (Sph (Some mirror_mat) (Surf (5 / 24) (- (7 / 5) ^ 2) None false))].
Definition cassegrain_screen : element := El (at_place 12) None Plain.
Lemma facing_good d : 0 < d -> good_place (facing d).
Proof. intros D. destruct (init_spec (- d) ez v0 None) as (p & J & N & F). rewrite place_back in J by lra. injection J as <-. split; auto. Qed.
Lemma facing_maps d v : to_normal (facing d) v = Some (flip v) /\ from_normal (facing d) v = Some (flip v).
Proof. exact (back5_maps v). Qed.
Lemma at_place_maps d v : to_normal (at_place d) v = Some v /\ from_normal (at_place d) v = Some v.
Proof. split; reflexivity. Qed.
Lemma cassegrain_good : Forall (good_element 1) (cassegrain ++ [cassegrain_screen]).
Proof.
  repeat (apply Forall_cons || apply Forall_nil); (split; [|cbn; first [exact I|discriminate]]); cbn [e_place cassegrain_screen];
    first [apply at_place_good; lra|apply facing_good; lra].
Qed.
Lemma cassegrain_relay : relay 1 1 (Toward ez 0) (cassegrain ++ [cassegrain_screen]) 1 (At v0) (20).
Proof.
  replace 20 with (- (1 * / (2 * - / 20)) + (- (1 * (/ (5 / 24 * (1 + 7 / 5)) + / (5 / 24 * (1 - 7 / 5)))) + 0)) by field.
  apply (R_next 1 1 _ _ _ 1 (Toward ez 0) (At (axial (/ (2 * - / 20)))) (At (axial (/ (2 * - / 20))))).
  - cbn [enters]. split; [reflexivity|]. unfold dot, ez. cbn. ring.
  - apply (S_dish 1 1 _ _ _ (Surf (- / 20) (-1) (Some [0]) false) [0]); cbn [s_c s_k s_asph]; try reflexivity; try lra. repeat constructor.
  - reflexivity.
  - apply (R_next 1 1 _ _ _ 1 (At (axial 2)) (At (axial (-12))) (At (axial 12))).
    + cbn [enters e_place]. rewrite (proj1 (facing_maps _ _)). f_equal. unfold flip, vsub3, axial. cbn [vx vy vz p_offset facing]. apply vec_eq; cbn [vx vy vz]; field.
    + replace 2 with (/ (5 / 24 * (1 + 7 / 5))) at 1 by field. replace (-12) with (/ (5 / 24 * (1 - 7 / 5))) by field.
      apply (S_foci 1 1 _ _ _ (Surf (5 / 24) (- (7 / 5) ^ 2) None false)); cbn [s_c s_k m_mirror mirror_mat]; try reflexivity; try lra. split; reflexivity.
    + cbn [leaves e_place]. rewrite (proj2 (facing_maps _ _)). f_equal. unfold flip, axial. cbn [vx vy vz]. apply vec_eq; cbn [vx vy vz]; ring.
    + apply (R_last _ _ _ _ _ (At v0)); [|apply S_pass; left; reflexivity]. cbn. f_equal. unfold vsub3, axial, v0. cbn [vx vy vz]. apply vec_eq; cbn [vx vy vz]; ring.
Qed.
Definition cassegrain_trace : list step :=
  [Step (Some (V 4 0 (-2/5))) (Some (V (-5/13) 0 (-12/13))) 1 (Some ez) (Some (3/5));
   Step (Some (V (120/149) 0 (10/149))) (Some (V (-60/901) 0 (-899/901))) 1 (Some (V (-5/13) 0 (12/13))) (Some (6188/745));
   Step (Some v0) (Some (V (-60/901) 0 (899/901))) 1 (Some (V (-60/901) 0 (899/901))) (Some (1802/149))].
Lemma root x y : 0 <= y -> x = y * y -> sqrt x = y.
Proof. intros Y ->. apply sqrt_square, Y. Qed.
(** the solver has found the point on the paraboloid *)
Definition newton : (R -> option R) -> (R -> option R) -> option R -> option R := fun _ _ _ => Some (3/5).
Lemma cassegrain_traced : sys_propagate newton (cassegrain ++ [cassegrain_screen]) (Some (V 4 0 (-1))) (Some ez) 1 1 false = cassegrain_trace.
Proof.
  set (M1 := Surf (- / 20) (-1) (Some [0]) false). set (M2 := Surf (5 / 24) (- (7 / 5) ^ 2) None false).
  assert (P1 : propagate newton (El (at_place 0) None (Sph (Some mirror_mat) M1)) (Some (V 4 0 (-1))) (Some ez) 1 1 false = (Some (V 4 0 (-2/5)), Some (V (-5/13) 0 (-12/13)), 1, Some (3/5))).
  { assert (AT : at_ray (V 4 0 (-1)) ez (3/5) = V 4 0 (-2/5)) by (unfold at_ray, vadd3, vmul3, ez; cbn [vx vy vz]; apply vec_eq; cbn [vx vy vz]; lra).
    assert (RT : sqrt (1 - (1 + -1) * (- / 20) ^ 2 * (4 * 4 + 0 * 0)) = 1) by (apply root; lra).
    assert (NR : surface_normal M1 (V 4 0 (-2/5)) = Some (V (/5) 0 1)).
    { rewrite zero_normal; [|right; exists [0]; split; [reflexivity|repeat constructor]|cbn [s_c s_k M1]; unfold r2_of; cbn [vx vy]; lra].
      cbn [s_c s_k M1]. unfold sheet_normal. cbn [vx vy vz]. rewrite RT. f_equal. apply vec_eq; cbn [vx vy vz]; field. }
    unfold propagate. cbn [e_kind obind]. unfold intercept. cbn [s_asph M1]. unfold newton_intercept, newton. cbn [obind get_n_mu m_mirror mirror_mat]. rewrite AT, Rmult_1_r.
    destruct (Req_EM_T (-1) 0); [lra|]. unfold refract. destruct (Req_EM_T (-1) 1); [lra|]. cbn [obind]. fold M1. rewrite NR. cbn [obind]. rewrite reflect_normal by (intros Q; apply (f_equal vz) in Q; cbn in Q; lra).
    f_equal. f_equal. f_equal. f_equal. unfold dot, vsub3, vmul3, ez. cbn [vx vy vz]. apply vec_eq; cbn [vx vy vz]; field. }
  assert (P2 : propagate newton (El (facing 8) None (Sph (Some mirror_mat) M2)) (Some (V 4 0 (-38/5))) (Some (V (-5/13) 0 (12/13))) 1 1 false = (Some (V (120/149) 0 (10/149)), Some (V (-60/901) 0 (-899/901)), 1, Some (6188/745))).
  { assert (AT : at_ray (V 4 0 (-38/5)) (V (-5/13) 0 (12/13)) (6188/745) = V (120/149) 0 (10/149)) by (unfold at_ray, vadd3, vmul3; cbn [vx vy vz]; apply vec_eq; cbn [vx vy vz]; lra).
    assert (RT : sqrt (1 - (1 + - (7 / 5) ^ 2) * (5 / 24) ^ 2 * (120/149 * (120/149) + 0 * 0)) = 151/149) by (apply root; lra).
    rewrite (meets_step newton (facing 8) None mirror_mat M2 (V 4 0 (-38/5)) (V (-5/13) 0 (12/13)) 1 1 (6188/745) (V (-60/901) 0 (-899/901))).
    - rewrite AT. cbn [m_mirror mirror_mat]. rewrite Rmult_1_r. reflexivity.
    - reflexivity.
    - cbn. lra.
    - reflexivity.
    - unfold dot; cbn [vx vy vz]; lra.
    - unfold meets. rewrite AT. cbn [s_c s_k M2]. unfold sheet, sheet_normal, r2_of, lead, dot. cbn [vx vy vz]. rewrite RT. repeat split; lra.
    - cbn [m_mirror mirror_mat]. rewrite AT. rewrite reflect_normal by apply sheet_normal_nz. f_equal. cbn [s_c s_k M2]. unfold sheet_normal. cbn [vx vy vz]. rewrite RT. unfold dot, vsub3, vmul3. cbn [vx vy vz]. apply vec_eq; cbn [vx vy vz]; field. }
  assert (P3 : propagate newton cassegrain_screen (Some (V (120/149) 0 (- (10/149) - 12))) (Some (V (-60/901) 0 (899/901))) 1 1 false = (Some v0, Some (V (-60/901) 0 (899/901)), 1, Some (1802/149))).
  { unfold propagate. cbn [e_kind cassegrain_screen obind]. unfold plane_intercept. cbn [vx vy vz]. rewrite fdiv_some by lra. cbn [obind].
    replace (- (- (10 / 149) - 12) / (899 / 901)) with (1802/149) by field. rewrite Rmult_1_r. do 4 f_equal.
    unfold at_ray, vadd3, vmul3, v0. cbn [vx vy vz]. apply vec_eq; cbn [vx vy vz]; lra. }
  unfold cassegrain, cassegrain_trace. cbn [app sys_propagate obind]. unfold onormal. cbn [obind e_place]. fold M1 M2.
  rewrite !(proj1 (at_place_maps _ _)). replace (vsub3 (V 4 0 (-1)) (p_offset (at_place 0))) with (V 4 0 (-1)) by (unfold vsub3; cbn [p_offset at_place vx vy vz]; apply vec_eq; cbn [vx vy vz]; ring).
  rewrite P1. cbn [obind]. rewrite !(proj2 (at_place_maps _ _)). cbn [obind]. rewrite !(proj1 (facing_maps _ _)).
  replace (flip (vsub3 (V 4 0 (-2 / 5)) (p_offset (facing 8)))) with (V 4 0 (-38/5)) by (unfold flip, vsub3; cbn [p_offset facing vx vy vz]; apply vec_eq; cbn [vx vy vz]; lra).
  replace (flip (V (-5 / 13) 0 (-12 / 13))) with (V (-5/13) 0 (12/13)) by (unfold flip; cbn [vx vy vz]; apply vec_eq; cbn [vx vy vz]; lra).
  rewrite P2. cbn [obind]. rewrite !(proj2 (facing_maps _ _)). cbn [obind]. cbn [e_place cassegrain_screen]. rewrite !(proj1 (at_place_maps _ _)).
  replace (flip (V (-60 / 901) 0 (-899 / 901))) with (V (-60/901) 0 (899/901)) by (unfold flip; cbn [vx vy vz]; apply vec_eq; cbn [vx vy vz]; lra).
  replace (vsub3 (flip (V (120 / 149) 0 (10 / 149))) (p_offset (at_place 12))) with (V (120/149) 0 (- (10/149) - 12)) by (unfold flip, vsub3; cbn [p_offset at_place vx vy vz]; apply vec_eq; cbn [vx vy vz]; lra).
  rewrite P3. reflexivity.
Qed.
Example C91_example : let F := sys_propagate newton (cassegrain ++ [cassegrain_screen]) (Some (V 4 0 (-1))) (Some ez) 1 1 false in
  hits (cassegrain ++ [cassegrain_screen]) F /\ on (Toward ez 0) (V 4 0 (-1)) ez 1 /\ st_y (last F nothing) = Some v0 /\ path_sum F = Some (1 * 1 + 20).
Proof.
  intros F. assert (H : hits (cassegrain ++ [cassegrain_screen]) F).
  { unfold F. rewrite cassegrain_traced. unfold hits, cassegrain, cassegrain_trace. cbn [app].
    apply Forall2_cons; [|apply Forall2_cons; [|apply Forall2_cons; [|apply Forall2_nil]]]; (split; [do 2 eexists; split; reflexivity|]); intros m s p i E E1 E2; cbn [e_kind cassegrain_screen st_y st_i] in E, E1, E2.
    - assert (s = Surf (- / 20) (-1) (Some [0]) false) as -> by congruence. assert (p = V 4 0 (-2/5)) as -> by congruence. assert (i = ez) as -> by congruence. clear.
      assert (RT : sqrt (1 - (1 + -1) * (- / 20) ^ 2 * (4 * 4 + 0 * 0)) = 1) by (apply root; lra).
      cbn [s_c s_k s_asph]. unfold sheet, sheet_normal, r2_of, lead, dot, ez. cbn [vx vy vz]. rewrite RT. repeat split; try lra; intros _ E; first [discriminate E|lra].
    - assert (s = Surf (5 / 24) (- (7 / 5) ^ 2) None false) as -> by congruence. assert (p = V (120/149) 0 (10/149)) as -> by congruence. assert (i = V (-5/13) 0 (12/13)) as -> by congruence. clear.
      assert (RT : sqrt (1 - (1 + - (7 / 5) ^ 2) * (5 / 24) ^ 2 * (120/149 * (120/149) + 0 * 0)) = 151/149) by (apply root; lra).
      cbn [s_c s_k s_asph]. unfold sheet, sheet_normal, r2_of, lead, dot. cbn [vx vy vz]. rewrite RT. repeat split; try lra; intros _ E; first [discriminate E|lra].
    - discriminate. }
  assert (O : on (Toward ez 0) (V 4 0 (-1)) ez 1) by (split; [reflexivity|]; unfold dot, ez; cbn [vx vy vz]; ring).
  split; [exact H|]. split; [exact O|].
  apply (C91_spot newton 1 cassegrain cassegrain_screen v0 1 (Toward ez 0) 1 20 _ _ 1 cassegrain_good cassegrain_relay eq_refl eq_refl Rlt_0_1); [unfold dot, ez; cbn [vx vy vz]; ring|exact O|exact H].
Qed.
