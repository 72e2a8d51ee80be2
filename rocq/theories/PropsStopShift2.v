(** Property C80, continued: reversed and symmetric systems. *)
From Coq Require Import Reals List Lra Lia Psatz.
From Verif Require Import Base Vec RotModel RotProofs PlacementModel PlacementProofs ElementModel PropsRescale
  ParaxialModel ParaxialProofs LimitProofs PropsLimit PupilModel ParaxTraceModel PropsConjugates SeidelModel PropsSeidel
  ReverseModel PropsReverse PropsInverse PropsStopShift.
Import ListNotations.
Open Scope R_scope.

(** ** consecutive rows of a trace *)
Definition stepped (l : R) (e : element) (r r' : prow) : Prop :=
  rn r' = index_after e (rn r) l /\ 0 < rn r' /\
  fst (ry r') = fst (ry r) + p_distance (e_place e) / rn r * fst (ru r) /\
  snd (ry r') = snd (ry r) + p_distance (e_place e) / rn r * snd (ru r) /\
  match e_kind e with
  | Plain => True
  | Sph m s => exists c, vertex_curvature s = Some c /\
      fst (ru r') = fst (ru r) + (rn r - signed m (rn r')) * c * fst (ry r') /\
      snd (ru r') = snd (ru r) + (rn r - signed m (rn r')) * c * snd (ry r')
  end.
Lemma rows_from axis l es : forall m c n rs j e r r', 0 < n -> coaxial l n es -> ptrace_from axis l es m c n = Some rs ->
  nth_error es j = Some e -> nth_error (PRow (row_y axis m, row_y axis c) (row_u axis m, row_u axis c) n :: rs) j = Some r ->
  nth_error rs j = Some r' -> stepped l e r r'.
Proof.
  induction es as [|e es IH]; intros m c n rs j e' r r' N CO; [destruct j; discriminate|].
  destruct CO as (AN & KI & CO). cbn [ptrace_from].
  unfold propagate_paraxial. destruct (paraxial_matrix e n l) as [n1 [M|]] eqn:PM; cbn [obind]; [|discriminate].
  destruct (element_rows e n l n1 M N AN KI PM) as (IA & N1 & RO).
  destruct (ptrace_from axis l es (mv4 M m) (mv4 M c) n1) as [rs'|] eqn:P; cbn [obind]; [|discriminate]. intros E; injection E as <-.
  destruct j as [|j].
  - cbn [nth_error]. intros E; injection E as <-. intros E; injection E as <-. intros E; injection E as <-.
    unfold stepped. cbn [ry ru rn fst snd]. destruct (RO axis m) as (Y1 & U1). destruct (RO axis c) as (Y2 & U2).
    split; [exact IA|]. split; [exact N1|]. split; [exact Y1|]. split; [exact Y2|].
    destruct (e_kind e) as [|mt s]; [trivial|]. destruct U1 as (c1 & V1 & U1). destruct U2 as (c2 & V2 & U2). rewrite V1 in V2. injection V2 as <-.
    exists c1. auto.
  - cbn [nth_error]. intros E1 E2 E3. rewrite <- IA in CO. eapply (IH _ _ n1 rs' j); eauto.
Qed.
Lemma rows_step axis l e0 es y u n rs j e r r' : 0 < n -> coaxial l n es -> ptrace axis l (e0 :: es) y u n = Some rs ->
  nth_error es j = Some e -> nth_error rs j = Some r -> nth_error rs (S j) = Some r' -> stepped l e r r'.
Proof.
  intros N CO P E R R'. cbn [ptrace] in P. destruct (ptrace_from _ _ es _ _ _) as [rs'|] eqn:Q; [|discriminate]. cbn [obind] in P. injection P as <-.
  cbn [nth_error] in R'. eapply (rows_from axis l es _ _ n rs' j); eauto. rewrite <- R. f_equal. f_equal. unfold row_y, row_u. destruct y, u, axis; reflexivity.
Qed.
Definition dispersion_before (l1 l2 : R) (es : list element) (j : nat) : R :=
  match j with O => 0 | S j => match nth_error es j with Some e => element_dispersion e l1 l2 | None => 0 end end.
Lemma coefs_from l1 l2 es : forall r0 rs v xs j x e r r', aberrations_from l1 l2 es r0 rs v = Some xs ->
  nth_error xs j = Some x -> nth_error es j = Some e -> nth_error (r0 :: rs) j = Some r -> nth_error rs j = Some r' ->
  element_aberration e (ry r') (ru r) (ru r') (rn r) (rn r') (match j with O => v | S j => match nth_error es j with Some e => element_dispersion e l1 l2 | None => 0 end end)
    (element_dispersion e l1 l2) = Some x.
Proof.
  induction es as [|e es IH]; intros r0 rs v xs j x e' r r' H X E; [destruct j; discriminate|].
  destruct rs as [|r1 rs]; [destruct j; discriminate|]. cbn [aberrations_from] in H.
  destruct (element_aberration e _ _ _ _ _ _ _) as [x1|] eqn:EA; cbn [obind] in H; [|discriminate].
  destruct (aberrations_from l1 l2 es r1 rs _) as [xs'|] eqn:AF; cbn [obind] in H; [|discriminate]. injection H as <-.
  destruct j as [|j].
  - cbn [nth_error] in *. injection X as <-. injection E as <-. intros A; injection A as <-. intros A; injection A as <-. exact EA.
  - cbn [nth_error] in X, E. intros A B. cbn [nth_error] in A, B. pose proof (IH _ _ _ _ j _ _ _ _ AF X E A B) as K.
    destruct j; exact K.
Qed.
(** the coefficients of element j >= 1 come from the rows j - 1 and j *)
Lemma coefs_row l1 l2 e0 es rs xs j x e r r' : aberrations l1 l2 (e0 :: es) rs = Some xs ->
  nth_error xs (S j) = Some x -> nth_error es j = Some e -> nth_error rs j = Some r -> nth_error rs (S j) = Some r' ->
  element_aberration e (ry r') (ru r) (ru r') (rn r) (rn r') (dispersion_before l1 l2 es j) (element_dispersion e l1 l2) = Some x.
Proof.
  destruct rs as [|r0 rs]; [discriminate|]. cbn [aberrations]. destruct (aberrations_from l1 l2 es r0 rs 0) as [xs'|] eqn:AF; [|discriminate].
  cbn [obind]. intros E; injection E as <-. cbn [nth_error]. intros X E R R'. exact (coefs_from _ _ _ _ _ _ _ _ _ _ _ _ AF X E R R').
Qed.

(** ** the elements of a lens and of the reversed lens *)
Definition refracts (l : R) (e : element) : Prop :=
  p_angles (e_place e) = v0 /\ match e_kind e with Sph (Some m) _ => m_mirror m = false /\ 0 < m_index m l | _ => True end.
Lemma refracts_coaxial l es : forall n, Forall (refracts l) es -> coaxial l n es.
Proof.
  induction es as [|e es IH]; intros n F; [exact I|]. inversion F as [|? ? (A & K) FS]; subst. cbn [coaxial]. split; [exact A|]. split; [|auto].
  destruct (e_kind e) as [|[m|] s]; auto. destruct K as (-> & K). exact K.
Qed.
Lemma optics_nth l es : forall i e, optics l es -> nth_error es i = Some e -> (S i < length es)%nat /\ lens l e \/ S i = length es /\ screen l e.
Proof.
  induction es as [|x es IH]; intros i e O N; [destruct i; discriminate|]. cbn [length]. destruct es as [|x2 es].
  - destruct i as [|i]; [|destruct i; discriminate]. cbn in N. injection N as <-. right. auto.
  - destruct O as (L & O). destruct i as [|i]; [cbn in N; injection N as <-; left; cbn; split; [lia|exact L]|].
    destruct (IH i e O N) as [(A & B)|(A & B)]; [left|right]; split; auto; cbn in *; lia.
Qed.
Lemma refracts_lens l e : untilted e -> lens l e -> refracts l (fst e).
Proof. intros (_ & A) (m & s & c & K & MI & MP & _). split; [exact A|]. rewrite K. auto. Qed.
Lemma refracts_screen l e : untilted e -> screen l e -> refracts l (fst e).
Proof. intros (_ & A) (m & s & c & K & _ & M). split; [exact A|]. rewrite K. destruct m; tauto. Qed.
Lemma forall_nth {A} (P : A -> Prop) (l : list A) : (forall i x, nth_error l i = Some x -> P x) -> Forall P l.
Proof. intros H. apply Forall_forall. intros x I. apply In_nth_error in I. destruct I as (i & I). eauto. Qed.

Section Reversed.
Variables (l : R) (e : relem) (es : list relem).
Hypothesis U : Forall untilted (e :: es).
Hypothesis L : lens l e.
Hypothesis O : optics l es.
Let all := e :: es.
Let N := length es.
Lemma all_lens i x : nth_error all i = Some x -> (i < N)%nat /\ lens l x \/ i = N /\ screen l x.
Proof.
  destruct i as [|i]; cbn [nth_error all]; intros E.
  - injection E as <-. left. split; [|exact L]. unfold N. destruct es; [contradiction|cbn; lia].
  - destruct (optics_nth l es i x O E) as [(A & B)|(A & B)]; [left|right]; unfold N; split; auto; lia.
Qed.
Lemma all_untilted i x : nth_error all i = Some x -> untilted x.
Proof. intros E. apply nth_error_In in E. rewrite Forall_forall in U. auto. Qed.
Lemma forward_refracts : Forall (refracts l) (map fst es).
Proof.
  apply (proj2 (@Forall_map relem element fst (refracts l) es)), forall_nth. intros i a A.
  assert (A' : nth_error all (S i) = Some a) by exact A. destruct (all_lens _ _ A') as [(_ & K)|(_ & K)]; [apply refracts_lens|apply refracts_screen]; auto; eapply all_untilted; eauto.
Qed.
(** element N - i of the reversed list *)
Lemma reversed_nth i x : nth_error all i = Some x -> nth_error (rgen None all) (N - i) = Some (revd x (dist_at all (S i)) (mat_before None all i)).
Proof. intros E. rewrite <- (rgen_nth all None i x E). f_equal. unfold N, all. cbn [length]. lia. Qed.
Lemma before_lens i x : nth_error all (S i) = Some x -> exists a m, nth_error all i = Some a /\ mat_before None all (S i) = Some m /\
  material_of a = Some m /\ m_mirror m = false /\ 0 < m_index m l.
Proof.
  intros E. assert (B : (S i < length all)%nat) by (apply nth_error_Some; congruence). destruct (nth_error all i) as [a|] eqn:A.
  2:{ apply nth_error_None in A. lia. }
  destruct (all_lens _ _ A) as [(_ & K)|(F & _)]; [|unfold N, all in *; cbn [length] in B; lia].
  destruct (lens_material l a K) as (m & s & c & ME & _ & MI & MP & _). exists a, m. cbn [mat_before]. rewrite A. auto.
Qed.
Lemma reversed_refracts : Forall (refracts l) (map fst (rgen None all)).
Proof.
  apply (proj2 (@Forall_map relem element fst (refracts l) (rgen None all))), forall_nth. intros k a A.
  assert (K : (k < length (rgen None all))%nat) by (apply nth_error_Some; congruence). rewrite rgen_length in K. unfold all in K. cbn [length] in K. fold N in K.
  destruct (nth_error all (N - k)) as [b|] eqn:B; [|apply nth_error_None in B; unfold all in B; cbn [length] in B; fold N in B; lia].
  pose proof (reversed_nth _ _ B) as RN. replace (N - (N - k))%nat with k in RN by lia. assert (AE : a = revd b (dist_at all (S (N - k))) (mat_before None all (N - k))) by (apply (f_equal (fun o => match o with Some z => z | None => a end) (eq_trans (eq_sym A) RN))). subst a.
  pose proof (all_untilted _ _ B) as (_ & UB).
  assert (AN : p_angles (e_place (fst (revd b (dist_at all (S (N - k))) (mat_before None all (N - k))))) = v0).
  { unfold revd. destruct (e_kind (fst b)); cbn; exact UB. }
  split; [exact AN|]. unfold revd. destruct (e_kind (fst b)); cbn [fst e_kind]; [trivial|].
  destruct (N - k)%nat as [|i] eqn:NI; [exact I|]. destruct (before_lens _ _ B) as (a & m & _ & MB & _ & M1 & M2). rewrite MB. auto.
Qed.

Variables (axis : bool) (y u : R * R) (rs rs' : list prow) (rN : prow) (nb : R).
Hypothesis FW : ptrace axis l (map fst all) y u (idx l e 1) = Some rs.
Hypothesis RN : nth_error rs N = Some rN.
Hypothesis BW : ptrace axis l (map fst (rgen None all)) (ry rN) (- fst (ru rN), - snd (ru rN)) nb = Some rs'.
Hypothesis NB : forall r, nth_error rs (N - 1) = Some r -> nb = rn r.

Lemma len_rs : length rs = S N.
Proof. rewrite (ptrace_length _ _ _ _ _ _ _ FW), map_length. reflexivity. Qed.
Lemma len_rs' : length rs' = S N.
Proof. rewrite (ptrace_length _ _ _ _ _ _ _ BW), map_length, rgen_length. reflexivity. Qed.
Lemma e_index : 0 < idx l e 1.
Proof. destruct L as (m & s & c & K & _ & MP & _). unfold idx, index_after. rewrite K. exact MP. Qed.
Lemma forward_step j x r r' : nth_error es j = Some x -> nth_error rs j = Some r -> nth_error rs (S j) = Some r' -> stepped l (fst x) r r'.
Proof.
  intros E A B. eapply (rows_step axis l (fst e) (map fst es) y u (idx l e 1) rs j); eauto.
  - apply e_index.
  - apply refracts_coaxial, forward_refracts.
  - exact (map_nth_error fst j es E).
Qed.
(** the index in a row is that of the material of its element *)
Lemma forward_index j x m r : (j < N)%nat -> nth_error all j = Some x -> material_of x = Some m -> nth_error rs j = Some r -> rn r = m_index m l.
Proof.
  intros J X M R. destruct (all_lens _ _ X) as [(_ & LX)|(F & _)]; [|lia]. destruct LX as (m' & s & c & K & _). unfold material_of in M. rewrite K in M. injection M as ->.
  destruct j as [|j].
  - cbn in X. injection X as <-. rewrite (ptrace_0 _ _ _ _ _ _ _ FW) in R. injection R as <-. cbn [rn]. unfold idx, index_after. rewrite K. reflexivity.
  - destruct (nth_error rs j) as [r0|] eqn:R0; [|apply nth_error_None in R0; rewrite len_rs in R0; lia].
    destruct (forward_step j x r0 r X R0 R) as (A & _). rewrite A. unfold index_after. rewrite K. reflexivity.
Qed.
Lemma N_pos : (0 < N)%nat.
Proof. unfold N. destruct es; [contradiction|cbn; lia]. Qed.
Lemma row_at j : (j <= N)%nat -> exists r, nth_error rs j = Some r.
Proof. intros J. destruct (nth_error rs j) eqn:E; [eauto|]. apply nth_error_None in E. rewrite len_rs in E. lia. Qed.
Lemma row_at' j : (j <= N)%nat -> exists r, nth_error rs' j = Some r.
Proof. intros J. destruct (nth_error rs' j) eqn:E; [eauto|]. apply nth_error_None in E. rewrite len_rs' in E. lia. Qed.
Lemma el_at j : (j <= N)%nat -> exists x, nth_error all j = Some x.
Proof. intros J. destruct (nth_error all j) eqn:E; [eauto|]. apply nth_error_None in E. unfold all in E. cbn [length] in E. fold N in E. lia. Qed.
Lemma row_index j r : (j < N)%nat -> nth_error rs j = Some r -> 0 < rn r.
Proof.
  intros J R. destruct (el_at j) as (x & X); [lia|]. destruct (all_lens _ _ X) as [(_ & K)|(F & _)]; [|lia].
  destruct (lens_material l x K) as (m & s & c & ME & _ & _ & MP & _). rewrite (forward_index j x m r J X ME R). exact MP.
Qed.
Lemma nb_pos : 0 < nb.
Proof. pose proof N_pos. destruct (row_at (N - 1)) as (r & R); [lia|]. rewrite (NB r R). apply (row_index (N - 1) r); [lia|exact R]. Qed.
Lemma backward_step k x r r' : nth_error (rgen None all) (S k) = Some x -> nth_error rs' k = Some r -> nth_error rs' (S k) = Some r' -> stepped l (fst x) r r'.
Proof.
  intros E A B. pose proof reversed_refracts as F. pose proof nb_pos as P. generalize BW. revert E F. clear - A B P. destruct (rgen None all) as [|x0 xs]; [discriminate|]. cbn [nth_error map]. intros E F BW.
  inversion F as [|? ? _ FS]; subst. eapply (rows_step axis l (fst x0) (map fst xs) _ _ nb rs' k); eauto.
  - apply refracts_coaxial. exact FS.
  - exact (map_nth_error fst k xs E).
Qed.
(** the rays retrace their path *)
Lemma reversed_rows k : (k < N)%nat -> forall rk a b, nth_error rs' k = Some rk -> nth_error rs (N - k) = Some a -> nth_error rs (N - k - 1) = Some b ->
  ry rk = ry a /\ ru rk = (- fst (ru b), - snd (ru b)) /\ rn rk = rn b.
Proof.
  induction k as [|k IH]; intros K rk a b RK A B.
  - rewrite (ptrace_0 _ _ _ _ _ _ _ BW) in RK. injection RK as <-. rewrite Nat.sub_0_r in *. rewrite RN in A. injection A as <-. cbn [ry ru rn].
    split; [reflexivity|]. split; [|apply NB; exact B].
    destruct (el_at N) as (x & X); [lia|]. destruct (all_lens _ _ X) as [(F & _)|(_ & SC)]; [lia|].
    assert (X' : nth_error es (N - 1) = Some x) by (rewrite <- X; replace N with (S (N - 1)) at 2 by lia; reflexivity).
    assert (R1 : nth_error rs (S (N - 1)) = Some rN) by (rewrite <- RN; f_equal; lia).
    destruct (forward_step _ _ _ _ X' B R1) as (I1 & _ & _ & _ & ST). destruct SC as (m & s & c & KI & VC & M). rewrite KI in ST.
    destruct ST as (c' & VC' & U1 & U2). rewrite VC in VC'. injection VC' as <-. unfold index_after in I1. rewrite KI in I1.
    assert (Z : (rn b - signed m (rn rN)) * c = 0).
    { destruct m as [m|]; [destruct M as (_ & _ & ->); ring|]. unfold signed. rewrite I1. ring. }
    rewrite U1, U2, Z. f_equal; ring.
  - destruct (row_at' k) as (rk0 & RK0); [lia|]. destruct (row_at (N - k)) as (a0 & A0); [lia|].
    set (j := (N - S k)%nat) in *. assert (J : (0 < j < N)%nat) by (unfold j; lia).
    assert (E1 : (N - k = S j)%nat) by (unfold j; lia). assert (E2 : (N - k - 1 = j)%nat) by (unfold j; lia).
    rewrite E1 in A0. destruct (IH ltac:(lia) rk0 a0 a RK0) as (Y0 & U0 & N0); [rewrite E1; exact A0|rewrite E2; exact A|].
    destruct (el_at j) as (x & X); [lia|]. destruct (el_at (S j)) as (x1 & X1); [lia|].
    pose proof (reversed_nth j x X) as RX. replace (N - j)%nat with (S k) in RX by (unfold j; lia).
    destruct (all_lens _ _ X) as [(_ & LX)|(F & _)]; [|lia]. destruct (lens_material l x LX) as (m & s & c & ME & KI & MI & MP & VC).
    destruct j as [|i] eqn:EJ; [lia|]. replace (S i - 1)%nat with i in B by lia.
    destruct (before_lens _ _ X) as (xp & mp & XP & MB & MEP & MIP & MPP).
    destruct (backward_step k _ _ _ RX RK0 RK) as (I' & P' & Y1 & Y2 & ST').
    rewrite (kind_revd x _ _ (Some m) s KI), MB in ST'. destruct ST' as (c' & VC' & U1 & U2). rewrite (vertex_reverse s c VC) in VC'. injection VC' as <-.
    unfold index_after in I'. rewrite (kind_revd x _ _ (Some m) s KI), MB in I'.
    pose proof (forward_index i xp mp b ltac:(lia) XP MEP B) as IB.
    destruct (forward_step i x b a X B A) as (I1 & _ & _ & _ & ST). rewrite KI in ST. destruct ST as (c1 & VC1 & V1 & V2). rewrite VC in VC1. injection VC1 as <-.
    destruct (forward_step (S i) x1 a a0 X1 A A0) as (_ & _ & W1 & W2 & _).
    assert (DI : p_distance (e_place (fst (revd x (dist_at all (S (S i))) (mat_before None all (S i))))) = p_distance (e_place (fst x1))).
    { fold (dist (revd x (dist_at all (S (S i))) (mat_before None all (S i)))). rewrite dist_revd. unfold dist_at. rewrite X1. reflexivity. }
    rewrite DI, Y0, U0, N0 in *. cbn [fst snd] in *. unfold signed in *. rewrite MI in *. rewrite MIP in *.
    assert (YE : ry rk = ry a) by (destruct (ry rk), (ry a); cbn [fst snd] in *; f_equal; lra).
    split; [exact YE|]. split; [|congruence]. rewrite YE in *. assert (NE : rn rk = rn b) by congruence. rewrite NE in *.
    destruct (ru rk); cbn [fst snd] in *. f_equal; lra.
Qed.
Variables (l1 l2 : R) (xs xs' : list coefs).
Hypothesis AF : aberrations l1 l2 (map fst all) rs = Some xs.
Hypothesis AB : aberrations l1 l2 (map fst (rgen None all)) rs' = Some xs'.
Lemma reversed_coefs j x x' : (0 < j < N)%nat -> nth_error xs j = Some x -> nth_error xs' (N - j) = Some x' ->
  (tsc x' = - tsc x /\ cc x' = - cc x /\ tac x' = - tac x /\ tpc x' = - tpc x /\ dc x' = - dc x) /\
  (element_dispersion (fst e) l1 l2 = 0 -> (forall g, nth_error all (N - 1) = Some g -> element_dispersion (fst g) l1 l2 = 0) ->
   tachc x' = - tachc x /\ tchc x' = - tchc x).
Proof.
  intros J X X'. destruct j as [|i]; [lia|]. set (k := (N - S i - 1)%nat). assert (EK : (N - S i = S k)%nat) by (unfold k; lia). rewrite EK in X'.
  destruct (el_at (S i)) as (g & G); [lia|]. destruct (row_at i) as (b & B); [lia|]. destruct (row_at (S i)) as (a & A); [lia|]. destruct (row_at (S (S i))) as (a1 & A1); [lia|].
  destruct (row_at' k) as (rk & RK); [unfold k; lia|]. destruct (row_at' (S k)) as (rk1 & RK1); [unfold k; lia|].
  destruct (reversed_rows k ltac:(unfold k; lia) rk a1 a RK) as (_ & UK & NK); [rewrite <- A1; f_equal; unfold k; lia|rewrite <- A; f_equal; unfold k; lia|].
  destruct (reversed_rows (S k) ltac:(unfold k; lia) rk1 a b RK1) as (YK1 & UK1 & NK1); [rewrite <- A; f_equal; unfold k; lia|rewrite <- B; f_equal; unfold k; lia|].
  destruct (all_lens _ _ G) as [(_ & LG)|(F & _)]; [|lia]. destruct (lens_material l g LG) as (m & s & c & ME & KI & MI & MP & VC).
  destruct (before_lens _ _ G) as (gp & mp & GP & MB & MEP & MIP & MPP).
  pose proof (reversed_nth (S i) g G) as RG. rewrite EK in RG.
  destruct (forward_step i g b a G B A) as (_ & _ & _ & _ & ST). rewrite KI in ST. destruct ST as (c1 & VC1 & V1 & V2). rewrite VC in VC1. injection VC1 as <-.
  pose proof (coefs_row l1 l2 (fst e) (map fst es) rs xs i x (fst g) b a AF X (map_nth_error fst i es G) B A) as CF.
  assert (CB : element_aberration (fst (revd g (dist_at all (S (S i))) (mat_before None all (S i)))) (ry rk1) (ru rk) (ru rk1) (rn rk) (rn rk1)
      (dispersion_before l1 l2 (map fst (tl (rgen None all))) k) (element_dispersion (fst (revd g (dist_at all (S (S i))) (mat_before None all (S i)))) l1 l2) = Some x').
  { revert AB RG. clear - X' RK RK1. destruct (rgen None all) as [|x0 zs]; [discriminate|]. cbn [map tl nth_error]. intros AB RG.
    exact (coefs_row l1 l2 (fst x0) (map fst zs) rs' xs' k x' _ rk rk1 AB X' (map_nth_error fst k zs RG) RK RK1). }
  assert (DW : element_dispersion (fst (revd g (dist_at all (S (S i))) (mat_before None all (S i)))) l1 l2 = element_dispersion (fst gp) l1 l2).
  { unfold element_dispersion at 1. rewrite (kind_revd g _ _ (Some m) s KI), MB. unfold element_dispersion, material_of in *.
    destruct (all_lens _ _ GP) as [(_ & LP)|(F & _)]; [|lia]. destruct (lens_material l gp LP) as (m2 & s2 & c2 & _ & K2 & _). rewrite K2 in *. injection MEP as ->. reflexivity. }
  rewrite DW in CB. unfold element_aberration in CF, CB. rewrite KI in CF. rewrite (kind_revd g _ _ (Some m) s KI), MB in CB.
  rewrite YK1, UK, UK1, NK, NK1 in CB. destruct (ry a) as [ym yc], (ru a) as [um uc], (ru b) as [um0 uc0]. cbn [fst snd] in *.
  apply aberration_sev in CF. destruct CF as (k0 & c0 & D & Q1 & Q2 & Q3 & ->). apply aberration_sev in CB. destruct CB as (k1 & c1 & D' & Q4 & Q5 & Q6 & ->).
  rewrite (departure_reverse _ _ _ D) in D'. injection D' as <- <-. rewrite (departure_vertex _ _ _ _ D VC) in *.
  unfold signed in *. rewrite MI in *. rewrite MIP in *.
  set (v := dispersion_before l1 l2 (map fst es) i). set (v' := dispersion_before l1 l2 (map fst (tl (rgen None all))) k).
  pose proof (sev_reverse k0 c0 (rn a) (rn b) (element_dispersion (fst gp) l1 l2) (element_dispersion (fst g) l1 l2) ym yc um0 uc0 um uc Q1 Q2 Q3 V1 V2) as SR.
  split.
  - unfold sev, opposite in SR |- *. cbn [tsc cc tac tpc dc]. injection SR as S1 S2 S3 S4 S5 _ _. auto.
  - intros Z1 Z2. assert (HV : v = element_dispersion (fst gp) l1 l2).
    { unfold v, dispersion_before. destruct i as [|i]; [cbn in GP; injection GP as <-; auto|]. rewrite (map_nth_error fst i es GP). reflexivity. }
    assert (HV' : v' = element_dispersion (fst g) l1 l2).
    { unfold v', dispersion_before. destruct k as [|k2] eqn:K2; [symmetry; apply Z2; rewrite <- G; f_equal; lia|].
      destruct (el_at (S (S i))) as (g2 & G2); [lia|]. pose proof (reversed_nth _ _ G2) as R2. replace (N - S (S i))%nat with (S k2) in R2 by lia.
      assert (R3 : nth_error (map fst (tl (rgen None all))) k2 = Some (fst (revd g2 (dist_at all (S (S (S i)))) (mat_before None all (S (S i)))))).
      { revert R2. clear. destruct (rgen None all) as [|x0 zs]; [discriminate|]. cbn [tl nth_error]. intros H. exact (map_nth_error fst k2 zs H). }
      rewrite R3. destruct (before_lens _ _ G2) as (g1 & m1 & G1 & MB1 & ME1 & _). rewrite G in G1. injection G1 as <-. rewrite ME in ME1. injection ME1 as <-.
      rewrite MB1. unfold element_dispersion. rewrite KI.
      destruct (all_lens _ _ G2) as [(_ & (m2 & s2 & c2 & K3 & _))|(_ & (m2 & s2 & c2 & K3 & _))]; rewrite (kind_revd g2 _ _ _ s2 K3); reflexivity. }
    rewrite HV, HV', SR. cbn. auto.
Qed.
End Reversed.

Lemma first_lens l e es : lens l e -> refractive_index (map fst (e :: es)) l 0 = idx l e 1.
Proof. intros (m & s & c & K & _). unfold refractive_index, idx, index_after. cbn. rewrite K. reflexivity. Qed.
Lemma untilted_placed es : Forall untilted es -> placed es.
Proof. intros U. eapply Forall_impl; [|exact U]. intros a (H & _). exact H. Qed.
(** launched in its own first medium, the reversed system starts in the index before the last surface *)
Lemma reversed_launch l e es axis y u rs r : Forall untilted (e :: es) -> lens l e -> optics l es ->
  ptrace axis l (map fst (e :: es)) y u (idx l e 1) = Some rs -> nth_error rs (length es - 1) = Some r ->
  refractive_index (map fst (rgen None (e :: es))) l 0 = rn r.
Proof.
  intros U L O P R. assert (NP : (0 < length es)%nat) by (destruct es; [contradiction|cbn; lia]).
  destruct (nth_error (e :: es) (length es)) as [x|] eqn:X; [|apply nth_error_None in X; cbn in X; lia].
  pose proof (reversed_nth e es (length es) x X) as RX. rewrite Nat.sub_diag in RX.
  assert (X2 : nth_error (e :: es) (S (length es - 1)) = Some x) by (rewrite <- X; f_equal; lia).
  destruct (before_lens l e es U L O _ _ X2) as (a & m & A & MB & ME & _). rewrite (forward_index l e es U L O axis y u rs P (length es - 1) a m r ltac:(lia) A ME R).
  replace (S (length es - 1)) with (length es) in MB by lia. rewrite MB in RX.
  destruct (rgen None (e :: es)) as [|x0 zs]; [discriminate|]. cbn [nth_error] in RX. assert (X0 : x0 = revd x (dist_at (e :: es) (S (length es))) (Some m)) by congruence. subst x0.
  destruct (all_lens l e es U L O _ _ X) as [(F & _)|(_ & (m2 & s2 & c2 & K2 & _))]; [lia|].
  unfold refractive_index. cbn [map firstn rev app first_index]. rewrite (kind_revd x _ _ _ s2 K2). reflexivity.
Qed.
(** the reversed lens, entered by the rays that left the lens: the rays retrace their path and every surface contributes the
    opposite of what it contributed before *)
Theorem C80_reversed axis l l1 l2 e es ys y u rs rN rs' xs xs' : Forall untilted (e :: es) -> lens l e -> optics l es ->
  reverse (e :: es) = Some ys ->
  ptrace axis l (map fst (e :: es)) y u (refractive_index (map fst (e :: es)) l 0) = Some rs -> nth_error rs (length es) = Some rN ->
  ptrace axis l (map fst ys) (ry rN) (- fst (ru rN), - snd (ru rN)) (refractive_index (map fst ys) l 0) = Some rs' ->
  aberrations l1 l2 (map fst (e :: es)) rs = Some xs -> aberrations l1 l2 (map fst ys) rs' = Some xs' ->
  forall j x x', (0 < j < length es)%nat -> nth_error xs j = Some x -> nth_error xs' (length es - j) = Some x' ->
    (forall r r', nth_error rs j = Some r -> nth_error rs' (length es - j) = Some r' -> ry r' = ry r) /\
    tsc x' = - tsc x /\ cc x' = - cc x /\ tac x' = - tac x /\ tpc x' = - tpc x /\ dc x' = - dc x /\
    (element_dispersion (fst e) l1 l2 = 0 -> (forall g, nth_error (e :: es) (length es - 1) = Some g -> element_dispersion (fst g) l1 l2 = 0) ->
     tachc x' = - tachc x /\ tchc x' = - tchc x).
Proof.
  intros U L O RV P RN P' A A' j x x' J X X'. rewrite (reverse_rgen _ (untilted_placed _ U)) in RV. injection RV as <-.
  rewrite (first_lens l e es L) in P.
  assert (NB : forall r, nth_error rs (length es - 1) = Some r -> refractive_index (map fst (rgen None (e :: es))) l 0 = rn r)
    by (intros r; apply (reversed_launch l e es axis y u rs r U L O P)).
  destruct (reversed_coefs l e es U L O axis y u rs rs' rN _ P RN P' NB l1 l2 xs xs' A A' j x x' J X X') as ((T1 & T2 & T3 & T4 & T5) & T6).
  split; [|tauto]. intros r r' R R'.
  destruct (row_at l e es axis y u rs P (j - 1)) as (b & B); [lia|].
  destruct (reversed_rows l e es U L O axis y u rs rs' rN _ P RN P' NB (length es - j) ltac:(lia) r' r b R') as (Y & _); auto.
  - rewrite <- R. f_equal. lia.
  - rewrite <- B. f_equal. lia.
Qed.

(** ** symmetric systems *)
Lemma column_sum (f : coefs -> R) xs : column f xs = fold_right Rplus 0 (map f xs).
Proof. induction xs as [|x xs IH]; [reflexivity|]. cbn. unfold column in *. rewrite IH. reflexivity. Qed.
Lemma sum_app a b : fold_right Rplus 0 (a ++ b) = fold_right Rplus 0 a + fold_right Rplus 0 b.
Proof. induction a as [|x a IH]; cbn; [ring|]. rewrite IH. ring. Qed.
Lemma sum_rev a : fold_right Rplus 0 (rev a) = fold_right Rplus 0 a.
Proof. induction a as [|x a IH]; [reflexivity|]. cbn [rev]. rewrite sum_app, IH. cbn. ring. Qed.
Lemma sum_odd N : forall a, length a = S N -> (forall i x, (i <= N)%nat -> nth_error a i = Some x -> nth_error a (N - i) = Some (- x)) -> fold_right Rplus 0 a = 0.
Proof.
  intros a L H. assert (E : rev a = map Ropp a).
  { apply nth_error_ext. intros i. rewrite nth_error_map. destruct (nth_error a i) as [x|] eqn:X.
    - assert (I : (i < length a)%nat) by (apply nth_error_Some; congruence). cbn [option_map].
      rewrite (nth_error_nth' (rev a) 0) by (rewrite rev_length; exact I). rewrite rev_nth by exact I.
      f_equal. rewrite L. replace (S N - S i)%nat with (N - i)%nat by lia. apply nth_error_nth. apply H; [lia|exact X].
    - apply nth_error_None in X. cbn. apply nth_error_None. rewrite rev_length. exact X. }
  assert (S2 : forall b, fold_right Rplus 0 (map Ropp b) = - fold_right Rplus 0 b) by (induction b as [|x b IH]; cbn; [ring|rewrite IH; ring]).
  pose proof (sum_rev a) as R. rewrite E, S2 in R. lra.
Qed.
Lemma aberrations_from_length l1 l2 es : forall r0 rs v xs, length rs = length es -> aberrations_from l1 l2 es r0 rs v = Some xs -> length xs = length es.
Proof.
  induction es as [|e es IH]; intros r0 rs v xs LE; destruct rs as [|r rs]; try discriminate; cbn [aberrations_from]; [intros E; injection E as <-; reflexivity|].
  destruct (element_aberration _ _ _ _ _ _ _ _) as [x|]; cbn [obind]; [|discriminate]. destruct (aberrations_from l1 l2 es r rs _) as [xs'|] eqn:A; cbn [obind]; [|discriminate].
  intros E; injection E as <-. cbn. f_equal. eapply IH; [|exact A]. cbn in LE. lia.
Qed.
Lemma aberrations_length l1 l2 es rs xs : length rs = length es -> aberrations l1 l2 es rs = Some xs -> length xs = length es.
Proof.
  destruct es as [|e es], rs as [|r rs]; try discriminate. cbn [aberrations]. intros LE. destruct (aberrations_from _ _ _ _ _ _) as [xs'|] eqn:A; cbn [obind]; [|discriminate].
  intros E; injection E as <-. cbn. f_equal. eapply aberrations_from_length; [|exact A]. cbn in LE. lia.
Qed.
Lemma aberrations_0 l1 l2 es rs xs : aberrations l1 l2 es rs = Some xs -> nth_error xs 0 = Some no_coefs.
Proof.
  destruct es as [|e es], rs as [|r rs]; try discriminate. cbn [aberrations]. destruct (aberrations_from _ _ _ _ _ _) as [xs'|]; cbn [obind]; [|discriminate].
  intros E; injection E as <-. reflexivity.
Qed.
(** a lens that is its own reverse, used symmetrically (the image is as far as the object, at magnification -1): no coma, no
    distortion, and between media free of dispersion no lateral colour *)
Theorem C80_symmetric axis l l1 l2 e es y u rs rN xs : Forall untilted (e :: es) -> lens l e -> optics l es ->
  reverse (e :: es) = Some (e :: es) ->
  ptrace axis l (map fst (e :: es)) y u (refractive_index (map fst (e :: es)) l 0) = Some rs -> nth_error rs (length es) = Some rN ->
  ry rN = (fst y, - snd y) -> ru rN = (- fst u, snd u) ->
  aberrations l1 l2 (map fst (e :: es)) rs = Some xs ->
  column cc xs = 0 /\ column dc xs = 0 /\ (element_dispersion (fst e) l1 l2 = 0 -> column tchc xs = 0).
Proof.
  intros U L O RV P RN YN UN A. assert (NP : (0 < length es)%nat) by (destruct es; [contradiction|cbn; lia]).
  destruct (C80_enlarged axis l l1 l2 (map fst (e :: es)) y u _ 1 (-1) rs xs ltac:(lra) ltac:(lra) P A) as (rs' & P' & A' & _).
  assert (P2 : ptrace axis l (map fst (e :: es)) (ry rN) (- fst (ru rN), - snd (ru rN)) (refractive_index (map fst (e :: es)) l 0) = Some rs').
  { rewrite <- P', YN, UN. cbn [fst snd]. f_equal; f_equal; ring. }
  pose proof (C80_reversed axis l l1 l2 e es (e :: es) y u rs rN rs' xs _ U L O RV P RN P2 A A') as REV.
  pose proof (aberrations_0 _ _ _ _ _ A) as X0.
  assert (LX : length xs = S (length es)).
  { rewrite (aberrations_length _ _ _ _ _ (ptrace_length _ _ _ _ _ _ _ P) A), map_length. reflexivity. }
  rewrite (reverse_rgen _ (untilted_placed _ U)) in RV. assert (RV' : rgen None (e :: es) = e :: es) by congruence. clear RV. rename RV' into RV.
  (* the two ends *)
  destruct (nth_error (e :: es) (length es)) as [f|] eqn:F; [|apply nth_error_None in F; cbn in F; lia].
  assert (F1 : nth_error (e :: es) (S (length es - 1)) = Some f) by (rewrite <- F; f_equal; lia).
  destruct (before_lens l e es U L O _ _ F1) as (g & m & G & MB & ME & _). replace (S (length es - 1)) with (length es) in MB by lia.
  assert (DG : element_dispersion (fst g) l1 l2 = element_dispersion (fst e) l1 l2).
  { pose proof (reversed_nth e es _ _ F) as RF. rewrite Nat.sub_diag, RV, MB in RF. assert (EF : e = revd f (dist_at (e :: es) (S (length es))) (Some m)) by (cbn in RF; congruence).
    destruct (all_lens l e es U L O _ _ F) as [(Q & _)|(_ & (m2 & s2 & c2 & K2 & _))]; [lia|]. rewrite EF. unfold element_dispersion at 2. rewrite (kind_revd f _ _ _ s2 K2).
    destruct (all_lens l e es U L O _ _ G) as [(_ & (m3 & s3 & c3 & K3 & _))|(Q & _)]; [|lia]. unfold element_dispersion, material_of in *. rewrite K3 in *. injection ME as ->. reflexivity. }
  assert (KF : exists s, e_kind (fst f) = Sph None s).
  { pose proof (reversed_nth e es 0 e eq_refl) as RF. rewrite Nat.sub_0_r, RV, F in RF. cbn [mat_before] in RF. injection RF as RF.
    destruct L as (m0 & s0 & c0 & K0 & _). rewrite RF. rewrite (kind_revd e _ None _ s0 K0). eauto. }
  destruct KF as (sf & KF).
  assert (XN : exists x, nth_error xs (length es) = Some x) by (destruct (nth_error xs (length es)) eqn:Q; [eauto|apply nth_error_None in Q; lia]).
  destruct XN as (xN & XN).
  assert (ZN : cc xN = 0 /\ dc xN = 0 /\ (element_dispersion (fst e) l1 l2 = 0 -> tchc xN = 0)).
  { rewrite (first_lens l e es L) in P. destruct (row_at l e es axis y u rs P (length es - 1)) as (b & B); [lia|].
    assert (RN1 : nth_error rs (S (length es - 1)) = Some rN) by (rewrite <- RN; f_equal; lia).
    assert (XN1 : nth_error xs (S (length es - 1)) = Some xN) by (rewrite <- XN; f_equal; lia).
    pose proof (coefs_row l1 l2 (fst e) (map fst es) rs xs (length es - 1) xN (fst f) b rN A XN1 (map_nth_error fst (length es - 1) es F1) B RN1) as CF.
    destruct (forward_step l e es U L O axis y u rs P _ _ _ _ F1 B RN1) as (IN & NP' & _ & _ & ST). rewrite KF in ST. destruct ST as (cv & _ & V1 & V2).
    unfold index_after in IN. rewrite KF in IN. unfold element_aberration in CF. rewrite KF in CF. unfold signed in V1, V2.
    destruct (ry rN) as [ym yc], (ru rN) as [um uc], (ru b) as [um0 uc0]. cbn [fst snd] in *.
    apply aberration_sev in CF. destruct CF as (k & c & D & Q1 & Q2 & Q3 & ->). unfold signed in *. rewrite IN in *.
    assert (V3 : uc0 = uc) by (rewrite V2; ring). rewrite V3. unfold sev. cbn [cc dc tchc].
    split; [field; auto|]. split; [field; auto|]. intros Z.
    assert (DV : dispersion_before l1 l2 (map fst es) (length es - 1) = 0).
    { unfold dispersion_before. destruct (length es - 1)%nat as [|i] eqn:LE; [reflexivity|]. rewrite (map_nth_error fst i es G). rewrite DG. exact Z. }
    rewrite DV. unfold element_dispersion. rewrite KF. field. auto. }
  destruct ZN as (ZC & ZD & ZT).
  assert (ODD : forall f : coefs -> R, f no_coefs = 0 -> f xN = 0 ->
    (forall j x x', (0 < j < length es)%nat -> nth_error xs j = Some x -> nth_error xs (length es - j) = Some x' -> f x' = - f x) -> column f xs = 0).
  { intros h H0 HN HJ. rewrite column_sum. apply (sum_odd (length es)); [rewrite map_length; exact LX|]. intros i z I Z. rewrite nth_error_map in Z |- *.
    destruct (nth_error xs i) as [x|] eqn:X; [|discriminate]. cbn in Z. injection Z as <-.
    destruct (nth_error xs (length es - i)) as [x'|] eqn:X'; [|apply nth_error_None in X'; lia]. cbn [option_map]. f_equal.
    destruct (Nat.eq_dec i 0) as [->|I0]; [|destruct (Nat.eq_dec i (length es)) as [->|IN]].
    - rewrite Nat.sub_0_r, XN in X'. injection X' as <-. rewrite X0 in X. injection X as <-. rewrite H0, HN. ring.
    - rewrite Nat.sub_diag, X0 in X'. injection X' as <-. rewrite XN in X. injection X as <-. rewrite H0, HN. ring.
    - apply (HJ i); [lia|exact X|exact X']. }
  assert (REV' : forall j x x', (0 < j < length es)%nat -> nth_error xs j = Some x -> nth_error xs (length es - j) = Some x' ->
    cc x' = - cc x /\ dc x' = - dc x /\ (element_dispersion (fst e) l1 l2 = 0 -> tchc x' = - tchc x)).
  { intros j x x' J X X'. destruct (REV j x (enlarged 1 (-1) x') J X) as (_ & _ & T2 & _ & _ & T5 & T6); [rewrite nth_error_map, X'; reflexivity|].
    cbn [enlarged cc dc tchc] in *. split; [lra|]. split; [lra|]. intros Z. apply T6; [exact Z|]. intros g' G'. rewrite G in G'. injection G' as <-. rewrite DG. exact Z. }
  split; [|split].
  - apply ODD; auto. intros j x x' J X X'. apply (REV' j x x' J X X').
  - apply ODD; auto. intros j x x' J X X'. apply (REV' j x x' J X X').
  - intros Z. apply ODD; auto. intros j x x' J X X'. apply (REV' j x x' J X X'). exact Z.
Qed.

(** ** a thick biconvex lens at magnification -1 *)
Definition crown : material := Material (fun l => 1 + l) false true.
Definition void : material := Material (fun _ => 1) false false.
Definition biconvex (p : placement) : relem * list relem :=
  ((El (with_distance p 0) None (Sph (Some void) (Surf 0 0 None false)), None),
   [(El (with_distance p 1) None (Sph (Some crown) (Surf 1 0 None false)), None);
    (El (with_distance p 1) None (Sph (Some void) (Surf (-1) 0 None false)), None);
    (El (with_distance p 1) None (Sph None (Surf 0 0 None false)), None)]).
Definition biconvex_rows : list prow := [PRow (0, 4) (1, -3) 1; PRow (1, 1) (0, -4) 2; PRow (1, -1) (-1, -3) 1; PRow (0, -4) (-1, -3) 1].
Lemma biconvex_lens p : updated p -> p_angles p = v0 -> Forall untilted (fst (biconvex p) :: snd (biconvex p)) /\ lens 1 (fst (biconvex p)) /\ optics 1 (snd (biconvex p)) /\
  reverse (fst (biconvex p) :: snd (biconvex p)) = Some (fst (biconvex p) :: snd (biconvex p)).
Proof.
  intros UP AN. assert (UW : forall d, 0 <= d -> updated (with_distance p d)) by (intros d D; apply set_distance_updated; auto).
  assert (UN : Forall untilted (fst (biconvex p) :: snd (biconvex p))) by (repeat apply Forall_cons; try apply Forall_nil; (split; [apply UW; lra|exact AN])).
  split; [exact UN|].
  split; [exists void, (Surf 0 0 None false), 0; cbn; repeat split; auto; lra|].
  split. { cbn [biconvex snd optics]. split; [exists crown, (Surf 1 0 None false), 1; cbn; repeat split; auto; lra|].
    split; [exists void, (Surf (-1) 0 None false), (-1); cbn; repeat split; auto; lra|].
    exists None, (Surf 0 0 None false), 0. cbn. auto. }
  rewrite (reverse_rgen _ (untilted_placed _ UN)). f_equal. unfold biconvex. cbn [fst snd rgen app].
  unfold revd, material_of, dist. cbn [fst snd e_kind e_place e_radius p_distance with_distance]. unfold reverse_surf. cbn [s_c s_k s_asph s_alt].
  replace (0 * -1) with 0 by ring. replace (1 * -1) with (-1) by ring. replace (-1 * -1) with 1 by ring. reflexivity.
Qed.
Lemma biconvex_traced p : updated p -> p_angles p = v0 ->
  ptrace true 1 (map fst (fst (biconvex p) :: snd (biconvex p))) (0, 4) (1, -3) (refractive_index (map fst (fst (biconvex p) :: snd (biconvex p))) 1 0) = Some biconvex_rows.
Proof.
  intros UP AN. destruct (biconvex_lens p UP AN) as (UN & _). inversion UN as [|? ? _ U1]; subst. cbn [biconvex snd] in U1.
  inversion U1 as [|? ? A1 U2]; subst. inversion U2 as [|? ? A2 U3]; subst. inversion U3 as [|? ? A3 _]; subst.
  change (refractive_index (map fst (fst (biconvex p) :: snd (biconvex p))) 1 0) with 1.
  unfold biconvex. cbn [fst snd map ptrace ptrace_from]. unfold propagate_paraxial.
  pose proof (prim _ 1 1 (Some crown) (Surf 1 0 None false) 1 A1 eq_refl eq_refl ltac:(lra) ltac:(cbn; split; [reflexivity|lra])) as P1.
  pose proof (prim _ 1 2 (Some void) (Surf (-1) 0 None false) (-1) A2 eq_refl eq_refl ltac:(lra) ltac:(cbn; split; [reflexivity|lra])) as P2.
  pose proof (prim _ 1 1 None (Surf 0 0 None false) 0 A3 eq_refl eq_refl ltac:(lra) I) as P3.
  cbn [fst] in P1, P2, P3. unfold dist in P1, P2, P3. cbn [fst e_place p_distance with_distance] in P1, P2, P3. cbn [crown void m_index] in P1, P2.
  rewrite P1. cbn [obind]. replace (1 + 1) with 2 by ring. rewrite P2. cbn [obind]. rewrite P3. cbn [obind].
  rewrite !mv4_mm4, !Tm_mv, !Rm_mv, !Tm_mv, !Rm_mv, !Tm_mv, !Rm_mv. unfold row_y, row_u, biconvex_rows. cbn [w0 w1 w2 w3].
  f_equal. f_equal. f_equal; [f_equal; f_equal; field|]. f_equal; [f_equal; f_equal; field|]. f_equal. f_equal; f_equal; field.
Qed.
Lemma biconvex_coefs p : exists xs, aberrations 2 (/ 2) (map fst (fst (biconvex p) :: snd (biconvex p))) biconvex_rows = Some xs /\
  column tsc xs = 1 /\ column tachc xs = 3 / 4 /\ (exists x, nth_error xs 1 = Some x /\ cc x = - (1 / 2) /\ dc x = - (3 / 2) /\ tchc x = - (3 / 8)).
Proof.
  unfold biconvex, biconvex_rows. cbn [fst snd map aberrations aberrations_from obind]. unfold element_aberration, element_dispersion. cbn [e_kind fst snd ry ru rn].
  unfold aberration, departure. cbn [s_asph s_c s_k m_mirror crown void m_index fst snd obind].
  repeat (rewrite fdiv_some by lra; cbn [obind]). eexists. split; [reflexivity|]. unfold column. cbn [fold_right tsc cc tachc tchc no_coefs nth_error length].
  split; [field|]. split; [field|]. eexists; split; [reflexivity|]. cbn [cc dc tchc]. split; [field|]. split; field.
Qed.
(** meets the hypotheses of all theorems of this property *)
Example C80_example : exists e es xs, Forall untilted (e :: es) /\ lens 1 e /\ optics 1 es /\ coaxial 1 1 (map fst es) /\
  reverse (e :: es) = Some (e :: es) /\
  ptrace true 1 (map fst (e :: es)) (0, 4) (1, -3) (refractive_index (map fst (e :: es)) 1 0) = Some biconvex_rows /\
  nth_error biconvex_rows (length es) = Some (PRow (fst (0, 4), - snd (0, 4)) (- fst (1, -3), snd (1, -3)) 1) /\
  aberrations 2 (/ 2) (map fst (e :: es)) biconvex_rows = Some xs /\ element_dispersion (fst e) 2 (/ 2) = 0 /\
  column tsc xs = 1 /\ column tachc xs = 3 / 4 /\ (exists x, nth_error xs 1 = Some x /\ cc x = - (1 / 2) /\ dc x = - (3 / 2) /\ tchc x = - (3 / 8)) /\
  (exists rs' xs', ptrace true 1 (map fst (e :: es)) (0, -4) (- -1, - -3) (refractive_index (map fst (e :: es)) 1 0) = Some rs' /\
    aberrations 2 (/ 2) (map fst (e :: es)) rs' = Some xs').
Proof.
  destruct (centred_axis 0) as (p & _ & UP & _ & _ & AN); [lra|]. destruct (biconvex_lens p UP AN) as (UN & L & O & RV).
  destruct (biconvex_coefs p) as (xs & A & T1 & T2 & X1). pose proof (biconvex_traced p UP AN) as P. exists (fst (biconvex p)), (snd (biconvex p)), xs.
  split; [exact UN|]. split; [exact L|]. split; [exact O|].
  split; [apply refracts_coaxial; apply (forward_refracts 1 (fst (biconvex p)) (snd (biconvex p)) UN L O)|].
  split; [exact RV|]. split; [exact P|]. split; [cbn; repeat f_equal; try ring|]. split; [exact A|]. split; [cbn; ring|]. split; [exact T1|]. split; [exact T2|]. split; [exact X1|].
  destruct (C80_enlarged true 1 2 (/ 2) _ _ _ _ 1 (-1) _ _ ltac:(lra) ltac:(lra) P A) as (rs' & P' & A' & _).
  exists rs'. eexists. split; [|exact A']. rewrite <- P'. cbn [fst snd]. f_equal; f_equal; ring.
Qed.
(** pupils at 2 and at 4 seen with the same marginal slope *)
Example C80_launch_example : exists o o', cj_finite o = cj_finite o' /\ cj_val o = cj_val o' /\ wideangle o = wideangle o' /\
  prays [] 1 o = Some ((0, -4), (1, 2)) /\ prays [] 1 o' = Some ((0, -4), (1, 1)).
Proof.
  exists (Conjugate true 4 (Pupil SlopePupil 1 2 false false false false 1 Rectilinear) Rectilinear false), (Conjugate true 4 (Pupil SlopePupil 1 4 false false false false 1 Rectilinear) Rectilinear false).
  split; [reflexivity|]. split; [reflexivity|]. split; [reflexivity|].
  unfold prays, conj_slope, pupil_slope, refractive_index. cbn. rewrite !fdiv_some by lra. cbn [obind]. split; f_equal; f_equal; f_equal; field.
Qed.

Print Assumptions C80_stop_shift.
Print Assumptions C80_stop_position.
Print Assumptions C80_enlarged.
Print Assumptions C80_launch.
Print Assumptions C80_reversed.
Print Assumptions C80_symmetric.
