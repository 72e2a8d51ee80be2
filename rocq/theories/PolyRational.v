(** Exact evaluation of the polynomial trace with rational coefficients, for lenses of rational curvatures and indices
    (all the powers taken have constant term one). *)
From Coq Require Import Reals List Arith ZArith Lia Lra.
From Verif Require Import Base Vec RotModel PlacementModel ElementModel SimplexModel SimplexPowModel PolyModel.
From Coq Require Import QArith Qreals.
Import ListNotations.
Open Scope Q_scope.

Definition qadd (a b : Q) : Q := Qred (a + b).
Definition qmult (a b : Q) : Q := Qred (a * b).
Definition qmul := simplex_mul Q 0 qadd qmult.
Definition qvadd := vadd Q qadd.
Definition qvscale := vscale Q qmult.
Definition qneg (a : list Q) : list Q := map Qopp a.
Definition qsub (a b : list Q) : list Q := map (fun x => qadd (fst x) (- snd x)) (combine a b).
Definition qshift (a : list Q) (x : Q) : list Q := shift Q qadd a x.
Definition qdivs (a : list Q) (x : Q) : list Q := map (fun v => qmult v (/ x)) a.
Definition qstep (abi : list (list (nat * nat))) (x : list Q) (p : Q) (yz : list Q * list Q) (i : nat) : list Q * list Q :=
  let w := qmul abi x (fst yz) in
  let y := qvscale (Qred ((p - inject_Z (Z.of_nat i)) / (inject_Z (Z.of_nat i) + 1))) w in
  (y, qvadd (snd yz) y).
Definition qpow (abi : list (list (nat * nat))) (m : nat) (a : list Q) (p : Q) : option (list Q) :=
  match a with
  | [] => None
  | a0 :: _ =>
      if Qeq_bool a0 1 then
        let x := upd 0 0 a in
        let y := map (fun v => qmult v p) x in
        let z := upd 0 (qadd (nth 0 y 0) 1) y in
        let '(_, z) := fold_left (qstep abi x p) (seq 1 (m - 1)) (y, z) in Some z
      else None
  end.
Definition toR (a : list Q) : list R := map Q2R a.

Lemma Q2R_add a b : Q2R (qadd a b) = (Q2R a + Q2R b)%R.
Proof. unfold qadd. rewrite (Qeq_eqR _ _ (Qred_correct _)). apply Q2R_plus. Qed.
Lemma Q2R_mul a b : Q2R (qmult a b) = (Q2R a * Q2R b)%R.
Proof. unfold qmult. rewrite (Qeq_eqR _ _ (Qred_correct _)). apply Q2R_mult. Qed.
Lemma Q2R_0' : Q2R 0 = 0%R. Proof. apply RMicromega.Q2R_0. Qed.
Lemma Q2R_1' : Q2R 1 = 1%R. Proof. apply RMicromega.Q2R_1. Qed.
Lemma toR_nth i a : nth i (toR a) 0%R = Q2R (nth i a 0).
Proof. unfold toR. rewrite <- Q2R_0'. apply map_nth. Qed.
Lemma toR_mul abi a b : rmul abi (toR a) (toR b) = toR (qmul abi a b).
Proof.
  unfold rmul, qmul, simplex_mul, toR at 3. rewrite map_map. apply map_ext. intros r. assert (G : forall c, fold_left (fun (c : R) (pq : nat * nat) => (c + nth (fst pq) (toR a) 0 * nth (snd pq) (toR b) 0)%R) r (Q2R c) = Q2R (fold_left (fun c pq => qadd c (qmult (nth (fst pq) a 0) (nth (snd pq) b 0))) r c)).
  { induction r as [|x r IH]; intros c; [reflexivity|]. cbn [fold_left]. rewrite <- IH. f_equal. rewrite Q2R_add, Q2R_mul, !toR_nth. reflexivity. }
  rewrite <- G, Q2R_0'. reflexivity.
Qed.
Lemma toR_vadd a b : rvadd (toR a) (toR b) = toR (qvadd a b).
Proof. unfold rvadd, qvadd, vadd, toR. revert b. induction a as [|x a IH]; intros [|y b]; cbn [map combine fst snd]; auto. rewrite IH, Q2R_add. reflexivity. Qed.
Lemma toR_scale x a : rvscale (Q2R x) (toR a) = toR (qvscale x a).
Proof. unfold rvscale, qvscale, vscale, toR. rewrite !map_map. apply map_ext. intros. symmetry. apply Q2R_mul. Qed.
Lemma toR_neg a : pneg (toR a) = toR (qneg a).
Proof. unfold pneg, qneg, toR. rewrite !map_map. apply map_ext. intros. symmetry. apply Q2R_opp. Qed.
Lemma toR_sub a b : psub (toR a) (toR b) = toR (qsub a b).
Proof. unfold psub, qsub, toR. revert b. induction a as [|x a IH]; intros [|y b]; cbn [map combine fst snd]; auto. rewrite IH, Q2R_add, Q2R_opp. reflexivity. Qed.
Lemma toR_shift a x : pshift (toR a) (Q2R x) = toR (qshift a x).
Proof. destruct a; [reflexivity|]. cbn [toR map pshift qshift shift]. unfold toR, qshift, pshift. cbn [shift map]. rewrite Q2R_add. reflexivity. Qed.
Lemma toR_upd i x a : upd i (Q2R x) (toR a) = toR (upd i x a).
Proof. revert i. induction a as [|y a IH]; intros [|i]; [reflexivity|reflexivity|reflexivity|]. change (Q2R y :: upd i (Q2R x) (toR a) = Q2R y :: toR (upd i x a)). f_equal. apply IH. Qed.
Lemma toR_div a x : ~ x == 0 -> pdiv (toR a) (Q2R x) = toR (qdivs a x).
Proof. intros N. unfold pdiv, qdivs, toR. rewrite !map_map. apply map_ext. intros. rewrite Q2R_mul, Q2R_inv by auto. reflexivity. Qed.
Lemma INR_Q i : INR i = Q2R (inject_Z (Z.of_nat i)).
Proof. rewrite INR_IZR_INZ. unfold Q2R, inject_Z. cbn [Qnum Qden]. field. Qed.
Lemma toR_step abi x p y z i : pow_step abi (toR x) (Q2R p) (toR y, toR z) i = (toR (fst (qstep abi x p (y, z) i)), toR (snd (qstep abi x p (y, z) i))).
Proof.
  unfold pow_step, qstep. cbn [fst snd]. rewrite toR_mul. replace ((Q2R p - INR i) / (INR i + 1))%R with (Q2R (Qred ((p - inject_Z (Z.of_nat i)) / (inject_Z (Z.of_nat i) + 1)))).
  - rewrite toR_scale, toR_vadd. reflexivity.
  - rewrite (Qeq_eqR _ _ (Qred_correct _)), Q2R_div, Q2R_minus, Q2R_plus, <- INR_Q, Q2R_1'; [reflexivity|]. intros E. apply Qeq_eqR in E. rewrite Q2R_plus, <- INR_Q, Q2R_1', Q2R_0' in E. pose proof (pos_INR i). lra.
Qed.
Lemma toR_pow abi m a p b : qpow abi m a p = Some b -> simplex_pow abi m (toR a) (Q2R p) = Some (toR b).
Proof.
  unfold qpow, simplex_pow. destruct a as [|a0 a]; [discriminate|]. cbn [toR map]. destruct (Qeq_bool a0 1) eqn:E; [|discriminate]. apply Qeq_bool_eq, Qeq_eqR in E. rewrite E, Q2R_1'. intros H.
  set (x := upd 0 0 (a0 :: a)) in *. assert (X : upd 0 0%R (1%R :: map Q2R a) = toR x) by (unfold x, toR; cbn [upd map]; rewrite Q2R_0'; reflexivity). rewrite X.
  set (y := map (fun v => qmult v p) x) in *. assert (Y : map (fun v => (v * Q2R p)%R) (toR x) = toR y) by (unfold y, toR; rewrite !map_map; apply map_ext; intros; rewrite Q2R_mul; reflexivity). rewrite Y.
  rewrite toR_nth. replace (Q2R (nth 0 y 0%Q) + 1)%R with (Q2R (qadd (nth 0 y 0%Q) 1)) by (rewrite Q2R_add, Q2R_1'; reflexivity). rewrite toR_upd.
  set (z := upd 0 (qadd (nth 0 y 0) 1) y) in *. clearbody z. clear Y.
  assert (G : forall l y z, fold_left (pow_step abi (toR x) (Q2R p)) l (toR y, toR z) = (toR (fst (fold_left (qstep abi x p) l (y, z))), toR (snd (fold_left (qstep abi x p) l (y, z))))).
  { induction l as [|i l IH]; intros y' z'; [reflexivity|]. cbn [fold_left]. rewrite toR_step, IH. destruct (qstep abi x p (y', z') i). reflexivity. }
  rewrite G. destruct (fold_left (qstep abi x p) (seq 1 (m - 1)) (y, z)) as [y' z']. injection H as <-. cbn [fst snd]. rewrite cpow_1. cbn [obind]. f_equal. rewrite <- (map_id (toR z')) at 2. apply map_ext. intros. ring.
Qed.

(** the state after an element *)
Record qstate := QS { qs_f : list Q; qs_n : Q; qs_r : list Q; qs_p : list Q; qs_k : list Q; qs_s : list Q; qs_t : list Q; qs_v : list Q; qs_w : list Q; qs_o : list Q }.
Definition stateR (st : qstate) : pstate :=
  PS (toR (qs_f st)) (Q2R (qs_n st)) (toR (qs_r st)) (toR (qs_p st)) (toR (qs_k st)) (toR (qs_s st)) (toR (qs_t st)) (toR (qs_v st)) (toR (qs_w st)) (toR (qs_o st)).
Section Step.
Variable abi : list (list (nat * nat)).
Variables m q : nat.
Definition qtransfer (off : Q) (st : qstate) : list Q * list Q * list Q :=
  let fd := qshift (qneg (qs_f st)) off in
  let fdp := qmul abi fd (qs_p st) in
  let r := qvadd (qs_r st) (qmul abi fd (qvadd (qvscale 2 (qs_k st)) fdp)) in
  let k := qvadd (qs_k st) fdp in
  (fd, r, k).
Definition qintercept (u : Q) (r p k : list Q) : option (list Q * list Q * list Q * list Q) :=
  if Qeq_bool u 0 then Some (r, repeat 0 q, repeat 0 q, qshift (repeat 0 q) 1) else
  let p1 := qshift p 1 in
  let a := qshift (qvscale (- u) k) 1 in
  do w <- qpow abi m (qsub (qmul abi a a) (qvscale (qmult u u) (qmul abi p1 r))) (1 # 2);
  let a := qsub a w in
  do p1i <- qpow abi m p1 (-1);
  let a := qmul abi a p1i in
  let f := qdivs a u in
  let r := qmul abi a (qshift (qneg a) 2) in
  let g := qshift (qneg a) 1 in
  do gi <- qpow abi m g (-1);
  let fr := qvscale (qmult (1 # 2) u) gi in
  Some (r, f, fr, g).
Definition qpropagate (u off n mu : Q) (st : qstate) : option qstate :=
  let '(fd, rt, kt) := qtransfer off st in
  do (_, f, fr, g) <- qintercept u rt (qs_p st) kt;
  let p1 := qshift (qs_p st) 1 in
  do p1rs <- qpow abi m p1 (- 1 # 2);
  let mun := qvscale mu p1rs in
  let ct := qmul abi (qmul abi g mun) (qshift (qmul abi (qvscale (-2 # 1) (qvadd kt (qmul abi f (qs_p st)))) fr) 1) in
  do w <- qpow abi m (qshift (qmul abi ct ct) (Qred (1 - mu * mu))) (1 # 2);
  let gdct := qmul abi g (qsub w ct) in
  do n1i <- qpow abi m (qvadd mun gdct) (-1);
  let a := qvadd f fd in
  let b := qmul abi (qmul abi (qvscale (-2 # 1) n1i) gdct) fr in
  let c := qmul abi mun n1i in
  let ap := qmul abi a (qs_p st) in
  let r := qvadd (qs_r st) (qmul abi a (qvadd (qvscale 2 (qs_k st)) ap)) in
  let p := qshift (qmul abi n1i n1i) (-1) in
  let k := qvadd (qmul abi b r) (qmul abi c (qvadd (qs_k st) ap)) in
  let s := qvadd (qs_s st) (qmul abi a (qs_v st)) in
  let t := qvadd (qs_t st) (qmul abi a (qs_w st)) in
  let v := qvadd (qmul abi b s) (qmul abi c (qs_v st)) in
  let w := qvadd (qmul abi b t) (qmul abi c (qs_w st)) in
  do p1s <- qpow abi m p1 (1 # 2);
  let o := qvadd (qs_o st) (qmul abi (qvscale (qs_n st) a) p1s) in
  Some (QS f n r p k s t v w o).
Lemma toR_zeros : pzero q = toR (repeat 0 q).
Proof. unfold pzero, toR. rewrite <- Q2R_0'. induction q as [|k IH]; cbn [repeat map]; [reflexivity|]. rewrite IH. reflexivity. Qed.
Lemma toR_shiftr a x r : r = Q2R x -> pshift (toR a) r = toR (qshift a x).
Proof. intros ->. apply toR_shift. Qed.
Lemma toR_scaler a x r : r = Q2R x -> rvscale r (toR a) = toR (qvscale x a).
Proof. intros ->. apply toR_scale. Qed.
Lemma toR_ppow a p r b : qpow abi m a p = Some b -> r = Q2R p -> ppow abi m (toR a) r = Some (toR b).
Proof. intros H ->. apply toR_pow. auto. Qed.
Ltac rat := try (cbv [Q2R Qnum Qden]; lra).
Lemma toR_intercept s off u r p k x : s_asph s = None -> (s_c s * sign off)%R = Q2R u -> qintercept u r p k = Some x ->
  intercept_poly abi m q s off (toR r) (toR p) (toR k) = Some (let '(r, f, fr, g) := x in (toR r, toR f, toR fr, toR g)).
Proof.
  intros NA U. unfold intercept_poly. rewrite NA, U. unfold qintercept. destruct (Qeq_bool u 0) eqn:Z.
  - intros H. injection H as <-. apply Qeq_bool_eq, Qeq_eqR in Z. rewrite Z, Q2R_0'. destruct (Req_EM_T 0 0) as [_|N]; [|congruence]. unfold plane_intercept_poly. cbn [obind]. rewrite toR_zeros, (toR_shiftr _ 1) by rat. reflexivity.
  - destruct (Req_EM_T (Q2R u) 0) as [E|N]; [exfalso; rewrite <- Q2R_0' in E; apply eqR_Qeq in E; apply Qeq_bool_neq in Z; auto|].
    unfold sphere_intercept_poly, pmul. intros H. destruct (qpow abi m _ (1 # 2)) as [w|] eqn:W; [|discriminate]. cbn [obind] in H. destruct (qpow abi m (qshift p 1) (-1)) as [p1i|] eqn:P1; [|discriminate]. cbn [obind] in H.
    destruct (qpow abi m (qshift (qneg _) 1) (-1)) as [gi|] eqn:G; [|discriminate]. cbn [obind] in H. injection H as <-.
    replace (- Q2R u)%R with (Q2R (- u)) by apply Q2R_opp. replace (Q2R u ^ 2)%R with (Q2R (qmult u u)) by (rewrite Q2R_mul; ring). rewrite (toR_shiftr p 1), toR_scale, (toR_shiftr _ 1), !toR_mul, toR_scale, toR_sub, (toR_ppow _ (1 # 2) _ _ W) by rat. cbn [obind].
    rewrite toR_sub, (toR_ppow _ (-1) _ _ P1) by rat. cbn [obind]. rewrite toR_mul, toR_neg, (toR_shiftr _ 1), (toR_shiftr _ 2) by rat. rewrite (toR_ppow _ (-1) _ _ G) by rat. cbn [obind].
    rewrite toR_div, toR_mul, (toR_scaler _ (qmult (1 # 2) u)) by (try (apply Qeq_bool_neq; exact Z); rewrite Q2R_mul; f_equal; rat). reflexivity.
Qed.
Lemma toR_propagate e l mat s u off n mu st st' : e_kind e = Sph mat s -> s_asph s = None -> vz (p_offset (e_place e)) = Q2R off -> (s_c s * sign (Q2R off))%R = Q2R u ->
  get_n_mu mat (Q2R (qs_n st)) l = (Q2R n, Some (Q2R mu)) -> qpropagate u off n mu st = Some st' -> propagate_poly abi m q e l (stateR st) = Some (stateR st').
Proof.
  intros EK NA OF U NM. unfold propagate_poly. rewrite EK, OF. cbn [stateR ps_n]. rewrite NM. cbn [obind].
  unfold qpropagate, transfer_poly. cbn [stateR ps_f ps_n ps_r ps_p ps_k ps_s ps_t ps_v ps_w ps_o]. unfold qtransfer, pmul.
  rewrite toR_neg, toR_shift, !toR_mul, (toR_scaler _ 2), toR_vadd, toR_vadd, toR_mul, toR_vadd by rat.
  destruct (qintercept u _ (qs_p st) _) as [[[[r0 f] fr] g]|] eqn:QI; [|discriminate]. cbn [obind]. rewrite (toR_intercept s (Q2R off) u _ _ _ _ NA U QI). cbn [obind].
  intros H. destruct (qpow abi m (qshift (qs_p st) 1) (- 1 # 2)) as [p1rs|] eqn:P1; [|discriminate]. cbn [obind] in H.
  rewrite (toR_shiftr (qs_p st) 1) by rat. rewrite (toR_ppow _ (- 1 # 2) _ _ P1) by rat. cbn [obind].
  destruct (qpow abi m (qshift _ (Qred (1 - mu * mu))) (1 # 2)) as [w|] eqn:W; [|discriminate]. cbn [obind] in H.
  rewrite !toR_mul, !toR_vadd, toR_scale, (toR_scaler _ (-2 # 1)), !toR_mul, (toR_shiftr _ 1), !toR_mul by rat.
  rewrite (toR_shiftr _ (Qred (1 - mu * mu))) by (rewrite (Qeq_eqR _ _ (Qred_correct _)), Q2R_minus, Q2R_mult, Q2R_1'; ring). rewrite (toR_ppow _ (1 # 2) _ _ W) by rat. cbn [obind].
  rewrite toR_sub, toR_mul, toR_vadd. destruct (qpow abi m (qvadd _ _) (-1)) as [n1i|] eqn:N1; [|discriminate]. cbn [obind] in H. rewrite (toR_ppow _ (-1) _ _ N1) by rat. cbn [obind].
  destruct (qpow abi m (qshift (qs_p st) 1) (1 # 2)) as [p1s|] eqn:P2; [|discriminate]. cbn [obind] in H. rewrite (toR_ppow _ (1 # 2) _ _ P2) by rat. cbn [obind]. injection H as <-.
  unfold stateR. cbn [qs_f qs_n qs_r qs_p qs_k qs_s qs_t qs_v qs_w qs_o].
  assert (S2 : forall a, rvscale 2 (toR a) = toR (qvscale 2 a)) by (intros; apply toR_scaler; rat). assert (SM : forall a, rvscale (-2) (toR a) = toR (qvscale (-2 # 1) a)) by (intros; apply toR_scaler; rat).
  assert (SH : forall a, pshift (toR a) (-1) = toR (qshift a (-1))) by (intros; apply toR_shiftr; rat).
  repeat (rewrite toR_mul || rewrite toR_vadd || rewrite S2 || rewrite SM || rewrite SH || rewrite toR_scale). reflexivity.
Qed.
Lemma toR_rays n : (4 <= q)%nat -> poly_rays q 0 (Q2R n) =
  Some (stateR (QS (repeat 0 q) n (upd 1 1 (repeat 0 q)) (upd 2 1 (repeat 0 q)) (upd 3 1 (repeat 0 q)) (qshift (repeat 0 q) 1) (repeat 0 q) (repeat 0 q) (qshift (repeat 0 q) 1) (repeat 0 q))).
Proof.
  intros Q4. unfold poly_rays. destruct (Nat.ltb_spec q 4); [lia|]. unfold stateR. cbn [qs_f qs_n qs_r qs_p qs_k qs_s qs_t qs_v qs_w qs_o]. assert (S1 : forall a, pshift (toR a) 1 = toR (qshift a 1)) by (intros; apply toR_shiftr; rat).
  rewrite toR_zeros, S1. rewrite <- !toR_upd, !Q2R_1'. do 2 f_equal. destruct q as [|k]; [lia|]. cbn [repeat toR map]. unfold pshift, shift. f_equal. rewrite Q2R_0'. ring.
Qed.
End Step.
