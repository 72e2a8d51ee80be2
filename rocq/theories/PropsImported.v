(** C103: the table of a lens and the focal length of what is imported from it. *)
From Coq Require Import Reals String List Arith ZArith Bool Lia Lra.
From Verif Require Import Base Vec RotModel RotProofs PlacementModel PlacementProofs ElementModel PropsRescale ParaxialModel ParaxialProofs PropsParaxial LimitProofs PropsLimit ReverseModel PropsReverse PropsInverse PupilModel PropsPupil ParaxTraceModel PropsConjugates PropsSolve PropsCardinal ImportModel ImportedModel PropsImport PropsDesign.
Import ListNotations.
Open Scope R_scope.
Open Scope string_scope.
Open Scope list_scope.

(** * Specification *)
(** one line of the table: kind of surface, radius of curvature (0: plane), thickness, diameter, glass *)
Record rx := Rx { x_type : string; x_roc : R; x_thick : R; x_dia : R; x_glass : value }.
Definition line_of (r : rx) : list value := [Txt (x_type r); Num (x_roc r); Num (x_thick r); Num (x_dia r); x_glass r].
Definition bent (roc : R) : R := if Req_EM_T roc 0 then 0 else / roc.
(** the glass of the line: an index, or a name that is known *)
Definition glass_is (find : string -> option material) (v : value) (m : material) : Prop :=
  match v with Num n => m = Material (fun _ => n) false true | Txt s => find s = Some m end.
(** refracting media only *)
Definition clear (find : string -> option material) (l : R) (r : rx) (n : R) : Prop :=
  exists m, glass_is find (x_glass r) m /\ m_mirror m = false /\ m_index m l = n /\ 0 < n.
(** sum over the surfaces of index step, curvature and height; [ns] the index behind each surface *)
Fixpoint refraction (n0 : R) (rs : list rx) (ns hs : list R) : R :=
  match rs, ns, hs with
  | r :: rs, n :: ns, h :: hs => (n - n0) * bent (x_roc r) * h + refraction n rs ns hs
  | _, _, _ => 0
  end.
(** the element made from a line *)
Definition made (find : string -> option material) (thick : R) (r : rx) (e : element) : Prop :=
  exists m, glass_is find (x_glass r) m /\ e_kind e = Sph (Some m) (Surf (bent (x_roc r)) 0 None false) /\
    p_distance (e_place e) = thick /\ p_direction (e_place e) = ez /\ p_angles (e_place e) = v0 /\ e_radius e = Some (x_dia r / 2).

(** * Auxiliary lemmas *)
Lemma row_made find thick r : 0 <= thick -> (exists m, glass_is find (x_glass r) m) ->
  exists e x, row_element _ (make_material find) default_columns (fun v => v) (line_of (Rx (x_type r) (x_roc r) thick (x_dia r) (x_glass r))) = Some (Txt (x_type r), e) /\
    spheroid_of e = Some x /\ made find thick r x.
Proof.
  intros T (m & G). assert (MK : make_material find (Some (x_glass r)) = Some (Some m)).
  { unfold make_material, glass_is in *. destruct (x_glass r); [subst; reflexivity|rewrite G; reflexivity]. }
  assert (FR : from_roc (Some (Num (x_roc r))) = Some (Num (bent (x_roc r)))).
  { unfold from_roc, bent. destruct (Req_EM_T (x_roc r) 0); [reflexivity|]. rewrite fdiv_some by auto. cbn [obind]. f_equal. f_equal. unfold Rdiv. ring. }
  exists (RowEl _ (Num (bent (x_roc r))) thick (Num (x_dia r / 2)) (Some m)).
  destruct (centred_axis 0 (Rle_refl 0)) as (p0 & I0 & _ & D0 & E0 & A0). destruct (centred_axis thick T) as (p & I & _ & D & E & A).
  exists (El p (Some (x_dia r / 2)) (Sph (Some m) (Surf (bent (x_roc r)) 0 None false))). split; [|split].
  - unfold row_element, line_of. cbn [x_type x_roc x_thick x_dia x_glass]. unfold try_get, default_columns. cbn [column String.eqb Ascii.eqb Bool.eqb andb option_map nth_error obind]. rewrite FR. cbn [obind]. unfold truthy.
    destruct (Req_EM_T 0 0) as [_|N]; [|lra]. cbn [negb half obind]. rewrite MK. reflexivity.
  - unfold spheroid_of. cbn [re_distance re_curvature re_radius re_material]. rewrite I0. cbn [obind]. unfold set_distance. rewrite E0, A0.
    unfold init in I. destruct (update thick ez v0) as [p'|]; [|discriminate I]. cbn [obind] in I. injection I as ->. reflexivity.
  - exists m. cbn. auto 10.
Qed.
Definition usable (find : string -> option material) (r : rx) : Prop := 0 <= x_thick r /\ exists m, glass_is find (x_glass r) m.
Lemma rows_made find rs : Forall (usable find) rs -> forall els stop, exists new xs stop',
  rows_from _ (make_material find) default_columns (fun v => v) els stop (map line_of rs) = Some (els ++ new, stop') /\
  spheroids new = Some xs /\ Forall2 (fun r => made find (x_thick r) r) rs xs.
Proof.
  induction 1 as [|r rs (T & G) F IH]; intros els stop.
  - exists [], [], stop. cbn. rewrite app_nil_r. repeat split; constructor.
  - destruct (row_made find (x_thick r) r T G) as (e & x & RE & SE & MD). cbn [map rows_from]. destruct r as [ty roc th dia gl]. cbn [x_type x_roc x_thick x_dia x_glass] in *. rewrite RE. cbn [obind fst snd].
    destruct (IH (els ++ [e]) (if is_txt (Txt ty) "A" then Z.of_nat (length els) else stop)) as (new & xs & stop' & E & S & L). rewrite E. exists (e :: new), (x :: xs), stop'.
    rewrite <- app_assoc. split; [reflexivity|]. cbn [spheroids]. rewrite SE, S. split; [reflexivity|]. constructor; auto.
Qed.
Lemma same_length rs : filter (fun l => Nat.eqb (length l) (longest (map line_of rs))) (map line_of rs) = map line_of rs.
Proof.
  assert (L : rs <> [] -> longest (map line_of rs) = 5%nat).
  { unfold longest. induction rs as [|r rs IH]; [contradiction|]. intros _. cbn [map fold_right]. destruct rs as [|r' rs]; [reflexivity|]. rewrite IH by discriminate. reflexivity. }
  destruct rs as [|r rs]; [reflexivity|]. rewrite L by discriminate. generalize (r :: rs) as l. clear. induction l as [|r l IH]; [reflexivity|]. cbn [map filter]. cbn [length line_of Nat.eqb]. rewrite IH. reflexivity.
Qed.

(** * C103 *)
(** Every line becomes the surface it describes, in order *)
Theorem C103_imported find rs : rs <> [] -> Forall (usable find) rs ->
  exists es stop, lens_from_text find [] (map line_of rs) = Some (es, stop) /\ Forall2 (fun r => made find (x_thick r) r) rs es.
Proof.
  intros N F. unfold lens_from_text, system_from_text. destruct rs as [|r rs]; [contradiction|]. cbn [map]. change (line_of r :: map line_of rs) with (map line_of (r :: rs)). rewrite same_length.
  unfold system_from_array. cbn [map]. change (line_of r :: map line_of rs) with (map line_of (r :: rs)). cbn [apply_shifts obind].
  destruct (rows_made find (r :: rs) F [] 1%Z) as (new & xs & stop & E & S & L). rewrite E. cbn [obind fst snd app]. rewrite S. cbn [obind]. eauto.
Qed.

(** Tables usually give the distance to the next surface.  Shifting the distances by one line turns such a table into
    one where every surface carries the distance in front of it; that of the last line goes to the first. *)
Definition with_thick (t : R) (r : rx) : rx := Rx (x_type r) (x_roc r) t (x_dia r) (x_glass r).
Fixpoint carry (t : R) (rs : list rx) : list rx :=
  match rs with [] => [] | r :: rs => with_thick t r :: carry (x_thick r) rs end.
Lemma columns_got rs : get_column (map line_of rs) 2 = Some (map (fun r => Num (x_thick r)) rs).
Proof. induction rs as [|r rs IH]; [reflexivity|]. cbn [map get_column]. cbn [line_of nth_error obind]. rewrite IH. reflexivity. Qed.
Lemma carried rs r : set_column (map line_of (rs ++ [r])) 2 (Num (x_thick r) :: map (fun r => Num (x_thick r)) rs) = map line_of (carry (x_thick r) (rs ++ [r])).
Proof.
  generalize (x_thick r) as t. induction rs as [|r' rs IH]; intros t; [reflexivity|]. cbn [app map carry set_column]. f_equal. apply IH.
Qed.
Lemma rolled {A} (l : list A) x : roll (l ++ [x]) 1 = x :: l.
Proof.
  unfold roll. rewrite app_length. cbn [length]. replace (Z.to_nat (-(1) mod Z.of_nat (length l + 1))) with (length l).
  - rewrite skipn_app, skipn_all, firstn_app, firstn_all, Nat.sub_diag. cbn. rewrite app_nil_r. reflexivity.
  - rewrite <- (Z.mod_add (-(1)) 1) by lia. rewrite Z.mod_small by lia. lia.
Qed.
Lemma carry_cons r rs t : exists r' rs', carry t (rs ++ [r]) = r' :: rs'.
Proof. destruct rs; cbn; eauto. Qed.
Theorem C103_behind find rs r : lens_from_text find [("distance", 1%Z)] (map line_of (rs ++ [r])) = lens_from_text find [] (map line_of (carry (x_thick r) (rs ++ [r]))).
Proof.
  unfold lens_from_text. f_equal. unfold system_from_text. rewrite !same_length.
  assert (C : forall A (a : A) (f : A) (l : list (list value)), l <> [] -> match l with [] => a | _ => f end = f) by (intros A a f [|]; [contradiction|reflexivity]).
  assert (N1 : map line_of (rs ++ [r]) <> []) by (destruct rs; discriminate). assert (N2 : map line_of (carry (x_thick r) (rs ++ [r])) <> []) by (destruct rs; discriminate).
  rewrite !C by auto. unfold system_from_array. rewrite !C by auto. cbn [apply_shifts]. replace (column default_columns "distance") with (Some 2%nat) by reflexivity. cbn [obind]. rewrite columns_got. cbn [obind].
  rewrite map_app at 1. rewrite map_app. cbn [map]. rewrite rolled, <- carried, map_app. reflexivity.
Qed.

Lemma glass_unique find v m m' : glass_is find v m -> glass_is find v m' -> m = m'.
Proof. unfold glass_is. destruct v; congruence. Qed.
Lemma clear_usable find l r n : 0 <= x_thick r -> clear find l r n -> usable find r.
Proof. intros T (m & G & _). split; eauto. Qed.
Lemma clear_surface find l r n t e : clear find l r n -> made find t r e ->
  lens_surface l e /\ (forall n0, surface_power l n0 e = (n - n0) * bent (x_roc r)) /\ (forall n0, index_after e n0 l = n) /\ p_distance (e_place e) = t /\
  exists m, e_kind e = Sph (Some m) (Surf (bent (x_roc r)) 0 None false) /\ m_index m l = n.
Proof.
  intros (m & G & MM & MI & N) (m' & G' & K & D & _ & A & _). pose proof (glass_unique _ _ _ _ G G') as <-. split; [|split; [|split; [|split]]].
  - split; [exact A|]. rewrite K. intros mt s E. injection E as <- <-. split; [discriminate|]. intros m' E. injection E as <-. rewrite MI. auto.
  - intros n0. unfold surface_power. rewrite K, MI. reflexivity.
  - intros n0. unfold index_after. rewrite K. exact MI.
  - exact D.
  - exists m. auto.
Qed.
Lemma clear_index find l r n t e es : clear find l r n -> made find t r e -> refractive_index (e :: es) l 0 = n.
Proof. intros C M. destruct (clear_surface _ _ _ _ _ _ C M) as (_ & _ & _ & _ & m & K & I). unfold refractive_index. cbn. rewrite K. exact I. Qed.

(** The lens of two surfaces in air: whatever the types, diameters and the distance of the object, what is imported from
    the four lines can be traced, and reports the focal length of the lens maker's equation *)
Theorem C103_singlet find axis l o a b i n ni y u :
  Forall (fun r => 0 <= x_thick r) [o; a; b; i] -> clear find l o 1 -> clear find l a n -> clear find l b 1 -> clear find l i ni ->
  let c1 := bent (x_roc a) in let c2 := bent (x_roc b) in let power := (n - 1) * (c1 - c2 + (n - 1) * x_thick b * c1 * c2 / n) in
  power <> 0 -> fst u * snd y - snd u * fst y <> 0 ->
  exists es stop rs, lens_from_text find [] (map line_of [o; a; b; i]) = Some (es, stop) /\ ptrace axis l es y u (refractive_index es l 0) = Some rs /\
    focal_length rs = Some (- / power, / power).
Proof.
  intros T CO CA CB CI c1 c2 power P LG. inversion T as [|? ? TO T1]; subst. inversion T1 as [|? ? TA T2]; subst. inversion T2 as [|? ? TB T3]; subst. inversion T3 as [|? ? TI _]; subst. clear T T1 T2 T3.
  destruct (C103_imported find [o; a; b; i]) as (es & stop & IM & F2); [discriminate|repeat apply Forall_cons; eauto using clear_usable|].
  inversion F2 as [|? eo ? ? MO F3]; subst. inversion F3 as [|? ea ? ? MA F4]; subst. inversion F4 as [|? eb ? ? MB F5]; subst. inversion F5 as [|? ei ? ? MI F6]; subst. inversion F6; subst. clear F2 F3 F4 F5 F6.
  pose proof (clear_index find l o 1 _ eo [ea; eb; ei] CO MO) as N0.
  destruct (clear_surface _ _ _ _ _ _ CO MO) as (LO & _). destruct (clear_surface _ _ _ _ _ _ CI MI) as (LI & _).
  destruct (clear_surface _ _ _ _ _ _ CA MA) as (LA & PA & IA & DA & ma & KA & NA). destruct (clear_surface _ _ _ _ _ _ CB MB) as (LB & PB & IB & DB & mb & KB & NB).
  assert (NN : 0 < n) by (destruct CA as (? & _ & _ & <- & H); exact H).
  assert (F : Forall (lens_surface l) [eo; ea; eb; ei]) by (repeat apply Forall_cons; auto).
  assert (AB : after [ea; eb] 1 l = 1) by (cbn; rewrite IB; reflexivity).
  assert (PW : let '(_, _, c, _) := blocks2 l 1 [ea; eb] in c = - power).
  { cbn [blocks2]. rewrite IA, PA, PB, DB. fold c1 c2. unfold power. field. lra. }
  destruct (available axis l eo ea [eb] ei y u F N0 AB LG) as (rs & f0 & f & fd0 & fd1 & pd0 & pd1 & TR & FL & FD & PD).
  { cbn zeta iota beta. destruct (blocks2 l 1 [ea; eb]) as [[[A B] C] D]. rewrite PW. lra. }
  exists [eo; ea; eb; ei], stop, rs. split; [exact IM|]. rewrite N0. split; [exact TR|].
  destruct (C86_lens axis l eo ea eb ei y u rs f0 f fd0 fd1 pd0 pd1 ma _ mb _ F N0 KA KB NB TR FL FD PD) as (E & -> & _).
  rewrite NA, DB in E. cbn [bend s_asph s_c] in E. fold c1 c2 power in E.
  assert (f = / power). { rewrite <- E. unfold Rdiv. rewrite Rmult_1_l, Rinv_inv. reflexivity. }
  subst f. exact FL.
Qed.
(** The same when every line gives the distance to the next surface *)
Theorem C103_singlet_behind find axis l o a b i n ni y u :
  Forall (fun r => 0 <= x_thick r) [o; a; b; i] -> clear find l o 1 -> clear find l a n -> clear find l b 1 -> clear find l i ni ->
  let c1 := bent (x_roc a) in let c2 := bent (x_roc b) in let power := (n - 1) * (c1 - c2 + (n - 1) * x_thick a * c1 * c2 / n) in
  power <> 0 -> fst u * snd y - snd u * fst y <> 0 ->
  exists es stop rs, lens_from_text find [("distance", 1%Z)] (map line_of [o; a; b; i]) = Some (es, stop) /\ ptrace axis l es y u (refractive_index es l 0) = Some rs /\
    focal_length rs = Some (- / power, / power).
Proof.
  intros T CO CA CB CI c1 c2 power P LG. inversion T as [|? ? TO T1]; subst. inversion T1 as [|? ? TA T2]; subst. inversion T2 as [|? ? TB T3]; subst. inversion T3 as [|? ? TI _]; subst. clear T T1 T2 T3.
  change [o; a; b; i] with ([o; a; b] ++ [i]). rewrite C103_behind. cbn [app carry].
  apply (C103_singlet find axis l (with_thick (x_thick i) o) (with_thick (x_thick o) a) (with_thick (x_thick a) b) (with_thick (x_thick b) i) n ni y u); auto.
Qed.
(** Any number of surfaces: a ray that enters parallel to the axis at height [y'] meets the surfaces at heights whose sum,
    each weighted by the index step and curvature of its line, is the entrance height over the reported focal length *)
Theorem C103_powers find axis l o xs i ns ni es stop y u rs f0 f y' u' rs' : 
  Forall (fun r => 0 <= x_thick r) (o :: xs ++ [i]) -> xs <> [] -> clear find l o 1 -> Forall2 (clear find l) xs ns -> clear find l i ni ->
  lens_from_text find [] (map line_of (o :: xs ++ [i])) = Some (es, stop) ->
  ptrace axis l es y u (refractive_index es l 0) = Some rs -> focal_length rs = Some (f0, f) ->
  ptrace axis l es y' u' (refractive_index es l 0) = Some rs' -> fst u' = 0 ->
  fst y' = f * refraction 1 xs ns (map (fun r => fst (ry r)) (tl rs')).
Proof.
  intros T NX CO CX CI IM TR FL TR' U0.
  assert (US : Forall (usable find) (o :: xs ++ [i])).
  { inversion T as [|? ? TO TX]; subst. apply Forall_app in TX. destruct TX as [TX TI]. inversion TI; subst. constructor; [eauto using clear_usable|]. apply Forall_app. split; [|eauto using clear_usable].
    clear - CX TX. induction CX; [constructor|]. inversion TX; subst. constructor; eauto using clear_usable. }
  destruct (C103_imported find (o :: xs ++ [i])) as (es' & stop' & IM' & F2); [discriminate|exact US|]. rewrite IM in IM'. injection IM' as <- <-.
  inversion F2 as [|? eo ? ez MO FX]; subst. apply Forall2_app_inv_l in FX. destruct FX as (ex & el & FX & FI & ->). inversion FI as [|? ei ? ? MI FN]; subst. inversion FN; subst. clear FI FN F2.
  pose proof (clear_index find l o 1 _ eo (ex ++ [ei]) CO MO) as N0. rewrite N0 in *.
  assert (LX : Forall (lens_surface l) ex /\ forall n0 hs, weighted l n0 ex hs = refraction n0 xs ns hs).
  { clear - CX FX. revert ns CX. induction FX as [|r e rs es M FX IH]; intros ns CX; inversion CX as [|? n ? ns' C CX']; subst.
    - split; [constructor|]. intros n0 [|h hs]; reflexivity.
    - destruct (IH _ CX') as [A B]. destruct (clear_surface _ _ _ _ _ _ C M) as (L & P & I & _). split; [constructor; auto|]. intros n0 [|h hs]; [reflexivity|]. cbn [weighted refraction]. rewrite P, I, B. reflexivity. }
  destruct LX as [LX W]. destruct FX as [|r e rs0 ex M FX]; [contradiction|]. cbn [app] in *.
  assert (F : Forall (lens_surface l) (eo :: e :: ex ++ [ei])).
  { destruct (clear_surface _ _ _ _ _ _ CO MO) as (LO & _). destruct (clear_surface _ _ _ _ _ _ CI MI) as (LI & _). inversion LX; subst. constructor; [auto|]. constructor; [auto|]. apply Forall_app. auto. }
  pose proof (C86_power_sum axis l eo e ex ei y u rs f0 f y' u' rs') as Q. cbv zeta in Q. rewrite N0 in Q. specialize (Q F Rlt_0_1 TR FL TR' U0). rewrite W in Q. lra.
Qed.

(** A ZMX file.  Every surface gives its curvature, the distance to the next one, and perhaps a glass and a radius; the
    first line of the file may be any other command.  The element that the importer puts in front of all surfaces does
    not change the focal length. *)
Record zx := Zx { q_curv : R; q_thick : R; q_glass : option string; q_rad : option R }.
Definition zmx_block (q : zx) : list command :=
  [SURF; CURV (q_curv q); DISZ (Some (q_thick q))] ++ match q_glass q with Some g => [GLAS g None] | None => [] end ++ [DIAM (q_rad q)].
Definition zmx_clear (air : material) (find : string -> option material) (l : R) (q : zx) (n : R) : Prop :=
  exists m, match q_glass q with Some g => find g = Some m | None => m = air end /\ m_mirror m = false /\ m_index m l = n /\ 0 < n.
Lemma zmx_block_made air find l q n d rest : zmx_clear air find l q n -> exists m, m_mirror m = false /\ m_index m l = n /\ 0 < n /\
  forall done e next, d = next -> zmx_from _ air find done e next (zmx_block q ++ rest) =
    zmx_from _ air find (done ++ [e]) (Z_ _ (q_curv q) d m (q_rad q) false 0 None) (Some (q_thick q)) rest.
Proof.
  intros (m & G & MM & MI & N). exists m. repeat split; auto. intros done e next <-. unfold zmx_block. destruct (q_glass q) as [g|].
  - cbn [app zmx_from on_surface]. rewrite G. reflexivity.
  - subst m. reflexivity.
Qed.
Lemma zmx_element l c t m r n : 0 <= t -> m_mirror m = false -> m_index m l = n -> 0 < n ->
  exists e, zmx_spheroid (Z_ _ c (Some t) m r false 0 None) = Some e /\ lens_surface l e /\ (forall n0, surface_power l n0 e = (n - n0) * c) /\ (forall n0, index_after e n0 l = n) /\
    p_distance (e_place e) = t /\ (forall es, refractive_index (e :: es) l 0 = n).
Proof.
  intros T MM MI N. destruct (centred_axis t T) as (p & I & _ & D & _ & A). unfold zmx_spheroid. cbn [z_dist z_rad z_mat z_curv z_conic z_asph obind]. rewrite I. cbn [obind]. eexists. split; [reflexivity|].
  split; [|split; [|split; [|split]]].
  - split; [exact A|]. cbn [e_kind]. intros mt s E. injection E as <- <-. split; [discriminate|]. intros m' E. injection E as <-. rewrite MI. auto.
  - intros n0. unfold surface_power. cbn. rewrite MI. reflexivity.
  - intros n0. exact MI.
  - exact D.
  - intros es. exact MI.
Qed.
Theorem C103_zmx air find axis l o a b i n ni y u :
  m_mirror air = false -> m_index air l = 1 -> Forall (fun q => 0 <= q_thick q) [o; a; b; i] ->
  q_curv o = 0 -> zmx_clear air find l o 1 -> zmx_clear air find l a n -> zmx_clear air find l b 1 -> zmx_clear air find l i ni ->
  let power := (n - 1) * (q_curv a - q_curv b + (n - 1) * q_thick a * q_curv a * q_curv b / n) in
  power <> 0 -> fst u * snd y - snd u * fst y <> 0 ->
  exists es rs, lens_from_zmx air find (OTHER :: flat_map zmx_block [o; a; b; i]) = Some es /\ ptrace axis l es y u (refractive_index es l 0) = Some rs /\
    focal_length rs = Some (- / power, / power).
Proof.
  intros AM AI T FO CO CA CB CI power P LG. inversion T as [|? ? TO T1]; subst. inversion T1 as [|? ? TA T2]; subst. inversion T2 as [|? ? TB T3]; subst. clear T T1 T2 T3.
  assert (NN : 0 < n) by (destruct CA as (? & _ & _ & <- & H); exact H).
  unfold lens_from_zmx, zmx_to_system. cbn [fst zmx_from on_surface flat_map].
  destruct (zmx_block_made air find l o 1 (Some 0) (zmx_block a ++ zmx_block b ++ zmx_block i ++ []) CO) as (mo & MO & IO & PO & EO). rewrite EO by reflexivity.
  destruct (zmx_block_made air find l a n (Some (q_thick o)) (zmx_block b ++ zmx_block i ++ []) CA) as (ma & MA & IA & PA & EA). rewrite EA by reflexivity.
  destruct (zmx_block_made air find l b 1 (Some (q_thick a)) (zmx_block i ++ []) CB) as (mb & MB & IB & PB & EB). rewrite EB by reflexivity.
  destruct (zmx_block_made air find l i ni (Some (q_thick b)) [] CI) as (mi & MI & II & PI' & EI). rewrite EI by reflexivity.
  cbn [zmx_from app]. unfold fresh.
  destruct (zmx_element l 0 0 air None 1 (Rle_refl 0) AM AI Rlt_0_1) as (x0 & S0 & L0 & _ & _ & _ & N0).
  destruct (zmx_element l (q_curv o) 0 mo (q_rad o) 1 (Rle_refl 0) MO IO PO) as (xo & SO & LO & QO & JO & DO & _).
  destruct (zmx_element l (q_curv a) (q_thick o) ma (q_rad a) n TO MA IA PA) as (xa & SA & LA & QA & JA & DA & _).
  destruct (zmx_element l (q_curv b) (q_thick a) mb (q_rad b) 1 TA MB IB PB) as (xb & SB & LB & QB & JB & DB & _).
  destruct (zmx_element l (q_curv i) (q_thick b) mi (q_rad i) ni TB MI II PI') as (xi & SI & LI & _).
  cbn [zmx_spheroids]. rewrite S0, SO, SA, SB, SI. cbn [obind].
  assert (F : Forall (lens_surface l) [x0; xo; xa; xb; xi]) by (repeat apply Forall_cons; auto).
  assert (AB : after [xo; xa; xb] 1 l = 1) by (cbn; rewrite JB; reflexivity).
  assert (PW : let '(_, _, c, _) := blocks2 l 1 [xo; xa; xb] in c = - power).
  { cbn [blocks2]. rewrite JO, JA, QO, QA, QB, DB, FO. unfold power. field. lra. }
  destruct (available axis l x0 xo [xa; xb] xi y u F (N0 _) AB LG) as (rs & f0 & f & fd0 & fd1 & pd0 & pd1 & TR & FL & FD & PD).
  { destruct (blocks2 l 1 [xo; xa; xb]) as [[[A B] C] D]. rewrite PW. lra. }
  eexists _, rs. split; [reflexivity|]. rewrite N0. split; [exact TR|].
  destruct (cardinals axis l x0 xo [xa; xb] xi y u rs f0 f fd0 fd1 F (N0 _) AB TR FL FD) as (M & SM & _ & CC).
  assert (FX : Forall (lens_surface l) [xo; xa; xb]) by (repeat apply Forall_cons; auto). destruct (seq_block axis l _ FX 1 Rlt_0_1) as (M' & SM' & _ & BM).
  rewrite SM in SM'. injection SM' as <-. rewrite BM in CC. destruct (blocks2 l 1 [xo; xa; xb]) as [[[A B] C] D]. destruct CC as (_ & NC & E0 & E1 & _). rewrite FL, E0, E1, PW. f_equal. f_equal; field; lra.
Qed.

(** A table without a column for glass: the surfaces have no material, so nothing is refracted *)
Definition bare_columns : list string := ["type"; "roc"; "distance"; "diameter"]%string.
Definition bare_line (r : rx) : list value := [Txt (x_type r); Num (x_roc r); Num (x_thick r); Num (x_dia r)].
Theorem C103_bare find rs : rs <> [] -> Forall (fun r => 0 <= x_thick r) rs ->
  exists els es stop, system_from_text _ (make_material find) bare_columns [] (fun v => v) 1 (map bare_line rs) = Some (els, stop) /\ spheroids els = Some es /\
    Forall2 (fun r e => e_kind e = Sph None (Surf (bent (x_roc r)) 0 None false) /\ p_distance (e_place e) = x_thick r /\ p_direction (e_place e) = ez /\
      p_angles (e_place e) = v0 /\ e_radius e = Some (x_dia r / 2) /\ forall l n0, surface_power l n0 e = 0 /\ index_after e n0 l = n0) rs es.
Proof.
  intros N F. unfold system_from_text.
  assert (SL : filter (fun l => Nat.eqb (length l) (longest (map bare_line rs))) (map bare_line rs) = map bare_line rs).
  { assert (L : longest (map bare_line rs) = 4%nat).
    { unfold longest. clear F. induction rs as [|r rs IH]; [contradiction|]. cbn [map fold_right]. destruct rs as [|r' rs]; [reflexivity|]. rewrite IH by discriminate. reflexivity. }
    rewrite L. clear. induction rs as [|r rs IH]; [reflexivity|]. cbn [map filter]. cbn [length bare_line Nat.eqb]. rewrite IH. reflexivity. }
  assert (G : forall els stop, exists new xs stop', rows_from _ (make_material find) bare_columns (fun v => v) els stop (map bare_line rs) = Some (els ++ new, stop') /\ spheroids new = Some xs /\
    Forall2 (fun r e => e_kind e = Sph None (Surf (bent (x_roc r)) 0 None false) /\ p_distance (e_place e) = x_thick r /\ p_direction (e_place e) = ez /\
      p_angles (e_place e) = v0 /\ e_radius e = Some (x_dia r / 2) /\ forall l n0, surface_power l n0 e = 0 /\ index_after e n0 l = n0) rs xs).
  { clear SL N. induction F as [|r rs T F IH]; intros els stop.
    - exists [], [], stop. cbn. rewrite app_nil_r. repeat split; constructor.
    - assert (FR : from_roc (Some (Num (x_roc r))) = Some (Num (bent (x_roc r)))).
      { unfold from_roc, bent. destruct (Req_EM_T (x_roc r) 0); [reflexivity|]. rewrite fdiv_some by auto. cbn [obind]. f_equal. f_equal. unfold Rdiv. ring. }
      set (e := RowEl (option material) (Num (bent (x_roc r))) (x_thick r) (Num (x_dia r / 2)) None).
      assert (RE : row_element _ (make_material find) bare_columns (fun v => v) (bare_line r) = Some (Txt (x_type r), e)).
      { unfold row_element, bare_line. unfold try_get, bare_columns. cbn [column String.eqb Ascii.eqb Bool.eqb andb option_map nth_error obind]. rewrite FR. cbn [obind]. unfold truthy.
        destruct (Req_EM_T 0 0) as [_|X]; [|lra]. cbn [negb half obind make_material]. reflexivity. }
      destruct (centred_axis 0 (Rle_refl 0)) as (p0 & I0 & _ & D0 & E0 & A0). destruct (centred_axis (x_thick r) T) as (p & I & _ & D & E & A).
      assert (SE : spheroid_of e = Some (El p (Some (x_dia r / 2)) (Sph None (Surf (bent (x_roc r)) 0 None false)))).
      { unfold spheroid_of. cbn [e re_distance re_curvature re_radius re_material]. rewrite I0. cbn [obind]. unfold set_distance. rewrite E0, A0.
        unfold init in I. destruct (update (x_thick r) ez v0) as [p'|]; [|discriminate I]. cbn [obind] in I. injection I as ->. reflexivity. }
      cbn [map rows_from]. rewrite RE. cbn [obind fst snd].
      destruct (IH (els ++ [e]) (if is_txt (Txt (x_type r)) "A" then Z.of_nat (length els) else stop)) as (new & xs & stop' & RW & S & L). rewrite RW. eexists (e :: new), _, stop'.
      rewrite <- app_assoc. split; [reflexivity|]. cbn [spheroids]. rewrite SE, S. split; [reflexivity|]. constructor; [|exact L]. cbn. repeat split; auto. }
  destruct rs as [|r rs]; [contradiction|]. cbn [map] in *. rewrite SL. unfold system_from_array. cbn [apply_shifts obind]. destruct (G [] 1%Z) as (new & xs & stop & E & S & L). exists new, xs, stop. auto.
Qed.
(** a surface of a ZMX file becomes a Spheroid at its distance with all that was said; none at infinity *)
Theorem C103_zmx_element (e : zsurf material) : match z_dist _ e with
  | None => zmx_spheroid e = None
  | Some d => exists x, zmx_spheroid e = Some x /\ p_offset (e_place x) = V 0 0 d /\ p_angles (e_place x) = v0 /\ e_radius x = z_rad _ e /\
      e_kind x = Sph (Some (z_mat _ e)) (Surf (z_curv _ e) (z_conic _ e) (z_asph _ e) false)
  end.
Proof.
  unfold zmx_spheroid. destruct (z_dist _ e) as [d|]; [|reflexivity]. cbn [obind]. unfold init. destruct (update_spec d ez v0) as (p & U & NF & FO & A & DI & u & HU & OF & _). rewrite U. cbn [obind].
  eexists. split; [reflexivity|]. cbn [e_place e_radius e_kind]. split; [|auto].
  destruct (unit_or_axis_spec ez) as (w & W & _ & _ & _ & UN). rewrite W in HU. injection HU as <-. rewrite OF, UN by (unfold dot; cbn; ring). apply vec_eq; cbn; ring.
Qed.

(** an equiconvex lens of index 4/3 (radii 3 and -6, thickness 3) typed in both ways *)
Example C103_example : let find s := if String.eqb s "air" then Some (Material (fun _ => 1) false false) else None in
  let table := [Rx "O" 0 0 0 (Txt "air"); Rx "S" 3 7 2 (Num (4/3)); Rx "S" (-6) 3 2 (Txt "air"); Rx "S" 0 5 2 (Txt "air")] in
  let table' := [Rx "O" 0 7 0 (Txt "air"); Rx "S" 3 3 2 (Num (4/3)); Rx "S" (-6) 5 2 (Txt "air"); Rx "S" 0 0 2 (Txt "air")] in
  exists es stop rs, lens_from_text find [] (map line_of table) = Some (es, stop) /\ lens_from_text find [("distance", 1%Z)] (map line_of table') = Some (es, stop) /\
    ptrace true 1 es (1, 1) (0, 1/9) (refractive_index es 1 0) = Some rs /\ focal_length rs = Some (- (72/11), 72/11).
Proof.
  intros find table table'.
  assert (AIR : forall ty roc th dia, clear find 1 (Rx ty roc th dia (Txt "air")) 1) by (intros; exists (Material (fun _ => 1) false false); cbn; repeat split; lra).
  assert (GL : forall ty roc th dia, clear find 1 (Rx ty roc th dia (Num (4/3))) (4/3)) by (intros; exists (Material (fun _ => 4/3) false true); cbn; repeat split; lra).
  assert (PW : (4/3 - 1) * (bent 3 - bent (-6) + (4/3 - 1) * 3 * bent 3 * bent (-6) / (4/3)) = 11/72).
  { unfold bent. destruct (Req_EM_T 3 0); [lra|]. destruct (Req_EM_T (-6) 0); [lra|]. field. }
  destruct (C103_singlet find true 1 (Rx "O" 0 0 0 (Txt "air")) (Rx "S" 3 7 2 (Num (4/3))) (Rx "S" (-6) 3 2 (Txt "air")) (Rx "S" 0 5 2 (Txt "air")) (4/3) 1 (1, 1) (0, 1/9)) as (es & stop & rs & IM & TR & FL); auto.
  { repeat apply Forall_cons; try apply Forall_nil; cbn; lra. } { cbn. rewrite PW. lra. } { cbn. lra. }
  exists es, stop, rs. split; [exact IM|]. split; [|split; [exact TR|]].
  - rewrite <- IM. apply (C103_behind find [Rx "O" 0 7 0 (Txt "air"); Rx "S" 3 3 2 (Num (4/3)); Rx "S" (-6) 5 2 (Txt "air")] (Rx "S" 0 0 2 (Txt "air"))).
  - rewrite FL. cbn [x_roc x_thick]. rewrite PW. f_equal. f_equal; field.
Qed.
(** the same lens in a ZMX file *)
Example C103_zmx_example : let air := Material (fun _ => 1) false false in let find s := if String.eqb s "WATER" then Some (Material (fun _ => 4/3) false true) else None in
  exists es rs, lens_from_zmx air find [OTHER; SURF; CURV 0; DISZ (Some 7); DIAM None; SURF; CURV (1/3); DISZ (Some 3); GLAS "WATER" None; DIAM (Some 2);
      SURF; CURV (-1/6); DISZ (Some 5); DIAM (Some 2); SURF; CURV 0; DISZ (Some 0); DIAM None] = Some es /\
    ptrace true 1 es (1, 1) (0, 1/9) (refractive_index es 1 0) = Some rs /\ focal_length rs = Some (- (72/11), 72/11).
Proof.
  intros air find.
  assert (AIR : forall c t r, zmx_clear air find 1 (Zx c t None r) 1) by (intros; exists air; cbn; repeat split; lra).
  destruct (C103_zmx air find true 1 (Zx 0 7 None None) (Zx (1/3) 3 (Some "WATER") (Some 2)) (Zx (-1/6) 5 None (Some 2)) (Zx 0 0 None None) (4/3) 1 (1, 1) (0, 1/9)) as (es & rs & IM & TR & FL); auto.
  { repeat apply Forall_cons; try apply Forall_nil; cbn; lra. } { exists (Material (fun _ => 4/3) false true). cbn. repeat split; lra. } { cbn. lra. } { cbn. lra. }
  exists es, rs. split; [exact IM|]. split; [exact TR|]. rewrite FL. cbn [q_curv q_thick]. f_equal. f_equal; field.
Qed.
Example C103_bare_example : exists els es stop, system_from_text _ (make_material (fun _ => None)) bare_columns [] (fun v => v) 1 (map bare_line [Rx "O" 0 0 0 (Num 1); Rx "S" 3 7 2 (Num 2)]) = Some (els, stop) /\
  spheroids els = Some es /\ length es = 2%nat.
Proof.
  destruct (C103_bare (fun _ => None) [Rx "O" 0 0 0 (Num 1); Rx "S" 3 7 2 (Num 2)]) as (els & es & stop & A & B & C); [discriminate|repeat constructor; cbn; lra|].
  exists els, es, stop. split; [exact A|]. split; [exact B|]. inversion C as [|? ? ? ? _ C1]; subst. inversion C1 as [|? ? ? ? _ C2]; subst. inversion C2; subst. reflexivity.
Qed.
Example C103_zmx_element_example : let e := Z_ material (1/3) (Some (-2)) (Material (fun _ => 1) false false) (Some 5) true 4 (Some [1; 2]) in z_dist _ e = Some (-2) /\ z_conic _ e = 4.
Proof. split; reflexivity. Qed.
