(** Property C83, further statement: the report of a traced ray. *)
From Coq Require Import Reals String Bool Arith Lia Lra List.
From Verif Require Import Base Vec PlacementModel LayoutModel ElementModel ParaxTraceModel PrintModel PropsPrint.
Import ListNotations.
Open Scope R_scope.

(** the three numbers of a point or direction, NaN where the ray is lost *)
Definition printed (v : option vec) : list cell :=
  match v with None => [Num None; Num None; Num None] | Some (V a b c) => [Num (Some a); Num (Some b); Num (Some c)] end.
(** the sum of the first distances, if the ray got so far *)
Fixpoint all_of (ts : list (option R)) : option R :=
  match ts with [] => Some 0 | t :: ts => match t, all_of ts with Some a, Some b => Some (a + b) | _, _ => None end end.
Lemma cumsum_at ts : forall acc i t, nth_error ts i = Some t -> nth_error (cumsum_o acc ts) i = Some (oadd acc (all_of (firstn (S i) ts))).
Proof.
  induction ts as [|a ts IH]; intros acc [|i] t H; try discriminate.
  - cbn. f_equal. unfold oadd. destruct acc, a; cbn; auto. f_equal. ring.
  - cbn [cumsum_o nth_error] in *. rewrite (IH _ _ _ H). f_equal. change (firstn (S (S i)) (a :: ts)) with (a :: firstn (S i) ts). cbn [all_of].
    destruct (all_of (firstn (S i) ts)) as [b|]; unfold oadd; destruct acc, a; cbn; auto. f_equal. ring.
Qed.
Lemma cumsum_o_length ts : forall acc, List.length (cumsum_o acc ts) = List.length ts.
Proof. induction ts as [|a ts IH]; intros acc; cbn; [auto|]. now rewrite IH. Qed.
(** one line per surface and no more: the index, the track length, the optical path relative to it, the point and the direction *)
Theorem C83_geometric es ray : List.length ray = List.length es -> Forall is_surface es ->
  exists ls, print_geometric es ray = Some ls /\ List.length ls = S (List.length es) /\
    nth_error ls 0 = Some (map Txt ["#"; "T"; "n"; "track z"; "rel path"; "height x"; "height y"; "height z"; "angle x"; "angle y"; "angle z"])%string /\
    forall i s, nth_error ray i = Some s -> exists z, z = fold_right Rplus 0 (map (fun e => p_distance (e_place e)) (firstn (S i) es)) /\
      nth_error ls (S i) = Some ([Int i; Txt "S"%string; Num (Some (st_n s)); Num (Some z);
        Num (match all_of (map st_t (firstn (S i) ray)) with Some p => Some (p - z) | None => None end)] ++ printed (st_y s) ++ printed (st_u s)).
Proof.
  intros LE SU.
  assert (LP : forall l acc, List.length (LayoutModel.cumsum1 acc l) = List.length l) by (induction l; intros; cbn; auto).
  assert (LR : List.length (geometric_rows es ray) = List.length es).
  { unfold geometric_rows, path. rewrite map_length, !combine_length, LP, cumsum_o_length, !map_length. lia. }
  assert (PZ : forall l acc i, (i < List.length l)%nat -> nth_error (LayoutModel.cumsum1 acc l) i = Some (acc + fold_right Rplus 0 (firstn (S i) l))).
  { induction l as [|v l IH]; intros acc [|k] K; cbn [List.length] in K; try lia; cbn [LayoutModel.cumsum1 nth_error].
    - cbn. f_equal. ring.
    - rewrite IH by lia. cbn [firstn fold_right]. f_equal. ring. }
  assert (ROW : forall i s, nth_error ray i = Some s -> nth_error (geometric_rows es ray) i =
    Some (geometric_row (fold_right Rplus 0 (map (fun e => p_distance (e_place e)) (firstn (S i) es))) (all_of (map st_t (firstn (S i) ray))) s)).
  { intros i s X. assert (I : (i < List.length es)%nat) by (rewrite <- LE; apply nth_error_Some; congruence).
    unfold geometric_rows. rewrite nth_error_map, !nth_error_combine, X. unfold path. rewrite PZ by (rewrite !map_length; auto).
    rewrite (cumsum_at _ _ _ (st_t s)) by (rewrite nth_error_map, X; reflexivity). cbn [fst snd option_map]. f_equal.
    rewrite map_map, Rplus_0_l, !firstn_map. unfold oadd. destruct (all_of _); cbn; [|reflexivity]. now rewrite Rplus_0_l. }
  assert (WD : forall z p s, List.length (geometric_row z p s) = 9%nat) by reflexivity.
  unfold print_geometric, print_coeffs.
  destruct (proj2 (coeff_lines_iff 9 es (geometric_rows es ray) 0)) as (r & R).
  { intros j a J. assert (I : (j < List.length es)%nat) by (rewrite <- LR; apply nth_error_Some; congruence).
    destruct (nth_error ray j) as [s|] eqn:X; [|apply nth_error_None in X; lia]. rewrite (ROW j s X) in J. injection J as <-. split; [apply WD|].
    destruct (nth_error es j) as [e|] eqn:E; [|apply nth_error_None in E; lia]. exists e. split; auto. rewrite Forall_forall in SU. apply SU. eapply nth_error_In; eauto. }
  cbn [List.length]. rewrite R. cbn [obind]. destruct (coeff_lines_rows _ _ _ _ _ R) as (RL & RR).
  eexists. split; [reflexivity|]. rewrite app_nil_r. split; [cbn [List.length]; rewrite RL, LR; auto|]. split; [reflexivity|].
  intros i s X. eexists. split; [reflexivity|]. cbn [nth_error]. rewrite (RR i _ (ROW i s X)). f_equal. cbn [plus].
  unfold geometric_row. rewrite !map_app. unfold printed, xyz. destruct (st_y s) as [[a b c]|], (st_u s) as [[a' b' c']|], (all_of _); reflexivity.
Qed.
(** two lines and the head for a ray along the axis through two planes, lost at the second *)
Example C83_geometric_example : forall e1 e2 : element, is_surface e1 -> is_surface e2 ->
  exists ls, print_geometric [e1; e2] [Step (Some v0) (Some ez) 1 (Some ez) (Some 0); Step None None 1 None None] = Some ls /\ List.length ls = 3%nat /\
  exists z, nth_error ls 2 = Some ([Int 1; Txt "S"%string; Num (Some 1); Num (Some z); Num None] ++ printed None ++ printed None).
Proof.
  intros e1 e2 S1 S2. destruct (C83_geometric [e1; e2] [Step (Some v0) (Some ez) 1 (Some ez) (Some 0); Step None None 1 None None] eq_refl) as (ls & P & L & _ & F); [repeat constructor; auto|].
  exists ls. split; [auto|]. split; [auto|]. destruct (F 1%nat _ eq_refl) as (z & _ & Z). exists z. exact Z.
Qed.
(** from ten coefficients on, the report names nine monomials in this order, first the sagittal then the tangential meaning *)
Definition monomial_names : list string :=
  ["spherical aberration"; "sagittal coma"; "field curvature"; "distortion"; "meridional coma"; "field curvature"; "spherical aberration"; "circular coma";
   "sagittal oblique spherical aberration"; "meridional elliptical coma"; "circular coma"; "oblique spherical aberration"; "field curvature"; "distortion";
   "sagittal elliptical coma"; "meridional field curvature"; "sagittal oblique spherical aberration"; "meridional elliptical coma"]%string.
Theorem C83_monomials i j s t : (10 <= List.length s)%nat -> (10 <= List.length t)%nat -> (10 <= List.length j)%nat -> Forall (fun e => List.length e = 3%nat) j ->
  map (fun line => nth 5 line (Int 0)) (print_names i j s t) = map Txt monomial_names.
Proof.
  intros S T J E. assert (LINE : forall (q : string) e a x, List.length e = 3%nat -> nth 5 (Txt q :: label i e ++ [Txt a; Num (Some x)]) (Int 0) = Txt a).
  { intros q e a x L. destruct e as [|? [|? [|? [|]]]]; try discriminate L. reflexivity. }
  assert (FROM : forall ns s t js, (List.length ns <= List.length s)%nat -> (List.length ns <= List.length t)%nat -> (List.length ns <= List.length js)%nat -> Forall (fun e => List.length e = 3%nat) js ->
    map (fun line => nth 5 line (Int 0)) (print_names_from i ns s t js) = map Txt (concat (map (fun ab => [fst ab; snd ab]) ns))).
  { induction ns as [|[a b] ns IH]; intros s' t' js A B C D; [reflexivity|]. destruct s' as [|x s']; [cbn in A; lia|]. destruct t' as [|y t']; [cbn in B; lia|]. destruct js as [|e js]; [cbn in C; lia|].
    cbn [print_names_from map concat app fst snd]. inversion D as [|? ? E3 D']; subst. cbn [List.length] in *. rewrite !LINE by exact E3. rewrite IH by (auto; lia). reflexivity. }
  unfold print_names. destruct s as [|s0 s]; [cbn in S; lia|]. destruct t as [|t0 t]; [cbn in T; lia|]. destruct j as [|j0 j]; [cbn in J; lia|]. cbn [tl List.length] in *.
  inversion E; subst. rewrite FROM; [reflexivity|cbn; lia|cbn; lia|cbn; lia|assumption].
Qed.
Example C83_monomials_example : let l := [0; 1; 2; 3; 4; 5; 6; 7; 8; 9] in let j := repeat [0; 1; 0]%nat 10 in
  List.length l = 10%nat /\ Forall (fun e => List.length e = 3%nat) j /\ nth_error (print_names (fun _ => 2%nat) j l l) 3 = Some [Txt "t"; Int 2; Int 0; Int 1; Int 0; Txt "distortion"; Num (Some 2)]%string.
Proof. cbv zeta. split; [reflexivity|]. split; [repeat constructor|reflexivity]. Qed.
Print Assumptions C83_monomials.
