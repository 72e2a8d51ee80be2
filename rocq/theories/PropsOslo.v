(** C62: OSLO lens files become the surfaces they list. *)
From Coq Require Import String Ascii ZArith Reals Bool Arith List Lra Lia.
From Verif Require Import Base SampleModel MaterialModel CatalogModel OsloModel PropsCatalog.
Import ListNotations.
Open Scope R_scope.
Open Scope list_scope.

(** * specification *)
(** the command of a line and its arguments *)
Definition cmd_is (c : string) (l : string) : bool := match words l with w :: _ => String.eqb w c | [] => false end.
Definition args_of (l : string) : list string := tl (words l).
(** arguments of the last line with command c *)
Definition last_args (c : string) (b : list string) : option (list string) := option_map args_of (find (cmd_is c) (rev b)).
(** lines cut into blocks at the lines where [ends] holds, and the open block after the last *)
Definition cut (ends : string -> bool) (ls : list string) : list (list string) * list string :=
  fold_left (fun p l => if ends l then (fst p ++ [snd p], []) else (fst p, snd p ++ [l])) ls ([], []).

Lemma last_snoc c b l : last_args c (b ++ [l]) = if cmd_is c l then Some (args_of l) else last_args c b.
Proof. unfold last_args. rewrite rev_app_distr. cbn [rev app find]. destruct (cmd_is c l); reflexivity. Qed.
Lemma cut_snoc ends ls l : cut ends (ls ++ [l]) = let p := cut ends ls in if ends l then (fst p ++ [snd p], []) else (fst p, snd p ++ [l]).
Proof. unfold cut. rewrite fold_left_app. reflexivity. Qed.
Lemma last_app c a b : last_args c b = None -> last_args c (a ++ b) = last_args c a.
Proof.
  revert a. induction b as [|l b IH] using rev_ind; intros a H; [now rewrite app_nil_r|]. rewrite last_snoc in H.
  rewrite app_assoc, last_snoc. destruct (cmd_is c l); [discriminate H|]. auto.
Qed.

Section Oslo.
Variable M : Type.
Variable air : M.
Variable make : string -> made M.
Variable num : string -> option R.
Notation surf := (surface M).

(** * LEN *)
Definition len_ends (l : string) : bool := (cmd_is "NXT" l || cmd_is "END" l)%bool.
(** thickness after the lines [pre]: the last one given, infinite above 100, zero if none was *)
Definition len_thickness (pre : list string) (t : option R) : Prop :=
  match last_args "TH" pre with
  | None => t = Some 0
  | Some args => exists a more x, args = a :: more /\ num a = Some x /\ (x <= 100 /\ t = Some x \/ 100 < x /\ t = None)
  end.
Definition len_curvature (b : list string) (c : R) : Prop :=
  match last_args "RD" b with
  | None => c = 0
  | Some args => exists a more x, args = a :: more /\ num a = Some x /\ x <> 0 /\ c * x = 1
  end.
Definition len_radius (b : list string) (r : option R) : Prop :=
  match last_args "AP" b with
  | None => r = None
  | Some args => exists a more x, (args = a :: more /\ a <> "CHK"%string \/ args = "CHK"%string :: a :: more) /\ num a = Some x /\ r = Some x
  end.
(** the material is set by the later of the AIR and GLA lines *)
Definition len_material (b : list string) (m : option M) : Prop :=
  match find (fun l => cmd_is "AIR" l || cmd_is "GLA" l)%bool (rev b) with
  | None => m = None
  | Some l => if cmd_is "AIR" l then m = Some air else exists a more g, args_of l = a :: more /\ make a = Made g /\ m = Some g
  end.
(** what the element of block b must be, [pre] being the lines before *)
Definition len_element (pre b : list string) (e : surf) : Prop :=
  len_thickness pre (u_dist M e) /\ len_curvature b (u_curv M e) /\ len_radius b (u_rad M e) /\ len_material b (u_mat M e) /\
  u_stop M e = existsb (cmd_is "AST") b /\ u_conic M e = Some 0 /\ u_asph M e = None.

Lemma material_snoc b l : find (fun l => cmd_is "AIR" l || cmd_is "GLA" l)%bool (rev (b ++ [l])) =
  if (cmd_is "AIR" l || cmd_is "GLA" l)%bool then Some l else find (fun l => cmd_is "AIR" l || cmd_is "GLA" l)%bool (rev b).
Proof. rewrite rev_app_distr. reflexivity. Qed.
Lemma existsb_snoc {A} (f : A -> bool) b l : existsb f (b ++ [l]) = (existsb f b || f l)%bool.
Proof. rewrite existsb_app. cbn. now rewrite orb_false_r. Qed.
Notation step := (len_step M air make num).
(** element k satisfies P for its index, the lines of the blocks before it and its own block *)
Definition elements_ok (P : nat -> list string -> list string -> surf -> Prop) (bs : list (list string)) (es : list surf) : Prop :=
  length es = length bs /\ forall k b e, nth_error bs k = Some b -> nth_error es k = Some e -> P k (concat (firstn k bs)) b e.
Lemma elements_snoc (P : nat -> list string -> list string -> surf -> Prop) bs es b e : elements_ok P bs es -> P (length bs) (concat bs) b e -> elements_ok P (bs ++ [b]) (es ++ [e]).
Proof.
  intros [L E] H. split; [rewrite !app_length; cbn; lia|]. intros k b' e' Hb He.
  destruct (Nat.lt_ge_cases k (length bs)) as [K|K].
  - rewrite nth_error_app1 in Hb, He by lia. rewrite firstn_app. replace (k - length bs)%nat with 0%nat by lia. cbn [firstn]. rewrite app_nil_r. eauto.
  - assert (k = length bs) as ->. { assert (k < length (bs ++ [b]))%nat by (apply nth_error_Some; congruence). rewrite app_length in H0. cbn in H0. lia. }
    rewrite nth_error_app2 in Hb by lia. rewrite nth_error_app2 in He by lia. rewrite Nat.sub_diag in Hb. rewrite L, Nat.sub_diag in He. injection Hb as <-. injection He as <-.
    rewrite firstn_app, Nat.sub_diag, firstn_all. cbn [firstn]. now rewrite app_nil_r.
Qed.
Lemma len_loop_app ls ls' s : len_loop M air make num (ls ++ ls') s = do s <- len_loop M air make num ls s; len_loop M air make num ls' s.
Proof. revert s. induction ls as [|l ls IH]; intros s; cbn; [auto|]. destruct (step l s); cbn; auto. Qed.
(** the elements of a LEN file are its blocks closed by NXT or END, each with the thickness given last
    before it, and the curvature, aperture, material and stop flag of its own lines *)
Theorem C62_len ls s : len_to_system M air make num ls = Some s ->
  elements_ok (fun _ => len_element) (fst (cut len_ends ls)) (l_done M s).
Proof.
  intros H. assert (G : let p := cut len_ends ls in elements_ok (fun _ => len_element) (fst p) (l_done M s) /\
    len_element (concat (fst p)) (snd p) (l_cur M s) /\ len_thickness (concat (fst p) ++ snd p) (l_th M s)); [|apply G].
  revert s H. unfold len_to_system. induction ls as [|l ls IH] using rev_ind; intros s H.
  - injection H as <-. cbn. split; [split; [auto|]; intros [|k]; discriminate|]. split; [|reflexivity]. repeat split.
  - rewrite len_loop_app in H. destruct (len_loop M air make num ls _) as [s0|]; [|discriminate H]. cbn [obind len_loop] in H.
    destruct (step l s0) as [s1|] eqn:S; [|discriminate H]. injection H as <-. specialize (IH s0 eq_refl). cbv zeta in *. rewrite cut_snoc. cbv zeta.
    destruct (cut len_ends ls) as [bs r]. cbn [fst snd] in *. destruct IH as (D & (E1 & E2 & E3 & E4 & E5 & E6 & E7) & T).
    unfold len_step in S. unfold len_ends.
    assert (KEEP : forall c, cmd_is c l = match words l with w :: _ => String.eqb w c | [] => false end) by reflexivity.
    assert (AK : args_of l = tl (words l)) by reflexivity.
    rewrite (KEEP "NXT"%string), (KEEP "END"%string). destruct (words l) as [|cmd args] eqn:W.
    { injection S as <-. cbn [orb fst snd]. split; [auto|]. split; [|rewrite app_assoc; unfold len_thickness; rewrite last_snoc, KEEP; exact T].
      unfold len_element, len_curvature, len_radius, len_material. rewrite !last_snoc, material_snoc, existsb_snoc, !KEEP. cbn [orb]. rewrite orb_false_r. auto 10. }
    cbn [tl] in AK.
    destruct (String.eqb_spec cmd "NXT") as [->|NX]; [|destruct (String.eqb_spec cmd "END") as [->|NE]].
    + cbn in S. injection S as <-. cbn [orb fst snd]. split; [apply elements_snoc; [auto|]; repeat split; auto|].
      split; [|rewrite concat_app; cbn [concat]; rewrite !app_nil_r; exact T].
      rewrite concat_app; cbn [concat]. rewrite app_nil_r. split; [exact T|]. repeat split.
    + cbn in S. injection S as <-. cbn [orb fst snd]. split; [apply elements_snoc; [auto|]; repeat split; auto|].
      split; [|rewrite concat_app; cbn [concat]; rewrite !app_nil_r; exact T].
      rewrite concat_app; cbn [concat]. rewrite app_nil_r. split; [exact T|]. repeat split.
    + cbn [orb fst snd].
      assert (CL : forall c, cmd_is c l = String.eqb cmd c) by (intros c; rewrite KEEP; auto).
      rewrite app_assoc. unfold len_element, len_thickness, len_curvature, len_radius, len_material. rewrite !last_snoc, material_snoc, existsb_snoc, !CL, AK.
      fold (len_thickness (concat bs) (u_dist M (l_cur M s1))).
      destruct (String.eqb_spec cmd "LEN") as [->|X1]; [injection S as <-; cbn; rewrite orb_false_r; split; [auto|]; split; [repeat split; auto|exact T]|].
      destruct (String.eqb_spec cmd "UNI") as [->|X2].
      { destruct args as [|a args]; [discriminate S|]. cbn [hd_error obind] in S. destruct (num a); [|discriminate S]. injection S as <-. cbn. rewrite orb_false_r. split; [auto|]; split; [repeat split; auto|exact T]. }
      destruct (String.eqb_spec cmd "AIR") as [->|X3]; [injection S as <-; cbn; rewrite orb_false_r; split; [auto|]; split; [rewrite CL; repeat split; auto|exact T]|].
      destruct (String.eqb_spec cmd "TH") as [->|X4].
      { destruct args as [|a args]; [discriminate S|]. cbn [hd_error obind] in S. destruct (num a) as [x|] eqn:NA; [|discriminate S]. injection S as <-. cbn. rewrite orb_false_r. split; [auto|]; split; [repeat split; auto|].
        exists a, args, x. split; [auto|]. split; [auto|]. destruct (Rlt_dec 100 x); [right; auto|left; split; auto; lra]. }
      destruct (String.eqb_spec cmd "AP") as [->|X5].
      { destruct args as [|a args]; [discriminate S|]. cbn [hd_error obind tl] in S.
        destruct (String.eqb_spec a "CHK") as [->|NC].
        - destruct args as [|b args]; [discriminate S|]. cbn [hd_error obind] in S. destruct (num b) as [x|] eqn:NB; [|discriminate S]. injection S as <-. cbn. rewrite orb_false_r. split; [auto|]; split; [|exact T].
          repeat split; auto. exists b, args, x. auto.
        - cbn [obind] in S. destruct (num a) as [x|] eqn:NB; [|discriminate S]. injection S as <-. cbn. rewrite orb_false_r. split; [auto|]; split; [|exact T].
          repeat split; auto. exists a, args, x. auto. }
      destruct (String.eqb_spec cmd "GLA") as [->|X6].
      { destruct args as [|a args]; [discriminate S|]. cbn [hd_error obind] in S. destruct (make a) as [m| |] eqn:MA; try discriminate S. injection S as <-. cbn. rewrite orb_false_r. split; [auto|]; split; [|exact T].
        repeat split; auto. rewrite KEEP. cbn. rewrite AK. exists a, args, m. auto. }
      destruct (String.eqb_spec cmd "AST") as [->|X7]; [injection S as <-; cbn; rewrite orb_true_r; split; [auto|]; split; [repeat split; auto|exact T]|].
      destruct (String.eqb_spec cmd "RD") as [->|X8].
      { destruct args as [|a args]; [discriminate S|]. cbn [hd_error obind] in S. destruct (num a) as [x|] eqn:NB; [|discriminate S]. cbn [obind] in S.
        destruct (fdiv 1 x) as [c|] eqn:F; [|discriminate S]. apply fdiv_inv in F. destruct F as [X ->]. injection S as <-. cbn. rewrite orb_false_r. split; [auto|]; split; [|exact T].
        repeat split; auto. exists a, args, x. repeat split; auto. field. auto. }
      destruct (String.eqb_spec cmd "NXT") as [->|_]; [contradiction|]. destruct (String.eqb_spec cmd "END") as [->|_]; [contradiction|].
      injection S as <-. cbn [orb]. rewrite orb_false_r. split; [auto|]; split; [repeat split; auto|exact T].
Qed.

(** description and scale: the words of the last LEN line without the command, its first and its last two
    arguments, and a thousandth of the last UNI *)
Definition len_description (ls : list string) (d : option (list string)) : Prop :=
  match last_args "LEN" ls with
  | None => d = None
  | Some args => exists ws, d = Some ws /\ (length args <= 3 /\ ws = [] \/ exists a b c, args = a :: ws ++ [b; c])%nat
  end.
Definition len_scale (ls : list string) (u : option R) : Prop :=
  match last_args "UNI" ls with
  | None => u = None
  | Some args => exists a more x y, args = a :: more /\ num a = Some x /\ u = Some y /\ 1000 * y = x
  end.
Lemma inner_spec (args : list string) : (length args <= 3 /\ inner args = [] \/ exists a b c, args = a :: inner args ++ [b; c])%nat.
Proof.
  unfold inner. destruct args as [|a args]; [left; cbn; auto|].
  destruct (Nat.le_gt_cases (length (a :: args)) 3) as [L|L].
  - left. split; [auto|]. replace (length (a :: args) - 2 - 1)%nat with 0%nat by lia. reflexivity.
  - right. cbn [tl]. cbn [length] in *. replace (S (length args) - 2 - 1)%nat with (length args - 2)%nat by lia. exists a.
    pose proof (firstn_skipn (length args - 2) args) as F. assert (LS : length (skipn (length args - 2) args) = 2%nat) by (rewrite skipn_length; lia).
    destruct (skipn (length args - 2) args) as [|b [|c [|]]]; try discriminate LS. exists b, c. now rewrite F.
Qed.
Theorem C62_header ls s : len_to_system M air make num ls = Some s -> len_description ls (l_desc M s) /\ len_scale ls (l_scale M s).
Proof.
  revert s. unfold len_to_system. induction ls as [|l ls IH] using rev_ind; intros s H.
  - injection H as <-. split; reflexivity.
  - rewrite len_loop_app in H. destruct (len_loop M air make num ls _) as [s0|]; [|discriminate H]. cbn [obind len_loop] in H.
    destruct (step l s0) as [s1|] eqn:S; [|discriminate H]. injection H as <-. specialize (IH s0 eq_refl). destruct IH as [I1 I2].
    unfold len_step in S. unfold len_description, len_scale. rewrite !last_snoc. unfold cmd_is, args_of.
    destruct (words l) as [|cmd args]; [injection S as <-; split; assumption|]. cbn [tl].
    destruct (String.eqb_spec cmd "LEN") as [->|X1].
    { injection S as <-. split; [|exact I2]. cbn [l_desc]. exists (inner args). split; [auto|]. apply inner_spec. }
    destruct (String.eqb_spec cmd "UNI") as [->|X2].
    { destruct args as [|a args]; [discriminate S|]. cbn [hd_error obind] in S. destruct (num a) as [x|] eqn:N; [|discriminate S]. injection S as <-. split; [exact I1|].
      exists a, args, x, (x * (1 / 1000)). repeat split; auto. field. }
    assert (K : l_desc M s1 = l_desc M s0 /\ l_scale M s1 = l_scale M s0).
    { repeat (match type of S with (if ?b then _ else _) = _ => destruct b end;
      [repeat (match type of S with obind ?o _ = _ => destruct o; [cbn [obind] in S|discriminate S] end); try (injection S as <-; split; reflexivity);
       match type of S with (match ?m with _ => _ end) = _ => destruct m; try discriminate S; injection S as <-; split; reflexivity end|]).
      injection S as <-. split; reflexivity. }
    destruct K as [-> ->]. split; assumption.
Qed.

(** a LEN file is read exactly if each of its lines is well formed *)
Definition len_line_ok (l : string) : Prop :=
  match words l with
  | [] => True
  | cmd :: args =>
      (In cmd ["UNI"; "TH"]%string -> exists a more x, args = a :: more /\ num a = Some x) /\
      (cmd = "RD"%string -> exists a more x, args = a :: more /\ num a = Some x /\ x <> 0) /\
      (cmd = "AP"%string -> exists a more x, (args = a :: more /\ a <> "CHK"%string \/ args = "CHK"%string :: a :: more) /\ num a = Some x) /\
      (cmd = "GLA"%string -> exists a more m, args = a :: more /\ make a = Made m)
  end.
Lemma step_ok l s : (exists s', step l s = Some s') <-> len_line_ok l.
Proof.
  unfold len_step, len_line_ok. destruct (words l) as [|cmd args]; [split; eauto|].
  destruct (String.eqb_spec cmd "LEN") as [->|X1].
  { split; [|eauto]. intros _. repeat split; intros H; try discriminate H. destruct H as [H|[H|[]]]; discriminate H. }
  destruct (String.eqb_spec cmd "UNI") as [->|X2].
  { split.
    - intros [s' H]. split; [|repeat split; intros G; discriminate G]. intros _. destruct args as [|a args]; [discriminate H|]. cbn [hd_error obind] in H. destruct (num a) eqn:N; [|discriminate H]. eauto 10.
    - intros [H _]. destruct H as (a & more & x & -> & N); [cbn; auto|]. cbn [hd_error obind]. rewrite N. cbn. eauto. }
  destruct (String.eqb_spec cmd "AIR") as [->|X3].
  { split; [|eauto]. intros _. repeat split; intros H; try discriminate H. destruct H as [H|[H|[]]]; discriminate H. }
  destruct (String.eqb_spec cmd "TH") as [->|X4].
  { split.
    - intros [s' H]. split; [|repeat split; intros G; discriminate G]. intros _. destruct args as [|a args]; [discriminate H|]. cbn [hd_error obind] in H. destruct (num a) eqn:N; [|discriminate H]. eauto 10.
    - intros [H _]. destruct H as (a & more & x & -> & N); [cbn; auto|]. cbn [hd_error obind]. rewrite N. cbn. eauto. }
  destruct (String.eqb_spec cmd "AP") as [->|X5].
  { split.
    - intros [s' H]. repeat split; intros G; try discriminate G; [destruct G as [G|[G|[]]]; discriminate G|]. destruct args as [|a args]; [discriminate H|]. cbn [hd_error obind tl] in H.
      destruct (String.eqb_spec a "CHK") as [->|NC].
      + destruct args as [|b args]; [discriminate H|]. cbn [hd_error obind] in H. destruct (num b) as [x|] eqn:N; [|discriminate H]. exists b, args, x. auto.
      + cbn [obind] in H. destruct (num a) as [x|] eqn:N; [|discriminate H]. exists a, args, x. auto.
    - intros (_ & _ & H & _). destruct (H eq_refl) as (a & more & x & [[-> NC]| ->] & N); cbn [hd_error obind tl].
      + destruct (String.eqb_spec a "CHK"); [contradiction|]. cbn [obind]. rewrite N. cbn. eauto.
      + rewrite String.eqb_refl. cbn [hd_error obind]. rewrite N. cbn. eauto. }
  destruct (String.eqb_spec cmd "GLA") as [->|X6].
  { split.
    - intros [s' H]. repeat split; intros G; try discriminate G; [destruct G as [G|[G|[]]]; discriminate G|]. destruct args as [|a args]; [discriminate H|]. cbn [hd_error obind tl] in H.
      destruct (make a) as [m| |] eqn:MA; try discriminate H. eauto 10.
    - intros (_ & _ & _ & H). destruct (H eq_refl) as (a & more & m & -> & N). cbn [hd_error obind]. rewrite N. eauto. }
  destruct (String.eqb_spec cmd "AST") as [->|X7].
  { split; [|eauto]. intros _. repeat split; intros H; try discriminate H. destruct H as [H|[H|[]]]; discriminate H. }
  destruct (String.eqb_spec cmd "RD") as [->|X8].
  { split.
    - intros [s' H]. repeat split; intros G; try discriminate G; [destruct G as [G|[G|[]]]; discriminate G|]. destruct args as [|a args]; [discriminate H|]. cbn [hd_error obind] in H. destruct (num a) as [x|] eqn:N; [|discriminate H]. cbn [obind] in H.
      destruct (fdiv 1 x) eqn:F; [|discriminate H]. apply fdiv_inv in F. exists a, args, x. tauto.
    - intros (_ & H & _). destruct (H eq_refl) as (a & more & x & -> & N & X). cbn [hd_error obind]. rewrite N. cbn [obind]. rewrite fdiv_some by auto. cbn. eauto. }
  split.
  - intros _. repeat split; intros H; try contradiction. destruct H as [H|[H|[]]]; congruence.
  - intros _. destruct (_ || _)%bool; eauto.
Qed.
Theorem C62_len_accepts ls : (exists s, len_to_system M air make num ls = Some s) <-> Forall len_line_ok ls.
Proof.
  unfold len_to_system. generalize (Len M [] (surface0 M (Some 0) None) (Some 0) None None). induction ls as [|l ls IH]; intros s.
  - split; [constructor|]. intros _. cbn. eauto.
  - cbn [len_loop]. split.
    + intros [s' H]. destruct (step l s) as [s1|] eqn:S; [|discriminate H]. cbn [obind] in H. constructor; [apply (step_ok l s); eauto|]. apply (IH s1). eauto.
    + intros H. inversion H as [|? ? H1 H2]; subst. apply (step_ok l s) in H1. destruct H1 as [s1 S]. rewrite S. cbn [obind]. apply IH. auto.
Qed.

(** * OLC *)
Variable int : string -> option Z.
Variable upper : string -> string.
Variable glass_map : string -> string.
Notation ostep := (olc_step M air make num int upper glass_map).
Definition olc_ends : string -> bool := cmd_is "NXT".
Definition olc_curvature (b : list string) (c : R) : Prop :=
  match last_args "RD" b with
  | None => c = 0
  | Some args => exists a more, args = a :: more /\ match num a with Some x => x <> 0 /\ c * x = 1 \/ x = 0 /\ c = 0 | None => c = 0 end
  end.
Definition olc_conic (b : list string) (k : option R) : Prop :=
  match last_args "CC" b with None => k = Some 0 | Some args => exists a more, args = a :: more /\ k = num a end.
Definition olc_material (b : list string) (default m : option M) : Prop :=
  match last_args "GLA" b with
  | None => m = default
  | Some args => exists a more, args = a :: more /\ (make (glass_map (upper a)) = NotFound /\ m = Some air \/ exists g, make (glass_map (upper a)) = Made g /\ m = Some g)
  end.
(** th is the thickness given last; unknown if none was *)
Definition olc_thickness (pre : list string) (t : option R) : Prop :=
  match last_args "TH" pre with
  | None => t = None
  | Some args => exists a more, args = a :: more /\ t = Some (match num a with Some x => x | None => 0 end)
  end.
(** the line ASk: its first letters are AS, the third a digit that is read, further ones do not matter *)
Definition as_index (l : string) : option Z :=
  match words l with
  | cmd :: _ => if (String.eqb cmd "ASP" || negb (String.eqb (take 2 cmd) "AS"))%bool then None else do d <- nth_error (chars cmd) 2; int d
  | [] => None
  end.
Definition is_as (i : nat) (l : string) : bool := match as_index l with Some k => (k + 1 =? Z.of_nat i)%Z | None => false end.
(** lines after the last ASP, and the arguments of it *)
Fixpoint after_asp (b : list string) : option (list string * list string) :=
  match b with
  | [] => None
  | l :: b => match after_asp b with Some r => Some r | None => if cmd_is "ASP" l then Some (args_of l, b) else None end
  end.
Definition olc_aspherics (b : list string) (o : option (list (option R))) : Prop :=
  match after_asp b with
  | None => o = None
  | Some (args, post) => exists kind a more n l, args = kind :: a :: more /\ In kind ["ASR"; "ARA"]%string /\ int a = Some n /\
      o = Some l /\ length l = Z.to_nat (n + 2) /\
      forall i, (i < length l)%nat -> nth_error l i = Some (match find (is_as i) (rev post) with Some x => do v <- hd_error (args_of x); num v | None => Some 0 end)
  end.
Definition olc_element (k : nat) (pre b : list string) (e : surf) : Prop :=
  (if (k =? 0)%nat then u_dist M e = Some 0 else olc_thickness pre (u_dist M e) /\ u_dist M e <> None) /\ olc_curvature b (u_curv M e) /\ olc_conic b (u_conic M e) /\
  olc_material b (if (k =? 0)%nat then None else Some air) (u_mat M e) /\ olc_aspherics b (u_asph M e) /\ u_rad M e = None /\ u_stop M e = false.
Lemma after_snoc b l : after_asp (b ++ [l]) = if cmd_is "ASP" l then Some (args_of l, []) else option_map (fun p => (fst p, snd p ++ [l])) (after_asp b).
Proof.
  induction b as [|x b IH]; [cbn; destruct (cmd_is "ASP" l); reflexivity|]. cbn [app after_asp]. rewrite IH.
  destruct (cmd_is "ASP" l); [reflexivity|]. destruct (after_asp b) as [[u v]|]; [reflexivity|]. cbn [option_map]. destruct (cmd_is "ASP" x); reflexivity.
Qed.
Lemma aspherics_other b l o : cmd_is "ASP" l = false -> as_index l = None -> olc_aspherics b o -> olc_aspherics (b ++ [l]) o.
Proof.
  intros A I. unfold olc_aspherics. rewrite after_snoc, A. destruct (after_asp b) as [[args post]|]; [|auto]. cbn [option_map fst snd].
  intros (kind & a & more & n & v & E1 & E2 & E3 & E4 & E5 & E6). exists kind, a, more, n, v. split; [auto|]. split; [auto|]. split; [auto|]. split; [auto|]. split; [auto|]. intros i Hi. rewrite (E6 i Hi).
  rewrite rev_app_distr. cbn [rev app find]. unfold is_as at 2. rewrite I. reflexivity.
Qed.
Lemma store_nth {A} (l : list A) i x r : store l i x = Some r -> length r = length l /\ (i < length l)%nat /\ forall j, (j < length l)%nat -> nth_error r j = if (j =? i)%nat then Some x else nth_error l j.
Proof.
  revert i r. induction l as [|y l IH]; intros [|i] r H; try discriminate H.
  - injection H as <-. cbn. split; [auto|]. split; [lia|]. intros [|j]; reflexivity.
  - cbn in H. destruct (store l i x) as [r'|] eqn:E; [|discriminate H]. injection H as <-. destruct (IH i r' E) as (L & I & N). cbn. split; [lia|]. split; [lia|].
    intros [|j] J; [reflexivity|]. cbn. apply N. lia.
Qed.
Lemma olc_loop_app ls ls' s : olc_loop M air make num int upper glass_map (ls ++ ls') s = do s <- olc_loop M air make num int upper glass_map ls s; olc_loop M air make num int upper glass_map ls' s.
Proof. revert s. induction ls as [|l ls IH]; intros s; cbn [app olc_loop]; [auto|]. destruct (ostep l s); cbn [obind]; auto. Qed.

(** the elements of an OLC lens are its blocks cut at NXT, the open one being the last *)
Theorem C62_olc dat es : olc_to_system M air make num int upper glass_map dat = Some es ->
  let p := cut olc_ends (split_semi dat) in elements_ok olc_element (fst p ++ [snd p]) es.
Proof.
  unfold olc_to_system. generalize (split_semi dat) as ls. intros ls H.
  destruct (olc_loop M air make num int upper glass_map ls _) as [s|] eqn:L; [|discriminate H]. injection H as <-.
  assert (G : let p := cut olc_ends ls in elements_ok olc_element (fst p) (o_done M s) /\
    olc_element (length (fst p)) (concat (fst p)) (snd p) (o_cur M s) /\ olc_thickness (concat (fst p) ++ snd p) (o_th M s)).
  2: { cbv zeta in *. destruct G as (G1 & G2 & _). apply elements_snoc; auto. }
  revert s L. induction ls as [|l ls IH] using rev_ind; intros s H.
  - injection H as <-. cbn. split; [split; [auto|]; intros [|k]; discriminate|]. split; [|reflexivity]. repeat split.
  - rewrite olc_loop_app in H. destruct (olc_loop M air make num int upper glass_map ls _) as [s0|]; [|discriminate H]. cbn [obind olc_loop] in H.
    destruct (ostep l s0) as [s1|] eqn:S; [|discriminate H]. injection H as <-. specialize (IH s0 eq_refl). cbv zeta in *. rewrite cut_snoc. cbv zeta.
    destruct (cut olc_ends ls) as [bs r]. cbn [fst snd] in *. destruct IH as (D & E & T). pose proof E as (E1 & E2 & E3 & E4 & E5 & E6 & E7).
    unfold olc_step in S. unfold olc_ends.
    assert (KEEP : forall c, cmd_is c l = match words l with w :: _ => String.eqb w c | [] => false end) by reflexivity.
    assert (AK : args_of l = tl (words l)) by reflexivity.
    assert (AI : as_index l = match words l with cmd :: _ => if (String.eqb cmd "ASP" || negb (String.eqb (take 2 cmd) "AS"))%bool then None else do d <- nth_error (chars cmd) 2; int d | [] => None end) by reflexivity.
    rewrite (KEEP "NXT"%string). destruct (words l) as [|cmd args] eqn:W.
    { injection S as <-. cbn [orb fst snd]. split; [auto|]. split; [|rewrite app_assoc; unfold olc_thickness; rewrite last_snoc, KEEP; exact T].
      unfold olc_element, olc_curvature, olc_conic, olc_material. rewrite !last_snoc, !KEEP. repeat split; auto. apply aspherics_other; auto. }
    cbn [tl] in AK.
    assert (CL : forall c, cmd_is c l = String.eqb cmd c) by (intros c; rewrite KEEP; auto). clear KEEP.
    destruct (String.eqb_spec cmd "NXT") as [->|NX].
    { cbn in S. destruct (o_th M s0) as [t|] eqn:TH; [|discriminate S]. injection S as <-. cbn [fst snd o_done o_cur o_th]. split; [apply elements_snoc; auto|].
      rewrite concat_app. cbn [concat]. rewrite !app_nil_r. split; [|exact T].
      rewrite app_length. cbn [length]. rewrite Nat.add_1_r. unfold olc_element. cbn [Nat.eqb]. split; [|repeat split].
      split; [exact T|discriminate]. }
    cbn [fst snd]. rewrite app_assoc.
    assert (EQ : forall c, c <> cmd -> cmd_is c l = false) by (intros c Hc; rewrite CL; apply String.eqb_neq; auto).
    assert (AO : cmd <> "ASP"%string -> String.eqb (take 2 cmd) "AS" = false -> forall o, olc_aspherics r o -> olc_aspherics (r ++ [l]) o).
    { intros N1 N2 o. apply aspherics_other; [apply EQ; auto|]. rewrite AI, N2. now rewrite orb_true_r. }
    assert (TO : cmd <> "TH"%string -> olc_thickness ((concat bs ++ r) ++ [l]) (o_th M s0)).
    { intros N. unfold olc_thickness. rewrite last_snoc, EQ by auto. exact T. }
    assert (RO : cmd <> "RD"%string -> forall c, olc_curvature r c -> olc_curvature (r ++ [l]) c).
    { intros N c. unfold olc_curvature. rewrite last_snoc, EQ by auto. auto. }
    assert (CO : cmd <> "CC"%string -> forall c, olc_conic r c -> olc_conic (r ++ [l]) c).
    { intros N c. unfold olc_conic. rewrite last_snoc, EQ by auto. auto. }
    assert (MO : cmd <> "GLA"%string -> forall d c, olc_material r d c -> olc_material (r ++ [l]) d c).
    { intros N d c. unfold olc_material. rewrite last_snoc, EQ by auto. auto. }
    assert (SAME : cmd <> "ASP"%string -> String.eqb (take 2 cmd) "AS" = false -> cmd <> "RD"%string -> cmd <> "CC"%string -> cmd <> "GLA"%string -> olc_element (length bs) (concat bs) (r ++ [l]) (o_cur M s0)).
    { intros. repeat split; auto. }
    destruct (String.eqb_spec cmd "RD") as [->|X1].
    { destruct args as [|a args]; [discriminate S|]. cbn [hd_error obind] in S. injection S as <-. cbn [o_done o_cur o_th]. split; [auto|]. split; [|apply TO; discriminate].
      split; [exact E1|]. split; [|repeat split; auto; [apply CO; auto; discriminate|apply MO; auto; discriminate|apply AO; auto; discriminate]].
      unfold olc_curvature. rewrite last_snoc, CL, AK. cbn [String.eqb Ascii.eqb Bool.eqb u_curv]. exists a, args. split; [auto|]. destruct (num a) as [x|]; [|auto].
      destruct (Req_EM_T x 0); [right; auto|left; split; auto; field; auto]. }
    destruct (String.eqb_spec cmd "GLA") as [->|X2].
    { destruct args as [|a args]; [discriminate S|]. cbn [hd_error obind] in S.
      assert (GO : forall m, (make (glass_map (upper a)) = NotFound /\ m = Some air \/ exists g, make (glass_map (upper a)) = Made g /\ m = Some g) ->
        forall d, olc_material (r ++ [l]) d m).
      { intros m Hm d. unfold olc_material. rewrite last_snoc, CL, AK. cbn [String.eqb Ascii.eqb Bool.eqb]. exists a, args. auto. }
      destruct (make (glass_map (upper a))) as [m| |] eqn:MA; [| |discriminate S]; injection S as <-; cbn [o_done o_cur o_th]; (split; [auto|]; split; [|apply TO; discriminate]);
        (split; [exact E1|]; split; [apply RO; auto; discriminate|]; split; [apply CO; auto; discriminate|]; split; [apply GO; eauto|]; split; [apply AO; auto; discriminate|]; auto). }
    destruct (String.eqb_spec cmd "TH") as [->|X3].
    { destruct args as [|a args]; [discriminate S|]. cbn [hd_error obind] in S. injection S as <-. cbn [o_done o_cur o_th]. split; [auto|]. split; [apply SAME; try discriminate; auto|].
      unfold olc_thickness. rewrite last_snoc, CL, AK. cbn [String.eqb Ascii.eqb Bool.eqb]. eauto. }
    destruct (ignored_olc cmd) eqn:IG.
    { injection S as <-. split; [auto|]. split; [|auto]. unfold ignored_olc in IG. apply existsb_exists in IG. destruct IG as (c & Hc & E0). apply String.eqb_eq in E0. subst c.
      cbn in Hc. repeat destruct Hc as [<-|Hc]; try contradiction; apply SAME; try discriminate; auto. }
    destruct (String.eqb_spec cmd "CC") as [->|X4].
    { destruct args as [|a args]; [discriminate S|]. cbn [hd_error obind] in S. injection S as <-. cbn [o_done o_cur o_th]. split; [auto|]. split; [|auto].
      split; [exact E1|]. split; [apply RO; auto; discriminate|]. split; [|split; [apply MO; auto; discriminate|]; split; [apply AO; auto; discriminate|]; auto].
      unfold olc_conic. rewrite last_snoc, CL, AK. cbn [String.eqb Ascii.eqb Bool.eqb u_conic]. eauto. }
    destruct (String.eqb_spec cmd "ASP") as [->|X5].
    { destruct args as [|a args]; [discriminate S|]. cbn [hd_error obind tl] in S. destruct (_ || _)%bool eqn:K; [|discriminate S].
      destruct args as [|b args]; [discriminate S|]. cbn [hd_error obind] in S. destruct (int b) as [n|] eqn:N; [|discriminate S]. cbn [obind] in S. injection S as <-. cbn [o_done o_cur o_th]. split; [auto|]. split; [|auto].
      split; [exact E1|]. split; [apply RO; auto|]. split; [apply CO; auto|]. split; [apply MO; auto|]. split; [|auto].
      unfold olc_aspherics. rewrite after_snoc, CL, AK. cbn [String.eqb Ascii.eqb Bool.eqb u_asph]. exists a, b, args, n, (repeat (Some 0) (Z.to_nat (n + 2))).
      split; [auto|]. split. { apply orb_true_iff in K. cbn. rewrite !String.eqb_eq in K. destruct K as [->| ->]; auto. }
      split; [auto|]. split; [auto|]. rewrite repeat_length. split; [auto|]. intros i Hi. cbn. now apply nth_error_repeat. }
    destruct (String.eqb (take 2 cmd) "AS") eqn:X6.
    { destruct (nth_error (chars cmd) 2) as [d|] eqn:ND; [|discriminate S]. cbn [obind] in S. destruct (int d) as [k|] eqn:K; [|discriminate S]. cbn [obind] in S.
      destruct args as [|a args]; [discriminate S|]. cbn [hd_error obind] in S. destruct (u_asph M (o_cur M s0)) as [v|] eqn:U; [|discriminate S]. cbn [obind] in S.
      destruct (k + 1 <? 0)%Z eqn:KN; [discriminate S|]. destruct (store v (Z.to_nat (k + 1)) (num a)) as [v'|] eqn:ST; [|discriminate S]. cbn [obind] in S. injection S as <-.
      cbn [o_done o_cur o_th]. split; [auto|]. split; [|auto].
      split; [exact E1|]. split; [apply RO; auto|]. split; [apply CO; auto|]. split; [apply MO; auto|]. split; [|auto].
      unfold olc_aspherics in *. rewrite after_snoc, (EQ "ASP"%string) by auto. cbn [u_asph]. destruct (after_asp r) as [[ar post]|]; [|discriminate E5]. cbn [option_map fst snd].
      destruct E5 as (kind & b & more & n & l0 & -> & HK & HN & HO & HL & HI). injection HO as <-. apply store_nth in ST. destruct ST as (L1 & L2 & L3).
      exists kind, b, more, n, v'. split; [auto|]. split; [auto|]. split; [auto|]. split; [auto|]. split; [congruence|]. intros i Hi. rewrite L1 in Hi. rewrite (L3 i Hi).
      rewrite rev_app_distr. cbn [rev app find]. assert (IA : is_as i l = (i =? Z.to_nat (k + 1))%nat).
      { unfold is_as. rewrite AI. destruct (String.eqb_spec cmd "ASP"); [contradiction|]. cbn [negb orb obind]. rewrite ?K.
        apply Z.ltb_ge in KN. destruct (Nat.eqb_spec i (Z.to_nat (k + 1))); [apply Z.eqb_eq; lia|apply Z.eqb_neq; lia]. }
      rewrite IA. destruct (i =? Z.to_nat (k + 1))%nat; [rewrite AK; reflexivity|auto]. }
    destruct (String.eqb_spec cmd "NXT"); [contradiction|]. injection S as <-. split; [auto|]. split; [|auto]. apply SAME; auto.
Qed.
End Oslo.

(** * what the readers get wrong *)
(** a spacing above 100 is read as infinite, whatever the unit *)
Theorem C62_thickness_refuted : exists num ls s e, len_to_system unit tt (fun _ => Raises) num ls = Some s /\ num "150"%string = Some 150 /\
  ls = ["TH 150"; "NXT"; "END"]%string /\ nth_error (l_done unit s) 1 = Some e /\ u_dist unit e = None.
Proof.
  exists (fun a => if String.eqb a "150" then Some 150 else None), ["TH 150"; "NXT"; "END"]%string.
  eexists. eexists. split.
  - unfold len_to_system. cbn [len_loop]. unfold len_step at 1. change (words "TH 150") with ["TH"; "150"]%string. cbn [String.eqb Ascii.eqb Bool.eqb hd_error obind].
    destruct (Rlt_dec 100 150); [|lra]. cbn. reflexivity.
  - split; [reflexivity|]. split; [reflexivity|]. split; reflexivity.
Qed.
(** a plane given as radius zero is refused in a LEN file and accepted in an OLC one *)
Theorem C62_plane_refuted : exists num, num "0"%string = Some 0 /\
  len_to_system unit tt (fun _ => Raises) num ["RD 0"; "END"]%string = None /\
  exists e, olc_to_system unit tt (fun _ => Raises) num (fun _ => None) (fun s => s) (fun s => s) "RD 0" = Some [e] /\ u_curv unit e = 0.
Proof.
  exists (fun a => if String.eqb a "0" then Some 0 else None). split; [reflexivity|]. split.
  - unfold len_to_system. cbn [len_loop]. unfold len_step at 1. change (words "RD 0") with ["RD"; "0"]%string. cbn [String.eqb Ascii.eqb Bool.eqb hd_error obind].
    rewrite fdiv_zero. reflexivity.
  - eexists. split.
    + unfold olc_to_system. change (split_semi "RD 0") with ["RD 0"%string]. cbn [olc_loop]. unfold olc_step. change (words "RD 0") with ["RD"; "0"]%string. cbn [String.eqb Ascii.eqb Bool.eqb hd_error obind]. reflexivity.
    + cbn [app o_done o_cur u_curv]. destruct (Req_EM_T 0 0); [reflexivity|contradiction].
Qed.
(** the aperture stop of a lens: LEN files only mark the element, OLC ones are refused; also refused is a
    surface that ends before any thickness was given *)
Theorem C62_stop_refuted (M : Type) (air : M) make num int upper glass_map rest : int "T"%string = None ->
  olc_to_system M air make num int upper glass_map ("AST;" ++ rest) = None.
Proof.
  intros H. unfold olc_to_system. change (split_semi ("AST;" ++ rest)) with ("AST"%string :: split_semi rest). cbn [olc_loop].
  unfold olc_step at 1. change (words "AST") with ["AST"%string]. cbn [String.eqb Ascii.eqb Bool.eqb ignored_olc existsb orb take]. cbn [nth_error chars obind]. now rewrite H.
Qed.
Theorem C62_unbound_refuted (M : Type) (air : M) make num int upper glass_map rest :
  olc_to_system M air make num int upper glass_map ("NXT;" ++ rest) = None.
Proof.
  unfold olc_to_system. change (split_semi ("NXT;" ++ rest)) with ("NXT"%string :: split_semi rest). cbn [olc_loop]. reflexivity.
Qed.
(** a thickness is not reset at the next surface: the surface after the next inherits it *)
Theorem C62_carry_refuted : exists num ls s e1 e2, len_to_system unit tt (fun _ => Raises) num ls = Some s /\ ls = ["TH 5"; "NXT"; "NXT"; "END"]%string /\
  nth_error (l_done unit s) 1 = Some e1 /\ nth_error (l_done unit s) 2 = Some e2 /\ u_dist unit e1 = Some 5 /\ u_dist unit e2 = Some 5.
Proof.
  exists (fun a => if String.eqb a "5" then Some 5 else None), ["TH 5"; "NXT"; "NXT"; "END"]%string.
  eexists. eexists. eexists. split.
  - unfold len_to_system. cbn [len_loop]. unfold len_step at 1. change (words "TH 5") with ["TH"; "5"]%string. cbn [String.eqb Ascii.eqb Bool.eqb hd_error obind].
    destruct (Rlt_dec 100 5); [lra|]. cbn. reflexivity.
  - repeat split.
Qed.
(** lines after the last NXT or END are not part of the lens *)
Theorem C62_open_refuted (M : Type) (air : M) make num ls more s s' : len_to_system M air make num ls = Some s ->
  Forall (fun l => len_ends l = false) more -> len_to_system M air make num (ls ++ more) = Some s' -> l_done M s' = l_done M s.
Proof.
  intros H F. revert s'. induction more as [|l more IH] using rev_ind; intros s' H'.
  - rewrite app_nil_r in H'. congruence.
  - apply Forall_app in F. destruct F as [F1 F2]. inversion F2 as [|? ? FL _]; subst. specialize (IH F1).
    unfold len_to_system in *. rewrite app_assoc, len_loop_app in H'. destruct (len_loop M air make num (ls ++ more) _) as [s1|]; [|discriminate H'].
    rewrite <- (IH s1 eq_refl). cbn [obind len_loop] in H'. destruct (len_step M air make num l s1) as [s2|] eqn:S; [|discriminate H']. injection H' as <-.
    unfold len_ends, cmd_is in FL. unfold len_step in S. destruct (words l) as [|cmd args]; [congruence|]. rewrite FL in S.
    repeat (match type of S with (if ?b then _ else _) = _ => destruct b end;
      [repeat (match type of S with obind ?o _ = _ => destruct o; [cbn [obind] in S|discriminate S] end); try (injection S as <-; reflexivity);
       match type of S with (match ?m with _ => _ end) = _ => destruct m; try discriminate S; injection S as <-; reflexivity end|]).
    congruence.
Qed.

(** * examples: a lens of two glass surfaces and its image plane *)
Definition demo_len : list string :=
  ["LEN NEW ""singlet"" 100 4"; "UNI 1"; "AIR"; "TH 1000"; "NXT"; "RD 50"; "AP CHK 10"; "TH 4"; "GLA BK7"; "AST"; "NXT"; "RD 25"; "TH 95"; "AIR"; "NXT"; "AP 2"; "END"]%string.
Definition demo_make (s : string) : made nat := if String.eqb s "BK7" then Made 7%nat else NotFound.
Lemma demo_int_50 : demo_float "50" = Some 50 /\ demo_float "25" = Some 25 /\ demo_float "4" = Some 4 /\ demo_float "95" = Some 95 /\ demo_float "1000" = Some 1000 /\ demo_float "10" = Some 10 /\ demo_float "2" = Some 2 /\ demo_float "1" = Some 1.
Proof. repeat split. Qed.
Example C62_len_example : exists s, len_to_system nat 0%nat demo_make demo_float demo_len = Some s /\ length (l_done nat s) = 4%nat /\
  map (u_mat nat) (l_done nat s) = [Some 0; Some 7; Some 0; None]%nat /\ map (u_stop nat) (l_done nat s) = [false; true; false; false] /\
  fst (cut len_ends demo_len) = [["LEN NEW ""singlet"" 100 4"; "UNI 1"; "AIR"; "TH 1000"]; ["RD 50"; "AP CHK 10"; "TH 4"; "GLA BK7"; "AST"]; ["RD 25"; "TH 95"; "AIR"]; ["AP 2"]]%string.
Proof.
  assert (OK : Forall (len_line_ok nat demo_make demo_float) demo_len).
  { unfold demo_len. destruct demo_int_50 as (D1 & D2 & D3 & D4 & D5 & D6 & D7 & D8).
    repeat apply Forall_cons; try apply Forall_nil; unfold len_line_ok; match goal with |- context [words ?x] => let y := eval vm_compute in (words x) in change (words x) with y end;
      repeat split; intros G; try discriminate G; try (destruct G as [G|[G|[]]]; discriminate G); eauto 10.
    all: first [solve [exists "BK7"%string, [], 7%nat; auto] | solve [exists "50"%string, [], 50; repeat split; auto; lra] | solve [exists "25"%string, [], 25; repeat split; auto; lra] |
      solve [exists "10"%string, [], 10; auto] | solve [exists "2"%string, [], 2; split; [left; split; [auto|discriminate]|auto]]]. }
  apply C62_len_accepts with (air := 0%nat) in OK. destruct OK as [s H]. exists s. split; [exact H|].
  pose proof (C62_len nat 0%nat demo_make demo_float demo_len s H) as [L E].
  assert (C : fst (cut len_ends demo_len) = [["LEN NEW ""singlet"" 100 4"; "UNI 1"; "AIR"; "TH 1000"]; ["RD 50"; "AP CHK 10"; "TH 4"; "GLA BK7"; "AST"]; ["RD 25"; "TH 95"; "AIR"]; ["AP 2"]]%string) by (vm_compute; reflexivity).
  rewrite C in L, E. cbn [length] in L. split; [exact L|]. split; [|split; [|exact C]].
  - destruct (l_done nat s) as [|e0 [|e1 [|e2 [|e3 [|]]]]]; try discriminate L. cbn [map].
    pose proof (E 0%nat _ e0 eq_refl eq_refl) as (_ & _ & _ & M0 & _). pose proof (E 1%nat _ e1 eq_refl eq_refl) as (_ & _ & _ & M1 & _).
    pose proof (E 2%nat _ e2 eq_refl eq_refl) as (_ & _ & _ & M2 & _). pose proof (E 3%nat _ e3 eq_refl eq_refl) as (_ & _ & _ & M3 & _).
    destruct e0 as [? ? ? ? m0 ? ?], e1 as [? ? ? ? m1 ? ?], e2 as [? ? ? ? m2 ? ?], e3 as [? ? ? ? m3 ? ?]. cbn [u_mat] in *. vm_compute in M0, M1, M2, M3. destruct M1 as (a & more & g & A & G & ->). injection A as <- <-. vm_compute in G. injection G as <-. now rewrite M0, M2, M3.
  - destruct (l_done nat s) as [|e0 [|e1 [|e2 [|e3 [|]]]]]; try discriminate L. cbn [map].
    pose proof (E 0%nat _ e0 eq_refl eq_refl) as (_ & _ & _ & _ & M0 & _). pose proof (E 1%nat _ e1 eq_refl eq_refl) as (_ & _ & _ & _ & M1 & _).
    pose proof (E 2%nat _ e2 eq_refl eq_refl) as (_ & _ & _ & _ & M2 & _). pose proof (E 3%nat _ e3 eq_refl eq_refl) as (_ & _ & _ & _ & M3 & _).
    rewrite M0, M1, M2, M3. vm_compute. reflexivity.
Qed.
Example C62_header_example : option_map (l_desc nat) (len_to_system nat 0%nat demo_make demo_float ["LEN NEW two words 100 4"; "UNI 1"]%string) = Some (Some ["two"; "words"]%string) /\
  option_map (l_scale nat) (len_to_system nat 0%nat demo_make demo_float ["LEN NEW two words 100 4"; "UNI 1"]%string) = Some (Some (1 * (1 / 1000))).
Proof.
  unfold len_to_system. cbn [len_loop]. unfold len_step.
  repeat match goal with |- context [words ?x] => let y := eval vm_compute in (words x) in change (words x) with y end.
  cbn [String.eqb Ascii.eqb Bool.eqb hd_error obind]. change (demo_float "1") with (Some 1). split; reflexivity.
Qed.
Example C62_len_accepts_example : Forall (len_line_ok nat demo_make demo_float) ["NXT"; "XYZ 1 2"; ""]%string /\ ~ Forall (len_line_ok nat demo_make demo_float) ["TH"]%string.
Proof.
  split.
  - repeat apply Forall_cons; try apply Forall_nil; unfold len_line_ok; match goal with |- context [words ?x] => let y := eval vm_compute in (words x) in change (words x) with y end; repeat split; intros G; try discriminate G; destruct G as [G|[G|[]]]; discriminate G.
  - intros F. inversion F as [|? ? G _]; subst. unfold len_line_ok in G. change (words "TH") with ["TH"%string] in G. destruct G as [G _]. destruct G as (a & more & x & A & _); [cbn; auto|]. discriminate A.
Qed.
Definition demo_olc : string := "RD 50; TH 4; GLA bk7; ASP ASR 3; AS1 5; AS1 6; NXT; RD 0; CC 2; TH 95; GLA zz; NXT".
Definition demo_upper (s : string) : string := if String.eqb s "bk7" then "BK7"%string else s.
Example C62_olc_example : exists es, olc_to_system nat 0%nat demo_make demo_float demo_int demo_upper (fun s => s) demo_olc = Some es /\ length es = 3%nat /\
  map (u_mat nat) es = [Some 7; Some 0; Some 0]%nat /\ map (u_dist nat) es = [Some 0; Some 4; Some 95] /\ map (u_conic nat) es = [Some 0; Some 2; Some 0] /\
  map (u_asph nat) es = [Some [Some 0; Some 0; Some 6; Some 0; Some 0]; None; None].
Proof.
  destruct demo_int_50 as (D1 & D2 & D3 & D4 & D5 & D6 & D7 & D8).
  unfold olc_to_system. let y := eval vm_compute in (split_semi demo_olc) in change (split_semi demo_olc) with y.
  cbn [olc_loop]. unfold olc_step.
  repeat match goal with |- context [words ?x] => let y := eval vm_compute in (words x) in change (words x) with y end.
  cbn [String.eqb Ascii.eqb Bool.eqb ignored_olc existsb orb take]. cbn [hd_error obind tl].
  rewrite D1, D3, D4, D7. change (demo_float "0") with (Some 0). change (demo_float "5") with (Some 5). change (demo_float "6") with (Some 6).
  change (demo_int "3") with (Some 3%Z). change (demo_int "1") with (Some 1%Z). 
  cbn. eexists. split; [reflexivity|]. repeat split.
Qed.
Example C62_stop_example : demo_int "T" = None /\ demo_int "1" = Some 1%Z.
Proof. split; reflexivity. Qed.
Example C62_open_example : Forall (fun l => len_ends l = false) ["RD 7"; "TH 3"]%string /\ len_ends "NXT" = true.
Proof. split; [repeat constructor|reflexivity]. Qed.

Print Assumptions C62_len.
Print Assumptions C62_header.
Print Assumptions C62_len_accepts.
Print Assumptions C62_olc.
Print Assumptions C62_thickness_refuted.
Print Assumptions C62_plane_refuted.
Print Assumptions C62_stop_refuted.
Print Assumptions C62_unbound_refuted.
Print Assumptions C62_carry_refuted.
Print Assumptions C62_open_refuted.
