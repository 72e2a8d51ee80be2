(** OSLO lens files.
    Modelled: rayopt/oslo.py:86-126 [olc_to_system], :129-167 [len_to_system], from the text on.
    Numbers: [num] parses a float ([float], [sfloat]), [int] an integer, None where they raise ValueError.
    [make] is [Material.make].  Of an element only what these readers set is kept; printing is left out.
    Distances: None is infinity. *)
From Coq Require Import String Ascii ZArith Reals Bool List.
From Verif Require Import Base SampleModel MaterialModel CatalogModel.
Import ListNotations.
Open Scope R_scope.
Open Scope list_scope.

(** [Material.make] on a name: material.py:88-115, called by oslo.py:103, 153 *)
Inductive made (M : Type) := Made (m : M) | NotFound | Raises.
Arguments Made {M} m.
Arguments NotFound {M}.
Arguments Raises {M}.

Section Oslo.
Variable M : Type.
Variable air : M.
Variable make : string -> made M.
Variable num : string -> option R.
Variable int : string -> option Z.

(** elements.py:414-424 [Spheroid] with its defaults; conic and aspherics may become None entries by sfloat.
    [u_dist] is the thickness as set, i.e. the offset along z (a negative one flips the direction, :126-128) *)
Record surface := Surface {
  u_dist : option R; u_curv : R; u_conic : option R; u_asph : option (list (option R));
  u_mat : option M; u_rad : option R; u_stop : bool }.
(** [Spheroid(distance=d, material=m)]: elements.py:414-426, oslo.py:88, 122, 131, 160 *)
Definition surface0 (d : option R) (m : option M) : surface := Surface d 0 (Some 0) None m None false.

(** ** LEN: oslo.py:129-167 *)
(** the description and the scale do not touch elements; [l_desc]: words of the description, before strip; oslo.py:130-132 *)
Record len_state := Len { l_done : list surface; l_cur : surface; l_th : option R; l_desc : option (list string); l_scale : option R }.
(** [args[1:-2]] *)
Definition inner {A} (args : list A) : list A := firstn (length args - 2 - 1) (tl args).
(** oslo.py:134-165: one line *)
Definition len_step (line : string) (s : len_state) : option len_state :=
  match words line with
  | [] => Some s
  | cmd :: args =>
      let e := l_cur s in
      let put e := Len (l_done s) e (l_th s) (l_desc s) (l_scale s) in
      if String.eqb cmd "LEN" then Some (Len (l_done s) e (l_th s) (Some (inner args)) (l_scale s))
      else if String.eqb cmd "UNI" then do a <- hd_error args; do x <- num a; Some (Len (l_done s) e (l_th s) (l_desc s) (Some (x * (1 / 1000))))
      else if String.eqb cmd "AIR" then Some (put (Surface (u_dist e) (u_curv e) (u_conic e) (u_asph e) (Some air) (u_rad e) (u_stop e)))
      else if String.eqb cmd "TH" then
        do a <- hd_error args; do x <- num a;
        Some (Len (l_done s) e (if Rlt_dec 100 x then None else Some x) (l_desc s) (l_scale s))
      else if String.eqb cmd "AP" then
        do a <- hd_error args;
        do b <- (if String.eqb a "CHK" then hd_error (tl args) else Some a);
        do x <- num b; Some (put (Surface (u_dist e) (u_curv e) (u_conic e) (u_asph e) (u_mat e) (Some x) (u_stop e)))
      else if String.eqb cmd "GLA" then
        do a <- hd_error args;
        match make a with Made m => Some (put (Surface (u_dist e) (u_curv e) (u_conic e) (u_asph e) (Some m) (u_rad e) (u_stop e))) | _ => None end
      else if String.eqb cmd "AST" then Some (put (Surface (u_dist e) (u_curv e) (u_conic e) (u_asph e) (u_mat e) (u_rad e) true))
      else if String.eqb cmd "RD" then
        do a <- hd_error args; do x <- num a; do c <- fdiv 1 x;
        Some (put (Surface (u_dist e) c (u_conic e) (u_asph e) (u_mat e) (u_rad e) (u_stop e)))
      else if (String.eqb cmd "NXT" || String.eqb cmd "END")%bool then
        Some (Len (l_done s ++ [e]) (surface0 (l_th s) None) (l_th s) (l_desc s) (l_scale s))
      else Some s   (* ignored or "not handled" *)
  end.
(** oslo.py:133-165: the lines in turn *)
Fixpoint len_loop (lines : list string) (s : len_state) : option len_state :=
  match lines with [] => Some s | l :: lines => do s <- len_step l s; len_loop lines s end.
(** oslo.py:129-166 [len_to_system] *)
Definition len_to_system (lines : list string) : option len_state :=
  len_loop lines (Len [] (surface0 (Some 0) None) (Some 0) None None).

(** ** OLC: oslo.py:86-126 *)
(** [str.split(";")]; oslo.py:90 *)
Fixpoint split_semi (s : string) : list string :=
  match s with
  | EmptyString => [EmptyString]
  | String a s => if Ascii.eqb a ";" then EmptyString :: split_semi s
                  else match split_semi s with [] => [String a ""] | w :: l => String a w :: l end
  end.
Variable upper : string -> string.
Variable glass_map : string -> string.    (* [glass_map.get(mat, mat)] *)
(** [o_th] None: the local variable is not bound yet; oslo.py:87-89, 109 *)
Record olc_state := Olc { o_done : list surface; o_cur : surface; o_th : option R }.
(** [s.aspherics[i] = x]; None: IndexError; oslo.py:120 *)
Fixpoint store {A} (l : list A) (i : nat) (x : A) : option (list A) :=
  match l, i with
  | [], _ => None
  | _ :: l, O => Some (x :: l)
  | y :: l, S i => do r <- store l i x; Some (y :: r)
  end.
(** oslo.py:111 *)
Definition ignored_olc (cmd : string) : bool :=
  existsb (String.eqb cmd) ["AP"; "CVX"; "APN"; "AY1"; "AY2"; "AX1"; "AX2"; "ATP"; "AAC"]%string.
(** oslo.py:91-125: one command *)
Definition olc_step (text : string) (s : olc_state) : option olc_state :=
  match words text with
  | [] => Some s
  | cmd :: args =>
      let e := o_cur s in
      let put e := Olc (o_done s) e (o_th s) in
      if String.eqb cmd "RD" then
        do a <- hd_error args;
        let c := match num a with Some r => if Req_EM_T r 0 then 0 else 1 / r | None => 0 end in
        Some (put (Surface (u_dist e) c (u_conic e) (u_asph e) (u_mat e) (u_rad e) (u_stop e)))
      else if String.eqb cmd "GLA" then
        do a <- hd_error args;
        match make (glass_map (upper a)) with
        | Made m => Some (put (Surface (u_dist e) (u_curv e) (u_conic e) (u_asph e) (Some m) (u_rad e) (u_stop e)))
        | NotFound => Some (put (Surface (u_dist e) (u_curv e) (u_conic e) (u_asph e) (Some air) (u_rad e) (u_stop e)))
        | Raises => None
        end
      else if String.eqb cmd "TH" then
        do a <- hd_error args; Some (Olc (o_done s) e (Some (match num a with Some x => x | None => 0 end)))
      else if ignored_olc cmd then Some s
      else if String.eqb cmd "CC" then
        do a <- hd_error args; Some (put (Surface (u_dist e) (u_curv e) (num a) (u_asph e) (u_mat e) (u_rad e) (u_stop e)))
      else if String.eqb cmd "ASP" then
        do a <- hd_error args;
        if (String.eqb a "ASR" || String.eqb a "ARA")%bool then
          do b <- hd_error (tl args); do n <- int b;
          Some (put (Surface (u_dist e) (u_curv e) (u_conic e) (Some (repeat (Some 0) (Z.to_nat (n + 2)))) (u_mat e) (u_rad e) (u_stop e)))
        else None
      else if String.eqb (take 2 cmd) "AS" then
        do d <- nth_error (chars cmd) 2; do k <- int d; do a <- hd_error args;
        do l <- u_asph e;
        let i := (k + 1)%Z in
        do r <- (if (i <? 0)%Z then None else store l (Z.to_nat i) (num a));
        Some (put (Surface (u_dist e) (u_curv e) (u_conic e) (Some r) (u_mat e) (u_rad e) (u_stop e)))
      else if String.eqb cmd "NXT" then
        do t <- o_th s; Some (Olc (o_done s ++ [e]) (surface0 (Some t) (Some air)) (o_th s))
      else Some s
  end.
(** oslo.py:90-125: the commands in turn *)
Fixpoint olc_loop (cmds : list string) (s : olc_state) : option olc_state :=
  match cmds with [] => Some s | c :: cmds => do s <- olc_step c s; olc_loop cmds s end.
(** oslo.py:86-126 [olc_to_system] *)
Definition olc_to_system (dat : string) : option (list surface) :=
  do s <- olc_loop (split_semi dat) (Olc [] (surface0 (Some 0) None) None); Some (o_done s ++ [o_cur s]).
End Oslo.
