(** The optimiser front end (rayopt/optimize.py).  [scipy.optimize.minimize] is an arbitrary
    strategy that asks for values at points it chooses from what it has seen. *)
From Coq Require Import String ZArith Reals Bool List.
From Verif Require Import Base PathModel.
Import ListNotations.
Open Scope list_scope.

(** a bound: a number or infinite; optimize.py:25 *)
Inductive ext := MInf | Fin (x : R) | PInf.
(** division by a nonzero number; optimize.py:100 *)
Definition ext_div (e : ext) (s : R) : ext :=
  match e with
  | Fin x => Fin (x / s)
  | MInf => if Rlt_dec s 0 then PInf else MInf
  | PInf => if Rlt_dec s 0 then MInf else PInf
  end.
(** [PathVariable] with [Variable.__init__] done: optimize.py:24-54 *)
Record variable := Variable_ { v_path : path; v_scale : R; v_lo : ext; v_hi : ext; v_init : R }.
(** [Variable.get]: the value must be a number; optimize.py:50-51 *)
Definition v_get (s : val) (p : path) : option R := do v <- get_path s p; match v with Num x => Some x | _ => None end.
(** [Variable.__init__]: optimize.py:25-36; scale defaults to the range of the bounds, which must be
    finite, the start to the present value *)
Definition make_variable (s : val) (p : path) (lo hi : ext) (scale init : option R) : option variable :=
  do c <- match scale with
          | Some c => Some c
          | None => match lo, hi with Fin a, Fin b => Some (b - a)%R | _, _ => None end
          end;
  do i <- match init with Some i => Some i | None => v_get s p end;
  Some (Variable_ p c lo hi i).

(** [Operand], [FuncOp]: optimize.py:57-90; [op_get] is [np.atleast_1d(func(system)).ravel()], [None]: it raises *)
Record operand := Operand_ { op_get : val -> option (list R); op_weight : option R; op_offset : R; op_min : option R; op_max : option R }.
(** [get_objective]: optimize.py:69-71; [if self.weight] skips None and 0 *)
Definition get_objective (o : operand) : list (R -> R) :=
  match op_weight o with
  | Some w => if Req_EM_T w 0 then [] else [fun v => w * (v - op_offset o)]%R
  | None => []
  end.
(** [get_equality]: optimize.py:73-75 *)
Definition get_equality (o : operand) : list (R -> R) :=
  match op_min o, op_max o with
  | Some a, Some b => if Req_EM_T a b then [fun v => v - op_offset o]%R else []
  | _, _ => []
  end.
(** [get_inequality]: optimize.py:77-81 *)
Definition get_inequality (o : operand) : list (R -> R) :=
  match op_min o with Some a => [fun v => v - op_offset o - a]%R | None => [] end ++
  match op_max o with Some b => [fun v => b - (v - op_offset o)]%R | None => [] end.

(** the lists [ob], [eq], [ineq]: optimize.py:102-110 *)
Fixpoint collect (f : operand -> list (R -> R)) (i : nat) (ops : list operand) : list (nat * (R -> R)) :=
  match ops with [] => [] | o :: ops => map (fun g => (i, g)) (f o) ++ collect f (S i) ops end.
(** [np.concatenate([g(v[i]) for i, g in l])]: optimize.py:123, 128, 132 *)
Definition gather (l : list (nat * (R -> R))) (v : list (list R)) : list R :=
  flat_map (fun ig => map (snd ig) (List.nth (fst ig) v [])) l.
(** [np.square(o).sum()]: optimize.py:124 *)
Definition sum_squares (l : list R) : R := fold_right (fun x a => x * x + a)%R 0%R l.

(** [up]: optimize.py:112-114, values [x*s] set one after the other *)
Fixpoint up (vars : list variable) (x : list R) (s : val) : option val :=
  match vars, x with
  | [], [] => Some s
  | v :: vars, xi :: x => do s <- set_path s (v_path v) (Num (xi * v_scale v)%R); up vars x s
  | _, _ => None
  end.
(** [[op.get() for op in operands]]: optimize.py:119 *)
Fixpoint values (ops : list operand) (s : val) : option (list (list R)) :=
  match ops with [] => Some [] | o :: ops => do v <- op_get o s; do r <- values ops s; Some (v :: r) end.

(** what the optimiser and its callback may ask for; optimize.py:121-150 *)
Inductive query := QFun (x : list R) | QEq (x : list R) | QIneq (x : list R) | QTrace (x : list R).
(** what scipy's [minimize] may do (optimize.py:153): stop at a point, raise, or ask for a value and go on *)
Inductive minimizer := Stop (x : list R) | GiveUp | Ask (q : query) (next : list R -> minimizer).
(** the point a question of the minimiser is about: optimize.py:121-150 *)
Definition query_point (q : query) : list R := match q with QFun x | QEq x | QIneq x | QTrace x => x end.

(** optimize.py:116 [clru_cache(maxsize=len(variables) + 1)], most recently used first *)
Definition cache := list (list R * list (list R)).
(** the system, the cache of optimize.py:116-119 and the recorded trace of optimize.py:140-147 *)
Record state := State { st_system : val; st_cache : cache; st_trace : list (list R * list (list R)) }.
(** the entry of a point in the cache: optimize.py:116 *)
Fixpoint find (x : list R) (c : cache) : option (list (list R)) :=
  match c with [] => None | (y, v) :: c => if list_eq_dec Req_EM_T x y then Some v else find x c end.
(** the cache without the entry of a point: optimize.py:116 *)
Fixpoint drop (x : list R) (c : cache) : cache :=
  match c with [] => [] | (y, v) :: c => if list_eq_dec Req_EM_T x y then c else (y, v) :: drop x c end.
(** [ex]: optimize.py:116-119 with the least recently used cache of [len(variables) + 1] entries *)
Definition ex (vars : list variable) (ops : list operand) (st : state) (x : list R) : option (list (list R) * state) :=
  match find x (st_cache st) with
  | Some v => Some (v, State (st_system st) ((x, v) :: drop x (st_cache st)) (st_trace st))
  | None =>
      do s <- up vars x (st_system st);
      do v <- values ops s;
      Some (v, State s (firstn (S (length vars)) ((x, v) :: st_cache st)) (st_trace st))
  end.
(** [x*s]: optimize.py:113, 145 *)
Definition scaled (vars : list variable) (x : list R) : list R := map (fun vx => snd vx * v_scale (fst vx))%R (combine vars x).
(** [fun], [feq], [fineq] and the recording [cb]: optimize.py:121-149 *)
Definition respond (ops : list operand) (q : query) (v : list (list R)) : list R :=
  match q with
  | QFun _ => [sum_squares (gather (collect get_objective 0 ops) v)]
  | QEq _ => gather (collect get_equality 0 ops) v
  | QIneq _ => gather (collect get_inequality 0 ops) v
  | QTrace _ => []
  end.
(** optimize.py:153: the questions of the minimiser answered in turn *)
Fixpoint run (vars : list variable) (ops : list operand) (m : minimizer) (st : state) : option (list R * state) :=
  match m with
  | Stop x => Some (x, st)
  | GiveUp => None
  | Ask q next =>
      do r <- ex vars ops st (query_point q);
      let st := snd r in
      let st := match q with QTrace x => State (st_system st) (st_cache st) (st_trace st ++ [(scaled vars x, fst r)]) | _ => st end in
      run vars ops (next (respond ops q (fst r))) st
  end.
(** [x0]: optimize.py:98 *)
Definition start_values (vars : list variable) (s : val) : option (list R) :=
  (fix go l := match l with [] => Some [] | v :: l => do x <- v_get s (v_path v); do d <- fdiv x (v_scale v); do r <- go l; Some (d :: r) end) vars.
(** [x1]: optimize.py:99 *)
Definition scaled_start (vars : list variable) : option (list R) :=
  (fix go l := match l with [] => Some [] | v :: l => do d <- fdiv (v_init v) (v_scale v); do r <- go l; Some (d :: r) end) vars.
(** [bounds]: optimize.py:100 *)
Definition scaled_bounds (v : variable) : ext * ext := (ext_div (v_lo v) (v_scale v), ext_div (v_hi v) (v_scale v)).
(** [optimize]: optimize.py:93-161.  The result point, the system when [minimize] returns, the recorded trace,
    and the values of [x0] kept for [reject]. [minimize] gets the start point and bounds through [m]. *)
Record result := Result { r_x : list R; r_x0 : list R; r_system : val; r_trace : list (list R * list (list R)) }.
(** optimize.py:93-161 [optimize] *)
Definition optimize (vars : list variable) (ops : list operand) (m : list R -> list (ext * ext) -> minimizer) (s : val) : option result :=
  match vars, ops with
  | [], _ | _, [] => None
  | _, _ =>
    do x0 <- start_values vars s;
    do x1 <- scaled_start vars;
    match collect get_objective 0 ops with
    | [] => None
    | _ => do r <- run vars ops (m x1 (map scaled_bounds vars)) (State s [] []);
           Some (Result (fst r) x0 (st_system (snd r)) (st_trace (snd r)))
    end
  end.
(** [r.accept]: optimize.py:155 *)
Definition accept (vars : list variable) (r : result) : option val := up vars (r_x r) (r_system r).
(** [r.reject]: optimize.py:156 *)
Definition reject (vars : list variable) (r : result) : option val := up vars (r_x0 r) (r_system r).
