(** Curves of the analysis plots, from the traced rays: rayopt/analysis.py:237-245 [transverse], :258-278 [spots],
    :370-407 [longitudinal] and rayopt/geometric_trace.py:217-229 [rays_line].  The axes and line styles of matplotlib
    are not modelled.  A ray is its launch point and direction and, where it arrives, its landing point and incoming
    direction at the last element; rays that do not arrive are [None] there (NaN). *)
From Coq Require Import String Reals List.
From Verif Require Import Base Vec PupilModel SampleModel RefocusModel.
Import ListNotations.
Open Scope R_scope.

(** what analysis.py:237-239 and :273-274 read of one traced ray: start, start direction, end *)
Record bundle_ray := BRay { br_y0 : vec; br_u0 : vec; br_end : option (vec * vec) }.

(** analysis.py:237: [t.y[-1, :, :2] - t.y[-1, t.ref, :2]] of a ray; [None] is NaN *)
Definition landing (ref r : bundle_ray) : option (R * R) :=
  do e <- br_end r; do f <- br_end ref; Some (vx (fst e) - vx (fst f), vy (fst e) - vy (fst f)).
(** line 238: [t.y[0, :, :2] + p*tanarcsin(t.u[0])] *)
Definition at_pupil (p : R) (r : bundle_ray) : option (R * R) :=
  do t <- slope (br_u0 r); Some (vx (br_y0 r) + p * fst t, vy (br_y0 r) + p * snd t).
(** line 239: [py -= py[t.ref]] *)
Definition pupil_position (p : R) (ref r : bundle_ray) : option (R * R) :=
  do a <- at_pupil p r; do b <- at_pupil p ref; Some (fst a - fst b, snd a - snd b).
(** one coordinate of a plotted point: analysis.py:240-245 *)
Definition oproj (f : R * R -> R) (a : option (R * R)) : option R := do a <- a; Some (f a).
(** lines 240-245: the points of the three curves, meridional, sagittal (meridional error) and sagittal; [None]: index
    error *)
Definition transverse (p : R) (rays : list bundle_ray) (ref : nat)
  : option (list (option R * option R) * list (option R * option R) * list (option R * option R)) :=
  do r0 <- nth_error rays ref;
  let pt f g r := (oproj f (pupil_position p r0 r), oproj g (landing r0 r)) in
  Some (map (pt snd snd) (firstn ref rays), map (pt fst snd) (skipn ref rays), map (pt fst fst) (skipn ref rays)).

(** analysis.py:258-259: [(np.arange(nd) - nd//2)*z] *)
Definition planes (nd : nat) (z : R) : list R := map (fun k => (INR k - INR (Nat.div nd 2)) * z) (seq 0 nd).
(** lines 273-278: [y + zi*tanarcsin(t.i[-1])] of a ray *)
Definition spot (zi : R) (ref r : bundle_ray) : option (R * R) :=
  do y <- landing ref r; do e <- br_end r; do u <- slope (snd e);
  Some (fst y + zi * fst u, snd y + zi * snd u).

(** geometric_trace.py:217-229: field point of row [i], pupil coordinates of the chief, the meridional and the sagittal
    ray; [aim y z e] stands for [aim_chief] and [aim]: the position of the pupil found for the previous row is the start
    value for the next; the result is [reshape(-1, 3)] of the (3, nrays) array of rays *)
Fixpoint line_rows {A Z : Type} (aim : R * R -> Z -> R * R -> A) (chief : R * R -> Z -> Z) (eps : R) (z : Z) (ys : list (R * R))
  : list (A * A * A) :=
  match ys with
  | [] => []
  | y :: ys => let z := chief y z in
      (aim y z (0, 0), aim y z (0, eps), aim y z (eps, 0)) :: line_rows aim chief eps z ys
  end.
(** geometric_trace.py:217-229 [rays_line] *)
Definition rays_line {A Z : Type} (aim : R * R -> Z -> R * R -> A) (chief : R * R -> Z -> Z) (yo : R * R) (nrays : nat)
  (eps : R) (z : Z) : list A :=
  let rows := line_rows aim chief eps z (map (fun s => (s * fst yo, s * snd yo)) (linspace 0 1 nrays)) in
  map (fun r => fst (fst r)) rows ++ map (fun r => snd (fst r)) rows ++ map snd rows.
(** analysis.py:375-376: [np.split(..., (nrays, 2*nrays))] *)
Definition split3 {A : Type} (nrays : nat) (l : list A) : list A * list A * list A :=
  (firstn nrays l, firstn nrays (skipn nrays l), skipn (2 * nrays) l).

(** lines 370-371: the heights of the ideal image, the first one replaced by NaN *)
Definition ideal_heights (height radius : R) (nrays : nat) : list (option R) :=
  match map Some (linspace 0 (height * radius) nrays) with [] => [] | _ :: l => None :: l end.
(** line 378: [(a[1] - h)/h] *)
Definition distortion (a : vec) (h : R) : option R := fdiv (vy a - h) h.
(** line 383: [a[1] - a0[1]] *)
Definition lateral_colour (a a0 : vec) : R := vy a - vy a0.
(** line 384: [-(b[1]-a[1])/(q[1]-p[1])], landing points [a], [b] with incoming directions [i], [j] *)
Definition tangential_focus (a i b j : vec) : option R :=
  do p <- slope i; do q <- slope j; fdiv (- (vy b - vy a)) (snd q - snd p).
(** line 386: [-(c[0]-a[0])/(r[0]-p[0])] *)
Definition sagittal_focus (a i c j : vec) : option R :=
  do p <- slope i; do r <- slope j; fdiv (- (vx c - vx a)) (fst r - fst p).
(** lines 392-395: [-t.y[-1, :, 1]/tanarcsin(t.i[-1])[:, 1]]; the reference ray is NaN *)
Definition axial_focus (a i : vec) : option R := do u <- slope i; fdiv (- vy a) (snd u).
(** line 406: [-t.y[-1, 0, 1]/tanarcsin(t.i[-1, 0])[1]]: a single direction is not two dimensional, tanarcsin works on
    each component by itself *)
Definition colour_focus (a i : vec) : option R := do u <- tanarcsin (vy i); fdiv (- vy a) u.
(** lines 399-407: the shifts of the foci of the other wavelengths against the first *)
Definition colour_shift (foci : list (option R)) : list (option R) :=
  match foci with
  | [] => []
  | z0 :: zs => map (fun z => do z <- z; do z0 <- z0; Some (z - z0)) zs
  end.

(** analysis.py:40-60: the options; [run] is bound twice in the class body, the method (line 76) replaces the default
    [True] (line 42).  Objects have the further attributes [system], [text], [figures] and the methods *)
Definition options : list string :=
  ["figwidth"; "run"; "update"; "print"; "trace_gaussian"; "print_gaussian"; "print_system"; "print_paraxial"; "resize_full";
   "refocus_full"; "print_full"; "plot_paraxial"; "plot_gaussian"; "plot_full"; "plot_rays"; "plot_transverse"; "plot_spots";
   "defocus"; "plot_opds"; "plot_longitudinal"]%string.
(** analysis.py:62-410: the methods of [Analysis] and the attributes set in [__init__] before the test *)
Definition other_attributes : list string :=
  ["system"; "text"; "figures"; "setup_axes"; "post_setup_axes"; "pre_setup_fanplot"; "pre_setup_xyplot"; "transverse"; "spots";
   "opds"; "longitudinal"]%string.
(** analysis.py:67 [hasattr(self, k)] *)
Definition has_attribute (k : string) : bool := existsb (String.eqb k) (options ++ other_attributes).
(** value of the attribute [run] of the object: the method, or what an option put in front of it; only the truth of
    other values matters, they are not callable; analysis.py:70-71 *)
Inductive run_value := Method | Value (true_value : bool).
(** analysis.py:66-71: how the constructor ends *)
Inductive outcome := NoOption (k : string) | NotCallable | Ran (run : bool).
(** lines 62-73 [__init__] up to the printing; attributes of [object] are left out *)
Fixpoint analysis_init (run : run_value) (kwargs : list (string * bool)) : outcome :=
  match kwargs with
  | [] => match run with Method => Ran true | Value true => NotCallable | Value false => Ran false end
  | (k, v) :: kwargs =>
      if has_attribute k then analysis_init (if String.eqb k "run" then Value v else run) kwargs else NoOption k
  end.
