(** Model of system reversal: system.py:249-261, elements.py:255-256, 543-547. *)
From Coq Require Import Reals List.
From Verif Require Import Base Vec PlacementModel ElementModel.
Import ListNotations.
Open Scope R_scope.

(** an element together with the [material] attribute that [reverse] attaches to
    plain elements (system.py:258); [None] is both "no attribute" and "None", which
    the [getattr(e, "material", None)] below cannot tell apart *)
Definition relem : Type := element * option material.

(** system.py:254 [getattr(e, "material", None)] *)
Definition material_of (e : relem) : option material :=
  match e_kind (fst e) with Sph m _ => m | Plain => snd e end.

(** elements.py:255-256 and 543-547 [reverse] of a surface *)
Definition reverse_surf (s : surf) : surf :=
  Surf (s_c s * -1) (s_k s) (match s_asph s with None => None | Some a => Some (map Ropp a) end) (s_alt s).

(** system.py:256-258, the loop body *)
Definition reverse_one (e : relem) (d : R) (m : option material) : option relem :=
  do p <- set_distance (e_place (fst e)) d;
  Some (match e_kind (fst e) with
        | Plain => (El p (e_radius (fst e)) Plain, m)
        | Sph _ s => (El p (e_radius (fst e)) (Sph m (reverse_surf s)), snd e)
        end).

(** the loop over i with d[i + 1] and m[i]; lists too short = IndexError *)
Fixpoint reverse_loop (es : list relem) (ds : list R) (ms : list (option material)) : option (list relem) :=
  match es, ds, ms with
  | [], _, _ => Some []
  | e :: es, d :: ds, m :: ms => do e <- reverse_one e d m; do es <- reverse_loop es ds ms; Some (e :: es)
  | _, _, _ => None
  end.

(** system.py:249-261 [reverse], element part *)
Definition reverse (es : list relem) : option (list relem) :=
  let d := map (fun e => p_distance (e_place (fst e))) es ++ [0] in
  let m := None :: map material_of es in
  do es <- reverse_loop es (skipn 1 d) m;
  Some (rev es).

(** the attributes of a system touched (or forgotten) by [reverse]; the conjugates
    are abstract; system.py:249-261 *)
Record system (conj : Type) := System { sy_elements : list relem; sy_stop : nat; sy_object : conj; sy_image : conj }.
Arguments System {conj}. Arguments sy_elements {conj}. Arguments sy_stop {conj}.
Arguments sy_object {conj}. Arguments sy_image {conj}.
(** system.py:249-261 [reverse] *)
Definition system_reverse {conj} (s : system conj) : option (system conj) :=
  do es <- reverse (sy_elements s);
  Some (System es (sy_stop s) (sy_image s) (sy_object s)).
(** system.py:84-86 [aperture]; out of range raises *)
Definition aperture {conj} (s : system conj) : option relem := nth_error (sy_elements s) (sy_stop s).
