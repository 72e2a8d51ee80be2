(** Reader of binary lens catalogs and the description cipher (rayopt/zemax.py:40-87).
    Bytes are integers; file positions are the remaining bytes. *)
From Coq Require Import List Arith ZArith Reals Lia Bool.
Import ListNotations.
Open Scope Z_scope.

(** a value of [np.uint8]: zemax.py:85 *)
Definition byte_ok (b : Z) : Prop := 0 <= b < 256.

Section Oracles.
(** the nine decimal digits of the mantissa in [f"{x:.8e}"] as an integer (float formatting) *)
Variable mantissa : R -> Z.
(** the number stored in eight bytes ([d] of struct) *)
Variable double : list Z -> R.

(** [int(f"{x:.8e}"[4:7])]: zemax.py:92.  Characters 4 to 6 are the digits 3..5 after the
    leading one, or 2..4 if there is a minus sign; as uint8 (numpy wraps) *)
Definition key_byte (x : R) : Z :=
  (if Rlt_dec x 0 then mantissa x / 10 ^ 4 mod 1000 else mantissa x / 10 ^ 3 mod 1000) mod 256.
(** zemax.py:88-91; the position [p] starts at 0 *)
Definition keystream (a b : R) (p : nat) : Z :=
  let iv := cos (6 * a + 3 * b) in
  let iv := (cos (655 * (PI / 180) * iv) + iv)%R in
  key_byte (132 / 10 * (iv + sin (17 * (INR p + 3))) * (INR p + 1))%R.
(** [zmf_obfuscate]: zemax.py:79-87 *)
Fixpoint xor_from (p : nat) (data : list Z) (a b : R) : list Z :=
  match data with [] => [] | d :: data => Z.lxor d (keystream a b p) :: xor_from (S p) data a b end.
(** zemax.py:79-87 [zmf_obfuscate] *)
Definition zmf_obfuscate (data : list Z) (a b : R) : list Z := xor_from 0 data a b.

(** [f.read(n)]; zemax.py:49, 54, 69 *)
Definition read (n : nat) (f : list Z) : list Z * list Z := (firstn n f, skipn n f).
(** one [I] of struct, little endian; zemax.py:46-47 *)
Definition u32 (l : list Z) : Z := match l with [a; b; c; d] => a + 256 * (b + 256 * (c + 256 * d)) | _ => 0 end.
(** one integer of the unpacked record: zemax.py:59-66 *)
Definition field (f : list Z) (pos : nat) : Z := u32 (firstn 4 (skipn pos f)).

(** [strip("\0")] *)
Fixpoint lstrip (l : list Z) : list Z := match l with 0 :: l => lstrip l | l => l end.
(** [strip("\0")]: zemax.py:60 *)
Definition strip (l : list Z) : list Z := rev (lstrip (rev (lstrip l))).

(** decimal digits as characters; [f"{n:06d}"] *)
Fixpoint digits (fuel : nat) (n : Z) : list Z :=
  match fuel with
  | O => []
  | S fuel => if n <? 10 then [48 + n] else digits fuel (n / 10) ++ [48 + n mod 10]
  end.
(** [f"{l.version:06d}"]: zemax.py:73 *)
Definition dec6 (n : Z) : list Z := let d := digits 20 n in repeat 48 (6 - length d) ++ d.
(** "VERS %06d\n" *)
Definition vers (n : Z) : list Z := [86; 69; 82; 83; 32] ++ dec6 n ++ [10].
(** zemax.py:73 *)
Fixpoint startswith (l p : list Z) {struct p} : bool :=
  match p, l with [], _ => true | a :: p, b :: l => (a =? b) && startswith l p | _ :: _, [] => false end.

(** attributes of a [Lens] set by the reader; [l_efl], [l_enp] as stored bytes; zemax.py:60-74 *)
Record lens := Lens { l_name : list Z; l_version : Z; l_elements : Z; l_shape : Z; l_aspheric : Z; l_grin : Z;
  l_toroidal : Z; l_efl : list Z; l_enp : list Z; l_data : list Z }.

(** one turn of the loop, zemax.py:54-83 for the record [li] (144 bytes, layout
    [<100sIIIIIIIdd]) and the rest of the file.  [None]: IndexError of [shapes] or an assertion. *)
Definition read_lens (li f : list Z) : option (lens * list Z) :=
  let shape := field li 108 in
  if negb (shape <? 5) then None else (* shapes = "?EBPM" *)
  let n := Z.to_nat (field li 124) in
  let efl := firstn 8 (skipn 128 li) in let enp := firstn 8 (skipn 136 li) in
  let version := field li 100 in
  let '(description, f) := read n f in
  if negb (length description =? n)%nat then None else
  let description := zmf_obfuscate description (double efl) (double enp) in
  if negb (startswith description (vers version)) then None else
  Some (Lens (strip (firstn 100 li)) version (field li 104) shape (field li 112) (field li 116) (field li 120) efl enp description, f).

(** the loop; every turn consumes at least 144 bytes, so the length of the file is enough fuel *)
Fixpoint read_lenses (fuel : nat) (f : list Z) : option (list lens) :=
  match fuel with
  | O => Some []
  | S fuel =>
      let '(li, f) := read 144 f in
      if negb (length li =? 144)%nat then Some [] else
      match read_lens li f with
      | None => None
      | Some (l, f) => match read_lenses fuel f with None => None | Some ls => Some (l :: ls) end
      end
  end.
(** [zmf_read]: zemax.py:40-76 without the catalog attributes; a file shorter than four bytes is a struct.error *)
Definition zmf_read (file : list Z) : option (Z * list lens) :=
  let '(h, f) := read 4 file in
  if negb (length h =? 4)%nat then None else
  if negb (u32 h =? 1001) then None else
  match read_lenses (length file) f with None => None | Some ls => Some (u32 h, ls) end.
End Oracles.
