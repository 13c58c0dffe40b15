(** * HashModel: __hash__ and the == operator of codes/stabilizer_code.py and codes/color_code.py, as used by sets and dictionaries.
    An array is its list of rows together with the number of bytes of an entry (numpy's dtype: 8 for codes built from strings,
    1 for int8 arrays); entries are 0 or 1. *)
From Coq Require Import List Arith Bool ZArith Lia.
From Verif Require Export StabModel CssModel ColorModel.
Import ListNotations.
Local Open Scope Z_scope.

(** one entry of ndarray.tobytes(); [big] is sys.byteorder == "big", the byte order of the machine *)
Definition entryBytes (big : bool) (bw : nat) (b : bool) : list Z :=
  let l := Z.b2z b :: repeat 0 (bw - 1) in if big then rev l else l.
(** ndarray.tobytes(): row by row *)
Definition tobytes (big : bool) (bw : nat) (m : list vec) : list Z := concat (map (entryBytes big bw) (concat m)).
(** int.from_bytes, least significant byte first, and last *)
Definition from_le (l : list Z) : Z := fold_right (fun b acc => b + 256 * acc) 0 l.
Definition from_bytes (big : bool) (l : list Z) : Z := from_le (if big then rev l else l).
(** hash of a non-negative int in CPython on 64 bits: sys.hash_info.modulus = 2^61-1 *)
Definition pyHashInt (n : Z) : Z := n mod (2 ^ 61 - 1).

(** a code object: the bytes per entry of its generator array (of H for color codes), which __hash__ depends on *)
Inductive cobj := OStab (bw : nat) (c : stabcode) | OColor (bw : nat) (c : colorcode).
(** stabilizer_code.py 75-77: the integer that is hashed *)
Definition stab_key (big : bool) (bw : nat) (c : stabcode) : Z := from_bytes big (tobytes big bw (sc_gens c)).
(** stabilizer_code.py 75-77 and color_code.py 40-42; [hb] is Python's hash of byte strings, different in every process *)
Definition py_hash (big : bool) (hb : list Z -> Z) (o : cobj) : Z :=
  match o with
  | OStab bw c => pyHashInt (stab_key big bw c)
  | OColor bw c => hb (tobytes big bw (nd_rows (cc_H c)))
  end.
(** a == b: stabilizer_code.py 79-86, color_code.py 44-48.  ColorCode is a subclass of StabilizerCode with its own __eq__, which is
    asked first, on either side, and answers NotImplemented for another class; then StabilizerCode.__eq__ of the other operand *)
Definition py_eq (a b : cobj) : py bool :=
  match a, b with
  | OStab _ c1, OStab _ c2 => code_eq c1 c2
  | OColor _ c1, OColor _ c2 => Ret (cc_eq c1 c2)
  | OStab _ c1, OColor _ c2 => code_eq c1 (css_stab (cc_css c2))
  | OColor _ c1, OStab _ c2 => code_eq c2 (css_stab (cc_css c1))
  end.
(** x in s, for a set or the keys of a dictionary: elements with another hash are not compared *)
Fixpoint py_in (big : bool) (hb : list Z -> Z) (x : cobj) (s : list cobj) : py bool :=
  match s with
  | [] => Ret false
  | y :: s' => if (py_hash big hb y =? py_hash big hb x)%Z
               then do e <- py_eq y x; if e then Ret true else py_in big hb x s'
               else py_in big hb x s'
  end.
(** s.add(x) *)
Definition py_add (big : bool) (hb : list Z -> Z) (x : cobj) (s : list cobj) : py (list cobj) :=
  do e <- py_in big hb x s; Ret (if e then s else s ++ [x]).
