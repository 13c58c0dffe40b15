(* Model of the settings helpers of src/mqt/qecc/analog_information_decoding/utils/data_utils.py: BpParams.from_dict,
   extract_settings, product_dict, zip_dict.  A dictionary is a list of (key, value) with distinct keys, in insertion order;
   values are of any type V with Python's == as a decidable equality. *)
From Coq Require Import List String Arith Bool.
Import ListNotations.
Local Open Scope string_scope.

Section Settings.
Context {V : Type}.
Definition pdict (A : Type) := list (string * A).
Fixpoint dget {A} (k : string) (d : pdict A) : option A :=
  match d with [] => None | (k', v) :: r => if String.eqb k k' then Some v else dget k r end.
Fixpoint dset {A} (k : string) (v : A) (d : pdict A) : pdict A :=
  match d with [] => [(k, v)] | (k', w) :: r => if String.eqb k k' then (k, v) :: r else (k', w) :: dset k v r end.

(* itertools.product: the last factor varies fastest; without factors there is one empty tuple *)
Fixpoint product (vals : list (list V)) : list (list V) :=
  match vals with [] => [[]] | v :: r => flat_map (fun x => map (cons x) (product r)) v end.
(* data_utils.py:184-192 product_dict: dict(zip(keys, instance)); the keys of kwargs are distinct *)
Definition product_dict (kw : pdict (list V)) : list (pdict V) := map (combine (map fst kw)) (product (map snd kw)).

(* zip of two lists, and of any number of them; zip() without arguments is empty *)
Fixpoint zip_cons (v : list V) (r : list (list V)) : list (list V) :=
  match v, r with x :: v', t :: r' => (x :: t) :: zip_cons v' r' | _, _ => [] end.
Fixpoint zip_ne (v : list V) (r : list (list V)) : list (list V) :=
  match r with [] => map (fun x => [x]) v | w :: r' => zip_cons v (zip_ne w r') end.
Definition zip (vals : list (list V)) : list (list V) := match vals with [] => [] | v :: r => zip_ne v r end.
(* data_utils.py:195-197 zip_dict *)
Definition zip_dict (kw : pdict (list V)) : list (pdict V) := map (combine (map fst kw)) (zip (map snd kw)).

Context (veq : forall a b : V, {a = b} + {a <> b}).
(* data_utils.py:44-49: one keyword of one line *)
Definition add_setting (acc : pdict (list V)) (kv : string * V) : pdict (list V) :=
  let acc := match dget (fst kv) acc with None => (acc ++ [(fst kv, [])])%list | Some _ => acc end in
  match dget (fst kv) acc with
  | Some l => if in_dec veq (snd kv) l then acc else dset (fst kv) (l ++ [snd kv])%list acc
  | None => acc                                              (* not reached *)
  end.
(* data_utils.py:38-51 extract_settings, on the decoded lines of the file *)
Definition extract_settings (lines : list (pdict V)) : pdict (list V) := fold_left (fun acc line => fold_left add_setting line acc) lines [].

(* data_utils.py:17-35 BpParams and from_dict: the keyword arguments that are fields, the default for the others *)
Definition from_dict (defaults : pdict V) (d : pdict V) : pdict V :=
  let kwargs := filter (fun kv => existsb (String.eqb (fst kv)) (map fst defaults)) d in
  map (fun f => (fst f, match dget (fst f) kwargs with Some v => v | None => snd f end)) defaults.
End Settings.
