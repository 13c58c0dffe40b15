(** * NamedModel: CSSCode.from_code_name (codes/css_code.py:160-220) *)
From Coq Require Import DecimalString.
From Verif Require Export CssModel NamedData.

(** str.lower() on ASCII characters (non-ASCII characters are not modelled) *)
Definition lower_char (c : ascii) : ascii :=
  let k := nat_of_ascii c in if (65 <=? k) && (k <=? 90) then ascii_of_nat (k + 32) else c.
Definition lower (s : pystr) : pystr := map lower_char s.

(** f"{distance}" for an int *)
Definition int_str (z : Z) : pystr := list_ascii_of_string (NilEmpty.string_of_int (Z.to_int z)).

(** css_code.py:183-192 together with the files under each path *)
Definition paths : list (pystr * (nd * nd)) := [
  (str "steane", (steane_hx, steane_hz)); (str "tetrahedral", (tetrahedral_hx, tetrahedral_hz));
  (str "hamming", (hamming_hx, hamming_hz)); (str "shor", (shor_hx, shor_hz));
  (str "surface_3", (rotated_surface_d3_hx, rotated_surface_d3_hz)); (str "surface_5", (rotated_surface_d5_hx, rotated_surface_d5_hz));
  (str "golay", (golay_hx, golay_hz)); (str "carbon", (carbon_hx, carbon_hz)) ].
(** css_code.py:194-203 *)
Definition distances : list (pystr * (Z * Z)) := [
  (str "steane", (3, 3)); (str "tetrahedral", (7, 3)); (str "hamming", (3, 3)); (str "shor", (3, 3));
  (str "golay", (7, 7)); (str "surface_3", (3, 3)); (str "surface_5", (5, 5)); (str "carbon", (4, 4)) ]%Z.

Definition str_eqb (a b : pystr) : bool := if list_eq_dec ascii_dec a b then true else false.
Fixpoint lookup {A} (k : pystr) (d : list (pystr * A)) : option A :=
  match d with [] => None | (k', v) :: d' => if str_eqb k k' then Some v else lookup k d' end.

(** css_code.py:205-209 *)
Definition resolve_name (code_name : pystr) (distance : option Z) : pystr :=
  let nm := lower code_name in
  if str_eqb nm (str "surface") then
    nm ++ str "_" ++ int_str (match distance with None => 3%Z | Some d => d end)
  else nm.

(** css_code.py:160-220 *)
Definition from_code_name (L : ldpc) (code_name : pystr) (distance : option Z) : py css :=
  let nm := resolve_name code_name distance in
  match lookup nm paths with
  | Some (hx, hz) =>
      match lookup nm distances with
      | Some (xd, zd) => CSSCode L (Z.min xd zd) (Some hx) (Some hz) (Some xd) (Some zd)
      | None => Raise InvalidCSSCodeError   (* 215-217, then 219 *)
      end
  | None => Raise InvalidCSSCodeError
  end.
