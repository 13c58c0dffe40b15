(** * NamedData: the arrays stored in src/mqt/qecc/codes/*/h{x,z}.npy, transcribed by tools/gen_named.py. *)
From Verif Require Import CssModel.

(** a row written as a string of 0s and 1s *)
Definition bv (s : string) : vec := map (fun c => Ascii.eqb c "1") (list_ascii_of_string s).

(** src/mqt/qecc/codes/steane/hx.npy *)
Definition steane_hx : nd := mkNd 7
  [ bv "1100110";
    bv "1010101";
    bv "0001111" ].
(** src/mqt/qecc/codes/steane/hz.npy *)
Definition steane_hz : nd := mkNd 7
  [ bv "1100110";
    bv "1010101";
    bv "0001111" ].
(** src/mqt/qecc/codes/tetrahedral/hx.npy *)
Definition tetrahedral_hx : nd := mkNd 15
  [ bv "111111110000000";
    bv "011011001101100";
    bv "001101100111010";
    bv "000011110001111" ].
(** src/mqt/qecc/codes/tetrahedral/hz.npy *)
Definition tetrahedral_hz : nd := mkNd 15
  [ bv "111100000000000";
    bv "011011000000000";
    bv "001101100000000";
    bv "000011110000000";
    bv "010010001000100";
    bv "001001000101000";
    bv "001100000110000";
    bv "000011000001100";
    bv "000001100001010";
    bv "000000110000011" ].
(** src/mqt/qecc/codes/hamming/hx.npy *)
Definition hamming_hx : nd := mkNd 15
  [ bv "000000011111111";
    bv "000111100001111";
    bv "011001100110011";
    bv "101010101010101" ].
(** src/mqt/qecc/codes/hamming/hz.npy *)
Definition hamming_hz : nd := mkNd 15
  [ bv "000000011111111";
    bv "000111100001111";
    bv "011001100110011";
    bv "101010101010101" ].
(** src/mqt/qecc/codes/shor/hx.npy *)
Definition shor_hx : nd := mkNd 9
  [ bv "111111000";
    bv "111000111" ].
(** src/mqt/qecc/codes/shor/hz.npy *)
Definition shor_hz : nd := mkNd 9
  [ bv "110000000";
    bv "101000000";
    bv "000110000";
    bv "000101000";
    bv "000000110";
    bv "000000101" ].
(** src/mqt/qecc/codes/rotated_surface_d3/hx.npy *)
Definition rotated_surface_d3_hx : nd := mkNd 9
  [ bv "110110000";
    bv "001001000";
    bv "000011011";
    bv "000100100" ].
(** src/mqt/qecc/codes/rotated_surface_d3/hz.npy *)
Definition rotated_surface_d3_hz : nd := mkNd 9
  [ bv "110000000";
    bv "011011000";
    bv "000110110";
    bv "000000011" ].
(** src/mqt/qecc/codes/rotated_surface_d5/hx.npy *)
Definition rotated_surface_d5_hx : nd := mkNd 25
  [ bv "1100000000000000000000000";
    bv "0110001100000000000000000";
    bv "0011000000000000000000000";
    bv "0001100011000000000000000";
    bv "0000011000110000000000000";
    bv "0000000110001100000000000";
    bv "0000000000011000110000000";
    bv "0000000000000110001100000";
    bv "0000000000000001100011000";
    bv "0000000000000000011000110";
    bv "0000000000000000000001100";
    bv "0000000000000000000000011" ].
(** src/mqt/qecc/codes/rotated_surface_d5/hz.npy *)
Definition rotated_surface_d5_hz : nd := mkNd 25
  [ bv "1100011000000000000000000";
    bv "0011000110000000000000000";
    bv "0000100001000000000000000";
    bv "0000010000100000000000000";
    bv "0000001100011000000000000";
    bv "0000000011000110000000000";
    bv "0000000000110001100000000";
    bv "0000000000001100011000000";
    bv "0000000000000010000100000";
    bv "0000000000000001000010000";
    bv "0000000000000000110001100";
    bv "0000000000000000001100011" ].
(** src/mqt/qecc/codes/golay/hx.npy *)
Definition golay_hx : nd := mkNd 23
  [ bv "01001001111100000000001";
    bv "10010011111000000000010";
    bv "01101110001100000000100";
    bv "11011100011000000001000";
    bv "11110001001100000010000";
    bv "10101011100100000100000";
    bv "00011110110100001000000";
    bv "00111101101000010000000";
    bv "01111011010000100000000";
    bv "11110110100001000000000";
    bv "10100100111110000000000" ].
(** src/mqt/qecc/codes/golay/hz.npy *)
Definition golay_hz : nd := mkNd 23
  [ bv "01001001111100000000001";
    bv "10010011111000000000010";
    bv "01101110001100000000100";
    bv "11011100011000000001000";
    bv "11110001001100000010000";
    bv "10101011100100000100000";
    bv "00011110110100001000000";
    bv "00111101101000010000000";
    bv "01111011010000100000000";
    bv "11110110100001000000000";
    bv "10100100111110000000000" ].
(** src/mqt/qecc/codes/carbon/hx.npy *)
Definition carbon_hx : nd := mkNd 12
  [ bv "111000111000";
    bv "001110001110";
    bv "100011100011";
    bv "111111000000";
    bv "000000111111" ].
(** src/mqt/qecc/codes/carbon/hz.npy *)
Definition carbon_hz : nd := mkNd 12
  [ bv "001111010100";
    bv "100010111001";
    bv "111001100010";
    bv "100111001010";
    bv "011000110101" ].
(** src/mqt/qecc/codes/cc_4_8_8_d5/hx.npy *)
Definition cc_4_8_8_d5_hx : nd := mkNd 17
  [ bv "11110000000000000";
    bv "10101100000000000";
    bv "00001100110000000";
    bv "00000011001100000";
    bv "00000000110011000";
    bv "00000000001100110";
    bv "00000001000100011";
    bv "00110110011001100" ].
(** src/mqt/qecc/codes/cc_4_8_8_d5/hz.npy *)
Definition cc_4_8_8_d5_hz : nd := mkNd 17
  [ bv "11110000000000000";
    bv "10101100000000000";
    bv "00001100110000000";
    bv "00000011001100000";
    bv "00000000110011000";
    bv "00000000001100110";
    bv "00000001000100011";
    bv "00110110011001100" ].
