(* Model of the block cipher used for oblivious pseudo-random functions:
     src/libspu/mpc/utils/lowmc_utils.cc, src/libspu/mpc/utils/lowmc.cc (plaintext cipher)
     src/libspu/mpc/semi2k/lowmc.cc (cipher on xor shares)
   One element of the arrays (the loops are element-wise); a k-bit block is an integer, k = 2^lg with lg = 5, 6, 7; a binary matrix
   is the list of its rows.  The size checks of the code are hypotheses of the theorems.  The public matrices and constants are
   arguments: their generation from the seed (fill_matrixes, rank_of_matrix, invert_matrix) is not modelled. *)
From Verif Require Import Base Ring_model Semi_model.
Open Scope Z_scope.

(* lowmc_utils.cc:24-36 bit_parity on a type of 2^lg bits *)
Fixpoint fold_half (lg : nat) (x : Z) : Z := match lg with O => x | S l => fold_half l (Z.lxor x (Z.shiftr x (2 ^ Z.of_nat l))) end.
Definition bit_parity (lg : nat) (x : Z) : Z := Z.land (fold_half lg x) 1.
(* lowmc_utils.cc:40-81 dot_product_gf2: rows of 2^lg bits *)
Fixpoint dot_from (lg : nat) (i : Z) (rows : list Z) (y out : Z) : Z :=
  match rows with [] => out | r :: rows' => dot_from lg (i + 1) rows' y (Z.lor out (Z.shiftl (bit_parity lg (Z.land y r)) i)) end.
Definition dot_gf2 (lg : nat) (rows : list Z) (y : Z) : Z := dot_from lg 0 rows y 0.
(* lowmc_utils.cc:83-101 generate_round_keys: the key matrices have 128-bit rows *)
Definition round_key (mat : list Z) (key : Z) : Z := dot_gf2 7 mat key.

(* the public data of one round: linear matrix, constant, key matrix *)
Record rnd := mkRnd { lin : list Z; cst : Z; kmat : list Z }.

Section Cipher.
Variable lg : nat.                      (* block of 2^lg bits *)
Definition width : Z := 2 ^ Z.of_nat lg.
Variable nbox : nat.                    (* number_of_boxes_ *)

(* lowmc.h:126-129 *)
Definition sbox_tab : list Z := [0; 1; 3; 6; 7; 4; 5; 2].
Definition inv_sbox_tab : list Z := [0; 1; 7; 2; 5; 6; 3; 4].
(* lowmc.cc:276-303 Substitution: i is the number of boxes left *)
Fixpoint subst_loop (tab : list Z) (x : Z) (left : nat) (tmp : Z) : Z :=
  match left with
  | O => tmp
  | S l => subst_loop tab x l (Z.lxor (wrap width (Z.shiftl tmp 3)) (nth (Z.to_nat (Z.land (Z.shiftr x (3 * Z.of_nat l)) 7)) tab 0))
  end.
Definition substitution (tab : list Z) (x : Z) : Z := subst_loop tab x nbox (Z.shiftr x (3 * Z.of_nat nbox)).
(* lowmc.cc:228-251 encrypt *)
Definition encrypt_round (key : Z) (c : Z) (r : rnd) : Z :=
  Z.lxor (Z.lxor (dot_gf2 lg (lin r) (substitution sbox_tab c)) (cst r)) (round_key (kmat r) key).
Definition encrypt (kmat0 : list Z) (rs : list rnd) (key x : Z) : Z :=
  fold_left (encrypt_round key) rs (Z.lxor x (round_key kmat0 key)).
(* lowmc.cc:253-272 decrypt; [inv r] is the inverse matrix kept for the round *)
Definition decrypt_round (inv : rnd -> list Z) (key : Z) (c : Z) (r : rnd) : Z :=
  substitution inv_sbox_tab (dot_gf2 lg (inv r) (Z.lxor (Z.lxor c (round_key (kmat r) key)) (cst r))).
Definition decrypt (inv : rnd -> list Z) (kmat0 : list Z) (rs : list rnd) (key c : Z) : Z :=
  Z.lxor (fold_left (decrypt_round inv key) (rev rs) c) (round_key kmat0 key).

(* ---- semi2k/lowmc.cc, the data of one party ---- *)
(* 94-125 construct_concat_arr, box i *)
Definition abc_of (x : Z) (i : nat) : Z := Z.land (Z.shiftr x (3 * Z.of_nat i)) 7.
Definition bca_of (x : Z) (i : nat) : Z :=
  Z.lor (Z.shiftl (Z.land (Z.shiftr x (3 * Z.of_nat i)) 3) 1) (Z.land (Z.shiftr x (3 * Z.of_nat i + 2)) 1).
(* 48-64 extract_bit_arr; 67-91 extract_packed_bit_arr *)
Definition extract_bit (x : Z) (j : Z) : Z := Z.land (Z.shiftr x j) 1.
Definition packed_bit (x : Z) (i : nat) (off : Z) : Z := Z.land (Z.shiftr x (3 * Z.of_nat i + off)) 1.
(* 146-218 Sbox of one party: x its share, W i its share of the product for box i (167) *)
Definition sbox_bit (x : Z) (W : nat -> Z) (t : nat) : Z :=
  let i := (t / 3)%nat in
  let xo := xor_bb (abc_of x i) (bca_of x i) in
  let a := packed_bit x i 2 in
  match (t mod 3)%nat with
  | 0%nat => xor_bb (xor_bb (extract_bit xo 1) a) (extract_bit (W i) 2)
  | 1%nat => xor_bb (extract_bit xo 2) (extract_bit (W i) 0)
  | _ => xor_bb a (extract_bit (W i) 1)
  end.
Fixpoint collect (x : Z) (W : nat -> Z) (t : nat) : Z :=
  match t with O => 0 | S t' => Z.lor (collect x W t') (Z.shiftl (Z.land (sbox_bit x W t') 1) (Z.of_nat t')) end.
Definition sbox_local (x : Z) (W : nat -> Z) : Z :=
  Z.lor (collect x W (3 * nbox)) (Z.shiftl (Z.shiftr x (3 * Z.of_nat nbox)) (3 * Z.of_nat nbox)).

(* ---- semi2k/lowmc.cc, all parties ---- *)
(* the shares of one and-gate on 3-bit values (AndBB, in the storage type PT_U8) from the Beaver triple number t *)
Variable n : nat.
Variable T : nat -> (nat -> Z) * (nat -> Z) * (nat -> Z).
Definition and3 (t : nat) (X Y : nat -> Z) : nat -> Z := let '(A, B, C) := T t in and_bb_all 8 n X Y A B C.
(* 146-218 Sbox, all parties: box i takes the triple t + i *)
Definition sbox_shared (t : nat) (X : nat -> Z) : nat -> Z := fun p =>
  sbox_local (X p) (fun i => and3 (t + i) (fun q => abc_of (X q) i) (fun q => bca_of (X q) i) p).
(* 244-294 LowMcB::encrypt: keys p is the private key drawn by party p *)
Definition shared_round (keys : nat -> Z) (tX : nat * (nat -> Z)) (r : rnd) : nat * (nat -> Z) :=
  let '(t, X) := tX in
  let S := sbox_shared t X in
  let L := fun p => dot_gf2 lg (lin r) (S p) in
  let C := fun p => xor_bp p (L p) (cst r) in
  ((t + nbox)%nat, fun p => xor_bb (C p) (round_key (kmat r) (keys p))).
Definition lowmc_b (kmat0 : list Z) (rs : list rnd) (keys : nat -> Z) (X : nat -> Z) : nat -> Z :=
  snd (fold_left (shared_round keys) rs (O, fun p => xor_bb (X p) (round_key kmat0 (keys p)))).
End Cipher.

(* semi2k/lowmc.cc:312-341 concate_bits: inputs of k bits; local at every party *)
Fixpoint concat_bits (k i : Z) (xs : list Z) (ret : Z) : Z :=
  match xs with [] => ret | x :: r => concat_bits k (i + 1) r (Z.lor ret (Z.shiftl x (k * i))) end.
(* semi2k/lowmc.cc:377-388 the re-mapping to 128 bits: one public matrix of 128 rows per input; local at every party *)
Fixpoint remap (lg : nat) (ms : list (list Z)) (xs : list Z) (acc : Z) : Z :=
  match ms, xs with m :: ms', x :: xs' => remap lg ms' xs' (Z.lxor acc (dot_gf2 lg m x)) | _, _ => acc end.
