(* Boolean circuits: bit interleaving, parallel prefix adders and carry extraction.
   libspu/core/bit_utils.h, libspu/mpc/utils/circuits.h, libspu/mpc/ab_api.cc *)
From Verif Require Import Base Ring_model.
Open Scope Z_scope.

(* bit_utils.h:24-30.  64-bit count-leading-zeros replaced by Z.log2. *)
Definition log2floor (n : Z) : Z := if n <=? 1 then 0 else Z.log2 n.
Definition log2ceil (n : Z) : Z := if n <=? 1 then 0 else Z.log2 (n - 1) + 1.
(* absl::has_single_bit *)
Definition has_single_bit (n : Z) : bool := (0 <? n) && (2 ^ Z.log2 n =? n).

(* yacl::MakeUint128 *)
Definition u128 (hi lo : Z) : Z := hi * 2 ^ 64 + lo.
(* bit_utils.h:52-68 (the same tables are repeated at circuits.h:166-181) *)
Definition swap_masks : list Z :=
  [ u128 0x2222222222222222 0x2222222222222222; u128 0x0C0C0C0C0C0C0C0C 0x0C0C0C0C0C0C0C0C;
    u128 0x00F000F000F000F0 0x00F000F000F000F0; u128 0x0000FF000000FF00 0x0000FF000000FF00;
    u128 0x00000000FFFF0000 0x00000000FFFF0000; u128 0x0000000000000000 0xFFFFFFFF00000000 ].
Definition keep_masks : list Z :=
  [ u128 0x9999999999999999 0x9999999999999999; u128 0xC3C3C3C3C3C3C3C3 0xC3C3C3C3C3C3C3C3;
    u128 0xF00FF00FF00FF00F 0xF00FF00FF00FF00F; u128 0xFF0000FFFF0000FF 0xFF0000FFFF0000FF;
    u128 0xFFFF00000000FFFF 0xFFFF00000000FFFF; u128 0xFFFFFFFF00000000 0x00000000FFFFFFFF ].

(* bit_utils.h:108-113 and 155-160: one swap level on a k-bit unsigned word; the masks are cast to the word type *)
Definition swap_level (k : Z) (r : Z) (level : nat) : Z :=
  let K := wrap k (nth level keep_masks 0) in
  let M := wrap k (nth level swap_masks 0) in
  let S := 2 ^ Z.of_nat level in
  rxor (rxor (rand_ r K) (rand_ (rshr S r) M)) (rshl k S (rand_ r M)).
(* levels stride, stride+1, ..., Log2Ceil(nbits)-2 *)
Definition levels (stride : nat) (nbits : Z) : list nat :=
  seq stride (Z.to_nat (log2ceil nbits - 1) - stride).
(* bit_utils.h:85-116 BitDeintl; 131-162 BitIntl *)
Definition bit_deintl (k : Z) (stride : nat) (nbits x : Z) : Z := fold_left (swap_level k) (levels stride nbits) x.
Definition bit_intl (k : Z) (stride : nat) (nbits x : Z) : Z := fold_left (swap_level k) (rev (levels stride nbits)) x.

(* ---- circuits.h: circuits over an arbitrary type of words ---- *)
(* circuits.h:30-56 CircuitBasicBlock.  [c_and] carries the number of the call, so that an
   implementation may use different correlated randomness each time; shift lists have one entry. *)
Record cbb (T : Type) := mkCbb {
  c_xor : T -> T -> T;
  c_and : nat -> T -> T -> T;
  c_lsh : T -> Z -> T;
  c_rsh : T -> Z -> T;
  c_init : T -> Z -> T;
  c_setnb : T -> Z -> T }.
Arguments c_xor {T}. Arguments c_and {T}. Arguments c_lsh {T}. Arguments c_rsh {T}.
Arguments c_init {T}. Arguments c_setnb {T}.

(* circuits.h:103-121 kKeepMasks, kSelMask of sklansky *)
Definition skl_keep : list Z :=
  [ u128 0x5555555555555555 0x5555555555555555; u128 0x3333333333333333 0x3333333333333333;
    u128 0x0F0F0F0F0F0F0F0F 0x0F0F0F0F0F0F0F0F; u128 0x00FF00FF00FF00FF 0x00FF00FF00FF00FF;
    u128 0x0000FFFF0000FFFF 0x0000FFFF0000FFFF; u128 0x00000000FFFFFFFF 0x00000000FFFFFFFF;
    u128 0x0000000000000000 0xFFFFFFFFFFFFFFFF ].
Definition skl_sel : list Z :=
  [ u128 0x5555555555555555 0x5555555555555555; u128 0x2222222222222222 0x2222222222222222;
    u128 0x0808080808080808 0x0808080808080808; u128 0x0080008000800080 0x0080008000800080;
    u128 0x0000800000008000 0x0000800000008000; u128 0x0000000080000000 0x0000000080000000;
    u128 0x0000000000000000 0x8000000000000000 ].

Section Circuits.
Variable T : Type.
Variable c : cbb T.

(* circuits.h:68-96.  The two ANDs of a level are one vmap when T is packable; vmap is pointwise (C49). *)
Definition ks_level (pg : T * T) (idx : nat) : T * T :=
  let '(P, G) := pg in
  let offset := 2 ^ Z.of_nat idx in
  let G1 := c_lsh c G offset in
  let P1 := c_lsh c P offset in
  (c_and c (2 * idx + 1) P P1, c_xor c G (c_and c (2 * idx + 2) P G1)).
Definition kogge_stone (lhs rhs : T) (nbits : Z) : T :=
  let P := c_xor c lhs rhs in
  let G := c_and c 0 lhs rhs in
  let '(_, G') := fold_left ks_level (seq 0 (Z.to_nat (log2ceil nbits))) (P, G) in
  c_xor c (c_xor c lhs rhs) (c_lsh c G' 1).

(* circuits.h:98-153 *)
Definition skl_spread (idx : nat) (x : T) : T :=
  fold_left (fun x j => c_xor c x (c_lsh c x (2 ^ Z.of_nat j))) (seq 0 idx) x.
Definition skl_level (pg : T * T) (idx : nat) : T * T :=
  let '(P, G) := pg in
  let s_mask := c_init c G (nth idx skl_sel 0) in
  let G1 := skl_spread idx (c_lsh c (c_and c (4 * idx + 1) G s_mask) 1) in
  let P1 := skl_spread idx (c_lsh c (c_and c (4 * idx + 2) P s_mask) 1) in
  let k_mask := c_init c G (nth idx skl_keep 0) in
  let P1 := c_xor c P1 k_mask in
  (c_and c (4 * idx + 3) P P1, c_xor c G (c_and c (4 * idx + 4) P G1)).
Definition sklansky (lhs rhs : T) (nbits : Z) : T :=
  let P := c_xor c lhs rhs in
  let G := c_and c 0 lhs rhs in
  let '(_, G') := fold_left skl_level (seq 0 (Z.to_nat (log2ceil nbits))) (P, G) in
  c_xor c (c_xor c lhs rhs) (c_lsh c G' 1).

(* circuits.h:155-205.  [t] is the number of AND calls made so far; at most 31 are used. *)
Definition oes_level (t : nat) (r : T) (idx : nat) : T :=
  let keep := c_init c r (nth idx keep_masks 0) in
  let move := c_init c r (nth idx swap_masks 0) in
  let S := 2 ^ Z.of_nat idx in
  c_xor c (c_and c (t + 4 * idx) r keep)
          (c_xor c (c_and c (t + 4 * idx + 1) (c_rsh c r S) move)
                   (c_lsh c (c_and c (t + 4 * idx + 2) r move) S)).
Definition odd_even_split (t : nat) (v : T) (nbits : Z) : T :=
  let r := c_lsh c v 0 in
  let r := fold_left (oes_level t) (seq 0 (Z.to_nat (log2ceil nbits - 1))) r in
  if has_single_bit nbits then r
  else
    let mask := c_init c r (2 ^ (nbits / 2) - 1) in
    c_xor c (c_lsh c (c_rsh c r (2 ^ log2floor nbits)) (nbits / 2)) (c_and c (t + 30) r mask).

(* circuits.h:225-238 the lambda bit_split (the ENFORCE kk % 2 == 0 && kk <= 128 holds at both call sites) *)
Definition bit_split (t : nat) (x : T) (kk : Z) : T * T :=
  let hk := kk / 2 in
  let perm := odd_even_split t x kk in
  let mask := c_init c perm (2 ^ hk - 1) in
  let t0 := c_and c (t + 40) perm mask in
  let t1 := c_and c (t + 41) (c_rsh c perm hk) mask in
  (c_setnb c t0 hk, c_setnb c t1 hk).
(* circuits.h:249-271 the loop; the fuel is never exhausted (carry_out_spec) *)
Fixpoint carry_loop (fuel t : nat) (P G : T) (k : Z) : T :=
  match fuel with
  | O => G
  | S f =>
      if k <=? 1 then G
      else
        let '(k, P, G) := if k mod 2 =? 0 then (k, P, G) else (k + 1, c_lsh c P 1, c_lsh c G 1) in
        let '(P0, P1) := bit_split t P k in
        let '(G0, G1) := bit_split (t + 50) G k in
        let P' := c_and c (t + 100) P1 P0 in
        let G' := c_xor c G1 (c_and c (t + 101) P1 G0) in
        carry_loop f (t + 110) P' G' (k / 2)
  end.
(* circuits.h:220-274 *)
Definition carry_out (x y : T) (nbits : Z) : res T :=
  if nbits =? 0 then Err
  else
    let P := c_xor c x y in
    let G := c_and c 0 x y in
    if nbits =? 1 then Ok (c_and c 1 G (c_init c G 1))
    else Ok (carry_loop (Z.to_nat nbits) 2 P G nbits).
End Circuits.

(* ---- ab_api.cc: circuits over boolean shares that carry a bit count ---- *)
Record bops (T : Type) := mkBops {
  b_nb : T -> Z;                          (* ab_api.cc:220-222 numBits *)
  b_setnb : T -> Z -> T;                  (* ab_api.cc:224-228 setNumBits *)
  b_xor : T -> T -> T;                    (* xor_bb *)
  b_and : nat -> T -> T -> res T;         (* and_bb; the first argument numbers the call *)
  b_andp : T -> Z -> T;                   (* and_bp with hack_make_p of a constant *)
  b_lsh : T -> Z -> T;
  b_rsh : T -> Z -> T;
  b_deintl : T -> nat -> res T }.         (* bitdeintl_b kernel *)
Arguments b_nb {T}. Arguments b_setnb {T}. Arguments b_xor {T}. Arguments b_and {T}. Arguments b_andp {T}.
Arguments b_lsh {T}. Arguments b_rsh {T}. Arguments b_deintl {T}.

Section ABCircuits.
Variable T : Type.
Variable b : bops T.

(* ab_api.cc:235-264, 266-293: the default bodies of bitintl_b and bitdeintl_b *)
Definition b_swap_level (r : T) (level : nat) : T :=
  let K := nth level keep_masks 0 in
  let M := nth level swap_masks 0 in
  let S := 2 ^ Z.of_nat level in
  b_xor b (b_xor b (b_andp b r K) (b_andp b (b_rsh b r S) M)) (b_lsh b (b_andp b r M) S).
Definition bitdeintl_default (x : T) (stride : nat) : res T :=
  let nbits := b_nb b x in
  if has_single_bit nbits then Ok (b_setnb b (fold_left b_swap_level (levels stride nbits) x) nbits) else Err.
Definition bitintl_default (x : T) (stride : nat) : res T :=
  let nbits := b_nb b x in
  if has_single_bit nbits then Ok (b_setnb b (fold_left b_swap_level (rev (levels stride nbits)) x) nbits) else Err.

(* vectorize.h vmap of and_bb over two pairs: pack requires equal storage types (value.h:108-132),
   i.e. equal bit counts, then one and_bb call works elementwise *)
Definition vand2 (t : nat) (x1 x2 y1 y2 : T) : res (T * T) :=
  if (b_nb b x1 =? b_nb b x2) && (b_nb b y1 =? b_nb b y2) then
    rbind (b_and b t x1 y1) (fun r1 => rbind (b_and b (S t) x2 y2) (fun r2 => Ok (r1, r2)))
  else Err.

(* ab_api.cc:314-337 *)
Fixpoint ppa_levels (t : nat) (idxs : list nat) (P G : T) : res T :=
  match idxs with
  | [] => Ok G
  | idx :: rest =>
      let offset := 2 ^ Z.of_nat idx in
      let G1 := b_lsh b G offset in
      let P1 := b_lsh b P offset in
      rbind (vand2 (t + 2 * idx + 1) P P P1 G1) (fun '(P', R) => ppa_levels t rest P' (b_xor b G R))
  end.
Definition ppa_kogge_stone (t : nat) (lhs rhs : T) (nbits : Z) : res T :=
  let P := b_xor b lhs rhs in
  rbind (b_and b t lhs rhs) (fun G =>
  rbind (ppa_levels t (seq 0 (Z.to_nat (log2ceil nbits))) P G) (fun G' =>
  Ok (b_xor b (b_xor b lhs rhs) (b_lsh b G' 1)))).
(* ab_api.cc:425-448 add_bb without a protocol kernel: always Kogge-Stone.
   ppa_sklansky (365-421) is never selected and is not modelled. *)
Definition add_bb (t : nat) (x y : T) : res T :=
  if b_nb b x =? b_nb b y then ppa_kogge_stone t x y (b_nb b x) else Err.

(* ab_api.cc:339-351 *)
Definition bit_scatter (x : T) (stride : nat) : res (T * T) :=
  let nbits := b_nb b x in
  if has_single_bit nbits then
    rbind (b_deintl b x stride) (fun out =>
    Ok (b_rsh b out (nbits / 2), b_andp b out (2 ^ (nbits / 2) - 1)))
  else Err.
(* ab_api.cc:450-482; Err on exhausted fuel, which does not happen (carry_a2b_ok) *)
Fixpoint carry_a2b_loop (fuel t : nat) (P G : T) (k : Z) : res T :=
  if k <=? 1 then Ok G
  else match fuel with
  | O => Err
  | S f =>
        let '(k, P, G) := if k mod 2 =? 0 then (k, P, G) else (k + 1, b_lsh b P 1, b_lsh b G 1) in
        rbind (bit_scatter P 0) (fun '(P1, P0) =>
        rbind (bit_scatter G 0) (fun '(G1, G0) =>
        rbind (vand2 t P0 G0 P1 P1) (fun '(P', R) =>
        carry_a2b_loop f (t + 2) P' (b_xor b G1 R) (k / 2))))
  end.
Definition carry_a2b (t : nat) (x y : T) (k : Z) : res T :=
  let P := b_xor b x y in
  rbind (b_and b t x y) (fun G => carry_a2b_loop (Z.to_nat k) (S t) P G k).
End ABCircuits.
