(* C19, C20: adder circuits, carry circuits and bit (de)interleaving. *)
From Verif Require Import Base Ring_model Ring_spec Circ_model Circ_spec Circ_proof Circc_proof Circr_proof.
From Verif Require Import Share_spec Party Semi_model Conv_model Conv_spec Conv_proof.
Open Scope Z_scope.

(* ---------------- C19 ---------------- *)
(* [implements k c R]: c's xor, and, shifts and constants act on representations (R a x: a represents
   the k-bit word x) as the bitwise operations do on words.  The circuits then add, whatever the
   representation (plain words, shares, ...). *)
Theorem C19_kogge_stone T (w : nat) (c : cbb T) R : (1 <= w <= 7)%nat -> let k := 2 ^ Z.of_nat w in implements k c R ->
  forall a b x y nbits, 1 <= nbits <= k -> R a x -> R b y -> x < 2 ^ nbits -> y < 2 ^ nbits ->
  R (kogge_stone T c a b nbits) ((x + y) mod 2 ^ k).
Proof. intros [W1 W7] k I a b x y nbits. exact (kogge_stone_correct T w W1 W7 c R I a b x y nbits). Qed.
Print Assumptions C19_kogge_stone.
Theorem C19_sklansky T (w : nat) (c : cbb T) R : (1 <= w <= 7)%nat -> let k := 2 ^ Z.of_nat w in implements k c R ->
  forall a b x y nbits, 1 <= nbits <= k -> R a x -> R b y -> x < 2 ^ nbits -> y < 2 ^ nbits ->
  R (sklansky T c a b nbits) ((x + y) mod 2 ^ k).
Proof. intros [W1 W7] k I a b x y nbits. exact (sklansky_correct T w W1 W7 c R I a b x y nbits). Qed.
Print Assumptions C19_sklansky.
(* any bit count, not only powers of two; the carry of the low nbits bits *)
Theorem C19_carry_out T (w : nat) (c : cbb T) R : (1 <= w <= 7)%nat -> let k := 2 ^ Z.of_nat w in implements k c R ->
  forall a b x y nbits, 1 <= nbits <= k -> R a x -> R b y ->
  exists z, carry_out T c a b nbits = Ok z /\ R z ((x mod 2 ^ nbits + y mod 2 ^ nbits) / 2 ^ nbits).
Proof. intros [W1 W7] k I a b x y nbits. exact (carry_out_correct T w W1 W7 c R I a b x y nbits). Qed.
Print Assumptions C19_carry_out.
(* words with the machine operations are one implementation *)
Theorem C19_words_implement k : 0 < k -> implements k (plain k) (fun a x => a = x /\ word k x).
Proof.
  intros K. constructor; cbn [plain c_xor c_and c_lsh c_rsh c_init c_setnb].
  - tauto.
  - intros a b x y [-> X] [-> Y]. split; [reflexivity|]. apply Party.word_lxor; auto; lia.
  - intros _ a b x y [-> X] [-> Y]. split; [reflexivity|]. apply word_land_l; auto; lia.
  - intros a x s S [-> X]. split; [reflexivity|]. apply Party.word_wrap; lia.
  - intros a x s S [-> X]. split; [reflexivity|]. apply rshr_word; auto; lia.
  - intros a x m M [-> X]. split; [reflexivity|]. apply Party.word_wrap; lia.
  - tauto.
Qed.
Print Assumptions C19_words_implement.
(* semi2k boolean shares: the adder of ab_api.cc run by any number of parties *)
Theorem C19_share_adder (w n : nat) TA TB TC : (5 <= w <= 7)%nat -> (0 < n)%nat -> good_triples n TA TB TC ->
  let k := 2 ^ Z.of_nat w in
  forall t nb X Y x y, 1 <= nb -> brel k n nb X x -> brel k n nb Y y ->
  exists V, add_bb bshare (semi_bops k n TA TB TC) t X Y = Ok V /\ brel k n (Z.min (nb + 1) k) V ((x + y) mod 2 ^ k).
Proof.
  intros [W5 W7] N TR k t nb X Y x y. assert (W1 : (1 <= w)%nat) by lia.
  exact (add_bb_ok bshare w W1 W7 _ _ (semi_implements w W5 W7 n N TA TB TC TR) t nb X Y x y).
Qed.
Print Assumptions C19_share_adder.
(* ... and its carry circuit on power-of-two bit counts (all its callers) *)
Theorem C19_share_carry (w n : nat) TA TB TC : (5 <= w <= 7)%nat -> (0 < n)%nat -> good_triples n TA TB TC ->
  let k := 2 ^ Z.of_nat w in
  forall t l X Y x y, brel k n (2 ^ Z.of_nat l) X x -> brel k n (2 ^ Z.of_nat l) Y y ->
  exists V, carry_a2b bshare (semi_bops k n TA TB TC) t X Y (2 ^ Z.of_nat l) = Ok V /\
    brel k n 1 V ((x mod 2 ^ 2 ^ Z.of_nat l + y mod 2 ^ 2 ^ Z.of_nat l) / 2 ^ 2 ^ Z.of_nat l).
Proof.
  intros [W5 W7] N TR k t l X Y x y. assert (W1 : (1 <= w)%nat) by lia.
  exact (carry_a2b_pow bshare w W1 W7 _ _ (semi_implements w W5 W7 n N TA TB TC TR) t l X Y x y).
Qed.
Print Assumptions C19_share_carry.

Example C19_ex :
  kogge_stone Z (plain 64) 0xFFFFFFFFFFFF 0x1234567890AB 48 = 0x11234567890AA /\
  sklansky Z (plain 128) (2 ^ 127 + 5) (2 ^ 127 + 9) 128 = 14 /\
  carry_out Z (plain 64) 0x7FF 0x001 11 = Ok 1 /\ carry_out Z (plain 64) 0x7FE 0x001 11 = Ok 0 /\
  carry_out Z (plain 32) 0x1FFF 0x1FFF 13 = Ok 1 /\ (0x7FF mod 2 ^ 11 + 1 mod 2 ^ 11) / 2 ^ 11 = 1.
Proof. vm_compute. repeat split. Qed.

(* ---------------- C20 ---------------- *)
(* libspu/core/bit_utils.h: BitDeintl rotates the index bits of every block; for stride 0 it moves the even
   bits to the low half and the odd bits to the high half.  nbits = 2^l or any count rounding up to it. *)
Theorem C20_deinterleave (w : nat) : (w <= 7)%nat -> let k := 2 ^ Z.of_nat w in
  forall s l nbits x, 0 <= nbits <= k -> log2ceil nbits = l -> Z.of_nat s < l -> word k x ->
  deinterleaved k l (Z.of_nat s) x (bit_deintl k s nbits x).
Proof. exact (bit_deintl_ok w). Qed.
Print Assumptions C20_deinterleave.
Theorem C20_interleave (w : nat) : (w <= 7)%nat -> let k := 2 ^ Z.of_nat w in
  forall s l nbits x, 0 <= nbits <= k -> log2ceil nbits = l -> Z.of_nat s < l -> word k x ->
  word k (bit_intl k s nbits x) /\ deinterleaved k l (Z.of_nat s) (bit_intl k s nbits x) x.
Proof. exact (bit_intl_ok w). Qed.
Print Assumptions C20_interleave.
Theorem C20_inverse (w : nat) : (w <= 7)%nat -> let k := 2 ^ Z.of_nat w in
  forall s nbits x, nbits <= k -> word k x ->
  bit_intl k s nbits (bit_deintl k s nbits x) = x /\ bit_deintl k s nbits (bit_intl k s nbits x) = x.
Proof. intros W7 k s nbits x L X. split; [exact (bit_intl_deintl w W7 s nbits x L X)|exact (bit_deintl_intl w W7 s nbits x L X)]. Qed.
Print Assumptions C20_inverse.
(* circuits.h odd_even_split on an even number of bits that need not be a power of two *)
Theorem C20_odd_even_split (w : nat) : (1 <= w <= 7)%nat -> let k := 2 ^ Z.of_nat w in
  forall t x nbits, 2 <= nbits <= k -> nbits mod 2 = 0 -> word k x ->
  let r := odd_even_split Z (plain k) t x nbits in
  word k r /\ forall m, 0 <= m < nbits / 2 ->
    bit r m = bit x (2 * m) /\ bit r (nbits / 2 + m) = bit x (2 * m + 1).
Proof. intros [W1 W7] k t x nbits. exact (odd_even_split_plain w W7 W1 t x nbits). Qed.
Print Assumptions C20_odd_even_split.
(* shares: the local kernels BitDeintlB / BitIntlB and the generic circuits built from and/xor/shift *)
Theorem C20_shares (w n : nat) TA TB TC : (5 <= w <= 7)%nat -> (0 < n)%nat -> good_triples n TA TB TC ->
  let k := 2 ^ Z.of_nat w in let ops := semi_bops k n TA TB TC in
  forall l s X x, brel k n (2 ^ Z.of_nat l) X x ->
  (exists V, b_deintl ops X s = Ok V /\ brel k n (2 ^ Z.of_nat l) V (bit_deintl k s (2 ^ Z.of_nat l) x)) /\
  (exists V, bitintl_share k X s = Ok V /\ brel k n (2 ^ Z.of_nat l) V (bit_intl k s (2 ^ Z.of_nat l) x)) /\
  (exists V, bitdeintl_default bshare ops X s = Ok V /\ brel k n (2 ^ Z.of_nat l) V (bit_deintl k s (2 ^ Z.of_nat l) x)) /\
  (exists V, bitintl_default bshare ops X s = Ok V /\ brel k n (2 ^ Z.of_nat l) V (bit_intl k s (2 ^ Z.of_nat l) x)).
Proof.
  intros [W5 W7] N TR k ops l s X x H. assert (W1 : (1 <= w)%nat) by lia.
  pose proof (semi_implements w W5 W7 n N TA TB TC TR) as I.
  split; [exact (ib_deintl _ _ _ I (Z.of_nat l) X x s (Nat2Z.is_nonneg l) H)|].
  split; [exact (bitintl_share_ok w W5 W7 n N l s X x H)|].
  split; [exact (bitdeintl_default_ok bshare w W1 W7 ops _ I l X x s H)|exact (bitintl_default_ok bshare w W1 W7 ops _ I l X x s H)].
Qed.
Print Assumptions C20_shares.
Example C20_ex : bit_deintl 32 0 32 0x0000AAAA = 0x00FF0000 /\ bit_intl 32 0 32 0x00FF0000 = 0x0000AAAA /\
  bit_deintl 64 1 16 0xC = 0x300 /\ odd_even_split Z (plain 32) 0 0x2AA 10 = 0x3E0.
Proof. vm_compute. repeat split. Qed.
