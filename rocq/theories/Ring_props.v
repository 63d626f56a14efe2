(* C50: ring operations implement arithmetic modulo 2^k and the documented bit operations. *)
From Verif Require Import Base Ring_model Ring_spec Ring_proof.
Open Scope Z_scope.

Theorem C50_add_sub_mul k x y : 0 <= k ->
  is_mod k (x + y) (radd k x y) /\ is_mod k (x - y) (rsub k x y) /\ is_mod k (x * y) (rmul k x y).
Proof. intros K. repeat split; apply wrap_is_mod; exact K. Qed.
Print Assumptions C50_add_sub_mul.
(* non-trivial: wrap-around in 32 bits *)
Example C50_add_ex : radd 32 4294967295 2 = 1 /\ rsub 32 1 2 = 4294967295 /\ rmul 32 65536 65536 = 0.
Proof. now vm_compute. Qed.

Theorem C50_mul_scalar k x y : 0 <= k <= 128 -> is_mod k (x * y) (rmul_scalar k x y).
Proof. exact (rmul_scalar_ok k x y). Qed.
Print Assumptions C50_mul_scalar.
Example C50_mul_scalar_ex : rmul_scalar 32 4294967295 (2 ^ 127 + 3) = 4294967293.
Proof. reflexivity. Qed.

(* the sum and product determine the word uniquely *)
Theorem C50_word_unique k v w w' : 0 <= k -> is_mod k v w -> is_mod k v w' -> w = w'.
Proof. exact (is_mod_unique k v w w'). Qed.
Print Assumptions C50_word_unique.

Theorem C50_neg k x w : 0 < k -> word k x -> ring_neg k x = Ok w -> is_mod k (- x) w.
Proof. intros K W. unfold ring_neg. destruct (_ =? _); [discriminate|]. intros E; injection E as <-. now apply rneg_ok. Qed.
Print Assumptions C50_neg.
Theorem C50_neg_defined k x : 0 < k -> word k x -> x <> 2 ^ (k - 1) -> exists w, ring_neg k x = Ok w.
Proof. intros. unfold ring_neg. destruct (Z.eqb_spec x (2 ^ (k - 1))); [congruence|]. eauto. Qed.
Print Assumptions C50_neg_defined.
Example C50_neg_ex : ring_neg 32 1 = Ok 4294967295 /\ ring_neg 64 0 = Ok 0.
Proof. split; reflexivity. Qed.
(* Finding: negating the word 2^(k-1) is signed overflow, undefined in C++ *)
Theorem C50_neg_min_refuted : exists k x, 0 < k /\ word k x /\ ring_neg k x = Ub.
Proof. exists 32, 2147483648. repeat split; vm_compute; congruence. Qed.
Print Assumptions C50_neg_min_refuted.

Theorem C50_not k x : 0 < k -> word k x -> word k (rnot k x) /\ forall i, 0 <= i < k -> bit (rnot k x) i = negb (bit x i).
Proof. intros K W. split; [now apply rnot_word|]. intros i I. now apply rnot_bits. Qed.
Print Assumptions C50_not.
Example C50_not_ex : rnot 32 5 = 4294967290.
Proof. reflexivity. Qed.

Theorem C50_and_xor_equal k x y : 0 <= k -> word k x -> word k y ->
  word k (rand_ x y) /\ word k (rxor x y) /\
  (forall i, bit (rand_ x y) i = bit x i && bit y i) /\ (forall i, bit (rxor x y) i = xorb (bit x i) (bit y i)) /\
  (requal x y = 1 <-> x = y) /\ (requal x y = 0 <-> x <> y).
Proof.
  intros K X Y. unfold rand_, rxor, bit. repeat split; try (intros; apply Z.land_spec); try (intros; apply Z.lxor_spec).
  - apply Z.land_nonneg; left; apply X.
  - apply word_of_bits; [lia|apply Z.land_nonneg; left; apply X|]. intros i I. rewrite Z.land_spec, (word_bit_high k x) by auto. reflexivity.
  - apply Z.lxor_nonneg. unfold word in *. lia.
  - apply word_of_bits; [lia|apply Z.lxor_nonneg; unfold word in *; lia|]. intros i I. now rewrite Z.lxor_spec, (word_bit_high k x), (word_bit_high k y).
  - unfold requal. destruct (Z.eqb_spec x y); congruence.
  - unfold requal. destruct (Z.eqb_spec x y); congruence.
  - unfold requal. destruct (Z.eqb_spec x y); congruence.
  - unfold requal. destruct (Z.eqb_spec x y); congruence.
Qed.
Print Assumptions C50_and_xor_equal.
Example C50_and_ex : rand_ 12 10 = 8 /\ rxor 12 10 = 6 /\ requal 3 3 = 1 /\ requal 3 4 = 0.
Proof. repeat split; reflexivity. Qed.

Theorem C50_shifts k s x : 0 < k -> 0 <= s < k -> word k x ->
  (exists w, ring_lshift k s x = Ok w /\ is_mod k (x * 2 ^ s) w) /\
  ring_rshift k s x = Ok (x / 2 ^ s) /\
  (exists w v, ring_arshift k s x = Ok w /\ signed_value k x v /\ signed_value k w (v / 2 ^ s) /\ word k w).
Proof.
  intros K S W. unfold ring_lshift, ring_rshift, ring_arshift, in_shift.
  destruct (Z.leb_spec 0 s); [|lia]. destruct (Z.ltb_spec s k); [|lia]. cbn [andb]. repeat split.
  - eexists. split; [reflexivity|]. apply wrap_is_mod; lia.
  - exists (rsar k s x), (sgn k x). repeat split; try apply (signed_sgn k x K W); try apply (rsar_signed k s x K S W); apply wrap_range; lia.
Qed.
Print Assumptions C50_shifts.
Example C50_shifts_ex : ring_arshift 32 1 4294967293 = Ok 4294967294 /\ ring_rshift 32 1 4294967293 = Ok 2147483646
  /\ ring_lshift 32 31 3 = Ok 2147483648.
Proof. repeat split; reflexivity. Qed.

Theorem C50_bitrev k s e x w : 0 < k -> 0 <= s <= e -> word k x -> ring_bitrev k s e x = Ok w ->
  word k w /\ forall i, 0 <= i < k -> bit w i = if (s <=? i) && (i <? e) then bit x (e - 1 - i + s) else bit x i.
Proof. exact (bitrev_bits k s e x w). Qed.
Print Assumptions C50_bitrev.
Theorem C50_bitrev_defined k s e x : 0 <= s <= e -> e < k -> exists w, ring_bitrev k s e x = Ok w.
Proof. intros. unfold ring_bitrev. destruct (Z.ltb_spec e k); [|lia]. destruct (Z.ltb_spec s k); [|lia]. cbn. eauto. Qed.
Print Assumptions C50_bitrev_defined.
Example C50_bitrev_ex : ring_bitrev 32 1 5 7 = Ok 25.
Proof. reflexivity. Qed.
(* Finding: reversing up to the top bit evaluates (U)1 << width *)
Theorem C50_bitrev_top_refuted : exists k x, 0 < k /\ word k x /\ ring_bitrev k 0 k x = Ub.
Proof. exists 64, 1. repeat split; vm_compute; congruence. Qed.
Print Assumptions C50_bitrev_top_refuted.

Theorem C50_bitmask k lo hi x : 0 < k -> 0 <= lo < hi -> hi <= k -> word k x ->
  exists w, ring_bitmask k lo hi x = Ok w /\ word k w /\ forall i, 0 <= i -> bit w i = (lo <=? i) && (i <? hi) && bit x i.
Proof.
  intros K L H W. destruct (bitmask_total k lo hi x L H) as [w E]. exists w. split; [exact E|].
  destruct (bitmask_bits k lo hi x w) as [A B]; auto; lia.
Qed.
Print Assumptions C50_bitmask.
Example C50_bitmask_ex : ring_bitmask 32 4 8 4095 = Ok 240 /\ ring_bitmask 32 0 32 4294967295 = Ok 4294967295.
Proof. split; reflexivity. Qed.

Theorem C50_sum k xs : 0 <= k -> xs <> [] -> Forall (word k) xs -> exists w, ring_sum k xs = Ok w /\ is_mod k (sumZ xs) w.
Proof. exact (ring_sum_ok k xs). Qed.
Print Assumptions C50_sum.
Example C50_sum_ex : ring_sum 32 [4294967295; 4294967295; 3] = Ok 1.
Proof. reflexivity. Qed.

Theorem C50_mmul k K A B i j : 0 <= k -> is_mod k (dot K (A i) (fun l => B l j)) (ring_mmul k K A B i j).
Proof. intros. now apply dot_loop_ok. Qed.
Print Assumptions C50_mmul.
Example C50_mmul_ex : ring_mmul 32 2 (fun i j => Z.of_nat (2 * i + j + 1)) (fun i j => Z.of_nat (2 * i + j + 5)) 1 1 = 50.
Proof. reflexivity. Qed.

Theorem C50_all_equal k e xs ys : 0 < k -> 0 <= e < 2 ^ (k - 1) -> length xs = length ys ->
  Forall2 (fun x y => - 2 ^ (k - 1) < sgn k x - sgn k y < 2 ^ (k - 1)) xs ys ->
  exists b, ring_all_equal k e xs ys = Ok b /\ (b = true <-> Forall2 (fun x y => Z.abs (sgn k x - sgn k y) <= e) xs ys).
Proof. exact (all_equal_spec k e xs ys). Qed.
Print Assumptions C50_all_equal.
Example C50_all_equal_ex : ring_all_equal 32 1 [5; 4294967295] [6; 0] = Ok true.
Proof. reflexivity. Qed.
(* Finding: without the no-overflow condition the comparison is undefined *)
Theorem C50_all_equal_overflow_refuted : exists k e x y, 0 < k /\ 0 <= e < 2 ^ (k - 1) /\ word k x /\ word k y /\
  ring_all_equal k e [x] [y] = Ub.
Proof. exists 32, 0, 2147483648, 1. repeat split; vm_compute; congruence. Qed.
Print Assumptions C50_all_equal_overflow_refuted.

Theorem C50_splits k x rs : wrap k (sumZ (additive_splits k x rs)) = wrap k x /\ xorZ (boolean_splits x rs) = x.
Proof. split; [apply additive_splits_sum|apply boolean_splits_xor]. Qed.
Print Assumptions C50_splits.
Example C50_splits_ex : additive_splits 32 5 [7; 9] = [4294967285; 7; 9] /\ boolean_splits 5 [7; 9] = [11; 7; 9].
Proof. split; reflexivity. Qed.

(* choosing by a bit c is x + c (y - x) *)
Theorem C50_select c x y : ring_select c x y = x + Z.b2z c * (y - x).
Proof. destruct c; unfold ring_select; cbn [Z.b2z]; ring. Qed.
Print Assumptions C50_select.
Example C50_select_ex : ring_select true 3 9 = 9 /\ ring_select false 3 9 = 3.
Proof. split; reflexivity. Qed.
