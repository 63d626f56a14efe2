(* C30: arithmetic modulo a Mersenne prime. *)
From Coq Require Import Znumtheory.
From Verif Require Import Base Pock_proof Gfmp_model Gfmp_spec Gfmp_proof.
Open Scope Z_scope.

Lemma field_width w p : field_of w p -> is_width w /\ mprime w = p /\ 1 < p.
Proof. intros [[-> ->] | [[-> ->] | [-> ->]]]; (split; [unfold is_width; lia|]); split; reflexivity. Qed.
Lemma same_mod p x y : 0 < p -> x mod p = y mod p -> same p x y.
Proof.
  intros P E. exists (x / p - y / p). pose proof (Z.div_mod x p ltac:(lia)). pose proof (Z.div_mod y p ltac:(lia)). lia.
Qed.
Lemma mod_same p x : 0 < p -> same p (x mod p) x.
Proof. intros P. apply same_mod; [exact P|]. apply Z.mod_mod. lia. Qed.
Ltac fld F := let W := fresh "W" in let E := fresh "E" in let P1 := fresh "P1" in
  destruct (field_width _ _ F) as (W & E & P1); unfold canonical, representative in *; rewrite <- ?E in *.

(* the modulus of every field is a prime number *)
Theorem C30_prime (w p : Z) : field_of w p -> prime p.
Proof. intros F. fld F. apply mprime_prime. exact W. Qed.
Print Assumptions C30_prime.
(* multiplication, on every pair of representatives, gives the canonical representative of the product *)
Theorem C30_mul (w p x y : Z) : field_of w p -> representative p x -> representative p y -> mul_mod w x y = (x * y) mod p.
Proof. intros F X Y. fld F. apply mul_mod_ok; assumption. Qed.
Print Assumptions C30_mul.
Example C30_mul_127 : field_of 128 (2 ^ 127 - 1) /\ representative (2 ^ 127 - 1) (2 ^ 127 - 2) /\
  mul_mod 128 (2 ^ 127 - 2) (2 ^ 127 - 2) = 1 /\ mul_mod 64 (2 ^ 60) 16 = 8 /\ mul_mod 32 (2 ^ 31 - 1) 5 = 0.
Proof. unfold field_of, representative. repeat split; try reflexivity; try (cbv; discriminate). right; right. split; reflexivity. Qed.
(* the wide product under it is exact, for every pair of words *)
Theorem C30_wide_product (w p x y : Z) : field_of w p -> 0 <= x < 2 ^ w -> 0 <= y < 2 ^ w ->
  let '(lo, hi) := mul_wide w x y in 0 <= lo < 2 ^ w /\ 0 <= hi < 2 ^ w /\ lo + 2 ^ w * hi = x * y.
Proof. intros F. fld F. apply mul_wide_ok; assumption. Qed.
Print Assumptions C30_wide_product.
Example C30_wide_product_max : mul_wide 128 (2 ^ 128 - 1) (2 ^ 128 - 1) = (1, 2 ^ 128 - 2).
Proof. reflexivity. Qed.
(* addition and subtraction: a representative of the sum, canonical as soon as one operand is *)
Theorem C30_add (w p x y : Z) : field_of w p -> representative p x -> representative p y ->
  representative p (add_mod w x y) /\ same p (add_mod w x y) (x + y) /\
  (canonical p x \/ canonical p y -> add_mod w x y = (x + y) mod p).
Proof.
  intros F X Y. fld F. rewrite add_mod_ok by assumption. split; [|split].
  - destruct (Z.leb_spec (mprime w) (x + y)); lia.
  - destruct (Z.leb_spec (mprime w) (x + y)); [exists (-1)|exists 0]; ring.
  - intros [C|C]; apply reduce1; lia.
Qed.
Print Assumptions C30_add.
Theorem C30_sub (w p x y : Z) : field_of w p -> canonical p x -> representative p y -> sub_mod w x y = (x - y) mod p.
Proof. intros F X Y. fld F. apply sub_mod_ok; assumption. Qed.
Print Assumptions C30_sub.
Example C30_sub_wraps : sub_mod 32 3 5 = 2147483645 /\ sub_mod 64 7 7 = 0 /\ add_mod 64 (2 ^ 61 - 2) 3 = 2.
Proof. repeat split. Qed.
(* negation: a representative of the opposite, canonical for every non-zero canonical operand *)
Theorem C30_neg (w p x : Z) : field_of w p -> representative p x ->
  representative p (add_inv w x) /\ same p (add_inv w x) (- x) /\ (0 < x -> canonical p (add_inv w x)).
Proof.
  intros F X. fld F. rewrite add_inv_ok by assumption. split; [lia|]. split; [exists 1; ring|lia].
Qed.
Print Assumptions C30_neg.
Example C30_neg_ex : add_inv 128 1 = 2 ^ 127 - 2.
Proof. reflexivity. Qed.
(* reduction of an arbitrary word *)
Theorem C30_reduce (w p x : Z) : field_of w p -> 0 <= x < 2 ^ w -> mod_p w x = x mod p.
Proof. intros F X. fld F. apply mod_p_ok; assumption. Qed.
Print Assumptions C30_reduce.
Example C30_reduce_max : mod_p 64 (2 ^ 64 - 1) = 7 /\ mod_p 32 (2 ^ 32 - 1) = 1 /\ mod_p 128 (2 ^ 127 - 1) = 0.
Proof. repeat split. Qed.
(* exponentiation, for every element and every exponent that fits the word (and the loop ends) *)
Theorem C30_exp (w p x n : Z) : field_of w p -> canonical p x -> 0 <= n < 2 ^ w -> exp_mod w x n = Some (x ^ n mod p).
Proof. intros F X N. fld F. apply exp_mod_ok; assumption. Qed.
Print Assumptions C30_exp.
Example C30_exp_fermat : exp_mod 64 3 (2 ^ 61 - 2) = Some 1 /\ exp_mod 32 5 3 = Some 125.
Proof. split; vm_compute; reflexivity. Qed.
(* inversion: every non-zero element has its inverse computed (the recursion ends), and it is the only one *)
Theorem C30_inverse (w p x : Z) : field_of w p -> canonical p x -> x <> 0 ->
  exists r, mul_inv w x = Some r /\ canonical p r /\ mul_mod w x r = 1 /\ (x * r) mod p = 1 /\
    forall s, canonical p s -> (x * s) mod p = 1 -> s = r.
Proof.
  intros F X N. fld F. destruct (mul_inv_ok w x W ltac:(lia)) as (r & Er & R & M). exists r. split; [exact Er|].
  split; [lia|]. split; [rewrite mul_mod_ok by (auto; lia); exact M|]. split; [exact M|]. intros s S0 Ms.
  rewrite <- (Z.mod_small s (mprime w)), <- (Z.mod_small r (mprime w)) by lia.
  rewrite <- (Z.mul_1_r s), <- M. rewrite Z.mul_mod_idemp_r by lia.
  replace (s * (x * r)) with (x * s * r) by ring. rewrite <- Z.mul_mod_idemp_l, Ms, Z.mul_1_l by lia. reflexivity.
Qed.
Print Assumptions C30_inverse.
Example C30_inverse_ex : mul_inv 64 2 = Some (2 ^ 60) /\ mul_inv 32 (2 ^ 31 - 2) = Some (2 ^ 31 - 2).
Proof. split; vm_compute; reflexivity. Qed.
Theorem C30_div (w p x y : Z) : field_of w p -> representative p x -> canonical p y -> y <> 0 ->
  exists r, div_mod w x y = Some r /\ canonical p r /\ same p (r * y) x.
Proof.
  intros F X Y N. fld F. destruct (div_mod_ok w x y W X ltac:(lia)) as (r & Er & R & M). exists r.
  split; [exact Er|]. split; [exact R|]. apply same_mod; [lia|exact M].
Qed.
Print Assumptions C30_div.
Example C30_div_ex : div_mod 64 6 3 = Some 2.
Proof. vm_compute. reflexivity. Qed.
(* Fermat: x^(p-1) = 1, through the code's exponentiation *)
Theorem C30_fermat (w p x : Z) : field_of w p -> canonical p x -> x <> 0 -> exp_mod w x (p - 1) = Some 1.
Proof.
  intros F X N. pose proof (C30_prime _ _ F) as PR. pose proof (field_width _ _ F) as (W & E & P1).
  unfold canonical in X. destruct (p_facts w W) as (P & EP & Ep & P31 & PW).
  rewrite (C30_exp w p x (p - 1) F) by (unfold canonical; lia). f_equal.
  apply fermat; [exact PR|]. intros D. apply Z.divide_pos_le in D; lia.
Qed.
Print Assumptions C30_fermat.
(* "return values in the field's representation range" is false of negation at zero: the result is p, not 0; and the
   code's inverse of zero is zero (it is not reported) *)
Theorem C30_neg_canonical_refuted : exists w p x, field_of w p /\ canonical p x /\ ~ canonical p (add_inv w x).
Proof. exists 64, 2305843009213693951, 0. unfold field_of, canonical. split; [lia|]. split; [lia|]. cbv. intros [_ H]. discriminate. Qed.
Print Assumptions C30_neg_canonical_refuted.
Theorem C30_inverse_zero (w p : Z) : field_of w p -> mul_inv w 0 = Some 0.
Proof. intros [[-> ->] | [[-> ->] | [-> ->]]]; reflexivity. Qed.
Print Assumptions C30_inverse_zero.
(* multiplication needs reduced operands: on arbitrary words of the 64-bit type it is not the product *)
Theorem C30_mul_words_refuted : exists w p x y, field_of w p /\ 0 <= x < 2 ^ w /\ 0 <= y < 2 ^ w /\ ~ same p (mul_mod w x y) (x * y).
Proof.
  exists 64, 2305843009213693951, (2 ^ 64 - 1), (2 ^ 64 - 1). unfold field_of, same. split; [lia|]. split; [lia|]. split; [lia|].
  intros D. apply Z.mod_divide in D; [|lia]. vm_compute in D. discriminate.
Qed.
Print Assumptions C30_mul_words_refuted.
