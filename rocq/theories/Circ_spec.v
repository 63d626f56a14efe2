(* Specification of bit interleaving and of carries, in terms of bits of integers. *)
From Verif Require Import Base Ring_spec.
Open Scope Z_scope.

(* the carry out of the low i bits when x and y are added *)
Definition carry (x y i : Z) : Z := (x mod 2 ^ i + y mod 2 ^ i) / 2 ^ i.

(* y is x with the index bits of every aligned block of 2^l bits rotated: inside a block, index
   m*2^(s+1) + t*2^s + r of x goes to index t*2^(l-1) + m*2^s + r of y.  For s = 0 the even bits (t = 0)
   become the lower half and the odd bits the upper half. *)
Definition deinterleaved (k l s x y : Z) : Prop :=
  word k y /\
  forall h t m r, 0 <= h -> 0 <= t <= 1 -> 0 <= m < 2 ^ (l - 1 - s) -> 0 <= r < 2 ^ s ->
    h * 2 ^ l + t * 2 ^ (l - 1) + m * 2 ^ s + r < k ->
    bit y (h * 2 ^ l + t * 2 ^ (l - 1) + m * 2 ^ s + r) = bit x (h * 2 ^ l + m * 2 ^ (s + 1) + t * 2 ^ s + r).
