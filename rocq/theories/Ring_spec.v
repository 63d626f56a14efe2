(* Specification vocabulary for ring words: what integer arithmetic and bit positions prescribe.
   Independent of Ring_model.v. *)
From Verif Require Import Base.
Open Scope Z_scope.

(* a k-bit word *)
Definition word (k x : Z) : Prop := 0 <= x < 2 ^ k.
(* the word whose value is congruent to v modulo 2^k *)
Definition is_mod (k v w : Z) : Prop := word k w /\ exists q, w = v + q * 2 ^ k.
(* two's complement value of a word *)
Definition signed_value (k x v : Z) : Prop :=
  - 2 ^ (k - 1) <= v < 2 ^ (k - 1) /\ exists q, v = x + q * 2 ^ k.
(* bit i of word w *)
Definition bit (w i : Z) : bool := Z.testbit w i.
(* matrix product entry over the integers *)
Fixpoint dot (K : nat) (a b : nat -> Z) : Z :=
  match K with O => 0 | S K' => dot K' a b + a K' * b K' end.
