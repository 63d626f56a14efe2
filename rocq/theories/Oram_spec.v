(* Specification of oblivious reads: the vector that is one at one position, its sharing between pairs of parties, and the
   row read.  Replicated sharings: Aby_spec.v. *)
From Verif Require Import Base Ring_spec Aby_spec.
Open Scope Z_scope.

(* one at position t, zero elsewhere *)
Definition unit_at (t i : nat) : Z := if Nat.eq_dec i t then 1 else 0.
(* two words are an additive sharing of v in the ring of k bits *)
Definition two_shares (k a b v : Z) : Prop := word k a /\ word k b /\ is_mod k (a + b) v.
(* the smallest number of bits in which every position of an array of n entries can be written *)
Definition index_bits (n b : nat) : Prop := (n <= 2 ^ b)%nat /\ forall b', (n <= 2 ^ b')%nat -> (b <= b')%nat.
(* three sharings of the same vector, each between a party (first component) and its predecessor (second component) *)
Definition shares_unit (k : Z) (n : nat) (O : nat -> nat -> Z * Z) (t : nat) : Prop :=
  forall p i, (p < n)%nat -> (i < 3)%nat -> two_shares k (fst (O p (nxt i))) (snd (O p i)) (unit_at t p).
(* one sharing, between parties 0 and 1 *)
Definition shares_unit2 (k : Z) (n : nat) (O : nat -> nat -> Z) (t : nat) : Prop :=
  forall p, (p < n)%nat -> two_shares k (O p 1%nat) (O p 0%nat) (unit_at t p).
