(* Specification of n-party additive and boolean sharings of one ring element.
   A sharing assigns a word to every party 0..n-1. *)
From Verif Require Import Base Ring_spec.
Open Scope Z_scope.

Fixpoint total (n : nat) (X : nat -> Z) : Z :=
  match n with O => 0 | S m => total m X + X m end.
Fixpoint xtotal (n : nat) (X : nat -> Z) : Z :=
  match n with O => 0 | S m => Z.lxor (xtotal m X) (X m) end.

(* X is an additive sharing, among n parties, of the k-bit word x *)
Definition shA (k : Z) (n : nat) (X : nat -> Z) (x : Z) : Prop :=
  (forall i, (i < n)%nat -> word k (X i)) /\ is_mod k (total n X) x.
(* X is a boolean (xor) sharing, among n parties, of the k-bit word x *)
Definition shB (k : Z) (n : nat) (X : nat -> Z) (x : Z) : Prop :=
  (forall i, (i < n)%nat -> word k (X i)) /\ word k x /\ xtotal n X = x.
(* ... whose declared bit count nb covers the plaintext *)
Definition shBn (k : Z) (n : nat) (nb : Z) (X : nat -> Z) (x : Z) : Prop :=
  shB k n X x /\ 0 <= nb <= k /\ x < 2 ^ nb.
(* word y is the truncation by d bits of word x, both read as signed values, with an error between lo and hi *)
Definition truncated (k d x y lo hi : Z) : Prop :=
  exists vx vy, signed_value k x vx /\ signed_value k y vy /\ vx / 2 ^ d + lo <= vy <= vx / 2 ^ d + hi.
