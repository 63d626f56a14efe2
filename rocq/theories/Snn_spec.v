(* Specification of the SecureNN sharing. *)
From Verif Require Import Base Ring_spec Share_spec.
Open Scope Z_scope.

(* X shares the array v of n words among three parties, the third of which holds zeros *)
Definition shares3 (k : Z) (n : nat) (X : nat -> nat -> Z) (v : nat -> Z) : Prop :=
  forall i, (i < n)%nat -> shA k 3 (fun p => X p i) (v i) /\ X 2%nat i = 0.
(* the generators of neighbouring parties have produced the same amount of data *)
Definition in_step {D} (g : nat -> D * D) : Prop :=
  snd (g 0%nat) = fst (g 1%nat) /\ snd (g 1%nat) = fst (g 2%nat) /\ snd (g 2%nat) = fst (g 0%nat).
(* every generated word fits the field *)
Definition generates (k : Z) (F : nat -> list nat -> nat -> Z) : Prop := forall s h i, word k (F s h i).
(* a and b are congruent modulo 2^k - 1 *)
Definition cong1 (k a b : Z) : Prop := exists q, a = b + q * (2 ^ k - 1).
(* the random words of one element for which ShareConvert is right: e, r0, r1 are drawn by P0 and P1, eta is P0's share of P2's bit, a0 is P0's share *)
Definition conv_safe (k e r0 r1 eta a0 : Z) : Prop :=
  (r0 + r1) mod 2 ^ k <> 0 /\ ~ (Z.odd e = true /\ eta = 1 /\ 2 ^ k <= a0 + r0).
(* the helper's mask x of the value u for which Msb is right: the masked value is not zero modulo 2^k - 1 *)
Definition msb_safe (k u x : Z) : Prop := (2 * u + x) mod (2 ^ k - 1) <> 0.
(* P2's random words have the ranges in which the code draws them *)
Definition helper_ranges (k delta eta x x0 : Z) (cz mz : nat -> Z) : Prop :=
  0 <= delta <= 2 ^ k - 2 /\ 0 <= eta <= 2 ^ k - 2 /\ 0 <= x <= 2 ^ k - 2 /\ 0 <= x0 <= 2 ^ k - 2 /\ (forall i, 0 <= cz i < 131) /\ (forall i, 0 <= mz i < 131).
