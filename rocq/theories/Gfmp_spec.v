(* Specification of Mersenne-prime field arithmetic, independent of Gfmp_model. *)
From Verif Require Import Base.
Open Scope Z_scope.

(* word width and modulus of each of the three fields *)
Definition field_of (w p : Z) : Prop :=
  (w = 32 /\ p = 2147483647) \/ (w = 64 /\ p = 2305843009213693951) \/ (w = 128 /\ p = 170141183460469231731687303715884105727).
(* canonical representatives, and the ones the code also produces: p itself stands for zero *)
Definition canonical (p x : Z) : Prop := 0 <= x < p.
Definition representative (p x : Z) : Prop := 0 <= x <= p.
Definition same (p x y : Z) : Prop := (p | x - y).
