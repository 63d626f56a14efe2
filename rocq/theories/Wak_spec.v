(* Specification of the Waksman network and of its evaluation on shares. *)
From Verif Require Import Base Ring_spec Share_spec Wak_model.
Open Scope nat_scope.

(* in column c the packet at row i moves to row j: straight on, or through the switch of two adjacent rows *)
Inductive moves (g : topology) (r : routing) (c : nat) : nat -> nat -> Prop :=
| on_wire i j : g c i = (Some j, Some j) -> moves g r c i j
| on_top i u v s : g c i = (Some u, Some v) -> g c (i + 1) = (Some v, Some u) -> u <> v -> r c i = Some s -> moves g r c i (if s then v else u)
| on_bottom i u v s : g c i = (Some u, Some v) -> g c (i + 1) = (Some v, Some u) -> u <> v -> r c i = Some s -> moves g r c (i + 1) (if s then u else v).
(* ... and through len columns *)
Inductive travels (g : topology) (r : routing) : nat -> nat -> nat -> nat -> Prop :=
| arrived c i : travels g r c 0 i i
| onward c len i j e : moves g r c i j -> travels g r (S c) len j e -> travels g r c (S len) i e.
(* the multiplication of additive shares multiplies *)
Definition multiplies (k : Z) (n : nat) (mul : nat -> nat -> (nat -> Z) -> (nat -> Z) -> nat -> Z) : Prop :=
  forall t j a b x y, shA k n a x -> shA k n b y -> shA k n (mul t j a b) ((x * y) mod 2 ^ k)%Z.
