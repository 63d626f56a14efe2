(* Specification: matrices over the field with two elements, and the cipher's substitution by its defining formula. *)
From Verif Require Import Base Ring_spec Share_spec Lowmc_model.
Open Scope Z_scope.

(* the sum modulo two of the bits f 0 .. f (m-1) *)
Fixpoint xsum (m : nat) (f : nat -> bool) : bool := match m with O => false | S l => xorb (xsum l f) (f l) end.
(* v is the product of the matrix with the given rows of w bits and the vector y *)
Definition gf2_product (w : nat) (rows : list Z) (y v : Z) : Prop :=
  forall i, 0 <= i -> Z.testbit v i =
    match nth_error rows (Z.to_nat i) with Some r => xsum w (fun j => Z.testbit r (Z.of_nat j) && Z.testbit y (Z.of_nat j)) | None => false end.
(* y is x with every group of three bits (a, b, c), a the highest, of the lowest nb groups replaced by
   (a + bc, a + b + ac, a + b + c + ab), the other bits unchanged *)
Definition substituted (nb : nat) (x y : Z) : Prop :=
  (forall i, 0 <= i < Z.of_nat nb ->
     let a := Z.testbit x (3 * i + 2) in let b := Z.testbit x (3 * i + 1) in let c := Z.testbit x (3 * i) in
     Z.testbit y (3 * i + 2) = xorb a (b && c) /\ Z.testbit y (3 * i + 1) = xorb (xorb a b) (a && c) /\
     Z.testbit y (3 * i) = xorb (xorb (xorb a b) c) (a && b)) /\
  forall j, 3 * Z.of_nat nb <= j -> Z.testbit y j = Z.testbit x j.
(* a good Beaver triple of 8-bit words: words, with c = a and b *)
Definition good_triple8 (n : nat) (T : (nat -> Z) * (nat -> Z) * (nat -> Z)) : Prop :=
  (forall i, (i < n)%nat -> word 8 (fst (fst T) i) /\ word 8 (snd (fst T) i) /\ word 8 (snd T i)) /\
  xtotal n (snd T) = Z.land (xtotal n (fst (fst T))) (xtotal n (snd (fst T))).
(* matrices of k rows, constants of k bits *)
Definition good_rnd (k : Z) (r : rnd) : Prop := Z.of_nat (length (lin r)) = k /\ word k (cst r) /\ Z.of_nat (length (kmat r)) = k.
