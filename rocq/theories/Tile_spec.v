(* Specification of elementwise kernels on arrays held by several parties. *)
From Verif Require Import Base Nd_model Nd_spec.
Open Scope Z_scope.

(* the operands of party q have shape sh and every element is readable *)
Definition operands (n m : nat) (sh : list Z) (xs : nat -> list nd) : Prop :=
  forall q, (q < n)%nat -> length (xs q) = m /\ Forall (fun a => shp a = sh /\ wf a /\ safe a) (xs q).
(* party q's operands show the values vs at the index *)
Definition at_index (xs : list nd) (idx : list Z) (vs : list Z) : Prop := Forall2 (fun a v => get a idx = Ok v) xs vs.
(* the elements lie in row-major order in consecutive memory *)
Definition dense (a : nd) : Prop := forall idx, valid idx (shp a) -> addr a idx = off a + rowmajor idx (shp a).
(* at every index, the results of all parties are related by R to their operands *)
Definition pointwise (R : (nat -> list Z) -> (nat -> Z) -> Prop) (n : nat) (sh : list Z) (xs : nat -> list nd) (out : nat -> nd) : Prop :=
  forall idx, valid idx sh -> exists vs v,
    (forall q, (q < n)%nat -> at_index (xs q) idx (vs q) /\ get (out q) idx = Ok (v q)) /\ R vs v.
(* a kernel on m operands that works elementwise, for every shape, with results of type t *)
Definition elementwise (R : (nat -> list Z) -> (nat -> Z) -> Prop) (n m : nat) (t : Z)
    (fn : option nat -> (nat -> res (list nd)) -> nat -> res (Z * nd)) : Prop :=
  forall c sh xs ys, operands n m sh xs -> 0 < size sh -> (forall q, (q < n)%nat -> ys q = Ok (xs q)) ->
  exists out, (forall q, (q < n)%nat -> fn c ys q = Ok (t, out q) /\ shp (out q) = sh /\ dense (out q)) /\ pointwise R n sh xs out.
