(* What a block has to satisfy, and what its parallel execution promises. *)
From Verif Require Import Base Exec_model.

Section Spec.
Context {V : Type}.
Implicit Types (ops : list (op V)) (e : env V).

(* the block is in SSA form: every value has one definition, and is defined before it is used (MLIR verifies this) *)
Definition ssa ops e : Prop :=
  NoDup (flat_map o_res ops) /\
  (forall k, In k (flat_map o_res ops) -> e k = None) /\
  (forall i o k, nth_error ops i = Some o -> In k (o_in o ++ o_nest o) ->
     e k <> None \/ exists j p, (j < i)%nat /\ nth_error ops j = Some p /\ In k (o_res p)) /\
  (forall i o, nth_error ops i = Some o -> o_free o = true -> o_res o = []).
(* an operation whose regions use values of this block has at least one operand *)
Definition captures_with_operand ops : Prop :=
  forall i o k, nth_error ops i = Some o -> o_in o = [] -> In k (o_nest o) -> ~ In k (flat_map o_res ops).
(* what sequential execution gives to the result k of operation i, just after operation i *)
Definition seq_value ops e (k : key) (v : V) : Prop :=
  exists i o e', nth_error ops i = Some o /\ In k (o_res o) /\ run_ops (firstn (S i) ops) e = Some e' /\ e' k = Some v.
(* number of wake-ups without notification in an execution *)
Definition spurious (L : list label) : nat := length (filter (fun l => match l with LSpur => true | _ => false end) L).
Definition count_run (i : nat) (L : list label) : nat :=
  length (filter (fun l => match l with LRun j => Nat.eqb j i | _ => false end) L).
(* in L, x comes before every occurrence of y *)
Definition before (x y : label) (L : list label) : Prop := forall L1 L2, L = L1 ++ y :: L2 -> In x L1.
End Spec.
