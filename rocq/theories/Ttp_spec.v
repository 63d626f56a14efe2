(* What the beaver server produces for a request, apart from how it is sent: the arrays of every call of AdjustImpl, for the
   elements cut into chunks of at most [ce]. *)
From Verif Require Import Base.

Section Spec.
Context {ops : Type}.
Variable adjust : nat -> ops -> res (list (list Z) * ops).
Inductive produces (ce : nat) : nat -> ops -> list (list (list Z)) -> Prop :=
| produces_all o : produces ce 0 o []
| produces_chunk left o arrs o' more : (0 < left)%nat -> adjust (Nat.min left ce) o = Ok (arrs, o') -> produces ce (left - Nat.min left ce) o' more -> produces ce left o (arrs :: more).
(* every call of AdjustImpl gives one array of the requested number of elements of [esz] bytes, or throws *)
Definition one_array (esz : nat) : Prop := forall n o, match adjust n o with Ok (arrs, _) => exists a, arrs = [a] /\ length a = (n * esz)%nat | Err => True | Ub => False end.
End Spec.
(* the transport handed over the bytes [s], or a first part of them *)
Definition delivers (parts : list (list Z)) (s : list Z) : Prop := exists lost, concat parts ++ lost = s.
