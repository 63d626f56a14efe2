(* Specification of three-party replicated sharings of one element: party i holds the i-th and the next
   of three summands. *)
From Verif Require Import Base Ring_spec.
Open Scope Z_scope.

Definition nxt (i : nat) : nat := match i with O => 1%nat | 1%nat => 2%nat | _ => 0%nat end.
(* the replicated invariant: words of v bits, and each party's second component is the next party's first *)
Definition replicated (v : Z) (X : nat -> Z * Z) : Prop :=
  forall i, (i < 3)%nat -> word v (fst (X i)) /\ word v (snd (X i)) /\ snd (X i) = fst (X (nxt i)).
(* X shares the k-bit word x additively *)
Definition repA (k : Z) (X : nat -> Z * Z) (x : Z) : Prop :=
  replicated k X /\ is_mod k (fst (X 0%nat) + fst (X 1%nat) + fst (X 2%nat)) x.
(* X, stored in v-bit words, shares x by exclusive or *)
Definition repB (v : Z) (X : nat -> Z * Z) (x : Z) : Prop :=
  replicated v X /\ word v x /\ Z.lxor (Z.lxor (fst (X 0%nat)) (fst (X 1%nat))) (fst (X 2%nat)) = x.
(* ... in one of the storage types, with a declared bit count nb that covers the plaintext and fits field and storage *)
Definition repBn (k v nb : Z) (X : nat -> Z * Z) (x : Z) : Prop :=
  repB v X x /\ 0 <= nb <= k /\ nb <= v <= k /\ In v [8; 16; 32; 64; 128] /\ x < 2 ^ nb.
(* the ring sizes of FM32, FM64, FM128 *)
Definition ringw (k : Z) : Prop := k = 32 \/ k = 64 \/ k = 128.
(* y is x with the bits at positions s .. e-1 reversed *)
Definition bits_reversed (x y s e : Z) : Prop :=
  forall i, 0 <= i -> bit y i = if (s <=? i) && (i <? e) then bit x (e - 1 - i + s) else bit x i.
