(* Specification of permutations of vectors. *)
From Verif Require Import Base Ring_spec Share_spec Beaver_spec Perm_model.
Open Scope Z_scope.

(* pv lists 0..m-1 in some order *)
Definition is_perm (m : nat) (pv : list nat) : Prop := Permutation pv (seq 0 m).
(* y[i] = x[pv[i]] *)
Definition gathered {A} (x : list A) (pv : list nat) (y : list A) : Prop :=
  length y = length pv /\ forall i p v, nth_error pv i = Some p -> nth_error x p = Some v -> nth_error y i = Some v.
(* y[pv[i]] = x[i] *)
Definition scattered {A} (x : list A) (pv : list nat) (y : list A) : Prop :=
  length y = length x /\ forall i p v, nth_error pv i = Some p -> nth_error x i = Some v -> nth_error y p = Some v.
(* X shares, among n parties, the vector x of k-bit words *)
Definition shV (k : Z) (n : nat) (X : nat -> list Z) (x : list Z) : Prop :=
  (forall i, (i < n)%nat -> length (X i) = length x) /\
  forall e, (e < length x)%nat -> shA k n (fun i => nth e (X i) 0) (nth e x 0).
(* x scattered by the permutations of the parties in the given order *)
Inductive scattered_by (P : nat -> list nat) : list nat -> list Z -> list Z -> Prop :=
| sb_nil x : scattered_by P [] x x
| sb_cons r rs x y z : scattered x (P r) y -> scattered_by P rs y z -> scattered_by P (r :: rs) x z.
(* ... and gathered *)
Inductive gathered_by (P : nat -> list nat) : list nat -> list Z -> list Z -> Prop :=
| gb_nil x : gathered_by P [] x x
| gb_cons r rs x y z : gathered x (P r) y -> gathered_by P rs y z -> gathered_by P (r :: rs) x z.
(* perm sorts x stably in ascending order of the signed values *)
Definition stable_ascending (k : Z) (x : list Z) (pv : list nat) : Prop :=
  is_perm (length x) pv /\
  forall i j a b va vb, (i < j)%nat -> nth_error pv i = Some a -> nth_error pv j = Some b ->
    signed_value k (nth a x 0) va -> signed_value k (nth b x 0) vb -> va < vb \/ (va = vb /\ (a < b)%nat).
(* a good answer of PermPair for perm_rank r (what C12 proves of the provider): words, and a permuted pair *)
Definition good_pair (k : Z) (n m r : nat) (Q : (nat -> nat -> Z) * (nat -> nat -> Z) * (nat -> list nat)) : Prop :=
  perm_pair k n m r (fst (fst Q)) (snd (fst Q)) (snd Q) /\ forall i e, (i < n)%nat -> (e < m)%nat -> word k (snd (fst Q) i e).
(* the answers number t, t+1, ... for the ranks rs in turn *)
Fixpoint good_pairs (k : Z) (n : nat) (Q : pairs) (m t : nat) (rs : list nat) : Prop :=
  match rs with [] => True | r :: rs' => good_pair k n m r (Q t) /\ good_pairs k n Q m (S t) rs' end.
