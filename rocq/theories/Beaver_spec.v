(* What correlated randomness is (independent of how it is produced). *)
From Verif Require Import Base Ring_spec Share_spec.
Open Scope Z_scope.

(* a and b are congruent modulo 2^k *)
Definition cong (k a b : Z) : Prop := exists q, b = a + q * 2 ^ k.
(* element i of the value shared by the arrays T p (p < n) *)
Definition tot (n : nat) (T : nat -> nat -> Z) (i : nat) : Z := total n (fun p => T p i).
Definition xtot (n : nat) (T : nat -> nat -> Z) (i : nat) : Z := xtotal n (fun p => T p i).
Fixpoint prodZ (n : nat) (X : nat -> Z) : Z := match n with O => 1 | S m => prodZ m X * X m end.

Definition mul_triple (k : Z) (n : nat) (A B C : nat -> nat -> Z) : Prop :=
  forall i, cong k (tot n A i * tot n B i) (tot n C i).
Definition square_pair (k : Z) (n : nat) (A B : nat -> nat -> Z) : Prop :=
  forall i, cong k (tot n A i * tot n A i) (tot n B i).
(* A is m x kk, B is kk x c, C is m x c, all row-major *)
Definition dot_triple (k : Z) (n : nat) (m c kk : nat) (A B C : nat -> nat -> Z) : Prop :=
  forall i j, (i < m)%nat -> (j < c)%nat ->
    cong k (dot kk (fun l => tot n A (i * kk + l)%nat) (fun l => tot n B (l * c + j)%nat)) (tot n C (i * c + j)%nat).
Definition and_triple (n : nat) (A B C : nat -> nat -> Z) : Prop :=
  forall i, xtot n C i = Z.land (xtot n A i) (xtot n B i).
Definition priv_pair (k : Z) (n : nat) (A C : nat -> nat -> Z) : Prop :=
  forall i, cong k (prodZ n (fun p => A p i)) (tot n C i).
(* second component: the first, read as a signed word, shifted right arithmetically *)
Definition trunc_pair (k bits : Z) (n : nat) (R S : nat -> nat -> Z) : Prop :=
  forall i r v, is_mod k (tot n R i) r -> signed_value k r v -> cong k (v / 2 ^ bits) (tot n S i).
Definition truncpr_triple (k bits : Z) (n : nat) (R RC RB : nat -> nat -> Z) : Prop :=
  forall i r, is_mod k (tot n R i) r ->
    cong k (r mod 2 ^ (k - 1) / 2 ^ bits) (tot n RC i) /\ cong k (if bit r (k - 1) then 1 else 0) (tot n RB i).
Definition shared_bits (k : Z) (n : nat) (rb : nat -> Z) (A : nat -> nat -> Z) : Prop :=
  forall i, cong k (rb i) (tot n A i).
(* the same word, shared additively and by xor *)
Definition dual_pair (k : Z) (n : nat) (A B : nat -> nat -> Z) : Prop :=
  forall i, is_mod k (tot n A i) (xtot n B i).
(* B is A with element j moved to position pi[j]; pi is known to perm_rank only *)
Definition perm_pair (k : Z) (n size perm_rank : nat) (A B : nat -> nat -> Z) (P : nat -> list nat) : Prop :=
  Permutation (P perm_rank) (seq 0 size) /\
  (forall p, (p < n)%nat -> p <> perm_rank -> P p = []) /\
  forall j, (j < size)%nat -> cong k (tot n A j) (tot n B (nth j (P perm_rank) O)).
