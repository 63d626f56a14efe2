(* Specification of boolean shares, AND triples and shared random bits. *)
From Verif Require Import Base Ring_spec Share_spec.
Open Scope Z_scope.

(* the dealer's AND triples: every call of every width has words of that width whose xors multiply *)
Definition good_triples (n : nat) (TA TB TC : nat -> Z -> nat -> Z) : Prop :=
  forall t w, In w [8; 16; 32; 64; 128] ->
    (forall i, (i < n)%nat -> word w (TA t w i) /\ word w (TB t w i) /\ word w (TC t w i)) /\
    Z.land (xtotal n (TA t w)) (xtotal n (TB t w)) = xtotal n (TC t w).
(* S is a boolean sharing of x declared with nb bits *)
Definition brel (k : Z) (n : nat) (nb : Z) (S : Z * (nat -> Z)) (x : Z) : Prop := fst S = nb /\ shBn k n nb (snd S) x.
(* m random bits, each shared additively *)
Definition random_bits (k : Z) (n : nat) (RB : nat -> nat -> Z) (m : nat) : Prop :=
  forall j, (j < m)%nat -> exists b : bool, shA k n (RB j) (Z.b2z b).
(* all correlated random words fit the field *)
Definition prss_words (k : Z) (n : nat) (RR : nat -> nat -> Z) : Prop :=
  forall i j, (i < n)%nat -> (j < n)%nat -> word k (RR j i).
