(* Correlated randomness of [size] elements: the relations of Beaver_spec.v up to the size. *)
From Verif Require Import Base Ring_spec Share_spec Beaver_spec.
Open Scope Z_scope.

Definition mul_upto (k : Z) (n size : nat) (A B C : nat -> nat -> Z) : Prop :=
  forall i, (i < size)%nat -> cong k (tot n A i * tot n B i) (tot n C i).
Definition square_upto (k : Z) (n size : nat) (A B : nat -> nat -> Z) : Prop :=
  forall i, (i < size)%nat -> cong k (tot n A i * tot n A i) (tot n B i).
Definition and_upto (n size : nat) (A B C : nat -> nat -> Z) : Prop :=
  forall i, (i < size)%nat -> xtot n C i = Z.land (xtot n A i) (xtot n B i).
Definition priv_upto (k : Z) (n size : nat) (A C : nat -> nat -> Z) : Prop :=
  forall i, (i < size)%nat -> cong k (prodZ n (fun p => A p i)) (tot n C i).
Definition trunc_upto (k bits : Z) (n size : nat) (R S : nat -> nat -> Z) : Prop :=
  forall i r v, (i < size)%nat -> is_mod k (tot n R i) r -> signed_value k r v -> cong k (v / 2 ^ bits) (tot n S i).
Definition truncpr_upto (k bits : Z) (n size : nat) (R RC RB : nat -> nat -> Z) : Prop :=
  forall i r, (i < size)%nat -> is_mod k (tot n R i) r ->
    cong k (r mod 2 ^ (k - 1) / 2 ^ bits) (tot n RC i) /\ cong k (if bit r (k - 1) then 1 else 0) (tot n RB i).
Definition bits_upto (k : Z) (n size : nat) (rb : nat -> Z) (A : nat -> nat -> Z) : Prop :=
  forall i, (i < size)%nat -> cong k (rb i) (tot n A i).
Definition dual_upto (k : Z) (n size : nat) (A B : nat -> nat -> Z) : Prop :=
  forall i, (i < size)%nat -> is_mod k (tot n A i) (xtot n B i).

(* The generator: every element of width w is a word, and what is drawn after a whole number of 16-byte blocks continues the
   stream of the seed. *)
Definition stream (prg : Z -> Z -> Z -> nat -> Z) : Prop :=
  (forall w s c i, 0 <= w -> word w (prg w s c i)) /\
  (forall w s c m i, w = 32 \/ w = 64 \/ w = 128 -> ((m * Z.to_nat (w / 8)) mod 16 = 0)%nat ->
     prg w s (c + Z.of_nat (m * Z.to_nat (w / 8) / 16)) i = prg w s c (m + i)%nat).
(* The transport hands over all the bytes written, in some parts. *)
Definition lossless (net : list Z -> list (list Z) * bool) : Prop := forall s, concat (fst (net s)) = s /\ snd (net s) = true.
