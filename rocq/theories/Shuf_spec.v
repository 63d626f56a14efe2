(* Specification: replicated sharings of vectors and of permutations among three parties.  The permuted vectors are
   described by [gathered_by] and [scattered_by] (Perm_spec.v). *)
From Verif Require Import Base Ring_spec Share_spec Beaver_spec Perm_model Perm_spec Aby_spec.
Open Scope Z_scope.

(* X shares, by replicated sharing, the vector x of k-bit words *)
Definition repV (k : Z) (X : nat -> list (Z * Z)) (x : list Z) : Prop :=
  (forall i, (i < 3)%nat -> length (X i) = length x) /\
  forall e, (e < length x)%nat -> repA k (fun i => nth e (X i) (0, 0)) (nth e x 0).
(* PV shares the three permutations P 0, P 1, P 2 of m elements: party i holds the i-th and the next *)
Definition permS (m : nat) (PV : nat -> list nat * list nat) (P : nat -> list nat) : Prop :=
  forall i, (i < 3)%nat -> PV i = (P i, P (nxt i)) /\ is_perm m (P i).
(* a vector of m words *)
Definition wordsV (k : Z) (m : nat) (d : list Z) : Prop := length d = m /\ Forall (word k) d.
(* the draws F with stream s replaced by f *)
Definition other (s : nat) (F : nat -> nat -> Z) (f : nat -> Z) : nat -> nat -> Z := fun t => if (t =? s)%nat then f else F t.
(* what a party receives, as a function of the two mask vectors it does not hold: every pair of vectors of words is received
   for exactly one choice of the masks (so uniform masks give uniform messages, whatever the input) *)
Definition uniform_view (k : Z) (m : nat) (view : (nat -> Z) -> (nat -> Z) -> res (list Z * list Z)) : Prop :=
  forall d b, wordsV k m d -> wordsV k m b ->
  (exists a r, (forall e, word k (a e)) /\ (forall e, word k (r e)) /\ view a r = Ok (d, b)) /\
  forall a r a' r', (forall e, word k (a e)) -> (forall e, word k (r e)) -> (forall e, word k (a' e)) -> (forall e, word k (r' e)) ->
    view a r = Ok (d, b) -> view a' r' = Ok (d, b) -> forall e, (e < m)%nat -> a e = a' e /\ r e = r' e.
