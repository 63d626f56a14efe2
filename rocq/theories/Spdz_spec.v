(* Authenticated sharings and what a MAC check should guarantee. *)
From Verif Require Import Base Ring_spec Share_spec Spdz_model.
Open Scope Z_scope.

(* x shares the K-bit word v and its product with the key *)
Definition authentic (K : Z) (n : nat) (gk : Z) (x : ash) (v : Z) : Prop :=
  shA K n (av x) v /\ exists m, is_mod K (v * gk) m /\ shA K n (am x) m.
(* the plaintext is the low k bits *)
Definition plaintext (k v p : Z) : Prop := is_mod k v p.
(* 0, 1, ..., m - 1 *)
Definition upto (m : Z) : list Z := map Z.of_nat (seq 0 (Z.to_nat m)).
(* number of pairs (c, key) below 2^s that satisfy P *)
Definition pairs (s : Z) (P : Z -> Z -> bool) : Z := sumZ (map (fun c => Z.of_nat (length (filter (P c) (upto (2 ^ s))))) (upto (2 ^ s))).
(* the random coin of element j0 is c, the other coins are given *)
Definition coin_at (j0 : nat) (c : Z) (coins : nat -> Z) : nat -> Z := fun j => if (j =? j0)%nat then c else coins j.
(* the kernel did not throw *)
Definition returns {T} (r : res T) : bool := match r with Ok _ => true | _ => false end.
(* the kernel returned something else than p at j *)
Definition wrong (r : res (nat -> Z)) (j : nat) (p : Z) : bool := match r with Ok f => negb (f j =? p) | _ => false end.
(* x is an authenticated sharing with plaintext p *)
Definition holds (K k : Z) (n : nat) (gk : Z) (x : ash) (p : Z) : Prop := exists v, authentic K n gk x v /\ plaintext k v p.
(* the parties' random words are words *)
Definition words (K : Z) (n : nat) (R : nat -> Z) : Prop := forall i, (i < n)%nat -> word K (R i).
