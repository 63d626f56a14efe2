(* Specification of distributed runs: what every schedule of a system of party programs must do. *)
From Verif Require Import Base Comm_model.
Open Scope Z_scope.

(* whatever the scheduler and the network do: runs are bounded, a run is never stuck before every party has
   finished, and the parties finish with the results r *)
Definition runs_to {R} (n : nat) (P : nat -> prog R) (r : nat -> R) : Prop :=
  (exists b, forall L st, exec n (start P) L st -> (length L <= b)%nat) /\
  (forall L st, exec n (start P) L st -> done n st r \/ exists l st', step n st l st') /\
  (forall L st r', exec n (start P) L st -> done n st r' -> forall i, (i < n)%nat -> r' i = r i).
(* element e of an array *)
Definition elem (e : nat) (x : payload) : Z := nth e x 0.
(* the array of m elements given by index *)
Definition array (m : nat) (f : nat -> Z) : payload := map f (seq 0 m).
(* t synchronous rounds: in each, party i computes its new state from its own and everybody's message *)
Fixpoint sync {S} (n : nat) (msg : nat -> S -> payload) (next : nat -> S -> list payload -> S) (t : nat) (s : nat -> S) : nat -> S :=
  match t with
  | O => s
  | S t' => sync n msg next t' (fun i => next i (s i) (map (fun j => msg j (s j)) (seq 0 n)))
  end.
