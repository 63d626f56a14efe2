(* What two neighbouring parties must agree on: the sequence of draws each makes from the stream they share. *)
From Verif Require Import Base Prg_model.
Open Scope Z_scope.

Inductive draw := DBytes (id n : nat) | DPerm (id n : nat) | DFork (id : nat).
(* draws from the first (own) stream, and from the second (successor's) stream, in program order *)
Definition first_draw (o : pop) : list draw :=
  match o with
  | OPrss i b Both | OPrss i b First => [DBytes i b]
  | OPrssPerm i m => [DPerm i m]
  | OFork i => [DFork i]
  | _ => []
  end.
Definition second_draw (o : pop) : list draw :=
  match o with
  | OPrss i b Both | OPrss i b Second => [DBytes i b]
  | OPrssPerm i m => [DPerm i m]
  | OFork i => [DFork i]
  | _ => []
  end.
(* the values obtained from the first / second stream *)
Inductive value := VBytes (b : list Z) | VPerm (p : list nat).
Definition first_value (r : pout) : list value :=
  match r with RPair (Some b) _ => [VBytes b] | RPermPair p _ => [VPerm p] | _ => [] end.
Definition second_value (r : pout) : list value :=
  match r with RPair _ (Some b) => [VBytes b] | RPermPair _ p => [VPerm p] | _ => [] end.
(* public draws and their values *)
Definition pub_draw (o : pop) : list draw :=
  match o with OPubl i b => [DBytes i b] | OFork i => [DFork i] | _ => [] end.
Definition pub_value (x : pop * pout) : list value :=
  match x with (OPubl _ _, RBytes b) => [VBytes b] | _ => [] end.
(* every call addresses a live generator, when [m] are live at the start *)
Fixpoint live (m : nat) (h : list pop) : Prop :=
  match h with
  | [] => True
  | o :: r => (op_id o < m)%nat /\ live (match o with OFork _ => S m | _ => m end) r
  end.
