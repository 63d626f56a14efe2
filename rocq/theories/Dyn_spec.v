(* Specification of windows of row-major arrays, and of lists of results. *)
From Verif Require Import Base Ring_spec Disp_model Disps_model Disps_spec.
Open Scope nat_scope.

(* number of elements of a shape; position of an index; indices inside a shape *)
Definition numel (sh : list nat) : nat := fold_right Nat.mul 1 sh.
Fixpoint flat (sh idx : list nat) : nat :=
  match sh, idx with d :: sh, i :: idx => i * numel sh + flat sh idx | _, _ => 0 end.
Definition inside (sh idx : list nat) : Prop := Forall2 (fun d i => i < d) sh idx.
(* the window of size sz whose first element is at index cs *)
Definition fits (sh sz cs : list nat) : Prop := Forall2 (fun D sc => fst sc + snd sc <= D) sh (combine sz cs) /\ length sz = length sh /\ length cs = length sh.
Definition shift (cs idx : list nat) : list nat := zipWith Nat.add cs idx.
(* out is that window of the array data *)
Definition is_window {A} (sh sz cs : list nat) (data out : list A) : Prop :=
  length out = numel sz /\ forall idx, inside sz idx -> nth_error out (flat sz idx) = nth_error data (flat sh (shift cs idx)).
(* out is data with that window overwritten by upd *)
Definition is_update {A} (sh sz cs : list nat) (data upd out : list A) : Prop :=
  length out = length data /\
  (forall idx, inside sz idx -> nth_error out (flat sh (shift cs idx)) = nth_error upd (flat sz idx)) /\
  (forall idx, inside sh idx -> (forall j, inside sz j -> idx <> shift cs j) -> nth_error out (flat sh idx) = nth_error data (flat sh idx)).

(* a start v limited to [0, D - s] *)
Definition clamped (D s : nat) (v : Z) : nat := Z.to_nat (Z.min (Z.max v 0) (Z.of_nat D - Z.of_nat s)).
Fixpoint clamps (sh sz : list nat) (vs : list Z) : list nat :=
  match sh, sz, vs with D :: sh, s :: sz, v :: vs => clamped D s v :: clamps sh sz vs | _, _, _ => [] end.

(* every size lies between 1 and the dimension; dimensions are representable *)
Definition sized (k : Z) (sh sz : list nat) : Prop := Forall2 (fun D s => 0 < s <= D /\ (Z.of_nat D < 2 ^ (k - 1))%Z) sh sz.
(* visibility of a start *)
Definition pub_ok (pr : proto) (x : val pr) (v : Z) : Prop := match x with VP _ => (0 <= v)%Z | _ => True end.
Definition not_private (pr : proto) (x : val pr) : Prop := match x with VV _ _ => False | _ => True end.
Definition secret_start (pr : proto) (x : val pr) : Prop := match x with VA _ | VB _ => True | _ => False end.

(* the computation returns elements that stand for the words vs, and everyone who is shown them learns vs *)
Definition results_list (k : Z) (n : nat) (T : tapes) (m : M (list (val (semi_proto k n T)))) (vs : list Z) : Prop :=
  forall t, exists r t', m t = Ok (r, t') /\ Forall2 (encodes k n T) r vs /\ forall rank, (rank < n)%nat -> map (reveal k n T rank) r = vs.
