(* What the position of the largest cell of a window is. *)
From Verif Require Import Base Dyn_spec Redn_spec Sas_spec.
Open Scope nat_scope.

(* lt is a strict order in which incomparable elements are interchangeable *)
Definition strict_weak {A} (lt : A -> A -> bool) : Prop :=
  (forall a b, lt a b = true -> lt b a = false) /\ (forall a b c, lt a c = true -> lt a b = true \/ lt b c = true).
(* every window has one marked position, no cell of the window is above the cell there, and z is that cell *)
Definition is_argmax {A} (lt : A -> A -> bool) (sh ret W S : list nat) (a z : nat -> A) (m : nat -> bool) : Prop :=
  forall o, inside ret o -> exists w, inside W w /\ z (flat ret o) = a (flat sh (cell S o w)) /\
    (forall x, inside W x -> lt (a (flat sh (cell S o w))) (a (flat sh (cell S o x))) = false) /\
    (forall x, inside W x -> m (flat ret o * numel W + flat W x) = same x w).
