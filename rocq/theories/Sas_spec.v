(* What a scatter over windows is. *)
From Verif Require Import Base Dyn_spec Redn_spec.
Open Scope nat_scope.

Definition total {A} (f : A -> A -> A) (e : A) (l : list A) : A := fold_right f e l.
Definition same (a b : list nat) : bool := if list_eq_dec Nat.eq_dec a b then true else false.
(* the cell of the base under position w of window n *)
Definition cell (S n w : list nat) : list nat := zipWith Nat.add (zipWith Nat.mul n S) w.
(* the windows N of size W, moved by S, cover the base B exactly *)
Definition tiles (B N W S : list nat) : Prop :=
  length N = length B /\ length W = length B /\ length S = length B /\
  forall a, a < length B -> 0 < nth a N 0 /\ 0 < nth a W 0 /\ 0 < nth a S 0 /\ nth a B 0 = (nth a N 0 - 1) * nth a S 0 + nth a W 0.
(* every cell is the combination of the sources of the windows whose marked positions fall on it *)
Definition is_scattered {A} (f : A -> A -> A) (e : A) (B N W S : list nat) (src : nat -> A) (hot : list nat -> list nat -> bool) (z : nat -> A) : Prop :=
  forall c, inside B c ->
  z (flat B c) = total f e (map (fun nw => src (flat N (fst nw))) (filter (fun nw => hot (fst nw) (snd nw) && same (cell S (fst nw) (snd nw)) c) (list_prod (indices N) (indices W)))).
(* a is at least as good as b for the selection function *)
Definition as_good {A} (sel : A -> A -> bool) (a b : A) : Prop := sel a b = true \/ sel b a = false.
