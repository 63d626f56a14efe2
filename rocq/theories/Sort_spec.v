(* What sorting and selecting mean, without reference to the sorting code. *)
From Verif Require Import Base Ring_spec.
Open Scope Z_scope.

Section Order.
Context {A : Type}.
(* [le x y = true]: x may stand before y *)
Variable le : A -> A -> bool.
Definition total_preorder : Prop :=
  (forall x y, le x y = true \/ le y x = true) /\ (forall x y z, le x y = true -> le y z = true -> le x z = true).
(* a comparison whose answers are right; on ties it may answer anything *)
Definition decides (cmp : A -> A -> bool) : Prop :=
  forall x y, (cmp x y = true -> le x y = true) /\ (cmp x y = false -> le y x = true).
Definition sorted_by (l : list A) : Prop :=
  forall i j x y, (i < j)%nat -> nth_error l i = Some x -> nth_error l j = Some y -> le x y = true.
(* the first k elements stand before all others *)
Definition split_at (l : list A) (k : nat) : Prop :=
  forall i j x y, (i < k)%nat -> (k <= j)%nat -> nth_error l i = Some x -> nth_error l j = Some y -> le x y = true.
Definition sorting_of (a b : list A) : Prop := Permutation a b /\ sorted_by b.
(* [out] are the [khi] leading elements of some arrangement of [a] that is split at every k in klo..khi *)
Definition selection_of (klo khi : nat) (a out : list A) : Prop :=
  exists rest, Permutation a (out ++ rest) /\ length out = khi /\
  forall k, (klo <= k <= khi)%nat -> split_at (out ++ rest) k.
End Order.

(* lexicographic order of integer vectors, ascending or descending in every position *)
Fixpoint lex_le (asc : bool) (x y : list Z) : bool :=
  match x, y with
  | a :: x', b :: y' => (if asc then a <? b else b <? a) || ((a =? b) && lex_le asc x' y')
  | _, _ => true
  end.
(* rows ordered by their first m entries, read through [val] *)
Definition key_le (val : Z -> Z) (asc : bool) (m : nat) (x y : list Z) : bool :=
  lex_le asc (map (fun i => val (nthZ x i)) (seq 0 m)) (map (fun i => val (nthZ y i)) (seq 0 m)).

(* rows of w words of k bits *)
Definition table (k : Z) (w : nat) (a : list (list Z)) : Prop := Forall (fun r => length r = w /\ Forall (word k) r) a.
