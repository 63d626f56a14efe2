(* What a reduction over axes and a reduction over windows mean. *)
From Verif Require Import Base Fold Dyn_spec.
Open Scope nat_scope.

(* all indices of a shape, in row-major order *)
Fixpoint indices (sh : list nat) : list (list nat) :=
  match sh with [] => [[]] | d :: sh => flat_map (fun i => map (cons i) (indices sh)) (seq 0 d) end.
(* two indices agree on every axis that is not reduced *)
Definition agree (ix : list nat) (o idx : list nat) : bool :=
  forallb (fun a => if in_dec Nat.eq_dec a ix then true else nth a o 0 =? nth a idx 0) (seq 0 (length o)).
(* the shape with the reduced axes of length one *)
Definition reduced_shape (sh ix : list nat) : list nat :=
  map (fun a => if in_dec Nat.eq_dec a ix then 1 else nth a sh 0) (seq 0 (length sh)).
(* every element of z is the combination of exactly the elements of a at the indices that agree with its own outside ix,
   and of the initial value unless it is to be ignored *)
Definition is_reduced {A} (f : A -> A -> A) (ign : bool) (init : A) (sh ix : list nat) (a z : nat -> A) : Prop :=
  forall o, inside (reduced_shape sh ix) o ->
  fold1 f ((if ign then [] else [init]) ++ map (fun idx => a (flat sh idx)) (filter (agree ix o) (indices sh))) = Some (z (flat (reduced_shape sh ix) o)).

(* b is the array a of shape sh with lo cells before it, E - 1 cells between neighbours, and c in every cell not taken from a *)
Definition is_padding {A} (sh lo E : list nat) (a : nat -> A) (c : A) (b : list nat -> A) : Prop :=
  (forall j, inside sh j -> b (zipWith Nat.add lo (zipWith Nat.mul j E)) = a (flat sh j)) /\
  (forall idx, (forall j, inside sh j -> zipWith Nat.add lo (zipWith Nat.mul j E) <> idx) -> b idx = c).
(* every element of z is the combination of the elements of the padded array under its window, and of the initial value *)
Definition is_window_reduced {A} (f : A -> A -> A) (ign : bool) (init : A) (ret W S D : list nat) (b : list nat -> A) (z : nat -> A) : Prop :=
  forall o, inside ret o ->
  fold1 f ((if ign then [] else [init]) ++ map (fun w => b (zipWith Nat.add (zipWith Nat.mul o S) (zipWith Nat.mul w D))) (indices W)) = Some (z (flat ret o)).
(* one axis: length d, padding lo and hi, base dilation e, window w, stride s, window dilation g; exactly the positions below r are
   those where the dilated window lies within the padded axis *)
Definition axis_fits (d lo hi e w s g r : nat) : Prop :=
  0 < d /\ 0 < e /\ 0 < w /\ 0 < s /\ 0 < g /\
  forall i, i < r <-> i * s + (w - 1) * g + 1 <= lo + hi + (d - 1) * e + 1.
Definition window_fits (sh : list nat) (pads : list (nat * nat)) (E W S D ret : list nat) : Prop :=
  length pads = length sh /\ length E = length sh /\ length W = length sh /\ length S = length sh /\ length D = length sh /\ length ret = length sh /\
  forall a, a < length sh ->
    axis_fits (nth a sh 0) (fst (nth a pads (0, 0))) (snd (nth a pads (0, 0))) (nth a E 0) (nth a W 0) (nth a S 0) (nth a D 0) (nth a ret 0).
