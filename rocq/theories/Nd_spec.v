(* Specification vocabulary for n-dimensional arrays: shapes, valid indices, the
   row-major position of an index, and the element a view shows at an index. *)
From Verif Require Import Base Nd_model.

(* [valid idx shape]: idx is a multi-dimensional index inside shape *)
Inductive valid : list Z -> list Z -> Prop :=
| valid_nil : valid [] []
| valid_cons i d idx shape : 0 <= i < d -> valid idx shape -> valid (i :: idx) (d :: shape).

(* number of elements of a shape *)
Fixpoint size (shape : list Z) : Z := match shape with [] => 1 | d :: ds => d * size ds end.

(* row-major rank of an index: number of valid indices before it *)
Fixpoint rowmajor (idx shape : list Z) : Z :=
  match idx, shape with
  | i :: idx', _ :: shape' => i * size shape' + rowmajor idx' shape'
  | _, _ => 0
  end.

(* all valid indices of a shape in lexicographic order *)
Fixpoint all_indices (shape : list Z) : list (list Z) :=
  match shape with
  | [] => [[]]
  | d :: ds => flat_map (fun i => map (cons (Z.of_nat i)) (all_indices ds)) (seq 0 (Z.to_nat d))
  end.

Definition shape_ok (shape : list Z) : Prop := Forall (fun d => 0 <= d) shape.

(* a view is well formed when rank and number of strides agree *)
Definition wf (a : nd) : Prop := shape_ok (shp a) /\ length (str a) = length (shp a).

(* every element of the view lies inside its buffer *)
Definition safe (a : nd) : Prop := forall idx, valid idx (shp a) -> exists v, get a idx = Ok v.

(* dimensions of size 1 carry stride 0 (what makes a view broadcastable) *)
Definition unit_zero (a : nd) : Prop := Forall2 (fun d s => d = 1 -> s = 0) (shp a) (str a).

(* ---- what the view operations mean ---- *)
(* element s + i*x of each axis *)
Fixpoint slice_src (s x idx : list Z) : list Z :=
  match s, x, idx with
  | s0 :: s', x0 :: x', i :: idx' => (s0 + i * x0) :: slice_src s' x' idx'
  | _, _, _ => []
  end.
(* idx selects an element of the half-open box [s,e) walked with steps x *)
Inductive in_slice : list Z -> list Z -> list Z -> list Z -> Prop :=
| in_slice_nil : in_slice [] [] [] []
| in_slice_cons s e x i s' e' x' i' :
    0 <= i -> s + i * x < e -> in_slice s' e' x' i' ->
    in_slice (s :: s') (e :: e') (x :: x') (i :: i').

(* the index whose axis j is axis perm[j] of idx *)
Definition permute_index (perm idx : list Z) : list Z := map (fun p => nthZ idx (Z.to_nat p)) perm.

(* idx with every axis of dims mirrored *)
Definition mirror (shape dims idx : list Z) : list Z :=
  map (fun j => if existsb (Z.eqb (Z.of_nat j)) dims
                then nthZ shape j - 1 - nthZ idx j else nthZ idx j) (seq 0 (length idx)).

(* operand index read by a broadcast: axis i of the operand is result axis dims[i]; unit
   axes of the operand are repeated *)
Definition bcast_src (shape dims idx : list Z) : list Z :=
  zipWith (fun d t => if d =? 1 then 0 else nthZ idx (Z.to_nat t)) shape dims.
(* result axis dims[i] has the operand's size, or the operand's axis is a unit axis *)
Definition bcast_ok (shape dims to_shape : list Z) : Prop :=
  length dims = length shape /\ NoDup dims /\
  Forall2 (fun d t => 0 <= t < Z.of_nat (length to_shape) /\
                      (d = 1 \/ nthZ to_shape (Z.to_nat t) = d)) shape dims.

(* ---- what the copying operations mean ---- *)
(* padding puts operand index i at result index t *)
Inductive pad_maps : list Z -> list Z -> list Z -> list Z -> Prop :=
| pad_maps_nil : pad_maps [] [] [] []
| pad_maps_cons l n i t l' n' i' t' :
    t = l + i * (n + 1) -> pad_maps l' n' i' t' -> pad_maps (l :: l') (n :: n') (i :: i') (t :: t').
(* result shape of a padding: edge low + high, interior between consecutive elements *)
Fixpoint padded_shape (shape lo hi inn : list Z) : list Z :=
  match shape, lo, hi, inn with
  | d :: s', l :: lo', h :: hi', n :: inn' => (l + h + (d - 1) * n + d) :: padded_shape s' lo' hi' inn'
  | _, _, _, _ => []
  end.
(* idx moved by c along one axis *)
Definition shift_axis (idx : list Z) (axis : nat) (c : Z) : list Z := upd idx axis (nthZ idx axis + c).
Definition axis_sum (axis : nat) (arrs : list nd) : Z := sumZ (map (fun o => nthZ (shp o) axis) arrs).
(* idx = start + j *)
Definition offset_by (start j : list Z) : list Z := zipWith Z.add start j.
(* different elements of the view live at different positions, except along
   zero-stride (broadcast) axes *)
Definition no_overlap (a : nd) : Prop :=
  forall i j, valid i (shp a) -> valid j (shp a) -> addr a i = addr a j ->
  forall k, nthZ (str a) k <> 0 -> nthZ i k = nthZ j k.
