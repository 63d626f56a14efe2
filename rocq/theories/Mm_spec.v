(* Specification of matrix products and contractions of arrays. *)
From Verif Require Import Base Ring_spec Share_spec Conv_spec Disp_model Dyn_spec Mm_model.
Open Scope Z_scope.

(* the dealer's and the generators' outputs are as C09, C12 and C19 say *)
Record good_mtapes (k : Z) (n : nat) (T : mtapes) : Prop := mkMgood {
  gm_r : forall t p i, (i < n)%nat -> word k (mt_r T t p i);
  gm_bits : forall t p, random_bits k n (mt_bits T t p) (Z.to_nat k);
  gm_mm : forall t m K c, exists a b d,
    (forall i l, (i < m)%nat -> (l < K)%nat -> shA k n (fun q => mt_a T t (m, K, c) q i l) (a i l)) /\
    (forall l j, (l < K)%nat -> (j < c)%nat -> shA k n (fun q => mt_b T t (m, K, c) q l j) (b l j)) /\
    (forall i j, (i < m)%nat -> (j < c)%nat -> shA k n (fun q => mt_c T t (m, K, c) q i j) (d i j) /\
                                              is_mod k (dot K (a i) (fun l => b l j)) (d i j)) }.

(* the first N elements of an array, of any visibility and share type, have the plaintexts a *)
Definition stands (k : Z) (n N : nat) (e : els) (a : nat -> Z) : Prop :=
  match e with EV o _ => (o < n)%nat | EB nb _ => 0 <= nb <= k | _ => True end /\
  forall p, (p < N)%nat -> word k (a p) /\
    match e with
    | EP f => f p = a p
    | EV o f => f p o = a p
    | EA f => shA k n (f p) (a p)
    | EB nb f => shBn k n nb (f p) (a p)
    end.
(* the computation succeeds with an array of that shape and those plaintexts *)
Definition yields (k : Z) (n : nat) (m : M value) (sh : list nat) (z : nat -> Z) : Prop :=
  forall t, exists e t', m t = Ok ((sh, e), t') /\ stands k n (numel sh) e z.

(* an operand of a product: a matrix, or a vector taken as one row on the left and one column on the right *)
Inductive left_operand : list nat -> nat -> nat -> Prop := lo_vec K : left_operand [K] 1 K | lo_mat m K : left_operand [m; K] m K.
Inductive right_operand : list nat -> nat -> nat -> Prop := ro_vec K : right_operand [K] K 1 | ro_mat K c : right_operand [K; c] K c.
(* z is the m x c product of the m x K matrix a and the K x c matrix b, modulo 2^k, all row-major *)
Definition is_product (k : Z) (m K c : nat) (a b z : nat -> Z) : Prop :=
  forall i j, (i < m)%nat -> (j < c)%nat -> is_mod k (dot K (fun l => a (i * K + l)%nat) (fun l => b (l * c + j)%nat)) (z (i * c + j)%nat).

(* sum over all indices of a shape *)
Fixpoint sum_over (sh : list nat) (F : list nat -> Z) : Z :=
  match sh with [] => F [] | d :: sh => sumZ (map (fun i => sum_over sh (fun idx => F (i :: idx))) (seq 0 d)) end.
(* axes of an nd-dimensional array that are not contracted, in order *)
Definition free_axes (ix : list nat) (nd : nat) : list nat := filter (fun d => if in_dec Nat.eq_dec d ix then false else true) (seq 0 nd).
Definition dims (sh axes : list nat) : list nat := map (fun d => nth d sh O) axes.
(* the index whose coordinates along ix are c and whose other coordinates are fr *)
Definition has_coords (ix : list nat) (nd : nat) (c fr idx : list nat) : Prop :=
  length idx = nd /\ dims idx ix = c /\ dims idx (free_axes ix nd) = fr.
(* axes without repetition, inside the shape *)
Definition axes_ok (ix : list nat) (nd : nat) : Prop := NoDup ix /\ Forall (fun d => (d < nd)%nat) ix.
(* z contracts axes ix of a with axes iy of b, modulo 2^k; at c fr is the element of an array with those coordinates *)
Definition is_contraction (k : Z) (shx shy ix iy : list nat) (a b z : nat -> Z) : Prop :=
  let fx := free_axes ix (length shx) in let fy := free_axes iy (length shy) in
  forall i j, inside (dims shx fx) i -> inside (dims shy fy) j ->
  forall A B, (forall c idx, inside (dims shx ix) c -> has_coords ix (length shx) c i idx -> A c = a (flat shx idx)) ->
              (forall c idx, inside (dims shx ix) c -> has_coords iy (length shy) c j idx -> B c = b (flat shy idx)) ->
  is_mod k (sum_over (dims shx ix) (fun c => A c * B c)) (z (flat (dims shx fx ++ dims shy fy) (i ++ j))).
