(* Specification of group-by aggregation. *)
From Verif Require Import Base Ring_spec Radix_spec Pv_spec.
Open Scope nat_scope.

(* the sum of the payload entries whose key row is r; the number of such rows *)
Definition sum_of_group (keys : list (list Z)) (r : list Z) (x : list Z) : Z :=
  sumZ (map (fun i => if list_eq_dec Z.eq_dec (row_of keys i) r then nthZ x i else 0%Z) (seq 0 (length x))).
Definition size_of_group (keys : list (list Z)) (r : list Z) (n : nat) : Z :=
  sumZ (map (fun i => if list_eq_dec Z.eq_dec (row_of keys i) r then 1%Z else 0%Z) (seq 0 n)).
(* the first g rows of [out] are the distinct rows of the n rows of [keys], each once, in ascending order *)
Definition distinct_rows (k : Z) (n : nat) (keys out : list (list Z)) (g : nat) : Prop :=
  0 < g <= n /\
  (forall i, i < n -> exists r, r < g /\ row_of out r = row_of keys i) /\
  (forall r, r < g -> exists i, i < n /\ row_of out r = row_of keys i) /\
  (forall r r', r < r' -> r' < g -> row_of out r <> row_of out r' /\ row_before false (map (sval k) out) r r').
