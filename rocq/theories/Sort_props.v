(* Theorems about sorting by compare-and-swap and about top-k (C33, C34). *)
From Coq Require Import ZifyBool ZifyNat ZifyN.
From Verif Require Import Base Ring_model Ring_spec Perm_model Sort_model Sort_spec Sort_proof Sortn_proof Sortq_proof Sortr_proof Sortc_proof.
Open Scope Z_scope.

(* C33: the network sorts rows of any number and width, under any comparator that decides a total preorder; every
   row moves as a whole. *)
Theorem C33_network : forall le k w cmp a, total_preorder le -> decides le cmp -> table k w a ->
  exists b, odd_even_merge_sort k cmp a = Ok b /\ sorting_of le a b.
Proof. exact network_sort_ok. Qed.
Print Assumptions C33_network.
Example C33_ex1 : odd_even_merge_sort 64 (fun x y => nthZ x 0 <? nthZ y 0) [[5; 50]; [3; 30]; [9; 90]; [3; 31]; [0; 1]; [7; 70]; [1; 10]] =
  Ok [[0; 1]; [1; 10]; [3; 31]; [3; 30]; [5; 50]; [7; 70]; [9; 90]].
Proof. vm_compute. reflexivity. Qed.

(* C33: the comparator of simple_sort1d decides the lexicographic order of the keys, in either direction,
   whatever the appended random bit. *)
Theorem C33_comparator : forall val lt eq m asc rnd, (0 < m)%nat ->
  (forall x y, lt x y = (val x <? val y)) -> (forall x y, eq x y = (val x =? val y)) ->
  total_preorder (key_le val asc m) /\ decides (key_le val asc m) (cmp_func lt eq m asc rnd).
Proof. exact cmp_func_ok. Qed.
Print Assumptions C33_comparator.
Example C33_ex2 : cmp_func Z.ltb Z.eqb 2 false None [4; 1; 7] [4; 0; 9] = true /\ cmp_func Z.ltb Z.eqb 2 true None [4; 1; 7] [4; 0; 9] = false /\
  cmp_func Z.ltb Z.eqb 2 true (Some true) [4; 1; 7] [4; 1; 9] = true.
Proof. repeat split. Qed.

(* C33: sorting by several keys *)
Theorem C33_sort_by_keys : forall val lt eq m asc k w a, (0 < m)%nat ->
  (forall x y, lt x y = (val x <? val y)) -> (forall x y, eq x y = (val x =? val y)) -> table k w a ->
  exists b, odd_even_merge_sort k (cmp_func lt eq m asc None) a = Ok b /\ sorting_of (key_le val asc m) a b.
Proof.
  intros val lt eq m asc k w a M L E T. destruct (cmp_func_ok val lt eq m asc None M L E) as [TP D]. now apply (network_sort_ok _ k w).
Qed.
Print Assumptions C33_sort_by_keys.
Example C33_ex3 : table 32 3 [[4; 1; 7]; [2; 9; 5]; [4; 0; 6]] /\
  odd_even_merge_sort 32 (cmp_func Z.ltb Z.eqb 2 false None) [[4; 1; 7]; [2; 9; 5]; [4; 0; 6]] = Ok [[4; 1; 7]; [4; 0; 6]; [2; 9; 5]].
Proof. split; [repeat constructor; try lia; unfold word; lia|vm_compute; reflexivity]. Qed.

(* C34: quicksort sorts for every shuffle [s] of the input, every tape of comparison answers on ties, every
   threshold and every depth at which it switches to merging; no access is out of range. *)
Theorem C34_quicksort : forall le thres qcmp mcmp depth a s, total_preorder le -> (forall c j, decides le (qcmp c j)) -> decides le mcmp ->
  Permutation a s -> ((0 < length a)%nat \/ -1 <= thres) ->
  exists b, quick_mergesort thres qcmp mcmp depth s = Ok b /\ sorting_of le a b.
Proof.
  intros le thres qcmp mcmp depth a s TP QD MD P H. destruct (quick_mergesort_ok le TP thres qcmp QD mcmp MD depth s) as [b [E [P' S]]].
  - rewrite <- (Permutation_length P). exact H.
  - exists b. split; [exact E|]. split; [now rewrite P|exact S].
Qed.
Print Assumptions C34_quicksort.
Example C34_ex1 : quick_mergesort 1 (fun c j x y => cmp_func Z.ltb Z.eqb 1 true (Some (Nat.even (c + j))) x y) (cmp_func Z.ltb Z.eqb 1 true None) 2
   [[5; 50]; [3; 30]; [9; 90]; [3; 31]; [0; 1]; [7; 70]; [1; 10]] = Ok [[0; 1]; [1; 10]; [3; 31]; [3; 30]; [5; 50]; [7; 70]; [9; 90]].
Proof. vm_compute. reflexivity. Qed.

(* C34: with the comparators the code passes *)
Theorem C34_quicksort_by_keys : forall val lt eq m asc tape thres depth a s, (0 < m)%nat ->
  (forall x y, lt x y = (val x <? val y)) -> (forall x y, eq x y = (val x =? val y)) -> Permutation a s -> ((0 < length a)%nat \/ -1 <= thres) ->
  exists b, quick_mergesort thres (fun c j => cmp_func lt eq m asc (Some (tape c j))) (cmp_func lt eq m asc None) depth s = Ok b /\ sorting_of (key_le val asc m) a b.
Proof.
  intros val lt eq m asc tape thres depth a s M L E P H. apply C34_quicksort; auto.
  - exact (proj1 (cmp_func_ok val lt eq m asc None M L E)).
  - intros c j. exact (proj2 (cmp_func_ok val lt eq m asc _ M L E)).
  - exact (proj2 (cmp_func_ok val lt eq m asc None M L E)).
Qed.
Print Assumptions C34_quicksort_by_keys.
Example C34_ex2 : (0 < 2)%nat /\ (forall x y, Z.ltb x y = (id x <? id y)) /\ Permutation [[1]; [2]] [[2]; [1]].
Proof. split; [lia|]. split; [reflexivity|constructor]. Qed.

(* C34: top-k selection terminates, and the k leading elements stand before all others for every k from k_lo to k_hi. *)
Theorem C34_topk : forall le qcmp klo khi a s, total_preorder le -> (forall c j, decides le (qcmp c j)) -> Permutation a s -> (klo <= khi <= length a)%nat ->
  exists out, quick_select qcmp klo khi s = Ok out /\ selection_of le klo khi a out.
Proof.
  intros le qcmp klo khi a s TP QD P H. destruct (quick_select_ok le TP qcmp QD klo khi s) as [out [E [rest [P' R]]]]; [now rewrite <- (Permutation_length P)|].
  exists out. split; [exact E|]. exists rest. split; [now rewrite P|exact R].
Qed.
Print Assumptions C34_topk.
Example C34_ex3 : quick_select (fun _ _ => topk_cmp (fun x y => y <? x) Z.eqb) 1 3 [[5; 2]; [3; 0]; [9; 1]; [3; 4]; [0; 3]; [7; 8]; [1; 6]] = Ok [[9; 1]; [7; 8]; [5; 2]].
Proof. vm_compute. reflexivity. Qed.
(* the comparison passed to it, for the largest and for the smallest elements *)
Theorem C34_topk_comparator : forall val (lt eq : Z -> Z -> bool) (largest : bool), (forall x y, lt x y = (val x <? val y)) -> (forall x y, eq x y = (val x =? val y)) ->
  total_preorder (key_le val (negb largest) 1) /\
  decides (key_le val (negb largest) 1) (topk_cmp (fun x y => if largest then lt y x else lt x y) eq).
Proof. exact topk_cmp_ok. Qed.
Print Assumptions C34_topk_comparator.
Example C34_ex4 : topk_cmp (fun x y => y <? x) Z.eqb [5; 2] [5; 1] = true /\ key_le id false 1 [5; 2] [5; 1] = true /\ key_le id false 1 [4; 2] [5; 1] = false.
Proof. repeat split. Qed.
