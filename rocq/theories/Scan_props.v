(* C36, C37: parallel scan and reductions are folds. *)
From Verif Require Import Base Ring_model Ring_spec Fold Scan_model Scan_proof.
Open Scope nat_scope.

(* C36: position i of the scan is the fold of the first i+1 elements, in order, for every associative operator on
   ring words (not necessarily commutative), every length, every word size; the recursion depth is covered *)
Theorem C36_scan (k : Z) (fn : Z -> Z -> Z) (l : list Z) :
  (0 <= k)%Z -> (forall a b c, fn a (fn b c) = fn (fn a b) c) -> (forall x y, word k x -> word k y -> word k (fn x y)) -> Forall (word k) l ->
  exists out, associative_scan (S (length l)) k fn l = Ok out /\ length out = length l /\
    forall i, i < length l -> fold1 fn (firstn (S i) l) = Some (nth i out 0%Z).
Proof.
  intros K A W F. destruct (scan_ok k fn A W K (S (length l)) l) as [out [E [L [_ S]]]]; [lia|lia|exact F|].
  exists out. split; [exact E|]. split; [exact L|]. intros i I. rewrite fold1_msum by exact A. symmetry. now apply S.
Qed.
Print Assumptions C36_scan.
Example C36_scan_add : associative_scan 8 32 (radd 32) [1; 2; 3; 4; 5; 6; 4294967295]%Z = Ok [1; 3; 6; 10; 15; 21; 20]%Z.
Proof. reflexivity. Qed.
(* a non-commutative operator meeting the hypotheses *)
Example C36_scan_first : associative_scan 6 32 (fun a _ => a) [7; 2; 3; 4; 5]%Z = Ok [7; 7; 7; 7; 7]%Z /\
  (forall a b c : Z, (fun a _ : Z => a) a ((fun a _ : Z => a) b c) = (fun a _ : Z => a) ((fun a _ : Z => a) a b) c).
Proof. split; reflexivity. Qed.
Example C36_scan_last : associative_scan 7 32 (fun _ b => b) [7; 2; 3; 4; 5; 9]%Z = Ok [7; 2; 3; 4; 5; 9]%Z.
Proof. reflexivity. Qed.

(* C36: the associated reduction is the fold of the row, for every associative and commutative operator *)
Theorem C36_reduce {A} (fn : A -> A -> A) (l : list A) :
  (forall a b c, fn a (fn b c) = fn (fn a b) c) -> (forall a b, fn a b = fn b a) -> l <> [] ->
  exists v, associative_reduce fn l = Ok [v] /\ fold1 fn l = Some v.
Proof. exact (fun a c => associative_reduce_ok fn a c l). Qed.
Print Assumptions C36_reduce.
Example C36_reduce_ex : associative_reduce Z.max [3; 9; 4; 1; 5]%Z = Ok [9]%Z.
Proof. reflexivity. Qed.
(* associativity alone, which the name asks for, is not enough: the folding of the excess elements swaps operands *)
Theorem C36_reduce_noncommutative_refuted : exists (fn : Z -> Z -> Z) l v, (forall a b c, fn a (fn b c) = fn (fn a b) c) /\
  associative_reduce fn l = Ok [v] /\ fold1 fn l <> Some v.
Proof. exists (fun _ b => b), [1; 2; 3]%Z, 2%Z. repeat split. cbv. discriminate. Qed.
Print Assumptions C36_reduce_noncommutative_refuted.

(* C37: tree reduction of a row, without and with the initial value *)
Theorem C37_tree_reduce {A} (f : A -> A -> A) (l : list A) :
  (forall a b c, f a (f b c) = f (f a b) c) -> (forall a b, f a b = f b a) -> l <> [] ->
  exists v, tree_reduce f l = Ok [v] /\ fold1 f l = Some v.
Proof. exact (fun a c => tree_reduce_ok f a c l). Qed.
Print Assumptions C37_tree_reduce.
Theorem C37_reduce {A} (f : A -> A -> A) ignore_init (init : A) (l : list A) :
  (forall a b c, f a (f b c) = f (f a b) c) -> (forall a b, f a b = f b a) -> l <> [] ->
  exists v, reduce_row f ignore_init init l = Ok v /\ fold1 f (if ignore_init then l else init :: l) = Some v.
Proof. exact (fun a c => reduce_row_ok f a c ignore_init init l). Qed.
Print Assumptions C37_reduce.
Example C37_ex : reduce_row Z.add false 100%Z [1; 2; 3; 4; 5; 6; 7]%Z = Ok 128%Z /\ reduce_row Z.add true 100%Z [1; 2; 3; 4; 5; 6; 7]%Z = Ok 28%Z.
Proof. split; reflexivity. Qed.
(* an associative operator that does not commute is folded in another order *)
Theorem C37_noncommutative_refuted : exists (f : list Z -> list Z -> list Z) l v, (forall a b c, f a (f b c) = f (f a b) c) /\
  tree_reduce f l = Ok [v] /\ fold1 f l <> Some v.
Proof. exists (@app Z), [[1]; [2]; [3]; [4]]%Z, [1; 3; 2; 4]%Z. split; [intros; apply app_assoc|]. split; [reflexivity|cbv; discriminate]. Qed.
Print Assumptions C37_noncommutative_refuted.
(* an empty reduced axis is refused although the fold with the initial value is the initial value *)
Theorem C37_empty_axis_refuted : exists (f : Z -> Z -> Z) (init : Z) (l : list Z), fold1 f (init :: l) = Some init /\ reduce_row f false init l = Err.
Proof. exists Z.add, 7%Z, []. split; reflexivity. Qed.
Print Assumptions C37_empty_axis_refuted.
