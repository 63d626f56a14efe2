(* Sorting by compare-and-swap: the odd-even merge network, quicksort and top-k selection.
   libspu/kernel/hal/permute.cc
   The operands of a sort (keys and payload columns, one-dimensional, of equal length) are modelled by the
   list of their rows: every gather, scatter or swap of the code uses the same index list for all operands.
   A comparator call works elementwise on vectors; it is modelled by its value on one pair of rows (the
   comparators of quicksort and top-k also depend on random columns: they get the number of the call and
   of the element).  An int64 interval [lo, hi] is represented by (lo, hi + 1) so that all numbers are
   natural.  Values are ring words of k bits. *)
From Verif Require Import Base Ring_model Prg_model Perm_model.
Open Scope Z_scope.

Definition row : Type := list Z.
Definition gather (a : list row) (idx : list nat) : res (list row) := rmap (read a) idx.
Fixpoint scatter (a : list row) (vals : list row) (idx : list nat) : res (list row) :=
  match vals, idx with
  | v :: vs, i :: is => rbind (write a i v) (fun a' => scatter a' vs is)
  | _, _ => Ok a
  end.

(* ---- the network ---- *)
(* permute.cc:279-291: the loop over i, left at the first rhs_idx >= n *)
Fixpoint pairs_i (n gap step j : nat) (cnt i : nat) : list (nat * nat) :=
  match cnt with
  | O => []
  | S c =>
      let l := (i + j)%nat in let r := (i + j + step)%nat in
      if (n <=? r)%nat then []
      else (if (l / (gap + gap) =? r / (gap + gap))%nat then [(l, r)] else []) ++ pairs_i n gap step j c (S i)
  end.
(* permute.cc:277-292: the loop over j *)
Fixpoint pairs_j (fuel n gap step j : nat) : list (nat * nat) :=
  match fuel with
  | O => []
  | S f => if (j + step <? n)%nat then pairs_i n gap step j step 0 ++ pairs_j f n gap step (j + (step + step)) else []
  end.
Definition net_pairs (n gap step : nat) : list (nat * nat) := pairs_j n n gap step (step mod gap).
(* permute.cc:272: step = gap, gap/2, ..., 1 *)
Fixpoint net_steps (fuel n gap step : nat) : list (list (nat * nat)) :=
  match fuel with
  | O => []
  | S f => if (0 <? step)%nat then net_pairs n gap step :: net_steps f n gap (step / 2) else []
  end.
(* permute.cc:270-271: gap = 1, 2, 4, ... while below n.  [layers n] lists the comparisons layer by layer *)
Fixpoint net_stages (fuel n gap : nat) : list (list (nat * nat)) :=
  match fuel with
  | O => []
  | S f => if (gap <? n)%nat then net_steps (S gap) n gap gap ++ net_stages f n (gap + gap) else []
  end.
Definition layers (n : nat) : list (list (nat * nat)) := net_stages n n 1.

(* permute.cc:217-244 _cmp_swap; the second row is computed as fst + sec - chosen in the ring *)
Definition other_row (k : Z) (f s g : row) : row := zipWith (rsub k) (zipWith (radd k) f s) g.
Definition cmp_swap (k : Z) (cmp : row -> row -> bool) (a : list row) (ps : list (nat * nat)) : res (list row) :=
  let lhs := map fst ps in let rhs := map snd ps in
  rbind (gather a lhs) (fun fs =>
  rbind (gather a rhs) (fun ss =>
  let gs := zipWith (fun f s => if cmp f s then f else s) fs ss in
  let ls := zipWith (fun f '(s, g) => other_row k f s g) fs (combine ss gs) in
  rbind (scatter a gs lhs) (fun a' => scatter a' ls rhs))).
Fixpoint run_layers (f : list row -> list (nat * nat) -> res (list row)) (ls : list (list (nat * nat))) (a : list row) : res (list row) :=
  match ls with [] => Ok a | l :: r => rbind (f a l) (run_layers f r) end.
(* permute.cc:249-300 odd_even_merge_sort *)
Definition odd_even_merge_sort (k : Z) (cmp : row -> row -> bool) (a : list row) : res (list row) :=
  run_layers (cmp_swap k cmp) (layers (length a)) a.

(* permute.cc:46-91 _get_cmp_func: the value on one pair of rows.  [lt], [eq]: hal::less and hal::equal on one
   element; [rnd] the appended random bit, if any *)
Fixpoint cmp_keys (lt eq : Z -> Z -> bool) (asc : bool) (x y : row) (keys i : nat) (pre res_ : bool) : bool * bool :=
  match keys with
  | O => (pre, res_)
  | S m =>
      let pre' := pre && eq (nthZ x (i - 1)) (nthZ y (i - 1)) in
      let cur := if asc then lt (nthZ x i) (nthZ y i) else lt (nthZ y i) (nthZ x i) in
      cmp_keys lt eq asc x y m (S i) pre' (res_ || (pre' && cur))
  end.
Definition cmp_func (lt eq : Z -> Z -> bool) (num_keys : nat) (asc : bool) (rnd : option bool) (x y : row) : bool :=
  let first := if asc then lt (nthZ x 0) (nthZ y 0) else lt (nthZ y 0) (nthZ x 0) in
  let '(pre, r) := cmp_keys lt eq asc x y (num_keys - 1) 1 true first in
  match rnd with
  | None => r
  | Some b => r || (pre && eq (nthZ x (num_keys - 1)) (nthZ y (num_keys - 1)) && b)
  end.

(* permute.cc:1805-1821: the comparison of top-k on rows (value, random value); [sc] the scalar comparison *)
Definition topk_cmp (sc : Z -> Z -> bool) (eq : Z -> Z -> bool) (x y : row) : bool :=
  sc (nthZ x 0) (nthZ y 0) || (eq (nthZ x 0) (nthZ y 0) && sc (nthZ x 1) (nthZ y 1)).

(* ---- quicksort ---- *)
(* permute.cc:302-319 Swap *)
Definition swap_rows (a : list row) (ps : list (nat * nat)) : res (list row) :=
  match ps with
  | [] => Ok a
  | [(l, r)] => if (l =? r)%nat then Ok a else
      rbind (gather a [l]) (fun lv => rbind (gather a [r]) (fun rv => rbind (scatter a lv [r]) (fun a' => scatter a' rv [l])))
  | _ =>
      rbind (gather a (map fst ps)) (fun lv => rbind (gather a (map snd ps)) (fun rv =>
      rbind (scatter a lv (map snd ps)) (fun a' => scatter a' rv (map fst ps))))
  end.
(* the two-pointer scan, permute.cc:447-465 and 667-684: [pred i] is the revealed comparison "pivot before
   element i"; right is kept as r = right + 1 *)
Fixpoint scan_up (fuel : nat) (pred : nat -> bool) (left r : nat) : nat :=
  match fuel with O => left | S f => if (left <? r)%nat && negb (pred left) then scan_up f pred (S left) r else left end.
Fixpoint scan_down (fuel : nat) (pred : nat -> bool) (left r : nat) : nat :=
  match fuel with O => r | S f => if (left <? r)%nat && pred (r - 1)%nat then scan_down f pred left (r - 1) else r end.
Fixpoint scan (fuel : nat) (pred : nat -> bool) (left r : nat) : list (nat * nat) * (nat * nat) :=
  let left := scan_up (r - left) pred left r in
  let r := scan_down (r - left) pred left r in
  if (r <=? left)%nat then ([], (left, r))
  else match fuel with
  | O => ([], (left, r))
  | S f => let '(ps, e) := scan f pred (S left) (r - 1) in ((left, (r - 1)%nat) :: ps, e)
  end.

Section Quick.
Variable thres : Z.                                     (* quick_sort_threshold of the runtime configuration *)
Variable qcmp : nat -> nat -> row -> row -> bool.       (* call number, element number *)
Variable mcmp : row -> row -> bool.
Definition small (iv : nat * nat) : bool := Z.of_nat (snd iv) - 1 - Z.of_nat (fst iv) <=? thres.

(* permute.cc:353-399 _construct_cmp_values: (pivot, other) positions of all large intervals *)
Definition cmp_positions (ivs : list (nat * nat)) : list (nat * nat) :=
  flat_map (fun '(lo, e) => map (fun x => (lo, x)) (seq (S lo) (e - S lo))) (filter (fun iv => negb (small iv)) ivs).
(* permute.cc:430-475: what the loop over the intervals collects: swaps, pivot swaps, (lo, mid, hi) *)
Fixpoint partition_scan (pred : list bool) (len : nat) (ivs : list (nat * nat)) : list (nat * nat) * list (nat * nat) * list (nat * nat * nat) :=
  match ivs with
  | [] => ([], [], [])
  | (lo, e) :: rest =>
      if small (lo, e) then partition_scan pred len rest
      else
        let '(ps, (_, r)) := scan (e - lo) (fun i => nth (i - S lo + len) pred false) (S lo) e in
        let mid := (r - 1)%nat in
        let '(sw, pv, pos) := partition_scan pred (len + (e - S lo)) rest in
        (ps ++ sw, (lo, mid) :: pv, (lo, mid, e) :: pos)
  end.
(* permute.cc:401-493 Partition, the c-th call; None: "return false" *)
Definition partition (c : nat) (a : list row) (ivs : list (nat * nat)) : res (option (list row * list (nat * nat))) :=
  match ivs with
  | [] => Ok None
  | _ =>
      if forallb small ivs then Ok None
      else
        let ps := cmp_positions ivs in
        rbind (gather a (map fst ps)) (fun piv =>
        rbind (gather a (map snd ps)) (fun oth =>
        let pred := zipWith (fun j '(p, x) => qcmp c j p x) (seq 0 (length ps)) (combine piv oth) in
        let '(sw, pv, pos) := partition_scan pred 0 ivs in
        rbind (swap_rows a sw) (fun a1 =>
        rbind (swap_rows a1 pv) (fun a2 =>
        Ok (Some (a2, filter small ivs ++
          flat_map (fun '(lo, mid, e) => (if (lo <? mid)%nat then [(lo, mid)] else []) ++ (if (S mid <? e)%nat then [(S mid, e)] else [])) (rev pos)))))))
  end.

(* permute.cc:497-572 mergesort: layer c of all intervals is done together *)
Definition shift_pairs (lo : nat) (ps : list (nat * nat)) : list (nat * nat) := map (fun '(l, r) => ((l + lo)%nat, (r + lo)%nat)) ps.
Fixpoint add_layers (acc : list (list (nat * nat))) (ls : list (list (nat * nat))) : res (list (list (nat * nat))) :=
  match ls, acc with
  | [], _ => Ok acc
  | l :: ls', x :: acc' => rbind (add_layers acc' ls') (fun r => Ok ((x ++ l) :: r))
  | _ :: _, [] => Ub            (* lhs_indices[cnt] past its end *)
  end.
Fixpoint merge_layers (acc : list (list (nat * nat))) (ivs : list (nat * nat)) : res (list (list (nat * nat))) :=
  match ivs with
  | [] => Ok acc
  | (lo, e) :: rest =>
      if (e <=? S lo)%nat then merge_layers acc rest
      else rbind (add_layers acc (map (shift_pairs lo) (layers (e - lo)))) (fun acc' => merge_layers acc' rest)
  end.
Definition log2c (n : nat) : nat := Nat.log2_up n.     (* Log2Ceil, bit_utils.h:27-30 *)
Definition reveal_swap (a : list row) (ps : list (nat * nat)) : res (list row) :=
  match ps with
  | [] => Ok a
  | _ => rbind (gather a (map fst ps)) (fun fs =>
         rbind (gather a (map snd ps)) (fun ss =>
         let pred := zipWith mcmp fs ss in
         swap_rows a (map fst (filter (fun '(_, b) => negb b) (combine ps pred)))))
  end.
Definition mergesort (a : list row) (ivs : list (nat * nat)) : res (list row) :=
  let n := log2c (length a) in
  rbind (merge_layers (repeat [] ((S n * n) / 2)) ivs) (fun ls => run_layers reveal_swap ls a).

(* permute.cc:586-598: at most [depth] (1000) calls of Partition *)
Fixpoint quick_loop (depth c : nat) (a : list row) (ivs : list (nat * nat)) : res (list row * list (nat * nat)) :=
  match ivs with
  | [] => Ok (a, [])
  | _ =>
    match depth with
    | O => Ok (a, ivs)
    | S d => rbind (partition c a ivs) (fun o =>
             match o with None => Ok (a, ivs) | Some (a', ivs') => quick_loop d (S c) a' ivs' end)
    end
  end.
(* permute.cc:574-606 QuickMergesort *)
Definition quick_mergesort (depth : nat) (a : list row) : res (list row) :=
  rbind (quick_loop depth 0 a [(0%nat, length a)]) (fun '(a', ivs) =>
  match ivs with [] => Ok a' | _ => mergesort a' ivs end).

(* ---- top-k ---- *)
Variables klo khi : nat.
(* permute.cc:321-351 *)
Definition small_array (c : nat) (a : list row) (lo e : nat) : res (list row) :=
  if (e =? S (S lo))%nat then
    rbind (read a lo) (fun x => rbind (read a (S lo)) (fun y =>
    if qcmp c 0 x y then Ok a else swap_rows a [(lo, S lo)]))
  else Ok a.
(* permute.cc:637-702 TwoWayPartition: the new array and the intervals pushed, in order; comparisons with k - 1
   are written without subtraction *)
Definition two_way (c : nat) (a : list row) (lo e : nat) : res (list row * list (nat * nat)) :=
  let ps := map (fun x => (lo, x)) (seq (S lo) (e - S lo)) in
  rbind (gather a (map fst ps)) (fun piv =>
  rbind (gather a (map snd ps)) (fun oth =>
  let pred := zipWith (fun j '(p, x) => qcmp c j p x) (seq 0 (length ps)) (combine piv oth) in
  let '(sw, (lft, r)) := scan (e - lo) (fun i => nth (i - S lo) pred false) (S lo) e in
  let right := (r - 1)%nat in
  rbind (swap_rows a sw) (fun a1 =>
  rbind (swap_rows a1 [(lo, right)]) (fun a2 =>
  if (klo <=? right)%nat && (S right <? khi)%nat
  then Ok (a2, [(lo, right); (lft, e)])
  else
    let e' := if (khi <=? S right)%nat then right else e in
    let lo' := if (S right <=? klo)%nat then lft else lo in
    Ok (a2, [(lo', e')]))))).
(* permute.cc:724-735: the stack of intervals (its top first) *)
Fixpoint select_loop (fuel c : nat) (a : list row) (st : list (nat * nat)) : res (list row) :=
  match st with
  | [] => Ok a
  | (lo, e) :: rest =>
    match fuel with
    | O => Err
    | S f =>
        if (e <=? S (S lo))%nat
        then rbind (small_array c a lo e) (fun a' => select_loop f (S c) a' rest)
        else rbind (two_way c a lo e) (fun '(a', new) => select_loop f (S c) a' (rev new ++ rest))
    end
  end.
(* permute.cc:704-738 QuickSelectTopk on the rows (value, random value, index); 1764-1767 the checks of topk_1d.
   The fuel 2n+2 is never exhausted (C34_topk) *)
Definition quick_select (a : list row) : res (list row) :=
  if (khi <=? length a)%nat && (klo <=? khi)%nat then
    rbind (select_loop (2 * length a + 2) 0 a [(0%nat, length a)]) (fun a' => Ok (firstn khi a'))
  else Err.
End Quick.
