(* Parallel scan and reductions.
   libspu/kernel/hal/utils.h, libspu/kernel/hlo/reduce.cc
   Tensors are seen along the scanned (reduced) axis: the other axes only batch independent rows, so one row is
   modelled, as the list of its elements.  The function argument works elementwise and is modelled by its value on
   one pair of elements.  Values are ring words of k bits. *)
From Verif Require Import Base Ring_model Perm_model.
Open Scope nat_scope.

(* hal::slice with start, end and stride along the row *)
Definition slice1 {A} (l : list A) (start stop step : nat) : res (list A) :=
  rmap (fun j => read l (start + step * j)) (seq 0 ((stop - start + step - 1) / step)).
(* an elementwise function; operands of different shapes are refused *)
Definition vec2 {A} (f : A -> A -> A) (x y : list A) : res (list A) := if length x =? length y then Ok (zipWith f x y) else Err.
(* hal::pad with zero, interior padding 1 *)
Fixpoint inter (l : list Z) : list Z := match l with [] => [] | [x] => [x] | x :: r => x :: 0%Z :: inter r end.
Definition pad1 (l : list Z) (lo hi : nat) : list Z := repeat 0%Z lo ++ inter l ++ repeat 0%Z hi.

(* utils.h:52-127 associative_scan; [fuel] bounds the recursion depth (length suffices, C36_scan) *)
Fixpoint associative_scan (fuel : nat) (k : Z) (fn : Z -> Z -> Z) (l : list Z) : res (list Z) :=
  match fuel with
  | O => Err
  | S f =>
      let N := length l in
      if N <? 2 then Ok l
      else
        rbind (slice1 l 0 (N - 1) 2) (fun odd =>
        rbind (slice1 l 1 N 2) (fun even =>
        rbind (vec2 fn odd even) (fun red =>
        rbind (associative_scan f k fn red) (fun odd_elems =>
        rbind (slice1 odd_elems 0 (if Nat.even N then length odd_elems - 1 else length odd_elems) 1) (fun odd2 =>
        rbind (slice1 l 2 N 2) (fun even2 =>
        rbind (vec2 fn odd2 even2) (fun even_elems =>
        rbind (slice1 l 0 1 1) (fun first =>
        let fe := first ++ even_elems in
        let same := length fe =? length odd_elems in
        vec2 (radd k) (pad1 fe 0 (if same then 1 else 0)) (pad1 odd_elems 1 (if same then 0 else 1))))))))))
  end.

Section Reduce.
Context {A : Type}.
Variable fn : A -> A -> A.
(* utils.h:174-178: the largest power of two not above len *)
Fixpoint lower_exp (fuel len e : nat) : nat :=
  match fuel with O => e | S f => if 2 * e <=? len then lower_exp f len (2 * e) else e end.
(* utils.h:199-206 *)
Fixpoint halving (fuel : nat) (l : list A) : res (list A) :=
  match fuel with
  | O => Err
  | S f =>
      let len := length l in
      if 1 <? len then
        rbind (slice1 l 0 (len / 2) 1) (fun lhs => rbind (slice1 l (len / 2) (2 * (len / 2)) 1) (fun rhs => rbind (vec2 fn lhs rhs) (halving f)))
      else Ok l
  end.
(* utils.h:151-209 associative_reduce *)
Definition associative_reduce (l : list A) : res (list A) :=
  let len := length l in
  if len <? 2 then Ok l
  else
    let e := lower_exp len len 1 in
    rbind (if len =? e then Ok l
           else rbind (slice1 l e len 1) (fun c => rbind (slice1 l (2 * e - len) e 1) (fun b =>
                rbind (vec2 fn c b) (fun t => rbind (slice1 l 0 (2 * e - len) 1) (fun a => Ok (a ++ t))))))
          (halving len).

(* reduce.cc:47-89: the halving loop; returns the remaining row and the stack of tails (top first) *)
Fixpoint tree_down (fuel : nat) (l : list A) (tails : list (list A)) : res (list A * list (list A)) :=
  match fuel with
  | O => Err
  | S f =>
      let len := length l in
      if 1 <? len then
        let half := len / 2 in
        rbind (slice1 l 0 half 1) (fun lhs =>
        rbind (slice1 l half (2 * half) 1) (fun rhs =>
        rbind (if Nat.odd len then rbind (slice1 l (2 * half) len 1) (fun t => Ok (t :: tails)) else Ok tails) (fun tails' =>
        rbind (vec2 fn lhs rhs) (fun out => tree_down f out tails'))))
      else Ok (l, tails)
  end.
(* reduce.cc:98-101 *)
Fixpoint tree_up (l : list A) (tails : list (list A)) : res (list A) :=
  match tails with [] => Ok l | t :: r => rbind (vec2 fn l t) (fun l' => tree_up l' r) end.
(* reduce.cc:31-104 TreeReduce; the tuple of operands is the element type A *)
Definition tree_reduce (l : list A) : res (list A) :=
  rbind (tree_down (S (length l)) l []) (fun '(out, tails) => tree_up out tails).
(* reduce.cc:297-321: one output element; the reshape of the result to a shape with 1 in the reduced axes refuses
   an empty result *)
Definition reduce_row (ignore_init : bool) (init : A) (l : list A) : res A :=
  rbind (tree_reduce l) (fun out =>
  match out with
  | [x] => Ok (if ignore_init then x else fn x init)
  | _ => Err
  end).
End Reduce.
