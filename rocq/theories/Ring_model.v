(* Model of the element bodies of the ring kernels in src/libspu/mpc/utils/ring_ops.cc.

   Elements are unsigned machine words of width k (k = 32, 64, 128 for FM32, FM64, FM128),
   i.e. integers in [0, 2^k).  The loops [pforeach(0, numel, ...)] of that file apply these
   bodies at every index of NdArrayRef views; the views are the subject of Nd_model.v.
   Undefined behaviour of C++ is the outcome [Ub]. *)
From Verif Require Import Base.
Open Scope Z_scope.

(* ring_ops.cc:59-77  DEF_BINARY_RING_OP(ring_add/ring_sub/ring_mul, op): unsigned words *)
Definition radd (k a b : Z) : Z := wrap k (a + b).
Definition rsub (k a b : Z) : Z := wrap k (a - b).
Definition rmul (k a b : Z) : Z := wrap k (a * b).
(* ring_ops.cc:78  ring_equal: the bool converts to 0 or 1 *)
Definition requal (a b : Z) : Z := if a =? b then 1 else 0.
(* ring_ops.cc:80-81  ring_and, ring_xor *)
Definition rand_ (a b : Z) : Z := Z.land a b.
Definition rxor (a b : Z) : Z := Z.lxor a b.
(* ring_ops.cc:41-55  ring_not, ring_neg.  Both read the word as a signed integer.
   [rneg] is two's-complement negation, what the compiled code does; [ring_neg] below
   keeps the fact that negating the most negative value is undefined behaviour in C++. *)
Definition rnot (k a : Z) : Z := wrap k (- sgn k a - 1).
Definition rneg (k a : Z) : Z := wrap k (- sgn k a).
Definition ring_neg (k a : Z) : res Z := if a =? 2 ^ (k - 1) then Ub else Ok (rneg k a).
(* ring_ops.cc:355-366  ring_mul_impl with an uint128 scalar: the product is formed in
   the wider unsigned type (width 128) and truncated to k bits *)
Definition rmul_scalar (k a y : Z) : Z := wrap k (wrap 128 (a * y)).

(* ring_ops.cc:85-136  shifts; amounts outside [0,width) are undefined behaviour *)
Definition rshl (k s x : Z) : Z := wrap k (x * 2 ^ s).
Definition rshr (s x : Z) : Z := x / 2 ^ s.
Definition rsar (k s x : Z) : Z := wrap k (sgn k x / 2 ^ s).
Definition in_shift (k s : Z) : bool := (0 <=? s) && (s <? k).
Definition ring_lshift (k s x : Z) : res Z := if in_shift k s then Ok (rshl k s x) else Ub.
Definition ring_rshift (k s x : Z) : res Z := if in_shift k s then Ok (rshr s x) else Ub.
Definition ring_arshift (k s x : Z) : res Z := if in_shift k s then Ok (rsar k s x) else Ub.

(* ring_ops.cc:138-165  ring_bitrev_impl.  The loop over idx in [start,end) *)
Fixpoint bitrev_loop (n : nat) (x start end_ idx tmp : Z) : Z :=
  match n with
  | O => tmp
  | S n' =>
      let tmp' := if Z.land x (2 ^ idx) =? 0 then tmp
                  else Z.lor tmp (2 ^ (end_ - 1 - idx + start)) in
      bitrev_loop n' x start end_ (idx + 1) tmp'
  end.
(* the shift [(U)1U << end] is undefined when end = width *)
Definition ring_bitrev (k start end_ x : Z) : res Z :=
  if (end_ <? k) && (start <? k) then
    let tmp := bitrev_loop (Z.to_nat (end_ - start)) x start end_ start 0 in
    let mask := wrap k (2 ^ end_ - 2 ^ start) in
    Ok (Z.lor (Z.land x (wrap k (Z.lnot mask))) tmp)
  else Ub.

(* ring_ops.cc:167-190  ring_bitmask_impl *)
Definition ring_bitmask (k low high x : Z) : res Z :=
  if (low <? high) && (high <=? k) then
    let m := if high - low <? k then 2 ^ (high - low) else 0 in
    let mask := rshl k low (wrap k (m - 1)) in
    Ok (Z.land x mask)
  else Err.

(* ring_ops.cc:505-518  ring_sum: left fold starting from the first array *)
Definition ring_sum (k : Z) (xs : list Z) : res Z :=
  match xs with
  | [] => Err
  | [x] => Ok x
  | x :: y :: r => Ok (fold_left (radd k) r (radd k x y))
  end.

(* ring_ops.cc:520-543  ring_all_equal, one element: std::abs of a signed difference.
   Signed overflow of the difference, or abs of the most negative value, is undefined. *)
Definition all_equal_el (k abs_err x y : Z) : res bool :=
  let d := sgn k x - sgn k y in
  if (d <? - 2 ^ (k - 1)) || (2 ^ (k - 1) <=? d) || (d =? - 2 ^ (k - 1)) then Ub
  else Ok (negb (sgn k (wrap k abs_err) <? Z.abs d)).
Fixpoint ring_all_equal (k abs_err : Z) (xs ys : list Z) : res bool :=
  match xs, ys with
  | x :: xs', y :: ys' =>
      rbind (all_equal_el k abs_err x y)
            (fun b => if b then ring_all_equal k abs_err xs' ys' else Ok false)
  | _, _ => Ok true
  end.

(* ring_ops.cc:562-582  ring_select, element body *)
Definition ring_select (c : bool) (x y : Z) : Z := if c then y else x.

(* ring_ops.cc:381-419 and linalg.h:46-103  ring_mmul: matrices are given by their element
   accessors (rows x columns); the Eigen product accumulates unsigned words.  The
   accumulation order inside Eigen is a library matter; a left fold is used here and the
   theorem states the order-independent value. *)
Definition dot_loop (k : Z) (K : nat) (a b : nat -> Z) : Z :=
  fold_left (fun acc l => radd k acc (rmul k (a l) (b l))) (seq 0 K) 0.
Definition ring_mmul (k : Z) (K : nat) (A B : nat -> nat -> Z) (i j : nat) : Z :=
  dot_loop k K (A i) (fun l => B l j).

(* ring_ops.cc:584-614  ring_rand_additive_splits / ring_rand_boolean_splits, element body.
   [rs] are the random words of splits 1..num-1. *)
Definition additive_splits (k x : Z) (rs : list Z) : list Z :=
  fold_left (rsub k) rs x :: rs.
Definition boolean_splits (x : Z) (rs : list Z) : list Z :=
  fold_left rxor rs x :: rs.
