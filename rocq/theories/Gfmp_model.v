(* Arithmetic modulo a Mersenne prime: libspu/mpc/utils/gfmp.h, gfmp_ops.cc. *)
From Verif Require Import Base.
Open Scope Z_scope.

(* core/type_util.h:224-227, 282-294: the prime of a word type, by its width w in bits *)
Definition mexp (w : Z) : Z := if w =? 32 then 31 else if w =? 64 then 61 else 127.
Definition mprime (w : Z) : Z := 2 ^ mexp w - 1.
Definition is_width (w : Z) : Prop := w = 32 \/ w = 64 \/ w = 128.

(* gfmp.h:36-52: the product of two words, through the word twice as wide: (low word, high word) *)
Definition mul_narrow (w x y : Z) : Z * Z :=
  let hi := wrap (2 * w) (x * y) in (wrap w hi, wrap w (Z.shiftr hi w)).
(* gfmp.h:54-78: the product of two 128-bit words by 64-bit halves *)
Definition mul_128 (x y : Z) : Z * Z :=
  let u128 := wrap 128 in
  let xl := wrap 64 (Z.land x (2 ^ 64 - 1)) in let xh := wrap 64 (Z.shiftr x 64) in
  let yl := wrap 64 (Z.land y (2 ^ 64 - 1)) in let yh := wrap 64 (Z.shiftr y 64) in
  let lo0 := u128 (xl * yl) in
  let a := u128 (xl * yh) in let b := u128 (xh * yl) in
  let sa := u128 (Z.shiftl a 64) in let sb := u128 (Z.shiftl b 64) in
  let lo1 := u128 (lo0 + sa) in
  let hi1 := if lo1 <? sa then 1 else 0 in
  let lo2 := u128 (lo1 + sb) in
  let hi2 := u128 (hi1 + if lo2 <? sb then 1 else 0) in
  let hi3 := u128 (hi2 + u128 (xh * yh)) in
  let hi4 := u128 (hi3 + Z.shiftr a 64) in
  let hi5 := u128 (hi4 + Z.shiftr b 64) in
  (lo2, hi5).
Definition mul_wide (w x y : Z) : Z * Z := if w =? 128 then mul_128 x y else mul_narrow w x y.

(* gfmp.h:80-88 *)
Definition mul_mod (w x y : Z) : Z :=
  let '(lo, hi) := mul_wide w x y in
  let p := mprime w in let e := mexp w in
  let ret := wrap w (Z.land lo p + Z.lxor (Z.shiftr lo e) (wrap w (Z.shiftl hi (w - e)))) in
  if p <=? ret then wrap w (ret - p) else ret.
(* gfmp.h:90-95 *)
Definition add_mod (w x y : Z) : Z :=
  let ret := wrap w (x + y) in let p := mprime w in if p <=? ret then wrap w (ret - p) else ret.
(* gfmp.h:97-101 *)
Definition add_inv (w x : Z) : Z := Z.lxor x (mprime w).
(* gfmp.h:103-115; the recursion is bounded by fuel, None when it is used up *)
Fixpoint extend_gcd (fuel : nat) (w a b : Z) : option (Z * Z) :=
  match fuel with
  | O => None
  | S f =>
      if b =? 0 then Some (1, 0)
      else match extend_gcd f w b (a mod b) with
           | None => None
           | Some (y, x) => Some (x, add_mod w y (add_inv w (mul_mod w (a / b) x)))
           end
  end.
(* gfmp.h:117-124 *)
Definition mul_inv (w x : Z) : option Z :=
  match extend_gcd (Z.to_nat (2 * w + 2)) w (mprime w) x with Some (_, y) => Some y | None => None end.
(* gfmp.h:126-132 *)
Definition mod_p (w x : Z) : Z :=
  let p := mprime w in let i := wrap w (Z.land x p + Z.shiftr x (mexp w)) in
  if p <=? i then wrap w (i - p) else i.
(* gfmp.h:134-166: square and multiply; the loop is bounded by fuel *)
Fixpoint exp_loop (fuel : nat) (w power inter n : Z) : option Z :=
  match fuel with
  | O => None
  | S f =>
      let inter' := if Z.odd n then mul_mod w power inter else inter in
      let n' := Z.shiftr n 1 in
      if n' =? 0 then Some inter' else exp_loop f w (mul_mod w power power) inter' n'
  end.
Definition exp_mod (w x n : Z) : option Z :=
  if n =? 0 then Some 1 else if n =? 1 then Some x else exp_loop (Z.to_nat w) w x 1 n.
(* gfmp_ops.cc:91-107 and 109-125, one element *)
Definition sub_mod (w x y : Z) : Z := add_mod w x (add_inv w y).
Definition div_mod (w x y : Z) : option Z :=
  match mul_inv w y with Some z => Some (mul_mod w x z) | None => None end.
