(* Model of the aby3 protocol kernels.
   libspu/mpc/aby3/{arithmetic,boolean,conversion,ot,io,value}.cc

   Three parties of ranks 0, 1, 2.  An element of an AShr or BShr array is, at every party, the pair
   std::array<el_t, 2>; a joint state of one element is a function from ranks to pairs.  Each kernel
   below is the joint execution of one element: party i's result is the value at i, written in terms of
   i's own data, of the values other parties send it, and of its random draws.  pforeach loops are
   modelled by their body at one index.

   Random draws.  genPrssPair/fillPrssPair give party i the stream S i (its "First" generator) and the
   stream S (nextrank i) (its "Second" generator); draw j of a stream is the j-th call on that generator
   (the counters of the two generators advance separately; that parties stay in step is C15).  Draws are
   arbitrary integers reduced to the element type. *)
From Verif Require Import Base Ring_model Semi_model Circ_model.
Open Scope Z_scope.

Definition shr : Type := nat -> Z * Z.
Definition nx (i : nat) : nat := nextrank 3 i.
(* "_out[0] = r0; _out[1] = comm->rotate(r0)" (common/communicator.h:197-215; C45_rotate) *)
Definition rot (z : nat -> Z) : shr := fun i => (z i, z (nx i)).
Definition both (f : Z -> Z) (p : Z * Z) : Z * Z := (f (fst p), f (snd p)).

(* arithmetic.cc:875-879, 1092-1096, 1337-1341; conversion.cc:346-350, 655-659: three roles from a public
   64-bit draw.  The additions are size_t additions.  When two roles fall on the same rank the remaining
   rank reaches SPU_THROW or waits for a message nobody sends: the outcome is [Err]. *)
Definition role (pivot : Z) (j : Z) : nat := Z.to_nat (wrap 64 (pivot + j) mod 3).
Definition with_roles {A} (pivot : Z) (f : nat -> nat -> nat -> A) : res A :=
  let P0 := role pivot 0 in let P1 := role pivot 1 in let P2 := role pivot 2 in
  if (P0 =? P1)%nat || (P1 =? P2)%nat || (P0 =? P2)%nat then Err else Ok (f P0 P1 P2).
Definition by_role {A} (P0 P1 : nat) (a b c : A) : nat -> A :=
  fun i => if (i =? P0)%nat then a else if (i =? P1)%nat then b else c.

Section Arith.
Variable k : Z.       (* field width *)

(* ---- arithmetic.cc ---- *)
(* 120-145 RandA *)
Definition rand_a (S : nat -> Z) : shr := fun i => both (rshr 2) (wrap k (S i), wrap k (S (nx i))).
(* 147-173 A2P: every party receives the second component of the next one *)
Definition a2p3 (X : shr) (rank : nat) : Z := radd k (radd k (fst (X rank)) (snd (X rank))) (snd (X (nx rank))).
(* 220-256 A2V: the owner receives the second component of its successor *)
Definition a2v3 (X : shr) (owner rank : nat) : Z := if (rank =? owner)%nat then a2p3 X rank else 0.
(* 175-218 P2A (without the debug option ENABLE_MASK_DURING_ABY3_P2A) *)
Definition p2a3 (x : Z) : shr := fun i => ((if (i =? 0)%nat then x else 0), (if (i =? 2)%nat then x else 0)).
(* 258-301 V2A; r is the owner's private draw in ring_rand_additive_splits *)
Definition v2a3 (owner : nat) (x r : Z) : shr := fun i =>
  let s := additive_splits k x [wrap k r] in
  let s0 := nth 0 s 0 in let s1 := nth 1 s 0 in
  if (i =? owner)%nat then (s0, s1) else if (i =? nx owner)%nat then (s1, 0) else (0, s0).
(* 303-322 NegateA *)
Definition negate_a3 (X : shr) : shr := fun i => both (fun v => wrap k (- v)) (X i).
(* 327-355 AddAP, 357-379 AddAA, 384-407 MulAP *)
Definition add_ap3 (X : shr) (p : Z) : shr := fun i =>
  ((if (i =? 1)%nat then radd k (fst (X i)) p else fst (X i)), (if (i =? 0)%nat then radd k (snd (X i)) p else snd (X i))).
Definition add_aa3 (X Y : shr) : shr := fun i => (radd k (fst (X i)) (fst (Y i)), radd k (snd (X i)) (snd (Y i))).
Definition mul_ap3 (X : shr) (p : Z) : shr := fun i => both (fun v => rmul k v p) (X i).
(* 409-445 MulAA *)
Definition mul_aa3 (X Y : shr) (S : nat -> Z) : shr := rot (fun i =>
  radd k (radd k (radd k (rmul k (fst (X i)) (fst (Y i))) (rmul k (fst (X i)) (snd (Y i)))) (rmul k (snd (X i)) (fst (Y i))))
         (rsub k (wrap k (S i)) (wrap k (S (nx i))))).
(* 594-610 MatMulAP, 612-661 MatMulAA (CPU path), entry (r, c); inner dimension K *)
Definition matmul_ap3 (K : nat) (X : nat -> nat -> shr) (P : nat -> nat -> Z) (r c : nat) : shr := fun i =>
  (ring_mmul k K (fun a b => fst (X a b i)) P r c, ring_mmul k K (fun a b => snd (X a b i)) P r c).
Definition matmul_aa3 (K : nat) (X Y : nat -> nat -> shr) (S : nat -> Z) (r c : nat) : shr := rot (fun i =>
  let x1 := fun a b => fst (X a b i) in let x2 := fun a b => snd (X a b i) in
  let y1 := fun a b => fst (Y a b i) in let y2 := fun a b => snd (Y a b i) in
  let t0 := ring_mmul k K x1 (fun a b => radd k (y1 a b) (y2 a b)) r c in
  let t2 := ring_mmul k K x2 y1 r c in
  radd k (radd k t0 t2) (rsub k (wrap k (S i)) (wrap k (S (nx i))))).
(* 663-684 LShiftA *)
Definition lshift_a3 (X : shr) (s : Z) : res shr := if in_shift k s then Ok (fun i => both (rshl k s) (X i)) else Ub.

(* 36-101 a1b_offline and 451-589 MulA1B.
   [ot]: ot.cc:79-159; the sender sends m0^w0 and m1^w1, the helper sends w0 or w1 by its choice bit, the
   receiver takes one message by its own choice bit and unmasks it. *)
Definition ot (m0 m1 w0 w1 : Z) (w0' w1' : Z) (c_help c_recv : bool) : Z :=
  rxor (if c_recv then rxor m1 w1 else rxor m0 w0) (if c_help then w1' else w0').
Definition lsb (x : Z) : Z := Z.land x 1.
Definition a1b_msg (j : Z) (b : Z * Z) (a c1 c2 : Z) : Z :=
  rsub k (rsub k (rmul k (rxor (rxor j (lsb (fst b))) (lsb (snd b))) a) c1) c2.
(* B: the boolean share of one bit.  Draw positions: offline(0) before offline(2), then the masks of ot1
   before those of ot2, on each generator separately. *)
Definition mul_a1b3 (nb : Z) (X B : shr) (S : nat -> nat -> Z) : res shr :=
  if nb =? 1 then
    let D := fun g j => wrap k (S g j) in
    let first := fun i j => D i j in
    let second := fun i j => D (nx i) j in
    (* offline(0, a2): sender 0 *)
    let c1_0 := first 0%nat 0%nat in let c2_0 := second 0%nat 0%nat in
    let m0 := a1b_msg 0 (B 0%nat) (snd (X 0%nat)) c1_0 c2_0 in
    let m1 := a1b_msg 1 (B 0%nat) (snd (X 0%nat)) c1_0 c2_0 in
    let h_0 := first 1%nat 0%nat in              (* rank 1 *)
    let v_0 := second 2%nat 0%nat in             (* rank 2 *)
    (* offline(2, a1 + a2): sender 2 *)
    let c1_2 := first 2%nat 0%nat in let c2_2 := second 2%nat 1%nat in
    let a := radd k (fst (X 2%nat)) (snd (X 2%nat)) in
    let q0 := a1b_msg 0 (B 2%nat) a c1_2 c2_2 in
    let q1 := a1b_msg 1 (B 2%nat) a c1_2 c2_2 in
    let h_2 := first 0%nat 1%nat in              (* rank 0 *)
    let v_2 := second 1%nat 0%nat in             (* rank 1 *)
    (* ot1: sender 0, helper 1, receiver 2 *)
    let o1 := ot m0 m1 (second 0%nat 1%nat) (second 0%nat 2%nat) (first 1%nat 1%nat) (first 1%nat 2%nat)
                 (Z.odd (snd (B 1%nat))) (Z.odd (fst (B 2%nat))) in
    (* ot2: sender 2, helper 0, receiver 1 *)
    let o2 := ot q0 q1 (second 2%nat 2%nat) (second 2%nat 3%nat) (first 0%nat 2%nat) (first 0%nat 3%nat)
                 (Z.odd (snd (B 0%nat))) (Z.odd (fst (B 1%nat))) in
    let r1 := fun i => match i with O => (c1_0, c2_0) | 1%nat => (h_0, o1) | _ => (o1, v_0) end in
    let r2 := fun i => match i with O => (h_2, o2) | 1%nat => (o2, v_2) | _ => (c1_2, c2_2) end in
    Ok (fun i => (radd k (fst (r1 i)) (fst (r2 i)), radd k (snd (r1 i)) (snd (r2 i))))
  else Err.

(* 690-741 TruncA (registered when ENABLE_PRECISE_ABY3_TRUNCPR is off, protocol.cc:28, 98-103) *)
Definition trunc_a3 (d : Z) (X : shr) (S : nat -> Z) : res shr :=
  if in_shift k d then
    let r1 := wrap k (S (nx 1)) in
    let z1 := rsub k (rneg k (rsar k d (rneg k (radd k (fst (X 1%nat)) (snd (X 1%nat)))))) r1 in
    Ok (fun i => match i with
                 | O => (rsar k d (fst (X 0%nat)), z1)
                 | 1%nat => (z1, r1)
                 | _ => (wrap k (S 2%nat), rsar k d (snd (X 2%nat)))
                 end)
  else Ub.

(* the final "3-3 re-sharing" of the truncation kernels (e.g. arithmetic.cc:1412-1430): draw j; P0 and P1
   hold the 2-out-of-2 shares t0 and t1 *)
Definition reshare (P0 P1 : nat) (j : nat) (S : nat -> nat -> Z) (t0 t1 : Z) : shr :=
  let first := fun i => wrap k (S i j) in
  let second := fun i => wrap k (S (nx i) j) in
  let P2 := nx P1 in
  let u0 := rsub k t0 (first P0) in
  let u1 := rsub k t1 (second P1) in
  by_role P0 P1 (first P0, radd k u0 u1) (radd k u1 u0, second P1) (first P2, second P2).

(* 1074-1262 TruncAPr with an unknown sign (not registered, protocol.cc:99-101); u1 u2: P2's private draws *)
Definition trunc_apr3 (d pivot : Z) (X : shr) (S : nat -> nat -> Z) (u1 u2 : Z) : res shr :=
  if (0 <=? d) && (d <=? k - 2) then
    with_roles pivot (fun P0 P1 P2 =>
      let first := fun i j => wrap k (S i j) in
      let second := fun i j => wrap k (S (nx i) j) in
      let x0 := radd k (radd k (radd k (fst (X P0)) (snd (X P0))) (2 ^ (k - 2))) (first P0 0%nat) in
      let x1 := radd k (snd (X P1)) (second P1 0%nat) in
      let c0 := radd k x0 x1 in
      let c1 := radd k x1 x0 in
      let r := radd k (first P2 0%nat) (second P2 0%nat) in
      let rb1 := wrap k (- wrap k u1) in
      let rc1 := wrap k (- wrap k u2) in
      let rb0 := radd k (wrap k u1) (rshr (k - 1) r) in
      let rc0 := radd k (wrap k u2) (rshr (d + 1) (rshl k 1 r)) in
      (* lines 1117-1137 and 1184-1193 are the formulas of semi2k's TruncAPr *)
      reshare P0 P1 1 S (truncpr k d 0 c0 rc0 rb0) (truncpr k d 1 c1 rc1 rb1))
  else Ub.

(* 781-847 PrivateMul in a w-bit type; P2's part is at 1036-1056 and 1451-1471 *)
Definition private_mul (w x y : Z) (a c0 b c1 : Z) (a' c0' b' c1' : Z) : Z * Z :=
  let adj := rsub w (rsub w (rmul w a' b') c0') c1' in
  let x_a := radd w x a in
  let y_b := radd w y b in
  (radd w (rmul w x y_b) c0, radd w (rmul w (wrap w (- b)) x_a) (radd w c1 adj)).
(* the masks of PrivateMul drawn by P0, P1 and P2 *)
Definition pm_roles (w : Z) (P0 P1 P2 : nat) (S : nat -> nat -> Z) (x y : Z) : Z * Z :=
  let first := fun i j => wrap w (S i j) in
  let second := fun i j => wrap w (S (nx i) j) in
  private_mul w x y (first P0 0%nat) (first P0 1%nat) (second P1 0%nat) (second P1 1%nat)
                    (second P2 0%nat) (second P2 1%nat) (first P2 0%nat) (first P2 1%nat).
(* 859-1065 TruncPrWithMsbKnown; neg: the sign hint is Negative (else Positive).
   A call of fillPrssPair for 2*numel words is counted as two draws. *)
Definition trunc_msb3 (neg : bool) (d pivot : Z) (X : shr) (S : nat -> nat -> Z) : res shr :=
  if (1 <=? d) && (d <? k) then
    rbind (trunc_field d) (fun w =>
    with_roles pivot (fun P0 P1 P2 =>
      let x0 := radd k (radd k (fst (X P0)) (snd (X P0))) (2 ^ (k - 1)) in
      let x1 := snd (X P1) in
      let m := fun x => let b := wrap w (Z.land (rshr (k - 1) x) 1) in if neg then rsub w 1 b else b in
      let z := pm_roles w P0 P1 P2 S (m x0) (m x1) in
      let w0 := if neg then rsub w 1 (fst z) else fst z in
      let w1 := if neg then rsub w 0 (snd z) else snd z in
      let t0 := rsub k (rsub k (rshr d x0) (rshl k (k - d) (wrap k w0))) (2 ^ (k - d - 1)) in
      let t1 := rsub k (rshr d x1) (rshl k (k - d) (wrap k w1)) in
      reshare P0 P1 2 S t0 t1))
  else Ub.
(* 1268-1318 computeMW, 1325-1490 TruncAPr2 (the registered truncation) *)
Definition trunc_apr23 (d pivot : Z) (X : shr) (S : nat -> nat -> Z) : res shr :=
  if (1 <=? d) && (d <? k) then
    rbind (trunc_field d) (fun w =>
    with_roles pivot (fun P0 P1 P2 =>
      let x0 := radd k (fst (X P0)) (snd (X P0)) in
      let x1 := snd (X P1) in
      let z := pm_roles w P0 P1 P2 S (mw_star k 0 x0) (mw_star k 1 x1) in
      let mw0 := radd w (fst z) (rsub w 1 (if x0 <? 2 ^ (k - 2) then 1 else 0)) in
      let mw1 := snd z in
      let tr := fun x mw => rsub k (rshr d x) (rmul k (wrap k mw) (rshl k (k - d) 1)) in
      reshare P0 P1 2 S (radd k (tr x0 mw0) 1) (tr x1 mw1)))
  else Ub.
End Arith.

(* ---- boolean.cc ---- *)
(* one element of a BShr array: bits of the storage type, bit count, components *)
Record bsh := mkB { bw : Z; bn : Z; bx : shr }.
(* value.cc:88-105 calcBShareBacktype (the same table as Semi_model.backtype, which keeps the SPU_THROW above
   128 bits; no bit count exceeds the field width) *)
Definition bt (nb : Z) : Z := if nb <=? 8 then 8 else if nb <=? 16 then 16 else if nb <=? 32 then 32 else if nb <=? 64 then 64 else 128.
(* integer promotion: a shift of an 8- or 16-bit operand is a 32-bit int shift *)
Definition promoted (v : Z) : Z := Z.max 32 v.

Section Bool.
Variable k : Z.
(* 67-95 RandB: storage type of one bit *)
Definition rand_b3 (S : nat -> Z) : bsh := mkB (bt 1) 1 (fun i => both lsb (wrap k (S i), wrap k (S (nx i)))).
(* 42-65 CastTypeB to type (v, nb) (value conversion between storage types) *)
Definition cast_b3 (v nb : Z) (x : bsh) : bsh := mkB v nb (fun i => both (wrap v) (bx x i)).
(* 97-125 B2P, 161-203 B2V *)
Definition b2p3 (x : bsh) (rank : nat) : Z := wrap k (rxor (rxor (fst (bx x rank)) (snd (bx x rank))) (snd (bx x (nx rank)))).
Definition b2v3 (x : bsh) (owner rank : nat) : Z := if (rank =? owner)%nat then b2p3 x rank else 0.
(* 127-159 P2B; xs is the whole array (maxBitWidth), x one of its elements *)
Definition p2b3 (xs : list Z) (x : Z) : bsh :=
  let nb := max_bitwidth k xs in let v := bt nb in
  mkB v nb (fun i => match i with O => (wrap v x, 0) | 1%nat => (0, 0) | _ => (0, wrap v x) end).
(* 205-243 AndBP, 297-334 XorBP, one public value per array *)
Definition and_bp3 (x : bsh) (p : Z) : bsh :=
  let nb := nb_and (bn x) (bitwidth p) in mkB (bt nb) nb (fun i => both (fun v => wrap (bt nb) (rand_ v p)) (bx x i)).
Definition xor_bp3 (x : bsh) (p : Z) : bsh :=
  let nb := nb_xor (bn x) (bitwidth p) in mkB (bt nb) nb (fun i => both (fun v => wrap (bt nb) (rxor v p)) (bx x i)).
(* 245-295 AndBB; S: draws in the result's storage type *)
Definition and_bb3 (x y : bsh) (S : nat -> Z) : bsh :=
  let nb := nb_and (bn x) (bn y) in let v := bt nb in
  mkB v nb (rot (fun i =>
    let l := bx x i in let r := bx y i in
    wrap v (rxor (rxor (rxor (rand_ (fst l) (fst r)) (rand_ (fst l) (snd r))) (rand_ (snd l) (fst r)))
                 (rxor (wrap v (S i)) (wrap v (S (nx i))))))).
(* 336-373 XorBB *)
Definition xor_bb3 (x y : bsh) : bsh :=
  let nb := nb_xor (bn x) (bn y) in let v := bt nb in
  mkB v nb (fun i => (wrap v (rxor (fst (bx x i)) (fst (bx y i))), wrap v (rxor (snd (bx x i)) (snd (bx y i))))).
(* 375-410 LShiftB, 412-442 RShiftB, one shift for the array; the *_val forms are the results when the shift is defined *)
Definition lshift_val (x : bsh) (s : Z) : bsh :=
  let nb := nb_lshift k (bn x) s in let v := bt nb in mkB v nb (fun i => both (fun a => rshl v s (wrap v a)) (bx x i)).
Definition lshift_b3 (x : bsh) (s : Z) : res bsh :=
  if in_shift (promoted (bw (lshift_val x s))) s then Ok (lshift_val x s) else Ub.
Definition rshift_val (x : bsh) (s : Z) : bsh :=
  let nb := nb_rshift (bn x) s in let v := bt nb in mkB v nb (fun i => both (fun a => wrap v (rshr s a)) (bx x i)).
Definition rshift_b3 (x : bsh) (s : Z) : res bsh := if in_shift (promoted (bw x)) s then Ok (rshift_val x s) else Ub.
(* 444-474 ARShiftB *)
Definition arshift_b3 (x : bsh) (s : Z) : res bsh :=
  if bn x =? k then (if in_shift (promoted (bw x)) s then Ok (mkB (bw x) (bn x) (fun i => both (rsar (bw x) s) (bx x i))) else Ub) else Err.
(* 476-518 BitrevB: the loop is that of ring_bitrev, in the result's storage type; the shift by [end] is an
   int shift in the two narrow types *)
Definition bitrev_el (v start end_ x : Z) : res Z :=
  if (end_ <? promoted v) && (start <? promoted v) then
    let tmp := wrap v (bitrev_loop (Z.to_nat (end_ - start)) x start end_ start 0) in
    let mask := wrap v (2 ^ end_ - 2 ^ start) in
    Ok (Z.lor (Z.land x (wrap v (Z.lnot mask))) tmp)
  else Ub.
Definition bitrev_b3 (x : bsh) (start end_ : Z) : res bsh :=
  if (start <=? end_) && (end_ <=? 128) then
    let nb := Z.max (bn x) end_ in let v := bt nb in
    rbind (bitrev_el v start end_ 0) (fun _ =>
    Ok (mkB v nb (fun i => both (fun a => match bitrev_el v start end_ (wrap v a) with Ok r => r | _ => 0 end) (bx x i))))
  else Err.
(* 520-543 BitIntlB, 545-567 BitDeintlB *)
Definition bitintl_b3 (x : bsh) (s : nat) : res bsh :=
  if has_single_bit (bn x) then Ok (mkB (bw x) (bn x) (fun i => both (bit_intl (bw x) s (bn x)) (bx x i))) else Err.
Definition bitdeintl_b3 (x : bsh) (s : nat) : res bsh :=
  if has_single_bit (bn x) then Ok (mkB (bw x) (bn x) (fun i => both (bit_deintl (bw x) s (bn x)) (bx x i))) else Err.

(* the boolean kernels as operations of the circuits of ab_api.cc; T t: the draws of the t-th AndBB.
   setNumBits (ab_api.cc:224-228) only changes the type and is used with a bit count the storage type holds
   (it is not used by the aby3 circuits at all: its callers, the default bodies of bitintl/bitdeintl, are
   replaced by the kernels above); here it widens the storage type if needed. *)
Variable T : nat -> nat -> Z.
Definition aby_bops : bops bsh :=
  {| b_nb := bn;
     b_setnb := fun x nb => mkB (Z.max (bw x) (bt nb)) nb (bx x);
     b_xor := xor_bb3;
     b_and := fun t x y => Ok (and_bb3 x y (T t));
     b_andp := fun x p => and_bp3 x (wrap k p);
     b_lsh := lshift_val;
     b_rsh := rshift_val;
     b_deintl := bitdeintl_b3 |}.

(* ---- conversion.cc ---- *)
(* 68-97 and 577-604: the two boolean shares whose plaintexts add up to x *)
Definition a2b_m (X : shr) (S : nat -> Z) : bsh := mkB k k (rot (fun i =>
  let r := rxor (wrap k (S i)) (wrap k (S (nx i))) in
  if (i =? 0)%nat then rxor r (radd k (fst (X i)) (snd (X i))) else r)).
Definition a2b_n (X : shr) : bsh := mkB k k (fun i =>
  ((if (i =? 2)%nat then fst (X i) else 0), (if (i =? 1)%nat then snd (X i) else 0))).
(* 46-113 A2B *)
Definition a2b3 (t : nat) (X : shr) (S : nat -> Z) : res bsh := add_bb bsh aby_bops t (a2b_m X S) (a2b_n X).
(* 550-625 MsbA2B *)
Definition msb_a2b3 (t : nat) (X : shr) (S : nat -> Z) : res bsh :=
  let m := a2b_m X S in let n := a2b_n X in
  rbind (carry_a2b bsh aby_bops t m n (k - 1)) (fun carry => Ok (xor_bb3 (rshift_val (xor_bb3 m n) (k - 1)) carry)).
(* 142-253 B2AByPPA; RA, RB: the two PRSS pairs *)
Definition b2a_ppa3 (t : nat) (x : bsh) (RA RB : nat -> Z) : res shr :=
  if bn x <=? k then
    if bn x =? 0 then Ok (fun _ => (0, 0))
    else
      let ex := cast_b3 k k x in
      let r := mkB k k (rot (fun i =>
        let zb := rxor (wrap k (RB i)) (wrap k (RB (nx i))) in
        if (i =? 1)%nat then rxor zb (radd k (wrap k (RA i)) (wrap k (RA (nx i)))) else zb)) in
      rbind (add_bb bsh aby_bops t ex r) (fun s =>
      (* the sum is read through a view of field-sized pairs *)
      if bw s =? k then
        Ok (rot (fun i =>
          if (i =? 0)%nat then rxor (rxor (fst (bx s 0%nat)) (snd (bx s 0%nat))) (fst (bx s 2%nat))
          else wrap k (- wrap k (RA i))))
      else Err)
  else Err.
(* 274-285 bitCompose of the words given for each bit *)
Definition bit_compose (nb : nat) (f : nat -> Z) : Z := fold_left (fun a j => radd k a (rshl k (Z.of_nat j) (f j))) (seq 0 nb) 0.
(* 255-272 bitDecompose (the concurrent writes to one std::vector<bool> are not modelled), 315-458 B2AByOT.
   R j: the PRSS pair of bit j; M0, M1: the streams of the two mask draws, one word per bit *)
Definition b2a_ot3 (pivot : Z) (x : bsh) (R M0 M1 : nat -> nat -> Z) : res shr :=
  if bn x <=? k then
    if bn x =? 0 then Ok (fun _ => (0, 0))
    else with_roles pivot (fun P0 P1 P2 =>
      let nb := Z.to_nat (bn x) in
      let first := fun i j => wrap k (R j i) in
      let second := fun i j => wrap k (R j (nx i)) in
      let tb := fun v j => Z.testbit v (Z.of_nat j) in
      (* sender *)
      let xx := rxor (fst (bx x P2)) (snd (bx x P2)) in
      let tt := fun j => radd k (first P2 j) (second P2 j) in
      let m0 := fun j => rxor (wrap k (M0 j (nx P2))) (rsub k (Z.b2z (tb xx j)) (tt j)) in
      let m1 := fun j => rxor (wrap k (M1 j (nx P2))) (rsub k (Z.b2z (negb (tb xx j))) (tt j)) in
      (* helper *)
      let mc := fun j => if tb (snd (bx x P0)) j then wrap k (M1 j P0) else wrap k (M0 j P0) in
      (* receiver *)
      let c2 := bit_compose nb (fun j => if tb (fst (bx x P1)) j then rxor (m1 j) (mc j) else rxor (m0 j) (mc j)) in
      by_role P0 P1 (bit_compose nb (first P0), c2) (c2, bit_compose nb (second P1))
                    (bit_compose nb (first P2), bit_compose nb (second P2)))
  else Err.
(* 115-127 B2ASelector *)
Definition b2a3 (t : nat) (pivot : Z) (x : bsh) (RA RB : nat -> Z) (R M0 M1 : nat -> nat -> Z) : res shr :=
  if bn x <=? 8 then b2a_ot3 pivot x R M0 M1 else b2a_ppa3 t x RA RB.

(* 765-838: the AND tree of eqz on a word of [c] significant bits; the bytes of a wide word are split into a
   low and a high half, a byte is shifted.  Q c: the PRSS pair of the round started at c bits *)
Fixpoint eqz_tree (fuel : nat) (Q : Z -> nat -> Z) (c : Z) (F : shr) : res shr :=
  if c =? 1 then Ok F
  else match fuel with
  | O => Err
  | S f =>
      let h := c / 2 in
      let w := if c <=? 8 then 8 else h in         (* width of the operands *)
      let left := fun v => if c <=? 8 then rshr h v else wrap h v in
      let right := fun v => if c <=? 8 then v else rshr h v in
      eqz_tree f Q h (rot (fun i =>
        let l := both left (F i) in let r := both right (F i) in
        wrap w (rxor (rxor (rxor (rand_ (fst l) (fst r)) (rand_ (fst l) (snd r))) (rand_ (snd l) (fst r)))
                     (rxor (wrap w (Q c i)) (wrap w (Q c (nx i)))))))
  end.
(* 644-849 eqz; r: P0's private draw, S: streams *)
Definition eqz3 (pivot : Z) (X : shr) (r : Z) (S : nat -> nat -> Z) (Q : Z -> nat -> Z) : res bsh :=
  rbind (with_roles pivot (fun P0 P1 P2 =>
    let first := fun i j => wrap k (S i j) in
    let second := fun i j => wrap k (S (nx i) j) in
    let ra1 := rsub k (wrap k r) (second P0 0%nat) in
    let rb1 := rxor (wrap k r) (second P0 1%nat) in
    let cs1 := radd k (first P1 0%nat) (radd k (fst (X P1)) (snd (X P1))) in
    let cs2 := radd k ra1 (snd (X P2)) in
    let c := radd k cs2 cs1 in
    let flag := rxor (wrap k (Z.lnot (rxor c (first P1 1%nat)))) (first P1 2%nat) in
    by_role P0 P1 (rb1, second P0 2%nat) (first P1 2%nat, flag) (flag, rb1))) (fun F =>
  rbind (eqz_tree (Z.to_nat k) Q k F) (fun out => Ok (mkB (bt 8) 8 out))).
(* 851-873 EqualAA, 875-905 EqualAP *)
Definition equal_aa3 (pivot : Z) (X Y : shr) (r : Z) (S : nat -> nat -> Z) (Q : Z -> nat -> Z) : res bsh :=
  eqz3 pivot (fun i => (rsub k (fst (X i)) (fst (Y i)), rsub k (snd (X i)) (snd (Y i)))) r S Q.
Definition equal_ap3 (pivot : Z) (X : shr) (p : Z) (r : Z) (S : nat -> nat -> Z) (Q : Z -> nat -> Z) : res bsh :=
  eqz3 pivot (fun i => ((if (i =? 1)%nat then rsub k (fst (X i)) p else fst (X i)),
                        (if (i =? 0)%nat then rsub k (snd (X i)) p else snd (X i)))) r S Q.

(* ---- io.cc ---- *)
(* 42-85 toShares of a secret: splits[i] and splits[(i+1)%3] *)
Definition to_shares3 (x r1 r2 : Z) : shr := fun i =>
  let s := additive_splits k x [wrap k r1; wrap k r2] in (nth i s 0, nth (nx i) s 0).
(* 92-135 makeBitSecret: uint8 words; the sum is taken modulo 256, then only the lowest bits are kept *)
Definition make_bit_secret (x r0 r1 : Z) : bsh :=
  let a := Z.land (wrap 8 r0) 1 in let b := Z.land (wrap 8 r1) 1 in
  let c := Z.land (rsub 8 (rsub 8 x (wrap 8 r0)) (wrap 8 r1)) 1 in
  mkB (bt 1) 1 (fun i => match i with O => (a, b) | 1%nat => (b, c) | _ => (c, a) end).
(* 137-189 fromShares: only the first components are used *)
Definition from_shares_a (X : shr) : Z := radd k (radd k (radd k 0 (fst (X 0%nat))) (fst (X 1%nat))) (fst (X 2%nat)).
Definition from_shares_b (x : bsh) : Z := wrap k (rxor (rxor (rxor 0 (fst (bx x 0%nat))) (fst (bx x 1%nat))) (fst (bx x 2%nat))).
End Bool.
