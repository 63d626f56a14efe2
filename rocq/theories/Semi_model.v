(* Model of the semi2k protocol kernels (src/libspu/mpc/semi2k/{arithmetic,boolean,io}.cc).

   Each kernel is the code one party runs; [rank] is comm->getRank().  A joint execution is
   the function from ranks to results.  pforeach loops are modelled by the body at one
   element.  Messages travel through [allreduce], the meaning of Communicator::allReduce
   (the communicator itself is Comm_model.v). *)
From Verif Require Import Base Ring_model.
Open Scope Z_scope.

(* common/communicator.cc:40-73  allReduce(NdArrayRef): a party starts from its own value and
   adds the buffers of the other parties in rank order *)
Definition allreduce (op : Z -> Z -> Z) (n : nat) (X : nat -> Z) (rank : nat) : Z :=
  fold_left op (map X (filter (fun i => negb (i =? rank)%nat) (seq 0 n))) (X rank).
(* common/communicator.h:175-195  allReduce<T, FN>: starts from 0 and takes every buffer *)
Definition allreduce0 (op : Z -> Z -> Z) (n : nat) (X : nat -> Z) : Z :=
  fold_left op (map X (seq 0 n)) 0.

(* the pair (r0, r1) of genPrssPair: party i's r1 is party i+1's r0 (common/prg_state.h:60-66,
   proved of the model of PrgState in Prg_model.v) *)
Definition nextrank (n i : nat) : nat := if (S i =? n)%nat then O else S i.

(* arithmetic.cc:46-60 P2A; 102-118 V2A (P2A is V2A with owner 0) *)
Definition v2a (k : Z) (owner rank : nat) (r0 r1 x : Z) : Z :=
  let z := rsub k r0 r1 in if (rank =? owner)%nat then radd k z x else z.
Definition p2a_all (k : Z) (n : nat) (R : nat -> Z) (x : Z) : nat -> Z :=
  fun i => v2a k 0 i (R i) (R (nextrank n i)) x.
(* only the owner holds the value; the other parties' copy is the constant array 0
   (makeConstantArrayRef), which v2a does not read *)
Definition v2a_all (k : Z) (n : nat) (owner : nat) (R : nat -> Z) (x : Z) : nat -> Z :=
  fun i => v2a k owner i (R i) (R (nextrank n i)) x.
(* arithmetic.cc:62-67 A2P *)
Definition a2p (k : Z) (n : nat) (X : nat -> Z) (rank : nat) : Z := allreduce (radd k) n X rank.
(* arithmetic.cc:69-100 A2V: the owner sums what it gathered; others get the constant array *)
Definition a2v (k : Z) (n : nat) (X : nat -> Z) (owner rank : nat) : Z :=
  if (rank =? owner)%nat then fold_left (fun s i => radd k s (X i)) (seq 0 n) 0 else 0.
(* arithmetic.cc:31-44 RandA: each party shifts its private word right by two bits *)
Definition randa (w : Z) : Z := rshr 2 w.

(* arithmetic.cc:120-123 NegateA; 128-146 AddAP, AddAA; 151-154 MulAP; 463-466 LShiftA *)
Definition negate_a (k x : Z) : Z := rneg k x.
Definition add_ap (k : Z) (rank : nat) (x p : Z) : Z := if (rank =? 0)%nat then radd k x p else x.
Definition add_aa (k x y : Z) : Z := radd k x y.
Definition mul_ap (k x p : Z) : Z := rmul k x p.
Definition lshift_a (k s x : Z) : Z := rshl k s x.
(* arithmetic.cc:443-446 MatMulAP *)
Definition matmul_ap (k : Z) (K : nat) (X P : nat -> nat -> Z) (i j : nat) : Z := ring_mmul k K X P i j.

(* arithmetic.cc:264-282 MulAA: what a party computes from its triple and the opened x-a, y-b *)
Definition mul_aa (k : Z) (rank : nat) (a b c x_a y_b : Z) : Z :=
  let b1 := rmul k b x_a in
  let a1 := rmul k a y_b in
  let b2 := radd k b1 a1 in
  let b3 := radd k b2 c in
  if (rank =? 0)%nat then radd k b3 (rmul k x_a y_b) else b3.
(* arithmetic.cc:284-324 SquareA *)
Definition square_a (k : Z) (rank : nat) (a b x_a : Z) : Z :=
  let z := radd k (rmul k (rmul k a x_a) 2) b in
  if (rank =? 0)%nat then radd k z (rmul k x_a x_a) else z.
(* arithmetic.cc:332-369 MulA1B: the operands fed to MulOpen ... *)
Definition a1b_yy (k y : Z) : Z := Z.land y 1.
Definition a1b_xx (k x y : Z) : Z := rmul k (rsub k 1 (rshl k 1 (a1b_yy k y))) x.
(* ... and the final local computation *)
Definition mul_a1b (k : Z) (rank : nat) (x y a b c xx_a yy_b : Z) : Z :=
  let yy := a1b_yy k y in
  let xx := a1b_xx k x y in
  let b1 := rmul k b xx_a in
  let a1 := rmul k a yy_b in
  let b2 := radd k (radd k b1 a1) c in
  let b3 := rsub k b2 (rmul k xx yy) in
  let b4 := if (rank =? 0)%nat then radd k b3 (rmul k xx_a yy_b) else b3 in
  radd k b4 (rmul k x yy).
(* arithmetic.cc:448-461 MatMulAA, entry (i,j) *)
Definition matmul_aa (k : Z) (K : nat) (rank : nat) (a b c x_a y_b : nat -> nat -> Z) (i j : nat) : Z :=
  let z := radd k (radd k (ring_mmul k K x_a b i j) (ring_mmul k K a y_b i j)) (c i j) in
  if (rank =? 0)%nat then radd k z (ring_mmul k K x_a y_b i j) else z.
(* arithmetic.cc:386-438 MulVVS, two parties: [v] is the party's own private input, [recv] what the
   other party sent (its input plus its mask) *)
Definition mulvvs_send (k a v : Z) : Z := radd k a v.
Definition mulvvs (k : Z) (rank : nat) (a c v recv : Z) : Z :=
  if (rank =? 0)%nat then radd k (rmul k recv v) c
  else radd k (rmul k recv (rneg k a)) c.

(* joint executions given a triple (A,B,C); every party opens x-a and y-b *)
Definition open_diff (k : Z) (n : nat) (X A : nat -> Z) (rank : nat) : Z :=
  allreduce (radd k) n (fun i => rsub k (X i) (A i)) rank.
Definition mul_aa_all (k : Z) (n : nat) (X Y A B C : nat -> Z) : nat -> Z :=
  fun i => mul_aa k i (A i) (B i) (C i) (open_diff k n X A i) (open_diff k n Y B i).
Definition square_a_all (k : Z) (n : nat) (X A B : nat -> Z) : nat -> Z :=
  fun i => square_a k i (A i) (B i) (open_diff k n X A i).
Definition mul_a1b_all (k : Z) (X Y A B C : nat -> Z) : nat -> Z :=
  let XX := fun i => a1b_xx k (X i) (Y i) in
  let YY := fun i => a1b_yy k (Y i) in
  fun i => mul_a1b k i (X i) (Y i) (A i) (B i) (C i) (open_diff k 2 XX A i) (open_diff k 2 YY B i).
Definition matmul_aa_all (k : Z) (n K : nat) (X Y A B C : nat -> nat -> nat -> Z) : nat -> nat -> nat -> Z :=
  fun i => matmul_aa k K i (A i) (B i) (C i)
    (fun r l => open_diff k n (fun p => X p r l) (fun p => A p r l) i)
    (fun l c => open_diff k n (fun p => Y p l c) (fun p => B p l c) i).
Definition mulvvs_all (k : Z) (A C V : nat -> Z) : nat -> Z :=
  fun i => mulvvs k i (A i) (C i) (V i) (mulvvs_send k (A (1 - i)%nat) (V (1 - i)%nat)).

(* arithmetic.cc:475-489 TruncA, two parties: asymmetric local truncation *)
Definition trunc_a2 (k d : Z) (rank : nat) (x : Z) : Z :=
  if (rank =? 0)%nat then rsar k d x else rneg k (rsar k d (rneg k x)).
(* arithmetic.cc:490-510 TruncA, more parties: truncation pair (r, rb) *)
Definition trunc_an (k d : Z) (rank : nat) (x_r rb : Z) : Z :=
  if (rank =? 0)%nat then radd k rb (rsar k d x_r) else rb.
Definition trunc_an_all (k d : Z) (n : nat) (X R RB : nat -> Z) : nat -> Z :=
  fun i => trunc_an k d i (open_diff k n X R i) (RB i).
(* arithmetic.cc:513-581 TruncAPr *)
Definition truncpr_mask (k : Z) (rank : nat) (x r : Z) : Z :=
  radd k (if (rank =? 0)%nat then radd k x (2 ^ (k - 2)) else x) r.
Definition truncpr (k d : Z) (rank : nat) (c rc rb : Z) : Z :=
  let ck_1 := rshr (k - 1) c in
  if (rank =? 0)%nat then
    let b := rsub k (radd k rb ck_1) (rmul k (rmul k 2 ck_1) rb) in
    let c_hat := rshr (1 + d) (rshl k 1 c) in
    let y := radd k (rsub k c_hat rc) (rshl k (k - 1 - d) b) in
    rsub k y (2 ^ (k - 2 - d))
  else
    let b := rsub k (radd k rb 0) (rmul k (rmul k 2 ck_1) rb) in
    radd k (rsub k 0 rc) (rshl k (k - 1 - d) b).
Definition truncpr_all (k d : Z) (n : nat) (X R RC RB : nat -> Z) : nat -> Z :=
  let c := allreduce0 (radd k) n (fun i => truncpr_mask k i (X i) (R i)) in
  fun i => truncpr k d i c (RC i) (RB i).
(* arithmetic.cc:596-606 getTruncField *)
Definition trunc_field (d : Z) : res Z :=
  if d <=? 32 then Ok 32 else if d <=? 64 then Ok 64 else if d <=? 128 then Ok 128 else Err.
(* arithmetic.cc:610-670 computeMW (two parties; kBitsLeftOut = 2, arithmetic.h:298) *)
Definition mw_star (k : Z) (rank : nat) (x : Z) : Z :=
  let L4 := 2 ^ (k - 2) in
  let L2 := 2 * L4 in
  if (rank =? 0)%nat then (if L2 <=? rsub k x L4 then 1 else 0) else (if L2 <=? x then 1 else 0).
Definition mw_all (k w : Z) (A C X : nat -> Z) : nat -> Z :=
  let V := fun i => mw_star k i (X i) in
  fun i => let z := mulvvs_all w A C V i in
           if (i =? 0)%nat then radd w z (rsub w 1 (if X i <? 2 ^ (k - 2) then 1 else 0)) else z.
(* arithmetic.cc:675-716 TruncAPr2; [w] is the width of the truncation field *)
Definition truncpr2 (k d : Z) (rank : nat) (x mw : Z) : Z :=
  radd k (rsub k (rshr d x) (rmul k (wrap k mw) (rshl k (k - d) 1))) (Z.of_nat rank).
Definition truncpr2_all (k d w : Z) (A C X : nat -> Z) : nat -> Z :=
  fun i => truncpr2 k d i (X i) (mw_all k w A C X i).

(* ---- boolean.cc ---- *)
(* core/bit_utils.h:33-45 BitWidth; core/ndarray_ref.h:456-482 maxBitWidth (empty array: width) *)
Definition bitwidth (v : Z) : Z := if v =? 0 then 0 else Z.log2 v + 1.
Definition max_bitwidth (k : Z) (xs : list Z) : Z :=
  match xs with [] => k | _ => fold_left (fun m v => Z.max m (bitwidth v)) xs 0 end.
(* boolean.cc:113-128 P2B, 106-111 B2P *)
Definition v2b (owner rank : nat) (r0 r1 x : Z) : Z :=
  let z := rxor r0 r1 in if (rank =? owner)%nat then rxor z x else z.
Definition p2b_all (n : nat) (R : nat -> Z) (x : Z) : nat -> Z :=
  fun i => v2b 0 i (R i) (R (nextrank n i)) x.
Definition b2p (n : nat) (X : nat -> Z) (rank : nat) : Z := allreduce rxor n X rank.
(* boolean.cc:130-147 AndBP; 210-237 XorBP, XorBB *)
Definition and_bp (x p : Z) : Z := rand_ x p.
Definition xor_bp (rank : nat) (x p : Z) : Z := if (rank =? 0)%nat then rxor x p else x.
Definition xor_bb (x y : Z) : Z := rxor x y.
(* boolean.cc:48-65 getBacktype: bits of the storage type *)
Definition backtype (nb : Z) : res Z :=
  if nb <=? 8 then Ok 8 else if nb <=? 16 then Ok 16 else if nb <=? 32 then Ok 32
  else if nb <=? 64 then Ok 64 else if nb <=? 128 then Ok 128 else Err.
(* boolean.cc:149-208 AndBB: words are masked in the [w]-bit storage type *)
Definition and_bb_all (w : Z) (n : nat) (X Y A B C : nat -> Z) : nat -> Z :=
  let mx := allreduce0 rxor n (fun i => wrap w (rxor (X i) (A i))) in
  let my := allreduce0 rxor n (fun i => wrap w (rxor (Y i) (B i))) in
  fun i =>
    let z := rxor (rxor (C i) (rand_ mx (B i))) (rand_ my (A i)) in
    if (i =? 0)%nat then rxor z (rand_ mx my) else z.
(* result bit counts: boolean.cc:135, 159 (and), 219, 235 (xor), 243-245 (lshift), 254-257 (rshift) *)
Definition nb_and (a b : Z) : Z := Z.min a b.
Definition nb_xor (a b : Z) : Z := Z.max a b.
Definition nb_lshift (k nb s : Z) : Z := Z.min (Z.max 0 (nb + s)) k.
Definition nb_rshift (nb s : Z) : Z := nb - Z.min nb s.
(* boolean.cc:239-269 LShiftB, RShiftB, ARShiftB with one shift amount for all elements *)
Definition lshift_b (k s x : Z) : Z := rshl k s x.
Definition rshift_b (s x : Z) : Z := rshr s x.
Definition arshift_b (k s x : Z) : Z := rsar k s x.
(* boolean.cc:90-104 RandB *)
Definition randb (w : Z) : Z := Z.land w 1.

(* ---- io.cc ---- *)
(* io.cc:37-79 toShares for the three kinds of value; additive_splits is Ring_model.v *)
Inductive vis := VPublic | VPrivate (owner : nat) | VSecret.
Definition to_shares (k : Z) (n : nat) (v : vis) (x : Z) (rs : list Z) : list Z :=
  match v with
  | VPublic => repeat x n
  | VPrivate o => map (fun i => if (i =? o)%nat then x else 0) (seq 0 n)
  | VSecret => additive_splits k x rs
  end.
(* io.cc:81-106 fromShares *)
Inductive kind := KPublic | KPrivate (owner : nat) | KA | KB.
Definition from_shares (k : Z) (kd : kind) (ss : list Z) : res Z :=
  match kd with
  | KPublic => match ss with s :: _ => Ok s | [] => Err end
  | KPrivate o => match nth_error ss o with Some s => Ok s | None => Ub end
  | KA => match ss with [] => Err | _ => Ok (fold_left (radd k) ss 0) end
  | KB => match ss with [] => Err | _ => Ok (fold_left rxor ss 0) end
  end.
Definition kind_of (v : vis) : kind :=
  match v with VPublic => KPublic | VPrivate o => KPrivate o | VSecret => KA end.
