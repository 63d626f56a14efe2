(* Model of the SecureNN protocol (src/libspu/mpc/securenn/{arithmetic,boolean,conversion,io}.cc): three
   parties, where P0 and P1 hold the data and P2 helps.

   A kernel is given jointly: the code of the three ranks in the order in which messages flow, a message
   being a value computed by its sender and used by its receiver.  Arrays are functions from flat
   indices; pforeach bodies are given at one index.  The kernels that have the same text as in semi2k (A2P, NegateA,
   AddAP, AddAA, MulAP, MatMulAP, LShiftA, B2P, P2B, AndBP, XorBP, XorBB, the shifts and A2B) are those of
   Semi_model.v and Conv_model.v at three parties. *)
From Verif Require Import Base Ring_model Semi_model Conv_model.
Open Scope Z_scope.

Definition arr : Type := nat -> Z.
Definition sharing : Type := nat -> arr.      (* rank, then flat index *)

Section Kernels.
Variable k : Z.                               (* field width *)
(* common/prg_state.h:60-101: the array that the generator with the seed of rank s produces when arrays of the
   listed sizes have been drawn from it before (a draw advances a counter by an amount fixed by its size) *)
Variable F : nat -> list nat -> arr.
(* one party's two generators: sizes drawn from its own seed and from the next party's seed *)
Definition prg : Type := (list nat * list nat)%type.
Definition gens : Type := nat -> prg.
(* genPrssPair with GenPrssCtrl::Both, First, Second: only the named counters move *)
Definition both (p n : nat) (g : prg) : arr * arr * prg := (F p (fst g), F (nextrank 3 p) (snd g), (fst g ++ [n], snd g ++ [n])).
Definition first (p n : nat) (g : prg) : arr * prg := (F p (fst g), (fst g ++ [n], snd g)).
Definition second (p n : nat) (g : prg) : arr * prg := (F (nextrank 3 p) (snd g), (fst g, snd g ++ [n])).
Definition per3 {A} (a b c : A) (p : nat) : A := match p with O => a | S O => b | _ => c end.

(* arithmetic.cc:116-128 P2A *)
Definition p2a3 (n : nat) (g : gens) (x : arr) : sharing * gens :=
  let '(_, r1, g0) := both 0 n (g 0%nat) in
  let '(r0, _, g1) := both 1 n (g 1%nat) in
  let '(_, _, g2) := both 2 n (g 2%nat) in
  (per3 r1 (fun i => rsub k (x i) (r0 i)) (fun _ => 0), per3 g0 g1 g2).
(* arithmetic.cc:65-99 V2A; x is the owner's array *)
Definition v2a3 (n owner : nat) (g : gens) (x : arr) : sharing * gens :=
  let '(r00, r01, g0) := both 0 n (g 0%nat) in
  let '(r10, r11, g1) := both 1 n (g 1%nat) in
  let '(r20, r21, g2) := both 2 n (g 2%nat) in
  let own (p : nat) (a : arr) : arr := if (p =? owner)%nat then fun i => radd k (a i) (x i) else a in
  let s := if (owner =? 2)%nat then
             let sent := fun i => radd k (rsub k (r20 i) (r21 i)) (x i) in      (* P2 to P0 *)
             per3 (fun i => radd k (rsub k (r00 i) (r01 i)) (sent i)) (fun i => rsub k (r10 i) (r11 i)) (fun _ => 0)
           else per3 (own 0%nat r01) (own 1%nat (fun i => rneg k (r10 i))) (fun _ => 0) in
  (s, per3 g0 g1 g2).
(* arithmetic.cc:101-114 RandA: each party's private random word, shifted; G p is what genPriv gives p *)
Definition randa3 (G : sharing) : sharing := fun p i => rshr 2 (G p i).
(* arithmetic.cc:371-378, 447-454, 537-544: P0 and P1 refresh with a sharing of zero *)
Definition refresh (n : nat) (g : gens) (z0 z1 : arr) : sharing * gens :=
  let '(_, s1, g0) := both 0 n (g 0%nat) in
  let '(s0, _, g1) := both 1 n (g 1%nat) in
  let '(_, _, g2) := both 2 n (g 2%nat) in
  (per3 (fun i => rsub k (z0 i) (s1 i)) (fun i => radd k (z1 i) (s0 i)) (fun _ => 0), per3 g0 g1 g2).
(* arithmetic.cc:344-369, 418-445, 510-535: what P0 and P1 do with a triple (a,b,c), their inputs and the messages
   x - a, y - b; m is the bilinear operation.  (MulAA writes ring_mul(y_b, a) for m a y_b) *)
Definition opened (p q : arr) : arr := fun i => radd k (p i) (q i).
Definition diff (x a : arr) : arr := fun i => rsub k (x i) (a i).
Definition finish (m : arr -> arr -> arr) (rank : nat) (a b c x_a y_b : arr) : arr := fun i =>
  let z := radd k (radd k (m x_a b i) (m a y_b i)) (c i) in
  if (rank =? 0)%nat then radd k z (m x_a y_b i) else z.
Definition open_finish (m : arr -> arr -> arr) (X Y : sharing) (a0 b0 c0 a1 b1 c1 : arr) : arr * arr :=
  let xa0 := diff (X 0%nat) a0 in let yb0 := diff (Y 0%nat) b0 in
  let xa1 := diff (X 1%nat) a1 in let yb1 := diff (Y 1%nat) b1 in
  (finish m 0 a0 b0 c0 (opened xa0 xa1) (opened yb0 yb1), finish m 1 a1 b1 c1 (opened xa1 xa0) (opened yb1 yb0)).
(* arithmetic.cc:306-342, 474-508: the triple that P2 deals through the generators; sizes of the operands and result *)
Definition deal (m : arr -> arr -> arr) (n1 n2 n3 : nat) (g : gens) : (arr * arr * arr) * (arr * arr * arr) * gens :=
  let '(a1, a0, h) := both 2 n1 (g 2%nat) in
  let '(b1, b0, h) := both 2 n2 h in
  let '(c0, g2) := second 2 n3 h in
  let c1 := fun i => rsub k (m (opened a0 a1) (opened b0 b1) i) (c0 i) in       (* sent to P1 *)
  let '(pa, h) := first 0 n1 (g 0%nat) in
  let '(pb, h) := first 0 n2 h in
  let '(pc, g0) := first 0 n3 h in
  let '(qa, h) := second 1 n1 (g 1%nat) in
  let '(qb, g1) := second 1 n2 h in
  ((pa, pb, pc), (qa, qb, c1), per3 g0 g1 g2).
(* arithmetic.cc:292-379 MulAA, 457-545 MatMulAA *)
Definition bilinear (m : arr -> arr -> arr) (n1 n2 n3 : nat) (g : gens) (X Y : sharing) : sharing * gens :=
  let '((a0, b0, c0), (a1, b1, c1), g') := deal m n1 n2 n3 g in
  let '(z0, z1) := open_finish m X Y a0 b0 c0 a1 b1 c1 in
  refresh n3 g' z0 z1.
Definition mul_m : arr -> arr -> arr := fun a b i => rmul k (a i) (b i).
(* row-major M x K times K x N *)
Definition mat_m (K N : nat) : arr -> arr -> arr := fun a b i =>
  ring_mmul k K (fun r l => a (r * K + l)%nat) (fun l c => b (l * N + c)%nat) (i / N) (i mod N).
Definition mulaa3 (n : nat) (g : gens) (X Y : sharing) := bilinear mul_m n n n g X Y.
Definition matmulaa3 (M K N : nat) (g : gens) (X Y : sharing) := bilinear (mat_m K N) (M * K) (K * N) (M * N) g X Y.
(* arithmetic.cc:381-455 MatMulAA_simple: P2's ring_rand arrays are a0 a1 b0 b1 c0 *)
Definition matmul_simple3 (M K N : nat) (g : gens) (a0 a1 b0 b1 c0 : arr) (X Y : sharing) : sharing * gens :=
  let m := mat_m K N in
  let c1 := fun i => rsub k (m (opened a0 a1) (opened b0 b1) i) (c0 i) in
  let '(z0, z1) := open_finish m X Y a0 b0 c0 a1 b1 c1 in
  refresh (M * N) g z0 z1.

(* arithmetic.cc:277-287, conversion.cc:176-185: P2's result is moved to P0 *)
Definition move2 (X : nat -> Z) : nat -> Z := per3 (radd k (X 0%nat) (X 2%nat)) (X 1%nat) 0.
(* arithmetic.cc:185-290 TruncAPr at one element; R, RC, RB are the words of genPriv; comm->reduce gives P2 their totals *)
Definition truncapr3 (d : Z) (R RC RB X : nat -> Z) : nat -> Z :=
  let r := allreduce (radd k) 3 R 2 in
  let adjust1 := rsub k (rshr (d + 1) (rshl k 1 r)) (allreduce (radd k) 3 RC 2) in
  let adjust2 := rsub k (rshr (k - 1) r) (allreduce (radd k) 3 RB 2) in
  let RC' := per3 (radd k (RC 0%nat) adjust1) (RC 1%nat) (RC 2%nat) in
  let RB' := per3 (radd k (RB 0%nat) adjust2) (RB 1%nat) (RB 2%nat) in
  move2 (truncpr_all k d 3 X R RC' RB').
(* conversion.cc:96-186 B2A_Randbit at one element: G j p is p's genPriv word for bit j, rnd j P2's ring_randbit.
   The masked word is opened in the field itself *)
Definition randbit3 (G : nat -> nat -> Z) (rnd : nat -> Z) (j : nat) : nat -> Z :=
  let recon := radd k (radd k (G j 2%nat) (G j 0%nat)) (G j 1%nat) in
  per3 (radd k (G j 0%nat) (rsub k (rnd j) recon)) (G j 1%nat) (G j 2%nat).
Definition b2a3 (G : nat -> nat -> Z) (rnd : nat -> Z) (x : bshare) : res (nat -> Z) :=
  let nb := fst x in
  if k <? nb then Err
  else if nb =? 0 then Ok (fun _ => 0)
  else
    let RB := randbit3 G rnd in
    let c := rb_open 3 k (Z.to_nat nb) RB (snd x) in
    Ok (move2 (fun i => fold_left (fun acc j => radd k acc (rshl k (Z.of_nat j) (rb_bit k i (rb_c k k c j) (RB j i)))) (seq 0 (Z.to_nat nb)) 0)).
(* boolean.cc:157-205 AndBB: the triple; field arrays of nf elements are read as arrays of w-bit words.
   The opening and the final step are and_bb_all of Semi_model.v, in which P2 takes part with zero words *)
Definition vview (w : Z) (a : arr) : arr := fun i =>
  let q := Z.to_nat (k / w) in wrap w (rshr (w * Z.of_nat (i mod q)) (a (i / q)%nat)).
Definition and_fields (w : Z) (n : nat) : nat :=
  let bytes := (n * Z.to_nat (w / 8))%nat in
  let fb := Z.to_nat (k / 8) in
  (bytes / fb + if (bytes mod fb =? 0)%nat then 0 else 1)%nat.
Definition and_deal (w : Z) (n : nat) (g : gens) : sharing * sharing * sharing * gens :=
  let nf := and_fields w n in
  let '(a1, a0, h) := both 2 nf (g 2%nat) in
  let '(b1, b0, h) := both 2 nf h in
  let '(c0, g2) := second 2 nf h in
  let c1 := fun i => rxor (rand_ (rxor (a0 i) (a1 i)) (rxor (b0 i) (b1 i))) (c0 i) in
  let '(pa, h) := first 0 nf (g 0%nat) in
  let '(pb, h) := first 0 nf h in
  let '(pc, g0) := first 0 nf h in
  let '(qa, h) := second 1 nf (g 1%nat) in
  let '(qb, g1) := second 1 nf h in
  let z : arr := fun _ => 0 in
  (per3 (vview w pa) (vview w qa) z, per3 (vview w pb) (vview w qb) z, per3 (vview w pc) (vview w c1) z, per3 g0 g1 g2).
Definition and_bb3 (w : Z) (n : nat) (g : gens) (X Y : sharing) : sharing * gens :=
  let '(A, B, C, g') := and_deal w n g in
  (fun p i => and_bb_all w 3 (fun q => X q i) (fun q => Y q i) (fun q => A q i) (fun q => B q i) (fun q => C q i) p, g').

(* io.cc:36-75 toShares of a secret without owner: two additive splits and a zero array *)
Definition to_shares3 (v : vis) (x : Z) (rs : list Z) : list Z :=
  match v with VSecret => additive_splits k x rs ++ [rsub k (nthZ (additive_splits k x rs) 0) (nthZ (additive_splits k x rs) 0)] | _ => to_shares k 3 v x rs end.

(* ---- comparison: arithmetic.cc:556-1189 at one element ---- *)
Definition pz : Z := 131.
(* the words L - 1 = 2^k - 1, and +, - modulo L - 1 as written: correct after an overflow *)
Definition L_1 : Z := 2 ^ k - 1.
Definition b2i (b : bool) : Z := if b then 1 else 0.
Definition add1 (a b : Z) : Z := let s := radd k a b in if s <? a then radd k s 1 else s.
Definition sub1 (a b : Z) : Z := let s := rsub k a b in if a <? b then rsub k s 1 else s.
Definition bitof (x : Z) (i : nat) : Z := Z.land (rshr (Z.of_nat i) x) 1.
(* 673-714 and 1089-1130: one party's side of the private comparison, from bit k-1 down; wt is w_total.  [sel] is
   eta__ (beta in Msb), [r] and [t] the two public bounds.  All arithmetic before % p is on non-negative values below 2^32, so
   no wrap-around is written, except in the last branch, which is in the field.  The code's _u[idx] = _u[idx] % p in that branch
   reduces a word of another element's mask; u is the mask as it is when read *)
Definition pc_w (rank xi bi : Z) : Z := (pz + xi + rank * bi - 2 * bi * xi) mod pz.
Definition pc_c (rank sel r : Z) (ri ti xi ui wt : Z) (i : nat) : Z :=
  if sel =? 0 then (pz + rank * ri - xi + rank + wt) mod pz
  else if negb (r =? L_1) then (pz - rank * ti + xi + rank + wt) mod pz
  else if negb (i =? 1)%nat then (if rank =? 0 then radd k ui 1 else rneg k ui)
  else (if rank =? 0 then ui else rneg k ui).
Fixpoint pc (rank sel r t : Z) (x u s : nat -> Z) (m : nat) (wt : Z) : list Z :=
  match m with
  | O => []
  | S i =>
      let ri := bitof r i in let ti := bitof t i in
      let c := pc_c rank sel r ri ti (x i) (u i) wt i in
      let w := if sel =? 0 then pc_w rank (x i) ri else if negb (r =? L_1) then pc_w rank (x i) ti else 0 in
      rmul k (s i mod (pz - 1) + 1) c mod pz :: pc rank sel r t x u s i ((wt + w) mod pz)
  end.
(* 834-841, 969-977: P2 looks for a zero; the two lists are in step *)
Definition pc_zero (d0 d1 : list Z) : Z := b2i (existsb (fun d => d =? 0) (map (fun '(a, b) => radd k a b mod pz) (combine d0 d1))).
(* 796-802, 935-941: P2's shares modulo p of the bits of x *)
Definition dp0 (rz : nat -> Z) : nat -> Z := rz.
Definition dp1 (x : Z) (rz : nat -> Z) : nat -> Z := fun i => rsub k (bitof x i + pz) (rz i).
(* 556-857 ShareConvert: the words a party draws from the generator common to P0 and P1 (zero, eta__, r0, r1, u, s), and P2's
   random words (shares of delta and eta for P0, masks of the bits of x) *)
Record conv_draw := { zr : Z; er : Z; cr0 : Z; cr1 : Z; cu : nat -> Z; cs : nat -> Z }.
Record conv_help := { delta0 : Z; eta0 : Z; crz : nat -> Z }.
Definition conv_r (R : conv_draw) : Z := radd k (cr0 R) (cr1 R).
(* 608-620: P0 adds r0 to its share, P1 adds r1 *)
Definition conv_mask0 (R : conv_draw) (a0 : Z) : Z := radd k a0 (cr0 R).
Definition conv_mask1 (R : conv_draw) (a1 : Z) : Z := radd k a1 (cr1 R).
(* 728-743 *)
Definition conv_theta (rank : Z) (sel alpha beta delta e : Z) : Z :=
  let eta := if sel =? 0 then e
             else if e =? 0 then 1 - rank else radd k (rsub k L_1 e) (1 - rank) in
  let t := radd k (radd k delta eta) beta in
  let t := if t <? delta then radd k t 1 else t in
  let t' := radd k t ((1 - rank) * (rsub k (rneg k alpha) 1)) in
  if t <? t' then rsub k t' 1 else t'.
(* R0, R1: the draws of P0 and P1.  _r is a view of the variable r, which is reassigned to r - 1 before the
   comparison; t keeps r *)
Definition share_convert (R0 R1 : conv_draw) (H : conv_help) (a0 a1 : Z) : Z * Z :=
  let m := Z.to_nat k in
  let m0 := conv_mask0 R0 a0 in let m1 := conv_mask1 R1 a1 in
  let x := radd k m0 m1 in                                                     (* P2 *)
  let delta := b2i (x <? m0) in
  let sel0 := Z.land (er R0) 1 in let sel1 := Z.land (er R1) 1 in
  let d0 := pc 0 sel0 (rsub k (conv_r R0) 1) (conv_r R0) (dp0 (crz H)) (cu R0) (cs R0) m 0 in
  let d1 := pc 1 sel1 (rsub k (conv_r R1) 1) (conv_r R1) (dp1 x (crz H)) (cu R1) (cs R1) m 0 in
  let e := pc_zero d0 d1 in                                                    (* P2 *)
  let th0 := conv_theta 0 sel0 (b2i (conv_r R0 <? cr0 R0)) (b2i (m0 <? a0)) (delta0 H) (eta0 H) in
  let th1 := conv_theta 1 sel1 (b2i (conv_r R1 <? cr1 R1)) (b2i (m1 <? a1)) (sub1 delta (delta0 H)) (sub1 e (eta0 H)) in
  let y0 := let y := radd k (sub1 a0 th0) (zr R0) in if y <? zr R0 then radd k y 1 else y in
  (y0, sub1 (sub1 a1 th1) (zr R1)).

(* 859-1189 Msb: a party's common draws (beta, u, s, and the zero of the final refresh) and its part of the triple; P2's random
   words: x, its share for P0, the masks of its bits, one split of its lowest bit, one split of beta_ *)
Record msb_draw := { bt : Z; mu : nat -> Z; ms : nat -> Z; mz : Z; ma : Z; mb : Z; mc : Z }.
Record msb_help := { mx : Z; mx0 : Z; mrz : nat -> Z; ml : Z; mbs : Z }.
Definition msb_y (a : Z) : Z := let y := rmul k a 2 in if y <? a then radd k y 1 else y.
Definition msb_x1 (H : msb_help) : Z := sub1 (mx H) (mx0 H).
(* 1042-1057: each party adds the word it received to its own *)
Definition msb_r0 (H : msb_help) (a0 a1 : Z) : Z := add1 (add1 (msb_y a0) (mx0 H)) (add1 (msb_y a1) (msb_x1 H)).
Definition msb_r1 (H : msb_help) (a0 a1 : Z) : Z := add1 (add1 (msb_y a1) (msb_x1 H)) (add1 (msb_y a0) (mx0 H)).
(* 1139-1148 *)
Definition xor_pub (rank v p : Z) : Z :=
  let g := rsub k (rsub k v (rmul k p v)) (rmul k p v) in if rank =? 1 then radd k g p else g.
Definition msb3 (R0 R1 : msb_draw) (H : msb_help) (a0 a1 : Z) : Z * Z :=
  let m := Z.to_nat k in
  let r := msb_r0 H a0 a1 in let r' := msb_r1 H a0 a1 in
  let sel := Z.land (bt R0) 1 in let sel' := Z.land (bt R1) 1 in
  let d0 := pc 0 sel r (radd k r 1) (dp0 (mrz H)) (mu R0) (ms R0) m 0 in
  let d1 := pc 1 sel' r' (radd k r' 1) (dp1 (mx H) (mrz H)) (mu R1) (ms R1) m 0 in
  let beta := pc_zero d0 d1 in                                                 (* P2 *)
  let lsb := additive_splits k (bitof (mx H) 0) [ml H] in                      (* P2 *)
  let bs := additive_splits k beta [mbs H] in                                  (* P2 *)
  let G0 := xor_pub 0 (nthZ bs 0) sel in let G1 := xor_pub 1 (nthZ bs 1) sel' in
  let D0 := xor_pub 0 (nthZ lsb 0) (bitof r 0) in let D1 := xor_pub 1 (nthZ lsb 1) (bitof r' 0) in
  let '(t0, t1) := open_finish mul_m (fun p _ => per3 G0 G1 0 p) (fun p _ => per3 D0 D1 0 p)
    (fun _ => ma R0) (fun _ => mb R0) (fun _ => mc R0) (fun _ => ma R1) (fun _ => mb R1) (fun _ => mc R1) in
  let out G D t := rsub k (rsub k (radd k G D) t) t in
  (rsub k (out G0 D0 (t0 0%nat)) (mz R0), radd k (out G1 D1 (t1 0%nat)) (mz R1)).

(* the draws of the whole kernels: P0 reads the second array of a pair, P1 the first *)
Definition draw3 (n : nat) (g : gens) : arr * arr * gens :=
  let '(_, a, g0) := both 0 n (g 0%nat) in
  let '(b, _, g1) := both 1 n (g 1%nat) in
  let '(_, _, g2) := both 2 n (g 2%nat) in
  (a, b, per3 g0 g1 g2).
Definition at_ (a : arr) (i : nat) : nat -> Z := fun j => a (i * Z.to_nat k + j)%nat.
Definition share_convert3 (n : nat) (g : gens) (H : nat -> conv_help) (A : sharing) : sharing * gens :=
  let nk := (n * Z.to_nat k)%nat in
  let '(z, z', g) := draw3 n g in
  let '(e, e', g) := draw3 n g in
  let '(p, p', g) := draw3 n g in
  let '(q, q', g) := draw3 n g in
  let '(s, s', g) := draw3 nk g in
  let '(u, u', g) := draw3 nk g in
  let out i := share_convert
    {| zr := z i; er := e i; cr0 := p i; cr1 := q i; cu := at_ u i; cs := at_ s i |}
    {| zr := z' i; er := e' i; cr0 := p' i; cr1 := q' i; cu := at_ u' i; cs := at_ s' i |} (H i) (A 0%nat i) (A 1%nat i) in
  (per3 (fun i => fst (out i)) (fun i => snd (out i)) (fun _ => 0), g).
Definition msb_all3 (n : nat) (g : gens) (H : nat -> msb_help) (A : sharing) : sharing * gens :=
  let nk := (n * Z.to_nat k)%nat in
  let '(b, b', g) := draw3 n g in
  let '(s, s', g) := draw3 nk g in
  let '(u, u', g) := draw3 nk g in
  let '((a0, b0, c0), (a1, b1, c1), g) := deal mul_m n n n g in
  let '(z, z', g) := draw3 n g in
  let out i := msb3
    {| bt := b i; mu := at_ u i; ms := at_ s i; mz := z i; ma := a0 i; mb := b0 i; mc := c0 i |}
    {| bt := b' i; mu := at_ u' i; ms := at_ s' i; mz := z' i; ma := a1 i; mb := b1 i; mc := c1 i |} (H i) (A 0%nat i) (A 1%nat i) in
  (per3 (fun i => fst (out i)) (fun i => snd (out i)) (fun _ => 0), g).
(* conversion.cc:188-200 Msb_a2b up to the final A2B (OPT_SECURENN_MSB is not defined) *)
Definition msb_arith (n : nat) (g : gens) (Hc : nat -> conv_help) (Hm : nat -> msb_help) (A : sharing) : sharing * gens :=
  let A2 : sharing := fun p i => radd k (A p i) (A p i) in
  let '(B, g) := share_convert3 n g Hc A2 in
  msb_all3 n g Hm B.
End Kernels.

(* 673-676: w and w_total are declared outside the pforeach and captured by reference, so when the loop is split over
   threads (core/parallel_utils.h) two elements use the same variables.  Two elements processed by two threads; the schedule
   says whose loop iteration runs next (true: the first element); an iteration is atomic here, which C++ does not promise *)
Section Race.
Variables (k rank : Z).
Record elt := { e_sel : Z; e_r : Z; e_t : Z; e_x : nat -> Z; e_u : nat -> Z; e_s : nat -> Z }.
Definition step1 (e : elt) (i : nat) (wt : Z) : Z * Z :=
  let ri := bitof (e_r e) i in let ti := bitof (e_t e) i in
  let c := pc_c k rank (e_sel e) (e_r e) ri ti (e_x e i) (e_u e i) wt i in
  let w := if e_sel e =? 0 then pc_w rank (e_x e i) ri else if negb (e_r e =? L_1 k) then pc_w rank (e_x e i) ti else 0 in
  (rmul k (e_s e i mod (pz - 1) + 1) c mod pz, (wt + w) mod pz).
(* m1, m2: bits still to do; starting an element resets w_total *)
Fixpoint pc2 (e1 e2 : elt) (sched : list bool) (m1 m2 : nat) (wt : Z) : list Z * list Z :=
  match sched with
  | [] => ([], [])
  | true :: sc => match m1 with
                  | O => pc2 e1 e2 sc m1 m2 wt
                  | S i => let wt := if (S i =? Z.to_nat k)%nat then 0 else wt in
                           let '(c, wt) := step1 e1 i wt in let '(l1, l2) := pc2 e1 e2 sc i m2 wt in (c :: l1, l2)
                  end
  | false :: sc => match m2 with
                   | O => pc2 e1 e2 sc m1 m2 wt
                   | S i => let wt := if (S i =? Z.to_nat k)%nat then 0 else wt in
                            let '(c, wt) := step1 e2 i wt in let '(l1, l2) := pc2 e1 e2 sc m1 i wt in (l1, c :: l2)
                   end
  end.
End Race.
