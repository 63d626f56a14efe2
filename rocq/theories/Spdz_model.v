(* Model of the spdz2k protocol: arithmetic shares with MACs (src/libspu/mpc/spdz2k/{arithmetic,io}.cc) over the trusted-first-party
   dealer (beaver/{beaver_tfp,trusted_party}.cc).
   K: bits of the runtime ring, k: bits of the data ring, s: statistical parameter (state.h: K = 2k, s = k); n parties.
   A share of one element is the pair of what every party holds of the value and of its MAC.  Scalars are multiplied modulo 2^128
   first (ring_ops.cc), which agrees modulo 2^K.
   Deviating parties: what they can do to an opening is add an error to the opened value, what they can do to a MAC check is add an
   error to the sum of the committed responses.  Simplified: everybody receives the same opened value.  An honest run has errors 0.
   The OT-based dealer (beaver_tinyot.cc), boolean shares and conversions are not modelled. *)
From Verif Require Import Base Ring_model Semi_model.
Open Scope Z_scope.

Record ash := mkash { av : nat -> Z; am : nat -> Z }.

Section Spdz.
Variables K k s : Z.
Variable n : nat.
(* state.h:56 key_: every party's share of the global key; beaver_tfp.h: the global key, known to rank 0 *)
Variable KS : nat -> Z.
Variable gk : Z.

(* arithmetic.cc:45-61 CastRing from the data ring to the runtime ring (unsigned) and back *)
Definition cast_up (x : Z) : Z := wrap K x.
Definition cast_down (x : Z) : Z := wrap k x.
(* ring_bitmask(x, 0, k) *)
Definition low (x : Z) : Z := x mod 2 ^ k.
(* Communicator::allReduce / reduce with a deviation *)
Definition opening (X : nat -> Z) (err : Z) : Z := radd K (allreduce (radd K) n X 0) err.

(* ---- dealer ---- *)
(* trusted_party.cc:28-54 reconstruct and the adjustment of rank 0's array to make the sum v *)
Definition adjust (R : nat -> Z) (v : Z) : nat -> Z :=
  fun i => if (i =? 0)%nat then radd K (R 0%nat) (rsub K v (allreduce0 (radd K) n R)) else R i.
(* beaver_tfp.cc:47-67 InitSpdzKey: w is rank 0's random seed *)
Definition new_key (w : Z) : Z := w mod 2 ^ s.
Definition key_shares (R : nat -> Z) (w : Z) : nat -> Z := adjust R (new_key w).
(* beaver_tfp.cc:82-98, trusted_party.cc:107-126 AuthCoinTossing: w is the dealer's random word *)
Definition auth_coin (R M : nat -> Z) (w : Z) : ash := let r := low w in mkash (adjust R r) (adjust M (rmul K r gk)).
(* trusted_party.cc:128-147 AuthRandBit *)
Definition auth_bit (R M : nat -> Z) (w : Z) : ash := let r := w mod 2 ^ 1 in mkash (adjust R r) (adjust M (rmul K r gk)).
(* beaver_tfp.cc:118-142, trusted_party.cc:149-176 AuthMul *)
Definition auth_mul (A B C MA MB MC : nat -> Z) : ash * ash * ash :=
  let a := allreduce0 (radd K) n A in let b := allreduce0 (radd K) n B in
  (mkash A (adjust MA (rmul K a gk)), mkash B (adjust MB (rmul K b gk)), mkash (adjust C (rmul K a b)) (adjust MC (rmul K (rmul K a b) gk))).
(* trusted_party.cc:178-205 AuthDot: element (i, j) of the three matrices; Q is the inner dimension *)
Definition auth_dot (Q : nat) (A B C MA MB MC : nat -> nat -> nat -> Z) : (nat -> nat -> ash) * (nat -> nat -> ash) * (nat -> nat -> ash) :=
  let a i j := allreduce0 (radd K) n (fun p => A p i j) in let b i j := allreduce0 (radd K) n (fun p => B p i j) in
  let c := ring_mmul K Q a b in
  (fun i j => mkash (fun p => A p i j) (adjust (fun p => MA p i j) (rmul K (a i j) gk)),
   fun i j => mkash (fun p => B p i j) (adjust (fun p => MB p i j) (rmul K (b i j) gk)),
   fun i j => mkash (adjust (fun p => C p i j) (c i j)) (adjust (fun p => MC p i j) (rmul K (c i j) gk))).
(* the arithmetic shift of the low k bits (d < k, so that the shift counts stay below K): arithmetic.cc:608-612, trusted_party.cc:252-255 *)
Definition tr_low (d x : Z) : Z := low (rsar K (K - k + d) (rshl K (K - k) x)).
(* trusted_party.cc:236-267 AuthTrunc *)
Definition auth_trunc (d : Z) (R RB M MB : nat -> Z) : ash * ash :=
  let r := low (allreduce0 (radd K) n R) in
  (mkash (adjust R r) (adjust M (rmul K r gk)), mkash (adjust RB (tr_low d r)) (adjust MB (rmul K (tr_low d r) gk))).
(* beaver_tfp.cc:69-80 AuthArrayRef: the MAC of a value, from an authenticated coin *)
Definition auth_array (X : nat -> Z) (coin : ash) : nat -> Z :=
  let x_r := allreduce (radd K) n (fun i => rsub K (X i) (av coin i)) 0 in
  fun i => if (i =? 0)%nat then radd K (am coin i) (rmul K x_r gk) else am coin i.

(* ---- opening and checking ---- *)
(* beaver_tfp.cc:251-270 BatchOpen: the share masked above the k low bits *)
Definition masked (x coin : ash) : ash :=
  mkash (fun i => radd K (av x i) (rshl K k (av coin i))) (fun i => radd K (am x i) (rshl K k (am coin i))).
(* beaver_tfp.cc:278-328 BatchMacCheck of N opened values; coins: genPublCoin; resp: what deviating parties add to the responses *)
Definition mac_check (N : nat) (coins : nat -> Z) (open_value : nat -> Z) (mac : nat -> nat -> Z) (resp : Z) : bool :=
  let c j := coins j mod 2 ^ s in
  let check_value := ring_mmul K N (fun _ l => c l) (fun l _ => open_value l) 0 0 in
  let z i := rsub K (ring_mmul K N (fun _ l => c l) (fun l _ => mac l i) 0 0) (rmul K check_value (KS i)) in
  let plain_z := radd K (allreduce0 (radd K) n z) resp in
  (if k + s =? 0 then plain_z else plain_z mod 2 ^ (k + s)) =? 0.

(* ---- kernels ---- *)
(* arithmetic.cc:63-75 zero_a_impl *)
Definition zero_a (R M : nat -> Z) : ash :=
  mkash (fun i => rsub K (R i) (R (nextrank n i))) (fun i => rsub K (M i) (M (nextrank n i))).
(* io.cc:47-86 toShares of a secret: no MAC *)
Definition to_shares (x : Z) (rs : list Z) : ash := mkash (fun i => nthZ (additive_splits K (cast_up x) rs) i) (fun _ => 0).
(* io.cc:88-130 fromShares *)
Definition from_shares (x : ash) : Z := cast_down (low (fold_left (fun acc i => radd K acc (av x i)) (seq 0 n) 0)).
(* arithmetic.cc:78-93 GetMacShare *)
Definition get_mac (has_mac : bool) (x coin : ash) : ash := if has_mac then x else mkash (av x) (auth_array (av x) coin).
(* arithmetic.cc:95-113 RandA: W are the parties' private random words *)
Definition rand_a (W : nat -> Z) (coin : ash) : ash := let x := fun i => rshr 2 (W i) in mkash x (auth_array x coin).
(* arithmetic.cc:115-132 P2A *)
Definition p2a (R M : nat -> Z) (x : Z) : ash :=
  let z := zero_a R M in
  mkash (fun i => if (i =? 0)%nat then radd K (av z i) (cast_up x) else av z i) (fun i => radd K (am z i) (rmul K (cast_up x) (KS i))).
(* arithmetic.cc:192-213 V2A *)
Definition v2a_s (owner : nat) (R M : nat -> Z) (x : Z) (coin : ash) : ash :=
  let z := zero_a R M in
  let v := fun i => if (i =? owner)%nat then radd K (av z i) (cast_up x) else av z i in
  mkash v (fun i => radd K (am z i) (auth_array v coin i)).
(* arithmetic.cc:215-227 NegateA, 232-272 AddAP and AddAA, 433-447 MulAP, 571-583 LShiftA; operands have their MACs *)
Definition neg_a (x : ash) : ash := mkash (fun i => rneg K (av x i)) (fun i => rneg K (am x i)).
Definition add_ap_s (x : ash) (p : Z) : ash :=
  mkash (fun i => if (i =? 0)%nat then radd K (av x i) (cast_up p) else av x i) (fun i => radd K (am x i) (rmul K (cast_up p) (KS i))).
Definition add_aa_s (x y : ash) : ash := mkash (fun i => radd K (av x i) (av y i)) (fun i => radd K (am x i) (am y i)).
Definition mul_ap_s (x : ash) (p : Z) : ash := mkash (fun i => rmul K (av x i) (cast_up p)) (fun i => rmul K (am x i) (cast_up p)).
Definition lshift_s (b : Z) (x : ash) : ash := mkash (fun i => rshl K b (av x i)) (fun i => rshl K b (am x i)).
Definition sub_s (x y : ash) : ash := mkash (fun i => rsub K (av x i) (av y i)) (fun i => rsub K (am x i) (am y i)).
(* arithmetic.cc:515-528 MatMulAP *)
Definition matmul_ap_s (Q : nat) (x : nat -> nat -> ash) (P : nat -> nat -> Z) (i j : nat) : ash :=
  mkash (fun p => ring_mmul K Q (fun a b => av (x a b) p) (fun a b => cast_up (P a b)) i j) (fun p => ring_mmul K Q (fun a b => am (x a b) p) (fun a b => cast_up (P a b)) i j).

(* arithmetic.cc:134-151 A2P of N elements *)
Definition a2p_s (N : nat) (x coin : nat -> ash) (coins : nat -> Z) (err : nat -> Z) (resp : Z) : res (nat -> Z) :=
  let t j := opening (av (masked (x j) (coin j))) (err j) in
  if mac_check N coins t (fun j => am (masked (x j) (coin j))) resp then Ok (fun j => cast_down (low (t j))) else Err.
(* arithmetic.cc:163-171: the receiver's mask, authenticated *)
Definition a2v_mask (rank : nat) (R M : nat -> Z) (r : Z) (coin : ash) : ash :=
  let z := zero_a R M in
  let v := fun i => if (i =? rank)%nat then radd K (av z i) r else av z i in
  mkash v (fun i => radd K (am z i) (auth_array v coin i)).
(* arithmetic.cc:153-190 A2V: what the receiving rank computes; r is its mask *)
Definition a2v_s (rank N : nat) (x coin coin' : nat -> ash) (R M : nat -> nat -> Z) (r : nat -> Z) (coins : nat -> Z) (err : nat -> Z) (resp : Z) : res (nat -> Z) :=
  let m j := masked (add_aa_s (x j) (a2v_mask rank (R j) (M j) (r j) (coin' j))) (coin j) in
  let t j := opening (av (m j)) (err j) in
  if mac_check N coins t (fun j => am (m j)) resp then Ok (fun j => cast_down (low (rsub K (t j) (r j)))) else Err.
(* arithmetic.cc:493-507: the product from the opened differences *)
Definition beaver_s (a b c : ash) (e f : Z) : ash :=
  let ef := rmul K e f in
  mkash (fun i => let z := radd K (radd K (rmul K e (av b i)) (rmul K f (av a i))) (av c i) in if (i =? 0)%nat then radd K z ef else z)
        (fun i => radd K (radd K (radd K (rmul K e (am b i)) (rmul K f (am a i))) (am c i)) (rmul K ef (KS i))).
(* arithmetic.cc:455-510 MulAA of N elements; two checks *)
Definition mul_aa_s (N : nat) (x y : nat -> ash) (tr : nat -> ash * ash * ash) (coins1 coins2 erre errf : nat -> Z) (resp1 resp2 : Z) : res (nat -> ash) :=
  let e j := sub_s (x j) (fst (fst (tr j))) in
  let f j := sub_s (y j) (snd (fst (tr j))) in
  let pe j := opening (av (e j)) (erre j) in
  let pf j := opening (av (f j)) (errf j) in
  if mac_check N coins1 pe (fun j => am (e j)) resp1 then
    if mac_check N coins2 pf (fun j => am (f j)) resp2 then
      Ok (fun j => beaver_s (fst (fst (tr j))) (snd (fst (tr j))) (snd (tr j)) (pe j) (pf j))
    else Err
  else Err.
(* arithmetic.cc:530-569 MatMulAA: nothing is checked *)
Definition matmul_aa_s (Q : nat) (x y a b c : nat -> nat -> ash) (erre errf : nat -> nat -> Z) (i j : nat) : ash :=
  let pe i j := opening (av (sub_s (x i j) (a i j))) (erre i j) in
  let pf i j := opening (av (sub_s (y i j) (b i j))) (errf i j) in
  let ef := ring_mmul K Q pe pf i j in
  mkash (fun p => let z := radd K (radd K (ring_mmul K Q pe (fun u v => av (b u v) p) i j) (ring_mmul K Q (fun u v => av (a u v) p) pf i j)) (av (c i j) p) in
                  if (p =? 0)%nat then radd K z ef else z)
        (fun p => radd K (radd K (radd K (ring_mmul K Q pe (fun u v => am (b u v) p) i j) (ring_mmul K Q (fun u v => am (a u v) p) pf i j)) (am (c i j) p)) (rmul K ef (KS p))).
(* arithmetic.cc:587-625 TruncA of N elements *)
Definition trunc_s (d : Z) (N : nat) (x : nat -> ash) (tr : nat -> ash * ash) (coin : nat -> ash) (coins err : nat -> Z) (resp : Z) : res (nat -> ash) :=
  let m j := masked (sub_s (x j) (fst (tr j))) (coin j) in
  let t j := opening (av (m j)) (err j) in
  if mac_check N coins t (fun j => am (m j)) resp then
    Ok (fun j => let q := tr_low d (t j) in let rb := snd (tr j) in
                 mkash (fun i => if (i =? 0)%nat then radd K (av rb i) q else av rb i) (fun i => radd K (am rb i) (rmul K q (KS i))))
  else Err.
End Spdz.
