(* Model of the two-party exponential of semi2k through a prime field:
     src/libspu/mpc/semi2k/exp.cc, src/libspu/mpc/semi2k/prime_utils.cc
   One element of the arrays; w is the width of the ring, the prime is that of Gfmp_model.  Two parties: index 0 and 1.
   Simplified: the rounded double 2^fraction * 2^fxp of each party and the rounded scale are integer arguments; the dealer's
   correlated pair for the ring is an argument (BeaverTfpUnsafe::MulPriv is Beaver_model.tfp_mul_priv). *)
From Verif Require Import Base Ring_model Gfmp_model.
Open Scope Z_scope.

(* prime_utils.cc:25-58 ProbConvRing2k; the sums are of type uint128_t *)
Definition prob_conv (w s : Z) (rank : nat) (x : Z) : Z :=
  let p1 := mprime w - 1 in let masked := Z.land x (2 ^ s - 1) in
  if (rank =? 0)%nat then masked mod p1 else wrap 128 (masked + p1 - 2 ^ s) mod p1.

(* prime_utils.cc:98-118 MulPriv: x is the party's value, ab its half of the dealer's factors, c its share of their product, m the
   message of the other party *)
Definition priv_msg (w ab x : Z) : Z := radd w ab x.
Definition priv_end (w : Z) (rank : nat) (x ab c m : Z) : Z :=
  if (rank =? 0)%nat then radd w c (rmul w m x) else rsub w c (rmul w m ab).
Definition mul_priv (w : Z) (X AB C : nat -> Z) : nat -> Z := fun r =>
  priv_end w r (X r) (AB r) (C r) (priv_msg w (AB (1 - r)%nat) (X (1 - r)%nat)).
(* prime_utils.cc:120-139 MulPrivModMP *)
Definition mul_priv_mp (w : Z) (X AB C : nat -> Z) : nat -> Z := fun r =>
  let m := add_mod w (AB (1 - r)%nat) (X (1 - r)%nat) in
  if (r =? 0)%nat then add_mod w (C r) (mul_mod w m (X r)) else sub_mod w (C r) (mul_mod w m (AB r)).

(* prime_utils.cc:147-176 WrapBitModMP *)
Definition below_half (w h : Z) : Z := if h <? Z.shiftr (mprime w) 1 then 1 else 0.
Definition wrap_bit (w : Z) (H AB C : nat -> Z) : nat -> Z := fun r =>
  let b := mul_priv w (fun q => below_half w (H q)) AB C r in
  if (r =? 0)%nat then wrap w (1 - b) else wrap w (- b).
(* prime_utils.cc:179-200 ConvMP; t is truncate_nbits *)
Definition conv_mp (w t : Z) (H AB C : nat -> Z) : nat -> Z := fun r =>
  wrap w (Z.shiftr (H r) t - Z.shiftr (mprime w) t * wrap_bit w H AB C r).

(* exp.cc:30-94 ExpA::proc.  scale: exp_conv_scale; off: offset; tf: total_fxp; fxp: fraction bits; fr q: the rounded double of
   party q (80-86), a function of its share after scaling *)
Definition scaled (w scale off tf : Z) (r : nat) (x : Z) : Z :=
  let y := rmul w x scale in if (r =? 0)%nat then radd w y (wrap w (Z.shiftl off tf)) else y.
Definition exp_local (w fxp scale off tf : Z) (fr : nat -> Z -> Z) (r : nat) (x : Z) : option Z :=
  let y := scaled w scale off tf r x in
  let i := prob_conv w (w - fxp) r (rsar w tf y) in
  match exp_mod w 2 i with Some v => Some (mul_mod w v (fr r y)) | None => None end.
Definition exp_a (w fxp scale off tf : Z) (fr : nat -> Z -> Z) (X AB C AB' C' : nat -> Z) : option (nat -> Z) :=
  match exp_local w fxp scale off tf fr 0 (X 0%nat), exp_local w fxp scale off tf fr 1 (X 1%nat) with
  | Some v0, Some v1 => Some (conv_mp w (off + fxp) (mul_priv_mp w (fun q => if (q =? 0)%nat then v0 else v1) AB C) AB' C')
  | _, _ => None
  end.

(* the dealer's pair modulo the prime, two parties: beaver_tfp.cc:137-167 MulPriv with kGfmp, trusted_party.cc:37-81 reduce and 127-141
   adjustMulPriv; D r is what party r's generator draws for c (gfmp_rand: below p), AB r what it draws for its factor *)
Definition deal_adjust (w : Z) (AB D : nat -> Z) : Z := sub_mod w (mul_mod w (AB 0%nat) (AB 1%nat)) (add_mod w (D 0%nat) (D 1%nat)).
Definition deal_c (w : Z) (AB D : nat -> Z) : nat -> Z := fun r => if (r =? 0)%nat then add_mod w (D r) (deal_adjust w AB D) else D r.
