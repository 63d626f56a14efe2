(* The aby3 kernels as a protocol record.  libspu/mpc/aby3/protocol.cc:49-87 *)
From Verif Require Import Base Ring_model Semi_model Aby_model Disp_model.
Open Scope Z_scope.

(* boolean.cc:127-159 P2B, 205-243 AndBP, 297-334 XorBP with the bit width of the whole public array given
   (Aby_model.p2b3, and_bp3 and xor_bp3 compute it from the array, or from its only element) *)
Definition p2b_w (w p : Z) : Aby_model.bsh :=
  mkB (bt w) w (fun i => match i with O => (wrap (bt w) p, 0) | 1%nat => (0, 0) | _ => (0, wrap (bt w) p) end).
Definition and_bp_w (x : Aby_model.bsh) (w p : Z) : Aby_model.bsh :=
  let nb := nb_and (bn x) w in mkB (bt nb) nb (fun i => both (fun v => wrap (bt nb) (rand_ v p)) (bx x i)).
Definition xor_bp_w (x : Aby_model.bsh) (w p : Z) : Aby_model.bsh :=
  let nb := nb_xor (bn x) w in mkB (bt nb) nb (fun i => both (fun v => wrap (bt nb) (rxor v p)) (bx x i)).

(* what kernel call t draws; streams and draws as in Aby_model *)
Record tapes3 := mkTapes3 {
  t3_own : nat -> Z;                       (* the private draw of V2A's owner, of eqz's first role *)
  t3_s : nat -> nat -> nat -> Z;           (* call -> stream -> draw *)
  t3_gate : nat -> nat -> nat -> Z;        (* call -> AND gate -> stream *)
  t3_r : nat -> nat -> nat -> Z; t3_m0 : nat -> nat -> nat -> Z; t3_m1 : nat -> nat -> nat -> Z;   (* B2AByOT: call -> bit -> stream *)
  t3_q : nat -> Z -> nat -> Z;             (* eqz: call -> round -> stream *)
  t3_piv : nat -> Z }.                     (* the public draw that assigns the roles *)

(* SquareA and MulVVS are not registered.  setNumBits changes the type's bit count and keeps the storage type *)
Definition aby_proto (k : Z) (T : tapes3) : proto := {|
  ash := shr; bsh := Aby_model.bsh;
  k_nb := bn;
  k_setnb := fun b nb => mkB (bw b) nb (bx b);
  k_p2a := fun _ p => Ok (p2a3 p);
  k_p2b := fun _ w p => Ok (p2b_w w p);
  k_v2a := fun t o f => Ok (v2a3 k o (f o) (t3_own T t));
  k_a2b := fun t a => a2b3 k (t3_gate T t) 0 a (fun i => t3_s T t i 0%nat);
  k_b2a := fun t b => b2a3 k (t3_gate T t) 0 (t3_piv T t) b (fun i => t3_s T t i 0%nat) (fun i => t3_s T t i 1%nat) (t3_r T t) (t3_m0 T t) (t3_m1 T t);
  k_negate_a := fun _ a => Ok (negate_a3 k a);
  k_add_ap := fun _ a p => Ok (add_ap3 k a p);
  k_add_aa := fun _ a b => Ok (add_aa3 k a b);
  k_mul_ap := fun _ a p => Ok (mul_ap3 k a p);
  k_mul_aa := fun t a b => Ok (mul_aa3 k a b (fun i => t3_s T t i 0%nat));
  k_lshift_a := fun _ a s => lshift_a3 k a s;
  k_and_bp := fun _ b w p => Ok (and_bp_w b w p);
  k_and_bb := fun t b c => Ok (and_bb3 b c (fun i => t3_s T t i 0%nat));
  k_xor_bp := fun _ b w p => Ok (xor_bp_w b w p);
  k_xor_bb := fun _ b c => Ok (xor_bb3 b c);
  k_lshift_b := fun _ b s => lshift_b3 k b s;
  k_rshift_b := fun _ b s => rshift_b3 b s;
  k_arshift_b := fun _ b s => arshift_b3 k b s;
  k_square_a := None;
  k_mul_a1b := Some (fun t a b => mul_a1b3 k (bn b) a (bx b) (t3_s T t));
  k_msb_a2b := Some (fun t a => msb_a2b3 k (t3_gate T t) 0 a (fun i => t3_s T t i 0%nat));
  k_equal_aa := Some (fun t a b => equal_aa3 k (t3_piv T t) a b (t3_own T t) (t3_s T t) (t3_q T t));
  k_equal_ap := Some (fun t a p => equal_ap3 k (t3_piv T t) a p (t3_own T t) (t3_s T t) (t3_q T t));
  k_mul_vvs := None |}.
(* what party rank learns when the value is revealed: api.cc s2p, v2p, p2p *)
Definition reveal3 (k : Z) (T : tapes3) (rank : nat) (x : val (aby_proto k T)) : Z :=
  match x with
  | VP p => p
  | VV o f => f o
  | VA a => a2p3 k a rank
  | VB b => b2p3 k b rank
  end.
