(* The semi2k kernels as a protocol record.  libspu/mpc/semi2k/protocol.cc:51-99 *)
From Verif Require Import Base Ring_model Semi_model Circ_model Conv_model Disp_model.
Open Scope Z_scope.

(* what kernel call t draws: correlated words, the dealer's triples, pairs and random bits; rank -> word at the end *)
Record tapes := mkTapes {
  tp_r : nat -> nat -> Z;                 (* correlated words of V2A, P2A, P2B *)
  tp_a : nat -> nat -> Z; tp_b : nat -> nat -> Z; tp_c : nat -> nat -> Z;     (* MulAA, MulA1B *)
  tp_sa : nat -> nat -> Z; tp_sb : nat -> nat -> Z;                           (* SquareA *)
  tp_va : nat -> nat -> Z; tp_vc : nat -> nat -> Z;                           (* MulVVS *)
  tp_ta : nat -> nat -> Z -> nat -> Z; tp_tb : nat -> nat -> Z -> nat -> Z; tp_tc : nat -> nat -> Z -> nat -> Z;  (* AND gates *)
  tp_prss : nat -> nat -> nat -> Z;       (* A2B re-sharing *)
  tp_bits : nat -> nat -> nat -> Z;       (* B2A random bits *)
  tp_ra : nat -> nat -> Z; tp_rb : nat -> nat -> Z; tp_piv : nat -> nat }.    (* equality *)
(* numbering of the AND gates of the adder tree inside one A2B call *)
Definition gate (l j : nat) : nat := (1000 * l + 50 * j)%nat.

(* mul_vvs, mul_a1b and msb_a2b are registered for two parties only (protocol.cc:89-92).
   The input of a party to MulVVS is chosen by comparing its rank with the owners (arithmetic.cc:398-405). *)
Definition semi_proto (k : Z) (n : nat) (T : tapes) : proto := {|
  ash := nat -> Z; bsh := bshare;
  k_nb := fst;
  k_setnb := fun b nb => (nb, snd b);
  k_p2a := fun t p => Ok (p2a_all k n (tp_r T t) p);
  k_p2b := fun t w p => Ok (w, p2b_all n (tp_r T t) p);
  k_v2a := fun t o f => Ok (v2a_all k n o (tp_r T t) (f o));
  k_a2b := fun t a => a2b k n (tp_ta T t) (tp_tb T t) (tp_tc T t) gate (tp_prss T t) a;
  k_b2a := fun t b => b2a_randbit k n (tp_bits T t) b;
  k_negate_a := fun _ a => Ok (fun i => negate_a k (a i));
  k_add_ap := fun _ a p => Ok (fun i => add_ap k i (a i) p);
  k_add_aa := fun _ a b => Ok (fun i => add_aa k (a i) (b i));
  k_mul_ap := fun _ a p => Ok (fun i => mul_ap k (a i) p);
  k_mul_aa := fun t a b => Ok (mul_aa_all k n a b (tp_a T t) (tp_b T t) (tp_c T t));
  k_lshift_a := fun _ a s => Ok (fun i => lshift_a k s (a i));
  k_and_bp := fun _ b w p => Ok (nb_and (fst b) w, fun i => and_bp (snd b i) p);
  k_and_bb := fun t b c => and_share n (tp_ta T t) (tp_tb T t) (tp_tc T t) 0 b c;
  k_xor_bp := fun _ b w p => Ok (nb_xor (fst b) w, fun i => xor_bp i (snd b i) p);
  k_xor_bb := fun _ b c => Ok (nb_xor (fst b) (fst c), fun i => xor_bb (snd b i) (snd c i));
  k_lshift_b := fun _ b s => Ok (nb_lshift k (fst b) s, fun i => lshift_b k s (snd b i));
  k_rshift_b := fun _ b s => Ok (nb_rshift (fst b) s, fun i => rshift_b s (snd b i));
  k_arshift_b := fun _ b s => Ok (k, fun i => arshift_b k s (snd b i));
  k_square_a := Some (fun t a => Ok (square_a_all k n a (tp_sa T t) (tp_sb T t)));
  k_mul_a1b := if (n =? 2)%nat then Some (fun t a b => Ok (mul_a1b_all k a (snd b) (tp_a T t) (tp_b T t) (tp_c T t))) else None;
  k_msb_a2b := if (n =? 2)%nat then Some (fun t a => msb_a2b k n (tp_ta T t) (tp_tb T t) (tp_tc T t) 0 (tp_prss T t) a) else None;
  k_equal_aa := Some (fun t a b => equal_aa k n (tp_ta T t) (tp_tb T t) (tp_tc T t) 0 (tp_piv T t) (tp_ra T t) (tp_rb T t) a b);
  k_equal_ap := Some (fun t a p => equal_ap k n (tp_ta T t) (tp_tb T t) (tp_tc T t) 0 (tp_piv T t) (tp_ra T t) (tp_rb T t) a p);
  k_mul_vvs := if (n =? 2)%nat then Some (fun t o f o' g =>
      if (o =? o')%nat then Err else Ok (mulvvs_all k (tp_va T t) (tp_vc T t) (fun i => if (i =? o)%nat then f i else g i))) else None |}.
(* what party rank learns when the value is revealed: api.cc s2p, v2p, p2p *)
Definition reveal (k : Z) (n : nat) (T : tapes) (rank : nat) (x : val (semi_proto k n T)) : Z :=
  match x with
  | VP p => p
  | VV o f => f o
  | VA a => a2p k n a rank
  | VB b => b2p n (snd b) rank
  end.
