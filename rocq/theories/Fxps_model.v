(* The fixed-point kernels of semi2k: TruncAPr, TruncAPr2 and BitrevB. *)
From Verif Require Import Base Ring_model Semi_model Circ_model Conv_model Disp_model Disps_model Fxp_model.
Open Scope Z_scope.

(* The correlated randomness of the truncations: element t of the run, number of bits, rank.
   TruncAPr draws a word, its shifted low part and its top bit; TruncAPr2 draws the two inputs and the shares of the
   product of MulVVS. *)
Record trunc_tapes := mkTT {
  tt_r : nat -> Z -> nat -> Z; tt_rc : nat -> Z -> nat -> Z; tt_rb : nat -> Z -> nat -> Z;
  tt_va : nat -> Z -> nat -> Z; tt_vc : nat -> Z -> nat -> Z }.

(* semi2k/protocol.cc:75-85: TruncAPr for more than two parties, TruncAPr2 otherwise (with trunc_allow_msb_error unset,
   the default; TruncA, which it selects, is not covered here).  Both ignore the sign hint (arithmetic.cc:517-594, 675-716).
   boolean.cc:271-281 BitrevB: every party reverses its own share; the outcome of the checks of ring_bitrev depends on
   start and end only, so it is the same for every party *)
Definition semi_trunc (k : Z) (n : nat) (TT : trunc_tapes) (t : nat) (a : nat -> Z) (bits : Z) (_ : sign_hint) : res (nat -> Z) :=
  if (2 <? n)%nat then Ok (truncpr_all k bits n a (tt_r TT t bits) (tt_rc TT t bits) (tt_rb TT t bits))
  else rbind (trunc_field bits) (fun w => Ok (truncpr2_all k bits w (tt_va TT t bits) (tt_vc TT t bits) a)).
Definition bitrev_share (k start end_ x : Z) : Z := match ring_bitrev k start end_ x with Ok y => y | _ => 0 end.
Definition semi_bitrev (k : Z) (b : bshare) (start end_ : Z) : res bshare :=
  if (start <=? end_) && (end_ <=? k) then
    rbind (ring_bitrev k start end_ (snd b 0%nat)) (fun _ => Ok (Z.max (fst b) end_, fun i => bitrev_share k start end_ (snd b i)))
  else Err.
Definition semi_fxp (k : Z) (n : nat) (T : tapes) (TT : trunc_tapes) : fxp_kernels (semi_proto k n T) :=
  mkFk (semi_proto k n T) (semi_trunc k n TT) (fun _ => semi_bitrev k).
