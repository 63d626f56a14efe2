(* Fixed-point multiplication, reciprocal and division of values of any visibility.
   libspu/kernel/hal/fxp_base.cc, hal/ring.cc (_trunc, _bitrev), mpc/api.cc (trunc_s, bitrev_s), mpc/common/pv2k.cc.
   One element of each array, as in Disp_model.v.  Data types are not carried: every value here is fixed point with
   f = getFxpBits() fraction bits (the checks x.isFxp(), x.dtype() == y.dtype() hold).
   f_reciprocal_p and f_div_p, used when every operand is public, compute in double and are not modelled. *)
From Verif Require Import Enc_model.
From Verif Require Import Base Ring_model Semi_model Pv_model Disp_model.
Open Scope list_scope. Open Scope Z_scope.

(* libspu/core/type_util.h: SignType *)
Inductive sign_hint := Unknown | Positive | Negative.

(* the kernels trunc_a and bitrev_b of a protocol: call number, operand, parameters *)
Record fxp_kernels (pr : proto) := mkFk {
  k_trunc_a : nat -> ash pr -> Z -> sign_hint -> res (ash pr);
  k_bitrev_b : nat -> bsh pr -> Z -> Z -> res (bsh pr) }.
Arguments k_trunc_a {pr}. Arguments k_bitrev_b {pr}.
Definition lift {A} (r : res A) : M A := fun t => rbind r (fun a => Ok (a, t)).

Section Fxp.
Variable k : Z.
Variable pr : proto.
Variable fk : fxp_kernels pr.
Variable others : nat -> Z.
Variable f : Z.               (* SPUContext::getFxpBits *)
Notation val := (val pr).
Notation const := (const k pr).
Notation hal_add := (hal_add k pr). Notation hal_sub := (hal_sub k pr). Notation hal_mul := (hal_mul k pr).
Notation hal_mux := (hal_mux k pr). Notation hal_negate := (hal_negate k pr).

(* ring.cc:196-209 _trunc; api.cc:683-699 trunc_s, trunc_v, trunc_p; pv2k.cc:603-649 rounded_arshift, TruncP, TruncV
   (which ignore the hint) *)
Definition v_un_res (op : Z -> res Z) (o : nat) (g : nat -> Z) : M val :=
  y <- lift (op (g o)) ;; ret (VV o (fun i => if (i =? o)%nat then y else g i)).
Definition hal_trunc (x : val) (bits : Z) (sign : sign_hint) : M val :=
  let bits := if bits =? 0 then f else bits in
  match x with
  | VP p => y <- lift (rounded_arshift k bits p) ;; ret (VP y)
  | VV o g => v_un_res (rounded_arshift k bits) o g
  | _ => a <- to_a pr x ;; bop pr (fun t => k_trunc_a fk t a bits sign) VA
  end.
(* ring.cc:212-224 _bitrev; api.cc:703-715 bitrev_s, bitrev_v, bitrev_p; pv2k.cc:651-689 BitrevP, BitrevV *)
Definition bitrev_pv (start end_ p : Z) : res Z := if (start <=? end_) && (end_ <=? k) then ring_bitrev k start end_ p else Err.
Definition hal_bitrev (x : val) (start end_ : Z) : M val :=
  match x with
  | VP p => y <- lift (bitrev_pv start end_ p) ;; ret (VP y)
  | VV o g => v_un_res (bitrev_pv start end_) o g
  | _ => b <- to_b pr x ;; bop pr (fun t => k_bitrev_b fk t b start end_) VB
  end.
(* constants.cc:71-97 constant of a float: encoded as a public fixed-point word (C02) *)
Definition fconst (x : flt) : M val := c <- lift (encode_float k f PT_F32 x) ;; ret (const c).
(* 312-319 f_mul; 375-381 f_square *)
Definition f_mul (x y : val) (sign : sign_hint) : M val := p <- hal_mul x y ;; hal_trunc p f sign.
Definition f_square (x : val) : M val := p <- hal_square k pr x ;; hal_trunc p f Positive.
(* 296-302 f_add, 304-310 f_sub, 269-274 f_negate: _add, _sub, _negate *)

(* 81-85 highestOneBit *)
Definition highest_one_bit (x : val) : M val :=
  y <- hal_prefix_or k pr others x ;; y1 <- hal_rshift pr y 1 ;; hal_xor pr others y y1.
(* 96-102 maskNumberOfBits: the mask is a public array of equal elements *)
Definition mask_number_of_bits (x : val) (nbits : Z) : M val :=
  s <- hal_lshift k pr (const 1) nbits ;; m <- hal_sub s (const 1) ;; hal_and pr (fun _ => 0) x m.

(* 133-138, the loop; todo = iterations left *)
Fixpoint goldschmidt_loop (todo : nat) (one r e : val) : M val :=
  match todo with
  | O => ret r
  | S m =>
      s <- hal_add e one ;; r' <- f_mul r s Positive ;;
      match m with
      | O => ret r'
      | _ => e' <- f_square e ;; goldschmidt_loop m one r' e'
      end
  end.
(* 122-128: the configured number of iterations, at least 3 from 30 fraction bits on *)
Definition num_iters (iters : nat) : nat := if 30 <=? f then Nat.max iters 3 else iters.
(* 105-141 reciprocal_goldschmidt_normalized_approx; 2.9142F is the float 12223041 * 2^-22 *)
Definition normalized_approx (iters : nat) (b_abs factor : val) : M val :=
  c <- f_mul b_abs factor Positive ;;
  k2_9142 <- fconst (FFin 12223041 (-22)) ;;
  c2 <- hal_mul (const 2) c ;;
  w <- hal_sub k2_9142 c2 ;;
  one <- fconst (FFin 1 0) ;;
  cw <- f_mul c w Positive ;;
  e <- hal_sub one cw ;;
  if (num_iters iters =? 0)%nat then fail else goldschmidt_loop (num_iters iters) one w e.
(* 188-196, 224-231, 251-258: the factor 2^(2f-1-m), m the position of the highest one bit *)
Definition norm_factor (b_abs : val) : M val :=
  b_msb <- highest_one_bit b_abs ;;
  rv <- hal_bitrev b_msb 0 (2 * f) ;;
  mk <- mask_number_of_bits rv (2 * f) ;;
  hal_prefer_a k pr mk.
(* 219-236 reciprocal_goldschmidt_positive *)
Definition reciprocal_positive (iters : nat) (b_abs : val) : M val :=
  factor <- norm_factor b_abs ;;
  r <- normalized_approx iters b_abs factor ;;
  f_mul r factor Positive.
(* 240-265 reciprocal_goldschmidt *)
Definition reciprocal (iters : nat) (b : val) : M val :=
  s <- hal_msb k pr b ;;
  is_negative <- hal_prefer_a k pr s ;;
  nb <- hal_negate b ;;
  b_abs <- hal_mux is_negative nb b ;;
  r <- reciprocal_positive iters b_abs ;;
  nr <- hal_negate r ;;
  hal_mux is_negative nr r.
(* 170-211 div_goldschmidt_general *)
Definition div_general (iters : nat) (a b : val) (a_sign b_sign : sign_hint) : M val :=
  sb <- match b_sign with
        | Unknown =>
            s <- hal_msb k pr b ;; is_negative <- hal_prefer_a k pr s ;;
            nb <- hal_negate b ;; b_abs <- hal_mux is_negative nb b ;; ret (is_negative, b_abs)
        | Positive => ret (const 0, b)
        | Negative => nb <- hal_negate b ;; ret (const 1, nb)
        end ;;
  let '(is_negative, b_abs) := sb in
  factor <- norm_factor b_abs ;;
  r <- normalized_approx iters b_abs factor ;;
  ra <- f_mul r a a_sign ;;
  q <- f_mul ra factor a_sign ;;
  nq <- hal_negate q ;;
  hal_mux is_negative nq q.
(* 213-217 div_goldschmidt *)
Definition div (iters : nat) (a b : val) : M val := div_general iters a b Unknown Unknown.
(* 285-294 f_reciprocal, 347-357 f_div: None stands for the cleartext computation in double *)
Definition f_reciprocal (iters : nat) (x : val) : option (M val) :=
  match x with VP _ => None | _ => Some (reciprocal iters x) end.
Definition f_div (iters : nat) (x y : val) : option (M val) :=
  match x, y with VP _, VP _ => None | _, _ => Some (div iters x y) end.
End Fxp.
