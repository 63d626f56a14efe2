(* Integer division and remainder of values of any visibility.
   libspu/kernel/hal/polymorphic.cc (idiv, div), libspu/kernel/hlo/basic_binary.cc (Remainder).
   Data types select the code path only (Hlo_model.v); Div here is that of two integers, Remainder is given for two
   integers and for two fixed-point numbers.  When both operands are public the quotient is computed in double
   (f_div_p, not modelled): None. *)
From Verif Require Import Enc_model.
From Verif Require Import Base Ring_model Semi_model Disp_model Hlo_model Dyn_model Fxp_model.
Open Scope list_scope. Open Scope Z_scope.

Section Idiv.
Variable k : Z.
Variable pr : proto.
Variable fk : fxp_kernels pr.
Variable others : nat -> Z.
Variable f : Z.               (* SPUContext::getFxpBits *)
Notation val := (val pr).
Notation hal_add := (hal_add k pr). Notation hal_sub := (hal_sub k pr). Notation hal_mul := (hal_mul k pr).
Notation hal_less := (hal_less k pr).

(* polymorphic.cc:185-191 less_equal, 193-198 greater, 200-206 greater_equal *)
Definition greater (x y : val) : M val := hal_less y x.
Definition less_equal (x y : val) : M val := g <- greater x y ;; logical_not k pr others g.
Definition greater_equal (x y : val) : M val := l <- hal_less x y ;; logical_not k pr others l.
(* polymorphic.cc:422-451 idiv, after the signs and absolute values *)
Definition quotient (iters : nat) (abs_x abs_y : val) : M val :=
  x_f <- int2fxp k pr f abs_x ;;
  y_f <- int2fxp k pr f abs_y ;;
  aq <- div k pr fk others f iters x_f y_f ;;
  approx_q <- fxp2int k pr f aq ;;
  approx_x <- hal_mul abs_y approx_q ;;
  next_x <- hal_add approx_x abs_y ;;
  v1 <- less_equal next_x abs_x ;;
  v2 <- greater approx_x abs_x ;;
  q1 <- hal_add approx_q v1 ;;
  hal_sub q1 v2.
Definition idiv_secret (iters : nat) (x y : val) : M val :=
  sign_x <- hal_sign k pr x ;;
  sign_y <- hal_sign k pr y ;;
  abs_x <- hal_mul x sign_x ;;
  abs_y <- hal_mul y sign_y ;;
  q <- quotient iters abs_x abs_y ;;
  s <- hal_mul sign_x sign_y ;;
  hal_mul q s.
Definition idiv (iters : nat) (x y : val) : option (M val) :=
  match x, y with VP _, VP _ => None | _, _ => Some (idiv_secret iters x y) end.
(* basic_binary.cc:53-71 Remainder of integers *)
Definition remainder (iters : nat) (x y : val) : option (M val) :=
  match idiv iters x y with
  | None => None
  | Some m => Some (q <- m ;; p <- hal_mul q y ;; hal_sub x p)
  end.
(* ... of fixed-point numbers; hal::select is mux (polymorphic.cc:228-240), and hal::mul is f_mul without a hint *)
Definition f_remainder (iters : nat) (x y : val) : option (M val) :=
  match f_div k pr fk others f iters x y with
  | None => None
  | Some m => Some (
      q <- m ;;
      p <- greater_equal q (const k pr 0) ;;
      lo <- f_floor k pr f q ;;
      hi <- f_ceil k pr f q ;;
      r <- hal_mux k pr p lo hi ;;
      t <- f_mul k pr fk f r y Unknown ;;
      hal_sub x t)
  end.
End Idiv.
