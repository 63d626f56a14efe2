(* Dispatch of ring-level operations on values of any visibility to protocol kernels:
   libspu/kernel/hal/ring.cc, prot_wrapper.cc, libspu/mpc/api.cc, libspu/mpc/common/pv2k.cc.
   One element of each array is modelled.  The kernels of the protocol are the fields of a record; every kernel call gets
   the number of the call, from which it takes its correlated randomness.  Tiling of the calls (ab_api.cc TILED_DISPATCH)
   is C48/C49. Shape checks of prot_wrapper.cc hold (same index of arrays of one shape). *)
From Verif Require Import Base Ring_model Semi_model.
Open Scope Z_scope.

(* a computation that makes kernel calls: the number of the next call is threaded through *)
Definition M (A : Type) : Type := nat -> res (A * nat).
Definition ret {A} (a : A) : M A := fun t => Ok (a, t).
Definition bind {A B} (m : M A) (f : A -> M B) : M B := fun t => rbind (m t) (fun '(a, t') => f a t').
Definition fail {A} : M A := fun _ => Err.
Definition call {A} (f : nat -> res A) : M A := fun t => rbind (f t) (fun a => Ok (a, S t)).
Notation "x <- m ;; f" := (bind m (fun x => f)) (at level 80, m at level 79, right associativity).

(* the kernels a protocol registers (semi2k/protocol.cc:51-99, aby3/protocol.cc:49-87); options are kernels that may be
   missing.  Not registered by any protocol modelled here, hence left out: add_ss, mul_ss, ... (whole-operation kernels),
   add_av, mul_av, and_bv, xor_bv, add_vvs, and_vvs, xor_vvs, equal_bb, equal_bp.
   The extra number given to p2b, and_bp, xor_bp is the bit width of the public array (ndarray_ref.h:456-482). *)
Record proto := mkProto {
  ash : Type; bsh : Type;
  k_nb : bsh -> Z;
  k_setnb : bsh -> Z -> bsh;
  k_p2a : nat -> Z -> res ash;
  k_p2b : nat -> Z -> Z -> res bsh;
  k_v2a : nat -> nat -> (nat -> Z) -> res ash;
  k_a2b : nat -> ash -> res bsh;
  k_b2a : nat -> bsh -> res ash;
  k_negate_a : nat -> ash -> res ash;
  k_add_ap : nat -> ash -> Z -> res ash;
  k_add_aa : nat -> ash -> ash -> res ash;
  k_mul_ap : nat -> ash -> Z -> res ash;
  k_mul_aa : nat -> ash -> ash -> res ash;
  k_lshift_a : nat -> ash -> Z -> res ash;
  k_and_bp : nat -> bsh -> Z -> Z -> res bsh;
  k_and_bb : nat -> bsh -> bsh -> res bsh;
  k_xor_bp : nat -> bsh -> Z -> Z -> res bsh;
  k_xor_bb : nat -> bsh -> bsh -> res bsh;
  k_lshift_b : nat -> bsh -> Z -> res bsh;
  k_rshift_b : nat -> bsh -> Z -> res bsh;
  k_arshift_b : nat -> bsh -> Z -> res bsh;
  k_square_a : option (nat -> ash -> res ash);
  k_mul_a1b : option (nat -> ash -> bsh -> res ash);
  k_msb_a2b : option (nat -> ash -> res bsh);
  k_equal_aa : option (nat -> ash -> ash -> res bsh);
  k_equal_ap : option (nat -> ash -> Z -> res bsh);
  k_mul_vvs : option (nat -> nat -> (nat -> Z) -> nat -> (nat -> Z) -> res ash) }.

Section Disp.
Variable k : Z.
Variable pr : proto.
(* the largest bit width among the other elements of the public array handled by call t *)
Variable others : nat -> Z.
Definition pwidth (t : nat) (p : Z) : Z := Z.max (bitwidth p) (others t).

(* one element of a value: public; private to a party (every party's copy, of which only the owner's counts);
   secret as an arithmetic or a boolean share *)
Inductive val := VP (p : Z) | VV (owner : nat) (f : nat -> Z) | VA (a : ash pr) | VB (b : bsh pr).

(* ---- api.cc ---- *)
(* api.cc:46-62 _2b, _2a *)
Definition to_b (x : val) : M (bsh pr) :=
  match x with VA a => call (fun t => k_a2b pr t a) | VB b => ret b | _ => fail end.
Definition to_a (x : val) : M (ash pr) :=
  match x with VB b => call (fun t => k_b2a pr t b) | VA a => ret a | _ => fail end.
Definition bop {A} (f : nat -> res A) (c : A -> val) : M val := bind (call f) (fun r => ret (c r)).
(* api.cc:159-164 v2s (no kernel v2s) *)
Definition v2s (o : nat) (f : nat -> Z) : M val := bop (fun t => k_v2a pr t o f) VA.
(* pv2k.cc: on_owner kernels.  Unary: NegateV 153-168, MsbV 184-200, LShiftV .. ARShiftV 520-600; binary: AddVVV, AddVP
   268-302, MulVP, MulVVV 319-353, AndVVV, AndVP 418-453, XorVVV, XorVP 470-504.  Non-owners return their copy. *)
Definition v_un (op : Z -> Z) (o : nat) (f : nat -> Z) : val := VV o (fun i => if (i =? o)%nat then op (f i) else f i).
Definition v_bin (op : Z -> Z -> Z) (o : nat) (f g : nat -> Z) : val :=
  VV o (fun i => if (i =? o)%nat then op (f i) (g i) else f i).

(* api.cc:311-319 negate_s, negate_v, negate_p *)
Definition negate_s (x : val) : M val := bind (to_a x) (fun a => bop (fun t => k_negate_a pr t a) VA).
(* api.cc:323-343 msb_s, msb_v, msb_p (msb_s calls itself once, after A2B) *)
Definition msb_b (b : bsh pr) : M val := bop (fun t => k_rshift_b pr t b (Z.max 0 (k - 1))) VB.
Definition msb_s (x : val) : M val :=
  match x with
  | VA a => match k_msb_a2b pr with
            | Some m => bop (fun t => m t a) VB
            | None => bind (to_b x) msb_b
            end
  | VB b => msb_b b
  | _ => fail
  end.
(* api.cc:389-423 add_ss, add_sv, add_sp, add_vv *)
Definition add_ss (x y : val) : M val := xa <- to_a x ;; ya <- to_a y ;; bop (fun t => k_add_aa pr t xa ya) VA.
Definition add_sv (x : val) (o : nat) (f : nat -> Z) : M val := y <- v2s o f ;; add_ss x y.
Definition add_sp (x : val) (p : Z) : M val := xa <- to_a x ;; bop (fun t => k_add_ap pr t xa p) VA.
Definition add_vv (o1 : nat) (f : nat -> Z) (o2 : nat) (g : nat -> Z) : M val :=
  if (o1 =? o2)%nat then ret (v_bin (radd k) o1 f g)
  else x <- v2s o1 f ;; y <- v2s o2 g ;; add_ss x y.
(* api.cc:435-479 mul_ss, mul_sv, mul_sp, mul_vv *)
Definition mul_ss (x y : val) : M val :=
  let general := xa <- to_a x ;; ya <- to_a y ;; bop (fun t => k_mul_aa pr t xa ya) VA in
  match x, y with
  | VB bx, VA ay => match k_mul_a1b pr with
                    | Some m => if k_nb pr bx =? 1 then bop (fun t => m t ay bx) VA else general
                    | None => general
                    end
  | VA ax, VB by_ => match k_mul_a1b pr with
                     | Some m => if k_nb pr by_ =? 1 then bop (fun t => m t ax by_) VA else general
                     | None => general
                     end
  | VB bx, VB by_ => if (k_nb pr bx =? 1) && (k_nb pr by_ =? 1) then bop (fun t => k_and_bb pr t bx by_) VB else general
  | _, _ => general
  end.
Definition mul_sv (x : val) (o : nat) (f : nat -> Z) : M val := y <- v2s o f ;; mul_ss x y.
Definition mul_sp (x : val) (p : Z) : M val := xa <- to_a x ;; bop (fun t => k_mul_ap pr t xa p) VA.
Definition mul_vv (o1 : nat) (f : nat -> Z) (o2 : nat) (g : nat -> Z) : M val :=
  if (o1 =? o2)%nat then ret (v_bin (rmul k) o1 f g)
  else match k_mul_vvs pr with
       | Some m => bop (fun t => m t o1 f o2 g) VA
       | None => x <- v2s o1 f ;; y <- v2s o2 g ;; mul_ss x y
       end.
(* api.cc:489-498 square_s, square_v, square_p *)
Definition square_s (x : val) : M val :=
  match x with
  | VA a => match k_square_a pr with Some m => bop (fun t => m t a) VA | None => mul_ss x x end
  | _ => mul_ss x x
  end.
(* api.cc:545-575 and_ss .. and_vv; 587-617 xor_ss .. xor_vv.  and_sv and xor_sv first try the optional and_bv, xor_bv,
   which no protocol registers *)
Definition and_ss (x y : val) : M val := xb <- to_b x ;; yb <- to_b y ;; bop (fun t => k_and_bb pr t xb yb) VB.
Definition and_sv (x : val) (o : nat) (f : nat -> Z) : M val := y <- v2s o f ;; and_ss x y.
Definition and_sp (x : val) (p : Z) : M val := xb <- to_b x ;; bop (fun t => k_and_bp pr t xb (pwidth t p) p) VB.
Definition and_vv (o1 : nat) (f : nat -> Z) (o2 : nat) (g : nat -> Z) : M val :=
  if (o1 =? o2)%nat then ret (v_bin rand_ o1 f g)
  else x <- v2s o1 f ;; y <- v2s o2 g ;; and_ss x y.
Definition xor_ss (x y : val) : M val := xb <- to_b x ;; yb <- to_b y ;; bop (fun t => k_xor_bb pr t xb yb) VB.
Definition xor_sv (x : val) (o : nat) (f : nat -> Z) : M val := y <- v2s o f ;; xor_ss x y.
Definition xor_sp (x : val) (p : Z) : M val := xb <- to_b x ;; bop (fun t => k_xor_bp pr t xb (pwidth t p) p) VB.
Definition xor_vv (o1 : nat) (f : nat -> Z) (o2 : nat) (g : nat -> Z) : M val :=
  if (o1 =? o2)%nat then ret (v_bin rxor o1 f g)
  else x <- v2s o1 f ;; y <- v2s o2 g ;; xor_ss x y.
(* api.cc:629-679 lshift_s, rshift_s, arshift_s (one shift amount for the whole array) *)
Definition lshift_s (x : val) (s : Z) : M val :=
  match x with
  | VA a => bop (fun t => k_lshift_a pr t a s) VA
  | VB b => bop (fun t => k_lshift_b pr t b s) VB
  | _ => fail
  end.
Definition rshift_s (x : val) (s : Z) : M val := xb <- to_b x ;; bop (fun t => k_rshift_b pr t xb s) VB.
Definition arshift_s (x : val) (s : Z) : M val := xb <- to_b x ;; bop (fun t => k_arshift_b pr t xb s) VB.
(* api.cc:287-309 not_v, not_p, not_s; make_p(-1) is the all-ones word *)
Definition ones : Z := wrap k (-1).
Definition not_s (x : val) : M val :=
  match x with
  | VB b => bop (fun t => k_xor_bp pr t b (pwidth t ones) ones) VB
  | VA _ => y <- negate_s x ;; add_sp y (rneg k 1)
  | _ => fail
  end.
(* api.cc:351-385 equal_sp, equal_ss: None when not available.  equal_bb, equal_bp are not registered *)
Definition equal_sp (x : val) (p : Z) : option (M val) :=
  match x with VA a => match k_equal_ap pr with Some m => Some (bop (fun t => m t a p) VB) | None => None end | _ => None end.
Definition equal_ss (x y : val) : option (M val) :=
  match x, y with
  | VA a, VA b => match k_equal_aa pr with Some m => Some (bop (fun t => m t a b) VB) | None => None end
  | VA _, VB _ | VB _, VA _ =>
      match k_equal_aa pr with
      | Some m => Some (xa <- to_a x ;; ya <- to_a y ;; bop (fun t => m t xa ya) VB)
      | None => None
      end
  | _, _ => None
  end.

(* ---- hal/ring.cc ---- *)
(* ring.cc:67-83 IMPL_UNARY_OP *)
Definition hal_negate (x : val) : M val :=
  match x with VP p => ret (VP (rneg k p)) | VV o f => ret (v_un (rneg k) o f) | _ => negate_s x end.
Definition hal_msb (x : val) : M val :=
  match x with VP p => ret (VP (rshr (k - 1) p)) | VV o f => ret (v_un (rshr (k - 1)) o f) | _ => msb_s x end.
Definition hal_not (x : val) : M val :=
  match x with
  | VP p => ret (VP (radd k (rneg k p) (rneg k 1)))
  | VV o f => ret (v_un (fun v => radd k (rneg k v) (rneg k 1)) o f)
  | _ => not_s x
  end.
Definition hal_square (x : val) : M val :=
  match x with VP p => ret (VP (rmul k p p)) | VV o f => mul_vv o f o f | _ => square_s x end.
(* ring.cc:87-105 IMPL_SHIFT_OP *)
Definition hal_lshift (x : val) (s : Z) : M val :=
  match x with VP p => ret (VP (rshl k s p)) | VV o f => ret (v_un (rshl k s) o f) | _ => lshift_s x s end.
Definition hal_rshift (x : val) (s : Z) : M val :=
  match x with VP p => ret (VP (rshr s p)) | VV o f => ret (v_un (rshr s) o f) | _ => rshift_s x s end.
Definition hal_arshift (x : val) (s : Z) : M val :=
  match x with VP p => ret (VP (rsar k s p)) | VV o f => ret (v_un (rsar k s) o f) | _ => arshift_s x s end.
(* ring.cc:107-141 IMPL_COMMUTATIVE_BINARY_OP: note the swaps *)
Definition commutative (op : Z -> Z -> Z) (ss : val -> val -> M val) (sv : val -> nat -> (nat -> Z) -> M val)
    (sp : val -> Z -> M val) (vv : nat -> (nat -> Z) -> nat -> (nat -> Z) -> M val) (x y : val) : M val :=
  match x, y with
  | VP p, VP q => ret (VP (op p q))
  | VV o f, VV o' g => vv o f o' g
  | VP p, VV o f => ret (v_bin op o f (fun _ => p))
  | VV o f, VP p => ret (v_bin op o f (fun _ => p))
  | VP p, _ => sp y p
  | _, VP p => sp x p
  | VV o f, _ => sv y o f
  | _, VV o f => sv x o f
  | _, _ => ss y x
  end.
Definition hal_add := commutative (radd k) add_ss add_sv add_sp add_vv.
Definition hal_mul := commutative (rmul k) mul_ss mul_sv mul_sp mul_vv.
Definition hal_and := commutative rand_ and_ss and_sv and_sp and_vv.
Definition hal_xor := commutative rxor xor_ss xor_sv xor_sp xor_vv.
(* ring.cc:291-294 _sub; 417-420 _or; 457-463 _less; 441-455 _sign; 465-470 _mux; 472-492 _clamp, _clamp_lower, _clamp_upper;
   494-496 _constant.  C++ leaves the order of evaluation of the arguments of a call open; here they run left to right *)
Definition const (c : Z) : val := VP (wrap k c).
Definition hal_sub (x y : val) : M val := ny <- hal_negate y ;; hal_add x ny.
Definition hal_or (x y : val) : M val := a <- hal_and x y ;; b <- hal_xor y a ;; hal_xor x b.
Definition hal_less (x y : val) : M val := d <- hal_sub x y ;; hal_msb d.
Definition hal_sign (x : val) : M val := n <- hal_msb x ;; m <- hal_mul (const 2) n ;; hal_sub (const 1) m.
Definition hal_mux (pred a b : val) : M val := d <- hal_sub a b ;; m <- hal_mul pred d ;; hal_add b m.
Definition hal_clamp_lower (x minv : val) : M val := l <- hal_less x minv ;; hal_mux l minv x.
Definition hal_clamp_upper (x maxv : val) : M val := l <- hal_less x maxv ;; hal_mux l x maxv.
Definition hal_clamp (x minv maxv : val) : M val := r <- hal_clamp_lower x minv ;; hal_clamp_upper r maxv.
(* ring.cc:143-158 _equal_impl, 422-439 _equal *)
Definition equal_impl (x y : val) : option (M val) :=
  match x, y with
  | VP p, VP q => Some (ret (VP (if p =? q then 1 else 0)))
  | VV _ _, _ | _, VV _ _ => None
  | VP p, _ => equal_sp y p
  | _, VP p => equal_sp x p
  | _, _ => equal_ss y x
  end.
Definition hal_equal (x y : val) : M val :=
  match equal_impl x y with
  | Some m => m
  | None =>
      l <- hal_less x y ;; nl <- hal_xor l (const 1) ;;
      g <- hal_less y x ;; ng <- hal_xor g (const 1) ;;
      hal_and nl ng
  end.
(* ring.cc:587-594 _prefer_a, 602-609 _prefer_b *)
Definition hal_prefer_a (x : val) : M val := match x with VB _ => hal_add x (const 0) | _ => ret x end.
Definition hal_prefer_b (x : val) : M val := match x with VA _ => hal_xor x (const 0) | _ => ret x end.
(* ring.cc:498-510 _bit_parity for bits = 2^n: shifts 2^(n-1), .., 1 *)
Fixpoint parity_loop (n : nat) (x : val) : M val :=
  match n with
  | O => ret x
  | S m => s <- hal_rshift x (2 ^ Z.of_nat m) ;; y <- hal_xor x s ;; parity_loop m y
  end.
Definition hal_bit_parity (n : nat) (x : val) : M val :=
  b <- hal_prefer_b x ;; r <- parity_loop n b ;; hal_and r (const 1).
(* ring.cc:548-559 _prefix_or; absl::bit_width(8 * SizeOf(field)) - 1 = log2 k *)
Fixpoint prefix_or_loop (todo : nat) (idx : nat) (x : val) : M val :=
  match todo with
  | O => ret x
  | S m => s <- hal_rshift x (2 ^ Z.of_nat idx) ;; y <- hal_or x s ;; prefix_or_loop m (S idx) y
  end.
Definition hal_prefix_or (x : val) : M val :=
  b <- hal_prefer_b x ;; prefix_or_loop (Z.to_nat (Z.log2 k)) 0 b.
(* ring.cc:297-311 _eqz; a boolean result is marked as one bit *)
Definition setnb1 (x : val) : val := match x with VB b => VB (k_setnb pr b 1) | _ => x end.
Definition hal_eqz (x : val) : M val :=
  p <- hal_prefix_or x ;; a <- hal_and p (const 1) ;; r <- hal_xor a (const 1) ;; ret (setnb1 r).
(* core/value.h:108-133 pack: the packed values must have the same storage type *)
Definition same_type (x y : val) : bool :=
  match x, y with
  | VP _, VP _ => true
  | VV o _, VV o' _ => (o =? o')%nat
  | VA _, VA _ => true
  | VB b, VB b' => k_nb pr b =? k_nb pr b'
  | _, _ => false
  end.
Definition packable (l : list val) : bool := match l with [] => true | x :: r => forallb (same_type x) r end.
Fixpoint mapM {X Y} (f : X -> M Y) (l : list X) : M (list Y) :=
  match l with [] => ret [] | x :: r => y <- f x ;; ys <- mapM f r ;; ret (y :: ys) end.
(* core/vectorize.h:132-146, 185-211 vmap and vreduce with _add; the packed call is elementwise (C49) *)
Fixpoint vreduce_add (fuel : nat) (xs : list val) : M val :=
  match xs with
  | [] => fun _ => Ub                   (* *first of an empty range *)
  | [x] => ret x
  | _ =>
      match fuel with
      | O => fail
      | S f =>
          let half := (length xs / 2)%nat in
          let ls := firstn half xs in
          let rs := firstn half (skipn half xs) in
          if packable ls && packable rs then
            next <- mapM (fun '(x, y) => hal_add x y) (combine ls rs) ;;
            vreduce_add f (next ++ (if (length xs mod 2 =? 1)%nat then skipn (length xs - 1) xs else []))
          else fail
      end
  end.
(* ring.cc:513-537 _popcount (non-empty array) *)
Definition pop_bit (b : val) (idx : nat) : M val :=
  s <- hal_rshift b (Z.of_nat idx) ;; a <- hal_and s (const 1) ;; ret (setnb1 a).
Definition hal_popcount (bits : nat) (x : val) : M val :=
  b <- hal_prefer_b x ;; vs <- mapM (pop_bit b) (seq 0 bits) ;; vreduce_add bits vs.
End Disp.
Arguments VP {pr}. Arguments VV {pr}. Arguments VA {pr}. Arguments VB {pr}.
