(* Operations of the hal and hlo layers built on the ring-level operations: casts between integers and fixed point, floor,
   ceil and rounding, integer power, shifts by a per-element amount, and the control-flow operations.
   libspu/kernel/hal/{type_cast,fxp_base,integer,polymorphic}.cc, libspu/kernel/hlo/{basic_unary,shift,control_flow}.cc.
   Data types only select the code path (fixed point or integer) and are not carried by the values: a cast between two
   integer types, or between two fixed-point types, keeps the word (type_cast.cc:101-122).
   Arguments of one C++ call that are themselves calls are evaluated from left to right here; C++ leaves the order open. *)
From Verif Require Import Base Ring_model Semi_model Disp_model.
Open Scope Z_scope.

Section Hlo.
Variable k : Z.
Variable pr : proto.
Variable others : nat -> Z.
Variable f : Z.               (* SPUContext::getFxpBits *)
Notation val := (val pr).
Notation const := (const k pr).
Notation hal_add := (hal_add k pr). Notation hal_sub := (hal_sub k pr). Notation hal_mul := (hal_mul k pr).
Notation hal_mux := (hal_mux k pr). Notation hal_equal := (hal_equal k pr others). Notation hal_less := (hal_less k pr).
(* public operands that are constants: every element of the array is the same, so no other element is wider *)
Notation and1 := (fun x => hal_and pr (fun _ => 0) x (const 1)).

(* ---- casts and rounding ---- *)
(* type_cast.cc:26-32 int2fxp *)
Definition int2fxp (x : val) : M val := hal_lshift k pr x f.
(* type_cast.cc:49-60 fxp2int; the constant (1 << fxp_bits) - 1 is computed in int, which overflows from 31 bits on *)
Definition fxp2int (x : val) : M val :=
  if 31 <=? f then fun _ => Ub else
  m <- hal_msb k pr x ;; t <- hal_mul (const (2 ^ f - 1)) m ;; s <- hal_add x t ;; hal_arshift k pr s f.
(* fxp_base.cc:383-390 f_floor *)
Definition f_floor (x : val) : M val := s <- hal_arshift k pr x f ;; hal_lshift k pr s f.
(* fxp_base.cc:392-401 f_ceil: constant(1.0) is the word 2^f (encoding.cc, C01), epsilon is the word 1 (constants.cc:113-115) *)
Definition f_ceil (x : val) : M val :=
  d <- hal_sub (const (2 ^ f)) (const 1) ;; s <- hal_add x d ;; f_floor s.
(* hlo/basic_unary.cc:94-107 Round_AFZ; constant(0.5) is the word 2^(f-1); sign has an integer type, so mul is _mul *)
Definition round_afz (x : val) : M val :=
  s <- hal_sign k pr x ;; h <- hal_mul s (const (2 ^ (f - 1))) ;; r <- hal_add x h ;; i <- fxp2int r ;; int2fxp i.
(* core/vectorize.h:132-146, 185-211 vreduce, as Disp_model.vreduce_add but with any operation *)
Fixpoint vreduce (op : val -> val -> M val) (fuel : nat) (xs : list val) : M val :=
  match xs with
  | [] => fun _ => Ub
  | [x] => ret x
  | _ =>
      match fuel with
      | O => fail
      | S m =>
          let half := (length xs / 2)%nat in
          let ls := firstn half xs in
          let rs := firstn half (skipn half xs) in
          if packable pr ls && packable pr rs then
            next <- mapM (fun '(x, y) => op x y) (combine ls rs) ;;
            vreduce op m (next ++ (if (length xs mod 2 =? 1)%nat then skipn (length xs - 1) xs else []))
          else fail
      end
  end.
(* hlo/basic_unary.cc:109-146 Round_RNTE; the integer comp is cast to fixed point by add (polymorphic.cc:38-62) *)
Definition bit_of (x : val) (i : Z) : M val := s <- hal_rshift pr x i ;; and1 s.
Definition round_rnte (x : val) : M val :=
  xp <- hal_prefer_b k pr others x ;;
  y <- f_floor xp ;;
  a <- bit_of xp f ;;
  b <- bit_of xp (f - 1) ;;
  cs <- mapM (fun i => bit_of xp (Z.of_nat i)) (seq 0 (Z.to_nat (f - 1))) ;;
  c <- vreduce (hal_or pr others) (length cs) cs ;;
  ca <- hal_or pr others c a ;;
  comp <- hal_and pr others b ca ;;
  comp_f <- int2fxp (setnb1 pr comp) ;;
  hal_add y comp_f.

(* ---- integer power: polymorphic.cc:336-394 ---- *)
(* integer.cc:68-75 i_abs *)
Definition i_abs (x : val) : M val := s <- hal_sign k pr x ;; hal_mul s x.
(* polymorphic.cc:378-389: the base is not squared in the last round *)
Fixpoint pow_loop (todo idx : nat) (yb base acc : val) : M val :=
  match todo with
  | O => ret acc
  | S m =>
      b <- bit_of yb (Z.of_nat idx) ;;
      cur <- hal_mux b base (const 1) ;;
      acc' <- hal_mul cur acc ;;
      base' <- match m with O => ret base | S _ => hal_mul base base end ;;
      pow_loop m (S idx) yb base' acc'
  end.
(* y_bits = Log2Ceil(bit_width - 1) *)
Definition y_bits : nat := Z.to_nat (Z.log2_up (k - 1)).
Definition power (x y : val) : M val :=
  yb <- hal_prefer_b k pr others y ;;
  my <- hal_rshift pr yb (k - 1) ;;
  ax <- i_abs x ;;
  x1 <- hal_equal ax (const 1) ;;
  r <- pow_loop y_bits 0 yb x (const 1) ;;
  nx1 <- hal_not k pr others x1 ;;
  c <- hal_and pr others my nx1 ;;
  hal_mux c (const 0) r.

(* ---- shifts by an amount per element: hlo/shift.cc ---- *)
Inductive shift_kind := ShL | ShR | ShA.
(* polymorphic.cc:494-511 left_shift, right_shift_logical, right_shift_arithmetic; a shift by a negative amount or by the
   width of the ring or more is undefined in C++ (Ring_model.in_shift) *)
Definition hal_shift (s : shift_kind) (x : val) (b : Z) : M val :=
  if in_shift k b then
    match s with ShL => hal_lshift k pr x b | ShR => hal_rshift pr x b | ShA => hal_arshift k pr x b end
  else fun _ => Ub.
(* shift.cc:33-48 shift_impl_s; todo rounds are left, the amount tried next is bits *)
Fixpoint shift_loop (s : shift_kind) (lhs rhs : val) (todo bits : nat) (acc : val) : M val :=
  match todo with
  | O => ret acc
  | S m =>
      mask <- hal_equal rhs (const (Z.of_nat bits)) ;;
      sh <- hal_shift s lhs (Z.of_nat bits) ;;
      p <- hal_mul mask sh ;;
      acc' <- hal_add acc p ;;
      shift_loop s lhs rhs m (S bits) acc'
  end.
(* shift.cc:50-60 shift_impl; width = getWidth(lhs.dtype()).  A public amount is the word read as a signed number
   (dump_public_as<int64_t>, for an integer type that holds it) *)
Definition shift_impl (s : shift_kind) (width : nat) (lhs rhs : val) : M val :=
  match rhs with
  | VP p => hal_shift s lhs (sgn k p)
  | _ => shift_loop s lhs rhs width 0 (const 0)
  end.

(* ---- control flow: hlo/control_flow.cc ---- *)
(* an array: shape and elements, all of one visibility *)
Record arr := mkArr { a_sh : list Z; a_el : list val }.
Fixpoint shape_eqb (a b : list Z) : bool :=
  match a, b with [], [] => true | x :: a, y :: b => (x =? y) && shape_eqb a b | _, _ => false end.
(* prot_wrapper.cc:47-55: binary operations need equal shapes *)
Definition map2 (op : val -> val -> M val) (x y : arr) : M arr :=
  if shape_eqb (a_sh x) (a_sh y) then
    el <- mapM (fun '(a, b) => op a b) (combine (a_el x) (a_el y)) ;; ret (mkArr (a_sh x) el)
  else fail.
(* polymorphic.cc:228-240 select and ring.cc:465-470 _mux, on arrays *)
Definition select (p a b : arr) : M arr :=
  d <- map2 hal_sub a b ;; m <- map2 hal_mul p d ;; map2 hal_add b m.
Definition is_secret (x : val) : bool := match x with VA _ | VB _ => true | _ => false end.
Fixpoint select_all (p : arr) (ts fs : list arr) : M (list arr) :=
  match ts, fs with
  | [], [] => ret []
  | t :: ts, g :: fs => r <- select p t g ;; rs <- select_all p ts fs ;; ret (r :: rs)
  | _, _ => fail
  end.
(* control_flow.cc:31-53 IfElse; public_helper.cc:42-49 getBooleanValue refuses private values and arrays of several
   elements.  The number of results is compared before the first select; here a difference fails too. *)
Definition if_else (cond : arr) (on_true on_false : M (list arr)) : M (list arr) :=
  match a_el cond with
  | c :: _ =>
      if is_secret c then
        ts <- on_true ;; fs <- on_false ;;
        if (length ts =? length fs)%nat then select_all cond ts fs else fail
      else
        match a_el cond with
        | [VP p] => if p =? 0 then on_false else on_true
        | _ => fail
        end
  | [] => fail
  end.
(* elementwise product of a result with the mask of its branch (control_flow.cc:83-94: the mask is broadcast) *)
Definition scale (m : val) (x : arr) : M arr := el <- mapM (fun e => hal_mul e m) (a_el x) ;; ret (mkArr (a_sh x) el).
Fixpoint run_masked (bs : list (M (list arr))) (masks : list val) : M (list (list arr)) :=
  match bs, masks with
  | b :: bs, m :: ms => r <- b ;; r' <- mapM (scale m) r ;; rs <- run_masked bs ms ;; ret (r' :: rs)
  | _, _ => ret []
  end.
(* control_flow.cc:101-110: add result j of the later branches to that of the first; a branch with fewer results is read
   out of bounds *)
Fixpoint add_rest (acc : arr) (j : nat) (rest : list (list arr)) : M arr :=
  match rest with
  | [] => ret acc
  | r :: rest => match nth_error r j with Some x => a <- map2 hal_add acc x ;; add_rest a j rest | None => fun _ => Ub end
  end.
Definition collect (values : list (list arr)) : M (list arr) :=
  match values with
  | [] => fun _ => Ub
  | first :: rest => mapM (fun '(j, x) => add_rest x j rest) (combine (seq 0 (length first)) first)
  end.
(* control_flow.cc:55-113 Case; index is a scalar of type DT_I32 (other types are refused on both paths) *)
Definition case_ (index : val) (branches : list (M (list arr))) : M (list arr) :=
  let up := Z.of_nat (length branches) - 1 in
  match index with
  | VP p =>
      let i := sgn k p in
      let i := if (i <? 0) || (up <? i) then up else i in
      match nth_error branches (Z.to_nat i) with Some b => if i <? 0 then fun _ => Ub else b | None => fun _ => Ub end
  | _ =>
      lo <- hal_less index (const 0) ;;
      hi <- hal_less (const up) index ;;
      p <- hal_or pr others lo hi ;;
      norm <- hal_mux p (const up) index ;;
      masks <- mapM (fun i => hal_equal (const (Z.of_nat i)) norm) (seq 0 (length branches)) ;;
      values <- run_masked branches masks ;;
      collect values
  end.
(* control_flow.cc:115-148 While with a limit on the number of iterations; None: not finished yet *)
Fixpoint while_ (fuel : nat) (cond : list arr -> M arr) (body : list arr -> M (list arr)) (st : list arr) : M (option (list arr)) :=
  match fuel with
  | O => ret None
  | S m =>
      c <- cond st ;;
      match a_el c with
      | [VP p] => if p =? 0 then ret (Some st) else st' <- body st ;; while_ m cond body st'
      | _ => fail
      end
  end.
End Hlo.
Arguments a_sh {pr}. Arguments a_el {pr}. Arguments mkArr {pr}.
