(* Convolution and batched matrix products of arrays of any visibility: libspu/kernel/hlo/convolution.cc,
   libspu/kernel/hlo/basic_binary.cc (DotGeneral), with hal::slice, hal::concatenate (shape_ops.cc) and the products of Mm_model.v.
   The data type is an integer type, so that hal::tensordot and hal::matmul are _tensordot and _mmul (polymorphic.cc:126-141);
   with fixed-point numbers the result is truncated afterwards (C10, C57). *)
From Verif Require Import Base Ring_model Semi_model Disp_model Mm_model.
Open Scope Z_scope.

(* the storage type of an array, and its elements by position and rank *)
Inductive storage := SP | SV (owner : nat) | SA | SB (nb : Z).
Definition storage_of (e : els) : storage := match e with EP _ => SP | EV o _ => SV o | EA _ => SA | EB nb _ => SB nb end.
Definition elem (e : els) (p i : nat) : Z := match e with EP f => f p | EV _ f | EA f | EB _ f => f p i end.
Definition build (s : storage) (f : nat -> nat -> Z) : els :=
  match s with SP => EP (fun p => f p O) | SV o => EV o f | SA => EA f | SB nb => EB nb f end.
Definition same_storage (s s' : storage) : bool :=
  match s, s' with SP, SP | SA, SA => true | SV o, SV o' => (o =? o')%nat | SB b, SB b' => b =? b' | _, _ => false end.

(* shape_ops.cc:30-35 slice without strides; ndarray_ref.cc:290-319 (memory: Nd_model.v, C04) *)
Definition slice (v : value) (s e : list nat) : M value :=
  let sh := fst v in
  if (length s =? length sh)%nat && (length e =? length sh)%nat && forallb (fun '(d, e) => e <=? d)%nat (combine sh e) then
    let sh' := map (fun '(s, e) => (e - s)%nat) (combine s e) in
    ret (sh', renumber (fun p => position sh (map (fun '(a, b) => (a + b)%nat) (combine s (index_of sh' p)))) (snd v))
  else fail.
(* ndarray_ref.cc:383-412 concatenate (memory: Ndm_model.v, C05): the array and the index along the axis that index c falls on.
   Simplified: operands whose other dimensions differ are refused; the code does not compare them *)
Fixpoint set_at (l : list nat) (axis v : nat) : list nat :=
  match l, axis with [], _ => [] | _ :: l, O => v :: l | a :: l, S axis => a :: set_at l axis v end.
Fixpoint locate (axis c : nat) (vs : list value) : option (value * nat) :=
  match vs with
  | [] => None
  | v :: vs => let d := nth axis (fst v) O in if (c <? d)%nat then Some (v, c) else locate axis (c - d) vs
  end.
Definition at_index (axis : nat) (vs : list value) (idx : list nat) (i : nat) : Z :=
  match locate axis (nth axis idx O) vs with Some (v, c) => elem (snd v) (position (fst v) (set_at idx axis c)) i | None => 0 end.
Definition same_dims (axis : nat) (sh sh' : list nat) : bool := if list_eq_dec Nat.eq_dec (set_at sh axis O) (set_at sh' axis O) then true else false.
(* shape_ops.cc:97-135 concatenate.  Arrays of different storage types would be converted first; both callers below only
   concatenate arrays of one storage type (proved), and such operands are refused here *)
Definition concatenate (vs : list value) (axis : nat) : M value :=
  match vs with
  | [] => fail
  | [v] => ret v
  | v :: vs' =>
      if negb (forallb (fun v' => same_storage (storage_of (snd v)) (storage_of (snd v'))) vs') then fail else
      if negb (axis <? length (fst v))%nat then fun _ => Ub else
      if negb (forallb (fun v' => same_dims axis (fst v) (fst v')) vs') then fail else
      let sh := set_at (fst v) axis (fold_right (fun v' s => (nth axis (fst v') O + s)%nat) O vs) in
      ret (sh, build (storage_of (snd v)) (fun p => at_index axis vs (index_of sh p)))
  end.

Section Cnv.
Variable k : Z.
Variable n : nat.
Variable T : mtapes.
Variable compact : nat -> nat -> bool.
Variable junk : Z.
Variables split small : bool.
Variables ks ms : Z.
Notation tensordot := (tensordot k n T compact junk split small ks ms).
Notation mmul := (mmul k n T compact junk split small ks ms).

(* convolution.cc:67-68: for (x = 0; x <= last; x += step) *)
Fixpoint for_upto (fuel x : nat) (last : Z) (step : nat) : list nat :=
  match fuel with O => [] | S fuel => if Z.of_nat x <=? last then x :: for_upto fuel (x + step) last step else [] end.
Definition windows (len win step : nat) : list nat := for_upto (S len) 0 (Z.of_nat len - Z.of_nat win) step.
(* convolution.cc:55-56: (H - h) / sh + 1 in int64 *)
Definition out_dim (len win step : nat) : Z := Z.quot (Z.of_nat len - Z.of_nat win) (Z.of_nat step) + 1.
(* the first dimensions are compared *)
Definition shape_is (v : value) (sh : list nat) : bool := if list_eq_dec Nat.eq_dec (firstn (length sh) (fst v)) sh then true else false.
(* convolution.cc:24-109 Convolution2D; strides are not negative.  An operand of fewer than four dimensions is read out of range,
   the slice refuses an input of more *)
Definition conv2d (input kernel : value) (strides result_shape : list nat) : M value :=
  match fst input, fst kernel, result_shape with
  | N :: H :: W :: C :: _, h :: w :: C' :: F :: _, N' :: hh :: ww :: F' :: _ =>
      if negb (C' =? C)%nat then fail else
      if negb (N' =? N)%nat then fail else
      if negb (F' =? F)%nat then fail else
      match strides with
      | [sh; sw] =>
          if (sh =? 0)%nat || (sw =? 0)%nat then fun _ => Ub else
          if negb (Z.of_nat hh =? out_dim H h sh) then fail else
          if negb (Z.of_nat ww =? out_dim W w sw) then fail else
          images <- eachM (fun '(x, y) => v <- slice input [0; x; y; 0]%nat [N; x + h; y + w; C]%nat ;; reshape v [N; 1; h; w; C]%nat)
                          (list_prod (windows H h sh) (windows W w sw)) ;;
          stacked <- concatenate images 1 ;;
          if negb (nth 1 (fst stacked) 0 =? hh * ww)%nat then fail else
          expanded <- reshape stacked [N; hh * ww; h * w; C]%nat ;;
          expanded <- reshape expanded [N; hh; ww; h; w; C] ;;
          r <- tensordot expanded kernel [3; 4; 5]%nat [0; 1; 2]%nat ;;
          if negb (shape_is r [N; hh; ww; F]) then fail else ret r
      | _ => fail
      end
  | _, _, _ => fun _ => Ub
  end.

(* basic_binary.cc:82-115 DotGeneral; hal/utils.cc:31-38 unsqueeze *)
Definition dot_general (lhs rhs : value) : M value :=
  match fst lhs, fst rhs with
  | B :: m :: K :: _, B' :: K' :: c :: _ =>
      results <- eachM (fun b =>
        l <- slice lhs [b; 0; 0]%nat (b + 1 :: tl (fst lhs))%nat ;; l <- reshape l [m; K] ;;
        r <- slice rhs [b; 0; 0]%nat (b + 1 :: tl (fst rhs))%nat ;; r <- reshape r [K'; c] ;;
        z <- mmul l r ;; reshape z (1%nat :: fst z)) (seq 0 B) ;;
      concatenate results 0
  | _, _ => fun _ => Ub
  end.
End Cnv.
