(* Model of libspu/core/encoding.{h,cc}: plaintext <-> ring encoding. *)
From Verif Require Import Base.

(* /repo/src/libspu/core/type_util.h:79-99 (FOREACH_*_PT_TYPES); complex types
   are handled by callers as two real buffers and are left out. *)
Inductive pt_type :=
| PT_I1 | PT_I8 | PT_U8 | PT_I16 | PT_U16 | PT_I32 | PT_U32 | PT_I64 | PT_U64
| PT_I128 | PT_U128 | PT_F16 | PT_F32 | PT_F64.

(* spu.proto DataType as used by /repo/src/libspu/core/encoding.h:55-81 *)
Inductive dtype :=
| DT_I1 | DT_I8 | DT_U8 | DT_I16 | DT_U16 | DT_I32 | DT_U32 | DT_I64 | DT_U64
| DT_F16 | DT_F32 | DT_F64.

(* FieldType FM32 / FM64 / FM128, by ring width in bits (type_util.h). *)
Inductive field := FM32 | FM64 | FM128.
Definition fbits (f : field) : Z :=
  match f with FM32 => 32 | FM64 => 64 | FM128 => 128 end.

(* /repo/src/libspu/core/encoding.cc:24-36 with table encoding.h:55-67 *)
Definition getEncodeType (p : pt_type) : res dtype :=
  match p with
  | PT_I8 => Ok DT_I8 | PT_U8 => Ok DT_U8 | PT_I16 => Ok DT_I16 | PT_U16 => Ok DT_U16
  | PT_I32 => Ok DT_I32 | PT_U32 => Ok DT_U32 | PT_I64 => Ok DT_I64 | PT_U64 => Ok DT_U64
  | PT_I1 => Ok DT_I1 | PT_F16 => Ok DT_F16 | PT_F32 => Ok DT_F32 | PT_F64 => Ok DT_F64
  | PT_I128 | PT_U128 => Err
  end.

(* /repo/src/libspu/core/encoding.cc:38-50 with table encoding.h:69-81 *)
Definition getDecodeType (d : dtype) : pt_type :=
  match d with
  | DT_I8 => PT_I8 | DT_U8 => PT_U8 | DT_I16 => PT_I16 | DT_U16 => PT_U16
  | DT_I32 => PT_I32 | DT_U32 => PT_U32 | DT_I64 => PT_I64 | DT_U64 => PT_U64
  | DT_I1 => PT_I1 | DT_F16 => PT_F16 | DT_F32 => PT_F32 | DT_F64 => PT_F64
  end.

(* sizeof(Integer) in bits and signedness of the C++ type of a plaintext type
   (type_util.h:84-95); None for floats. *)
Definition pt_int (p : pt_type) : option (Z * bool) :=
  match p with
  | PT_I1 => Some (8, false)           (* C++ bool: one byte, values 0/1 *)
  | PT_I8 => Some (8, true)   | PT_U8 => Some (8, false)
  | PT_I16 => Some (16, true) | PT_U16 => Some (16, false)
  | PT_I32 => Some (32, true) | PT_U32 => Some (32, false)
  | PT_I64 => Some (64, true) | PT_U64 => Some (64, false)
  | PT_I128 => Some (128, true) | PT_U128 => Some (128, false)
  | PT_F16 | PT_F32 | PT_F64 => None
  end.

(* C++ integral conversion to a b-bit type of given signedness. *)
Definition int_cast (b : Z) (signed : bool) (x : Z) : Z :=
  if signed then sgn b (wrap b x) else wrap b x.

(* encoding.cc:101-121, integer branch for one element: the stored ring word
   (unsigned reading of the signed T written).  PT_I128 / PT_U128 reach
   DISPATCH_INT_PT_TYPES' default and throw (type_util.h:137-150). *)
Definition encode_int (f : field) (p : pt_type) (x : Z) : res Z :=
  match getEncodeType p, pt_int p with
  | Ok _, Some (b, _) =>
      if fbits f <? b then Err
      else Ok (wrap (fbits f) (int_cast (fbits f) true x))
  | _, _ => Err
  end.

(* encoding.cc:148-152 (DT_I1) and 161-166 (other integers), one element;
   [w] is the stored ring word.  Floats are handled by [decode_float]. *)
Definition decode_int (f : field) (d : dtype) (w : Z) : res Z :=
  match d with
  | DT_I1 => Ok (Z.land (sgn (fbits f) w) 1)
  | _ => match pt_int (getDecodeType d) with
         | Some (b, s) => Ok (int_cast b s (sgn (fbits f) w))
         | None => Err
         end
  end.

(* encodeToRing / decodeFromRing over a whole (integer) buffer: pforeach over the
   flat index; the loop body has no cross-iteration state. *)
Definition encode_ints f p (xs : list Z) : res (list Z) :=
  match getEncodeType p, pt_int p with
  | Ok _, Some (b, _) => if fbits f <? b then Err else rmap (encode_int f p) xs
  | _, _ => Err
  end.
Definition decode_ints f d (ws : list Z) : res (list Z) := rmap (decode_int f d) ws.

(* ---- floats ----
   A binary floating point number is a special value or m * 2^e. *)
Inductive flt := FNan | FPInf | FNInf | FFin (m e : Z).

(* significand precision of the C++ float type, and the exponent at which it
   overflows to infinity (half 2^16, float 2^128, double 2^1024) *)
Definition fprec (p : pt_type) : Z := match p with PT_F16 => 11 | PT_F32 => 24 | _ => 53 end.
Definition femax (p : pt_type) : Z := match p with PT_F16 => 16 | PT_F32 => 128 | _ => 1024 end.

(* encoding.cc:73-76: kFlpUpper = Float(double(2^(k-2)-1) / 2^fxp).
   double(2^(k-2)-1) is exact for k-2 <= 53 and rounds to 2^(k-2) otherwise; the
   division by a power of two is exact; the cast to Float is exact when
   k-2 <= precision and rounds up to 2^(k-2-fxp) otherwise, becoming +inf when that
   exceeds Float's range.  Result: numerator over 2^fxp, or None for +inf.
   (Values just below the overflow exponent round to it, as 2^(k-2)-1 does.) *)
Definition flp_upper (k fxp : Z) (p : pt_type) : option Z :=
  if (k - 2 <=? 53) && (k - 2 <=? fprec p) then Some (2 ^ (k - 2) - 1)
  else if femax p <=? k - 2 - fxp then None else Some (2 ^ (k - 2)).

(* encoding.cc:73,77-78: kFlpLower = Float(double(-2^(k-2)) / 2^fxp): a power of two,
   exact unless it overflows to -inf. *)
Definition flp_lower (k fxp : Z) (p : pt_type) : option Z :=
  if femax p <=? k - 2 - fxp then None else Some (- 2 ^ (k - 2)).

(* comparison of m * 2^s with an integer u *)
Definition scaled_ge (m s u : Z) : bool :=
  if 0 <=? s then u <=? m * 2 ^ s else u * 2 ^ (- s) <=? m.
Definition scaled_le (m s u : Z) : bool :=
  if 0 <=? s then m * 2 ^ s <=? u else m <=? u * 2 ^ (- s).
(* truncation toward zero of m * 2^s (static_cast<T> of a float) *)
Definition scaled_trunc (m s : Z) : Z :=
  if 0 <=? s then m * 2 ^ s else Z.quot m (2 ^ (- s)).

(* encoding.cc:82-96, one element; the signed code.  Multiplying by 2^fxp is exact
   for the values reaching line 94.  A code that does not fit T would be undefined
   behaviour (static_cast<T> out of range), and so is shifting T(1) by fxp >= k
   (line 72). *)
Definition encode_float (k fxp : Z) (p : pt_type) (x : flt) : res Z :=
  if (fxp <? 0) || (k <=? fxp) then Ub else
  let up := 2 ^ (k - 2) - 1 in
  let lo := - 2 ^ (k - 2) in
  match x with
  | FNan => Ok 0
  | FPInf => Ok up
  | FNInf => Ok lo
  | FFin m e =>
      if match flp_upper k fxp p with Some u => scaled_ge m (e + fxp) u | None => false end
      then Ok up
      else if match flp_lower k fxp p with Some l => scaled_le m (e + fxp) l | None => false end
      then Ok lo
      else let c := scaled_trunc m (e + fxp) in
           if (- 2 ^ (k - 1) <=? c) && (c <? 2 ^ (k - 1)) then Ok c else Ub
  end.

(* encoding.cc:153-160, one element, as the exact dyadic number code * 2^-fxp.
   Simplification: the rounding of double(code) when |code| >= 2^53 and of the final
   cast to the output float type is not modelled. *)
Definition decode_float (k fxp : Z) (w : Z) : flt := FFin (sgn k w) (- fxp).
