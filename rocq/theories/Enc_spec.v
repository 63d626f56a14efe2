(* Specification vocabulary for plaintext encoding. *)
From Coq Require Import QArith Qabs Qpower.
From Verif Require Import Base Enc_model.
Open Scope Z_scope.

(* The integers a plaintext type can hold. *)
Definition pt_range (p : pt_type) (x : Z) : Prop :=
  match p with
  | PT_I1 => x = 0 \/ x = 1
  | PT_I8 => -128 <= x < 128            | PT_U8 => 0 <= x < 256
  | PT_I16 => -32768 <= x < 32768       | PT_U16 => 0 <= x < 65536
  | PT_I32 => - 2^31 <= x < 2^31        | PT_U32 => 0 <= x < 2^32
  | PT_I64 => - 2^63 <= x < 2^63        | PT_U64 => 0 <= x < 2^64
  | PT_I128 => - 2^127 <= x < 2^127     | PT_U128 => 0 <= x < 2^128
  | PT_F16 | PT_F32 | PT_F64 => False
  end.

(* The integer plaintext types with an encoding (128-bit plaintexts are rejected). *)
Definition int_pts : list pt_type :=
  [PT_I1; PT_I8; PT_U8; PT_I16; PT_U16; PT_I32; PT_U32; PT_I64; PT_U64].

(* Storage width of an integer plaintext type in bits. *)
Definition pt_width (p : pt_type) : Z :=
  match p with
  | PT_I1 | PT_I8 | PT_U8 => 8 | PT_I16 | PT_U16 => 16 | PT_I32 | PT_U32 => 32
  | PT_I64 | PT_U64 => 64 | PT_I128 | PT_U128 => 128
  | PT_F16 => 16 | PT_F32 => 32 | PT_F64 => 64
  end.

(* The rational number denoted by a finite float. *)
Definition fval (m e : Z) : Q := (inject_Z m * Qpower 2 e)%Q.

(* Largest finite magnitude: |x| < 2^emax. *)
Definition finite_in (p : pt_type) (m e : Z) : Prop := (Qabs (fval m e) < Qpower 2 (femax p))%Q.
