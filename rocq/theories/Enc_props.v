(* C01, C02: plaintext encoding. *)
From Coq Require Import QArith Qabs Qpower.
From Verif Require Import Base Enc_model Enc_spec Enc_proof.
Open Scope Z_scope.

(* C01: encoding a buffer of integers succeeds when the ring is wide enough and
   decoding with the data type reported by the encoder returns the same integers. *)
Theorem C01_int_roundtrip : forall f p xs,
  In p int_pts -> Forall (pt_range p) xs -> pt_width p <= fbits f ->
  exists d ws, getEncodeType p = Ok d /\ getDecodeType d = p /\
    encode_ints f p xs = Ok ws /\ length ws = length xs /\
    Forall (fun w => 0 <= w < 2 ^ fbits f) ws /\ decode_ints f d ws = Ok xs.
Proof.
  intros f p xs Hin Hr Hw.
  assert (exists d, getEncodeType p = Ok d) as [d Hd].
  { destruct p; cbn in *; eauto; exfalso; intuition congruence. }
  destruct (encode_ints_roundtrip f p d xs Hin Hd Hr Hw) as (ws & H).
  exists d, ws. split; [exact Hd|]. split; [exact (tables_inverse p d Hd)|exact H].
Qed.
Print Assumptions C01_int_roundtrip.

Example C01_ex : In PT_I8 int_pts /\ Forall (pt_range PT_I8) [-128; -1; 0; 127] /\
  pt_width PT_I8 <= fbits FM32 /\
  encode_ints FM32 PT_I8 [-128; -1; 127] = Ok [4294967168; 4294967295; 127].
Proof. repeat split; try reflexivity; cbn; try lia; auto. repeat constructor; cbn; lia. Qed.

(* C01: a ring narrower than the integer type is rejected. *)
Theorem C01_narrow_ring_rejected : forall f p xs,
  In p int_pts -> fbits f < pt_width p -> encode_ints f p xs = Err.
Proof. exact encode_ints_rejects. Qed.
Print Assumptions C01_narrow_ring_rejected.
Example C01_narrow_ex : In PT_U64 int_pts /\ fbits FM32 < pt_width PT_U64.
Proof. cbn; split; [intuition|lia]. Qed.

(* C01: the two type tables are mutually inverse. *)
Theorem C01_tables : forall d, getEncodeType (getDecodeType d) = Ok d.
Proof. exact tables_inverse'. Qed.
Print Assumptions C01_tables.

(* C02: the special values. *)
Theorem C02_special : forall k fxp p, 0 <= fxp < k ->
  encode_float k fxp p FNan = Ok 0 /\
  encode_float k fxp p FPInf = Ok (2 ^ (k - 2) - 1) /\
  encode_float k fxp p FNInf = Ok (- 2 ^ (k - 2)).
Proof. exact encode_float_special. Qed.
Print Assumptions C02_special.
Example C02_special_ex : 0 <= 18 < 64. Proof. lia. Qed.

(* C02: every finite float is encoded to a code c in [-2^(k-2),2^(k-2)); c saturates at
   or beyond +-2^(k-2-fxp), and otherwise the decoded value y differs from x by less
   than one unit 2^-fxp, is not larger in magnitude, and has the same sign. *)
Theorem C02_finite : forall k fxp p m e,
  2 < k -> 0 <= fxp <= k - 2 -> finite_in p m e ->
  exists c, encode_float k fxp p (FFin m e) = Ok c /\
    - 2 ^ (k - 2) <= c < 2 ^ (k - 2) /\
    decode_float k fxp (wrap k c) = FFin c (- fxp) /\
    let x := fval m e in let y := fval c (- fxp) in let B := fval 1 (k - 2 - fxp) in
    ((B <= x)%Q -> c = 2 ^ (k - 2) - 1) /\
    ((x <= - B)%Q -> c = - 2 ^ (k - 2)) /\
    ((- B < x < B)%Q ->
       (Qabs (x - y) < fval 1 (- fxp))%Q /\ (Qabs y <= Qabs x)%Q /\ (0 <= x * y)%Q).
Proof. exact encode_float_decoded. Qed.
Print Assumptions C02_finite.
(* -2.75 in double, FM32, 8 fraction bits; and a half-precision value. *)
Example C02_ex1 : finite_in PT_F64 (-11) (-2) /\ encode_float 32 8 PT_F64 (FFin (-11) (-2)) = Ok (-704).
Proof. split; vm_compute; reflexivity. Qed.
Example C02_ex2 : finite_in PT_F16 3 (-20) /\ encode_float 64 18 PT_F16 (FFin 3 (-20)) = Ok 0.
Proof. split; vm_compute; reflexivity. Qed.
Example C02_ex3 : encode_float 32 8 PT_F32 (FFin 1 22) = Ok (2 ^ 30 - 1).
Proof. vm_compute; reflexivity. Qed.

(* Shifting the scale constant by the whole ring width or more is undefined. *)
Theorem C02_fxp_bits_too_large_refuted : exists k fxp p x, k <= fxp /\ encode_float k fxp p x = Ub.
Proof. exists 32, 32, PT_F32, (FFin 1 0). split; [lia|reflexivity]. Qed.
Print Assumptions C02_fxp_bits_too_large_refuted.
