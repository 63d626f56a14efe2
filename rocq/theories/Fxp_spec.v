(* Specification of fixed-point reciprocal and division.  A fixed-point number is an integer v standing for v / 2^f. *)
From Verif Require Import Base Ring_spec Share_spec Disp_model Disp_spec Disps_model Disps_spec Fxp_model.
Open Scope Z_scope.

(* the computation succeeds, whatever randomness is drawn; every party shown the result learns the same number, and the
   number (read as two's complement) satisfies P *)
Definition results_in (k : Z) (n : nat) (T : tapes) (m : M (val (semi_proto k n T))) (P : Z -> Prop) : Prop :=
  forall t, exists r t' a v, m t = Ok (r, t') /\ encodes k n T r a /\ signed_value k a v /\ P v /\
    forall rank, (rank < n)%nat -> reveal k n T rank r = a.

(* z / 2^f is the product of x / 2^f and y / 2^f, off by at most one unit in the last place *)
Definition product_close (f x y z : Z) : Prop := Z.abs (z * 2 ^ f - x * y) <= 2 ^ f.
(* the error of n Goldschmidt steps from a first guess good to 3.5 bits is below 1 / accuracy n *)
Definition accuracy (n : nat) : Z := 2 ^ (7 * 2 ^ (Z.of_nat n - 1)).
(* with B = b / 2^f and Z = z / 2^f:  | B * Z - 1 | <= 1 / accuracy n + (3n + 4 + |B|) / 2^f  (multiplied by accuracy n and 2^2f) *)
Definition reciprocal_close (n : nat) (f b z : Z) : Prop :=
  accuracy n * Z.abs (b * z - 2 ^ f * 2 ^ f) <= 2 ^ f * 2 ^ f + accuracy n * ((3 * Z.of_nat n + 4) * 2 ^ f + Z.abs b).
(* with A = a / 2^f:  | B * Z - A | <= |A| / accuracy n + ((3n + 4) |A| + 1 + |B| + 2^-f) / 2^f *)
Definition quotient_close (n : nat) (f a b z : Z) : Prop :=
  accuracy n * Z.abs (b * z - a * 2 ^ f) <= Z.abs a * 2 ^ f + accuracy n * ((3 * Z.of_nat n + 4) * Z.abs a + 2 ^ f + 1 + Z.abs b).

(* what a protocol's truncation must do: give some number; and when the operand is in range and the sign hint is true of
   it, the quotient rounded down or that plus one *)
Definition hint_true (s : sign_hint) (v : Z) : Prop := match s with Unknown => True | Positive => 0 <= v | Negative => v < 0 end.
Definition trunc_ok {md : Mode} (k : Z) (pr : proto) (isA : ash pr -> Z -> Prop) (tr : nat -> ash pr -> Z -> sign_hint -> res (ash pr)) : Prop :=
  forall t a x vx d s, isA a x -> 1 <= d <= k - 2 -> signed_value k x vx -> outcome (tr t a d s) (fun r => exists y, isA r y /\
    (- 2 ^ (k - 2) <= vx < 2 ^ (k - 2) -> hint_true s vx -> truncated k d x y 0 1)).
(* reversal of the bits at positions [start, end) *)
Definition reversed (start end_ x y : Z) : Prop :=
  forall i, 0 <= i -> bit y i = bit x (if (start <=? i) && (i <? end_) then end_ - 1 - i + start else i).
Definition bitrev_ok {md : Mode} (k : Z) (pr : proto) (isB : bsh pr -> Z -> Prop) (br : nat -> bsh pr -> Z -> Z -> res (bsh pr)) : Prop :=
  forall t b x s e, isB b x -> 0 <= s <= e -> e < k -> outcome (br t b s e) (fun r => exists y, isB r y /\ reversed s e x y).
