(* What the kernels of a protocol must do for the dispatch layer to be right, and when a value stands for a word. *)
From Verif Require Import Base Ring_spec Disp_model.
Open Scope Z_scope.

(* What a statement about a run says of one that does not complete (undefined behaviour or an exception): [strictly] there is
   none, otherwise nothing (every run that completes is right).  [shifts]: the protocol's shifts of boolean shares are required
   to be right too; statements about operations that do without them do not need this. *)
Class Mode := mkMode { strictly : bool; shifts : Prop }.
Definition strict : Mode := mkMode true True.
Definition lenient : Mode := mkMode false True.
Definition shiftless : Mode := mkMode true False.
Class Shifts {md : Mode} : Prop := can_shift : shifts.
#[global] Instance strict_shifts : @Shifts strict := I.
#[global] Instance lenient_shifts : @Shifts lenient := I.
Definition outcome {md : Mode} {X} (r : res X) (Q : X -> Prop) : Prop :=
  match r with Ok x => Q x | _ => strictly = false end.

Section Spec.
Context {md : Mode}.
Variable k : Z.
Variable n : nat.          (* number of parties *)
Variable pr : proto.
Variable isA : ash pr -> Z -> Prop.   (* the arithmetic share stands for the word *)
Variable isB : bsh pr -> Z -> Prop.

Definition gives {S} (is : S -> Z -> Prop) (r : res S) (a : Z) : Prop := outcome r (fun s => is s a).

(* every kernel computes its function on the words behind the shares, for every call number *)
Record proto_ok := mkOk {
  ok_word : forall b x, isB b x -> 0 <= k_nb pr b <= k /\ 0 <= x < 2 ^ k_nb pr b;
  ok_setnb : forall b x, isB b x -> x < 2 -> isB (k_setnb pr b 1) x /\ k_nb pr (k_setnb pr b 1) = 1;
  ok_p2a : forall t p, word k p -> gives isA (k_p2a pr t p) p;
  ok_p2b : forall t w p, word k p -> 0 <= w <= k -> p < 2 ^ w -> gives isB (k_p2b pr t w p) p;
  ok_v2a : forall t o f, (o < n)%nat -> word k (f o) -> gives isA (k_v2a pr t o f) (f o);
  ok_a2b : forall t a x, isA a x -> gives isB (k_a2b pr t a) x;
  ok_b2a : forall t b x, isB b x -> gives isA (k_b2a pr t b) x;
  ok_neg : forall t a x, isA a x -> gives isA (k_negate_a pr t a) (wrap k (- x));
  ok_add_ap : forall t a x p, isA a x -> word k p -> gives isA (k_add_ap pr t a p) (wrap k (x + p));
  ok_add_aa : forall t a x b y, isA a x -> isA b y -> gives isA (k_add_aa pr t a b) (wrap k (x + y));
  ok_mul_ap : forall t a x p, isA a x -> word k p -> gives isA (k_mul_ap pr t a p) (wrap k (x * p));
  ok_mul_aa : forall t a x b y, isA a x -> isA b y -> gives isA (k_mul_aa pr t a b) (wrap k (x * y));
  ok_lshift_a : forall t a x s, isA a x -> 0 <= s < k -> gives isA (k_lshift_a pr t a s) (wrap k (x * 2 ^ s));
  ok_and_bp : forall t b x w p, isB b x -> word k p -> 0 <= w <= k -> p < 2 ^ w -> gives isB (k_and_bp pr t b w p) (Z.land x p);
  ok_and_bb : forall t b x c y, isB b x -> isB c y -> gives isB (k_and_bb pr t b c) (Z.land x y);
  ok_xor_bp : forall t b x w p, isB b x -> word k p -> 0 <= w <= k -> p < 2 ^ w -> gives isB (k_xor_bp pr t b w p) (Z.lxor x p);
  ok_xor_bb : forall t b x c y, isB b x -> isB c y -> gives isB (k_xor_bb pr t b c) (Z.lxor x y);
  ok_lshift_b : shifts -> forall t b x s, isB b x -> 0 <= s < k -> gives isB (k_lshift_b pr t b s) (wrap k (x * 2 ^ s));
  ok_rshift_b : shifts -> forall t b x s, isB b x -> 0 <= s < k -> gives isB (k_rshift_b pr t b s) (x / 2 ^ s);
  ok_arshift_b : shifts -> forall t b x s v, isB b x -> 0 <= s < k -> signed_value k x v -> gives isB (k_arshift_b pr t b s) (wrap k (v / 2 ^ s));
  ok_no_msb : k_msb_a2b pr = None -> shifts;
  ok_square : forall m, k_square_a pr = Some m -> forall t a x, isA a x -> gives isA (m t a) (wrap k (x * x));
  ok_a1b : forall m, k_mul_a1b pr = Some m -> forall t a x b y, isA a x -> isB b y -> k_nb pr b = 1 -> gives isA (m t a b) (wrap k (x * y));
  ok_msb : forall m, k_msb_a2b pr = Some m -> forall t a x, isA a x -> gives isB (m t a) (x / 2 ^ (k - 1));
  ok_eq_aa : forall m, k_equal_aa pr = Some m -> forall t a x b y, isA a x -> isA b y -> gives isB (m t a b) (if x =? y then 1 else 0);
  ok_eq_ap : forall m, k_equal_ap pr = Some m -> forall t a x p, isA a x -> word k p -> gives isB (m t a p) (if x =? p then 1 else 0);
  ok_vvs : forall m, k_mul_vvs pr = Some m -> forall t o f o' g, (o < n)%nat -> (o' < n)%nat -> o <> o' -> word k (f o) -> word k (g o') ->
    gives isA (m t o f o' g) (wrap k (f o * g o')) }.

(* the value stands for the word a *)
Definition holds (x : val pr) (a : Z) : Prop :=
  word k a /\
  match x with
  | VP p => p = a
  | VV o f => (o < n)%nat /\ f o = a
  | VA s => isA s a
  | VB s => isB s a
  end.
End Spec.

(* number of one bits among the n lowest bits of x *)
Fixpoint bit_count (n : nat) (x : Z) : Z :=
  match n with O => 0 | S m => bit_count m x + (if Z.testbit x (Z.of_nat m) then 1 else 0) end.
(* y has a one at position i exactly when x has a one at i or above *)
Definition filled (x y : Z) : Prop := forall i, 0 <= i -> Z.testbit y i = true <-> exists j, i <= j /\ Z.testbit x j = true.
