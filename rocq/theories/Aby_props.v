(* C25, C26, C27, C28: three-party replicated sharing (aby3).
   [repA k X x]: X is a well-formed replicated sharing (party i's second component is the next party's first)
   of x modulo 2^k.  [arel k nb X x]: the same for a boolean sharing of declared bit count nb, stored in one of
   the share types, with x < 2^nb.  Random draws (S, T, Q, ...) are universally quantified integers. *)
From Verif Require Import Base Ring_model Ring_spec Ring_proof Share_spec Party Semi_model Semi_proof Trunc_proof.
From Verif Require Import Circ_model Circ_spec Aby_model Aby_spec Aby_proof Abyb_proof Abyc_proof Abyt_proof.
Open Scope Z_scope.

Lemma ringw_pow k : ringw k -> exists w, (5 <= w)%nat /\ (w <= 7)%nat /\ k = 2 ^ Z.of_nat w.
Proof. intros [-> | [-> | ->]]; [exists 5%nat|exists 6%nat|exists 7%nat]; repeat split; lia. Qed.
Lemma ringw_pos k : ringw k -> 32 <= k <= 128.
Proof. unfold ringw. lia. Qed.
Lemma sgn_of k x v : 0 < k -> word k x -> signed_value k x v -> sgn k x = v.
Proof. intros K W [R [q E]]. rewrite <- (sgn_wrap k v K R). f_equal. rewrite E, eqm_mult. symmetry. now apply wrap_small. Qed.
Ltac pw H := destruct (ringw_pow _ H) as [w [W5 [W7 ->]]].
(* concrete sharings *)
Definition rs (a b c : Z) : shr := fun i => match i with O => (a, b) | 1%nat => (b, c) | _ => (c, a) end.
Ltac num := first [reflexivity | discriminate | lia | (split; [discriminate|reflexivity])].
Ltac repa a b c := apply (repA_intro _ _ _ a b c); num.
Ltac repb a b c := split; [reflexivity|]; apply repBn_intro; [apply (repB_intro _ _ _ a b c); num|cbn; lia|cbn; lia|cbn; tauto|reflexivity].

(* ---------------- C25 ---------------- *)
(* sharing: by the owner of a private value, of a public value, at the io boundary *)
Theorem C25_arith_share k o x r r1 r2 : 0 <= k -> (o < 3)%nat -> word k x ->
  repA k (v2a3 k o x r) x /\ repA k (p2a3 x) x /\ repA k (to_shares3 k x r1 r2) x.
Proof. intros K O W. split; [now apply v2a3_ok|]. split; [now apply p2a3_ok|now apply to_shares3_ok]. Qed.
Print Assumptions C25_arith_share.
Example C25_arith_share_ex : repA 32 (v2a3 32 1 4294967295 77) 4294967295 /\ v2a3 32 1 4294967295 77 1%nat = (4294967218, 77).
Proof. split; [|reflexivity]. repa 0 4294967218 77. Qed.
(* opening: to everybody, to any owner, at the io boundary *)
Theorem C25_arith_open k X x rank : 0 <= k -> (rank < 3)%nat -> repA k X x ->
  a2p3 k X rank = x /\ a2v3 k X rank rank = x /\ from_shares_a k X = x.
Proof. intros K O H. split; [now apply a2p3_ok|]. split; [now apply a2v3_ok|now apply from_shares_a_ok]. Qed.
Print Assumptions C25_arith_open.
Example C25_arith_open_ex : repA 32 (rs 4294967290 7 9) 10 /\ a2p3 32 (rs 4294967290 7 9) 2 = 10.
Proof. split; [repa 4294967290 7 9|reflexivity]. Qed.
(* local operations *)
Theorem C25_arith_linear k X Y x y p s : repA k X x -> repA k Y y -> 0 <= s < k ->
  repA k (negate_a3 k X) (wrap k (- x)) /\ repA k (add_aa3 k X Y) (wrap k (x + y)) /\ repA k (add_ap3 k X p) (wrap k (x + p)) /\
  repA k (mul_ap3 k X p) (wrap k (x * p)) /\ (exists V, lshift_a3 k X s = Ok V /\ repA k V (wrap k (x * 2 ^ s))).
Proof.
  intros HX HY S. assert (K : 0 <= k) by lia. split; [now apply negate_a3_ok|]. split; [now apply add_aa3_ok|]. split; [now apply add_ap3_ok|].
  split; [now apply mul_ap3_ok|now apply lshift_a3_ok].
Qed.
Print Assumptions C25_arith_linear.
Example C25_arith_linear_ex : repA 32 (add_aa3 32 (rs 4294967290 7 9) (rs 1 2 3)) 16 /\ repA 32 (add_ap3 32 (rs 4294967290 7 9) 4294967286) 0.
Proof. split; [repa 4294967291 9 12|repa 4294967290 4294967293 9]. Qed.
Theorem C25_arith_random k S : 2 <= k -> exists x, repA k (rand_a k S) x.
Proof. exact (rand_a_ok k S). Qed.
Print Assumptions C25_arith_random.
Example C25_arith_random_ex : repA 32 (rand_a 32 (fun i => nth i [4294967295; 5; 8] 0)) 1073741826.
Proof. repa 1073741823 1 2. Qed.
(* the components of any two parties determine the value; those of one party are compatible with every value *)
Theorem C25_two_parties k X Y x y i j : 0 <= k -> (i < 3)%nat -> (j < 3)%nat -> i <> j ->
  repA k X x -> repA k Y y -> X i = Y i -> X j = Y j -> x = y.
Proof. exact (two_parties k X Y x y i j). Qed.
Print Assumptions C25_two_parties.
Theorem C25_one_party k X x y i : 0 <= k -> (i < 3)%nat -> repA k X x -> word k y -> exists Y, repA k Y y /\ Y i = X i.
Proof. exact (one_party k X x y i). Qed.
Print Assumptions C25_one_party.
Example C25_one_party_ex : repA 32 (rs 4294967290 7 9) 10 /\ repA 32 (rs 4294967290 7 8) 9 /\ rs 4294967290 7 9 0%nat = rs 4294967290 7 8 0%nat.
Proof. split; [repa 4294967290 7 9|]. split; [repa 4294967290 7 8|reflexivity]. Qed.
(* boolean sharing and opening *)
Theorem C25_bool_share k xs x : ringw k -> Forall (word k) xs -> In x xs -> arel k (max_bitwidth k xs) (p2b3 k xs x) x.
Proof. intros F. pw F. now apply p2b3_ok. Qed.
Print Assumptions C25_bool_share.
Example C25_bool_share_ex : max_bitwidth 64 [5; 300] = 9 /\ arel 64 9 (p2b3 64 [5; 300] 5) 5.
Proof. split; [reflexivity|]. repb 5 0 0. Qed.
Theorem C25_bool_bit_secret k x r0 r1 : ringw k -> word 8 x -> arel k 1 (make_bit_secret x r0 r1) (x mod 2).
Proof. intros F. pw F. now apply make_bit_secret_ok. Qed.
Print Assumptions C25_bool_bit_secret.
Example C25_bool_bit_secret_ex : arel 64 1 (make_bit_secret 1 200 77) 1.
Proof. repb 0 1 0. Qed.
Theorem C25_bool_random k S : ringw k -> exists x, arel k 1 (rand_b3 k S) x.
Proof. intros F. pw F. now apply rand_b3_ok. Qed.
Print Assumptions C25_bool_random.
Theorem C25_bool_open k nb X x rank : ringw k -> (rank < 3)%nat -> arel k nb X x ->
  b2p3 k X rank = x /\ b2v3 k X rank rank = x /\ from_shares_b k X = x.
Proof. intros F R H. pw F. split; [now apply (b2p3_ok w W5 W7 nb)|]. split; [now apply (b2v3_ok w W5 W7 nb)|now apply (from_shares_b_ok w W5 W7 nb)]. Qed.
Print Assumptions C25_bool_open.
Example C25_bool_open_ex : arel 64 9 (mkB 16 9 (rs 255 1024 1340)) 451 /\ b2p3 64 (mkB 16 9 (rs 255 1024 1340)) 1 = 451.
Proof. split; [repb 255 1024 1340|reflexivity]. Qed.
(* local boolean operations, with the declared bit count of the result *)
Theorem C25_bool_xor k na nb X Y x y p : ringw k -> arel k na X x -> arel k nb Y y -> word k p ->
  arel k (Z.max na nb) (xor_bb3 X Y) (Z.lxor x y) /\ arel k (Z.max na (bitwidth p)) (xor_bp3 X p) (Z.lxor x p) /\
  arel k (Z.min na (bitwidth p)) (and_bp3 X p) (Z.land x p).
Proof. intros F HX HY HP. pw F. split; [now apply xor_bb3_ok|]. split; [now apply xor_bp3_ok|now apply and_bp3_ok]. Qed.
Print Assumptions C25_bool_xor.
Example C25_bool_xor_ex : arel 64 9 (xor_bb3 (mkB 16 9 (rs 255 1024 1340)) (mkB 8 3 (rs 255 1 250))) 455 /\ arel 64 17 (xor_bp3 (mkB 16 9 (rs 255 1024 1340)) 65536) 65987.
Proof. split; [repb 0 1025 1478|repb 65791 66560 66876]. Qed.
Theorem C25_bool_cast k nb v nb' X x : ringw k -> nb <= nb' <= v -> v <= k -> In v [8; 16; 32; 64; 128] -> arel k nb X x -> arel k nb' (cast_b3 v nb' X) x.
Proof. intros F. pw F. apply cast_b3_ok; auto. Qed.
Print Assumptions C25_bool_cast.
Example C25_bool_cast_ex : arel 64 9 (mkB 64 9 (rs 18446744073709551615 1 18446744073709551199)) 417 /\ cast_b3 16 9 (mkB 64 9 (rs 18446744073709551615 1 18446744073709551199)) = mkB 16 9 (fun i => both (wrap 16) (rs 18446744073709551615 1 18446744073709551199 i)).
Proof. split; [repb 18446744073709551615 1 18446744073709551199|reflexivity]. Qed.
Theorem C25_bool_shift k nb X x s : ringw k -> arel k nb X x ->
  (0 <= s < k -> s < 32 \/ 0 < nb -> exists V, lshift_b3 k X s = Ok V /\ arel k (nb_lshift k nb s) V (wrap k (x * 2 ^ s))) /\
  (0 <= s < Z.max 32 (bw X) -> exists V, rshift_b3 X s = Ok V /\ arel k (nb - Z.min nb s) V (x / 2 ^ s)) /\
  (forall vx, nb = k -> 0 <= s < k -> signed_value k x vx -> exists V, arshift_b3 k X s = Ok V /\ arel k k V (wrap k (vx / 2 ^ s))).
Proof.
  intros F H. pw F. set (k := 2 ^ Z.of_nat w) in *. pose proof (fk_pos w W5 W7) as KP. fold k in KP. split; [|split].
  - intros S D. destruct (lshift_b3_ok w W5 W7 nb X x s S D H) as [E HV]. eauto.
  - intros S. destruct (rshift_b3_ok w W5 W7 nb X x s ltac:(lia) H) as [E HV]. eauto.
  - intros vx -> S SV. destruct (arshift_b3_ok w W5 W7 X x s S H) as [V [E HV]]. exists V. split; [exact E|].
    unfold rsar in HV. fold k in HV. rewrite (sgn_of k x vx) in HV; auto; [lia|]. exact (repBn_wordk _ _ _ _ _ (proj2 H)).
Qed.
Print Assumptions C25_bool_shift.
Example C25_bool_shift_ex : arel 64 9 (mkB 16 9 (rs 255 1024 1340)) 451 /\ (exists V, lshift_b3 64 (mkB 16 9 (rs 255 1024 1340)) 60 = Ok V /\ bn V = 64 /\ b2p3 64 V 0 = 3458764513820540928) /\
  exists V, rshift_b3 (mkB 16 9 (rs 255 1024 1340)) 3 = Ok V /\ bw V = 8 /\ b2p3 64 V 2 = 56.
Proof. split; [repb 255 1024 1340|]. split; eexists; (split; [reflexivity|split; reflexivity]). Qed.
(* the left shift of a value known to be zero (bit count 0) by 32 or more bits of a 64-bit field is undefined *)
Theorem C25_bool_shift_refuted : exists X s, arel 64 0 X 0 /\ 0 <= s < 64 /\ lshift_b3 64 X s = Ub.
Proof. exists (p2b3 64 [0] 0), 32. split; [repb 0 0 0|]. split; [lia|reflexivity]. Qed.
Print Assumptions C25_bool_shift_refuted.
(* a one-bit share held in bytes: the sign-bit shift of api.cc msb_s (by 63) is outside the promoted type, and an
   arithmetic right shift is refused, although its value 1 is a perfectly good 64-bit word *)
Theorem C25_narrow_shift_refuted : exists X, arel 64 1 X 1 /\ rshift_b3 X 63 = Ub /\ arshift_b3 64 X 0 = Err.
Proof. exists (p2b3 64 [1] 1). split; [repb 1 0 0|]. split; reflexivity. Qed.
Print Assumptions C25_narrow_shift_refuted.
Theorem C25_bool_bitrev k nb X x s e : ringw k -> 0 <= s <= e -> e <= k -> e < Z.max 32 (bt (Z.max nb e)) -> arel k nb X x ->
  exists V y, bitrev_b3 X s e = Ok V /\ arel k (Z.max nb e) V y /\ bits_reversed x y s e.
Proof. intros F SE EK D H. pw F. exact (bitrev_b3_ok w W5 W7 nb X x s e SE EK H D). Qed.
Print Assumptions C25_bool_bitrev.
Example C25_bool_bitrev_ex : arel 64 3 (mkB 8 3 (rs 255 1 250)) 4 /\ 12 < Z.max 32 (bt 12) /\ exists V, bitrev_b3 (mkB 8 3 (rs 255 1 250)) 0 12 = Ok V /\ b2p3 64 V 0 = 512.
Proof. split; [repb 255 1 250|]. split; [reflexivity|]. eexists. split; reflexivity. Qed.
Theorem C25_bool_intl k l s X x : ringw k -> arel k (2 ^ Z.of_nat l) X x ->
  (exists V, bitintl_b3 X s = Ok V /\ arel k (2 ^ Z.of_nat l) V (bit_intl k s (2 ^ Z.of_nat l) x)) /\
  (exists V, bitdeintl_b3 X s = Ok V /\ arel k (2 ^ Z.of_nat l) V (bit_deintl k s (2 ^ Z.of_nat l) x)).
Proof. intros F H. pw F. split; [now apply bitintl_b3_ok|now apply bitdeintl_b3_ok]. Qed.
Print Assumptions C25_bool_intl.
Example C25_bool_intl_ex : arel 64 8 (mkB 8 8 (rs 255 1 250)) 4 /\ exists V, bitintl_b3 (mkB 8 8 (rs 255 1 250)) 0 = Ok V /\ b2p3 64 V 0 = 16.
Proof. split; [repb 255 1 250|]. eexists. split; reflexivity. Qed.

(* ---------------- C26 ---------------- *)
Theorem C26_mul k X Y x y S : 0 <= k -> repA k X x -> repA k Y y -> repA k (mul_aa3 k X Y S) (wrap k (x * y)).
Proof. exact (mul_aa3_ok k X Y x y S). Qed.
Print Assumptions C26_mul.
Example C26_mul_ex : repA 32 (rs 4294967290 7 9) 10 /\ repA 32 (rs 1 4294967293 4) 2 /\
  from_shares_a 32 (mul_aa3 32 (rs 4294967290 7 9) (rs 1 4294967293 4) (fun i => nth i [5; 4294967295; 77] 0)) = 20.
Proof. split; [repa 4294967290 7 9|]. split; [repa 1 4294967293 4|reflexivity]. Qed.
Theorem C26_matmul k K X Y x y S r c : 0 <= k -> (forall l, (l < K)%nat -> repA k (X r l) (x r l)) -> (forall l, (l < K)%nat -> repA k (Y l c) (y l c)) ->
  repA k (matmul_aa3 k K X Y S r c) (wrap k (dot K (x r) (fun l => y l c))).
Proof. exact (matmul_aa3_ok k K X Y x y S r c). Qed.
Print Assumptions C26_matmul.
Theorem C26_matmul_public k K X P x r c : 0 <= k -> (forall l, (l < K)%nat -> repA k (X r l) (x r l)) ->
  repA k (matmul_ap3 k K X P r c) (wrap k (dot K (x r) (fun l => P l c))).
Proof. exact (matmul_ap3_ok k K X P x r c). Qed.
Print Assumptions C26_matmul_public.
Example C26_matmul_ex : let X := fun (_ l : nat) => rs (Z.of_nat l) 4294967290 9 in let Y := fun (l _ : nat) => rs 1 2 (Z.of_nat l) in
  let x := fun (_ l : nat) => Z.of_nat l + 3 in let y := fun (l _ : nat) => Z.of_nat l + 3 in
  (repA 32 (X 0%nat 1%nat) 4) /\ dot 2 (x 0%nat) (fun l => y l 0%nat) = 25 /\ from_shares_a 32 (matmul_aa3 32 2 X Y (fun i => nth i [5; 4294967295; 77] 0) 0 0) = 25.
Proof. split; [repa 1 4294967290 9|]. split; reflexivity. Qed.
Theorem C26_and k na nb X Y x y S : ringw k -> arel k na X x -> arel k nb Y y -> arel k (Z.min na nb) (and_bb3 X Y S) (Z.land x y).
Proof. intros F. pw F. now apply and_bb3_ok. Qed.
Print Assumptions C26_and.
Example C26_and_ex : arel 64 9 (mkB 16 9 (rs 255 1024 1340)) 451 /\ arel 64 3 (mkB 8 3 (rs 255 1 249)) 7 /\
  b2p3 64 (and_bb3 (mkB 16 9 (rs 255 1024 1340)) (mkB 8 3 (rs 255 1 249)) (fun i => nth i [5; 4294967295; 77] 0)) 1 = 3.
Proof. split; [repb 255 1024 1340|]. split; [repb 255 1 249|reflexivity]. Qed.

(* ---------------- C27 ---------------- *)
(* pivot: the public 64-bit draw that picks the roles; the theorems exclude its two top values, see C27_roles_refuted *)
Theorem C27_a2b k T t X S x : ringw k -> repA k X x -> exists V, a2b3 k T t X S = Ok V /\ arel k k V x.
Proof. intros F. pw F. now apply a2b3_ok. Qed.
Print Assumptions C27_a2b.
Example C27_a2b_ex : repA 32 (rs 4294967290 7 9) 10 /\
  exists V, a2b3 32 (fun t i => Z.of_nat (7 * t + 3 * i)) 0 (rs 4294967290 7 9) (fun i => nth i [5; 4294967295; 77] 0) = Ok V /\ b2p3 32 V 1 = 10.
Proof.
  assert (H : repA 32 (rs 4294967290 7 9) 10) by repa 4294967290 7 9. assert (F : ringw 32) by (left; reflexivity). split; [exact H|].
  destruct (C27_a2b 32 (fun t i => Z.of_nat (7 * t + 3 * i)) 0 _ (fun i => nth i [5; 4294967295; 77] 0) _ F H) as [V [E A]].
  exists V. split; [exact E|]. now apply (C25_bool_open 32 32 V 10 1 F ltac:(lia)).
Qed.
Theorem C27_msb k T t X S x vx : ringw k -> repA k X x -> signed_value k x vx ->
  exists V, msb_a2b3 k T t X S = Ok V /\ arel k 1 V (if vx <? 0 then 1 else 0).
Proof.
  intros F H SV. pose proof (ringw_pos k F) as KP. pose proof (repA_word k X x H) as W. pose proof (sgn_of k x vx ltac:(lia) W SV) as E.
  assert (V : rshr (k - 1) x = if vx <? 0 then 1 else 0).
  { rewrite <- E. unfold rshr, sgn. pose proof (pow2_half k ltac:(lia)). pose proof (pow2_pos (k - 1) ltac:(lia)). destruct W as [W1 W2].
    destruct (Z.ltb_spec x (2 ^ (k - 1))).
    - destruct (Z.ltb_spec x 0); [lia|]. now apply Z.div_small.
    - destruct (Z.ltb_spec (x - 2 ^ k) 0); [|lia]. symmetry. apply Z.div_unique with (x - 2 ^ (k - 1)); lia. }
  rewrite <- V. pw F. now apply msb_a2b3_ok.
Qed.
Print Assumptions C27_msb.
Example C27_msb_ex : repA 32 (rs 4294967290 3 2) 4294967295 /\ signed_value 32 4294967295 (-1) /\
  exists V, msb_a2b3 32 (fun t i => Z.of_nat (7 * t + 3 * i)) 0 (rs 4294967290 3 2) (fun i => nth i [5; 4294967295; 77] 0) = Ok V /\ b2p3 32 V 1 = 1.
Proof.
  assert (H : repA 32 (rs 4294967290 3 2) 4294967295) by repa 4294967290 3 2. assert (F : ringw 32) by (left; reflexivity). split; [exact H|].
  assert (SV : signed_value 32 4294967295 (-1)) by (split; [num|exists (-1); reflexivity]). split; [exact SV|].
  destruct (C27_msb 32 (fun t i => Z.of_nat (7 * t + 3 * i)) 0 _ (fun i => nth i [5; 4294967295; 77] 0) _ _ F H SV) as [V [E A]].
  exists V. split; [exact E|]. now apply (C25_bool_open 32 1 V 1 1 F ltac:(lia)).
Qed.
Theorem C27_b2a_adder k T t X x nb RA RB : ringw k -> arel k nb X x -> exists V, b2a_ppa3 k T t X RA RB = Ok V /\ repA k V x.
Proof. intros F. pw F. now apply b2a_ppa3_ok. Qed.
Print Assumptions C27_b2a_adder.
Example C27_b2a_adder_ex : let d := fun i => nth i [5; 4294967295; 77] 0 in
  arel 32 9 (mkB 16 9 (rs 255 1024 1340)) 451 /\ exists V, b2a_ppa3 32 (fun t i => Z.of_nat (7 * t + 3 * i)) 0 (mkB 16 9 (rs 255 1024 1340)) d d = Ok V /\ a2p3 32 V 1 = 451.
Proof.
  cbv zeta. assert (H : arel 32 9 (mkB 16 9 (rs 255 1024 1340)) 451) by repb 255 1024 1340. assert (F : ringw 32) by (left; reflexivity). split; [exact H|].
  destruct (C27_b2a_adder 32 (fun t i => Z.of_nat (7 * t + 3 * i)) 0 _ _ _ (fun i => nth i [5; 4294967295; 77] 0) (fun i => nth i [5; 4294967295; 77] 0) F H) as [V [E A]].
  exists V. split; [exact E|]. now apply (C25_arith_open 32 V 451 1 ltac:(lia) ltac:(lia)).
Qed.
Theorem C27_b2a_ot k pivot X x nb R M0 M1 : ringw k -> 0 <= pivot -> pivot + 2 < 2 ^ 64 -> arel k nb X x ->
  exists V, b2a_ot3 k pivot X R M0 M1 = Ok V /\ repA k V x.
Proof. intros F. pw F. now apply b2a_ot3_ok. Qed.
Print Assumptions C27_b2a_ot.
Example C27_b2a_ot_ex : let d := fun j i => Z.of_nat (7 * j + 31 * i) in
  arel 32 9 (mkB 16 9 (rs 255 1024 1340)) 451 /\ exists V, b2a_ot3 32 4 (mkB 16 9 (rs 255 1024 1340)) d d d = Ok V /\ a2p3 32 V 1 = 451.
Proof. split; [repb 255 1024 1340|]. eexists. split; [reflexivity|vm_compute; reflexivity]. Qed.
(* the kernel that is registered *)
Theorem C27_b2a k T t pivot X x nb RA RB R M0 M1 : ringw k -> 0 <= pivot -> pivot + 2 < 2 ^ 64 -> arel k nb X x ->
  exists V, b2a3 k T t pivot X RA RB R M0 M1 = Ok V /\ repA k V x.
Proof. intros F. pw F. now apply b2a3_ok. Qed.
Print Assumptions C27_b2a.
Example C27_b2a_ex : let d := fun j i => Z.of_nat (7 * j + 31 * i) in arel 32 3 (mkB 8 3 (rs 255 1 249)) 7 /\
  exists V, b2a3 32 d 0 5 (mkB 8 3 (rs 255 1 249)) (d 0%nat) (d 1%nat) d d d = Ok V /\ a2p3 32 V 1 = 7.
Proof. split; [repb 255 1 249|]. eexists. split; [reflexivity|vm_compute; reflexivity]. Qed.
Theorem C27_mul_bit k X B a b S : ringw k -> repA k X a -> arel k 1 B b -> exists V, mul_a1b3 k (bn B) X (bx B) S = Ok V /\ repA k V (wrap k (a * b)).
Proof.
  intros F HA [EB HB]. pose proof (ringw_pos k F). rewrite EB. apply (mul_a1b3_ok k (bw B)); auto; [lia|apply HB|]. exact (proj2 (repBn_word _ _ _ _ _ HB)).
Qed.
Print Assumptions C27_mul_bit.
Example C27_mul_bit_ex : let d := fun j i => Z.of_nat (7 * j + 31 * i) in repA 32 (rs 4294967290 7 9) 10 /\ arel 32 1 (mkB 8 1 (rs 255 1 255)) 1 /\
  exists V, mul_a1b3 32 1 (rs 4294967290 7 9) (rs 255 1 255) d = Ok V /\ a2p3 32 V 1 = 10.
Proof. split; [repa 4294967290 7 9|]. split; [repb 255 1 255|]. eexists. split; [reflexivity|vm_compute; reflexivity]. Qed.
Theorem C27_equal k pivot X Y x y r S Q : ringw k -> 0 <= pivot -> pivot + 2 < 2 ^ 64 -> repA k X x -> repA k Y y ->
  exists V, equal_aa3 k pivot X Y r S Q = Ok V /\ arel k 8 V (if x =? y then 1 else 0).
Proof. intros F. pw F. now apply equal_aa3_ok. Qed.
Print Assumptions C27_equal.
Theorem C27_equal_public k pivot X x p r S Q : ringw k -> 0 <= pivot -> pivot + 2 < 2 ^ 64 -> repA k X x -> word k p ->
  exists V, equal_ap3 k pivot X p r S Q = Ok V /\ arel k 8 V (if x =? p then 1 else 0).
Proof. intros F. pw F. now apply equal_ap3_ok. Qed.
Print Assumptions C27_equal_public.
Example C27_equal_ex : let d := fun j i => Z.of_nat (7 * j + 31 * i) in let q := fun c i => c + 3 * Z.of_nat i in
  repA 32 (rs 4294967290 7 9) 10 /\ repA 32 (rs 3 3 4) 10 /\ repA 32 (rs 3 3 5) 11 /\
  (exists V, equal_aa3 32 1 (rs 4294967290 7 9) (rs 3 3 4) 123456 d q = Ok V /\ b2p3 32 V 1 = 1) /\
  (exists V, equal_aa3 32 2 (rs 4294967290 7 9) (rs 3 3 5) 123456 d q = Ok V /\ b2p3 32 V 1 = 0) /\
  (exists V, equal_ap3 32 3 (rs 4294967290 7 9) 10 123456 d q = Ok V /\ b2p3 32 V 0 = 1).
Proof.
  intros d q. assert (H1 : repA 32 (rs 4294967290 7 9) 10) by repa 4294967290 7 9. assert (H2 : repA 32 (rs 3 3 4) 10) by repa 3 3 4. assert (H3 : repA 32 (rs 3 3 5) 11) by repa 3 3 5.
  assert (R : ringw 32) by now left. split; [exact H1|split; [exact H2|split; [exact H3|]]].
  destruct (C27_equal 32 1 _ _ _ _ 123456 d q R ltac:(lia) ltac:(lia) H1 H2) as (V & E & HV).
  destruct (C27_equal 32 2 _ _ _ _ 123456 d q R ltac:(lia) ltac:(lia) H1 H3) as (V' & E' & HV').
  destruct (C27_equal_public 32 3 _ _ 10 123456 d q R ltac:(lia) ltac:(lia) H1 ltac:(split; [lia|reflexivity])) as (V3 & E3 & HV3).
  split; [|split]; eexists; (split; [eassumption|]); eapply C25_bool_open; (eassumption || lia).
Qed.
(* the two top values of the public 64-bit draw give two parties the same role; the third party throws *)
Theorem C27_roles_refuted : exists pivot X x, 0 <= pivot < 2 ^ 64 /\ arel 64 3 X x /\ (forall R M0 M1, b2a_ot3 64 pivot X R M0 M1 = Err) /\
  exists A a, repA 64 A a /\ forall r S Q, eqz3 64 pivot A r S Q = Err.
Proof.
  exists (2 ^ 64 - 1), (mkB 8 3 (rs 255 1 249)), 7. split; [lia|]. split; [repb 255 1 249|]. split; [intros; reflexivity|].
  exists (rs 3 3 4), 10. split; [repa 3 3 4|intros; reflexivity].
Qed.
Print Assumptions C27_roles_refuted.

(* ---------------- C28 ---------------- *)
(* the registered truncation: for every mask, x in the documented range *)
Theorem C28_trunc_apr2 k d pivot X x vx S : 1 < k -> 1 <= d < k -> d <= 128 -> 0 <= pivot -> pivot + 2 < 2 ^ 64 -> repA k X x ->
  signed_value k x vx -> - 2 ^ (k - 2) <= vx < 2 ^ (k - 2) ->
  exists V y, trunc_apr23 k d pivot X S = Ok V /\ repA k V y /\ truncated k d x y 0 1.
Proof.
  intros K D D8 P0 P2 H SV B. rewrite <- (sgn_of k x vx) in B; auto; [|lia|exact (repA_word k X x H)]. now apply trunc_apr23_ok.
Qed.
Print Assumptions C28_trunc_apr2.
Example C28_trunc_apr2_ex : let d := fun j i => Z.of_nat (7 * j + 31 * i) in let X := rs 4294967290 100 4294967000 in
  repA 32 X 4294967094 /\ signed_value 32 4294967094 (-202) /\ exists V, trunc_apr23 32 3 7 X d = Ok V /\ a2p3 32 V 1 = 4294967271.
Proof. split; [repa 4294967290 100 4294967000|]. split; [split; [num|exists (-1); reflexivity]|]. eexists. split; [reflexivity|vm_compute; reflexivity]. Qed.
(* the truncation that assumes the sign of x *)
Theorem C28_trunc_sign k (neg : bool) d pivot X x vx S : 1 < k -> 1 <= d < k -> d <= 128 -> 0 <= pivot -> pivot + 2 < 2 ^ 64 -> repA k X x ->
  signed_value k x vx -> (if neg then vx < 0 else 0 <= vx) ->
  exists V y, trunc_msb3 k neg d pivot X S = Ok V /\ repA k V y /\ truncated k d x y (-1) 0.
Proof.
  intros K D D8 P0 P2 H SV B. rewrite <- (sgn_of k x vx) in B; auto; [|lia|exact (repA_word k X x H)]. now apply trunc_msb3_ok.
Qed.
Print Assumptions C28_trunc_sign.
Example C28_trunc_sign_ex : let d := fun j i => Z.of_nat (7 * j + 31 * i) in let X := rs 4294967290 100 4294967000 in
  repA 32 X 4294967094 /\ signed_value 32 4294967094 (-202) /\ exists V, trunc_msb3 32 true 3 8 X d = Ok V /\ a2p3 32 V 1 = 4294967270.
Proof. split; [repa 4294967290 100 4294967000|]. split; [split; [num|exists (-1); reflexivity]|]. eexists. split; [reflexivity|vm_compute; reflexivity]. Qed.
(* zero does not satisfy a negative hint: the result is off by 2^(k-d) *)
Theorem C28_trunc_sign_refuted : exists X S V y, repA 32 X 0 /\ trunc_msb3 32 true 3 0 X S = Ok V /\ repA 32 V y /\ ~ truncated 32 3 0 y (-1) 0.
Proof.
  exists (rs 0 0 0), (fun _ _ => 0). eexists. exists 3758096384. split; [repa 0 0 0|]. split; [reflexivity|]. split; [repa 0 3758096384 0|].
  intros [vx [vy [[R1 [q1 E1]] [[R2 [q2 E2]] B]]]]. change (2 ^ 32) with 4294967296 in *. change (2 ^ (32 - 1)) with 2147483648 in *. change (2 ^ 3) with 8 in *.
  assert (vx = 0) by lia. assert (vy = -536870912) by lia. clear E1 E2 R1 R2. subst vx vy. rewrite Z.div_0_l in B by lia. lia.
Qed.
Print Assumptions C28_trunc_sign_refuted.
(* the two truncations compiled in without the precise option *)
Theorem C28_trunc_apr k d pivot X x vx S u1 u2 : 1 < k -> 0 <= d <= k - 2 -> 0 <= pivot -> pivot + 2 < 2 ^ 64 -> repA k X x ->
  signed_value k x vx -> - 2 ^ (k - 2) <= vx < 2 ^ (k - 2) ->
  exists V y, trunc_apr3 k d pivot X S u1 u2 = Ok V /\ repA k V y /\ truncated k d x y 0 1.
Proof.
  intros K D P0 P2 H SV B. rewrite <- (sgn_of k x vx) in B; auto; [|lia|exact (repA_word k X x H)]. now apply trunc_apr3_ok.
Qed.
Print Assumptions C28_trunc_apr.
Example C28_trunc_apr_ex : let d := fun j i => Z.of_nat (7 * j + 31 * i) in let X := rs 4294967290 100 4294967000 in
  repA 32 X 4294967094 /\ signed_value 32 4294967094 (-202) /\ exists V, trunc_apr3 32 3 7 X d 55 66 = Ok V /\ a2p3 32 V 1 = 4294967271.
Proof. split; [repa 4294967290 100 4294967000|]. split; [split; [num|exists (-1); reflexivity]|]. eexists. split; [reflexivity|vm_compute; reflexivity]. Qed.
(* local truncation: whenever the first share does not wrap *)
Theorem C28_trunc_a k d X x vx v0 S : 1 < k -> 0 <= d < k -> repA k X x -> signed_value k x vx -> signed_value k (fst (X 0%nat)) v0 ->
  - 2 ^ (k - 1) <= v0 - vx < 2 ^ (k - 1) -> exists V y, trunc_a3 k d X S = Ok V /\ repA k V y /\ truncated k d x y 0 1.
Proof.
  intros K D H SV S0 B. apply trunc_a3_ok; auto. unfold no_wrap2.
  rewrite (sgn_of k x vx), (sgn_of k (fst (X 0%nat)) v0); auto; try lia; [|exact (repA_word k X x H)]. apply (proj1 H 0%nat). lia.
Qed.
Print Assumptions C28_trunc_a.
Example C28_trunc_a_ex : let X := rs 4294967290 100 4294967000 in
  repA 32 X 4294967094 /\ signed_value 32 4294967094 (-202) /\ signed_value 32 4294967290 (-6) /\ exists V, trunc_a3 32 3 X (fun i => 5 * Z.of_nat i) = Ok V /\ a2p3 32 V 1 = 4294967271.
Proof. split; [repa 4294967290 100 4294967000|]. split; [split; [num|exists (-1); reflexivity]|]. split; [split; [num|exists (-1); reflexivity]|]. eexists. split; [reflexivity|vm_compute; reflexivity]. Qed.
(* with either of the two top values of the public draw the kernel throws *)
Theorem C28_roles_refuted : exists pivot X x vx, 0 <= pivot < 2 ^ 64 /\ repA 64 X x /\ signed_value 64 x vx /\ - 2 ^ 62 <= vx < 2 ^ 62 /\ forall S, trunc_apr23 64 18 pivot X S = Err.
Proof. exists (2 ^ 64 - 2), (rs 3 3 4), 10, 10. split; [lia|]. split; [repa 3 3 4|]. split; [split; [num|exists 0; reflexivity]|]. split; [lia|intros; reflexivity]. Qed.
Print Assumptions C28_roles_refuted.
