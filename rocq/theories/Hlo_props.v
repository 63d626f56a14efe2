(* C39: casts between integers and fixed point, floor, ceil, rounding.  C40: integer power.  C51: shifts by a secret amount.
   Theorems speak of operands of any visibility, for the semi2k protocol with any number of parties. *)
From Verif Require Import Base Ring_model Ring_spec Ring_proof Share_spec Party Semi_model Semi_proof Circ_model Conv_model Conv_spec Conv_props.
From Verif Require Import Disp_model Disp_spec Disp_proof Dispd_proof Disps_model Disps_spec Disps_proof Disp_props Hlo_model Hlo_spec Hlo_proof Hlor_proof.
Open Scope Z_scope.
#[local] Existing Instance strict.

Section Hlo.
Variable w n : nat.
Hypothesis W : (5 <= w <= 7)%nat.   (* FM32, FM64, FM128 *)
Hypothesis N : (0 < n)%nat.
Notation k := (2 ^ Z.of_nat w).
Variable T : tapes.
Hypothesis G : good_tapes k n T.
Variable others : nat -> Z.          (* bit widths of the other elements of public arrays *)
Hypothesis OT : forall t, 0 <= others t <= k.
Notation pr := (semi_proto k n T).
Notation encodes := (encodes k n T).
Notation results := (results k n T).
Let K1 : 1 < k. Proof. destruct (kpos w (proj1 W) (proj2 W)). lia. Qed.
Let OKP := semi_ok w (proj1 W) (proj2 W) n N T G.
Let RW := results_wp w (proj1 W) (proj2 W) n N T.
Let WA := sA_word w n.
Ltac fin := match goal with |- forall r, _ -> _ => intros ? HH; cbv beta in HH; repeat match type of HH with _ /\ _ => destruct HH as [HH _] end; exact HH end.

(* an integer v becomes the fixed-point number v *)
Theorem C39_int_to_fxp f x a v : 0 <= f < k -> encodes x a -> signed_value k a v -> results (int2fxp k pr f x) ((v * 2 ^ f) mod 2 ^ k).
Proof. intros F X V. apply RW. eapply wp_mono; [eapply (int2fxp_ok k K1 n pr _ _ OKP WA others OT); eassumption|fin]. Qed.
(* the fraction is dropped *)
Theorem C39_fxp_to_int f x a v : 0 <= f < 31 -> encodes x a -> signed_value k a v ->
  exists q, is_trunc f v q /\ - 2 ^ (k - 1) <= q < 2 ^ (k - 1) /\ results (fxp2int k pr f x) (q mod 2 ^ k).
Proof.
  intros F X V. assert (F' : 0 <= f < k). { assert (2 ^ 5 <= k) by (apply Z.pow_le_mono_r; lia). lia. }
  exists (Z.quot v (2 ^ f)). split; [now apply (trunc_quot k f F')|]. split; [apply (quot_range k f F'), V|].
  apply RW. eapply wp_mono; [eapply (fxp2int_ok k K1 n pr _ _ OKP WA others OT f F'); [exact X|exact V|lia]|fin].
Qed.
(* an integer that fits comes back *)
Theorem C39_int_roundtrip f x a v : 0 <= f < 31 -> encodes x a -> signed_value k a v -> - 2 ^ (k - 1) <= v * 2 ^ f < 2 ^ (k - 1) ->
  results (fun t => rbind (int2fxp k pr f x t) (fun '(y, t') => fxp2int k pr f y t')) a.
Proof.
  intros F X V R. assert (F' : 0 <= f < k). { assert (2 ^ 5 <= k) by (apply Z.pow_le_mono_r; lia). lia. }
  apply RW. change (fun t => rbind (int2fxp k pr f x t) (fun '(y, t') => fxp2int k pr f y t')) with (bind (int2fxp k pr f x) (fxp2int k pr f)).
  apply wp_bind. eapply wp_mono; [eapply (int2fxp_ok k K1 n pr _ _ OKP WA others OT f F'); eassumption|]. cbv beta. intros y Y.
  eapply wp_mono; [eapply (fxp2int_ok k K1 n pr _ _ OKP WA others OT f F'); [exact Y|apply signed_of_range; [lia|exact R]|lia]|].
  cbv beta. intros r H. eapply holds_eq; [exact H|]. rewrite Z.quot_mul by (apply Z.pow_nonzero; lia).
  symmetry. apply wrap_of_signed; [lia|exact (proj1 X)|exact V].
Qed.
Theorem C39_floor f x a v : 0 <= f < k -> encodes x a -> signed_value k a v ->
  exists u, is_floor f v u /\ - 2 ^ (k - 1) <= u < 2 ^ (k - 1) /\ results (f_floor k pr f x) (u mod 2 ^ k).
Proof.
  intros F X V. destruct (floor_ok k K1 n pr _ _ OKP WA others OT f F x a v X V) as (u & U & R & H). exists u. split; [exact U|split; [exact R|]]. apply RW. exact H.
Qed.
Theorem C39_ceil f x a v : 0 <= f < k -> encodes x a -> signed_value k a v -> v + 2 ^ f - 1 < 2 ^ (k - 1) ->
  exists u, is_ceil f v u /\ - 2 ^ (k - 1) <= u < 2 ^ (k - 1) /\ results (f_ceil k pr f x) (u mod 2 ^ k).
Proof.
  intros F X V B. destruct (ceil_ok k K1 n pr _ _ OKP WA others OT f F x a v X V B) as (u & U & R & H). exists u. split; [exact U|split; [exact R|]]. apply RW. exact H.
Qed.
Theorem C39_round_away f x a v : 0 < f < 31 -> encodes x a -> signed_value k a v -> Z.abs v + 2 ^ (f - 1) < 2 ^ (k - 1) ->
  exists u, is_round_away f v u /\ - 2 ^ (k - 1) <= u < 2 ^ (k - 1) /\ results (round_afz k pr f x) (u mod 2 ^ k).
Proof.
  intros F X V B. assert (F' : 0 <= f < k). { assert (2 ^ 5 <= k) by (apply Z.pow_le_mono_r; lia). lia. }
  destruct (afz_ok k K1 n pr _ _ OKP WA others OT f F' x a v X V F B) as (u & U & R & H). exists u. split; [exact U|split; [exact R|]]. apply RW. exact H.
Qed.
(* a boolean share carries enough bits for the fraction *)
Theorem C39_round_even f x a v : 2 <= f < k -> encodes x a -> signed_value k a v -> (forall s, x = VB s -> f - 1 <= fst s) ->
  exists u, is_round_even f v u /\ results (round_rnte k pr others f x) (u mod 2 ^ k).
Proof.
  intros F X V B. destruct (rnte_ok w (proj1 W) (proj2 W) n N T G others OT f F x a v X V) as (u & U & H).
  - destruct x; cbn [wide]; auto.
  - exists u. split; [exact U|]. apply RW. exact H.
Qed.

(* ---- power ---- *)
Lemma y_bits_k : 2 ^ Z.of_nat (y_bits k) = k.
Proof.
  unfold y_bits. rewrite Z2Nat.id by apply Z.log2_up_nonneg. f_equal. apply Z.log2_up_unique.
  - assert (2 ^ 5 <= k) by (apply Z.pow_le_mono_r; lia). lia.
  - assert (2 ^ 5 <= k) by (apply Z.pow_le_mono_r; lia). assert (E : k = 2 * 2 ^ Z.pred (Z.of_nat w)) by (rewrite <- Z.pow_succ_r by lia; f_equal; lia).
    assert (2 ^ 4 <= 2 ^ Z.pred (Z.of_nat w)) by (apply Z.pow_le_mono_r; lia). lia.
Qed.
Lemma abs1_pow u e : Z.abs u = 1 -> 0 <= e -> u ^ e = if Z.even e then 1 else u.
Proof.
  intros U E. destruct (Z.even e) eqn:EV.
  - apply Z.even_spec in EV. destruct EV as [q ->]. rewrite Z.pow_mul_r by lia. replace (u ^ 2) with 1 by (assert (u = 1 \/ u = -1) as [-> | ->] by lia; reflexivity). apply Z.pow_1_l. lia.
  - assert (O : Z.odd e = true) by (rewrite <- Z.negb_even, EV; reflexivity). apply Z.odd_spec in O. destruct O as [q ->].
    rewrite Z.pow_add_r, Z.pow_mul_r, Z.pow_1_r by lia. replace (u ^ 2) with 1 by (assert (u = 1 \/ u = -1) as [-> | ->] by lia; reflexivity). rewrite Z.pow_1_l by lia. lia.
Qed.
Lemma k_32 : 32 <= k.
Proof. change 32 with (2 ^ 5). apply Z.pow_le_mono_r; lia. Qed.
(* exponents from zero to the width of the ring, exclusive *)
Theorem C40_power x y a b u v : encodes x a -> encodes y b -> signed_value k a u -> signed_value k b v -> 0 <= v < k ->
  results (power k pr others x y) ((u ^ v) mod 2 ^ k).
Proof.
  intros X Y U V R. pose proof k_32. apply RW. eapply wp_mono; [eapply (power_ok k K1 n pr _ _ OKP WA others OT); [exact X|exact Y|exact U|exact V|lia]|].
  cbv beta. intros r H0. eapply holds_eq; [exact H0|]. destruct (Z.ltb_spec v 0); [lia|]. cbn [andb].
  rewrite y_bits_k. replace (b mod k) with v; [reflexivity|]. rewrite (wrap_of_signed k b v ltac:(lia) (proj1 Y) V), wrap_small.
  - symmetry. apply Z.mod_small. exact R.
  - assert (k < 2 ^ k) by (apply Z.pow_gt_lin_r; lia). lia.
Qed.
(* a negative exponent: x^y is the reciprocal of an integer, which is an integer only for 1 and -1; otherwise zero *)
Theorem C40_negative_exponent x y a b u v : encodes x a -> encodes y b -> signed_value k a u -> signed_value k b v -> v < 0 ->
  results (power k pr others x y) (if Z.abs u =? 1 then (u ^ Z.abs v) mod 2 ^ k else 0).
Proof.
  intros X Y U V R. pose proof k_32. apply RW. eapply wp_mono; [eapply (power_ok k K1 n pr _ _ OKP WA others OT); [exact X|exact Y|exact U|exact V|lia]|].
  cbv beta. intros r H0. eapply holds_eq; [exact H0|]. destruct (Z.ltb_spec v 0); [|lia]. cbn [andb].
  destruct (Z.eqb_spec (Z.abs u) 1) as [U1|U1]; cbn [negb]; [|reflexivity].
  rewrite y_bits_k. pose proof (Z.mod_pos_bound b k ltac:(lia)). rewrite !(abs1_pow u) by lia. unfold wrap. f_equal.
  replace (Z.even (b mod k)) with (Z.even (Z.abs v)); [reflexivity|].
  assert (E2 : k = 2 * 2 ^ Z.pred (Z.of_nat w)) by (rewrite <- Z.pow_succ_r by lia; f_equal; lia).
  assert (EB : Z.even (b mod k) = Z.even b).
  { rewrite Z.mod_eq, Z.even_sub by lia. rewrite E2 at 1. rewrite !Z.even_mul. cbn [Z.even orb]. now destruct (Z.even b). }
  rewrite EB. destruct V as [_ [q ->]]. rewrite Z.abs_neq by lia. rewrite Z.even_opp, Z.even_add, Z.even_mul.
  replace (Z.even (2 ^ k)) with true; [rewrite orb_true_r; now destruct (Z.even b)|].
  symmetry. rewrite Z.even_pow by lia. reflexivity.
Qed.
(* 1 and -1: any exponent *)
Theorem C40_power_of_one x y a b u v : encodes x a -> encodes y b -> signed_value k a u -> signed_value k b v -> 0 <= v -> Z.abs u = 1 ->
  results (power k pr others x y) ((u ^ v) mod 2 ^ k).
Proof.
  intros X Y U V R U1. pose proof k_32. apply RW. eapply wp_mono; [eapply (power_ok k K1 n pr _ _ OKP WA others OT); [exact X|exact Y|exact U|exact V|lia]|].
  cbv beta. intros r H0. eapply holds_eq; [exact H0|]. destruct (Z.ltb_spec v 0); [lia|]. cbn [andb].
  rewrite y_bits_k. pose proof (Z.mod_pos_bound b k ltac:(lia)). rewrite !(abs1_pow u) by lia. unfold wrap. f_equal.
  replace (Z.even v) with (Z.even (b mod k)); [reflexivity|].
  assert (E2 : k = 2 * 2 ^ Z.pred (Z.of_nat w)) by (rewrite <- Z.pow_succ_r by lia; f_equal; lia).
  assert (EB : Z.even (b mod k) = Z.even b).
  { rewrite Z.mod_eq, Z.even_sub by lia. rewrite E2 at 1. rewrite !Z.even_mul. cbn [Z.even orb]. now destruct (Z.even b). }
  rewrite EB. destruct V as [_ [q ->]]. rewrite Z.even_add, Z.even_mul.
  replace (Z.even (2 ^ k)) with true; [rewrite orb_true_r; now destruct (Z.even b)|].
  symmetry. rewrite Z.even_pow by lia. reflexivity.
Qed.

(* ---- shifts ---- *)
(* amounts below the width of the data type, of any visibility: the answer depends only on the plaintexts *)
Theorem C51_shift_left width x y a b : encodes x a -> encodes y b -> 0 <= b < Z.of_nat width -> Z.of_nat width <= k ->
  results (shift_impl k pr others ShL width x y) ((a * 2 ^ b) mod 2 ^ k).
Proof.
  intros X Y B WK. pose proof (signed_sgn k a ltac:(pose proof K1; lia) (proj1 X)) as V.
  apply RW. eapply wp_mono; [eapply (shift_impl_ok k K1 n pr _ _ OKP WA others OT ShL); [exact X|exact V|exact Y|exact B|exact WK]|fin].
Qed.
Theorem C51_shift_right_logical width x y a b : encodes x a -> encodes y b -> 0 <= b < Z.of_nat width -> Z.of_nat width <= k ->
  results (shift_impl k pr others ShR width x y) (a / 2 ^ b).
Proof.
  intros X Y B WK. pose proof (signed_sgn k a ltac:(pose proof K1; lia) (proj1 X)) as V.
  apply RW. eapply wp_mono; [eapply (shift_impl_ok k K1 n pr _ _ OKP WA others OT ShR); [exact X|exact V|exact Y|exact B|exact WK]|fin].
Qed.
Theorem C51_shift_right_arithmetic width x y a v b : encodes x a -> signed_value k a v -> encodes y b -> 0 <= b < Z.of_nat width -> Z.of_nat width <= k ->
  results (shift_impl k pr others ShA width x y) ((v / 2 ^ b) mod 2 ^ k).
Proof.
  intros X V Y B WK.
  apply RW. eapply wp_mono; [eapply (shift_impl_ok k K1 n pr _ _ OKP WA others OT ShA); [exact X|exact V|exact Y|exact B|exact WK]|fin].
Qed.
(* a private or secret amount outside the range gives zero *)
Theorem C51_shift_far s width x y a b : encodes x a -> encodes y b -> (forall p, y <> VP p) -> Z.of_nat width <= b -> Z.of_nat width <= k ->
  results (shift_impl k pr others s width x y) 0.
Proof.
  intros X Y NP B WK. pose proof (signed_sgn k a ltac:(pose proof K1; lia) (proj1 X)) as V.
  apply RW. eapply wp_mono; [eapply (shift_far_ok k K1 n pr _ _ OKP WA others OT s); [exact X|exact V|exact Y|exact NP|exact B|exact WK]|fin].
Qed.
End Hlo.
Print Assumptions C39_int_to_fxp.
Print Assumptions C39_fxp_to_int.
Print Assumptions C39_int_roundtrip.
Print Assumptions C39_floor.
Print Assumptions C39_ceil.
Print Assumptions C39_round_away.
Print Assumptions C39_round_even.
Print Assumptions C40_power.
Print Assumptions C40_negative_exponent.
Print Assumptions C40_power_of_one.
Print Assumptions C51_shift_left.
Print Assumptions C51_shift_right_logical.
Print Assumptions C51_shift_right_arithmetic.
Print Assumptions C51_shift_far.

(* FM32, three parties, 2 fraction bits: 13 is 3.25, -5 is -1.25; every visibility *)
Lemma ex_enc13 : encodes 32 3 ex_tapes (@VA ex_pr ex_X) 13.
Proof. split; [split; reflexivity || lia|apply shAb_ok; reflexivity]. Qed.
Lemma ex_sig13 : signed_value 32 13 13.
Proof. split; [lia|now exists 0]. Qed.
Example C39_ex :
  encodes 32 3 ex_tapes (@VA ex_pr ex_X) 13 /\ signed_value 32 13 13 /\ signed_value 32 (2 ^ 32 - 5) (-5) /\
  map (fun x => ex_show (fxp2int 32 ex_pr 2 x)) (ex_vals 13 ex_X) = repeat 3 4 /\
  map (fun x => ex_show (fxp2int 32 ex_pr 2 x)) (firstn 2 (ex_vals (2 ^ 32 - 5) ex_neg)) = repeat (2 ^ 32 - 1) 2 /\
  map (fun x => ex_show (f_floor 32 ex_pr 2 x)) (ex_vals (2 ^ 32 - 5) ex_neg) = repeat (2 ^ 32 - 8) 4 /\
  map (fun x => ex_show (f_ceil 32 ex_pr 2 x)) (ex_vals 13 ex_X) = repeat 16 4 /\
  map (fun x => ex_show (round_afz 32 ex_pr 2 x)) (firstn 2 (ex_vals 13 ex_X) ++ [VP 14; VP (2 ^ 32 - 6)]) = repeat 12 2 ++ [16; 2 ^ 32 - 8] /\
  map (fun x => ex_show (round_rnte 32 ex_pr ex_o 2 x)) (firstn 2 (ex_vals 13 ex_X) ++ [VP 14; VP 10; VP (2 ^ 32 - 6)]) = repeat 12 2 ++ [16; 8; 2 ^ 32 - 8].
Proof. split; [apply ex_enc13|]. split; [apply ex_sig13|]. split; [split; [lia|now exists (-1)]|]. vm_compute. repeat split. Qed.
(* a private operand, and a secret one *)
Definition ex_prv (a : Z) : val ex_pr := VV 1%nat (fun i => if (i =? 1)%nat then a else 99).
Lemma ex_o_ok : forall t, 0 <= ex_o t <= 32.
Proof. intros t. unfold ex_o. lia. Qed.
Lemma ex_enc_neg : encodes 32 3 ex_tapes (@VA ex_pr ex_neg) (2 ^ 32 - 5).
Proof. split; [split; reflexivity || lia|apply shAb_ok; reflexivity]. Qed.
Lemma ex_enc3 : encodes 32 3 ex_tapes (@VB ex_pr (2, fun i => nth i [1; 0; 2] 0)) 3.
Proof. split; [split; reflexivity || lia|split; [apply shBb_ok; reflexivity|split; [cbn; lia|reflexivity]]]. Qed.
Example C40_ex :
  map (fun x => map (fun y => ex_show (power 32 ex_pr ex_o x y)) [VP 3; ex_prv 3]) [VP 13; ex_prv 13] = repeat (repeat 2197 2) 2 /\
  map (fun y => ex_show (power 32 ex_pr ex_o (VP 13) y)) [VP (2 ^ 32 - 5); ex_prv (2 ^ 32 - 5)] = repeat 0 2 /\
  map (fun y => ex_show (power 32 ex_pr ex_o (VP (2 ^ 32 - 1)) y)) [VP (2 ^ 32 - 5); ex_prv (2 ^ 32 - 5)] = repeat (2 ^ 32 - 1) 2 /\
  (* -5 to the power 3, both secret *)
  results 32 3 ex_tapes (power 32 ex_pr ex_o (@VA ex_pr ex_neg) (@VB ex_pr (2, fun i => nth i [1; 0; 2] 0))) ((- 5) ^ 3 mod 2 ^ 32).
Proof.
  split; [vm_compute; reflexivity|]. split; [vm_compute; reflexivity|]. split; [vm_compute; reflexivity|].
  exact (C40_power 5 3 ltac:(lia) ltac:(lia) ex_tapes ex_tapes_good ex_o ex_o_ok _ _ _ _ (-5) 3 ex_enc_neg ex_enc3
    ltac:(split; [lia|now exists (-1)]) ltac:(split; [lia|now exists 0]) ltac:(lia)).
Qed.
Example C51_ex :
  map (fun y => ex_show (shift_impl 32 ex_pr ex_o ShL 32 (VP (2 ^ 32 - 5)) y)) [VP 13; ex_prv 13] = repeat (2 ^ 32 - 5 * 2 ^ 13) 2 /\
  map (fun y => ex_show (shift_impl 32 ex_pr ex_o ShR 32 (VP (2 ^ 32 - 5)) y)) [VP 13; ex_prv 13] = repeat (2 ^ 19 - 1) 2 /\
  map (fun y => ex_show (shift_impl 32 ex_pr ex_o ShA 32 (VP (2 ^ 32 - 5)) y)) [VP 13; ex_prv 13] = repeat (2 ^ 32 - 1) 2 /\
  ex_show (shift_impl 32 ex_pr ex_o ShL 8 (VP 1) (ex_prv 13)) = 0 /\
  results 32 3 ex_tapes (shift_impl 32 ex_pr ex_o ShL 16 (@VA ex_pr ex_neg) (@VA ex_pr ex_X)) (2 ^ 32 - 5 * 2 ^ 13).
Proof.
  split; [vm_compute; reflexivity|]. split; [vm_compute; reflexivity|]. split; [vm_compute; reflexivity|]. split; [vm_compute; reflexivity|].
  exact (C51_shift_left 5 3 ltac:(lia) ltac:(lia) ex_tapes ex_tapes_good ex_o ex_o_ok 16 _ _ _ _ ex_enc_neg ex_enc13 ltac:(lia) ltac:(lia)).
Qed.

(* with 31 fraction bits or more the cast to an integer is undefined, for every ring and every operand *)
Theorem C39_fxp_to_int_31_refuted k n T f x t : 31 <= f -> fxp2int k (semi_proto k n T) f x t = Ub.
Proof. intros F. unfold fxp2int. destruct (Z.leb_spec 31 f); [reflexivity|lia]. Qed.
Print Assumptions C39_fxp_to_int_31_refuted.
Example C39_fxp_to_int_31_ex : fxp2int 128 (semi_proto 128 3 ex_tapes) 40 (VP (2 ^ 40)) 0%nat = Ub.
Proof. apply C39_fxp_to_int_31_refuted. lia. Qed.
(* the lowest fixed-point number is whole; rounding away from zero overflows and gives the positive neighbour *)
Theorem C39_round_away_lowest_refuted : exists (x : val ex_pr) a v, encodes 32 3 ex_tapes x a /\ signed_value 32 a v /\ is_round_away 2 v v /\
  ex_show (round_afz 32 ex_pr 2 x) <> v mod 2 ^ 32.
Proof.
  exists (VP (2 ^ 31)), (2 ^ 31), (- 2 ^ 31). split; [split; [split; reflexivity || lia|reflexivity]|]. split; [split; [lia|now exists (-1)]|].
  split; [|vm_compute; discriminate]. split; [exists (- 2 ^ 29); reflexivity|]. cbn. lia.
Qed.
Print Assumptions C39_round_away_lowest_refuted.
Definition ex_ub (m : M (val ex_pr)) : bool := match m 0%nat with Ub => true | _ => false end.
(* one fraction bit: no bits below the half, and reducing an empty list is undefined *)
Theorem C39_round_even_one_bit_refuted : exists (x : val ex_pr), encodes 32 3 ex_tapes x 13 /\ round_rnte 32 ex_pr ex_o 1 x 0%nat = Ub.
Proof. 
  exists (VP 13). split; [split; [split; reflexivity || lia|reflexivity]|].
  assert (B : ex_ub (round_rnte 32 ex_pr ex_o 1 (VP 13)) = true) by (vm_compute; reflexivity). unfold ex_ub in B.
  destruct (round_rnte 32 ex_pr ex_o 1 (VP 13) 0%nat); congruence.
Qed.
Print Assumptions C39_round_even_one_bit_refuted.
(* a boolean share narrower than the fraction: shifted shares of different widths are packed together, which is refused *)
Theorem C39_round_even_narrow_refuted : exists (x : val ex_pr), encodes 32 3 ex_tapes x 13 /\ round_rnte 32 ex_pr ex_o 18 x 0%nat = Err.
Proof.
  exists (@VB ex_pr (4, fun i => nth i [13; 7; 7] 0)).
  split; [split; [split; reflexivity || lia|split; [apply shBb_ok; reflexivity|split; [cbn; lia|reflexivity]]]|].
  assert (B : (match round_rnte 32 ex_pr ex_o 18 (@VB ex_pr (4, fun i => nth i [13; 7; 7] 0)) 0%nat with Err => true | _ => false end) = true)
    by (vm_compute; reflexivity).
  destruct (round_rnte 32 ex_pr ex_o 18 _ 0%nat); congruence.
Qed.
Print Assumptions C39_round_even_narrow_refuted.
(* only the low bits of the exponent are looked at: in FM32 0^32 is 1 and 3^32 is 1 *)
Theorem C40_large_exponent_refuted : exists (x y : val ex_pr), encodes 32 3 ex_tapes x 0 /\ encodes 32 3 ex_tapes y 32 /\ 0 ^ 32 = 0 /\
  ex_show (power 32 ex_pr ex_o x y) = 1 /\ 3 ^ 32 mod 2 ^ 32 <> 1 /\ ex_show (power 32 ex_pr ex_o (VP 3) y) = 1.
Proof.
  exists (VP 0), (VP 32). split; [split; [split; reflexivity || lia|reflexivity]|]. split; [split; [split; reflexivity || lia|reflexivity]|].
  split; [reflexivity|]. vm_compute. repeat split. discriminate.
Qed.
Print Assumptions C40_large_exponent_refuted.
(* a 16-bit integer in FM32: -1 shifted right logically by one is read as -1, not as 2^15 - 1 (the word has 32 ones) *)
Theorem C51_narrow_logical_refuted : exists (x y : val ex_pr), encodes 32 3 ex_tapes x (2 ^ 32 - 1) /\ encodes 32 3 ex_tapes y 1 /\
  ex_show (shift_impl 32 ex_pr ex_o ShR 16 x y) mod 2 ^ 16 = 2 ^ 16 - 1 /\ (2 ^ 32 - 1) mod 2 ^ 16 / 2 ^ 1 = 2 ^ 15 - 1.
Proof.
  exists (VP (2 ^ 32 - 1)), (VP 1). split; [split; [split; reflexivity || lia|reflexivity]|]. split; [split; [split; reflexivity || lia|reflexivity]|].
  vm_compute. split; reflexivity.
Qed.
Print Assumptions C51_narrow_logical_refuted.
(* a 64-bit integer type in FM32: a secret amount makes the loop shift by 32, which is undefined *)
Theorem C51_wide_type_refuted : exists (x y : val ex_pr), encodes 32 3 ex_tapes x 13 /\ encodes 32 3 ex_tapes y 1 /\
  shift_impl 32 ex_pr ex_o ShL 64 x y 0%nat = Ub /\ ex_show (shift_impl 32 ex_pr ex_o ShL 64 x (VP 1)) = 26.
Proof.
  exists (VP 13), (VV 1%nat (fun _ => 1)). split; [split; [split; reflexivity || lia|reflexivity]|]. split; [split; [split; reflexivity || lia|split; [lia|reflexivity]]|].
  split; [|vm_compute; reflexivity].
  assert (B : ex_ub (shift_impl 32 ex_pr ex_o ShL 64 (VP 13) (VV 1%nat (fun _ => 1))) = true) by (vm_compute; reflexivity). unfold ex_ub in B.
  destruct (shift_impl 32 ex_pr ex_o ShL 64 (VP 13) (VV 1%nat (fun _ => 1)) 0%nat); congruence.
Qed.
Print Assumptions C51_wide_type_refuted.
