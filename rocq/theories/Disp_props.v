(* C31: the plaintext of a ring-level operation does not depend on the visibilities of its operands.
   Theorems speak of the semi2k protocol with any number of parties (two parties use extra kernels). *)
From Verif Require Import Base Ring_model Ring_spec Ring_proof Share_spec Party Semi_model Semi_proof Circ_model Conv_model Conv_spec Conv_props.
From Verif Require Import Disp_model Disp_spec Disp_proof Dispd_proof Disps_model Disps_spec Disps_proof.
Open Scope Z_scope.
#[local] Existing Instance strict.

Section C31.
Variable w n : nat.
Hypothesis W : (5 <= w <= 7)%nat.   (* FM32, FM64, FM128 *)
Hypothesis N : (0 < n)%nat.
Notation k := (2 ^ Z.of_nat w).
Variable T : tapes.
Hypothesis G : good_tapes k n T.
Variable others : nat -> Z.          (* bit widths of the other elements of public arrays *)
Hypothesis OT : forall t, 0 <= others t <= k.
Notation pr := (semi_proto k n T).
Notation encodes := (encodes k n T).
Notation results := (results k n T).
Let K1 : 1 < k. Proof. destruct (kpos w (proj1 W) (proj2 W)). lia. Qed.
Let OKP := semi_ok w (proj1 W) (proj2 W) n N T G.
Let RW := results_wp w (proj1 W) (proj2 W) n N T.
Let WA := sA_word w n.
Ltac fin := match goal with |- forall r, _ -> _ => intros ? HH; cbv beta in HH; repeat match type of HH with _ /\ _ => destruct HH as [HH _] end; exact HH end.

Theorem C31_add_sub x y a b : encodes x a -> encodes y b ->
  results (hal_add k pr x y) ((a + b) mod 2 ^ k) /\ results (hal_sub k pr x y) ((a - b) mod 2 ^ k).
Proof.
  intros X Y. split; apply RW.
  - eapply wp_mono; [eapply (hal_add_ok k K1 n pr _ _ OKP WA); eassumption|fin].
  - eapply wp_mono; [eapply (hal_sub_ok k K1 n pr _ _ OKP WA); eassumption|fin].
Qed.
Theorem C31_mul_square x y a b : encodes x a -> encodes y b ->
  results (hal_mul k pr x y) ((a * b) mod 2 ^ k) /\ results (hal_square k pr x) ((a * a) mod 2 ^ k).
Proof.
  intros X Y. split; apply RW.
  - eapply wp_mono; [eapply (hal_mul_ok k K1 n pr _ _ OKP WA others OT); eassumption|fin].
  - eapply wp_mono; [eapply (hal_square_ok k K1 n pr _ _ OKP WA others OT); eassumption|fin].
Qed.
Theorem C31_bitwise x y a b : encodes x a -> encodes y b ->
  results (hal_and pr others x y) (Z.land a b) /\ results (hal_xor pr others x y) (Z.lxor a b) /\
  results (hal_or pr others x y) (Z.lor a b) /\ results (hal_not k pr others x) (2 ^ k - 1 - a).
Proof.
  intros X Y. split; [|split; [|split]]; apply RW.
  - eapply wp_mono; [eapply (hal_and_ok k K1 n pr _ _ OKP WA others OT); eassumption|fin].
  - eapply wp_mono; [eapply (hal_xor_ok k K1 n pr _ _ OKP WA others OT); eassumption|fin].
  - eapply wp_mono; [eapply (hal_or_ok k K1 n pr _ _ OKP WA others OT); eassumption|fin].
  - eapply wp_mono; [eapply (hal_not_ok k K1 n pr _ _ OKP WA others OT); eassumption|fin].
Qed.
Theorem C31_negate_msb x a v : encodes x a -> signed_value k a v ->
  results (hal_negate k pr x) ((- a) mod 2 ^ k) /\
  results (hal_msb k pr x) (if v <? 0 then 1 else 0) /\
  results (hal_sign k pr x) (if v <? 0 then 2 ^ k - 1 else 1).
Proof.
  intros X V. split; [|split]; apply RW.
  - eapply wp_mono; [eapply (hal_negate_ok k K1 n pr _ _ OKP WA); eassumption|fin].
  - rewrite <- (msb_sign k K1 a v (proj1 X) V). eapply wp_mono; [eapply (hal_msb_ok k K1 n pr _ _ OKP WA others OT); eassumption|fin].
  - replace (if v <? 0 then 2 ^ k - 1 else 1) with (wrap k (if v <? 0 then -1 else 1)).
    { eapply wp_mono; [eapply (hal_sign_ok k K1 n pr _ _ OKP WA others OT); eassumption|fin]. }
    assert (2 ^ 1 <= 2 ^ k) by (apply Z.pow_le_mono_r; lia). destruct (v <? 0); [|apply wrap_small; lia].
    rewrite <- (wrap_small k (2 ^ k - 1)) by lia. replace (2 ^ k - 1) with (-1 + 1 * 2 ^ k) by ring. symmetry. apply eqm_mult.
Qed.
(* shift amounts are public and below the width *)
Theorem C31_shift x a v s : encodes x a -> signed_value k a v -> 0 <= s < k ->
  results (hal_lshift k pr x s) ((a * 2 ^ s) mod 2 ^ k) /\ results (hal_rshift pr x s) (a / 2 ^ s) /\
  results (hal_arshift k pr x s) ((v / 2 ^ s) mod 2 ^ k).
Proof.
  intros X V S0. split; [|split]; apply RW.
  - eapply wp_mono; [eapply (hal_lshift_ok k K1 n pr _ _ OKP WA); eassumption|fin].
  - eapply wp_mono; [eapply (hal_rshift_ok k K1 n pr _ _ OKP WA others OT); eassumption|fin].
  - eapply wp_mono; [eapply (hal_arshift_ok k K1 n pr _ _ OKP WA others OT); eassumption|fin].
Qed.
Theorem C31_equal x y a b : encodes x a -> encodes y b -> results (hal_equal k pr others x y) (if a =? b then 1 else 0).
Proof. intros X Y. apply RW. eapply wp_mono; [eapply (hal_equal_ok k K1 n pr _ _ OKP WA others OT); eassumption|fin]. Qed.
(* comparison of signed values whose difference fits *)
Theorem C31_less x y a b u v : encodes x a -> encodes y b -> signed_value k a u -> signed_value k b v ->
  - 2 ^ (k - 1) <= u - v < 2 ^ (k - 1) -> results (hal_less k pr x y) (if u <? v then 1 else 0).
Proof. intros X Y U V R. apply RW. eapply wp_mono; [eapply (hal_less_ok k K1 n pr _ _ OKP WA others OT); eassumption|fin]. Qed.
(* ... and in general the same word for every visibility *)
Theorem C31_less_any x y a b : encodes x a -> encodes y b -> results (hal_less k pr x y) ((a - b) mod 2 ^ k / 2 ^ (k - 1)).
Proof. intros X Y. apply RW. eapply wp_mono; [eapply (hal_less_raw k K1 n pr _ _ OKP WA others OT); eassumption|fin]. Qed.
Theorem C31_mux p x y c a b : encodes p c -> c = 0 \/ c = 1 -> encodes x a -> encodes y b -> results (hal_mux k pr p x y) (if c =? 1 then a else b).
Proof. intros P C X Y. apply RW. eapply wp_mono; [eapply (hal_mux_ok k K1 n pr _ _ OKP WA others OT); eassumption|fin]. Qed.
Theorem C31_clamp x y z a b c u v t : encodes x a -> encodes y b -> encodes z c -> signed_value k a u -> signed_value k b v -> signed_value k c t ->
  - 2 ^ (k - 1) <= u - v < 2 ^ (k - 1) -> - 2 ^ (k - 1) <= Z.max u v - t < 2 ^ (k - 1) ->
  results (hal_clamp k pr x y z) (Z.min (Z.max u v) t mod 2 ^ k).
Proof.
  intros X Y Z0 U V V' R R'. apply RW. eapply wp_mono; [eapply (hal_clamp_ok k K1 n pr _ _ OKP WA others OT); eassumption|].
  intros r (d & H & [_ [q E]]). eapply holds_eq; [exact H|]. rewrite E. symmetry. rewrite Z.mod_add by (apply Z.pow_nonzero; lia).
  apply Z.mod_small. apply H.
Qed.
(* asking for one share type or the other keeps the value *)
Theorem C31_prefer x a : encodes x a -> results (hal_prefer_a k pr x) a /\ results (hal_prefer_b k pr others x) a.
Proof.
  intros X. split; apply RW.
  - eapply wp_mono; [eapply (hal_prefer_a_ok k K1 n pr _ _ OKP); eassumption|fin].
  - eapply wp_mono; [eapply (hal_prefer_b_ok k K1 n pr _ _ OKP WA others OT); eassumption|fin].
Qed.
(* parity of the lowest 2^m bits *)
Theorem C31_bit_parity m x a : encodes x a -> 2 ^ Z.of_nat m <= k -> results (hal_bit_parity k pr others m x) (if Z.odd (bit_count (2 ^ m) a) then 1 else 0).
Proof. intros X M. apply RW. eapply wp_mono; [eapply (hal_bit_parity_ok k K1 n pr _ _ OKP WA others OT); eassumption|fin]. Qed.
(* ones from the highest set bit down *)
Theorem C31_prefix_or x a : encodes x a -> exists b, filled a b /\ results (hal_prefix_or k pr others x) b.
Proof.
  intros X. exists (if a =? 0 then 0 else Z.ones (Z.log2 a + 1)).
  assert (U : forall b, word k b -> filled a b -> b = if a =? 0 then 0 else Z.ones (Z.log2 a + 1)).
  { intros b WB F. destruct X as [[A1 A2] _]. apply Z.bits_inj'. intros i I. apply Bool.eq_iff_eq_true. rewrite (F i I). destruct (Z.eqb_spec a 0) as [->|NZ].
    - rewrite Z.bits_0. split; [intros (j & _ & H); now rewrite Z.bits_0 in H|discriminate].
    - pose proof (Z.log2_nonneg a). destruct (Z.lt_ge_cases i (Z.log2 a + 1)).
      + rewrite Z.ones_spec_low by lia. split; [reflexivity|]. intros _. exists (Z.log2 a). split; [lia|]. apply Z.bit_log2. lia.
      + rewrite Z.ones_spec_high by lia. split; [|discriminate]. intros (j & J & H1). rewrite Z.bits_above_log2 in H1 by lia. discriminate. }
  assert (S0 : filled a (if a =? 0 then 0 else Z.ones (Z.log2 a + 1))).
  { intros i I. destruct X as [[A1 A2] _]. destruct (Z.eqb_spec a 0) as [->|NZ].
    - rewrite Z.bits_0. split; [discriminate|]. intros (j & _ & H); now rewrite Z.bits_0 in H.
    - pose proof (Z.log2_nonneg a). destruct (Z.lt_ge_cases i (Z.log2 a + 1)).
      + rewrite Z.ones_spec_low by lia. split; [|reflexivity]. intros _. exists (Z.log2 a). split; [lia|]. apply Z.bit_log2. lia.
      + rewrite Z.ones_spec_high by lia. split; [discriminate|]. intros (j & J & H1). rewrite Z.bits_above_log2 in H1 by lia. discriminate. }
  split; [exact S0|]. apply RW.
  eapply wp_mono; [eapply (hal_prefix_or_ok k K1 n pr _ _ OKP WA others OT w); [reflexivity|exact X]|].
  intros r (b & H & F). rewrite <- (U b); [exact H|apply H|exact F].
Qed.
Theorem C31_eqz x a : encodes x a -> results (hal_eqz k pr others x) (if a =? 0 then 1 else 0).
Proof. intros X. apply RW. eapply wp_mono; [eapply (hal_eqz_ok k K1 n pr _ _ OKP WA others OT w); [reflexivity|exact X]|fin]. Qed.
(* number of ones among the lowest [bits] bits; a secret needs an even number of bits, or one *)
Theorem C31_popcount x a bits : encodes x a -> (1 <= bits)%nat -> Z.of_nat bits <= k ->
  (bits = 1%nat \/ Nat.Even bits \/ (exists p, x = VP p) \/ exists o f, x = VV o f) ->
  results (hal_popcount k pr others bits x) (bit_count bits a).
Proof.
  intros X B1 BK C. apply RW. eapply wp_mono; [eapply (hal_popcount_ok k K1 n pr _ _ OKP WA others OT); [exact X|exact B1|exact BK|]|fin].
  destruct C as [C | [C | [[p ->] | [o [f ->]]]]]; [now left|right; now left| |]; right; right; intros [].
Qed.
End C31.
Print Assumptions C31_add_sub.
Print Assumptions C31_mul_square.
Print Assumptions C31_bitwise.
Print Assumptions C31_negate_msb.
Print Assumptions C31_shift.
Print Assumptions C31_equal.
Print Assumptions C31_less.
Print Assumptions C31_less_any.
Print Assumptions C31_mux.
Print Assumptions C31_clamp.
Print Assumptions C31_prefer.
Print Assumptions C31_bit_parity.
Print Assumptions C31_prefix_or.
Print Assumptions C31_eqz.
Print Assumptions C31_popcount.

(* tapes of three parties *)
Definition ex_tapes : tapes :=
  let f l := fun (_ i : nat) => nth i l 0 in
  {| tp_r := fun t i => (Z.of_nat t * 31 + Z.of_nat i * 17 + 5) mod 2 ^ 32;
     tp_a := f [1; 2; 3]; tp_b := f [4; 5; 4294967295]; tp_c := f [40; 10; 4294967294];
     tp_sa := f [1; 4; 2]; tp_sb := f [40; 8; 1]; tp_va := f [3; 5]; tp_vc := f [7; 8];
     tp_ta := fun t => ex_ta; tp_tb := fun t => ex_tb; tp_tc := fun t => ex_tc;
     tp_prss := fun t => ex_prss; tp_bits := fun t => ex_bits; tp_ra := fun t => ex_ra; tp_rb := fun t => ex_rb; tp_piv := fun t => 1%nat |}.
Lemma ex_tapes_good : good_tapes 32 3 ex_tapes.
Proof.
  constructor; cbn [ex_tapes tp_r tp_a tp_b tp_c tp_sa tp_sb tp_va tp_vc tp_ta tp_tb tp_tc tp_prss tp_bits tp_ra tp_rb tp_piv].
  - intros t i _. apply Party.word_wrap. lia.
  - intros t. exists 6, 8, 48. split; [|split; [|split]]; try (apply shAb_ok; reflexivity). split; [split; reflexivity || lia|now exists 0].
  - intros t. exists 7, 49. split; [|split]; try (apply shAb_ok; reflexivity). split; [split; reflexivity || lia|now exists 0].
  - intros t. exists 15. split; (split; [split; reflexivity || lia|now exists 0]).
  - intros t. apply ex_triples.
  - intros t i j _ _. apply Party.word_wrap. lia.
  - intros t j J. exists (j mod 3 =? 1)%nat. destruct C18_ex as (_ & _ & F & _). rewrite forallb_forall in F. apply shAb_ok.
    replace (Z.b2z (j mod 3 =? 1)%nat) with (if (j mod 3 =? 1)%nat then 1 else 0) by (destruct (j mod 3 =? 1)%nat; reflexivity).
    apply F. apply in_seq. change (Z.to_nat 32) with 32%nat in J. lia.
  - intros t. exists 66. split; [apply shAb_ok; reflexivity|apply shBb_ok; reflexivity].
  - intros t. lia.
Qed.
Definition ex_pr := semi_proto 32 3 ex_tapes.
Definition ex_o (t : nat) : Z := 7.
Definition ex_show (m : M (val ex_pr)) : Z := match m 0%nat with Ok (r, _) => reveal 32 3 ex_tapes 2 r | _ => -1 end.
(* 13, once per visibility; and -5 *)
Definition ex_vals (a : Z) (X : nat -> Z) : list (val ex_pr) :=
  [VP a; VV 1%nat (fun i => if (i =? 1)%nat then a else 99); @VA ex_pr X; @VB ex_pr (32, fun i => nth i [Z.lxor a 77; 70; 11] 0)].
Example C31_ex :
  encodes 32 3 ex_tapes (@VA ex_pr ex_X) 13 /\ encodes 32 3 ex_tapes (@VB ex_pr (4, fun i => nth i [13; 7; 7] 0)) 13 /\
  map (fun x => map (fun y => ex_show (hal_mul 32 ex_pr x y)) (ex_vals (2 ^ 32 - 5) ex_neg)) (ex_vals 13 ex_X) = repeat (repeat 4294967231 4) 4 /\
  map (fun x => ex_show (hal_less 32 ex_pr x (VP 14))) (firstn 2 (ex_vals 13 ex_X)) = repeat 1 2 /\
  map (fun x => ex_show (hal_equal 32 ex_pr ex_o x (VP 13))) (firstn 2 (ex_vals 13 ex_X)) = repeat 1 2 /\
  map (fun x => ex_show (hal_popcount 32 ex_pr ex_o 4 x)) (firstn 2 (ex_vals 13 ex_X)) = repeat 3 2 /\
  map (fun x => ex_show (hal_prefix_or 32 ex_pr ex_o x)) (firstn 2 (ex_vals 13 ex_X)) = repeat 15 2.
Proof.
  split; [split; [split; reflexivity || lia|apply shAb_ok; reflexivity]|].
  split; [split; [split; reflexivity || lia|split; [apply shBb_ok; reflexivity|split; [cbn; lia|reflexivity]]]|].
  vm_compute. repeat split.
Qed.
(* the bound on the difference is needed: the largest value is reported below -1, whatever the visibility *)
Theorem C31_less_overflow_refuted : exists (x y : val ex_pr) a b, encodes 32 3 ex_tapes x a /\ encodes 32 3 ex_tapes y b /\
  signed_value 32 a (2 ^ 31 - 1) /\ signed_value 32 b (-1) /\ ex_show (hal_less 32 ex_pr x y) = 1.
Proof.
  exists (VP (2 ^ 31 - 1)), (VP (2 ^ 32 - 1)), (2 ^ 31 - 1), (2 ^ 32 - 1).
  split; [split; [split; reflexivity || lia|reflexivity]|]. split; [split; [split; reflexivity || lia|reflexivity]|].
  split; [split; [lia|exists 0; reflexivity]|]. split; [split; [lia|exists (-1); reflexivity]|]. vm_compute. reflexivity.
Qed.
Print Assumptions C31_less_overflow_refuted.
(* seven bits of a secret: a boolean bit is packed with arithmetic sums, which is refused; public operands are accepted *)
Theorem C31_popcount_bits_refuted : exists x y : val ex_pr, encodes 32 3 ex_tapes x 13 /\ encodes 32 3 ex_tapes y 13 /\
  hal_popcount 32 ex_pr ex_o 7 x 0%nat = Err /\ ex_show (hal_popcount 32 ex_pr ex_o 7 y) = 3.
Proof.
  exists (@VB ex_pr (8, fun i => nth i [13; 77; 77] 0)), (VP 13).
  split; [split; [split; reflexivity || lia|split; [apply shBb_ok; reflexivity|split; [cbn; lia|reflexivity]]]|].
  split; [split; [split; reflexivity || lia|reflexivity]|]. split; [|vm_compute; reflexivity].
  assert (B : (match hal_popcount 32 ex_pr ex_o 7 (@VB ex_pr (8, fun i => nth i [13; 77; 77] 0)) 0%nat with Err => true | _ => false end) = true)
    by (vm_compute; reflexivity).
  destruct (hal_popcount 32 ex_pr ex_o 7 _ 0%nat); congruence.
Qed.
Print Assumptions C31_popcount_bits_refuted.
