(* C57: fixed-point products are right up to the last place.  C58: secret reciprocals and quotients are as close as the
   number of Goldschmidt steps says.  Theorems speak of the semi2k protocol with two or more parties. *)
From Verif Require Import Enc_model.
From Verif Require Import Base Ring_model Ring_spec Ring_proof Share_spec Party Semi_model Semi_proof Circ_model Conv_model Conv_spec Conv_props.
From Verif Require Import Disp_model Disp_spec Disp_proof Dispd_proof Disps_model Disps_spec Disps_proof Disp_props Hlo_proof.
From Verif Require Import Fxp_model Fxp_spec Fxpn_proof Fxp_proof Fxps_model Fxps_spec Fxps_proof.
Open Scope list_scope. Open Scope Z_scope.
#[local] Existing Instance strict.

Section C57.
Variable w n : nat.
Hypothesis W : (5 <= w <= 7)%nat.   (* FM32, FM64, FM128 *)
Hypothesis N : (2 <= n)%nat.
Notation k := (2 ^ Z.of_nat w).
Variable T : tapes.
Hypothesis G : good_tapes k n T.
Variable TT : trunc_tapes.
Hypothesis GT : good_trunc k n TT.
Variable others : nat -> Z.          (* bit widths of the other elements of public arrays *)
Hypothesis OT : forall t, 0 <= others t <= k.
Variable f : Z.                      (* fraction bits *)
Hypothesis F : 1 <= f <= k - 2.
Notation pr := (semi_proto k n T).
Notation fk := (semi_fxp k n T TT).
Notation encodes := (encodes k n T).
Notation results_in := (results_in k n T).
Let K1 : 1 < k. Proof. destruct (kpos w (proj1 W) (proj2 W)). lia. Qed.
Let N0 : (0 < n)%nat. Proof. lia. Qed.
Let OKP := semi_ok w (proj1 W) (proj2 W) n N0 T G.
Let WA := sA_word w n.
Let TR := semi_trunc_ok w (proj1 W) (proj2 W) n N T TT GT.
Let BR := semi_bitrev_ok w (proj1 W) (proj2 W) n N T.
Let RI := results_in_wp w (proj1 W) (proj2 W) n N T.
Let hw_of x a v : encodes x a -> signed_value k a v -> hw k n pr (sA w n) (sB w n) x v.
Proof. intros [Wa E] [_ [q ->]]. split; [apply Party.word_wrap; lia|]. rewrite eqm_mult, wrap_small by exact Wa. exact E. Qed.
Let steps (iters : nat) : nat := if 30 <=? f then Nat.max iters 3 else iters.

Theorem C57_mul x y a b u v s : encodes x a -> encodes y b -> signed_value k a u -> signed_value k b v ->
  - 2 ^ (k - 2) <= u * v < 2 ^ (k - 2) -> results_in (f_mul k pr fk f x y s) (product_close f u v).
Proof.
  intros X Y U V R. assert (E : results_in (f_mul k pr fk f x y Unknown) (product_close f u v)).
  { apply RI. eapply wp_mono; [eapply (w_fmul w k K1 n pr _ _ OKP WA others OT fk TR f F x y u v Unknown (hw_of x a u X U) (hw_of y b v Y V)); [exact R|exact I]|].
    intros r (q & Q & TN & _ & RG). exists q. split; [exact Q|]. split; [exact RG|exact TN]. }
  intros t. destruct (E t) as (r & t' & c & z & E1 & E2). exists r, t', c, z. split; [|exact E2]. rewrite <- E1. unfold f_mul, bind.
  destruct (hal_mul k pr x y t) as [[p tp]| |]; [|reflexivity..]. now destruct p.
Qed.
Theorem C57_square x a u : encodes x a -> signed_value k a u -> u * u < 2 ^ (k - 2) -> results_in (f_square k pr fk f x) (product_close f u u).
Proof.
  intros X U R. apply RI. eapply wp_mono; [eapply (w_fsquare w k K1 n pr _ _ OKP WA others OT fk TR f F x u (hw_of x a u X U)); exact R|].
  intros r HH. cbv beta in HH. destruct HH as (q & Q & TN & RG). exists q. split; [exact Q|]. split; [lia|exact TN].
Qed.

(* every number whose reciprocal the truncations can carry, including those whose reciprocal rounds to zero *)
Theorem C58_reciprocal iters x b v m : encodes x b -> signed_value k b v -> v <> 0 -> - 2 ^ (k - 1) < v ->
  f_reciprocal k pr fk others f iters x = Some m -> (0 < iters)%nat ->
  8 <= f -> 2 * f + 4 <= k -> 16 * (3 * Z.of_nat (steps iters) + 1) <= 2 ^ f -> 5 * 2 ^ (3 * f) <= 2 ^ (k - 1) * Z.abs v ->
  results_in m (reciprocal_close (steps iters) f v).
Proof.
  intros X V NZ LO M I0 F8 KF B OV. unfold f_reciprocal in M. assert (E : m = reciprocal k pr fk others f iters x) by (destruct x; congruence). subst m. apply RI.
  assert (U256 : 256 <= 2 ^ f) by (change 256 with (2 ^ 8); apply Z.pow_le_mono_r; lia).
  assert (NI : (0 < num_iters f iters)%nat) by (unfold num_iters; destruct (30 <=? f); lia).
  assert (P3 : 2 ^ (3 * f) = 2 ^ f * 2 ^ f * 2 ^ f) by (rewrite <- !Z.pow_add_r by lia; f_equal; lia). rewrite P3 in OV.
  eapply wp_mono; [eapply (recip_ok w k eq_refl K1 n pr _ _ OKP WA others OT fk TR BR f F U256 KF iters x v NI B (hw_of x b v X V)); [destruct V; lia|now right]|].
  cbv beta. intros r (q & Q & RG & _ & C). exists q. split; [exact Q|]. split; [exact RG|]. exact (C NZ).
Qed.
(* the three default settings (32 / 8, 64 / 18, 128 / 40 bits; 2 steps) put no condition on the operand *)
Theorem C58_reciprocal_default x b v m : (w = 5%nat /\ f = 8 \/ w = 6%nat /\ f = 18 \/ w = 7%nat /\ f = 40) ->
  encodes x b -> signed_value k b v -> v <> 0 -> - 2 ^ (k - 1) < v -> f_reciprocal k pr fk others f 2 x = Some m ->
  results_in m (reciprocal_close (if w =? 7 then 3 else 2)%nat f v).
Proof.
  intros D X V NZ LO M. replace (if (w =? 7)%nat then 3%nat else 2%nat) with (steps 2) by (unfold steps; destruct D as [[-> ->]|[[-> ->]|[-> ->]]]; reflexivity).
  apply (C58_reciprocal 2 x b v m); auto; try lia; destruct D as [[EW ->]|[[EW ->]|[EW ->]]]; try lia; unfold steps; try rewrite EW; try (vm_compute; discriminate).
  - change (2 ^ Z.of_nat 5) with 32. change (5 * 2 ^ (3 * 8)) with 83886080. change (2 ^ (32 - 1)) with 2147483648. lia.
  - change (2 ^ Z.of_nat 6) with 64. change (5 * 2 ^ (3 * 18)) with 90071992547409920. change (2 ^ (64 - 1)) with 9223372036854775808. lia.
  - change (2 ^ Z.of_nat 7) with 128. change (5 * 2 ^ (3 * 40)) with (5 * 1329227995784915872903807060280344576).
    change (2 ^ (128 - 1)) with (128 * 1329227995784915872903807060280344576). lia.
Qed.
(* zero has no reciprocal; the answer is zero or one unit in the last place *)
Theorem C58_reciprocal_zero iters x m : encodes x 0 -> f_reciprocal k pr fk others f iters x = Some m -> (0 < iters)%nat ->
  8 <= f -> 2 * f + 4 <= k -> 16 * (3 * Z.of_nat (steps iters) + 1) <= 2 ^ f -> results_in m (fun z => Z.abs z <= 1).
Proof.
  intros X M I0 F8 KF B. unfold f_reciprocal in M. assert (E : m = reciprocal k pr fk others f iters x) by (destruct x; congruence). subst m. apply RI.
  assert (U256 : 256 <= 2 ^ f) by (change 256 with (2 ^ 8); apply Z.pow_le_mono_r; lia). pose proof (pow2_pos (k - 1) ltac:(lia)) as P.
  assert (NI : (0 < num_iters f iters)%nat) by (unfold num_iters; destruct (30 <=? f); lia).
  assert (V : signed_value k 0 0) by (split; [lia|now exists 0]).
  eapply wp_mono; [eapply (recip_ok w k eq_refl K1 n pr _ _ OKP WA others OT fk TR BR f F U256 KF iters x 0 NI B (hw_of x 0 0 X V)); [lia|now left]|].
  cbv beta. intros r (q & Q & RG & C & _). exists q. split; [exact Q|]. split; [exact RG|]. apply C. now left.
Qed.
(* division, for denominators below 2^f in absolute value (words below 2^(2f)) *)
Theorem C58_div iters x y a b u v m : encodes x a -> encodes y b -> signed_value k a u -> signed_value k b v -> 0 < Z.abs v < 2 ^ (2 * f) ->
  f_div k pr fk others f iters x y = Some m -> (0 < iters)%nat ->
  8 <= f -> 2 * f + 4 <= k -> 16 * (3 * Z.of_nat (steps iters) + 1) <= 2 ^ f ->
  5 * 2 ^ f * Z.abs u < 2 ^ (k - 1) -> (5 * Z.abs u + 2) * 2 ^ (2 * f) <= 2 ^ (k - 1) * Z.abs v ->
  results_in m (quotient_close (steps iters) f u v).
Proof.
  intros X Y U V VR M I0 F8 KF B O1 O2. unfold f_div in M. assert (E : m = div k pr fk others f iters x y) by (destruct x, y; congruence). subst m. apply RI.
  assert (U256 : 256 <= 2 ^ f) by (change 256 with (2 ^ 8); apply Z.pow_le_mono_r; lia).
  assert (NI : (0 < num_iters f iters)%nat) by (unfold num_iters; destruct (30 <=? f); lia).
  assert (P2 : 2 ^ (2 * f) = 2 ^ f * 2 ^ f) by (rewrite <- !Z.pow_add_r by lia; f_equal; lia).
  assert (PV : 2 ^ (2 * f) <= 2 ^ (k - 1)) by (apply Z.pow_le_mono_r; lia).
  eapply wp_mono; [eapply (w_divg w k eq_refl K1 n pr _ _ OKP WA others OT fk TR BR f F U256 KF iters x y u v Unknown Unknown ltac:(discriminate) I I NI B (hw_of x a u X U) (hw_of y b v Y V));
    [lia|intros _; rewrite <- P2; split; [exact O1|exact O2]]|].
  cbv beta. intros r (q & Q & RG & _ & C). exists q. split; [exact Q|]. split; [exact RG|]. apply C. exact VR.
Qed.
(* ... and with the sign hints arctan2 passes, for operands they are true of *)
Theorem C58_div_hints iters x y a b u v sa sb : encodes x a -> encodes y b -> signed_value k a u -> signed_value k b v -> 0 < Z.abs v < 2 ^ (2 * f) ->
  (sa = Unknown \/ sa = Positive /\ 0 <= u) -> hint_true sb v -> (0 < iters)%nat ->
  8 <= f -> 2 * f + 4 <= k -> 16 * (3 * Z.of_nat (steps iters) + 1) <= 2 ^ f ->
  5 * 2 ^ f * Z.abs u < 2 ^ (k - 1) -> (5 * Z.abs u + 2) * 2 ^ (2 * f) <= 2 ^ (k - 1) * Z.abs v ->
  results_in (div_general k pr fk others f iters x y sa sb) (quotient_close (steps iters) f u v).
Proof.
  intros X Y U V VR SA SB I0 F8 KF B O1 O2. apply RI.
  assert (U256 : 256 <= 2 ^ f) by (change 256 with (2 ^ 8); apply Z.pow_le_mono_r; lia).
  assert (NI : (0 < num_iters f iters)%nat) by (unfold num_iters; destruct (30 <=? f); lia).
  assert (P2 : 2 ^ (2 * f) = 2 ^ f * 2 ^ f) by (rewrite <- !Z.pow_add_r by lia; f_equal; lia).
  assert (PV : 2 ^ (2 * f) <= 2 ^ (k - 1)) by (apply Z.pow_le_mono_r; lia).
  assert (HA : hint_true sa u) by (destruct SA as [->|[-> SA]]; [exact I|exact SA]). assert (SN : sa <> Negative) by (destruct SA as [->|[-> _]]; discriminate).
  eapply wp_mono; [eapply (w_divg w k eq_refl K1 n pr _ _ OKP WA others OT fk TR BR f F U256 KF iters x y u v sa sb SN HA SB NI B (hw_of x a u X U) (hw_of y b v Y V));
    [lia|intros _; rewrite <- P2; split; [exact O1|exact O2]]|].
  cbv beta. intros r (q & Q & RG & _ & C). exists q. split; [exact Q|]. split; [exact RG|]. apply C. exact VR.
Qed.
(* a denominator of 2^f or more: the answer is zero up to one unit in the last place, whatever the numerator *)
Theorem C58_div_large iters x y a b u v m : encodes x a -> encodes y b -> signed_value k a u -> signed_value k b v -> 2 ^ (2 * f) <= Z.abs v -> - 2 ^ (k - 1) < v ->
  f_div k pr fk others f iters x y = Some m -> (0 < iters)%nat ->
  8 <= f -> 2 * f + 4 <= k -> 16 * (3 * Z.of_nat (steps iters) + 1) <= 2 ^ f -> results_in m (fun z => Z.abs z <= 1).
Proof.
  intros X Y U V VR LO M I0 F8 KF B. unfold f_div in M. assert (E : m = div k pr fk others f iters x y) by (destruct x, y; congruence). subst m. apply RI.
  assert (U256 : 256 <= 2 ^ f) by (change 256 with (2 ^ 8); apply Z.pow_le_mono_r; lia).
  assert (NI : (0 < num_iters f iters)%nat) by (unfold num_iters; destruct (30 <=? f); lia).
  eapply wp_mono; [eapply (w_divg w k eq_refl K1 n pr _ _ OKP WA others OT fk TR BR f F U256 KF iters x y u v Unknown Unknown ltac:(discriminate) I I NI B (hw_of x a u X U) (hw_of y b v Y V));
    [destruct V; lia|lia]|].
  cbv beta. intros r (q & Q & RG & C & _). exists q. split; [exact Q|]. split; [exact RG|]. apply C. now right.
Qed.
End C57.
Print Assumptions C57_mul.
Print Assumptions C57_square.
Print Assumptions C58_reciprocal.
Print Assumptions C58_reciprocal_default.
Print Assumptions C58_reciprocal_zero.
Print Assumptions C58_div.
Print Assumptions C58_div_hints.
Print Assumptions C58_div_large.

(* truncation tapes of three parties: the mask is 3000000005, whose top bit is one *)
Definition ex_tt : trunc_tapes :=
  let sh v := fun i => nth i [v + 9; 4294967287; 0] 0 in
  {| tt_r := fun _ _ i => nth i [3000000000; 2; 3] 0;
     tt_rc := fun _ d => sh (852516357 / 2 ^ d); tt_rb := fun _ _ => sh 1;
     tt_va := fun _ _ i => nth i [3; 9] 0; tt_vc := fun _ _ i => nth i [20; 7] 0 |}.
Lemma ex_tt_good : good_trunc 32 3 ex_tt.
Proof.
  constructor; cbn [ex_tt tt_r tt_rc tt_rb tt_va tt_vc].
  - intros t d D. exists 3000000005. change (3000000005 mod 2 ^ (32 - 1)) with 852516357. split; [apply shAb_ok; reflexivity|]. split; [|apply shAb_ok; reflexivity].
    pose proof (pow2_pos d ltac:(lia)) as P. assert (Q : 0 <= 852516357 / 2 ^ d <= 852516357).
    { split; [apply Z.div_pos; lia|]. apply Z.div_le_upper_bound; [lia|]. nia. }
    set (v := 852516357 / 2 ^ d) in *. clearbody v. apply shA_of; [lia| |split; [lia|cbn; lia]|].
    + intros i I. destruct i as [|[|[|i]]]; [| | |lia]; (split; cbn; lia).
    + unfold eqm. cbn [total nth]. replace (0 + (v + 9) + 4294967287 + 0) with (v + 1 * 2 ^ 32) by (change (2 ^ 32) with 4294967296; lia). apply eqm_mult.
  - intros t d w TF. assert (32 <= w) by (revert TF; unfold trunc_field; repeat (destruct (_ <=? _); [intros [= <-]; lia|]); discriminate).
    assert (2 ^ 32 <= 2 ^ w) by (apply Z.pow_le_mono_r; lia). change (2 ^ 32) with 4294967296 in H0. exists 27. split; (split; [split; cbn; lia|now exists 0]).
Qed.
Definition ex_fk := semi_fxp 32 3 ex_tapes ex_tt.
Definition ex_sh (v : Z) : val ex_pr := @VA ex_pr (fun i => nth i [v mod 2 ^ 32; 77; 2 ^ 32 - 77] 0).
Lemma ex_sh_ok v : encodes 32 3 ex_tapes (ex_sh v) (v mod 2 ^ 32).
Proof.
  assert (W : word 32 (v mod 2 ^ 32)) by (apply Z.mod_pos_bound; reflexivity). split; [exact W|]. apply shA_of; [lia| |exact W|].
  - intros i I. destruct i as [|[|[|i]]]; [exact W| | |lia]; (split; cbn; lia).
  - set (q := v mod 2 ^ 32) in *. clearbody q. unfold eqm. cbn [total nth]. replace (0 + q + 77 + (2 ^ 32 - 77)) with (q + 1 * 2 ^ 32) by lia. apply eqm_mult.
Qed.
Definition ex_signed (m : M (val ex_pr)) : Z := sgn 32 (ex_show m).
(* FM32, 8 fraction bits, 2 steps: 3 * -2.5 = -7.5; 1 / -2.5 (the exact words are -1920 and -102.4) *)
Example C58_ex :
  ex_signed (f_mul 32 ex_pr ex_fk 8 (ex_sh 768) (ex_sh (-640)) Unknown) = -1920 /\
  option_map ex_signed (f_reciprocal 32 ex_pr ex_fk ex_o 8 2 (ex_sh (-640))) = Some (-102) /\
  product_close 8 768 (-640) (-1920) /\ reciprocal_close 2 8 (-640) (-102).
Proof. vm_compute. repeat split; discriminate. Qed.
(* the hypotheses of C58_div hold of 7 / 3 *)
Example C58_div_ex : exists m, f_div 32 ex_pr ex_fk ex_o 8 2 (ex_sh 1792) (ex_sh 768) = Some m /\ results_in 32 3 ex_tapes m (quotient_close 2 8 1792 768).
Proof.
  eexists. split; [reflexivity|]. eapply (C58_div 5 3 ltac:(lia) ltac:(lia) ex_tapes ex_tapes_good ex_tt ex_tt_good ex_o ltac:(intros; unfold ex_o; lia) 8 ltac:(lia) 2
    (ex_sh 1792) (ex_sh 768) _ _ 1792 768 _ (ex_sh_ok 1792) (ex_sh_ok 768)).
  - split; [lia|now exists 0].
  - split; [lia|now exists 0].
  - cbn. lia.
  - reflexivity.
  - lia.
  - lia.
  - cbn. lia.
  - cbn. lia.
  - cbn. lia.
  - vm_compute. discriminate.
Qed.
(* a product that fits the ring, but not the quarter of it that truncation needs: 8 * -4096 = -32768 comes out positive *)
Theorem C57_mul_range_refuted : exists u v, - 2 ^ 31 <= u * v < 2 ^ 31 /\ encodes 32 3 ex_tapes (ex_sh u) (u mod 2 ^ 32) /\ encodes 32 3 ex_tapes (ex_sh v) (v mod 2 ^ 32) /\
  u * v < 0 /\ 0 < ex_signed (f_mul 32 ex_pr ex_fk 8 (ex_sh u) (ex_sh v) Unknown).
Proof.
  exists 2048, (- 2 ^ 20). split; [lia|]. split; [apply ex_sh_ok|]. split; [apply ex_sh_ok|]. split; [lia|]. vm_compute. reflexivity.
Qed.
Print Assumptions C57_mul_range_refuted.
(* FM32, 8 fraction bits: 512 / 256 = 2 is answered with 0 *)
Theorem C58_div_large_refuted : exists u v m, 2 * v = u /\ encodes 32 3 ex_tapes (ex_sh u) u /\ encodes 32 3 ex_tapes (ex_sh v) v /\ v = 256 * 2 ^ 8 /\
  f_div 32 ex_pr ex_fk ex_o 8 2 (ex_sh u) (ex_sh v) = Some m /\ ex_signed m = 0 /\ ~ quotient_close 2 8 u v 0.
Proof.
  exists (2 ^ 17), (2 ^ 16). eexists. split; [reflexivity|]. split; [exact (ex_sh_ok (2 ^ 17))|]. split; [exact (ex_sh_ok (2 ^ 16))|]. split; [reflexivity|].
  split; [reflexivity|]. vm_compute. split; [reflexivity|]. intros H. now apply H.
Qed.
Print Assumptions C58_div_large_refuted.
(* FM64, 22 fraction bits: the reciprocal of the smallest number is 2^22, a word of 44 bits; the answer is negative *)
Definition pr64 := semi_proto 64 3 ex_tapes.
Theorem C58_reciprocal_small_refuted : exists (x : val pr64) m, encodes 64 3 ex_tapes x 1 /\
  f_reciprocal 64 pr64 (semi_fxp 64 3 ex_tapes ex_tt) ex_o 22 2 x = Some m /\
  match m 0%nat with Ok (r, _) => sgn 64 (reveal 64 3 ex_tapes 2 r) < 0 | _ => False end.
Proof.
  exists (VV 2%nat (fun _ => 1)). eexists. split; [split; [split; reflexivity || lia|split; [lia|reflexivity]]|]. split; [reflexivity|]. vm_compute. reflexivity.
Qed.
Print Assumptions C58_reciprocal_small_refuted.
