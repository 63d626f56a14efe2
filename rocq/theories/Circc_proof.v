From Verif Require Import Base Ring_model Ring_spec Ring_proof Circ_model Circ_spec Circ_proof.
From Coq Require Import ZifyBool ZifyNat.
Open Scope Z_scope.

Lemma single_bit_pow n : has_single_bit n = true <-> exists l, 0 <= l /\ n = 2 ^ l.
Proof.
  unfold has_single_bit. split.
  - intros H. exists (Z.log2 n). split; [apply Z.log2_nonneg|lia].
  - intros [l [L ->]]. rewrite Z.log2_pow2 by lia. assert (0 < 2 ^ l) by (apply Z.pow_pos_nonneg; lia). lia.
Qed.
Lemma gw_pairs p g p' g' j : forall m,
  (forall i, j - Z.of_nat m < i <= j -> p' i = p (2 * i + 1) && p (2 * i)) ->
  (forall i, j - Z.of_nat m < i <= j -> g' i = xorb (g (2 * i + 1)) (p (2 * i + 1) && g (2 * i))) ->
  pw p' j m = pw p (2 * j + 1) (m + m) /\ gw p' g' j m = gw p g (2 * j + 1) (m + m).
Proof.
  induction m as [|m IH]; intros HP HG; [now split|].
  replace (S m + S m)%nat with ((m + m) + 2)%nat by lia. rewrite pw_app, gw_app. cbn [pw gw].
  destruct IH as [E1 E2]; [intros i I; apply HP; lia|intros i I; apply HG; lia|]. rewrite E1, E2, HP, HG by lia.
  change (Z.of_nat 0) with 0. change (Z.of_nat 1) with 1. rewrite !Z.sub_0_r.
  replace (2 * j + 1 - Z.of_nat (m + m)) with (2 * (j - Z.of_nat m) + 1) by lia.
  replace (2 * (j - Z.of_nat m) + 1 - 1) with (2 * (j - Z.of_nat m)) by lia. rewrite ?andb_true_l, ?xorb_false_l. now split.
Qed.
Lemma gw_shift p g i m : gw (fun j => p (j - 1)) (fun j => g (j - 1)) i m = gw p g (i - 1) m.
Proof.
  assert (PW : forall m, pw (fun j => p (j - 1)) i m = pw p (i - 1) m).
  { intros n. induction n as [|n IH]; [reflexivity|]. cbn [pw]. rewrite IH. do 2 f_equal. lia. }
  induction m as [|m IH]; [reflexivity|]. cbn [gw]. rewrite IH, PW. do 3 f_equal. lia.
Qed.

Lemma word_le a b z : 0 <= a <= b -> word a z -> word b z.
Proof. intros L [Z0 Z1]. split; [exact Z0|]. eapply Z.lt_le_trans; [exact Z1|]. apply Z.pow_le_mono_r; lia. Qed.

Section Carry.
Variable w : nat.
Hypothesis W7 : (w <= 7)%nat.
Hypothesis W1 : (1 <= w)%nat.
Let k := 2 ^ Z.of_nat w.
Local Lemma k_even : exists h, k = 2 * h /\ 0 < h.
Proof.
  exists (2 ^ (Z.of_nat w - 1)). split; [|apply Z.pow_pos_nonneg; lia]. unfold k.
  replace (Z.of_nat w) with (1 + (Z.of_nat w - 1)) at 1 by lia. rewrite Z.pow_add_r by lia. lia.
Qed.
Lemma oes_level_plain t r idx : oes_level Z (plain k) t r idx = swap_level k r idx.
Proof. unfold oes_level, swap_level. cbn [plain c_xor c_and c_init c_lsh c_rsh]. unfold rxor, rand_. now rewrite Z.lxor_assoc. Qed.
Lemma fold_oes t ls r : fold_left (oes_level Z (plain k) t) ls r = fold_left (swap_level k) ls r.
Proof. revert r. induction ls as [|a ls IH]; intros r; [reflexivity|]. cbn [fold_left]. rewrite IH. now rewrite oes_level_plain. Qed.
Lemma rshl_0 r : word k r -> rshl k 0 r = r.
Proof. intros R. unfold rshl. rewrite Z.mul_1_r. now apply Z.mod_small. Qed.

Lemma odd_even_split_plain t x kk : 2 <= kk <= k -> kk mod 2 = 0 -> word k x ->
  let r := odd_even_split Z (plain k) t x kk in
  word k r /\ forall m, 0 <= m < kk / 2 -> Z.testbit r m = Z.testbit x (2 * m) /\ Z.testbit r (kk / 2 + m) = Z.testbit x (2 * m + 1).
Proof.
  intros KK EV X. pose proof k_even as [hh [KE HP]]. cbv zeta. unfold odd_even_split. cbn [plain c_lsh c_rsh c_init c_xor c_and].
  rewrite rshl_0 by exact X.
  assert (FO : forall ls, fold_left (oes_level Z (plain k) t) ls x = fold_left (swap_level k) ls x) by (intros; apply fold_oes).
  cbn [plain] in FO. rewrite FO. clear FO.
  pose proof (log2ceil_half kk ltac:(lia)) as LH. pose proof (log2ceil_bound kk ltac:(lia)) as LB.
  set (l := log2ceil kk) in *.
  pose proof (log2ceil_le kk (Z.of_nat w) ltac:(lia) ltac:(apply KK)) as LW. fold l in LW.
  assert (L1 : 1 <= l). { destruct (Z.ltb_spec l 1); [|lia]. pose proof (Z.pow_le_mono_r 2 l 0 ltac:(lia) ltac:(lia)). change (2 ^ 0) with 1 in *. lia. }
  pose proof (bit_deintl_ok w W7 0 l kk x ltac:(fold k; lia) eq_refl ltac:(lia) X) as [DW DB]. fold k in DW, DB.
  unfold bit_deintl, levels in DW, DB. fold l in DW, DB. rewrite Nat.sub_0_r in DW, DB. unfold bit in DB.
  set (r := fold_left (swap_level k) (seq 0 (Z.to_nat (l - 1))) x) in *.
  set (L := 2 ^ (l - 1)) in *. assert (LP : 0 < L) by (apply Z.pow_pos_nonneg; lia).
  assert (EL : 2 ^ l = 2 * L) by (replace l with (1 + (l - 1)) by lia; rewrite Z.pow_add_r by lia; unfold L; lia).
  assert (RB : forall tt m, 0 <= tt <= 1 -> 0 <= m < L -> tt * L + m < k -> Z.testbit r (tt * L + m) = Z.testbit x (2 * m + tt)).
  { intros tt m T M B. specialize (DB 0 tt m 0). change (Z.of_nat 0) with 0 in DB. change (2 ^ 0) with 1 in DB. change (2 ^ (0 + 1)) with 2 in DB.
    replace (2 ^ (l - 1 - 0)) with L in DB by (unfold L; f_equal; lia).
    replace (0 * 2 ^ l + tt * L + m * 1 + 0) with (tt * L + m) in DB by ring.
    replace (0 * 2 ^ l + m * 2 + tt * 1 + 0) with (2 * m + tt) in DB by ring. apply DB; lia. }
  pose proof (Z.div_mod kk 2 ltac:(lia)) as DM. rewrite EV in DM.
  destruct (has_single_bit kk) eqn:SB.
  - apply single_bit_pow in SB. destruct SB as [l' [L' E']].
    assert (kk = 2 ^ l) by (unfold l; rewrite E', log2ceil_pow by lia; reflexivity).
    split; [exact DW|]. intros m M. replace (kk / 2) with L in * by lia. split.
    + replace m with (0 * L + m) at 1 by ring. rewrite RB by lia. f_equal. lia.
    + replace (L + m) with (1 * L + m) at 1 by ring. rewrite RB by lia. reflexivity.
  - assert (LF : 2 ^ log2floor kk = L).
    { unfold log2floor, L, l, log2ceil. destruct (Z.leb_spec kk 1); [lia|]. replace (Z.log2 (kk - 1) + 1 - 1) with (Z.log2 (kk - 1)) by lia. f_equal.
      symmetry. apply Z.log2_unique; [apply Z.log2_nonneg|]. pose proof (Z.log2_spec kk ltac:(lia)). unfold has_single_bit in SB. lia. }
    rewrite LF. set (h := kk / 2) in *.
    assert (HL : h <= L) by lia.
    assert (TM : forall i, 0 <= i < k -> Z.testbit (Z.lxor (rshl k h (rshr L r)) (Z.land r (wrap k (2 ^ h - 1)))) i =
       xorb (Z.testbit (rshr L r) (i - h)) (Z.testbit r i && (i <? h))).
    { intros i I. rewrite Z.lxor_spec, Z.land_spec, tb_rshl, tb_wrap by lia. replace (i <? k) with true by lia. rewrite !andb_true_l. do 2 f_equal.
      replace (2 ^ h - 1) with (Z.ones h) by (rewrite Z.ones_equiv; lia).
      destruct (Z.ltb_spec i h); [apply Z.ones_spec_low; lia|apply Z.ones_spec_high; lia]. }
    split.
    { apply word_lxor; [lia|apply word_rshl; lia|apply word_land; [lia|exact DW|apply word_wrap_; lia]]. }
    intros m M. rewrite !TM by lia. split.
    + rewrite tb_neg by lia. replace (m <? h) with true by lia. rewrite andb_true_r, xorb_false_l.
      replace m with (0 * L + m) at 1 by ring. rewrite RB by lia. f_equal. lia.
    + replace (h + m <? h) with false by lia. rewrite andb_false_r, xorb_false_r. rewrite tb_rshr by lia.
      replace (h + m - h + L) with (1 * L + m) by ring. destruct (Z.ltb_spec (1 * L + m) k) as [B|B].
      * rewrite RB by lia. reflexivity.
      * exfalso. assert (LL : 2 * L <= k). { rewrite <- EL. apply Z.pow_le_mono_r; lia. } lia.
Qed.
Lemma bit_split_plain t x kk : 2 <= kk <= k -> kk mod 2 = 0 -> word k x -> exists t0 t1,
  bit_split Z (plain k) t x kk = (t0, t1) /\ word (kk / 2) t0 /\ word (kk / 2) t1 /\
  forall m, 0 <= m < kk / 2 -> Z.testbit t0 m = Z.testbit x (2 * m) /\ Z.testbit t1 m = Z.testbit x (2 * m + 1).
Proof.
  intros KK EV X. pose proof k_even as [hh [KE HP]].
  destruct (odd_even_split_plain t x kk KK EV X) as [WR RB]. unfold bit_split. cbn [plain c_lsh c_rsh c_init c_xor c_and c_setnb].
  fold (plain k). set (r := odd_even_split Z (plain k) t x kk) in *. set (h := kk / 2) in *.
  pose proof (Z.div_mod kk 2 ltac:(lia)) as DM. rewrite EV in DM. fold h in DM.
  assert (MB : forall i, 0 <= i -> Z.testbit (wrap k (2 ^ h - 1)) i = (i <? h)).
  { intros i I. rewrite tb_wrap by lia. replace (2 ^ h - 1) with (Z.ones h) by (rewrite Z.ones_equiv; lia).
    destruct (Z.ltb_spec i h); [rewrite Z.ones_spec_low by lia; lia|rewrite Z.ones_spec_high by lia; apply andb_false_r]. }
  assert (WW : 0 <= wrap k (2 ^ h - 1)) by (apply word_wrap_; lia).
  eexists _, _. split; [reflexivity|].
  assert (WD : forall z, 0 <= z -> word h (Z.land z (wrap k (2 ^ h - 1)))).
  { intros z Hz. apply word_of_bits; [lia|apply Z.land_nonneg; now left|]. intros i I. rewrite Z.land_spec, MB by lia.
    replace (i <? h) with false by lia. apply andb_false_r. }
  split; [apply WD, WR|]. split; [apply WD, (word_rshr k h); [lia|lia|exact WR]|].
  intros m M. rewrite !Z.land_spec, !MB, tb_rshr by lia. replace (m <? h) with true by lia. rewrite !andb_true_r.
  destruct (RB m M) as [-> E]. split; [reflexivity|]. rewrite Z.add_comm. exact E.
Qed.
Lemma carry_loop_plain : forall fuel t P G kc, (Z.to_nat kc <= fuel)%nat -> 2 <= kc <= k -> word k P -> word k G ->
  carry_loop Z (plain k) fuel t P G kc = Z.b2z (gw (Z.testbit P) (Z.testbit G) (kc - 1) (Z.to_nat kc)).
Proof.
  pose proof k_even as [hh [KE HP]].
  induction fuel as [|f IH]; intros t P G kc F KC WP WG; [lia|]. cbn [carry_loop]. replace (kc <=? 1) with false by lia.
  assert (Main : forall P G kc, (Z.to_nat (kc / 2) <= f)%nat -> 2 <= kc <= k -> kc mod 2 = 0 -> word k P -> word k G ->
    (let '(P0, P1) := bit_split Z (plain k) t P kc in let '(G0, G1) := bit_split Z (plain k) (t + 50) G kc in
     carry_loop Z (plain k) f (t + 110) (c_and (plain k) (t + 100) P1 P0) (c_xor (plain k) G1 (c_and (plain k) (t + 101) P1 G0)) (kc / 2))
    = Z.b2z (gw (Z.testbit P) (Z.testbit G) (kc - 1) (Z.to_nat kc))).
  { clear P G kc F KC WP WG. intros P G kc F KC EV WP WG.
    destruct (bit_split_plain t P kc KC EV WP) as [P0 [P1 [EP [WP0 [WP1 BP]]]]]. rewrite EP.
    destruct (bit_split_plain (t + 50) G kc KC EV WG) as [G0 [G1 [EG [WG0 [WG1 BG]]]]]. rewrite EG.
    cbn [plain c_and c_xor]. fold (plain k).
    pose proof (Z.div_mod kc 2 ltac:(lia)) as DM. rewrite EV in DM. set (h := kc / 2) in *.
    assert (H1 : 1 <= h) by lia.
    assert (WA : word h (Z.land P1 P0)) by (apply word_land; [lia|exact WP1|apply WP0]).
    assert (WB : word h (Z.lxor G1 (Z.land P1 G0))) by (apply word_lxor; [lia|exact WG1|apply word_land; [lia|exact WP1|apply WG0]]).
    assert (GP : gw (Z.testbit (Z.land P1 P0)) (Z.testbit (Z.lxor G1 (Z.land P1 G0))) (h - 1) (Z.to_nat h)
               = gw (Z.testbit P) (Z.testbit G) (kc - 1) (Z.to_nat kc)).
    { replace (kc - 1) with (2 * (h - 1) + 1) by lia. replace (Z.to_nat kc) with (Z.to_nat h + Z.to_nat h)%nat by lia.
      apply gw_pairs.
      - intros i I. rewrite Z.land_spec. destruct (BP i ltac:(lia)) as [-> ->]. reflexivity.
      - intros i I. rewrite Z.lxor_spec, Z.land_spec. destruct (BP i ltac:(lia)) as [_ ->]. destruct (BG i ltac:(lia)) as [-> ->]. reflexivity. }
    rewrite <- GP. destruct (Z.eqb_spec h 1) as [H|H].
    - rewrite H in *. assert (EC : forall A B, carry_loop Z (plain k) f (t + 110) A B 1 = B) by (intros; destruct f; reflexivity).
      rewrite EC. change (Z.to_nat 1) with 1%nat. rewrite gw_1. change (1 - 1) with 0.
      set (z := Z.lxor G1 (Z.land P1 G0)) in *. destruct WB as [Z0 Z1]. change (2 ^ 1) with 2 in Z1.
      assert (C : z = 0 \/ z = 1) by lia. destruct C as [-> | ->]; reflexivity.
    - apply IH; [lia|lia|apply (word_le h); [lia|exact WA]|apply (word_le h); [lia|exact WB]]. }
  destruct (Z.eqb_spec (kc mod 2) 0) as [E|E].
  - apply Main; auto. clear - F KC. assert (kc / 2 < kc) by (apply Z.div_lt; lia). lia.
  - pose proof (Z.mod_pos_bound kc 2 ltac:(lia)). pose proof (Z.div_mod kc 2 ltac:(lia)).
    assert (KC1 : kc + 1 <= k) by lia.
    assert (EV : (kc + 1) mod 2 = 0). { symmetry. apply (Z.mod_unique _ _ (kc / 2 + 1)); [left; lia|lia]. }
    destruct (Z.eq_dec kc 2) as [->|]; [vm_compute in E; congruence|].
    cbn [plain c_lsh]. fold (plain k).
    (* one bit of padding below: one more position in the window *)
    rewrite (Main (rshl k 1 P) (rshl k 1 G) (kc + 1)); [|clear - F KC E; lia|lia|exact EV|apply word_rshl; lia|apply word_rshl; lia].
    f_equal. replace (Z.to_nat (kc + 1)) with (S (Z.to_nat kc)) by lia. replace (kc + 1 - 1) with kc by lia.
    rewrite (gw_ext _ (fun j => Z.testbit P (j - 1)) _ (fun j => Z.testbit G (j - 1))).
    + rewrite gw_shift. cbn [gw]. replace (kc - 1 - Z.of_nat (Z.to_nat kc)) with (-1) by lia. rewrite (tb_neg G) by lia.
      now rewrite andb_false_r, xorb_false_r.
    + intros j J. rewrite tb_rshl by lia. replace (j <? k) with true by lia. reflexivity.
    + intros j J. rewrite tb_rshl by lia. replace (j <? k) with true by lia. reflexivity.
Qed.
Lemma carry_out_plain x y nbits : 1 <= nbits <= k -> word k x -> word k y ->
  carry_out Z (plain k) x y nbits = Ok (carry x y nbits).
Proof.
  intros NB X Y. pose proof k_even as [hh [KE HP]]. unfold carry_out. replace (nbits =? 0) with false by lia.
  assert (C : forall i, 0 <= i -> Z.b2z (cyb x y i) = carry x y i).
  { intros i I. unfold cyb. pose proof (carry_range x y i I). destruct (Z.eqb_spec (carry x y i) 1); cbn [Z.b2z]; lia. }
  cbn [plain c_xor c_and c_init]. fold (plain k).
  destruct (Z.eqb_spec nbits 1) as [->|N1].
  - f_equal. rewrite <- C by lia. replace 1 with (0 + 1) at 2 by lia. rewrite cyb_S by lia. unfold cyb. rewrite carry_0, andb_false_r, xorb_false_r.
    rewrite <- Z.land_spec. unfold wrap. rewrite Z.mod_1_l by (apply (Z.pow_lt_mono_r 2 0 k); lia).
    rewrite Z.bit0_mod. change 1 with (Z.ones 1) at 1. rewrite Z.land_ones by lia. reflexivity.
  - rewrite carry_loop_plain; [|lia|lia|apply word_lxor; auto; lia|apply word_land; [lia|exact X|apply Y]].
    do 1 f_equal. rewrite <- (C nbits) by lia. f_equal.
    rewrite (gw_ext _ (fun j => xorb (Z.testbit x j) (Z.testbit y j)) _ (fun j => Z.testbit x j && Z.testbit y j)).
    + rewrite gw_carry by lia. f_equal. lia.
    + intros; apply Z.lxor_spec.
    + intros; apply Z.land_spec.
Qed.
End Carry.
