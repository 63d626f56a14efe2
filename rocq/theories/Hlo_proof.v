(* Casts, rounding, power and per-element shifts preserve plaintexts. *)
From Verif Require Import Base Ring_model Ring_spec Ring_proof Semi_model Semi_proof Party Circ_proof Perm_proof Disp_model Disp_spec Disp_proof Dispd_proof Hlo_model Hlo_spec.
Open Scope Z_scope.

(* ---- numbers ---- *)
Lemma wrap_of_signed k a v : 0 < k -> word k a -> signed_value k a v -> a = wrap k v.
Proof. intros K W [_ [q E]]. rewrite E. rewrite <- (wrap_small k a W) at 1. symmetry. apply eqm_mult. Qed.
Lemma signed_of_range k v : 0 < k -> - 2 ^ (k - 1) <= v < 2 ^ (k - 1) -> signed_value k (wrap k v) v.
Proof.
  intros K R. split; [exact R|]. exists (v / 2 ^ k). unfold wrap. pose proof (pow2_pos k ltac:(lia)).
  pose proof (Z.div_mod v (2 ^ k) ltac:(lia)). lia.
Qed.
Lemma pow_half k : 1 < k -> 2 ^ k = 2 * 2 ^ (k - 1).
Proof. intros K. rewrite <- Z.pow_succ_r by lia. f_equal. lia. Qed.
Lemma pow_wrap k u m : 0 < k -> 0 <= m -> eqm k (wrap k u ^ m) (u ^ m).
Proof.
  intros K. revert m. apply (natlike_ind (fun m => eqm k (wrap k u ^ m) (u ^ m))).
  - reflexivity.
  - intros m M0 IH. rewrite !Z.pow_succ_r by lia. rewrite IH, eqm_wrap. reflexivity.
Qed.

Section Proof.
Context {md : Mode} {HS : Shifts}.
Variable k : Z.
Hypothesis K1 : 1 < k.
Variable n : nat.
Variable pr : proto.
Variable isA : ash pr -> Z -> Prop.
Variable isB : bsh pr -> Z -> Prop.
Hypothesis HO : proto_ok k n pr isA isB.
Hypothesis wordA : forall a x, isA a x -> word k x.
Variable others : nat -> Z.
Hypothesis OT : forall t, 0 <= others t <= k.
Notation val := (val pr).
Notation holds := (holds k n pr isA isB).
Notation const := (const k pr).
Tactic Notation "use" constr(L) := cbv beta in *; eapply wp_mono; [eapply L; eauto|cbv beta].
Notation addk := (hal_add_ok k K1 n pr isA isB HO wordA).
Notation subk := (hal_sub_ok k K1 n pr isA isB HO wordA).
Notation mulk := (hal_mul_ok k K1 n pr isA isB HO wordA others OT).
Notation andk := (hal_and_ok k K1 n pr isA isB HO wordA).
Notation msbk := (hal_msb_ok k K1 n pr isA isB HO wordA others OT).
Notation lshk := (hal_lshift_ok k K1 n pr isA isB HO wordA).
Notation rshk := (hal_rshift_ok k K1 n pr isA isB HO wordA others OT).
Notation arsk := (hal_arshift_ok k K1 n pr isA isB HO wordA others OT).
Notation muxk := (hal_mux_ok k K1 n pr isA isB HO wordA others OT).
Notation eqk := (hal_equal_ok k K1 n pr isA isB HO wordA others OT).
Notation notk := (hal_not_ok k K1 n pr isA isB HO wordA others OT).
Notation sgnk := (hal_sign_ok k K1 n pr isA isB HO wordA others OT).
Notation pbk := (hal_prefer_b_ok k K1 n pr isA isB HO wordA others OT).
Notation c0 := (const0 k K1 n pr isA isB wordA others OT). Notation c1 := (const1 k K1 n pr isA isB wordA others OT).
Notation cok := (const_ok k K1 n pr isA isB).
Notation heq := (holds_eq k n pr isA isB).

Lemma k0 : 0 < k. Proof using K1. clear - K1. lia. Qed.
Lemma p0 : 0 < 2 ^ k. Proof using K1. clear - K1. apply pow2_pos. lia. Qed.
Lemma ph : 2 ^ k = 2 * 2 ^ (k - 1). Proof using K1. clear - K1. now apply pow_half. Qed.
Lemma ph0 : 0 < 2 ^ (k - 1). Proof using K1. clear - K1. apply pow2_pos. lia. Qed.

(* ---- casts and rounding ---- *)
Section Fx.
Variable f : Z.
Hypothesis F : 0 <= f < k.
Lemma pf0 : 0 < 2 ^ f. Proof using F. clear - F. apply pow2_pos. lia. Qed.
Lemma pf1 : 2 ^ f <= 2 ^ (k - 1). Proof using F. clear - F. apply Z.pow_le_mono_r; lia. Qed.

Lemma int2fxp_ok x a v : holds x a -> signed_value k a v -> wp (int2fxp k pr f x) (fun r => holds r (wrap k (v * 2 ^ f))).
Proof.
  intros X V. use lshk. intros r [R _]. eapply heq; [exact R|]. change (eqm k (a * 2 ^ f) (v * 2 ^ f)).
  rewrite (wrap_of_signed k a v k0 (proj1 X) V), eqm_wrap. reflexivity.
Qed.
Lemma arshift_signed x a v s : holds x a -> 0 <= s < k -> signed_value k a v ->
  wp (hal_arshift k pr x s) (fun r => exists c, holds r c /\ signed_value k c (v / 2 ^ s)).
Proof.
  intros X S0 V. use arsk. intros r [R _]. exists (wrap k (v / 2 ^ s)). split; [exact R|]. apply signed_of_range; [apply k0|].
  destruct V as [V _]. pose proof (pow2_pos s ltac:(lia)). pose proof ph0. split.
  - apply Z.div_le_lower_bound; [lia|]. nia.
  - apply Z.div_lt_upper_bound; [lia|]. nia.
Qed.
Lemma floor_ok x a v : holds x a -> signed_value k a v ->
  exists w, is_floor f v w /\ - 2 ^ (k - 1) <= w < 2 ^ (k - 1) /\ wp (f_floor k pr f x) (fun r => holds r (wrap k w)).
Proof.
  intros X V. exists (v / 2 ^ f * 2 ^ f). pose proof pf0 as P. pose proof pf1 as P1. pose proof (Z.div_mod v (2 ^ f) ltac:(lia)).
  pose proof (Z.mod_pos_bound v (2 ^ f) P). split; [|split].
  - split; [now exists (v / 2 ^ f)|]. lia.
  - destruct V as [[V1 V2] _]. split; [|lia]. assert (D : - 2 ^ (k - 1 - f) <= v / 2 ^ f).
    { apply Z.div_le_lower_bound; [lia|]. rewrite Z.mul_opp_r, <- Z.pow_add_r by lia. replace (f + (k - 1 - f)) with (k - 1) by ring. exact V1. }
    replace (2 ^ (k - 1)) with (2 ^ (k - 1 - f) * 2 ^ f) by (rewrite <- Z.pow_add_r by lia; f_equal; ring).
    rewrite <- Z.mul_opp_l. apply Z.mul_le_mono_nonneg_r; lia.
  - unfold f_floor. apply wp_bind. use arshift_signed. intros r (c & R & S0). use lshk. intros r' [R' _].
    eapply heq; [exact R'|]. change (eqm k (c * 2 ^ f) (v / 2 ^ f * 2 ^ f)). rewrite (wrap_of_signed k c _ k0 (proj1 R) S0), eqm_wrap. reflexivity.
Qed.
Lemma add_signed x y a b u v : holds x a -> holds y b -> signed_value k a u -> eqm k b v -> - 2 ^ (k - 1) <= u + v < 2 ^ (k - 1) ->
  wp (hal_add k pr x y) (fun r => exists c, holds r c /\ signed_value k c (u + v)).
Proof.
  intros X Y U V R. use addk. intros r [H _]. exists (wrap k (u + v)). split; [|apply signed_of_range; [apply k0|exact R]].
  eapply heq; [exact H|]. change (eqm k (a + b) (u + v)). rewrite V, (wrap_of_signed k a u k0 (proj1 X) U), eqm_wrap. reflexivity.
Qed.
Lemma floor_unique v w w' : is_floor f v w -> is_floor f v w' -> w = w'.
Proof using F. clear - F.
  intros [[q ->] H] [[q' ->] H']. pose proof pf0. f_equal. transitivity (v / 2 ^ f).
  - apply (Z.div_unique _ _ q (v - q * 2 ^ f)); [left; lia|ring].
  - symmetry. apply (Z.div_unique _ _ q' (v - q' * 2 ^ f)); [left; lia|ring].
Qed.
Lemma ceil_ok x a v : holds x a -> signed_value k a v -> v + 2 ^ f - 1 < 2 ^ (k - 1) ->
  exists w, is_ceil f v w /\ - 2 ^ (k - 1) <= w < 2 ^ (k - 1) /\ wp (f_ceil k pr f x) (fun r => holds r (wrap k w)).
Proof.
  intros X V B. pose proof pf0 as P. pose proof pf1 as P1. pose proof ph0. pose proof ph.
  set (u := v + (2 ^ f - 1)). assert (RU : - 2 ^ (k - 1) <= u < 2 ^ (k - 1)) by (destruct V as [V _]; unfold u; lia).
  exists (u / 2 ^ f * 2 ^ f). pose proof (Z.div_mod u (2 ^ f) ltac:(lia)). pose proof (Z.mod_pos_bound u (2 ^ f) P).
  split; [|split].
  - split; [now exists (u / 2 ^ f)|]. unfold u in *. lia.
  - split; [|lia]. destruct V as [V _]. unfold u in *. lia.
  - unfold f_ceil. apply wp_bind. use subk; [apply cok|apply cok|]. intros d D. apply wp_bind.
    eapply wp_mono; [apply (add_signed x d a _ v (2 ^ f - 1) X D V)|].
    + rewrite !eqm_wrap. reflexivity.
    + exact RU.
    + cbv beta. intros s (c & S0 & SV). fold u in SV. destruct (floor_ok s c u S0 SV) as (w & FW & _ & HW).
      rewrite (floor_unique u (u / 2 ^ f * 2 ^ f) w); [exact HW| |exact FW]. split; [now exists (u / 2 ^ f)|]. lia.
Qed.
Lemma trunc_quot v : is_trunc f v (Z.quot v (2 ^ f)).
Proof using F. clear - F.
  pose proof pf0 as P. pose proof (Z.quot_rem v (2 ^ f) ltac:(lia)) as E. pose proof (Z.rem_bound_abs v (2 ^ f) ltac:(lia)) as B.
  destruct (Z.le_gt_cases 0 v) as [S0|S0].
  - pose proof (Z.rem_bound_pos v (2 ^ f) S0 ltac:(lia)). pose proof (Z.quot_pos v (2 ^ f) S0 ltac:(lia)).
    split; [rewrite !Z.abs_eq by lia; nia|nia].
  - pose proof (Z.rem_nonpos v (2 ^ f) ltac:(lia) ltac:(lia)) as RN. assert (Q : Z.quot v (2 ^ f) <= 0).
    { rewrite <- (Z.opp_involutive v), Z.quot_opp_l by lia. pose proof (Z.quot_pos (- v) (2 ^ f) ltac:(lia) ltac:(lia)). lia. }
    split; [rewrite (Z.abs_neq v), (Z.abs_neq (Z.quot v (2 ^ f))) by lia; nia|nia].
Qed.
Lemma quot_shift v : Z.quot v (2 ^ f) = (v + (2 ^ f - 1) * (if v <? 0 then 1 else 0)) / 2 ^ f.
Proof using F. clear - F.
  pose proof pf0 as P. destruct (Z.ltb_spec v 0) as [S0|S0].
  - rewrite <- (Z.opp_involutive v) at 1. rewrite Z.quot_opp_l, Z.quot_div_nonneg by lia.
    apply (Z.div_unique _ _ _ (2 ^ f - 1 - (- v) mod 2 ^ f)).
    + left. pose proof (Z.mod_pos_bound (- v) (2 ^ f) P). lia.
    + pose proof (Z.div_mod (- v) (2 ^ f) ltac:(lia)). lia.
  - rewrite Z.mul_0_r, Z.add_0_r. apply Z.quot_div_nonneg; lia.
Qed.
Lemma quot_range v : - 2 ^ (k - 1) <= v < 2 ^ (k - 1) -> - 2 ^ (k - 1) <= Z.quot v (2 ^ f) < 2 ^ (k - 1).
Proof using F. clear - F.
  intros V. destruct (trunc_quot v) as [[B1 B2] S0]. pose proof pf0 as P. assert (L : Z.abs (Z.quot v (2 ^ f)) <= Z.abs v) by nia.
  destruct (Z.le_gt_cases 0 v).
  - lia.
  - assert (Z.quot v (2 ^ f) <= 0) by nia. lia.
Qed.
Lemma fxp2int_ok x a v : holds x a -> signed_value k a v -> f < 31 ->
  wp (fxp2int k pr f x) (fun r => holds r (wrap k (Z.quot v (2 ^ f)))).
Proof.
  intros X V F31. unfold fxp2int. destruct (Z.leb_spec 31 f); [lia|]. pose proof pf0 as P. pose proof pf1 as P1. pose proof ph0.
  apply wp_bind. use msbk. intros m [M0 _]. rewrite (msb_sign k K1 a v (proj1 X) V) in M0.
  apply wp_bind. use mulk; [apply cok|]. intros t [T0 _]. apply wp_bind.
  eapply wp_mono; [apply (add_signed x t a _ v ((2 ^ f - 1) * (if v <? 0 then 1 else 0)) X T0 V)|].
  - rewrite !eqm_wrap. reflexivity.
  - destruct V as [V _]. destruct (Z.ltb_spec v 0); lia.
  - cbv beta. intros s (c & S0 & SV). use arsk. intros r [R _]. rewrite quot_shift. exact R.
Qed.
(* nearest, ties away from zero *)
Definition afz (v : Z) : Z := Z.quot (v + (if v <? 0 then -1 else 1) * 2 ^ (f - 1)) (2 ^ f) * 2 ^ f.
Lemma afz_round v : 0 < f -> is_round_away f v (afz v).
Proof using F. clear - F.
  intros F0. unfold afz. pose proof pf0 as P. assert (E : 2 ^ f = 2 * 2 ^ (f - 1)) by (rewrite <- Z.pow_succ_r by lia; f_equal; lia).
  set (h := 2 ^ (f - 1)) in *. set (u := v + (if v <? 0 then -1 else 1) * h). destruct (trunc_quot u) as [[B1 B2] S0].
  set (q := Z.quot u (2 ^ f)) in *. clearbody q. split; [now exists q|].
  unfold u in *. clear u. rewrite E in *. clearbody h. destruct (Z.ltb_spec v 0) as [N|N].
  - assert (q <= 0) by nia. rewrite (Z.abs_neq q), (Z.abs_neq (v + -1 * h)) in * by lia. rewrite (Z.abs_neq v), (Z.abs_neq (q * (2 * h))) by nia. split; [|lia].
    destruct (Z.le_gt_cases 0 (v - q * (2 * h))); [rewrite Z.abs_eq by lia|rewrite Z.abs_neq by lia]; lia.
  - assert (0 <= q) by nia. rewrite (Z.abs_eq q), (Z.abs_eq (v + 1 * h)) in * by lia. rewrite (Z.abs_eq v), (Z.abs_eq (q * (2 * h))) by nia. split; [|lia].
    destruct (Z.le_gt_cases 0 (v - q * (2 * h))); [rewrite Z.abs_eq by lia|rewrite Z.abs_neq by lia]; lia.
Qed.
Lemma afz_ok x a v : holds x a -> signed_value k a v -> 0 < f < 31 -> Z.abs v + 2 ^ (f - 1) < 2 ^ (k - 1) ->
  exists w, is_round_away f v w /\ - 2 ^ (k - 1) <= w < 2 ^ (k - 1) /\ wp (round_afz k pr f x) (fun r => holds r (wrap k w)).
Proof.
  intros X V F31 B. exists (afz v). pose proof pf0 as P. pose proof pf1 as P1. pose proof ph0. pose proof (pow2_pos (f - 1) ltac:(lia)) as PH.
  split; [now apply afz_round|]. set (u := v + (if v <? 0 then -1 else 1) * 2 ^ (f - 1)).
  assert (RU : - 2 ^ (k - 1) <= u < 2 ^ (k - 1)) by (unfold u; destruct (Z.ltb_spec v 0); lia).
  split.
  - unfold afz. fold u. destruct (trunc_quot u) as [[B1 B2] S0]. assert (A : Z.abs (Z.quot u (2 ^ f) * 2 ^ f) <= Z.abs u).
    { rewrite Z.abs_mul, (Z.abs_eq (2 ^ f)) by lia. exact B1. }
    unfold u in *. destruct (Z.ltb_spec v 0); lia.
  - unfold round_afz. apply wp_bind. use sgnk. intros s S0. apply wp_bind. use mulk; [apply cok|]. intros h [H0 _]. apply wp_bind.
    eapply wp_mono; [apply (add_signed x h a _ v ((if v <? 0 then -1 else 1) * 2 ^ (f - 1)) X H0 V)|].
    + rewrite !eqm_wrap. reflexivity.
    + exact RU.
    + cbv beta. intros r (c & R & SV). fold u in SV. apply wp_bind. eapply wp_mono; [apply (fxp2int_ok r c u R SV); lia|]. cbv beta. intros i I0.
      eapply wp_mono; [eapply int2fxp_ok; [exact I0|apply signed_of_range; [apply k0|apply quot_range; exact RU]]|]. cbv beta. intros z Z0. exact Z0.
Qed.
End Fx.

(* ---- bits ---- *)
Lemma bit_of_ok x a i : holds x a -> 0 <= i < k -> wp (bit_of k pr x i) (fun r => holds r (if Z.testbit a i then 1 else 0)).
Proof.
  intros X I0. unfold bit_of. apply wp_bind. use rshk. intros s [S0 _].
  eapply wp_mono; [eapply (andk (fun _ => 0)); [intros; cbv beta; lia|exact S0|apply c1]|]. cbv beta. intros r [R _]. eapply heq; [exact R|]. apply (shift_bit k n pr isA wordA others OT). lia.
Qed.

(* ---- power ---- *)
Lemma pow_loop_ok : forall m idx yb base acc b u e, holds yb b -> holds base (wrap k (u ^ (2 ^ Z.of_nat idx))) -> holds acc (wrap k (u ^ e)) -> 0 <= e ->
  e = b mod 2 ^ Z.of_nat idx -> Z.of_nat (idx + m) <= k ->
  wp (pow_loop k pr m idx yb base acc) (fun r => holds r (wrap k (u ^ (b mod 2 ^ Z.of_nat (idx + m))))).
Proof.
  induction m as [|m IH]; intros idx yb base acc b u e Y B A E0 E KI.
  - cbn [pow_loop]. apply wp_ret. rewrite Nat.add_0_r, <- E. exact A.
  - cbn [pow_loop]. apply wp_bind. eapply wp_mono; [apply (bit_of_ok yb b (Z.of_nat idx) Y); lia|]. cbv beta. intros c C.
    assert (BB : b mod 2 ^ Z.of_nat (S idx) = e + (if Z.testbit b (Z.of_nat idx) then 2 ^ Z.of_nat idx else 0)).
    { rewrite E. replace (Z.of_nat (S idx)) with (Z.of_nat idx + 1) by lia. rewrite Z.pow_add_r by lia. change (2 ^ 1) with 2.
      rewrite Z.rem_mul_r by (try apply Z.pow_nonzero; lia). f_equal. rewrite <- Z.shiftr_div_pow2, Zmod_odd, <- Z.bit0_odd, Z.shiftr_spec by lia.
      rewrite Z.add_0_l. destruct (Z.testbit b (Z.of_nat idx)); ring. }
    apply wp_bind. eapply wp_mono; [eapply muxk; [exact C|apply if01|exact B|apply c1]|]. cbv beta. intros cur CU. rewrite if01_eqb in CU.
    apply wp_bind. eapply wp_mono; [eapply mulk; [exact CU|exact A]|]. cbv beta. intros acc' [A' _].
    assert (NA : holds acc' (wrap k (u ^ (b mod 2 ^ Z.of_nat (S idx))))).
    { eapply heq; [exact A'|]. rewrite BB. destruct (Z.testbit b (Z.of_nat idx)).
      - match goal with |- wrap k ?x = wrap k ?y => change (eqm k x y) end. rewrite !eqm_wrap, Z.pow_add_r by lia. apply eqm_of_eq. ring.
      - match goal with |- wrap k ?x = wrap k ?y => change (eqm k x y) end. rewrite eqm_wrap. apply eqm_of_eq. rewrite Z.add_0_r. ring. }
    apply wp_bind.
    assert (MB : 0 <= b mod 2 ^ Z.of_nat (S idx)) by (apply Z.mod_pos_bound, pow2_pos; lia).
    destruct m as [|m'].
    + apply wp_ret. cbn [pow_loop]. apply wp_ret. replace (idx + 1)%nat with (S idx) by lia. exact NA.
    + eapply wp_mono; [eapply mulk; [exact B|exact B]|]. cbv beta. intros base' [B' _].
      replace (idx + S (S m'))%nat with (S idx + S m')%nat by lia.
      eapply (IH (S idx) yb base' acc' b u (b mod 2 ^ Z.of_nat (S idx))); [exact Y| |exact NA|exact MB|reflexivity|lia].
      eapply heq; [exact B'|]. match goal with |- wrap k ?x = wrap k ?y => change (eqm k x y) end. rewrite !eqm_wrap.
      apply eqm_of_eq. rewrite <- Z.pow_add_r by lia. f_equal. rewrite Nat2Z.inj_succ, Z.pow_succ_r by lia. ring.
Qed.
Lemma abs_ok x a u : holds x a -> signed_value k a u -> wp (i_abs k pr x) (fun r => holds r (wrap k (Z.abs u))).
Proof.
  intros X U. unfold i_abs. apply wp_bind. use sgnk. intros s S0. use mulk. intros r [R _]. eapply heq; [exact R|].
  match goal with |- wrap k ?x = wrap k ?y => change (eqm k x y) end. rewrite eqm_wrap. rewrite (wrap_of_signed k a u k0 (proj1 X) U), eqm_wrap.
  apply eqm_of_eq. destruct (Z.ltb_spec u 0); lia.
Qed.
Lemma ones_and b : b = 0 \/ b = 1 -> forall c : bool, Z.land b (2 ^ k - 1 - (if c then 1 else 0)) = if c then 0 else b.
Proof.
  intros B c. pose proof ph. pose proof ph0.
  assert (O : forall x, 0 <= x -> Z.land 1 x = if Z.odd x then 1 else 0).
  { intros x X. rewrite Z.land_comm. change 1 with (Z.ones 1) at 1. rewrite Z.land_ones by lia. change (2 ^ 1) with 2. apply Zmod_odd. }
  destruct B as [-> | ->]; [rewrite Z.land_0_l; now destruct c|]. rewrite O by (destruct c; lia).
  destruct c.
  - replace (2 ^ k - 1 - 1) with (2 * (2 ^ (k - 1) - 1)) by lia. rewrite Z.odd_mul. reflexivity.
  - replace (2 ^ k - 1 - 0) with (1 + 2 * (2 ^ (k - 1) - 1)) by lia. rewrite Z.odd_add_mul_2. reflexivity.
Qed.
Lemma power_ok x y a b u v : holds x a -> holds y b -> signed_value k a u -> signed_value k b v -> 3 < k ->
  wp (power k pr others x y) (fun r => holds r (if (v <? 0) && negb (Z.abs u =? 1) then 0 else wrap k (u ^ (b mod 2 ^ Z.of_nat (y_bits k))))).
Proof.
  intros X Y U V K3. unfold power. pose proof p0 as P0. pose proof ph as PH. pose proof ph0 as PH0.
  assert (YB : Z.of_nat (y_bits k) <= k).
  { unfold y_bits. rewrite Z2Nat.id by apply Z.log2_up_nonneg. pose proof (Z.log2_up_le_lin (k - 1) ltac:(lia)). lia. }
  apply wp_bind. use pbk. intros yb (HY & _ & _).
  apply wp_bind. eapply wp_mono; [apply (rshk yb b (k - 1) HY); lia|]. cbv beta. intros my [HM _].
  apply wp_bind. use abs_ok. intros ax HA.
  apply wp_bind. eapply wp_mono; [eapply eqk; [exact HA|apply c1]|]. cbv beta. intros x1 HX.
  apply wp_bind. eapply wp_mono; [eapply (pow_loop_ok (y_bits k) 0 yb x (const 1) b u 0 HY)|].
  - eapply heq; [exact X|]. rewrite (wrap_of_signed k a u k0 (proj1 X) U). change (2 ^ Z.of_nat 0) with 1. now rewrite Z.pow_1_r.
  - eapply heq; [apply c1|]. rewrite Z.pow_0_r. symmetry. apply wrap_small. lia.
  - lia.
  - change (2 ^ Z.of_nat 0) with 1. now rewrite Z.mod_1_r.
  - exact YB.
  - cbv beta. cbn [Nat.add]. intros r R. apply wp_bind. use notk. intros nx1 [HN _].
    rewrite (msb_sign k K1 b v (proj1 Y) V) in HM.
    apply wp_bind. eapply wp_mono; [eapply (andk others OT); [exact HM|exact HN]|]. cbv beta. intros c [C _].
    rewrite ones_and in C by apply if01.
    assert (AB : (wrap k (Z.abs u) =? 1) = (Z.abs u =? 1)).
    { f_equal. apply wrap_small. destruct U as [U _]. lia. }
    rewrite AB in C.
    assert (CE : (if Z.abs u =? 1 then 0 else if v <? 0 then 1 else 0) = if (v <? 0) && negb (Z.abs u =? 1) then 1 else 0).
    { destruct (v <? 0), (Z.abs u =? 1); reflexivity. }
    rewrite CE in C. eapply wp_mono; [eapply muxk; [exact C|apply if01|apply c0|exact R]|]. cbv beta. intros z Z0. rewrite if01_eqb in Z0. exact Z0.
Qed.

(* ---- shifts ---- *)
Definition shifted (s : shift_kind) (a v b : Z) : Z :=
  match s with ShL => wrap k (a * 2 ^ b) | ShR => a / 2 ^ b | ShA => wrap k (v / 2 ^ b) end.
Lemma hal_shift_ok s x a v b : holds x a -> signed_value k a v -> 0 <= b < k -> wp (hal_shift k pr s x b) (fun r => holds r (shifted s a v b)).
Proof.
  intros X V B. unfold hal_shift. assert (E : in_shift k b = true) by (unfold in_shift; lia). rewrite E. destruct s; cbn [shifted].
  - use lshk. intros r [R _]. exact R.
  - use rshk. intros r [R _]. exact R.
  - use arsk. intros r [R _]. exact R.
Qed.
Lemma shifted_word s a v b : word k a -> 0 <= b -> word k (shifted s a v b).
Proof. intros W B. destruct s; cbn [shifted]; try apply (word_wrap' k K1). apply (word_shr k K1 b a); [exact B|exact W]. Qed.
Lemma shift_loop_ok s x a v y b : holds x a -> signed_value k a v -> holds y b ->
  forall m bits acc, holds acc (if b <? Z.of_nat bits then shifted s a v b else 0) -> Z.of_nat (bits + m) <= k ->
  wp (shift_loop k pr others s x y m bits acc) (fun r => holds r (if b <? Z.of_nat (bits + m) then shifted s a v b else 0)).
Proof.
  intros X V Y. induction m as [|m IH]; intros bits acc A KB.
  - cbn [shift_loop]. apply wp_ret. now rewrite Nat.add_0_r.
  - cbn [shift_loop]. assert (SM : 0 <= Z.of_nat bits < 2 ^ k).
    { split; [lia|]. assert (k < 2 ^ k) by (apply Z.pow_gt_lin_r; lia). lia. }
    apply wp_bind. eapply wp_mono; [eapply eqk; [exact Y|apply cok]|]. cbv beta. intros mask MK. rewrite (wrap_small k (Z.of_nat bits)) in MK by exact SM.
    apply wp_bind. eapply wp_mono; [apply (hal_shift_ok s x a v (Z.of_nat bits) X V); lia|]. cbv beta. intros sh SH.
    apply wp_bind. use mulk. intros p [P _]. apply wp_bind. use addk. intros acc' [A' _].
    replace (bits + S m)%nat with (S bits + m)%nat by lia. apply IH; [|lia]. eapply heq; [exact A'|].
    assert (WS : forall c, 0 <= c -> word k (shifted s a v c)) by (intros; now apply shifted_word; [apply X|]).
    destruct Y as [[YB _] _]. destruct (Z.eqb_spec b (Z.of_nat bits)) as [->|NE].
    + destruct (Z.ltb_spec (Z.of_nat bits) (Z.of_nat bits)); [lia|]. destruct (Z.ltb_spec (Z.of_nat bits) (Z.of_nat (S bits))); [|lia].
      rewrite Z.mul_1_l, Z.add_0_l, wrap_wrap. apply wrap_small, WS. lia.
    + rewrite Z.mul_0_l. change (wrap k 0) with (0 mod 2 ^ k). rewrite Z.mod_0_l by lia. rewrite Z.add_0_r.
      destruct (Z.ltb_spec b (Z.of_nat bits)), (Z.ltb_spec b (Z.of_nat (S bits))); try lia.
      * apply wrap_small. apply WS. lia.
      * apply wrap_small. lia.
Qed.
Lemma shift_impl_ok s w x a v y b : holds x a -> signed_value k a v -> holds y b -> 0 <= b < Z.of_nat w -> Z.of_nat w <= k ->
  wp (shift_impl k pr others s w x y) (fun r => holds r (shifted s a v b)).
Proof.
  intros X V Y B WK.
  assert (L : wp (shift_loop k pr others s x y w 0 (const 0)) (fun r => holds r (shifted s a v b))).
  { eapply wp_mono; [apply (shift_loop_ok s x a v y b X V Y w 0 (const 0))|].
    - eapply heq; [apply c0|]. destruct (Z.ltb_spec b (Z.of_nat 0)); [lia|reflexivity].
    - cbn [Nat.add]. exact WK.
    - cbv beta. intros r R. cbn [Nat.add] in R. destruct (Z.ltb_spec b (Z.of_nat w)); [exact R|lia]. }
  unfold shift_impl. destruct y as [p| | |]; try exact L. destruct Y as [W ->].
  assert (SG : sgn k b = b). { unfold sgn. assert (k <= 2 ^ (k - 1)) by (pose proof (Z.pow_gt_lin_r 2 (k - 1)); lia). destruct (Z.ltb_spec b (2 ^ (k - 1))); [reflexivity|lia]. }
  rewrite SG. apply hal_shift_ok; auto. lia.
Qed.
Lemma shift_far_ok s w x a v y b : holds x a -> signed_value k a v -> holds y b -> (forall p, y <> VP p) -> Z.of_nat w <= b -> Z.of_nat w <= k ->
  wp (shift_impl k pr others s w x y) (fun r => holds r 0).
Proof.
  intros X V Y NP B WK. unfold shift_impl.
  assert (L : wp (shift_loop k pr others s x y w 0 (const 0)) (fun r => holds r 0)).
  { eapply wp_mono; [apply (shift_loop_ok s x a v y b X V Y w 0 (const 0))|].
    - eapply heq; [apply c0|]. destruct Y as [[Y0 _] _]. destruct (Z.ltb_spec b (Z.of_nat 0)); [lia|reflexivity].
    - cbn [Nat.add]. exact WK.
    - cbv beta. intros r R. cbn [Nat.add] in R. destruct (Z.ltb_spec b (Z.of_nat w)); [lia|exact R]. }
  destruct y as [p| | |]; try exact L. exfalso. now apply (NP p).
Qed.
End Proof.
