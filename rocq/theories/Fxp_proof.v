(* The fixed-point operations compute within the stated error, for any protocol whose kernels are right. *)
From Verif Require Import Enc_model.
From Verif Require Import Base Ring_model Ring_spec Ring_proof Share_spec Semi_model Semi_proof Party Circ_proof Perm_proof Pv_model Pv_spec Pvm_proof.
From Verif Require Import Disp_model Disp_spec Disp_proof Dispd_proof Hlo_proof Fxp_model Fxp_spec Fxpn_proof.
Open Scope list_scope. Open Scope Z_scope.

(* ---- numbers ---- *)
Lemma eqm_wrap2 k a b : eqm k (wrap k a) (wrap k b) -> wrap k a = wrap k b.
Proof. intros H. unfold eqm in H. rewrite !eqm_wrap in H. exact H. Qed.
Lemma truncated_near k d x y vx : 1 <= d -> signed_value k x vx -> 0 < k -> truncated k d x y 0 1 ->
  exists q, signed_value k y q /\ tnear (2 ^ d) vx q /\ (0 <= vx -> 0 <= q).
Proof.
  intros D V K (vx' & vy & V' & VY & B). assert (vx' = vx) as -> by (eapply signed_unique; eauto). exists vy. split; [exact VY|].
  pose proof (pow2_pos d ltac:(lia)) as P. pose proof (Z.div_mod vx (2 ^ d) ltac:(lia)) as E. pose proof (Z.mod_pos_bound vx (2 ^ d) P) as M. split.
  - unfold tnear. apply Z.abs_le. set (U := 2 ^ d) in *. clearbody U. nia.
  - intros V0. pose proof (Z.div_pos vx (2 ^ d) V0 P). lia.
Qed.
Lemma nearest_near d vx r : 0 <= d -> nearest vx d r -> tnear (2 ^ d) vx r /\ (0 <= vx -> 0 <= r).
Proof.
  intros D N. unfold nearest in N. pose proof (pow2_pos d D) as P. split; [unfold tnear; apply Z.abs_le; lia|].
  intros V. set (U := 2 ^ d) in *. clearbody U. nia.
Qed.
(* the highest one bit *)
Lemma filled_ones a b : 0 < a -> 0 <= b -> filled a b -> b = 2 ^ (Z.log2 a + 1) - 1.
Proof.
  intros A B H. rewrite Z.sub_1_r, <- Z.ones_equiv. apply Z.bits_inj'. intros i I. pose proof (Z.log2_nonneg a).
  destruct (Z.lt_ge_cases i (Z.log2 a + 1)).
  - rewrite Z.ones_spec_low by lia. apply H; [exact I|]. exists (Z.log2 a). split; [lia|]. now apply Z.bit_log2.
  - rewrite Z.ones_spec_high by lia. destruct (Z.testbit b i) eqn:E; [|reflexivity]. apply H in E; [|exact I]. destruct E as (j & J & T).
    rewrite Z.bits_above_log2 in T; [discriminate|lia|lia].
Qed.
Lemma filled_zero b : 0 <= b -> filled 0 b -> b = 0.
Proof.
  intros B H. apply Z.bits_inj'. intros i I. rewrite Z.bits_0. destruct (Z.testbit b i) eqn:E; [|reflexivity].
  apply H in E; [|exact I]. destruct E as (j & J & T). now rewrite Z.bits_0 in T.
Qed.
Lemma ones_xor m : 0 <= m -> Z.lxor (2 ^ (m + 1) - 1) ((2 ^ (m + 1) - 1) / 2 ^ 1) = 2 ^ m.
Proof.
  intros M. rewrite Z.sub_1_r, <- Z.ones_equiv, <- Z.shiftr_div_pow2 by lia. apply Z.bits_inj'. intros i I.
  rewrite Z.lxor_spec, Z.shiftr_spec, Z.pow2_bits_eqb by lia. rewrite !Z.testbit_ones_nonneg by lia.
  destruct (Z.ltb_spec i (m + 1)), (Z.ltb_spec (i + 1) (m + 1)), (Z.eqb_spec m i); try reflexivity; lia.
Qed.
(* reversing and masking a power of two *)
Lemma reversed_pow e m y : 0 <= m -> 0 <= e -> reversed 0 e (2 ^ m) y -> Z.land y (2 ^ e - 1) = if m <? e then 2 ^ (e - 1 - m) else 0.
Proof.
  intros M E R. rewrite Z.sub_1_r, <- Z.ones_equiv. apply Z.bits_inj'. intros i I. rewrite Z.land_spec, Z.testbit_ones_nonneg by lia.
  specialize (R i I). unfold bit in R. rewrite R. destruct (Z.leb_spec 0 i); [|lia]. cbn [andb].
  destruct (Z.ltb_spec i e).
  - rewrite Z.pow2_bits_eqb, andb_true_r by lia. destruct (Z.ltb_spec m e).
    + rewrite Z.pow2_bits_eqb by lia. destruct (Z.eqb_spec m (e - 1 - i + 0)), (Z.eqb_spec (e - 1 - m) i); try reflexivity; lia.
    + rewrite Z.bits_0. apply Z.eqb_neq. lia.
  - rewrite andb_false_r. destruct (Z.ltb_spec m e); [|now rewrite Z.bits_0]. rewrite Z.pow2_bits_eqb by lia. symmetry. apply Z.eqb_neq. lia.
Qed.
Lemma reversed_zero s e y : 0 <= y -> reversed s e 0 y -> y = 0.
Proof. intros Y R. apply Z.bits_inj'. intros i I. specialize (R i I). unfold bit in R. now rewrite R, !Z.bits_0. Qed.
Lemma ring_bitrev_ok k s e x : 0 < k -> 0 <= s <= e -> e < k -> word k x -> exists y, ring_bitrev k s e x = Ok y /\ word k y /\ reversed s e x y.
Proof.
  intros K SE E W. assert (X : exists y, ring_bitrev k s e x = Ok y).
  { unfold ring_bitrev. destruct (Z.ltb_spec e k); [|lia]. destruct (Z.ltb_spec s k); [|lia]. eexists. reflexivity. }
  destruct X as [y Y]. exists y. split; [exact Y|]. destruct (bitrev_bits k s e x y K SE W Y) as [WY B]. split; [exact WY|].
  intros i I. destruct (Z.lt_ge_cases i k) as [L|G].
  - rewrite (B i (conj I L)). now destruct ((s <=? i) && (i <? e)).
  - destruct (Z.ltb_spec i e); [lia|]. rewrite andb_false_r. unfold bit.
    assert (HB : forall a, word k a -> Z.testbit a i = false).
    { intros a [A1 A2]. rewrite <- (Z.mod_small a (2 ^ k)) by lia. apply Z.mod_pow2_bits_high. lia. }
    now rewrite !HB.
Qed.

Section Proof.
Context {md : Mode} {HS : Shifts}.
Variable w : nat.
Variable k : Z.
Hypothesis KW : k = 2 ^ Z.of_nat w.
Hypothesis K1 : 1 < k.
Variable n : nat.
Variable pr : proto.
Variable isA : ash pr -> Z -> Prop.
Variable isB : bsh pr -> Z -> Prop.
Hypothesis HO : proto_ok k n pr isA isB.
Hypothesis wordA : forall a x, isA a x -> word k x.
Variable others : nat -> Z.
Hypothesis OT : forall t, 0 <= others t <= k.
Variable fk : fxp_kernels pr.
Hypothesis TR : trunc_ok k pr isA (k_trunc_a fk).
Hypothesis BR : bitrev_ok k pr isB (k_bitrev_b fk).
Variable f : Z.
Hypothesis F : 1 <= f <= k - 2.
Notation val := (val pr).
Notation holds := (holds k n pr isA isB).
Notation const := (const k pr).
Tactic Notation "use" constr(L) := cbv beta in *; eapply wp_mono; [eapply L; eauto|cbv beta].
Notation addk := (hal_add_ok k K1 n pr isA isB HO wordA).
Notation subk := (hal_sub_ok k K1 n pr isA isB HO wordA).
Notation mulk := (hal_mul_ok k K1 n pr isA isB HO wordA others OT).
Notation negk := (hal_negate_ok k K1 n pr isA isB HO wordA).
Notation sqk := (hal_square_ok k K1 n pr isA isB HO wordA others OT).
Notation msbk := (hal_msb_ok k K1 n pr isA isB HO wordA others OT).
Notation lshk := (hal_lshift_ok k K1 n pr isA isB HO wordA others OT).
Notation rshk := (hal_rshift_ok k K1 n pr isA isB HO wordA others OT).
Notation muxk := (hal_mux_ok k K1 n pr isA isB HO wordA others OT).
Notation pak := (hal_prefer_a_ok k K1 n pr isA isB HO).
Notation pork := (hal_prefix_or_ok k K1 n pr isA isB HO wordA others OT).
Notation xork := (hal_xor_ok k K1 n pr isA isB HO wordA others OT).
Notation heq := (holds_eq k n pr isA isB).
Notation cok := (const_ok k K1 n pr isA isB).
Notation U := (2 ^ f).

(* the value stands for the integer v modulo 2^k *)
Definition hw (x : val) (v : Z) : Prop := holds x (wrap k v).
Lemma K0 : 0 < k. Proof using K1. clear - K1. lia. Qed.
Lemma hw_eq x u v : hw x u -> u = v -> hw x v. Proof. now intros H <-. Qed.
Lemma hw_mod x u v : hw x u -> eqm k u v -> hw x v. Proof. intros H E. eapply heq; [exact H|exact E]. Qed.
Lemma of_holds x a : holds x a -> hw x a.
Proof. intros H. eapply heq; [exact H|]. symmetry. apply wrap_small. apply H. Qed.
Lemma hw_const c : hw (const c) c. Proof. apply cok. Qed.
Lemma w_mul x y u v : hw x u -> hw y v -> wp (hal_mul k pr x y) (fun r => hw r (u * v)).
Proof. intros X Y. use mulk. intros r [R _]. eapply hw_mod; [exact R|]. now rewrite !eqm_wrap. Qed.
Lemma w_add x y u v : hw x u -> hw y v -> wp (hal_add k pr x y) (fun r => hw r (u + v)).
Proof. intros X Y. use addk. intros r [R _]. eapply hw_mod; [exact R|]. now rewrite !eqm_wrap. Qed.
Lemma w_sub x y u v : hw x u -> hw y v -> wp (hal_sub k pr x y) (fun r => hw r (u - v)).
Proof. intros X Y. use subk. intros r R. eapply hw_mod; [exact R|]. now rewrite !eqm_wrap. Qed.
Lemma w_neg x u : hw x u -> wp (hal_negate k pr x) (fun r => hw r (- u)).
Proof. intros X. use negk. intros r [R _]. eapply hw_mod; [exact R|]. now rewrite !eqm_wrap. Qed.
Lemma w_square x u : hw x u -> wp (hal_square k pr x) (fun r => hw r (u * u)).
Proof. intros X. use sqk. intros r [R _]. eapply hw_mod; [exact R|]. now rewrite !eqm_wrap. Qed.
Lemma hw_word x v : hw x v -> word k v -> holds x v.
Proof. intros H W. eapply heq; [exact H|]. now apply wrap_small. Qed.

(* ---- truncation and bit reversal ---- *)
Lemma has_signed a : word k a -> exists v, signed_value k a v.
Proof. intros W. exists (sgn k a). apply Ring_proof.signed_sgn; [apply K0|exact W]. Qed.
Lemma w_trunc_any x u s : hw x u -> exists v, signed_value k (wrap k u) v /\
  wp (hal_trunc k pr fk f x f s) (fun r => exists q, hw r q /\ - 2 ^ (k - 1) <= q < 2 ^ (k - 1) /\
    (- 2 ^ (k - 2) <= v < 2 ^ (k - 2) -> hint_true s v -> tnear U v q /\ (0 <= v -> 0 <= q))).
Proof.
  intros X. destruct (has_signed (wrap k u) (proj1 X)) as [v V]. exists v. split; [exact V|].
  unfold hal_trunc. destruct (Z.eqb_spec f 0); [lia|]. pose proof (proj1 X) as W.
  assert (RA : exists r, rounded_arshift k f (wrap k u) = Ok (wrap k r) /\ (tnear U v r /\ (0 <= v -> 0 <= r)) /\ - 2 ^ (k - 1) <= r < 2 ^ (k - 1)).
  { destruct (rounded_arshift_ok k f (wrap k u) ltac:(lia) W) as (r & E & N & R). exists r. split; [exact E|]. split; [|exact R].
    apply nearest_near; [lia|]. rewrite (signed_unique k (wrap k u) v (sgn k (wrap k u)) V); [exact N| |lia]. apply Ring_proof.signed_sgn; [lia|exact W]. }
  assert (SEC : secret pr x -> wp (a <- to_a pr x ;; bop pr (fun t => k_trunc_a fk t a f s) VA) (fun r => exists q, hw r q /\ - 2 ^ (k - 1) <= q < 2 ^ (k - 1) /\
    (- 2 ^ (k - 2) <= v < 2 ^ (k - 2) -> hint_true s v -> tnear U v q /\ (0 <= v -> 0 <= q)))).
  { intros SX. apply wp_bind. eapply wp_mono; [eapply (to_a_ok k n pr isA isB HO); [exact X|exact SX]|]. intros a A. cbv beta in A. apply wp_bop.
    intros t. eapply outcome_mono; [exact (TR t a (wrap k u) v f s A F V)|]. intros r (y & Y & H).
    pose proof (wordA _ _ Y) as WY. destruct (has_signed y WY) as [q Q]. exists q. split; [|split; [apply Q|]].
    - split; [apply word_wrap'; exact K1|]. rewrite <- (wrap_of_signed k y q K0 WY Q). exact Y.
    - intros R HT. destruct (truncated_near k f _ _ v ltac:(lia) V K0 (H R HT)) as (q' & Q' & N & P0).
      rewrite (signed_unique k y q q' Q Q' K0). now split. }
  destruct x as [p|o g|a|b]; try (apply SEC; exact I).
  - destruct X as [_ X]. rewrite X. destruct RA as (r & E & N & R). intros t. cbn [bind lift rbind]. unfold bind, lift. rewrite E. cbn [rbind].
    apply outcome_ok; cbn [fst]. exists r. split; [split; [apply word_wrap'; exact K1|reflexivity]|]. split; [exact R|]. intros _ _. exact N.
  - destruct X as [_ [O X]]. destruct RA as (r & E & N & R). intros t. unfold v_un_res, bind, lift. rewrite X, E. cbn [rbind].
    apply outcome_ok; cbn [fst]. exists r. split; [split; [apply word_wrap'; exact K1|]|].
    + split; [exact O|]. now rewrite Nat.eqb_refl.
    + split; [exact R|]. intros _ _. exact N.
Qed.
Lemma w_trunc x u s : hw x u -> - 2 ^ (k - 2) <= u < 2 ^ (k - 2) -> hint_true s u ->
  wp (hal_trunc k pr fk f x f s) (fun r => exists q, hw r q /\ tnear U u q /\ (0 <= u -> 0 <= q) /\ - 2 ^ (k - 1) <= q < 2 ^ (k - 1)).
Proof.
  intros X R H. destruct (w_trunc_any x u s X) as (v & V & T).
  assert (v = u) as ->.
  { eapply signed_unique; [exact V| |exact K0]. apply signed_of_range; [apply K0|].
    assert (2 ^ (k - 2) <= 2 ^ (k - 1)) by (apply Z.pow_le_mono_r; lia). lia. }
  eapply wp_mono; [exact T|]. cbv beta. intros r (q & Q & RQ & N). exists q. destruct (N R H) as [N1 N2]. auto.
Qed.
Lemma w_fmul x y u v s : hw x u -> hw y v -> - 2 ^ (k - 2) <= u * v < 2 ^ (k - 2) -> hint_true s (u * v) ->
  wp (f_mul k pr fk f x y s) (fun r => exists q, hw r q /\ tnear U (u * v) q /\ (0 <= u * v -> 0 <= q) /\ - 2 ^ (k - 1) <= q < 2 ^ (k - 1)).
Proof. intros X Y R H. unfold f_mul. apply wp_bind. eapply wp_mono; [eapply w_mul; [exact X|exact Y]|]. cbv beta. intros p P. now apply w_trunc. Qed.
Lemma w_fmul_any x y u v s : hw x u -> hw y v -> wp (f_mul k pr fk f x y s) (fun r => exists q, hw r q).
Proof.
  intros X Y. unfold f_mul. apply wp_bind. eapply wp_mono; [eapply w_mul; [exact X|exact Y]|]. cbv beta. intros p P.
  destruct (w_trunc_any p _ s P) as (q & _ & T). eapply wp_mono; [exact T|]. cbv beta. intros r (z & H & _). now exists z.
Qed.
Lemma w_fsquare x u : hw x u -> u * u < 2 ^ (k - 2) ->
  wp (f_square k pr fk f x) (fun r => exists q, hw r q /\ tnear U (u * u) q /\ 0 <= q /\ q < 2 ^ (k - 1)).
Proof.
  intros X R. unfold f_square. apply wp_bind. eapply wp_mono; [eapply w_square; exact X|]. cbv beta. intros p P.
  pose proof (Z.square_nonneg u) as SQ. pose proof (pow2_pos (k - 2) ltac:(lia)) as P2.
  eapply wp_mono; [eapply w_trunc; [exact P|lia|exact SQ]|]. cbv beta. intros r (q & Q & N & Q0 & RQ). exists q. split; [exact Q|split; [exact N|split; [exact (Q0 SQ)|apply RQ]]].
Qed.
Lemma w_fsquare_any x u : hw x u -> wp (f_square k pr fk f x) (fun r => exists q, hw r q).
Proof.
  intros X. unfold f_square. apply wp_bind. eapply wp_mono; [eapply w_square; exact X|]. cbv beta. intros p P.
  destruct (w_trunc_any p _ Positive P) as (q & _ & T). eapply wp_mono; [exact T|]. cbv beta. intros r (z & H & _). now exists z.
Qed.
Lemma w_bitrev x a s e : holds x a -> 0 <= s <= e -> e < k ->
  wp (hal_bitrev k pr fk x s e) (fun r => exists y, holds r y /\ reversed s e a y).
Proof.
  intros X SE E. assert (RB : exists y, bitrev_pv k s e a = Ok y /\ word k y /\ reversed s e a y).
  { unfold bitrev_pv. destruct (Z.leb_spec s e); [|lia]. destruct (Z.leb_spec e k); [|lia]. apply ring_bitrev_ok; auto; try lia. apply X. }
  assert (SEC : secret pr x -> wp (b <- to_b pr x ;; bop pr (fun t => k_bitrev_b fk t b s e) VB) (fun r => exists y, holds r y /\ reversed s e a y)).
  { intros SX. apply wp_bind. eapply wp_mono; [eapply (to_b_ok k n pr isA isB HO); [exact X|exact SX]|]. intros b B. cbv beta in B. apply wp_bop.
    intros t. eapply outcome_mono; [exact (BR t b a s e B SE E)|]. intros r (y & Y & H). exists y. split; [|exact H].
    split; [|exact Y]. eapply wordB; eauto. }
  unfold hal_bitrev. destruct x as [p|o g|b|b]; try (apply SEC; exact I).
  - destruct X as [_ X]. subst p. destruct RB as (y & EY & WY & RY). intros t. unfold bind, lift. rewrite EY. cbn [rbind].
    apply outcome_ok; cbn [fst]. exists y. now split.
  - destruct X as [_ [O X]]. destruct RB as (y & EY & WY & RY). intros t. unfold v_un_res, bind, lift. rewrite X, EY. cbn [rbind].
    apply outcome_ok; cbn [fst]. exists y. split; [split; [exact WY|]|exact RY]. split; [exact O|]. now rewrite Nat.eqb_refl.
Qed.
Lemma w_highest x a : holds x a -> wp (highest_one_bit k pr others x) (fun r => holds r (if a =? 0 then 0 else 2 ^ Z.log2 a)).
Proof.
  intros X. unfold highest_one_bit. apply wp_bind. eapply wp_mono; [eapply (pork w x a KW X)|]. cbv beta. intros y (b & Y & FL). apply wp_bind.
  eapply wp_mono; [eapply (rshk y b 1 Y); lia|]. cbv beta. intros y1 [Y1 _]. eapply wp_mono; [eapply xork; [exact Y|exact Y1]|]. cbv beta.
  intros r [R _]. eapply heq; [exact R|]. destruct (proj1 X) as [A0 _]. destruct (proj1 Y) as [B0 _]. destruct (Z.eqb_spec a 0) as [->|NZ].
  - rewrite (filled_zero b B0 FL). reflexivity.
  - rewrite (filled_ones a b ltac:(lia) B0 FL). apply ones_xor. apply Z.log2_nonneg.
Qed.
Lemma w_mask x a e : holds x a -> 0 <= e < k -> wp (mask_number_of_bits k pr x e) (fun r => holds r (Z.land a (2 ^ e - 1))).
Proof.
  intros X E. unfold mask_number_of_bits. apply wp_bind. eapply wp_mono; [exact (lshk (const 1) (wrap k 1) e (cok 1) E)|]. cbv beta. intros s [S0 _]. apply wp_bind.
  eapply wp_mono; [exact (subk s (const 1) _ _ S0 (cok 1))|]. cbv beta. intros m M.
  eapply wp_mono; [eapply (hal_and_ok k K1 n pr isA isB HO wordA (fun _ => 0)); [intros; lia|exact X|exact M]|]. cbv beta. intros r [R _].
  eapply heq; [exact R|]. f_equal. assert (2 ^ e < 2 ^ k) by (apply Z.pow_lt_mono_r; lia). pose proof (pow2_pos e ltac:(lia)).
  transitivity (wrap k (2 ^ e - 1)); [|apply wrap_small; lia]. change (eqm k (wrap k (wrap k 1 * 2 ^ e) - wrap k 1) (2 ^ e - 1)). rewrite !eqm_wrap, Z.mul_1_l. reflexivity.
Qed.
(* the normalising factor *)
Definition factor (a : Z) : Z := if a =? 0 then 0 else if Z.log2 a <? 2 * f then 2 ^ (2 * f - 1 - Z.log2 a) else 0.
Lemma w_factor x a : holds x a -> 2 * f < k -> wp (norm_factor k pr fk others f x) (fun r => holds r (factor a)).
Proof.
  intros X E. unfold norm_factor. apply wp_bind. eapply wp_mono; [eapply w_highest; exact X|]. cbv beta. intros h H. apply wp_bind.
  eapply wp_mono; [eapply (w_bitrev h _ 0 (2 * f) H); lia|]. cbv beta. intros rv (y & Y & RY). apply wp_bind.
  eapply wp_mono; [eapply (w_mask rv y (2 * f) Y); lia|]. cbv beta. intros mk M. eapply wp_mono; [eapply pak; exact M|]. cbv beta. intros r [R _].
  eapply heq; [exact R|]. unfold factor. destruct (Z.eqb_spec a 0) as [->|NZ].
  - assert (Y0 : 0 <= y) by apply (proj1 Y). rewrite (reversed_zero 0 (2 * f) y Y0 RY). apply Z.land_0_l.
  - apply reversed_pow; [apply Z.log2_nonneg|lia|exact RY].
Qed.
Lemma factor_norm a : 0 < a -> a < 2 ^ (2 * f) -> 0 < factor a /\ U * U <= 2 * (a * factor a) /\ a * factor a < U * U.
Proof using F.
  clear - F. intros A B. unfold factor. destruct (Z.eqb_spec a 0); [lia|]. assert (L : Z.log2 a < 2 * f) by (apply Z.log2_lt_pow2; lia).
  destruct (Z.ltb_spec (Z.log2 a) (2 * f)); [|lia]. pose proof (Z.log2_spec a A) as [L1 L2]. pose proof (Z.log2_nonneg a).
  set (m := Z.log2 a) in *. rewrite <- Z.pow_add_r by lia.
  assert (P : 0 < 2 ^ (2 * f - 1 - m)) by (apply pow2_pos; lia). split; [exact P|].
  assert (E1 : 2 * (2 ^ m * 2 ^ (2 * f - 1 - m)) = 2 ^ (f + f)) by (rewrite <- Z.pow_add_r, <- Z.pow_succ_r by lia; f_equal; lia).
  assert (E2 : 2 ^ Z.succ m * 2 ^ (2 * f - 1 - m) = 2 ^ (f + f)) by (rewrite <- Z.pow_add_r by lia; f_equal; lia).
  rewrite <- E1 at 1. rewrite <- E2. split; [|apply Z.mul_lt_mono_pos_r; assumption].
  apply Z.mul_le_mono_nonneg_l; [lia|]. apply Z.mul_le_mono_nonneg_r; lia.
Qed.
Lemma factor_big a : 2 ^ (2 * f) <= a -> factor a = 0.
Proof using F.
  clear - F. intros A. unfold factor. pose proof (pow2_pos (2 * f) ltac:(lia)). destruct (Z.eqb_spec a 0); [lia|].
  destruct (Z.ltb_spec (Z.log2 a) (2 * f)) as [L|]; [|reflexivity]. apply Z.log2_lt_pow2 in L; lia.
Qed.

(* ---- constants ---- *)
Lemma encode_small m e : 0 <= m -> e <= 0 -> m <= 4 * 2 ^ (- e) -> 2 * f + 4 <= k -> encode_float k f PT_F32 (FFin m e) = Ok (m * U / 2 ^ (- e)).
Proof using F.
  clear - F. intros M E B KF. pose proof (pow2_pos f ltac:(lia)) as PU. pose proof (pow2_pos (- e) ltac:(lia)) as PE.
  assert (UL : 8 * U <= 2 ^ (k - 2)).
  { assert (2 ^ (f + 3) <= 2 ^ (k - 2)) by (apply Z.pow_le_mono_r; lia). rewrite Z.pow_add_r in H by lia. change (2 ^ 3) with 8 in H. lia. }
  assert (ST : scaled_trunc m (e + f) = m * U / 2 ^ (- e)).
  { unfold scaled_trunc. destruct (Z.leb_spec 0 (e + f)) as [G|G].
    - apply Z.div_unique_exact; [lia|]. replace f with (e + f + - e) at 1 by lia. rewrite Z.pow_add_r by lia. ring.
    - pose proof (pow2_pos (- (e + f)) ltac:(lia)). rewrite Z.quot_div_nonneg by lia.
      replace (- e) with (- (e + f) + f) by lia. rewrite Z.pow_add_r by lia. now rewrite Z.div_mul_cancel_r by lia. }
  assert (GE : forall u, 8 * U - 1 <= u -> scaled_ge m (e + f) u = false).
  { intros u HU. unfold scaled_ge. destruct (Z.leb_spec 0 (e + f)) as [G|G]; apply Z.leb_gt.
    - assert (X : m * 2 ^ (e + f) <= 4 * 2 ^ (- e) * 2 ^ (e + f)) by (apply Z.mul_le_mono_nonneg_r; [apply Z.pow_nonneg; lia|exact B]).
      replace (4 * 2 ^ (- e) * 2 ^ (e + f)) with (4 * U) in X; [lia|]. rewrite <- Z.mul_assoc, <- Z.pow_add_r by lia. do 2 f_equal. lia.
    - pose proof (pow2_pos (- (e + f)) ltac:(lia)) as PS. assert (X : 7 * U * 2 ^ (- (e + f)) <= u * 2 ^ (- (e + f))) by (apply Z.mul_le_mono_nonneg_r; lia).
      replace (7 * U * 2 ^ (- (e + f))) with (7 * 2 ^ (- e)) in X; [lia|]. rewrite <- Z.mul_assoc, <- Z.pow_add_r by lia. do 2 f_equal. lia. }
  assert (LE : forall l, l < 0 -> scaled_le m (e + f) l = false).
  { intros l HL. unfold scaled_le. destruct (Z.leb_spec 0 (e + f)) as [G|G]; apply Z.leb_gt.
    - pose proof (Z.pow_nonneg 2 (e + f) ltac:(lia)). nia.
    - pose proof (pow2_pos (- (e + f)) ltac:(lia)). nia. }
  assert (RC : 0 <= m * U / 2 ^ (- e) <= 4 * U).
  { split; [apply Z.div_pos; nia|]. apply Z.div_le_upper_bound; [lia|]. nia. }
  assert (K2 : 2 ^ (k - 2) <= 2 ^ (k - 1)) by (apply Z.pow_le_mono_r; lia).
  unfold encode_float. destruct (Z.ltb_spec f 0); [lia|]. destruct (Z.leb_spec k f); [lia|]. cbn [orb].
  replace (match flp_upper k f PT_F32 with Some u => scaled_ge m (e + f) u | None => false end) with false.
  2:{ unfold flp_upper. destruct (_ && _); [symmetry; apply GE; lia|]. destruct (_ <=? _); [reflexivity|symmetry; apply GE; lia]. }
  replace (match flp_lower k f PT_F32 with Some l => scaled_le m (e + f) l | None => false end) with false.
  2:{ unfold flp_lower. destruct (_ <=? _); [reflexivity|symmetry; apply LE; lia]. }
  rewrite ST. destruct (Z.leb_spec (- 2 ^ (k - 1)) (m * U / 2 ^ (- e))); [|lia]. destruct (Z.ltb_spec (m * U / 2 ^ (- e)) (2 ^ (k - 1))); [|lia]. reflexivity.
Qed.
Lemma w_fconst m e : 0 <= m -> e <= 0 -> m <= 4 * 2 ^ (- e) -> 2 * f + 4 <= k -> wp (fconst k pr f (FFin m e)) (fun r => hw r (m * U / 2 ^ (- e))).
Proof.
  intros M E B KF t. unfold fconst, bind, lift. rewrite encode_small by assumption. cbn [rbind]. apply outcome_ok. cbn [fst]. apply hw_const.
Qed.

(* ---- the iteration ---- *)
Section Iter.
Hypothesis U256 : 256 <= U.
Hypothesis KF : 2 * f + 4 <= k.
Lemma U2_bound : 4 * (U * U) <= 2 ^ (k - 2).
Proof using KF F. clear - KF F. rewrite <- Z.pow_add_r by lia. change 4 with (2 ^ 2). rewrite <- Z.pow_add_r by lia. apply Z.pow_le_mono_r; lia. Qed.
Lemma loop_any : forall m one r e o u v, hw one o -> hw r u -> hw e v -> wp (goldschmidt_loop k pr fk f m one r e) (fun r' => exists q, hw r' q).
Proof.
  induction m as [|m IH]; intros one r e o u v O R E; cbn [goldschmidt_loop]; [apply wp_ret; now exists u|].
  apply wp_bind. eapply wp_mono; [eapply w_add; [exact E|exact O]|]. cbv beta. intros s S0. apply wp_bind.
  eapply wp_mono; [eapply w_fmul_any; [exact R|exact S0]|]. cbv beta. intros r' (q & Q).
  destruct m as [|m]; [apply wp_ret; now exists q|]. apply wp_bind. eapply wp_mono; [eapply w_fsquare_any; exact E|]. cbv beta. intros e' (q' & Q').
  eapply IH; eassumption.
Qed.
Lemma loop_ok N c : U * U <= 2 * N -> N < U * U -> tnear U N c -> forall m i one r e u v,
  hw one U -> hw r u -> hw e v -> inv U c i u v -> 16 * (3 * (i + Z.of_nat (S m)) + 1) <= U ->
  wp (goldschmidt_loop k pr fk f (S m) one r e) (fun r' => exists q, hw r' q /\ final U c (i + Z.of_nat (S m)) q).
Proof.
  intros N1 N2 C. pose proof U2_bound as UB. induction m as [|m IH]; intros i one r e u v O R E H B.
  - cbn [goldschmidt_loop]. pose proof H as (I & U0 & SM & _).
    destruct (small_e U U256 i v I ltac:(lia) SM) as [_ EB]. pose proof (r_hi U U256 N c N1 C i u v H ltac:(lia)) as RH.
    assert (P0 : 0 <= u * (v + U)) by (apply Z.mul_nonneg_nonneg; lia).
    assert (P1 : u * (v + U) < 4 * (U * U)) by (clear - U0 RH EB U256; nia).
    apply wp_bind. eapply wp_mono; [eapply w_add; [exact E|exact O]|]. cbv beta. intros s S0. apply wp_bind.
    eapply wp_mono; [eapply (w_fmul r s u (v + U) Positive R S0); [lia|exact P0]|]. cbv beta. intros r' (q & Q & NQ & Q0 & _). apply wp_ret.
    exists q. split; [exact Q|]. apply (last U U256 N c N1 N2 C u v); auto. lia.
  - change (goldschmidt_loop k pr fk f (S (S m)) one r e) with
      (s <- hal_add k pr e one ;; r' <- f_mul k pr fk f r s Positive ;; e' <- f_square k pr fk f e ;; goldschmidt_loop k pr fk f (S m) one r' e').
    pose proof H as (I & U0 & SM & _).
    destruct (small_e U U256 i v I ltac:(lia) SM) as [_ EB]. pose proof (r_hi U U256 N c N1 C i u v H ltac:(lia)) as RH.
    assert (P0 : 0 <= u * (v + U)) by (apply Z.mul_nonneg_nonneg; lia).
    assert (P1 : u * (v + U) < 4 * (U * U)) by (clear - U0 RH EB U256; nia).
    assert (P2 : v * v < 4 * (U * U)) by (rewrite <- (Z.abs_square v); clear - EB U256; nia).
    apply wp_bind. eapply wp_mono; [eapply w_add; [exact E|exact O]|]. cbv beta. intros s S0. apply wp_bind.
    eapply wp_mono; [eapply (w_fmul r s u (v + U) Positive R S0); [lia|exact P0]|]. cbv beta. intros r' (q & Q & NQ & Q0 & _). apply wp_bind.
    eapply wp_mono; [eapply (w_fsquare e v E); lia|]. cbv beta. intros e' (q' & Q' & NQ' & _ & _).
    replace (i + Z.of_nat (S (S m))) with (i + 1 + Z.of_nat (S m)) in * by lia.
    eapply IH; eauto. apply (step U U256 N c N1 N2 C u v); auto. lia.
Qed.
Lemma norm_any iters b fac u v : (0 < num_iters f iters)%nat -> hw b u -> hw fac v -> wp (normalized_approx k pr fk f iters b fac) (fun r => exists q, hw r q).
Proof.
  intros NI B FA. unfold normalized_approx. apply wp_bind. eapply wp_mono; [eapply w_fmul_any; [exact B|exact FA]|]. cbv beta. intros c (cv & C).
  apply wp_bind. eapply wp_mono; [eapply w_fconst; [lia|lia|vm_compute; discriminate|exact KF]|]. cbv beta. intros kk KK.
  apply wp_bind. eapply wp_mono; [eapply w_mul; [apply hw_const|exact C]|]. cbv beta. intros c2 C2.
  apply wp_bind. eapply wp_mono; [eapply w_sub; [exact KK|exact C2]|]. cbv beta. intros w0 W0.
  apply wp_bind. eapply wp_mono; [eapply w_fconst; [lia|lia|vm_compute; discriminate|exact KF]|]. cbv beta. intros one O.
  apply wp_bind. eapply wp_mono; [eapply w_fmul_any; [exact C|exact W0]|]. cbv beta. intros cw (cwv & CW).
  apply wp_bind. eapply wp_mono; [eapply w_sub; [exact O|exact CW]|]. cbv beta. intros e E.
  destruct (Nat.eqb_spec (num_iters f iters) 0); [lia|]. eapply loop_any; eassumption.
Qed.
Lemma norm_ok iters b fac u v : (0 < num_iters f iters)%nat -> 16 * (3 * Z.of_nat (num_iters f iters) + 1) <= U -> hw b u -> hw fac v ->
  U * U <= 2 * (u * v) -> u * v < U * U ->
  wp (normalized_approx k pr fk f iters b fac) (fun r => exists q c, hw r q /\ tnear U (u * v) c /\ final U c (Z.of_nat (num_iters f iters)) q).
Proof.
  intros NI NB B FA N1 N2. pose proof U2_bound as UB. unfold normalized_approx. apply wp_bind.
  eapply wp_mono; [eapply (w_fmul b fac u v Positive B FA); [lia|cbn; lia]|]. cbv beta. intros c (cv & C & CN & C0 & _).
  apply wp_bind. eapply wp_mono; [eapply w_fconst; [lia|lia|vm_compute; discriminate|exact KF]|]. cbv beta. intros kk KK.
  apply wp_bind. eapply wp_mono; [eapply w_mul; [apply hw_const|exact C]|]. cbv beta. intros c2 C2.
  apply wp_bind. eapply wp_mono; [eapply w_sub; [exact KK|exact C2]|]. cbv beta. intros w0 W0.
  apply wp_bind. eapply wp_mono; [eapply w_fconst; [lia|lia|vm_compute; discriminate|exact KF]|]. cbv beta. intros one O.
  change (- -22) with 22 in *. change (2 ^ 22) with 4194304 in *. change (2 ^ (- 0)) with 1 in O. rewrite Z.mul_1_l, Z.div_1_r in O.
  set (K := 12223041 * U / 4194304) in *.
  assert (HK : 4194304 * K <= 12223041 * U < 4194304 * (K + 1)).
  { unfold K. pose proof (Z.div_mod (12223041 * U) 4194304 ltac:(lia)). pose proof (Z.mod_pos_bound (12223041 * U) 4194304 ltac:(lia)). lia. }
  clearbody K. destruct HK as [K1' K2'].
  pose proof (c_hi U U256 (u * v) cv N2 CN) as CH. pose proof (c_lo U U256 (u * v) cv N1 CN) as CL.
  pose proof (w_lo U U256 (u * v) cv K (K - 2 * cv) N2 CN K2' eq_refl) as WL.
  pose proof (w_hi U U256 (u * v) cv K (K - 2 * cv) N1 CN K1' eq_refl) as WH.
  pose proof (cw_hi U U256 (u * v) cv K (K - 2 * cv) N1 N2 CN K1' K2' eq_refl) as CWH.
  assert (CW0 : 0 <= cv * (K - 2 * cv)) by (apply Z.mul_nonneg_nonneg; lia).
  apply wp_bind. eapply wp_mono; [eapply (w_fmul c w0 cv (K - 2 * cv) Positive C W0); [lia|exact CW0]|]. cbv beta. intros cw (p0 & CW & PN & _ & _).
  apply wp_bind. eapply wp_mono; [eapply w_sub; [exact O|exact CW]|]. cbv beta. intros e E.
  destruct (Nat.eqb_spec (num_iters f iters) 0); [lia|]. destruct (num_iters f iters) as [|m]; [lia|].
  eapply wp_mono; [eapply (loop_ok (u * v) cv N1 N2 CN m 0 one w0 e (K - 2 * cv) (U - p0)); eauto|].
  - split; [lia|]. split; [lia|]. split.
    + unfold small. cbn [Z.eqb]. apply (e0_ok U U256 (u * v) cv K (K - 2 * cv) p0 (U - p0)); auto.
    + rewrite Z.mul_0_r, Z.add_0_l, Z.mul_1_l. apply (S0_ok U cv (K - 2 * cv) p0); auto.
  - cbv beta. intros r (q & Q & FQ). exists q, cv. split; [exact Q|]. split; [exact CN|exact FQ].
Qed.
Lemma zero_near q : tnear U 0 q -> 0 <= q -> q = 0 \/ q = 1.
Proof using U256. clear - U256. unfold tnear. intros H Q. nia. Qed.
Definition rclose (m v q : Z) : Prop := acc m * Z.abs (v * q - U * U) <= U * U + acc m * ((3 * m + 4) * U + v).
Lemma recip_pos iters x v : (0 < num_iters f iters)%nat -> 16 * (3 * Z.of_nat (num_iters f iters) + 1) <= U -> hw x v -> 0 <= v < 2 ^ (k - 1) ->
  (v = 0 \/ 5 * (U * U * U) <= 2 ^ (k - 1) * v) ->
  wp (reciprocal_positive k pr fk others f iters x) (fun r => exists q, hw r q /\ 0 <= q < 2 ^ (k - 1) /\
    (v = 0 \/ 2 ^ (2 * f) <= v -> q = 0 \/ q = 1) /\ (0 < v -> rclose (Z.of_nat (num_iters f iters)) v q)).
Proof.
  intros NI NB X V OV. pose proof (ph k K1) as PH. assert (HX : holds x v) by (apply hw_word; [exact X|split; lia]). unfold reciprocal_positive. apply wp_bind.
  eapply wp_mono; [eapply (w_factor x v HX); lia|]. cbv beta. intros fac FA. apply of_holds in FA. pose proof (pow2_pos (k - 2) ltac:(lia)) as P2.
  destruct (acc_big (Z.of_nat (num_iters f iters)) ltac:(lia)) as [_ A2].
  assert (Z0 : v = 0 \/ 2 ^ (2 * f) <= v -> factor v = 0).
  { intros [->|G]; [reflexivity|]. apply factor_big; exact G. }
  destruct (Z.eq_dec v 0) as [E0|NZ]; [|destruct (Z.lt_ge_cases v (2 ^ (2 * f))) as [L|G]].
  - rewrite Z0 in FA by (left; exact E0). apply wp_bind. eapply wp_mono; [eapply (norm_any iters x fac); eauto|]. cbv beta. intros r (q & Q).
    eapply wp_mono; [eapply (w_fmul r fac q 0 Positive Q FA); rewrite Z.mul_0_r; [lia|cbn; lia]|]. cbv beta. rewrite Z.mul_0_r. intros r' (y & Y & YN & Y0 & YR).
    exists y. split; [exact Y|]. split; [lia|]. split; [intros _; apply zero_near; [exact YN|lia]|lia].
  - destruct (factor_norm v ltac:(lia) L) as (F0 & N1 & N2). set (fa := factor v) in *. apply wp_bind.
    eapply wp_mono; [eapply (norm_ok iters x fac v fa); eauto|]. cbv beta. intros r (q & c & Q & CN & FQ).
    pose proof (final_hi U U256 (v * fa) c N1 CN _ q FQ ltac:(lia) NB) as RH. pose proof FQ as [Q0 _].
    assert (OVF : q * fa < 2 ^ (k - 2)).
    { destruct OV as [|OV]; [lia|]. assert (PK : 2 ^ (k - 1) = 2 * 2 ^ (k - 2)) by (rewrite <- Z.pow_succ_r by lia; f_equal; lia). rewrite PK in OV.
      clear - OV RH N2 F0 V NZ U256 Q0. set (H := 2 ^ (k - 2)) in *. set (W := U) in *. clearbody H W fa.
      assert (A : 2 * (q * fa) <= 5 * W * fa) by nia. assert (B : (5 * W * fa) * v < 5 * W * (W * W)) by nia.
      assert (D : (5 * W * fa) * v < 2 * H * v) by lia. assert (5 * W * fa < 2 * H) by (apply (Z.mul_lt_mono_pos_r v); lia). lia. }
    assert (P0 : 0 <= q * fa) by (apply Z.mul_nonneg_nonneg; lia).
    eapply wp_mono; [eapply (w_fmul r fac q fa Positive Q FA); [lia|exact P0]|]. cbv beta. intros r' (y & Y & YN & Y0 & YR).
    exists y. split; [exact Y|]. split; [lia|]. split; [lia|]. intros V0. apply (recip_final U U256 (v * fa) c N1 CN _ q v fa y FQ); auto. lia.
  - rewrite Z0 in FA by (right; exact G). apply wp_bind. eapply wp_mono; [eapply (norm_any iters x fac); eauto|]. cbv beta. intros r (q & Q).
    eapply wp_mono; [eapply (w_fmul r fac q 0 Positive Q FA); rewrite Z.mul_0_r; [lia|cbn; lia]|]. cbv beta. rewrite Z.mul_0_r. intros r' (y & Y & YN & Y0 & YR).
    assert (Y1 : y = 0 \/ y = 1) by (apply zero_near; [exact YN|lia]). exists y. split; [exact Y|]. split; [lia|]. split; [auto|]. intros V0. unfold rclose.
    assert (GU : U * U <= v) by (rewrite <- Z.pow_add_r by lia; replace (f + f) with (2 * f) by lia; exact G).
    set (A := acc (Z.of_nat (num_iters f iters))) in *. assert (D : Z.abs (v * y - U * U) <= v) by (clear - Y1 GU U256; nia).
    assert (A * Z.abs (v * y - U * U) <= A * v) by (apply Z.mul_le_mono_nonneg_l; lia).
    assert (0 <= A * ((3 * Z.of_nat (num_iters f iters) + 4) * U)) by (apply Z.mul_nonneg_nonneg; [lia|apply Z.mul_nonneg_nonneg; lia]).
    assert (0 <= U * U) by (clear - U256; nia). lia.
Qed.
(* sign handling *)
Lemma w_abs x v : hw x v -> - 2 ^ (k - 1) < v < 2 ^ (k - 1) -> wp (s <- hal_msb k pr x ;; ng <- hal_prefer_a k pr s ;; nb <- hal_negate k pr x ;; ab <- hal_mux k pr ng nb x ;; ret (ng, ab))
  (fun r => holds (fst r) (if v <? 0 then 1 else 0) /\ hw (snd r) (Z.abs v)).
Proof.
  intros X V. apply wp_bind. eapply wp_mono; [eapply msbk; exact X|]. cbv beta. intros s [S0 _]. apply wp_bind.
  eapply wp_mono; [eapply pak; exact S0|]. cbv beta. intros ng [NG _]. rewrite (msb_sign k K1 (wrap k v) v) in NG; [|apply X|apply signed_of_range; lia].
  apply wp_bind. eapply wp_mono; [eapply w_neg; exact X|]. cbv beta. intros nb NB. apply wp_bind.
  eapply wp_mono; [eapply (muxk ng nb x _ _ _ NG); [apply if01|exact NB|exact X]|]. cbv beta. intros ab AB. apply wp_ret. split; [exact NG|]. cbn [snd].
  eapply heq; [exact AB|]. rewrite if01_eqb. destruct (Z.ltb_spec v 0); f_equal; lia.
Qed.
Lemma w_signed ng r q v : holds ng (if v <? 0 then 1 else 0) -> hw r q -> wp (nr <- hal_negate k pr r ;; hal_mux k pr ng nr r) (fun r' => hw r' (if v <? 0 then - q else q)).
Proof.
  intros NG R. apply wp_bind. eapply wp_mono; [eapply w_neg; exact R|]. cbv beta. intros nr NR.
  eapply wp_mono; [eapply (muxk ng nr r _ _ _ NG); [apply if01|exact NR|exact R]|]. cbv beta. intros r' R'. eapply heq; [exact R'|]. rewrite if01_eqb. now destruct (v <? 0).
Qed.
Lemma recip_ok iters x v : (0 < num_iters f iters)%nat -> 16 * (3 * Z.of_nat (num_iters f iters) + 1) <= U -> hw x v -> - 2 ^ (k - 1) < v < 2 ^ (k - 1) ->
  (v = 0 \/ 5 * (U * U * U) <= 2 ^ (k - 1) * Z.abs v) ->
  wp (reciprocal k pr fk others f iters x) (fun r => exists q, hw r q /\ - 2 ^ (k - 1) <= q < 2 ^ (k - 1) /\
    (v = 0 \/ 2 ^ (2 * f) <= Z.abs v -> Z.abs q <= 1) /\ (v <> 0 -> reciprocal_close (num_iters f iters) f v q)).
Proof.
  intros NI NB X V OV. unfold reciprocal. apply wp_bind. eapply wp_mono; [eapply msbk; exact X|]. cbv beta. intros s [S0 _]. apply wp_bind.
  eapply wp_mono; [eapply pak; exact S0|]. cbv beta. intros ng [NG _]. rewrite (msb_sign k K1 (wrap k v) v) in NG; [|apply X|apply signed_of_range; lia].
  apply wp_bind. eapply wp_mono; [eapply w_neg; exact X|]. cbv beta. intros nb N0. apply wp_bind.
  eapply wp_mono; [eapply (muxk ng nb x _ _ _ NG); [apply if01|exact N0|exact X]|]. cbv beta. intros ab AB. rewrite if01_eqb in AB.
  assert (AV : hw ab (Z.abs v)) by (eapply heq; [exact AB|]; destruct (Z.ltb_spec v 0); f_equal; lia). clear AB.
  apply wp_bind. eapply wp_mono; [eapply (recip_pos iters ab (Z.abs v) NI NB AV); lia|]. cbv beta. intros r (q & Q & QR & QZ & QC).
  eapply wp_mono; [eapply w_signed; [exact NG|exact Q]|]. cbv beta. intros r' R'. exists (if v <? 0 then - q else q). split; [exact R'|].
  split; [destruct (v <? 0); lia|]. split.
  - intros H. assert (q = 0 \/ q = 1) by (apply QZ; lia). destruct (v <? 0); lia.
  - intros NZ. specialize (QC ltac:(lia)). unfold rclose in QC. unfold reciprocal_close.
    replace (v * (if v <? 0 then - q else q)) with (Z.abs v * q); [exact QC|]. destruct (Z.ltb_spec v 0); [rewrite Z.abs_neq by lia|rewrite Z.abs_eq by lia]; ring.
Qed.
(* division; the hint on the sign of the numerator is passed on to every truncation of the quotient *)
Lemma div_core iters x y a v s : s <> Negative -> hint_true s a -> (0 < num_iters f iters)%nat -> 16 * (3 * Z.of_nat (num_iters f iters) + 1) <= U -> hw x a -> hw y v ->
  0 <= v < 2 ^ (k - 1) -> (0 < v < 2 ^ (2 * f) -> 5 * U * Z.abs a < 2 ^ (k - 1) /\ (5 * Z.abs a + 2) * (U * U) <= 2 ^ (k - 1) * v) ->
  wp (factor <- norm_factor k pr fk others f y ;; r <- normalized_approx k pr fk f iters y factor ;; ra <- f_mul k pr fk f r x s ;; f_mul k pr fk f ra factor s)
  (fun r => exists q, hw r q /\ - 2 ^ (k - 1) < q < 2 ^ (k - 1) /\
    (v = 0 \/ 2 ^ (2 * f) <= v -> q = 0 \/ q = 1) /\ (0 < v < 2 ^ (2 * f) -> quotient_close (num_iters f iters) f a v q)).
Proof.
  intros SN HA NI NB X Y V OV. pose proof (ph k K1) as PH. assert (HY : holds y v) by (apply hw_word; [exact Y|split; lia]). apply wp_bind.
  eapply wp_mono; [eapply (w_factor y v HY); lia|]. cbv beta. intros fac FA. apply of_holds in FA. pose proof (pow2_pos (k - 2) ltac:(lia)) as P2.
  assert (PK : 2 ^ (k - 1) = 2 * 2 ^ (k - 2)) by (rewrite <- Z.pow_succ_r by lia; f_equal; lia).
  assert (UB := U2_bound). assert (U1 : 256 * U <= U * U) by (clear - U256; nia).
  destruct (Z.lt_ge_cases v (2 ^ (2 * f))) as [L|G]; [destruct (Z.eq_dec v 0) as [E0|NZ]|].
  2:{ destruct (factor_norm v ltac:(lia) L) as (F0 & N1 & N2). set (fa := factor v) in *. destruct (OV ltac:(lia)) as [O1 O2]. apply wp_bind.
    eapply wp_mono; [eapply (norm_ok iters y fac v fa); eauto|]. cbv beta. intros r (q & c & Q & CN & FQ).
    pose proof (final_hi U U256 (v * fa) c N1 CN _ q FQ ltac:(lia) NB) as RH. pose proof FQ as [Q0 _].
    assert (QA : Z.abs (q * a) < 2 ^ (k - 2)).
    { rewrite Z.abs_mul, (Z.abs_eq q) by exact Q0. assert (2 * q * Z.abs a <= 5 * U * Z.abs a) by (apply Z.mul_le_mono_nonneg_r; lia). lia. }
    assert (HA1 : hint_true s (q * a)). { destruct s; cbn in *; [exact I|apply Z.mul_nonneg_nonneg; lia|congruence]. }
    apply wp_bind. eapply wp_mono; [eapply (w_fmul r x q a s Q X); [lia|exact HA1]|]. cbv beta. intros ra (r1 & R1 & N1' & S1 & _).
    assert (RB : 2 * Z.abs r1 <= 5 * Z.abs a + 2).
    { assert (TN : tnear U (r1 * fa) (r1 * fa / U)). { unfold tnear. pose proof (Z.div_mod (r1 * fa) U ltac:(lia)). pose proof (Z.mod_pos_bound (r1 * fa) U ltac:(lia)). lia. }
      exact (proj1 (div_final U U256 (v * fa) c N1 N2 CN _ q a v fa r1 _ FQ ltac:(lia) NB ltac:(lia) eq_refl N1' TN)). }
    assert (QF : Z.abs (r1 * fa) < 2 ^ (k - 2)).
    { rewrite Z.abs_mul, (Z.abs_eq fa) by lia. rewrite PK in O2. set (R := Z.abs r1) in *. assert (R0 : 0 <= R) by (unfold R; lia).
      destruct (Z.eq_dec R 0) as [->|RN]; [lia|]. set (H := 2 ^ (k - 2)) in *. set (A := Z.abs a) in *. clearbody H A R. revert O2 N2 RB. generalize (U * U). intros UU O2 N2 RB.
      apply (Z.mul_lt_mono_pos_r v); [lia|]. assert (R * (v * fa) < R * UU) by (apply Z.mul_lt_mono_pos_l; lia).
      assert (2 * R * UU <= (5 * A + 2) * UU) by (apply Z.mul_le_mono_nonneg_r; [clear - N2 F0 V; nia|lia]). nia. }
    assert (HA2 : hint_true s (r1 * fa)). { destruct s; cbn in *; [exact I|apply Z.mul_nonneg_nonneg; [apply S1; lia|lia]|congruence]. }
    eapply wp_mono; [eapply (w_fmul ra fac r1 fa s R1 FA); [lia|exact HA2]|]. cbv beta. intros r' (y' & Y' & YN & _ & YR).
    exists y'. split; [exact Y'|]. split; [|split; [lia|]].
    - split; [|lia]. unfold tnear in YN. apply Z.abs_le in YN. rewrite PK. set (M := r1 * fa) in *. clearbody M. clear - YN QF U256 P2.
      set (H := 2 ^ (k - 2)) in *. clearbody H. nia.
    - intros _. unfold quotient_close. rewrite (Z.abs_eq v) by lia.
      exact (proj2 (div_final U U256 (v * fa) c N1 N2 CN _ q a v fa r1 y' FQ ltac:(lia) NB ltac:(lia) eq_refl N1' YN)). }
  all: assert (Z0 : factor v = 0) by (first [now rewrite E0|now apply factor_big]); rewrite Z0 in FA; apply wp_bind.
  all: eapply wp_mono; [eapply (norm_any iters y fac); eauto|]; cbv beta; intros r (q & Q).
  all: apply wp_bind; eapply wp_mono; [eapply (w_fmul_any r x q a s Q X)|]; cbv beta; intros ra (r1 & R1).
  all: eapply wp_mono; [eapply (w_fmul ra fac r1 0 s R1 FA); rewrite Z.mul_0_r; [lia|destruct s; cbn; [exact I|lia|congruence]]|].
  all: cbv beta; rewrite Z.mul_0_r; intros r' (y' & Y' & YN & Y0 & YR).
  all: assert (Y1 : y' = 0 \/ y' = 1) by (apply zero_near; [exact YN|lia]); exists y'; split; [exact Y'|]; split; [lia|]; split; [auto|lia].
Qed.
Lemma wp_assoc4 {A B C D E} (m1 : M A) (m2 : A -> M B) (m3 : A -> B -> M C) (m4 : A -> B -> C -> M D) (m5 : D -> M E) (P : E -> Prop) :
  wp (d <- (a <- m1 ;; b <- m2 a ;; c <- m3 a b ;; m4 a b c) ;; m5 d) P -> wp (a <- m1 ;; b <- m2 a ;; c <- m3 a b ;; d <- m4 a b c ;; m5 d) P.
Proof using.
  clear - md. intros H t. specialize (H t). unfold bind in *.
  destruct (m1 t) as [[a ta]| |]; cbn in *; [|exact H..]. destruct (m2 a ta) as [[b tb]| |]; cbn in *; [|exact H..]. destruct (m3 a b tb) as [[c tc]| |]; cbn in *; exact H.
Qed.
Lemma w_divg iters x y a b sa sb : sa <> Negative -> hint_true sa a -> hint_true sb b -> (0 < num_iters f iters)%nat -> 16 * (3 * Z.of_nat (num_iters f iters) + 1) <= U ->
  hw x a -> hw y b -> - 2 ^ (k - 1) < b < 2 ^ (k - 1) ->
  (0 < Z.abs b < 2 ^ (2 * f) -> 5 * U * Z.abs a < 2 ^ (k - 1) /\ (5 * Z.abs a + 2) * (U * U) <= 2 ^ (k - 1) * Z.abs b) ->
  wp (div_general k pr fk others f iters x y sa sb) (fun r => exists q, hw r q /\ - 2 ^ (k - 1) <= q < 2 ^ (k - 1) /\
    (b = 0 \/ 2 ^ (2 * f) <= Z.abs b -> Z.abs q <= 1) /\ (0 < Z.abs b < 2 ^ (2 * f) -> quotient_close (num_iters f iters) f a b q)).
Proof.
  intros SN HA HB NI NB X Y V OV. unfold div_general. apply wp_bind.
  eapply wp_mono with (P := fun r => holds (fst r) (if b <? 0 then 1 else 0) /\ hw (snd r) (Z.abs b)).
  { destruct sb; cbn in HB.
    - now apply w_abs.
    - apply wp_ret. cbn [fst snd]. destruct (Z.ltb_spec b 0); [lia|]. rewrite Z.abs_eq by lia. split; [|exact Y].
      apply hw_word; [apply (hw_const 0)|]. pose proof (pow2_pos k). split; lia.
    - apply wp_bind. eapply wp_mono; [eapply w_neg; exact Y|]. cbv beta. intros nb N0. apply wp_ret. cbn [fst snd]. destruct (Z.ltb_spec b 0); [|lia].
      rewrite Z.abs_neq by lia. split; [|exact N0]. apply hw_word; [apply (hw_const 1)|]. assert (2 ^ 1 <= 2 ^ k) by (apply Z.pow_le_mono_r; lia). split; lia. }
  intros [ng ab] [NG AB]. cbn [fst snd] in NG, AB. apply wp_assoc4. apply wp_bind.
  eapply wp_mono; [eapply (div_core iters x ab a (Z.abs b) sa SN HA NI NB X AB); [lia|exact OV]|]. cbv beta. intros r (q & Q & QR & QZ & QC).
  eapply wp_mono; [eapply w_signed; [exact NG|exact Q]|]. cbv beta. intros r' R'. exists (if b <? 0 then - q else q). split; [exact R'|].
  split; [destruct (b <? 0); lia|]. split.
  - intros H. assert (q = 0 \/ q = 1) by (apply QZ; lia). destruct (b <? 0); lia.
  - intros NZ. specialize (QC NZ). unfold quotient_close in *. rewrite (Z.abs_eq (Z.abs b)) in QC by lia.
    replace (b * (if b <? 0 then - q else q)) with (Z.abs b * q); [exact QC|]. destruct (Z.ltb_spec b 0); [rewrite Z.abs_neq by lia|rewrite Z.abs_eq by lia]; ring.
Qed.
End Iter.
End Proof.
