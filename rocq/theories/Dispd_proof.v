(* Operations built from the dispatched ones. *)
From Verif Require Import Base Ring_model Ring_spec Ring_proof Semi_model Semi_proof Party Circ_proof Perm_proof Disp_model Disp_spec Disp_proof.
Open Scope Z_scope.

Section Proof.
Context {md : Mode} {HS : Shifts}.
Variable k : Z.
Hypothesis K1 : 1 < k.
Variable n : nat.
Variable pr : proto.
Variable isA : ash pr -> Z -> Prop.
Variable isB : bsh pr -> Z -> Prop.
Hypothesis HO : proto_ok k n pr isA isB.
Hypothesis wordA : forall a x, isA a x -> word k x.
Variable others : nat -> Z.
Hypothesis OT : forall t, 0 <= others t <= k.
Notation val := (val pr).
Notation holds := (holds k n pr isA isB).

Lemma holds_word x a : holds x a -> word k a. Proof. intros H. apply H. Qed.
Lemma holds_eq x a b : holds x a -> a = b -> holds x b. Proof. now intros H <-. Qed.
Lemma const_ok c : holds (const k pr c) (wrap k c).
Proof. split; [apply (word_wrap' k K1)|reflexivity]. Qed.
Lemma const1 : holds (const k pr 1) 1.
Proof.
  eapply holds_eq; [apply const_ok|]. apply wrap_small. assert (2 ^ 1 <= 2 ^ k) by (apply Z.pow_le_mono_r; lia). lia.
Qed.
Lemma const0 : holds (const k pr 0) 0.
Proof. eapply holds_eq; [apply const_ok|]. apply wrap_small. pose proof (pow2_pos k ltac:(lia)). lia. Qed.
Tactic Notation "use" constr(L) := cbv beta in *; eapply wp_mono; [eapply L; eauto|cbv beta].
Tactic Notation "step" constr(L) := apply wp_bind; use L; intros ?r [?H ?V].
Notation addk := (hal_add_ok k K1 n pr isA isB HO wordA).
Notation mulk := (hal_mul_ok k K1 n pr isA isB HO wordA others OT).
Notation andk := (hal_and_ok k K1 n pr isA isB HO wordA others OT).
Notation xork := (hal_xor_ok k K1 n pr isA isB HO wordA others OT).
Notation negk := (hal_negate_ok k K1 n pr isA isB HO wordA).
Notation msbk := (hal_msb_ok k K1 n pr isA isB HO wordA others OT).
Notation rshk := (hal_rshift_ok k K1 n pr isA isB HO wordA others OT).

Lemma hal_sub_ok x y a b : holds x a -> holds y b -> wp (hal_sub k pr x y) (fun r => holds r (wrap k (a - b))).
Proof.
  intros X Y. unfold hal_sub. step negk. use addk. intros r' [R _]. eapply holds_eq; [exact R|].
  rewrite wrap_add_r. f_equal.
Qed.
Lemma sub_plain x y t r t' : hal_sub k pr x y t = Ok (r, t') -> plain pr r.
Proof using. clear. intros H. apply bind_inv in H. destruct H as (u & t2 & H). exact (add_plain _ _ _ _ _ _ _ H). Qed.
Lemma or_bits a b : Z.lxor a (Z.lxor b (Z.land a b)) = Z.lor a b.
Proof.
  apply Z.bits_inj'. intros i _. rewrite !Z.lxor_spec, Z.land_spec, Z.lor_spec. destruct (Z.testbit a i), (Z.testbit b i); reflexivity.
Qed.
Lemma hal_or_ok x y a b : holds x a -> holds y b -> wp (hal_or pr others x y) (fun r => holds r (Z.lor a b)).
Proof.
  intros X Y. unfold hal_or. step andk. step xork. use xork. intros r' [R _]. eapply holds_eq; [exact R|]. apply or_bits.
Qed.
Lemma hal_less_raw x y a b : holds x a -> holds y b -> wp (hal_less k pr x y) (fun r => holds r (wrap k (a - b) / 2 ^ (k - 1))).
Proof.
  intros X Y. unfold hal_less. apply wp_bind. eapply wp_mono; [eapply wp_also; [eapply hal_sub_ok; eauto|exact (sub_plain x y)]|]. cbv beta. intros r [H PL].
  eapply wp_mono; [eapply (hal_msb_plain k K1 n pr isA isB HO wordA); eauto|]. cbv beta. intros r' [R _]. exact R.
Qed.
(* the top bit as a sign *)
Lemma msb_sign a v : word k a -> signed_value k a v -> a / 2 ^ (k - 1) = if v <? 0 then 1 else 0.
Proof using K1. clear - K1.
  intros [A B] [R [q E]]. assert (P : 2 ^ k = 2 * 2 ^ (k - 1)) by (apply pow2_half; lia). pose proof (pow2_pos (k - 1) ltac:(lia)).
  assert (Q : q = 0 \/ q = -1) by nia. destruct (Z.ltb_spec v 0).
  - symmetry. apply (Z.div_unique a (2 ^ (k - 1)) 1 (a - 2 ^ (k - 1))); [left|]; nia.
  - apply Z.div_small. nia.
Qed.
Lemma word_signed a : word k a -> exists v, signed_value k a v.
Proof. intros W. exists (sgn k a). apply signed_sgn; [lia|exact W]. Qed.
Lemma signed_diff a b u v : signed_value k a u -> signed_value k b v -> - 2 ^ (k - 1) <= u - v < 2 ^ (k - 1) -> signed_value k (wrap k (a - b)) (u - v).
Proof.
  intros [_ [q E]] [_ [q' E']] R. split; [exact R|]. subst u v. unfold wrap. exists (q - q' + (a - b) / 2 ^ k).
  pose proof (pow2_pos k ltac:(lia)). pose proof (Z.div_mod (a - b) (2 ^ k) ltac:(lia)). nia.
Qed.
Lemma hal_less_ok x y a b u v : holds x a -> holds y b -> signed_value k a u -> signed_value k b v -> - 2 ^ (k - 1) <= u - v < 2 ^ (k - 1) ->
  wp (hal_less k pr x y) (fun r => holds r (if u <? v then 1 else 0)).
Proof.
  intros X Y U V R. use hal_less_raw. intros r H. eapply holds_eq; [exact H|].
  rewrite (msb_sign _ (u - v)); [|apply (word_wrap' k K1)|now apply signed_diff].
  destruct (Z.ltb_spec u v), (Z.ltb_spec (u - v) 0); lia.
Qed.
Lemma hal_sign_ok x a v : holds x a -> signed_value k a v -> wp (hal_sign k pr x) (fun r => holds r (wrap k (if v <? 0 then -1 else 1))).
Proof.
  intros X V. unfold hal_sign. step msbk. apply wp_bind. eapply wp_mono; [eapply mulk; [apply const_ok|exact H]|]. intros m [M _].
  eapply wp_mono; [eapply hal_sub_ok; [apply const_ok|exact M]|]. intros r' R. eapply holds_eq; [exact R|].
  rewrite (msb_sign a v (holds_word _ _ X) V).
  match goal with |- wrap k ?u = wrap k ?w => change (eqm k u w) end. rewrite !eqm_wrap. apply eqm_of_eq. destruct (v <? 0); ring.
Qed.
Lemma hal_mux_ok p x y c a b : holds p c -> c = 0 \/ c = 1 -> holds x a -> holds y b -> wp (hal_mux k pr p x y) (fun r => holds r (if c =? 1 then a else b)).
Proof.
  intros P C X Y. unfold hal_mux. apply wp_bind. use hal_sub_ok. intros d D. step mulk. use addk. intros r' [R _].
  eapply holds_eq; [exact R|]. pose proof (holds_word _ _ X) as WX. pose proof (holds_word _ _ Y) as WY.
  transitivity (wrap k (if c =? 1 then a else b)); [|apply wrap_small; destruct (c =? 1); [exact WX|exact WY]].
  match goal with |- wrap k ?u = wrap k ?w => change (eqm k u w) end. rewrite !eqm_wrap. apply eqm_of_eq.
  destruct C as [-> | ->]; cbn [Z.eqb Pos.eqb]; ring.
Qed.
Lemma if01 (c : bool) : (if c then 1 else 0) = 0 \/ (if c then 1 else 0) = 1.
Proof. destruct c; auto. Qed.
Lemma if01_eqb (c : bool) : ((if c then 1 else 0) =? 1) = c.
Proof. destruct c; reflexivity. Qed.
Lemma hal_clamp_lower_ok x y a b u v : holds x a -> holds y b -> signed_value k a u -> signed_value k b v -> - 2 ^ (k - 1) <= u - v < 2 ^ (k - 1) ->
  wp (hal_clamp_lower k pr x y) (fun r => holds r (if u <? v then b else a)).
Proof.
  intros X Y U V R. unfold hal_clamp_lower. apply wp_bind. use hal_less_ok. intros l L.
  eapply wp_mono; [eapply hal_mux_ok; [exact L|apply if01|exact Y|exact X]|]. intros r H. rewrite if01_eqb in H. exact H.
Qed.
Lemma hal_clamp_upper_ok x y a b u v : holds x a -> holds y b -> signed_value k a u -> signed_value k b v -> - 2 ^ (k - 1) <= u - v < 2 ^ (k - 1) ->
  wp (hal_clamp_upper k pr x y) (fun r => holds r (if u <? v then a else b)).
Proof.
  intros X Y U V R. unfold hal_clamp_upper. apply wp_bind. use hal_less_ok. intros l L.
  eapply wp_mono; [eapply hal_mux_ok; [exact L|apply if01|exact X|exact Y]|]. intros r H. rewrite if01_eqb in H. exact H.
Qed.
Lemma hal_clamp_ok x y z a b c u v w : holds x a -> holds y b -> holds z c -> signed_value k a u -> signed_value k b v -> signed_value k c w ->
  - 2 ^ (k - 1) <= u - v < 2 ^ (k - 1) -> - 2 ^ (k - 1) <= Z.max u v - w < 2 ^ (k - 1) ->
  wp (hal_clamp k pr x y z) (fun r => exists d, holds r d /\ signed_value k d (Z.min (Z.max u v) w)).
Proof.
  intros X Y Z0 U V W R R'. unfold hal_clamp. apply wp_bind. use hal_clamp_lower_ok. intros l L.
  assert (S0 : signed_value k (if u <? v then b else a) (Z.max u v)).
  { destruct (Z.ltb_spec u v); [rewrite Z.max_r by lia|rewrite Z.max_l by lia]; assumption. }
  eapply wp_mono; [eapply (hal_clamp_upper_ok _ _ _ _ _ _ L Z0 S0 W R')|]. intros r H. eexists; split; [exact H|].
  destruct (Z.ltb_spec (Z.max u v) w); [rewrite Z.min_l by lia|rewrite Z.min_r by lia]; assumption.
Qed.

(* ---- equality ---- *)
Lemma bit_val a : word k a -> a / 2 ^ (k - 1) = 0 \/ a / 2 ^ (k - 1) = 1.
Proof.
  intros W. destruct (word_signed a W) as [v V]. rewrite (msb_sign a v W V). apply if01.
Qed.
Lemma neither a b : word k a -> word k b ->
  Z.land (Z.lxor (wrap k (a - b) / 2 ^ (k - 1)) 1) (Z.lxor (wrap k (b - a) / 2 ^ (k - 1)) 1) = if a =? b then 1 else 0.
Proof.
  intros [A A'] [B B']. pose proof (pow2_pos k ltac:(lia)) as P. pose proof (pow2_pos (k - 1) ltac:(lia)) as P1.
  assert (E : 2 ^ k = 2 * 2 ^ (k - 1)) by (apply pow2_half; lia).
  destruct (Z.eqb_spec a b) as [->|N].
  - rewrite Z.sub_diag. unfold wrap. rewrite Z.mod_0_l by lia. rewrite Z.div_0_l by lia. reflexivity.
  - destruct (bit_val (wrap k (a - b)) (word_wrap' k K1 _)) as [D|D]; rewrite D; [|reflexivity].
    destruct (bit_val (wrap k (b - a)) (word_wrap' k K1 _)) as [D'|D']; rewrite D'; [|reflexivity].
    exfalso. assert (S0 : wrap k (a - b) + wrap k (b - a) = 2 ^ k).
    { unfold wrap. replace (b - a) with (- (a - b)) by ring. rewrite Z_mod_nz_opp_full; [ring|].
      intros Z0. apply Z.mod_divide in Z0; [|lia]. destruct Z0 as [q Q]. assert (q = 0) by nia. lia. }
    pose proof (word_wrap' k K1 (a - b)) as [W1 W2]. pose proof (word_wrap' k K1 (b - a)) as [W3 W4].
    pose proof (Z.div_mod (wrap k (a - b)) (2 ^ (k - 1)) ltac:(lia)). pose proof (Z.mod_pos_bound (wrap k (a - b)) (2 ^ (k - 1)) P1).
    pose proof (Z.div_mod (wrap k (b - a)) (2 ^ (k - 1)) ltac:(lia)). pose proof (Z.mod_pos_bound (wrap k (b - a)) (2 ^ (k - 1)) P1). lia.
Qed.
Lemma one_word c : word k (if c : bool then 1 else 0).
Proof. assert (2 ^ 1 <= 2 ^ k) by (apply Z.pow_le_mono_r; lia). destruct c; split; lia. Qed.
Lemma hal_equal_ok x y a b : holds x a -> holds y b -> wp (hal_equal k pr others x y) (fun r => holds r (if a =? b then 1 else 0)).
Proof.
  intros X Y. unfold hal_equal.
  assert (G : wp (bind (hal_less k pr x y) (fun l => bind (hal_xor pr others l (const k pr 1)) (fun nl =>
      bind (hal_less k pr y x) (fun g => bind (hal_xor pr others g (const k pr 1)) (fun ng => hal_and pr others nl ng)))))
      (fun r => holds r (if a =? b then 1 else 0))).
  { apply wp_bind. use hal_less_raw. intros l L. apply wp_bind. eapply wp_mono; [eapply xork; [exact L|apply const1]|]. intros nl [NL _].
    apply wp_bind. eapply wp_mono; [eapply (hal_less_raw _ _ _ _ Y X)|]. intros g G. apply wp_bind.
    eapply wp_mono; [eapply xork; [exact G|apply const1]|]. intros ng [NG _]. use andk. intros r [R _]. eapply holds_eq; [exact R|].
    apply neither; eapply holds_word; eauto. }
  assert (BO : forall f c, (forall t, gives isB (f t) (if c : bool then 1 else 0)) -> wp (bop pr f VB) (fun r => holds r (if c then 1 else 0))).
  { intros f c H. apply wp_bop. intros t. eapply outcome_mono; [exact (H t)|]. intros s q. split; [apply one_word|exact q]. }
  pose proof (holds_word _ _ X) as WX. pose proof (holds_word _ _ Y) as WY.
  destruct x as [p|o f|xa|xb]; destruct y as [q|o' g|ya|yb]; cbn [equal_impl equal_sp equal_ss]; try exact G.
  - apply wp_ret. destruct X as [_ <-], Y as [_ <-]. split; [apply one_word|reflexivity].
  - destruct (k_equal_ap pr) as [m|] eqn:E; [|exact G]. apply BO. intros t. destruct X as [_ <-]. rewrite Z.eqb_sym.
    apply (ok_eq_ap _ _ _ _ _ HO m E); [apply Y|exact WX].
  - destruct (k_equal_ap pr) as [m|] eqn:E; [|exact G]. apply BO. intros t. destruct Y as [_ <-].
    apply (ok_eq_ap _ _ _ _ _ HO m E); [apply X|exact WY].
  - destruct (k_equal_aa pr) as [m|] eqn:E; [|exact G]. apply BO. intros t. rewrite Z.eqb_sym.
    apply (ok_eq_aa _ _ _ _ _ HO m E); [apply Y|apply X].
  - destruct (k_equal_aa pr) as [m|] eqn:E; [|exact G]. apply wp_bind. eapply wp_mono; [eapply (to_a_ok k n pr isA isB HO (VB yb)); [exact Y|exact I]|].
    intros s1 H1. apply wp_bind. eapply wp_mono; [eapply (to_a_ok k n pr isA isB HO (VA xa)); [exact X|exact I]|]. intros s2 H2.
    apply BO. intros t. rewrite Z.eqb_sym. now apply (ok_eq_aa _ _ _ _ _ HO m E).
  - destruct (k_equal_aa pr) as [m|] eqn:E; [|exact G]. apply wp_bind. eapply wp_mono; [eapply (to_a_ok k n pr isA isB HO (VA ya)); [exact Y|exact I]|].
    intros s1 H1. apply wp_bind. eapply wp_mono; [eapply (to_a_ok k n pr isA isB HO (VB xb)); [exact X|exact I]|]. intros s2 H2.
    apply BO. intros t. rewrite Z.eqb_sym. now apply (ok_eq_aa _ _ _ _ _ HO m E).
Qed.

(* ---- preferences ---- *)
Lemma hal_prefer_a_ok x a : holds x a -> wp (hal_prefer_a k pr x) (fun r => holds r a /\ forall b, r <> VB b).
Proof.
  intros X. destruct x as [p|o f|s|s]; cbn [hal_prefer_a]; try (apply wp_ret; split; [exact X|discriminate]).
  unfold hal_add, const. cbn [commutative]. unfold add_sp. apply wp_bind.
  eapply wp_mono; [eapply (to_a_ok k n pr isA isB HO (VB s)); [exact X|exact I]|]. intros sa H. apply wp_bop. intros t.
  eapply outcome_mono; [exact (ok_add_ap _ _ _ _ _ HO t sa a (wrap k 0) H (word_wrap' k K1 0))|]. intros r q. cbv beta in q.
  split; [|discriminate]. split; [apply X|]. rewrite wrap_add_r, Z.add_0_r, wrap_small in q by apply X. exact q.
Qed.
Lemma hal_prefer_b_ok x a : holds x a -> wp (hal_prefer_b k pr others x) (fun r => holds r a /\ (forall b, r <> VA b) /\ same_vis pr x r).
Proof.
  intros X. destruct x as [p|o f|s|s]; cbn [hal_prefer_b]; try (apply wp_ret; split; [exact X|split; [discriminate|cbn; auto]]).
  unfold hal_xor, const. cbn [commutative]. unfold xor_sp. apply wp_bind.
  eapply wp_mono; [eapply (to_b_ok k n pr isA isB HO (VA s)); [exact X|exact I]|]. intros sa H. apply wp_bop. intros t.
  destruct (pwidth_ok k K1 others OT t (wrap k 0) (word_wrap' k K1 0)) as [P1 P2].
  eapply outcome_mono; [exact (ok_xor_bp _ _ _ _ _ HO t sa a _ (wrap k 0) H (word_wrap' k K1 0) P1 P2)|]. intros r q. cbv beta in q.
  split; [|split; [discriminate|exact I]]. split; [apply X|].
  replace (wrap k 0) with 0 in q by (symmetry; apply wrap_small; pose proof (pow2_pos k ltac:(lia)); lia).
  rewrite Z.lxor_0_r in q. exact q.
Qed.

(* ---- bit parity ---- *)
Fixpoint xor_low (m : nat) (x : Z) : bool := match m with O => false | S m' => xorb (xor_low m' x) (Z.testbit x (Z.of_nat m')) end.
Lemma xor_low_count m x : xor_low m x = Z.odd (bit_count m x).
Proof.
  induction m as [|m IH]; [reflexivity|]. cbn [xor_low bit_count]. rewrite Z.odd_add, IH. destruct (Z.testbit x (Z.of_nat m)); reflexivity.
Qed.
Lemma xor_low_app m p x : xor_low (m + p) x = xorb (xor_low m x) (xor_low p (x / 2 ^ Z.of_nat m)).
Proof.
  induction p as [|p IH]; [rewrite Nat.add_0_r; cbn; now rewrite xorb_false_r|].
  rewrite Nat.add_succ_r. cbn [xor_low]. rewrite IH, xorb_assoc. do 2 f_equal.
  rewrite <- Z.shiftr_div_pow2, Z.shiftr_spec by lia. f_equal. lia.
Qed.
Lemma xor_low_xor m x y : xor_low m (Z.lxor x y) = xorb (xor_low m x) (xor_low m y).
Proof.
  induction m as [|m IH]; [reflexivity|]. cbn [xor_low]. rewrite IH, Z.lxor_spec.
  destruct (xor_low m x), (xor_low m y), (Z.testbit x (Z.of_nat m)), (Z.testbit y (Z.of_nat m)); reflexivity.
Qed.
Lemma parity_loop_ok m : forall x a, holds x a -> 2 ^ Z.of_nat m <= k ->
  wp (parity_loop pr others m x) (fun r => exists b, holds r b /\ Z.testbit b 0 = xor_low (2 ^ m)%nat a).
Proof.
  induction m as [|m IH]; intros x a X L.
  - apply wp_ret. exists a. split; [exact X|]. change (2 ^ 0)%nat with 1%nat. cbn [xor_low]. change (Z.of_nat 0) with 0. now destruct (Z.testbit a 0).
  - cbn [parity_loop]. assert (P : 2 ^ Z.of_nat (S m) = 2 * 2 ^ Z.of_nat m) by (rewrite Nat2Z.inj_succ; apply Z.pow_succ_r; lia).
    assert (0 < 2 ^ Z.of_nat m) by (apply pow2_pos; lia).
    apply wp_bind. eapply wp_mono; [eapply (rshk x a (2 ^ Z.of_nat m) X); lia|]. intros s [H1 V]. step xork.
    eapply wp_mono; [eapply IH; [exact H0|lia]|]. intros r' [b [B E]]. exists b. split; [exact B|]. rewrite E, xor_low_xor.
    replace (2 ^ S m)%nat with (2 ^ m + 2 ^ m)%nat by (cbn; lia). rewrite xor_low_app. do 4 f_equal. rewrite Nat2Z.inj_pow. reflexivity.
Qed.
Lemma hal_bit_parity_ok m x a : holds x a -> 2 ^ Z.of_nat m <= k ->
  wp (hal_bit_parity k pr others m x) (fun r => holds r (if Z.odd (bit_count (2 ^ m) a) then 1 else 0)).
Proof.
  intros X L. unfold hal_bit_parity. apply wp_bind. use hal_prefer_b_ok. intros b [B _]. apply wp_bind.
  eapply wp_mono; [eapply parity_loop_ok; eauto|]. intros r [c [C E]]. eapply wp_mono; [eapply andk; [exact C|apply const1]|].
  intros r' [R _]. eapply holds_eq; [exact R|]. rewrite <- xor_low_count, <- E. change (Z.land c 1) with (Z.land c (Z.ones 1)).
  rewrite Z.land_ones by lia. change (2 ^ 1) with 2. rewrite Z.bit0_odd. apply Zmod_odd.
Qed.

(* ---- prefix or ---- *)
Definition near (a b : Z) (d : Z) : Prop := forall i, 0 <= i -> Z.testbit b i = true <-> exists j, i <= j < i + d /\ Z.testbit a j = true.
Lemma prefix_or_loop_ok a m : forall idx x b, holds x b -> near a b (2 ^ Z.of_nat idx) -> 2 ^ Z.of_nat (idx + m) <= k ->
  wp (prefix_or_loop pr others m idx x) (fun r => exists c, holds r c /\ near a c (2 ^ Z.of_nat (idx + m))).
Proof.
  induction m as [|m IH]; intros idx x b X N L.
  - apply wp_ret. exists b. rewrite Nat.add_0_r. now split.
  - cbn [prefix_or_loop]. assert (P : 2 ^ Z.of_nat (S idx) = 2 * 2 ^ Z.of_nat idx) by (rewrite Nat2Z.inj_succ; apply Z.pow_succ_r; lia).
    assert (P0 : 0 < 2 ^ Z.of_nat idx) by (apply pow2_pos; lia).
    assert (L' : 2 ^ Z.of_nat (S idx) <= k) by (apply Z.le_trans with (2 ^ Z.of_nat (idx + S m)); [apply Z.pow_le_mono_r; lia|exact L]).
    apply wp_bind. eapply wp_mono; [eapply (rshk x b (2 ^ Z.of_nat idx) X); lia|]. intros s [H1 V]. apply wp_bind.
    eapply wp_mono; [eapply hal_or_ok; [exact X|exact H1]|]. intros y Y. rewrite <- Nat.add_succ_comm in *.
    apply (IH (S idx) y _ Y); [|exact L]. intros i I0. rewrite Z.lor_spec, orb_true_iff, <- Z.shiftr_div_pow2, Z.shiftr_spec by lia.
    rewrite (N i I0), (N (i + 2 ^ Z.of_nat idx)) by lia. rewrite P. split.
    + intros [(j & J & T) | (j & J & T)]; exists j; (split; [lia|exact T]).
    + intros (j & J & T). destruct (Z.lt_ge_cases j (i + 2 ^ Z.of_nat idx)); [left|right]; exists j; (split; [lia|exact T]).
Qed.
Lemma high_bit a i : word k a -> k <= i -> Z.testbit a i = false.
Proof. intros [A B] I0. rewrite <- (Z.mod_small a (2 ^ k)) by lia. apply Z.mod_pow2_bits_high. lia. Qed.
Lemma hal_prefix_or_ok w x a : k = 2 ^ Z.of_nat w -> holds x a -> wp (hal_prefix_or k pr others x) (fun r => exists b, holds r b /\ filled a b).
Proof.
  intros KW X. unfold hal_prefix_or. apply wp_bind. use hal_prefer_b_ok. intros b [B _].
  replace (Z.to_nat (Z.log2 k)) with w by (rewrite KW, Z.log2_pow2 by lia; lia).
  eapply wp_mono; [eapply (prefix_or_loop_ok a w 0 b a B)|].
  - intros i I0. change (2 ^ Z.of_nat 0) with 1. split; [intros T; exists i; split; [lia|exact T]|]. intros (j & J & T). replace i with j by lia. exact T.
  - cbn [Nat.add]. lia.
  - intros r [c [C N]]. exists c. split; [exact C|]. intros i I0. rewrite (N i I0). cbn [Nat.add]. rewrite <- KW. split.
    + intros (j & J & T). exists j. split; [lia|exact T].
    + intros (j & J & T). exists j. split; [|exact T]. split; [exact J|]. destruct (Z.lt_ge_cases j k); [lia|].
      rewrite high_bit in T; [discriminate|eapply holds_word; exact X|lia].
Qed.
Lemma setnb1_ok x a : holds x a -> 0 <= a <= 1 -> holds (setnb1 pr x) a.
Proof.
  intros X R. destruct x as [p|o f|s|s]; try exact X. destruct X as [W X]. split; [exact W|].
  apply (ok_setnb _ _ _ _ _ HO); [exact X|lia].
Qed.
Lemma hal_eqz_ok w x a : k = 2 ^ Z.of_nat w -> holds x a -> wp (hal_eqz k pr others x) (fun r => holds r (if a =? 0 then 1 else 0)).
Proof.
  intros KW X. unfold hal_eqz. apply wp_bind. use hal_prefix_or_ok. intros p [b [B F]]. apply wp_bind.
  eapply wp_mono; [eapply andk; [exact B|apply const1]|]. intros c [C _]. apply wp_bind.
  eapply wp_mono; [eapply xork; [exact C|apply const1]|]. intros d [D _]. apply wp_ret.
  assert (E : Z.lxor (Z.land b 1) 1 = if a =? 0 then 1 else 0).
  { change (Z.land b 1) with (Z.land b (Z.ones 1)). rewrite Z.land_ones by lia. change (2 ^ 1) with 2. rewrite Zmod_odd, <- Z.bit0_odd.
    destruct (Z.eqb_spec a 0) as [->|N].
    - destruct (Z.testbit b 0) eqn:T; [|reflexivity]. apply (F 0 ltac:(lia)) in T. destruct T as (j & _ & T). now rewrite Z.bits_0 in T.
    - replace (Z.testbit b 0) with true; [reflexivity|]. symmetry. apply (F 0 ltac:(lia)).
      exists (Z.log2 a). destruct (holds_word _ _ X). split; [apply Z.log2_nonneg|]. apply Z.bit_log2. lia. }
  apply setnb1_ok; [eapply holds_eq; [exact D|exact E]|]. destruct (a =? 0); lia.
Qed.

(* ---- population count ---- *)
Section Reduce.
Variable T : val -> Prop.
Hypothesis TS : forall x y, T x -> T y -> same_type pr x y = true.
Hypothesis TA : forall x y a b, T x -> T y -> holds x a -> holds y b -> wp (hal_add k pr x y) (fun r => holds r (wrap k (a + b)) /\ T r).
Lemma pack_T l : Forall T l -> packable pr l = true.
Proof.
  intros F. destruct l as [|x r]; [reflexivity|]. cbn. apply forallb_forall. intros y I. inversion F; subst. apply TS; [assumption|].
  rewrite Forall_forall in H2. now apply H2.
Qed.
Lemma mapM_add : forall l1 l2 a1 a2, Forall2 holds l1 a1 -> Forall2 holds l2 a2 -> Forall T l1 -> Forall T l2 -> length l1 = length l2 ->
  wp (mapM (fun '(x, y) => hal_add k pr x y) (combine l1 l2)) (fun r => Forall T r /\ length r = length l1 /\
     exists c, Forall2 holds r c /\ eqm k (sumZ c) (sumZ a1 + sumZ a2)).
Proof.
  intros l1 l2 a1 a2 F1. revert l2 a2. induction F1 as [|x a l1 a1 X F1 IH]; intros l2 a2 F2 T1 T2 E.
  - destruct l2; [|discriminate]. inversion F2; subst. apply wp_ret. split; [constructor|]. split; [reflexivity|]. exists []. split; [constructor|]. reflexivity.
  - destruct l2 as [|y l2]; [discriminate|]. inversion F2 as [|? b ? a2' Y F2']; subst. inversion T1; subst. inversion T2; subst.
    cbn [combine mapM]. apply wp_bind. eapply wp_mono; [eapply (TA x y a b); assumption|]. intros r [R TR]. apply wp_bind.
    eapply wp_mono; [eapply (IH l2 a2'); auto|]. intros rs (FT & LE & c & FC & EC). apply wp_ret.
    split; [now constructor|]. split; [cbn; now rewrite LE|]. exists (wrap k (a + b) :: c). split; [now constructor|].
    cbn [sumZ]. rewrite EC, eqm_wrap. apply eqm_of_eq. ring.
Qed.
Lemma F2_app_split : forall l1 l2 a, Forall2 holds (l1 ++ l2) a -> exists a1 a2, a = a1 ++ a2 /\ Forall2 holds l1 a1 /\ Forall2 holds l2 a2.
Proof.
  induction l1 as [|x l1 IH]; intros l2 a F; [exists [], a; repeat split; [constructor|exact F]|].
  inversion F as [|? b ? a' X F']; subst. destruct (IH l2 a' F') as (a1 & a2 & -> & G1 & G2). exists (b :: a1), a2. repeat split; [|exact G2]. now constructor.
Qed.
Lemma vreduce_ok : forall fuel xs a, Forall2 holds xs a -> Forall T xs -> xs <> [] -> (length xs <= S fuel)%nat ->
  wp (vreduce_add k pr fuel xs) (fun r => holds r (wrap k (sumZ a)) /\ T r).
Proof.
  induction fuel as [|fuel IH]; intros xs a F FT NE L.
  - destruct xs as [|x [|y r]]; [contradiction| |cbn in L; lia]. inversion F as [|? b ? ? X F']; subst. inversion F'; subst. cbn [vreduce_add].
    apply wp_ret. inversion FT; subst. split; [|assumption]. cbn [sumZ]. rewrite Z.add_0_r, wrap_small; [exact X|]. now apply holds_word in X.
  - destruct xs as [|x [|y r]]; [contradiction| |].
    { inversion F as [|? b ? ? X F']; subst. inversion F'; subst. cbn [vreduce_add].
      apply wp_ret. inversion FT; subst. split; [|assumption]. cbn [sumZ]. rewrite Z.add_0_r, wrap_small; [exact X|]. now apply holds_word in X. }
    set (xs := x :: y :: r) in *. assert (LL : (2 <= length xs)%nat) by (cbn; lia).
    change (wp (let half := (length xs / 2)%nat in
          let ls := firstn half xs in
          let rs := firstn half (skipn half xs) in
          if packable pr ls && packable pr rs then
            bind (mapM (fun '(x, y) => hal_add k pr x y) (combine ls rs)) (fun next =>
            vreduce_add k pr fuel (next ++ (if (length xs mod 2 =? 1)%nat then skipn (length xs - 1) xs else [])))
          else fail) (fun r => holds r (wrap k (sumZ a)) /\ T r)).
    clearbody xs. clear x y r. cbv zeta. set (h := (length xs / 2)%nat).
    assert (HD : (length xs = 2 * h + length xs mod 2 /\ length xs mod 2 <= 1 /\ 1 <= h)%nat).
    { pose proof (Nat.div_mod (length xs) 2 ltac:(lia)). pose proof (Nat.mod_upper_bound (length xs) 2 ltac:(lia)). unfold h. split; [lia|]. split; [lia|].
      apply (Nat.div_le_lower_bound (length xs) 2 1); lia. }
    set (tl := if (length xs mod 2 =? 1)%nat then skipn (length xs - 1) xs else []).
    assert (SP : xs = firstn h xs ++ firstn h (skipn h xs) ++ tl).
    { rewrite <- (firstn_skipn h xs) at 1. f_equal. rewrite <- (firstn_skipn h (skipn h xs)) at 1. f_equal. rewrite skipn_skipn'. unfold tl.
      destruct (Nat.eqb_spec (length xs mod 2) 1) as [E|E].
      - f_equal. lia.
      - apply skipn_all2. lia. }
    assert (LT : (length tl <= 1)%nat).
    { unfold tl. destruct (length xs mod 2 =? 1)%nat; [rewrite skipn_length; lia|cbn; lia]. }
    set (ls := firstn h xs) in *. set (rs := firstn h (skipn h xs)) in *.
    assert (LS : length ls = h) by (unfold ls; rewrite firstn_length; lia).
    assert (LR : length rs = h) by (unfold rs; rewrite firstn_length, skipn_length; lia).
    assert (LX : (length xs = h + h + length tl)%nat) by (rewrite SP, !app_length; lia).
    clearbody ls rs tl h. rewrite SP in F, FT. apply F2_app_split in F. destruct F as (a1 & a23 & -> & F1 & F23).
    apply F2_app_split in F23. destruct F23 as (a2 & a3 & -> & F2 & F3).
    apply Forall_app in FT. destruct FT as [T1 T23]. apply Forall_app in T23. destruct T23 as [T2 T3].
    rewrite (pack_T ls T1), (pack_T rs T2). cbn [andb]. apply wp_bind. eapply wp_mono; [eapply (mapM_add ls rs a1 a2); auto; lia|].
    intros nx (TN & LN & c & FC & EC). eapply wp_mono; [eapply (IH (nx ++ tl) (c ++ a3))|].
    + now apply Forall2_app.
    + now apply Forall_app.
    + destruct nx; [cbn in LN; lia|discriminate].
    + rewrite app_length. lia.
    + intros r [R TR]. split; [|exact TR]. eapply holds_eq; [exact R|]. change (eqm k (sumZ (c ++ a3)) (sumZ (a1 ++ a2 ++ a3))).
      rewrite !sumZ_app, EC. apply eqm_of_eq. ring.
Qed.
End Reduce.

Lemma F2_length l a : Forall2 holds l a -> length l = length a.
Proof. induction 1; cbn [length]; congruence. Qed.
Definition bits_of (m : nat) (a : Z) : list Z := map (fun i => if Z.testbit a (Z.of_nat i) then 1 else 0) (seq 0 m).
Lemma bits_of_sum m a : sumZ (bits_of m a) = bit_count m a.
Proof.
  induction m as [|m IH]; [reflexivity|]. unfold bits_of in *. rewrite seq_S, map_app, sumZ_app, IH. cbn [map sumZ bit_count Nat.add]. lia.
Qed.
Lemma bit_count_bound m a : 0 <= bit_count m a <= Z.of_nat m.
Proof. induction m as [|m IH]; cbn [bit_count]; [lia|]. destruct (Z.testbit a (Z.of_nat m)); lia. Qed.
Lemma shift_bit a i : 0 <= i -> Z.land (a / 2 ^ i) 1 = if Z.testbit a i then 1 else 0.
Proof.
  intros I0. change (Z.land (a / 2 ^ i) 1) with (Z.land (a / 2 ^ i) (Z.ones 1)). rewrite Z.land_ones by lia. change (2 ^ 1) with 2. rewrite Zmod_odd, <- Z.bit0_odd.
  rewrite <- Z.shiftr_div_pow2, Z.shiftr_spec by lia. rewrite Z.add_0_l. reflexivity.
Qed.
(* visibility class of the bits *)
Definition bit_type (x : val) (r : val) : Prop :=
  match x with
  | VP _ => exists p, r = VP p
  | VV o _ => exists g, r = VV o g
  | _ => exists b, r = VB b /\ k_nb pr b = 1
  end.
Lemma pop_bit_ok x a i : holds x a -> (forall s, x <> VA s) -> (Z.of_nat i < k) ->
  wp (pop_bit k pr others x i) (fun r => holds r (if Z.testbit a (Z.of_nat i) then 1 else 0) /\ bit_type x r).
Proof.
  intros X NA I0. pose proof (shift_bit a (Z.of_nat i) ltac:(lia)) as E. destruct x as [p|o f|s|s].
  - cbn [pop_bit hal_rshift]. unfold pop_bit. cbn [hal_rshift]. apply wp_bind, wp_ret. unfold hal_and, const. cbn [commutative]. apply wp_bind, wp_ret, wp_ret.
    cbn [setnb1]. destruct X as [W <-]. split; [|eexists; reflexivity]. split; [apply one_word|]. unfold rand_, rshr.
    rewrite (wrap_small k 1) by apply (one_word true). exact E.
  - unfold pop_bit. cbn [hal_rshift]. apply wp_bind, wp_ret. unfold hal_and, const, v_un. cbn [commutative]. apply wp_bind, wp_ret, wp_ret.
    destruct X as [W [O F]]. split; [|eexists; reflexivity]. split; [apply one_word|]. split; [exact O|]. cbn [setnb1]. rewrite Nat.eqb_refl, F. unfold rand_, rshr.
    rewrite (wrap_small k 1) by apply (one_word true). exact E.
  - exfalso. now apply (NA s).
  - unfold pop_bit. cbn [hal_rshift]. unfold rshift_s. cbn [to_b]. apply wp_bind. apply wp_bind, wp_ret. apply wp_bop. intros t.
    eapply outcome_mono; [apply (ok_rshift_b _ _ _ _ _ HO can_shift t s a (Z.of_nat i)); [apply X|lia]|]. intros s1 H1. cbv beta in H1.
    unfold hal_and, const. cbn [commutative]. unfold and_sp. cbn [to_b]. apply wp_bind. apply wp_bind, wp_ret. apply wp_bop. intros t'.
    destruct (pwidth_ok k K1 others OT t' (wrap k 1) (word_wrap' k K1 1)) as [P1 P2].
    eapply outcome_mono; [exact (ok_and_bp _ _ _ _ _ HO t' s1 _ _ (wrap k 1) H1 (word_wrap' k K1 1) P1 P2)|]. intros s2 H2. cbv beta in H2.
    apply wp_ret. cbn [setnb1]. rewrite (wrap_small k 1) in H2 by apply (one_word true). rewrite E in H2.
    assert (S2 : isB (k_setnb pr s2 1) (if Z.testbit a (Z.of_nat i) then 1 else 0) /\ k_nb pr (k_setnb pr s2 1) = 1).
    { apply (ok_setnb _ _ _ _ _ HO); [exact H2|destruct (Z.testbit _ _); lia]. }
    split; [split; [apply one_word|apply S2]|]. eexists. split; [reflexivity|apply S2].
Qed.
Lemma mapM_pop x a : holds x a -> (forall s, x <> VA s) -> forall m, Z.of_nat m <= k ->
  forall l, Forall (fun i => Z.of_nat i < k) l ->
  wp (mapM (pop_bit k pr others x) l) (fun r => Forall2 holds r (map (fun i => if Z.testbit a (Z.of_nat i) then 1 else 0) l) /\ Forall (bit_type x) r).
Proof.
  intros X NA m L. induction l as [|i l IH]; intros F; [apply wp_ret; split; constructor|]. inversion F; subst. cbn [mapM map].
  apply wp_bind. use pop_bit_ok. intros r [R T]. apply wp_bind. eapply wp_mono; [now apply IH|]. intros rs [RS TS]. apply wp_ret.
  split; constructor; assumption.
Qed.
Lemma add_bits_mapM : forall l1 l2 a1 a2, Forall2 holds l1 a1 -> Forall2 holds l2 a2 ->
  Forall (fun x => exists b, x = VB b /\ k_nb pr b = 1) l1 -> Forall (fun x => exists b, x = VB b /\ k_nb pr b = 1) l2 -> length l1 = length l2 ->
  wp (mapM (fun '(x, y) => hal_add k pr x y) (combine l1 l2)) (fun r => Forall (fun x => exists s, x = VA s) r /\ length r = length l1 /\
     exists c, Forall2 holds r c /\ eqm k (sumZ c) (sumZ a1 + sumZ a2)).
Proof.
  intros l1 l2 a1 a2 F1. revert l2 a2. induction F1 as [|x a l1 a1 X F1 IH]; intros l2 a2 F2 T1 T2 E.
  - destruct l2; [|discriminate]. inversion F2; subst. apply wp_ret. split; [constructor|]. split; [reflexivity|]. exists []. split; [constructor|]. reflexivity.
  - destruct l2 as [|y l2]; [discriminate|]. inversion F2 as [|? b ? a2' Y F2']; subst. inversion T1 as [|? ? TX T1']; subst. inversion T2 as [|? ? TY T2']; subst.
    destruct TX as (bx & -> & _), TY as (by_ & -> & _).
    cbn [combine mapM]. apply wp_bind. unfold hal_add at 1. cbn [commutative].
    eapply wp_mono; [eapply (add_ss_ok k n pr isA isB HO wordA (VB by_) (VB bx)); [exact Y|exact X|exact I|exact I]|].
    intros r (R & _ & s & ->). apply wp_bind.
    eapply wp_mono; [eapply (IH l2 a2'); auto|]. intros rs (FT & LE & c & FC & EC). apply wp_ret.
    split; [constructor; [now exists s|assumption]|]. split; [cbn; now rewrite LE|]. exists (wrap k (b + a) :: c). split; [now constructor|].
    cbn [sumZ]. rewrite EC, eqm_wrap. apply eqm_of_eq. ring.
Qed.
Lemma hal_popcount_ok x a bits : holds x a -> (1 <= bits)%nat -> Z.of_nat bits <= k ->
  (bits = 1%nat \/ Nat.Even bits \/ ~ secret pr x) ->
  wp (hal_popcount k pr others bits x) (fun r => holds r (bit_count bits a)).
Proof.
  intros X B1 BK C. unfold hal_popcount. apply wp_bind. use hal_prefer_b_ok. intros b (HB & NA & SV).
  assert (FS : Forall (fun i => Z.of_nat i < k) (seq 0 bits)) by (apply Forall_forall; intros i I0; apply in_seq in I0; lia).
  apply wp_bind. eapply wp_mono; [apply (mapM_pop b a HB NA bits BK _ FS)|]. intros vs [FV TV].
  assert (LV : length vs = bits) by (rewrite (F2_length _ _ FV), map_length, seq_length; reflexivity).
  assert (SM : wrap k (sumZ (bits_of bits a)) = bit_count bits a).
  { rewrite bits_of_sum. apply wrap_small. pose proof (bit_count_bound bits a). assert (k < 2 ^ k) by (apply Z.pow_gt_lin_r; lia). lia. }
  change (map _ _) with (bits_of bits a) in FV. rewrite <- SM. clear SM.
  assert (NE : vs <> []) by (destruct vs; [cbn in LV; lia|discriminate]).
  destruct b as [p|o f|s|s].
  - eapply wp_mono; [apply (vreduce_ok (fun r => exists p, r = VP p)) with (a := bits_of bits a)|]; auto; try lia.
    + intros ? ? [? ->] [? ->]. reflexivity.
    + intros ? ? u v [p1 ->] [p2 ->] H1 H2. eapply wp_mono; [eapply addk; eauto|]. intros r [R V]. split; [exact R|]. now apply (proj1 (proj2 V) p1 p2).
    + intros r [R _]. exact R.
  - eapply wp_mono; [apply (vreduce_ok (fun r => exists g, r = VV o g)) with (a := bits_of bits a)|]; auto; try lia.
    + intros ? ? [? ->] [? ->]. apply Nat.eqb_refl.
    + intros ? ? u v [p1 ->] [p2 ->] H1 H2. eapply wp_mono; [eapply addk; eauto|]. intros r [R V]. split; [exact R|].
      apply (proj1 (proj2 (proj2 V)) o p1); eauto.
    + intros r [R _]. exact R.
  - exfalso. now apply (NA s).
  - assert (SX : secret pr x) by (destruct x; cbn in SV; easy).
    destruct C as [-> | [[h EV] | C]]; [| |contradiction].
    + destruct vs as [|v [|]]; try discriminate. cbn [vreduce_add]. apply wp_ret. unfold bits_of in *. cbn [seq map sumZ] in *. inversion FV; subst.
      rewrite Z.add_0_r, wrap_small; [assumption|]. eapply holds_word; eassumption.
    + assert (LL : (2 <= length vs)%nat) by lia.
      assert (ST : forall fuel, vreduce_add k pr (S fuel) vs = (let half := (length vs / 2)%nat in
          let ls := firstn half vs in
          let rs := firstn half (skipn half vs) in
          if packable pr ls && packable pr rs then
            bind (mapM (fun '(x, y) => hal_add k pr x y) (combine ls rs)) (fun next =>
            vreduce_add k pr fuel (next ++ (if (length vs mod 2 =? 1)%nat then skipn (length vs - 1) vs else [])))
          else fail)).
      { destruct vs as [|u [|v r]]; [cbn in LL; lia|cbn in LL; lia|reflexivity]. }
      destruct bits as [|fuel]; [lia|]. rewrite ST. cbv zeta. rewrite LV, EV, Nat.mul_comm, Nat.div_mul, Nat.mod_mul by lia. cbn [Nat.eqb].
      assert (PK : forall l, Forall (bit_type (VB s)) l -> packable pr l = true).
      { intros l F. apply pack_T with (T := fun x => exists b, x = VB b /\ k_nb pr b = 1); [|exact F].
        intros ? ? (b1 & -> & N1) (b2 & -> & N2). cbn [same_type]. rewrite N1, N2. reflexivity. }
      rewrite <- (firstn_skipn h vs) in TV, FV. apply Forall_app in TV. destruct TV as [T1 T2].
      apply F2_app_split in FV. destruct FV as (a1 & a2 & EA & F1 & F2).
      assert (SK : firstn h (skipn h vs) = skipn h vs) by (apply firstn_all2; rewrite skipn_length; lia).
      rewrite SK, (PK _ T1), (PK _ T2). cbn [andb]. apply wp_bind.
      eapply wp_mono; [eapply (add_bits_mapM _ _ a1 a2 F1 F2 T1 T2); rewrite firstn_length, skipn_length; lia|].
      intros nx (TN & LN & c & FC & EC). rewrite app_nil_r. rewrite firstn_length in LN.
      eapply wp_mono; [apply (vreduce_ok (fun r => exists p, r = VA p)) with (a := c)|]; auto; try lia.
      * intros ? ? [? ->] [? ->]. reflexivity.
      * intros ? ? u v [p1 ->] [p2 ->] H1 H2. unfold hal_add. cbn [commutative].
        eapply wp_mono; [eapply (add_ss_ok k n pr isA isB HO wordA (VA p2) (VA p1)); [exact H2|exact H1|exact I|exact I]|].
        intros r (R & _ & q). split; [|exact q]. eapply holds_eq; [exact R|]. f_equal. ring.
      * destruct nx; [cbn in LN; lia|discriminate].
      * intros r [R _]. eapply holds_eq; [exact R|]. rewrite EV, Nat.mul_comm in EA. rewrite EA, sumZ_app. exact EC.
Qed.
End Proof.
