From Verif Require Import Base Ring_model Ring_spec.
Open Scope Z_scope.

Lemma wrap_is_mod k v : 0 <= k -> is_mod k v (wrap k v).
Proof.
  intros K. split; [now apply wrap_range|].
  exists (- (v / 2 ^ k)). unfold wrap. pose proof (pow2_pos k K). pose proof (Z.div_mod v (2 ^ k)). lia.
Qed.
Lemma is_mod_unique k v w w' : 0 <= k -> is_mod k v w -> is_mod k v w' -> w = w'.
Proof.
  intros K [[A B] [q E]] [[A' B'] [q' E']]. pose proof (pow2_pos k K). assert (q = q') by nia. subst. lia.
Qed.
Lemma is_mod_shift k v v' w q : v' = v + q * 2 ^ k -> is_mod k v w -> is_mod k v' w.
Proof. intros E [W [p P]]. split; [exact W|]. exists (p - q). lia. Qed.
Lemma signed_sgn k x : 0 < k -> word k x -> signed_value k x (sgn k x).
Proof.
  intros K W. split; [now apply sgn_range|]. unfold sgn. destruct (_ <? _); [exists 0|exists (-1)]; lia.
Qed.
Lemma sgn_shift k x : exists q, sgn k x = x + q * 2 ^ k.
Proof. unfold sgn. destruct (_ <? _); [exists 0|exists (-1)]; lia. Qed.
Lemma rneg_ok k x : 0 < k -> is_mod k (- x) (rneg k x).
Proof.
  intros K. destruct (sgn_shift k x) as [q E].
  apply (is_mod_shift k (- sgn k x) (- x) _ q); [lia|]. apply wrap_is_mod; lia.
Qed.
Lemma rneg_wrap k x : rneg k x = wrap k (- x).
Proof.
  unfold rneg. destruct (sgn_shift k x) as [q E]. rewrite E.
  replace (- (x + q * 2 ^ k)) with (- x + (- q) * 2 ^ k) by ring. apply eqm_mult.
Qed.
Lemma bit_mod k v i : 0 <= k -> bit (wrap k v) i = (i <? k) && Z.testbit v i.
Proof.
  intros K. unfold bit, wrap. destruct (Z.ltb_spec i k).
  - destruct (Z.ltb_spec i 0); [rewrite !Z.testbit_neg_r by lia; reflexivity|]. now rewrite Z.mod_pow2_bits_low by lia.
  - now rewrite Z.mod_pow2_bits_high by lia.
Qed.
Lemma word_bit_high k x i : 0 <= k -> word k x -> k <= i -> Z.testbit x i = false.
Proof.
  intros K [A B] I. replace x with (wrap k x) by now apply wrap_small. fold (bit (wrap k x) i).
  rewrite bit_mod by lia. destruct (Z.ltb_spec i k); [lia|reflexivity].
Qed.
Lemma word_of_bits k x : 0 <= k -> 0 <= x -> (forall i, k <= i -> Z.testbit x i = false) -> word k x.
Proof.
  intros K X H. split; [exact X|]. destruct (Z.eq_dec x 0) as [->|N]; [now apply pow2_pos|].
  apply Z.log2_lt_pow2; [lia|]. destruct (Z.lt_ge_cases (Z.log2 x) k); [assumption|].
  pose proof (Z.bit_log2 x). rewrite H in H1 by lia. specialize (H1 ltac:(lia)). discriminate.
Qed.
Lemma rnot_bits k x i : 0 < k -> word k x -> 0 <= i < k -> bit (rnot k x) i = negb (bit x i).
Proof.
  intros K W I. unfold rnot. rewrite bit_mod by lia. destruct (Z.ltb_spec i k); [|lia]. cbn [andb].
  replace (- sgn k x - 1) with (Z.lnot (sgn k x)) by (unfold Z.lnot; lia).
  rewrite Z.lnot_spec by lia. f_equal. unfold bit.
  transitivity (bit (wrap k (sgn k x)) i).
  - rewrite bit_mod by lia. destruct (Z.ltb_spec i k); [reflexivity|lia].
  - now rewrite wrap_sgn by exact W.
Qed.
Lemma rnot_word k x : 0 < k -> word k (rnot k x).
Proof. intros. apply wrap_range; lia. Qed.
Lemma rnot_val k x : 0 < k -> word k x -> rnot k x = 2 ^ k - 1 - x.
Proof.
  intros K W. unfold rnot. destruct (sgn_shift k x) as [q E]. rewrite E.
  replace (- (x + q * 2 ^ k) - 1) with (2 ^ k - 1 - x + (- q - 1) * 2 ^ k) by ring.
  rewrite eqm_mult. apply wrap_small. unfold word in W. lia.
Qed.
Lemma rshl_bits k s x i : 0 <= k -> 0 <= s -> 0 <= i -> bit (rshl k s x) i = (i <? k) && (s <=? i) && bit x (i - s).
Proof.
  intros K S I. unfold rshl. rewrite bit_mod by lia. rewrite <- andb_assoc. f_equal.
  rewrite Z.mul_pow2_bits by lia. unfold bit. destruct (Z.leb_spec s i); [reflexivity|]. now rewrite Z.testbit_neg_r by lia.
Qed.
Lemma rshr_bits s x i : 0 <= s -> 0 <= i -> bit (rshr s x) i = bit x (i + s).
Proof. intros. unfold bit, rshr. now rewrite Z.div_pow2_bits by lia. Qed.
Lemma rsar_signed k s x : 0 < k -> 0 <= s < k -> word k x -> signed_value k (rsar k s x) (sgn k x / 2 ^ s).
Proof.
  intros K S W. pose proof (sgn_range k x K W) as R. pose proof (pow2_pos s ltac:(lia)).
  pose proof (pow2_pos (k - 1) ltac:(lia)).
  assert (D : - 2 ^ (k - 1) <= sgn k x / 2 ^ s < 2 ^ (k - 1)).
  { split; [apply Z.div_le_lower_bound; nia|]. apply Z.div_lt_upper_bound; nia. }
  split; [exact D|]. unfold rsar. destruct (wrap_is_mod k (sgn k x / 2 ^ s)) as [_ [q E]]; [lia|].
  exists (- q). lia.
Qed.

(* bit reversal *)
Lemma land_pow2_zero x i : 0 <= i -> (Z.land x (2 ^ i) =? 0) = negb (Z.testbit x i).
Proof.
  intros I. destruct (Z.testbit x i) eqn:T; cbn [negb].
  - apply Z.eqb_neq. intros E. apply (f_equal (fun z => Z.testbit z i)) in E.
    rewrite Z.land_spec, T, Z.pow2_bits_true, Z.testbit_0_l in E by lia. discriminate.
  - apply Z.eqb_eq. apply Z.bits_inj'. intros j J. rewrite Z.land_spec, Z.testbit_0_l.
    destruct (Z.eq_dec j i) as [->|N]; [now rewrite T|]. rewrite Z.pow2_bits_false by lia. apply andb_false_r.
Qed.
Lemma bitrev_loop_bits n x start end_ : forall idx tmp i, 0 <= start -> start <= idx -> idx + Z.of_nat n = end_ -> 0 <= i ->
  Z.testbit (bitrev_loop n x start end_ idx tmp) i =
  Z.testbit tmp i || ((start <=? i) && (i <=? end_ - 1 - idx + start) && Z.testbit x (end_ - 1 - i + start)).
Proof.
  induction n as [|n IH]; intros idx tmp i S I E J; cbn [bitrev_loop].
  - replace (i <=? end_ - 1 - idx + start) with (i <=? start - 1) by (f_equal; lia).
    destruct (Z.leb_spec start i), (Z.leb_spec i (start - 1)); try lia; cbn; now rewrite orb_false_r.
  - rewrite IH by lia. rewrite land_pow2_zero by lia.
    assert (C : (start <=? i) && (i <=? end_ - 1 - idx + start) && Z.testbit x (end_ - 1 - i + start)
              = ((i =? end_ - 1 - idx + start) && Z.testbit x idx) ||
                ((start <=? i) && (i <=? end_ - 1 - (idx + 1) + start) && Z.testbit x (end_ - 1 - i + start))).
    { destruct (Z.eqb_spec i (end_ - 1 - idx + start)) as [->|N].
      - replace (end_ - 1 - (end_ - 1 - idx + start) + start) with idx by lia.
        destruct (Z.leb_spec start (end_ - 1 - idx + start)); [|lia].
        destruct (Z.leb_spec (end_ - 1 - idx + start) (end_ - 1 - idx + start)); [|lia].
        destruct (Z.leb_spec (end_ - 1 - idx + start) (end_ - 1 - (idx + 1) + start)); [lia|]. cbn. now rewrite orb_false_r.
      - cbn. destruct (Z.leb_spec start i); [|reflexivity]. cbn.
        destruct (Z.leb_spec i (end_ - 1 - idx + start)), (Z.leb_spec i (end_ - 1 - (idx + 1) + start)); try lia; reflexivity. }
    rewrite C. rewrite orb_assoc. f_equal.
    destruct (Z.testbit x idx); cbn [negb].
    + rewrite Z.lor_spec. f_equal. rewrite andb_true_r.
      destruct (Z.eqb_spec i (end_ - 1 - idx + start)) as [->|N]; [now rewrite Z.pow2_bits_true by lia|].
      now rewrite Z.pow2_bits_false by lia.
    + now rewrite andb_false_r, orb_false_r.
Qed.
Lemma pow2_sub_bits s e i : 0 <= s <= e -> 0 <= i -> Z.testbit (2 ^ e - 2 ^ s) i = (s <=? i) && (i <? e).
Proof.
  intros S I. replace (2 ^ e - 2 ^ s) with (Z.ones (e - s) * 2 ^ s).
  2:{ rewrite Z.ones_equiv. replace e with ((e - s) + s) at 2 by lia. rewrite pow2_split by lia. lia. }
  rewrite Z.mul_pow2_bits by lia. destruct (Z.leb_spec s i).
  - cbn. destruct (Z.ltb_spec i e); [apply Z.ones_spec_low; lia|apply Z.ones_spec_high; lia].
  - cbn. now rewrite Z.testbit_neg_r by lia.
Qed.
Lemma bitrev_bits k s e x w : 0 < k -> 0 <= s <= e -> word k x -> ring_bitrev k s e x = Ok w ->
  word k w /\ forall i, 0 <= i < k ->
  bit w i = if (s <=? i) && (i <? e) then bit x (e - 1 - i + s) else bit x i.
Proof.
  intros K SE W. unfold ring_bitrev. destruct (Z.ltb_spec e k); [|discriminate].
  destruct (Z.ltb_spec s k); [|discriminate]. cbn [andb]. intros Q. injection Q as <-.
  set (T := bitrev_loop _ _ _ _ _ _).
  assert (TB : forall i, 0 <= i -> Z.testbit T i = (s <=? i) && (i <=? e - 1) && Z.testbit x (e - 1 - i + s)).
  { intros i I. unfold T. rewrite bitrev_loop_bits by lia. rewrite Z.testbit_0_l. cbn.
    do 2 f_equal; f_equal; lia. }
  assert (MB : forall i, 0 <= i -> Z.testbit (wrap k (Z.lnot (wrap k (2 ^ e - 2 ^ s)))) i =
                (i <? k) && negb ((s <=? i) && (i <? e))).
  { intros i I. fold (bit (wrap k (Z.lnot (wrap k (2 ^ e - 2 ^ s)))) i). rewrite bit_mod by lia.
    destruct (Z.ltb_spec i k); [|reflexivity]. cbn. rewrite Z.lnot_spec by lia.
    fold (bit (wrap k (2 ^ e - 2 ^ s)) i). rewrite bit_mod by lia.
    destruct (Z.ltb_spec i k); [|lia]. cbn. now rewrite pow2_sub_bits by lia. }
  assert (BB : forall i, 0 <= i -> Z.testbit (Z.lor (Z.land x (wrap k (Z.lnot (wrap k (2 ^ e - 2 ^ s))))) T) i =
     (Z.testbit x i && ((i <? k) && negb ((s <=? i) && (i <? e)))) || ((s <=? i) && (i <? e) && Z.testbit x (e - 1 - i + s))).
  { intros i I. rewrite Z.lor_spec, Z.land_spec, MB, TB by lia. f_equal. f_equal. f_equal.
    destruct (Z.leb_spec i (e-1)), (Z.ltb_spec i e); auto; lia. }
  split.
  - apply word_of_bits; [lia| |].
    + apply Z.lor_nonneg. split; [apply Z.land_nonneg; left; unfold word in W; lia|].
      unfold T. generalize (Z.to_nat (e - s)) as n. intros n.
      assert (G : forall n idx tmp, 0 <= tmp -> 0 <= bitrev_loop n x s e idx tmp).
      { clear. induction n as [|n IH]; intros idx tmp H; cbn [bitrev_loop]; [exact H|]. apply IH.
        destruct (_ =? 0); [exact H|]. apply Z.lor_nonneg; split; [exact H|]. apply Z.pow_nonneg; lia. }
      apply G; lia.
    + intros i I. rewrite BB by lia. rewrite (word_bit_high k x i) by (auto; lia).
      destruct (Z.ltb_spec i e); [lia|]. now rewrite andb_false_r.
  - intros i I. unfold bit. rewrite BB by lia. destruct (Z.ltb_spec i k); [|lia]. cbn [andb].
    destruct ((s <=? i) && (i <? e)); cbn; [now rewrite andb_false_r|]. now rewrite andb_true_r, orb_false_r.
Qed.
Lemma bitmask_bits k lo hi x w : 0 < k -> 0 <= lo -> word k x -> ring_bitmask k lo hi x = Ok w ->
  word k w /\ forall i, 0 <= i -> bit w i = (lo <=? i) && (i <? hi) && bit x i.
Proof.
  intros K L W. unfold ring_bitmask. destruct (Z.ltb_spec lo hi); [|discriminate].
  destruct (Z.leb_spec hi k); [|discriminate]. cbn [andb]. intros Q. injection Q as <-.
  assert (MB : forall i, 0 <= i ->
     Z.testbit (rshl k lo (wrap k ((if hi - lo <? k then 2 ^ (hi - lo) else 0) - 1))) i = (lo <=? i) && (i <? hi)).
  { intros i I. fold (bit (rshl k lo (wrap k ((if hi - lo <? k then 2 ^ (hi - lo) else 0) - 1))) i).
    rewrite rshl_bits by lia. destruct (Z.leb_spec lo i); [|now rewrite andb_false_r].
    rewrite andb_true_r. cbn [andb].
    rewrite bit_mod by lia.
    assert (ON : forall j, 0 <= j < k -> Z.testbit ((if hi - lo <? k then 2 ^ (hi - lo) else 0) - 1) j = (j <? hi - lo)).
    { intros j J. destruct (Z.ltb_spec (hi - lo) k).
      - replace (2 ^ (hi - lo) - 1) with (Z.ones (hi - lo)) by (rewrite Z.ones_equiv; lia).
        destruct (Z.ltb_spec j (hi - lo)); [apply Z.ones_spec_low; lia|apply Z.ones_spec_high; lia].
      - replace (0 - 1) with (-1) by lia. rewrite Z.bits_m1 by lia. destruct (Z.ltb_spec j (hi - lo)); [reflexivity|lia]. }
    destruct (Z.ltb_spec i k).
    - cbn [andb]. rewrite ON by lia. destruct (Z.ltb_spec (i - lo) k), (Z.ltb_spec (i - lo) (hi - lo)), (Z.ltb_spec i hi); auto; lia.
    - cbn. destruct (Z.ltb_spec i hi); [lia|reflexivity]. }
  assert (BB : forall i, 0 <= i -> bit (Z.land x (rshl k lo (wrap k ((if hi - lo <? k then 2 ^ (hi - lo) else 0) - 1)))) i
      = (lo <=? i) && (i <? hi) && bit x i).
  { intros i I. unfold bit. rewrite Z.land_spec, MB by lia. apply andb_comm. }
  split; [|exact BB]. apply word_of_bits; [lia|apply Z.land_nonneg; left; apply W|].
  intros i I. fold (bit (Z.land x (rshl k lo (wrap k ((if hi - lo <? k then 2 ^ (hi - lo) else 0) - 1)))) i).
  rewrite BB by lia. unfold bit. rewrite (word_bit_high k x i) by (auto; lia). apply andb_false_r.
Qed.
Lemma bitmask_total k lo hi x : 0 <= lo < hi -> hi <= k -> exists w, ring_bitmask k lo hi x = Ok w.
Proof.
  intros. unfold ring_bitmask. destruct (Z.ltb_spec lo hi); [|lia]. destruct (Z.leb_spec hi k); [|lia]. cbn. eauto.
Qed.

Lemma fold_radd k xs : forall a, wrap k (fold_left (radd k) xs a) = wrap k (a + sumZ xs).
Proof.
  induction xs as [|x xs IH]; intros a; cbn [fold_left sumZ]; [now rewrite Z.add_0_r|].
  rewrite IH. unfold radd. rewrite wrap_add_l. f_equal. lia.
Qed.
Lemma fold_radd_word k xs a : 0 <= k -> word k a -> word k (fold_left (radd k) xs a).
Proof. intros K. revert a; induction xs as [|x xs IH]; intros a A; cbn; [exact A|]. apply IH. apply wrap_range; lia. Qed.
Lemma ring_sum_ok k xs : 0 <= k -> xs <> [] -> Forall (word k) xs -> exists w, ring_sum k xs = Ok w /\ is_mod k (sumZ xs) w.
Proof.
  intros K N F. destruct xs as [|x [|y r]]; [congruence| |].
  - exists x. split; [reflexivity|]. inversion F; subst. split; [assumption|]. exists 0. cbn. lia.
  - eexists. split; [reflexivity|].
    assert (W : word k (fold_left (radd k) r (radd k x y))) by (apply fold_radd_word; [lia|apply wrap_range; lia]).
    replace (fold_left (radd k) r (radd k x y)) with (wrap k (sumZ (x :: y :: r))).
    { apply wrap_is_mod; lia. }
    rewrite <- (wrap_small k (fold_left _ _ _)) by exact W. rewrite fold_radd. unfold radd. rewrite wrap_add_l. cbn. f_equal. lia.
Qed.
Lemma dot_loop_ok k K a b : 0 <= k -> is_mod k (dot K a b) (dot_loop k K a b).
Proof.
  intros H. unfold dot_loop.
  assert (E : fold_left (fun acc l => radd k acc (rmul k (a l) (b l))) (seq 0 K) 0 = wrap k (dot K a b)).
  { induction K as [|K IH]; [cbn [seq fold_left dot]; symmetry; apply wrap_small; pose proof (pow2_pos k H); lia|].
    rewrite seq_S, fold_left_app, IH. cbn [fold_left dot]. unfold radd, rmul. now rewrite wrap_add_l, wrap_add_r. }
  rewrite E. now apply wrap_is_mod.
Qed.
Lemma dot_ext K a b a' b' : (forall l, (l < K)%nat -> a l = a' l /\ b l = b' l) -> dot K a b = dot K a' b'.
Proof.
  induction K as [|K IH]; intros E; cbn [dot]; [reflexivity|]. rewrite IH by (intros; apply E; lia).
  destruct (E K) as [-> ->]; [lia|reflexivity].
Qed.
Lemma all_equal_spec k e xs ys : 0 < k -> 0 <= e < 2 ^ (k - 1) -> length xs = length ys ->
  Forall2 (fun x y => - 2 ^ (k - 1) < sgn k x - sgn k y < 2 ^ (k - 1)) xs ys ->
  exists b, ring_all_equal k e xs ys = Ok b /\ (b = true <-> Forall2 (fun x y => Z.abs (sgn k x - sgn k y) <= e) xs ys).
Proof.
  intros K E _ F. induction F as [|x y xs ys R F IH].
  - exists true. split; [reflexivity|]. split; auto.
  - destruct IH as [b [B1 B2]]. cbn [ring_all_equal]. unfold all_equal_el.
    set (d := sgn k x - sgn k y) in *.
    destruct (Z.ltb_spec d (- 2 ^ (k - 1))); [lia|]. destruct (Z.leb_spec (2 ^ (k - 1)) d); [lia|].
    destruct (Z.eqb_spec d (- 2 ^ (k - 1))); [lia|]. cbn [orb rbind].
    rewrite sgn_wrap by lia. destruct (Z.ltb_spec e (Z.abs d)); cbn [negb].
    + exists false. split; [reflexivity|]. split; [discriminate|]. intros Q. inversion Q as [|? ? ? ? Q1 Q2]; subst. fold d in Q1. lia.
    + exists b. split; [exact B1|]. rewrite B2. split; intros Q; [constructor; auto; lia|now inversion Q].
Qed.
Lemma additive_splits_sum k x rs : wrap k (sumZ (additive_splits k x rs)) = wrap k x.
Proof.
  unfold additive_splits. cbn [sumZ]. revert x. induction rs as [|r rs IH]; intros x; cbn [fold_left sumZ]; [f_equal; lia|].
  replace (fold_left (rsub k) rs (rsub k x r) + (r + sumZ rs)) with (fold_left (rsub k) rs (rsub k x r) + sumZ rs + r) by ring.
  rewrite <- wrap_add_l, IH, wrap_add_l. unfold rsub. rewrite wrap_add_l. f_equal. lia.
Qed.
Lemma boolean_splits_xor x rs : xorZ (boolean_splits x rs) = x.
Proof.
  unfold boolean_splits. cbn [xorZ]. revert x. induction rs as [|r rs IH]; intros x; cbn [fold_left xorZ]; [apply Z.lxor_0_r|].
  unfold rxor at 2. rewrite (Z.lxor_comm r), <- Z.lxor_assoc.
  change (Z.lxor x r) with (rxor x r). rewrite IH. unfold rxor. now rewrite Z.lxor_assoc, Z.lxor_nilpotent, Z.lxor_0_r.
Qed.
Lemma rmul_scalar_ok k x y : 0 <= k <= 128 -> is_mod k (x * y) (rmul_scalar k x y).
Proof.
  intros K. unfold rmul_scalar. replace (wrap k (wrap 128 (x * y))) with (wrap k (x * y)); [apply wrap_is_mod; lia|].
  unfold wrap. replace (2 ^ 128) with (2 ^ (128 - k) * 2 ^ k) by (rewrite <- pow2_split by lia; f_equal; lia).
  rewrite Z.mul_comm with (n := 2 ^ (128 - k)).
  rewrite Z.rem_mul_r by (try apply Z.pow_nonzero; try apply pow2_pos; lia).
  rewrite Z.mul_comm with (n := 2 ^ k), Z.mod_add by (apply Z.pow_nonzero; lia). now rewrite Z.mod_mod by (apply Z.pow_nonzero; lia).
Qed.
