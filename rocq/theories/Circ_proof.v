From Verif Require Import Base Ring_model Ring_spec Ring_proof Circ_model Circ_spec.
From Coq Require Import ZifyBool ZifyNat.
Open Scope Z_scope.

(* ---- bits of the word operations ---- *)
Lemma tb_rshl k s x i : 0 <= k -> 0 <= s -> 0 <= i -> Z.testbit (rshl k s x) i = (i <? k) && Z.testbit x (i - s).
Proof.
  intros K S I. unfold rshl. change (Z.testbit (wrap k (x * 2 ^ s)) i) with (bit (wrap k (x * 2 ^ s)) i).
  rewrite bit_mod by lia. f_equal. now rewrite Z.mul_pow2_bits by lia.
Qed.
Lemma tb_rshr s x i : 0 <= s -> 0 <= i -> Z.testbit (rshr s x) i = Z.testbit x (i + s).
Proof. intros S I. unfold rshr. now rewrite Z.div_pow2_bits by lia. Qed.
Lemma tb_wrap k x i : 0 <= k -> Z.testbit (wrap k x) i = (i <? k) && Z.testbit x i.
Proof. exact (bit_mod k x i). Qed.
Lemma tb_neg x i : i < 0 -> Z.testbit x i = false.
Proof. exact (Z.testbit_neg_r x i). Qed.
Lemma tb_eq_word k x y : 0 <= k -> word k x -> word k y -> (forall i, 0 <= i < k -> Z.testbit x i = Z.testbit y i) -> x = y.
Proof.
  intros K X Y H. apply Z.bits_inj'. intros i I. destruct (Z.ltb_spec i k); [now apply H|].
  rewrite !(word_bit_high k) by (auto; lia). reflexivity.
Qed.
Lemma word_lxor k x y : 0 <= k -> word k x -> word k y -> word k (Z.lxor x y).
Proof.
  intros K X Y. apply word_of_bits; [lia| |].
  - apply Z.lxor_nonneg. unfold word in *. lia.
  - intros i I. rewrite Z.lxor_spec, !(word_bit_high k) by (auto; lia). reflexivity.
Qed.
Lemma word_land k x y : 0 <= k -> word k x -> 0 <= y -> word k (Z.land x y).
Proof.
  intros K X Y. apply word_of_bits; [lia| |].
  - apply Z.land_nonneg. now right.
  - intros i I. now rewrite Z.land_spec, !(word_bit_high k) by (auto; lia).
Qed.
Lemma word_wrap_ k x : 0 <= k -> word k (wrap k x).
Proof. intros K. unfold word, wrap. apply Z.mod_pos_bound. now apply Z.pow_pos_nonneg. Qed.
Lemma word_rshl k s x : 0 <= k -> word k (rshl k s x).
Proof. intros K. now apply word_wrap_. Qed.
Lemma word_rshr k s x : 0 <= k -> 0 <= s -> word k x -> word k (rshr s x).
Proof.
  intros K S [X1 X2]. unfold rshr. split; [apply Z.div_pos; [lia|now apply Z.pow_pos_nonneg]|].
  apply Z.div_lt_upper_bound; [now apply Z.pow_pos_nonneg|].
  assert (1 <= 2 ^ s) by (pose proof (Z.pow_pos_nonneg 2 s); lia). nia.
Qed.
Lemma word_tb_false k x i : 0 <= k -> 0 <= i -> word k x -> (forall j, 0 <= j < k -> i <= j -> Z.testbit x j = false) ->
  forall j, i <= j -> Z.testbit x j = false.
Proof.
  intros K I X H j J. destruct (Z.ltb_spec j k); [apply H; lia|]. apply (word_bit_high k); auto; lia.
Qed.

(* ---- carries ---- *)
Lemma mod_pow2_S x i : 0 <= i -> x mod 2 ^ (i + 1) = x mod 2 ^ i + 2 ^ i * Z.b2z (Z.testbit x i).
Proof.
  intros I. rewrite Z.testbit_spec' by lia. replace (2 ^ (i + 1)) with (2 ^ i * 2) by (rewrite Z.pow_add_r by lia; lia).
  assert (0 < 2 ^ i) by (apply Z.pow_pos_nonneg; lia). rewrite Z.rem_mul_r by lia. lia.
Qed.
Lemma carry_range x y i : 0 <= i -> 0 <= carry x y i <= 1.
Proof.
  intros I. unfold carry. assert (P : 0 < 2 ^ i) by (apply Z.pow_pos_nonneg; lia).
  pose proof (Z.mod_pos_bound x _ P). pose proof (Z.mod_pos_bound y _ P).
  split; [apply Z.div_pos; lia|]. apply Z.lt_succ_r. apply Z.div_lt_upper_bound; lia.
Qed.
Lemma carry_0 x y : carry x y 0 = 0.
Proof. unfold carry. change (2 ^ 0) with 1. now rewrite !Z.mod_1_r. Qed.
Lemma carry_S x y i : 0 <= i -> carry x y (i + 1) = (carry x y i + Z.b2z (Z.testbit x i) + Z.b2z (Z.testbit y i)) / 2.
Proof.
  intros I. unfold carry. rewrite !mod_pow2_S by lia. assert (P : 0 < 2 ^ i) by (apply Z.pow_pos_nonneg; lia).
  replace (2 ^ (i + 1)) with (2 ^ i * 2) by (rewrite Z.pow_add_r by lia; lia).
  rewrite <- Z.div_div by lia. f_equal.
  replace (x mod 2 ^ i + 2 ^ i * Z.b2z (Z.testbit x i) + (y mod 2 ^ i + 2 ^ i * Z.b2z (Z.testbit y i)))
    with (x mod 2 ^ i + y mod 2 ^ i + (Z.b2z (Z.testbit x i) + Z.b2z (Z.testbit y i)) * 2 ^ i) by ring.
  rewrite Z.div_add by lia. lia.
Qed.
Definition cyb (x y i : Z) : bool := carry x y i =? 1.
Lemma cyb_S x y i : 0 <= i -> cyb x y (i + 1) =
  xorb (Z.testbit x i && Z.testbit y i) (xorb (Z.testbit x i) (Z.testbit y i) && cyb x y i).
Proof.
  intros I. unfold cyb. rewrite carry_S by lia. pose proof (carry_range x y i I) as R.
  assert (C : carry x y i = 0 \/ carry x y i = 1) by lia.
  destruct C as [-> | ->], (Z.testbit x i), (Z.testbit y i); reflexivity.
Qed.
Lemma add_bits x y i : 0 <= i -> Z.testbit (x + y) i = xorb (xorb (Z.testbit x i) (Z.testbit y i)) (cyb x y i).
Proof.
  intros I. assert (P : 0 < 2 ^ i) by (apply Z.pow_pos_nonneg; lia).
  assert (E : (x + y) / 2 ^ i = x / 2 ^ i + y / 2 ^ i + carry x y i).
  { unfold carry. rewrite (Z.div_mod x (2 ^ i)) at 1 by lia. rewrite (Z.div_mod y (2 ^ i)) at 1 by lia.
    replace (2 ^ i * (x / 2 ^ i) + x mod 2 ^ i + (2 ^ i * (y / 2 ^ i) + y mod 2 ^ i))
      with (x mod 2 ^ i + y mod 2 ^ i + (x / 2 ^ i + y / 2 ^ i) * 2 ^ i) by ring.
    rewrite Z.div_add by lia. lia. }
  assert (B : forall z, Z.testbit z i = Z.odd (z / 2 ^ i)).
  { intros z. rewrite <- Z.bit0_odd, Z.div_pow2_bits by lia. reflexivity. }
  rewrite !B, E, !Z.odd_add. f_equal. unfold cyb.
  pose proof (carry_range x y i I). assert (C : carry x y i = 0 \/ carry x y i = 1) by lia. destruct C as [-> | ->]; reflexivity.
Qed.

(* ---- windows of generate/propagate bits: [m] positions ending at [i] ---- *)
Section Window.
Variable p : Z -> bool.
Fixpoint pw (i : Z) (m : nat) : bool := match m with O => true | S m => pw i m && p (i - Z.of_nat m) end.
Lemma pw_app i a b : pw i (a + b) = pw i a && pw (i - Z.of_nat a) b.
Proof.
  induction b as [|b IH]; [now rewrite Nat.add_0_r, andb_true_r|].
  rewrite Nat.add_succ_r. cbn [pw]. rewrite IH, andb_assoc. do 2 f_equal. lia.
Qed.
Lemma pw_1 i : pw i 1 = p i.
Proof. cbn [pw Z.of_nat]. now rewrite Z.sub_0_r. Qed.
Lemma pw_front i m : pw i (S m) = p i && pw (i - 1) m.
Proof. change (S m) with (1 + m)%nat. now rewrite pw_app, pw_1. Qed.
Variable g : Z -> bool.
Fixpoint gw (i : Z) (m : nat) : bool := match m with O => false | S m => xorb (gw i m) (pw i m && g (i - Z.of_nat m)) end.
Lemma gw_app i a b : gw i (a + b) = xorb (gw i a) (pw i a && gw (i - Z.of_nat a) b).
Proof.
  induction b as [|b IH]; [cbn [gw]; rewrite Nat.add_0_r; now rewrite andb_false_r, xorb_false_r|].
  rewrite Nat.add_succ_r. cbn [gw]. rewrite IH, pw_app.
  replace (i - Z.of_nat (a + b)) with (i - Z.of_nat a - Z.of_nat b) by lia.
  destruct (gw i a), (pw i a), (gw (i - Z.of_nat a) b), (pw (i - Z.of_nat a) b), (g (i - Z.of_nat a - Z.of_nat b)); reflexivity.
Qed.
Lemma gw_1 i : gw i 1 = g i.
Proof. cbn [gw pw Z.of_nat]. rewrite Z.sub_0_r. now destruct (g i). Qed.
Lemma gw_front i m : gw i (S m) = xorb (g i) (p i && gw (i - 1) m).
Proof. change (S m) with (1 + m)%nat. now rewrite gw_app, pw_1, gw_1. Qed.
Lemma pg_dead i m : p i = false -> g i = false -> (0 < m)%nat -> pw i m = false /\ gw i m = false.
Proof. intros A B M. destruct m; [lia|]. now rewrite pw_front, gw_front, A, B. Qed.
End Window.
Lemma pw_ext p p' i m : (forall j, i - Z.of_nat m < j <= i -> p j = p' j) -> pw p i m = pw p' i m.
Proof. induction m as [|m IH]; intros H; [reflexivity|]. cbn [pw]. rewrite IH, H; [reflexivity|lia|]. intros j J. apply H. lia. Qed.
Lemma gw_ext p p' g g' i m : (forall j, i - Z.of_nat m < j <= i -> p j = p' j) -> (forall j, i - Z.of_nat m < j <= i -> g j = g' j) ->
  gw p g i m = gw p' g' i m.
Proof.
  induction m as [|m IH]; intros H H'; [reflexivity|]. cbn [gw]. rewrite IH, H'; [|lia|..]; [|intros j J; apply H; lia|intros j J; apply H'; lia].
  do 2 f_equal. apply pw_ext. intros j J. apply H. lia.
Qed.
Lemma gw_carry x y i m : 0 <= i -> (Z.to_nat i < m)%nat ->
  gw (fun j => xorb (Z.testbit x j) (Z.testbit y j)) (fun j => Z.testbit x j && Z.testbit y j) i m = cyb x y (i + 1).
Proof.
  set (p := fun j => _). set (g := fun j => Z.testbit x j && _). intros I. revert m.
  pattern i. apply natlike_ind; [| |exact I]; clear i I.
  - intros m M. rewrite cyb_S by lia. unfold cyb at 1. rewrite carry_0, andb_false_r, xorb_false_r.
    destruct m as [|m]; [lia|]. rewrite gw_front. fold (g 0).
    assert (N : gw p g (0 - 1) m = false).
    { destruct m; [reflexivity|]. apply pg_dead; [| |lia]; unfold p, g; now rewrite !tb_neg by lia. }
    rewrite N, andb_false_r, xorb_false_r. reflexivity.
  - intros i I IH m M. destruct m as [|m]; [lia|]. rewrite gw_front, cyb_S by lia. fold (p (Z.succ i)). fold (g (Z.succ i)).
    replace (Z.succ i - 1) with i by lia. rewrite (IH m) by lia. replace (i + 1) with (Z.succ i) by lia. reflexivity.
Qed.

(* ---- circuits over plain words ---- *)
Definition plain (k : Z) : cbb Z :=
  {| c_xor := Z.lxor; c_and := fun _ => Z.land; c_lsh := fun x s => rshl k s x; c_rsh := fun x s => rshr s x;
     c_init := fun _ m => wrap k m; c_setnb := fun x _ => x |}.

Lemma log2ceil_bound n : 1 <= n -> n <= 2 ^ log2ceil n.
Proof.
  intros N. unfold log2ceil. destruct (Z.leb_spec n 1); [cbn; lia|].
  pose proof (Z.log2_spec (n - 1)). replace (Z.succ (Z.log2 (n - 1))) with (Z.log2 (n - 1) + 1) in H0 by lia. lia.
Qed.
Lemma log2ceil_nonneg n : 0 <= log2ceil n.
Proof. unfold log2ceil. destruct (Z.leb_spec n 1); [lia|]. pose proof (Z.log2_nonneg (n - 1)). lia. Qed.
Lemma log2ceil_half n : 2 <= n -> 2 ^ (log2ceil n - 1) < n.
Proof.
  intros N. unfold log2ceil. destruct (Z.leb_spec n 1); [lia|]. replace (Z.log2 (n - 1) + 1 - 1) with (Z.log2 (n - 1)) by lia.
  pose proof (Z.log2_spec (n - 1)). lia.
Qed.
Lemma log2ceil_pow w : 0 <= w -> log2ceil (2 ^ w) = w.
Proof.
  intros W. assert (P : 0 < 2 ^ w) by (apply Z.pow_pos_nonneg; lia).
  destruct (Z.eq_dec w 0) as [->|NZ]; [reflexivity|].
  assert (P1 : 2 ^ 1 <= 2 ^ w) by (apply Z.pow_le_mono_r; lia). change (2 ^ 1) with 2 in P1.
  pose proof (log2ceil_bound (2 ^ w) ltac:(lia)) as A. pose proof (log2ceil_half (2 ^ w) ltac:(lia)) as B.
  apply Z.pow_le_mono_r_iff in A; [|lia|apply log2ceil_nonneg]. apply Z.pow_lt_mono_r_iff in B; lia.
Qed.
Lemma log2ceil_le n w : 0 <= w -> n <= 2 ^ w -> log2ceil n <= w.
Proof.
  intros W N. destruct (Z.leb_spec n 1) as [L|L]; [unfold log2ceil; destruct (Z.leb_spec n 1); lia|].
  pose proof (log2ceil_half n ltac:(lia)) as B. assert (C : 2 ^ (log2ceil n - 1) < 2 ^ w) by lia.
  apply Z.pow_lt_mono_r_iff in C; lia.
Qed.
Lemma of_nat_pow2 n : Z.of_nat (2 ^ n) = 2 ^ Z.of_nat n.
Proof. rewrite Nat2Z.inj_pow. reflexivity. Qed.
Lemma pow2n_pos n : (0 < 2 ^ n)%nat.
Proof. induction n; cbn; lia. Qed.

Section Adder.
Variables k x y : Z.
Hypothesis K : 0 <= k.
Hypothesis X : word k x.
Hypothesis Y : word k y.
Let p := fun i => xorb (Z.testbit x i) (Z.testbit y i).
Let g := fun i => Z.testbit x i && Z.testbit y i.
Local Lemma p_neg i : i < 0 -> p i = false.
Proof. intros I. unfold p. now rewrite !tb_neg by lia. Qed.
Local Lemma g_neg i : i < 0 -> g i = false.
Proof. intros I. unfold g. now rewrite !tb_neg by lia. Qed.
Local Lemma pg_neg i m : i < 0 -> (0 < m)%nat -> pw p i m = false /\ gw p g i m = false.
Proof. intros I M. apply pg_dead; [now apply p_neg|now apply g_neg|exact M]. Qed.

Lemma ks_inv L : exists P G, fold_left (ks_level Z (plain k)) (seq 0 L) (Z.lxor x y, Z.land x y) = (P, G) /\
  word k P /\ word k G /\
  forall i, 0 <= i < k -> Z.testbit P i = pw p i (2 ^ L) /\ Z.testbit G i = gw p g i (2 ^ L).
Proof.
  induction L as [|L IH].
  - exists (Z.lxor x y), (Z.land x y). split; [reflexivity|]. split; [now apply word_lxor|].
    split; [apply word_land; [lia|exact X|exact (proj1 Y)]|]. intros i I. cbn [Nat.pow]. rewrite pw_1, gw_1, Z.lxor_spec, Z.land_spec. now split.
  - destruct IH as [P [G [E [WP [WG B]]]]]. rewrite seq_S, fold_left_app, E. cbn [fold_left ks_level plain c_and c_xor c_lsh Nat.add].
    eexists _, _. split; [reflexivity|].
    assert (W1 : forall s z, word k (rshl k s z)) by (intros; now apply word_rshl).
    split; [apply word_land; [lia|exact WP|exact (proj1 (W1 _ _))]|]. split; [apply word_lxor; [lia|exact WG|apply word_land; [lia|exact WP|exact (proj1 (W1 _ _))]]|].
    intros i I. rewrite Z.lxor_spec, !Z.land_spec, !tb_rshl by lia. replace (i <? k) with true by lia. rewrite !andb_true_l.
    destruct (B i I) as [BP BG]. rewrite BP, BG. replace (2 ^ S L)%nat with (2 ^ L + 2 ^ L)%nat by (cbn; lia). rewrite pw_app, gw_app, of_nat_pow2.
    destruct (Z.ltb_spec (i - 2 ^ Z.of_nat L) 0) as [N|N].
    + destruct (pg_neg (i - 2 ^ Z.of_nat L) (2 ^ L) N (pow2n_pos L)) as [-> ->]. rewrite !tb_neg by lia. now split.
    + assert (0 < 2 ^ Z.of_nat L) by (apply Z.pow_pos_nonneg; lia).
      destruct (B (i - 2 ^ Z.of_nat L) ltac:(lia)) as [-> ->]. now split.
Qed.
(* any word whose bits are the carries completes the sum *)
Lemma sum_of_carries nbits G : 0 <= nbits <= k -> word k G -> x < 2 ^ nbits -> y < 2 ^ nbits ->
  (forall i, 0 <= i < k -> i < nbits -> Z.testbit G i = cyb x y (i + 1)) ->
  (forall i, 0 <= i < k -> nbits <= i -> Z.testbit G i = false) ->
  Z.lxor (Z.lxor x y) (rshl k 1 G) = wrap k (x + y).
Proof.
  intros NB WG XN YN H1 H2.
  apply (tb_eq_word k); auto; [apply word_lxor; auto; [now apply word_lxor|now apply word_rshl]|now apply word_wrap_|].
  intros i I. rewrite tb_wrap by lia. replace (i <? k) with true by lia. rewrite andb_true_l, add_bits by lia.
  rewrite !Z.lxor_spec, tb_rshl by lia. replace (i <? k) with true by lia. rewrite andb_true_l. f_equal.
  destruct (Z.eq_dec i 0) as [->|NZ]; [unfold cyb; rewrite carry_0; now rewrite tb_neg by lia|].
  destruct (Z.ltb_spec (i - 1) nbits).
  - rewrite H1 by lia. f_equal. lia.
  - rewrite H2 by lia. replace i with (i - 1 + 1) by lia. rewrite cyb_S by lia.
    rewrite !(word_bit_high nbits) by (unfold word in *; lia). reflexivity.
Qed.
Lemma kogge_stone_plain nbits : 1 <= nbits <= k -> x < 2 ^ nbits -> y < 2 ^ nbits ->
  kogge_stone Z (plain k) x y nbits = wrap k (x + y).
Proof.
  intros NB XN YN. unfold kogge_stone. cbn [plain c_and c_xor c_lsh].
  destruct (ks_inv (Z.to_nat (log2ceil nbits))) as [P [G [E [WP [WG B]]]]]. cbn [plain c_and c_xor c_lsh] in E. rewrite E.
  apply (sum_of_carries nbits); auto; try lia.
  - intros i I IN. destruct (B i I) as [_ ->]. apply gw_carry; [lia|].
    pose proof (log2ceil_bound nbits ltac:(lia)). pose proof (log2ceil_nonneg nbits).
    apply Nat2Z.inj_lt. rewrite of_nat_pow2, !Z2Nat.id by lia. lia.
  - intros i I IN. destruct (B i I) as [_ ->]. apply pg_dead; [| |apply pow2n_pos]; unfold p, g;
    rewrite !(word_bit_high nbits) by (unfold word in *; lia); reflexivity.
Qed.
End Adder.

(* ---- mask tables: every entry, every bit position ---- *)
Definition all_bits (n : nat) (P : Z -> bool) : bool := forallb (fun i => P (Z.of_nat i)) (seq 0 n).
Lemma all_bits_ok n P : all_bits n P = true -> forall i, 0 <= i < Z.of_nat n -> P i = true.
Proof.
  intros H i I. unfold all_bits in H. rewrite forallb_forall in H. specialize (H (Z.to_nat i)).
  rewrite Z2Nat.id in H by lia. apply H. apply in_seq. lia.
Qed.
Lemma table_ok (n : nat) (f : nat -> Z -> bool) : forallb (fun l => all_bits 128 (f l)) (seq 0 n) = true ->
  forall l i, (l < n)%nat -> 0 <= i < 128 -> f l i = true.
Proof.
  intros H l i L I. rewrite forallb_forall in H. apply (all_bits_ok 128 (f l)); [|exact I]. apply H, in_seq. lia.
Qed.
Lemma swap_mask_bits l i : (l < 6)%nat -> 0 <= i < 128 ->
  Z.testbit (nth l swap_masks 0) i = ((i / 2 ^ Z.of_nat l) mod 4 =? 1).
Proof.
  intros L I. apply Bool.eqb_prop. apply (table_ok 6 (fun l i => Bool.eqb (Z.testbit (nth l swap_masks 0) i) ((i / 2 ^ Z.of_nat l) mod 4 =? 1)));
  [vm_compute; reflexivity|exact L|exact I].
Qed.
Lemma keep_mask_bits l i : (l < 6)%nat -> 0 <= i < 128 ->
  Z.testbit (nth l keep_masks 0) i = (((i / 2 ^ Z.of_nat l) mod 4 =? 0) || ((i / 2 ^ Z.of_nat l) mod 4 =? 3)).
Proof.
  intros L I. apply Bool.eqb_prop. apply (table_ok 6 (fun l i => Bool.eqb (Z.testbit (nth l keep_masks 0) i)
    (((i / 2 ^ Z.of_nat l) mod 4 =? 0) || ((i / 2 ^ Z.of_nat l) mod 4 =? 3)))); [vm_compute; reflexivity|exact L|exact I].
Qed.
Lemma skl_sel_bits l i : (l < 7)%nat -> 0 <= i < 128 ->
  Z.testbit (nth l skl_sel 0) i = (i mod 2 ^ (Z.of_nat l + 1) =? 2 ^ Z.of_nat l - 1).
Proof.
  intros L I. apply Bool.eqb_prop. apply (table_ok 7 (fun l i => Bool.eqb (Z.testbit (nth l skl_sel 0) i)
    (i mod 2 ^ (Z.of_nat l + 1) =? 2 ^ Z.of_nat l - 1))); [vm_compute; reflexivity|exact L|exact I].
Qed.
Lemma skl_keep_bits l i : (l < 7)%nat -> 0 <= i < 128 ->
  Z.testbit (nth l skl_keep 0) i = (i mod 2 ^ (Z.of_nat l + 1) <? 2 ^ Z.of_nat l).
Proof.
  intros L I. apply Bool.eqb_prop. apply (table_ok 7 (fun l i => Bool.eqb (Z.testbit (nth l skl_keep 0) i)
    (i mod 2 ^ (Z.of_nat l + 1) <? 2 ^ Z.of_nat l))); [vm_compute; reflexivity|exact L|exact I].
Qed.

(* ---- Sklansky ---- *)
Lemma mod_sub_block i d B : 0 < B -> 0 <= d < B ->
  (i - d) mod B = if d <=? i mod B then i mod B - d else i mod B - d + B.
Proof.
  intros HB HD. pose proof (Z.mod_pos_bound i B HB) as M. pose proof (Z.div_mod i B ltac:(lia)) as E.
  destruct (Z.leb_spec d (i mod B)).
  - symmetry. apply (Z.mod_unique _ _ (i / B)); [left; lia|lia].
  - symmetry. apply (Z.mod_unique _ _ (i / B - 1)); [left; lia|lia].
Qed.
Section Skl.
Variables k : Z.
Hypothesis K : 0 <= k <= 128.
Lemma skl_spread_plain V idx J : (J <= idx)%nat -> (idx < 7)%nat -> word k V -> forall i, 0 <= i < k ->
  Z.testbit (skl_spread Z (plain k) J (rshl k 1 (Z.land V (wrap k (nth idx skl_sel 0))))) i =
  let c := i mod 2 ^ (Z.of_nat idx + 1) in
  (2 ^ Z.of_nat idx <=? c) && (c <? 2 ^ Z.of_nat idx + 2 ^ Z.of_nat J) && Z.testbit V (i - c + 2 ^ Z.of_nat idx - 1).
Proof.
  intros LE I7 WV. induction J as [|J IH]; intros i I; cbv zeta.
  - unfold skl_spread. cbn [seq fold_left]. rewrite tb_rshl by lia. replace (i <? k) with true by lia. rewrite andb_true_l, Z.land_spec.
    set (S := 2 ^ Z.of_nat idx). assert (SP : 0 < S) by (apply Z.pow_pos_nonneg; lia).
    assert (E : 2 ^ (Z.of_nat idx + 1) = 2 * S) by (rewrite Z.pow_add_r by lia; subst S; lia). rewrite E.
    destruct (Z.eq_dec i 0) as [->|NZ].
    { rewrite tb_neg by lia. rewrite Z.mod_0_l by lia. replace (S <=? 0) with false by lia. reflexivity. }
    rewrite tb_wrap by lia. replace (i - 1 <? k) with true by lia. rewrite andb_true_l, skl_sel_bits by lia. fold S. rewrite E.
    pose proof (mod_sub_block i 1 (2 * S) ltac:(lia) ltac:(lia)) as M. pose proof (Z.mod_pos_bound i (2 * S) ltac:(lia)).
    change (2 ^ Z.of_nat 0) with 1. rewrite M.
    destruct (Z.leb_spec 1 (i mod (2 * S))).
    + destruct (Z.eq_dec (i mod (2 * S)) S) as [C|C].
      * rewrite C. replace (S - 1 =? S - 1) with true by lia. replace (S <=? S) with true by lia.
        replace (S <? S + 1) with true by lia. rewrite andb_true_r, !andb_true_l. f_equal. lia.
      * replace (i mod (2 * S) - 1 =? S - 1) with false by lia.
        replace ((S <=? i mod (2 * S)) && (i mod (2 * S) <? S + 1)) with false by lia. now rewrite andb_false_r.
    + replace (i mod (2 * S) - 1 + 2 * S =? S - 1) with false by lia. replace (S <=? i mod (2 * S)) with false by lia.
      now rewrite andb_false_r.
  - unfold skl_spread. rewrite seq_S, fold_left_app. cbn [fold_left]. fold (skl_spread Z (plain k) J (rshl k 1 (Z.land V (wrap k (nth idx skl_sel 0))))).
    set (x := skl_spread _ _ _ _) in *. cbn [plain c_xor c_lsh Nat.add]. rewrite Z.lxor_spec, tb_rshl by lia.
    replace (i <? k) with true by lia. rewrite andb_true_l. specialize (IH ltac:(lia)). rewrite (IH i I). cbv zeta.
    set (S := 2 ^ Z.of_nat idx) in *. set (T := 2 ^ Z.of_nat J) in *.
    assert (TP : 0 < T) by (apply Z.pow_pos_nonneg; lia).
    assert (ET : 2 ^ Z.of_nat (Datatypes.S J) = 2 * T).
    { rewrite Nat2Z.inj_succ. unfold Z.succ. rewrite Z.pow_add_r by lia. subst T. lia. }
    assert (TS : 2 * T <= S). { rewrite <- ET. apply Z.pow_le_mono_r; lia. }
    assert (E : 2 ^ (Z.of_nat idx + 1) = 2 * S) by (rewrite Z.pow_add_r by lia; subst S; lia). rewrite E in *. rewrite ET.
    pose proof (Z.mod_pos_bound i (2 * S) ltac:(lia)).
    pose proof (mod_sub_block i T (2 * S) ltac:(lia) ltac:(lia)) as M.
    destruct (Z.ltb_spec (i - T) 0) as [N|N].
    + assert (C : i mod (2 * S) = i) by (apply Z.mod_small; lia). rewrite (tb_neg x) by lia. rewrite C.
      replace (S <=? i) with false by lia. reflexivity.
    + rewrite (IH (i - T)) by lia. cbv zeta. rewrite M. destruct (Z.leb_spec T (i mod (2 * S))).
      * replace (i - T - (i mod (2 * S) - T) + S - 1) with (i - i mod (2 * S) + S - 1) by lia.
        destruct (Z.testbit V (i - i mod (2 * S) + S - 1)); [|now rewrite !andb_false_r]. rewrite !andb_true_r. lia.
      * replace (i mod (2 * S) - T + 2 * S <? S + T) with false by lia. rewrite andb_false_r, andb_false_l, xorb_false_r.
        destruct (Z.testbit V (i - i mod (2 * S) + S - 1)); [|now rewrite !andb_false_r]. rewrite !andb_true_r. lia.
Qed.
Lemma skl_spread_word J V : word k V -> word k (skl_spread Z (plain k) J V).
Proof.
  intros W. unfold skl_spread. generalize (seq 0 J). intros l. revert V W.
  induction l as [|a l IH]; intros V W; [exact W|]. cbn [fold_left]. apply IH. cbn [plain c_xor c_lsh].
  apply word_lxor; [lia|exact W|apply word_rshl; lia].
Qed.
Variables x y : Z.
Hypothesis X : word k x.
Hypothesis Y : word k y.
Let p := fun i => xorb (Z.testbit x i) (Z.testbit y i).
Let g := fun i => Z.testbit x i && Z.testbit y i.
Lemma skl_inv L : (L <= 7)%nat -> exists P G, fold_left (skl_level Z (plain k)) (seq 0 L) (Z.lxor x y, Z.land x y) = (P, G) /\
  word k P /\ word k G /\
  forall i, 0 <= i < k -> let m := Datatypes.S (Z.to_nat (i mod 2 ^ Z.of_nat L)) in
    Z.testbit P i = pw p i m /\ Z.testbit G i = gw p g i m.
Proof.
  intros L7. induction L as [|L IH].
  - exists (Z.lxor x y), (Z.land x y). split; [reflexivity|]. split; [apply word_lxor; auto; lia|].
    split; [apply word_land; [lia|exact X|exact (proj1 Y)]|]. intros i I. cbv zeta. change (2 ^ Z.of_nat 0) with 1. rewrite Z.mod_1_r.
    change (Z.to_nat 0) with O. rewrite pw_1, gw_1, Z.lxor_spec, Z.land_spec. now split.
  - destruct (IH ltac:(lia)) as [P [G [E [WP [WG B]]]]]. rewrite seq_S, fold_left_app, E.
    cbn [fold_left skl_level Nat.add]. cbv zeta. cbn [plain c_and c_xor c_lsh c_init].
    eexists _, _. split; [reflexivity|].
    assert (W0 : forall V, word k V -> word k (rshl k 1 (Z.land V (wrap k (nth L skl_sel 0))))) by (intros; apply word_rshl; lia).
    assert (W1 : forall V, word k V -> word k (skl_spread Z (plain k) L (rshl k 1 (Z.land V (wrap k (nth L skl_sel 0)))))).
    { intros V WV. apply skl_spread_word. now apply W0. }
    assert (W2 : word k (Z.lxor (skl_spread Z (plain k) L (rshl k 1 (Z.land P (wrap k (nth L skl_sel 0))))) (wrap k (nth L skl_keep 0)))).
    { apply word_lxor; [lia|now apply W1|apply word_wrap_; lia]. }
    split; [apply word_land; [lia|exact WP|apply W2]|].
    split; [apply word_lxor; [lia|exact WG|apply word_land; [lia|exact WP|apply (W1 G WG)]]|].
    intros i I. cbv zeta. rewrite Z.lxor_spec, !Z.land_spec, Z.lxor_spec, tb_wrap by lia. replace (i <? k) with true by lia. rewrite andb_true_l.
    rewrite skl_keep_bits by lia.
    rewrite (skl_spread_plain P L L), (skl_spread_plain G L L) by (auto; lia). cbv zeta.
    destruct (B i I) as [BP BG]. cbv zeta in BP, BG. rewrite BP, BG. clear BP BG.
    rewrite Nat2Z.inj_succ. unfold Z.succ. set (S := 2 ^ Z.of_nat L) in *.
    assert (SP : 0 < S) by (apply Z.pow_pos_nonneg; lia).
    assert (ES : 2 ^ (Z.of_nat L + 1) = 2 * S) by (rewrite Z.pow_add_r by lia; subst S; lia). rewrite ES.
    pose proof (Z.mod_pos_bound i (2 * S) ltac:(lia)) as MB. pose proof (Z.mod_le i (2 * S) ltac:(lia) ltac:(lia)) as ML.
    assert (MM : i mod S = if i mod (2 * S) <? S then i mod (2 * S) else i mod (2 * S) - S).
    { pose proof (Z.div_mod i (2 * S) ltac:(lia)) as DM. destruct (Z.ltb_spec (i mod (2 * S)) S).
      - symmetry. apply (Z.mod_unique _ _ (2 * (i / (2 * S)))); [left; lia|lia].
      - symmetry. apply (Z.mod_unique _ _ (2 * (i / (2 * S)) + 1)); [left; lia|lia]. }
    rewrite MM. destruct (Z.ltb_spec (i mod (2 * S)) S) as [LT|GE].
    + replace (S <=? i mod (2 * S)) with false by lia. rewrite !andb_false_l. cbn [xorb]. rewrite andb_true_r, andb_false_r, xorb_false_r. now split.
    + replace (S <=? i mod (2 * S)) with true by lia. replace (i mod (2 * S) <? S + S) with true by lia. rewrite !andb_true_l.
      set (s := i - i mod (2 * S) + S - 1). assert (Hs : 0 <= s < k) by (unfold s; lia).
      destruct (B s Hs) as [BP BG]. cbv zeta in BP, BG.
      assert (SM : s mod S = S - 1).
      { symmetry. apply (Z.mod_unique _ _ (2 * (i / (2 * S)))); [left; lia|]. unfold s. pose proof (Z.div_mod i (2 * S)). lia. }
      rewrite SM in BP, BG. rewrite BP, BG, xorb_false_r.
      replace (Datatypes.S (Z.to_nat (i mod (2 * S)))) with (Datatypes.S (Z.to_nat (i mod (2 * S) - S)) + Datatypes.S (Z.to_nat (S - 1)))%nat by lia.
      rewrite pw_app, gw_app.
      replace (i - Z.of_nat (Datatypes.S (Z.to_nat (i mod (2 * S) - S)))) with s by (unfold s; lia). now split.
Qed.
Lemma sklansky_plain nbits : 1 <= nbits <= k -> x < 2 ^ nbits -> y < 2 ^ nbits -> sklansky Z (plain k) x y nbits = wrap k (x + y).
Proof.
  intros NB XN YN. unfold sklansky. cbn [plain c_and c_xor c_lsh].
  pose proof (log2ceil_nonneg nbits). pose proof (log2ceil_le nbits 7 ltac:(lia) ltac:(lia)).
  destruct (skl_inv (Z.to_nat (log2ceil nbits)) ltac:(lia)) as [P [G [E [WP [WG B]]]]]. cbn [plain c_and c_xor c_lsh] in E. rewrite E.
  apply (sum_of_carries k x y ltac:(lia) X Y nbits); auto; try lia.
  - intros i I IN. destruct (B i I) as [_ ->]. cbv zeta. apply gw_carry; [lia|].
    pose proof (log2ceil_bound nbits ltac:(lia)). rewrite Z2Nat.id by lia. rewrite Z.mod_small by lia. lia.
  - intros i I IN. destruct (B i I) as [_ ->]. cbv zeta. apply pg_dead; [| |lia]; unfold p, g;
    rewrite !(word_bit_high nbits) by (unfold word in *; lia); reflexivity.
Qed.
End Skl.

(* ---- interleaving ---- *)
Definition sw (l : nat) (i : Z) : Z :=
  let c := (i / 2 ^ Z.of_nat l) mod 4 in
  if c =? 1 then i + 2 ^ Z.of_nat l else if c =? 2 then i - 2 ^ Z.of_nat l else i.
Lemma sw_digits l q d r : 0 <= r < 2 ^ Z.of_nat l -> 0 <= d < 4 ->
  sw l ((4 * q + d) * 2 ^ Z.of_nat l + r) = (4 * q + (if d =? 1 then 2 else if d =? 2 then 1 else d)) * 2 ^ Z.of_nat l + r.
Proof.
  intros R D. unfold sw. cbv zeta. set (S := 2 ^ Z.of_nat l) in *.
  assert (E : ((4 * q + d) * S + r) / S = 4 * q + d).
  { rewrite Z.add_comm, Z.div_add by lia. rewrite Z.div_small by lia. lia. }
  rewrite E. replace (4 * q + d) with (d + q * 4) by lia. rewrite Z.mod_add by lia. rewrite (Z.mod_small d 4) by lia.
  destruct (Z.eqb_spec d 1); [lia|]. destruct (Z.eqb_spec d 2); lia.
Qed.
Lemma sw_range l w i : (l + 2 <= w)%nat -> 0 <= i < 2 ^ Z.of_nat w -> 0 <= sw l i < 2 ^ Z.of_nat w.
Proof.
  intros L I. set (S := 2 ^ Z.of_nat l). assert (SP : 0 < S) by (apply Z.pow_pos_nonneg; lia).
  set (q := i / S / 4). set (d := (i / S) mod 4).
  assert (D : 0 <= d < 4) by (apply Z.mod_pos_bound; lia).
  assert (E : i = (4 * q + d) * S + i mod S).
  { unfold q, d. rewrite <- (Z.div_mod (i / S) 4) by lia. rewrite Z.mul_comm. apply Z.div_mod. lia. }
  pose proof (Z.mod_pos_bound i S SP) as R.
  assert (W : 2 ^ Z.of_nat w = 4 * S * 2 ^ Z.of_nat (w - (l + 2))).
  { unfold S. change 4 with (2 ^ 2). rewrite <- !Z.pow_add_r by lia. f_equal. lia. }
  assert (Q0 : 0 <= q) by (unfold q; apply Z.div_pos; [apply Z.div_pos; lia|lia]).
  rewrite E. rewrite sw_digits by (fold S; lia). fold S.
  set (d' := if d =? 1 then 2 else if d =? 2 then 1 else d). assert (D' : 0 <= d' <= 3) by (unfold d'; destruct (Z.eqb_spec d 1); [lia|]; destruct (Z.eqb_spec d 2); lia).
  assert (QB : q < 2 ^ Z.of_nat (w - (l + 2))). { apply Z.nle_gt. intros H. nia. }
  split; [nia|]. rewrite W. nia.
Qed.
Lemma sw_invol l i : sw l (sw l i) = i.
Proof.
  set (S := 2 ^ Z.of_nat l). assert (SP : 0 < S) by (apply Z.pow_pos_nonneg; lia).
  set (q := i / S / 4). set (d := (i / S) mod 4).
  assert (D : 0 <= d < 4) by (apply Z.mod_pos_bound; lia).
  assert (E : i = (4 * q + d) * S + i mod S).
  { unfold q, d. rewrite <- (Z.div_mod (i / S) 4) by lia. rewrite Z.mul_comm. apply Z.div_mod. lia. }
  pose proof (Z.mod_pos_bound i S SP) as R.
  rewrite E at 1. rewrite sw_digits by (fold S; lia).
  rewrite sw_digits; [|fold S; lia|destruct (Z.eqb_spec d 1); [lia|]; destruct (Z.eqb_spec d 2); lia]. fold S.
  transitivity ((4 * q + d) * S + i mod S); [|symmetry; exact E]. do 3 f_equal. clear - D.
  assert (C : d = 0 \/ d = 1 \/ d = 2 \/ d = 3) by lia. destruct C as [-> | [-> | [-> | ->]]]; reflexivity.
Qed.

Section Intl.
Variable w : nat.
Hypothesis W7 : (w <= 7)%nat.
Let k := 2 ^ Z.of_nat w.
Local Lemma k_pos : 0 < k.
Proof. apply Z.pow_pos_nonneg; lia. Qed.
Local Lemma k_128 : k <= 128.
Proof. change 128 with (2 ^ 7). apply Z.pow_le_mono_r; lia. Qed.
Lemma swap_level_word r l : word k r -> word k (swap_level k r l).
Proof.
  pose proof k_pos. intros R. unfold swap_level, rxor, rand_.
  assert (WW : forall m, 0 <= wrap k m) by (intros m; apply (word_wrap_ k m); lia).
  apply word_lxor; [lia|apply word_lxor; [lia|apply word_land; [lia|exact R|apply WW]|]|apply word_rshl; lia].
  apply word_land; [lia| |apply WW]. apply word_rshr; [lia|apply Z.pow_nonneg; lia|exact R].
Qed.
Lemma swap_level_bits r l i : (l + 2 <= w)%nat -> word k r -> 0 <= i < k ->
  Z.testbit (swap_level k r l) i = Z.testbit r (sw l i).
Proof.
  intros L R I. pose proof k_pos as KP. pose proof k_128 as KB. unfold swap_level, rxor, rand_.
  set (S := 2 ^ Z.of_nat l). assert (SP : 0 < S) by (apply Z.pow_pos_nonneg; lia).
  rewrite !Z.lxor_spec, tb_rshl, !Z.land_spec, !tb_wrap, tb_rshr by lia.
  replace (i <? k) with true by lia. rewrite !andb_true_l.
  rewrite keep_mask_bits, swap_mask_bits by lia. fold S. unfold sw. cbv zeta. fold S.
  assert (MS : Z.testbit r (i - S) && ((i - S <? k) && Z.testbit (nth l swap_masks 0) (i - S)) = ((i / S) mod 4 =? 2) && Z.testbit r (i - S)).
  { destruct (Z.ltb_spec (i - S) 0).
    - rewrite !(tb_neg r) by lia. now rewrite andb_false_r.
    - replace (i - S <? k) with true by lia. rewrite swap_mask_bits by lia. fold S. rewrite andb_true_l, andb_comm. f_equal.
      replace (i - S) with (i + (-1) * S) by lia. rewrite Z.div_add by lia.
      pose proof (Z.mod_pos_bound (i / S) 4 ltac:(lia)). pose proof (Z.div_mod (i / S) 4 ltac:(lia)).
      destruct (Z.eqb_spec ((i / S) mod 4) 2) as [E|E].
      + apply Z.eqb_eq. symmetry. apply (Z.mod_unique _ _ (i / S / 4)); lia.
      + apply Z.eqb_neq. intros F. pose proof (Z.div_mod (i / S + -1) 4 ltac:(lia)). apply E. symmetry.
        apply (Z.mod_unique _ _ ((i / S + -1) / 4)); lia. }
  rewrite MS. clear MS. pose proof (Z.mod_pos_bound (i / S) 4 ltac:(lia)).
  set (c := (i / S) mod 4) in *. assert (C : c = 0 \/ c = 1 \/ c = 2 \/ c = 3) by lia.
  destruct C as [-> | [-> | [-> | ->]]]; cbn [Z.eqb orb Pos.eqb]; rewrite ?andb_true_l, ?andb_false_l, ?andb_true_r, ?andb_false_r, ?xorb_false_r, ?xorb_false_l; reflexivity.
Qed.
Lemma swap_level_invol r l : (l + 2 <= w)%nat -> word k r -> swap_level k (swap_level k r l) l = r.
Proof.
  intros L R. pose proof k_pos. apply (tb_eq_word k); [lia|do 2 apply swap_level_word; exact R|exact R|].
  intros i I. rewrite swap_level_bits by (auto; now apply swap_level_word).
  rewrite swap_level_bits; [now rewrite sw_invol|auto|auto|apply sw_range; auto].
Qed.
Lemma fold_swap_word ls r : word k r -> word k (fold_left (swap_level k) ls r).
Proof. revert r. induction ls as [|l ls IH]; intros r R; [exact R|]. cbn [fold_left]. apply IH. now apply swap_level_word. Qed.
Lemma fold_swap_rev ls r : Forall (fun l => (l + 2 <= w)%nat) ls -> word k r ->
  fold_left (swap_level k) (rev ls) (fold_left (swap_level k) ls r) = r.
Proof.
  intros F. revert r. induction F as [|l ls H F IH]; intros r R; [reflexivity|].
  cbn [rev fold_left]. rewrite fold_left_app. cbn [fold_left]. rewrite IH by now apply swap_level_word. now apply swap_level_invol.
Qed.
Fixpoint comp_sw (s n : nat) (j : Z) : Z := match n with O => j | S n => comp_sw s n (sw (s + n) j) end.
Lemma fold_swap_bits s n r j : (s + n + 1 <= w)%nat -> word k r -> 0 <= j < k ->
  Z.testbit (fold_left (swap_level k) (seq s n) r) j = Z.testbit r (comp_sw s n j).
Proof.
  revert j. induction n as [|n IH]; intros j L R J; [reflexivity|].
  rewrite seq_S, fold_left_app. cbn [fold_left comp_sw].
  rewrite swap_level_bits; [|lia|now apply fold_swap_word|exact J].
  apply IH; [lia|exact R|]. apply sw_range; [lia|exact J].
Qed.
Lemma comp_sw_spec s n : forall h t m r, 0 <= t <= 1 -> 0 <= m < 2 ^ Z.of_nat n -> 0 <= r < 2 ^ Z.of_nat s ->
  comp_sw s n (h * 2 ^ (Z.of_nat s + Z.of_nat n + 1) + t * 2 ^ (Z.of_nat s + Z.of_nat n) + m * 2 ^ Z.of_nat s + r) =
  h * 2 ^ (Z.of_nat s + Z.of_nat n + 1) + m * 2 ^ (Z.of_nat s + 1) + t * 2 ^ Z.of_nat s + r.
Proof.
  induction n as [|n IH]; intros h t m r T M R.
  - cbn [comp_sw]. change (2 ^ Z.of_nat 0) with 1 in M. replace m with 0 by lia. change (Z.of_nat 0) with 0. rewrite !Z.add_0_r. ring.
  - cbn [comp_sw]. set (A := 2 ^ Z.of_nat s) in *. set (B := 2 ^ Z.of_nat n) in *.
    assert (AP : 0 < A) by (apply Z.pow_pos_nonneg; lia). assert (BP : 0 < B) by (apply Z.pow_pos_nonneg; lia).
    assert (E1 : 2 ^ (Z.of_nat s + Z.of_nat (S n)) = 2 * (A * B)).
    { unfold A, B. rewrite <- !Z.pow_add_r by lia. change 2 with (2 ^ 1) at 2. rewrite <- Z.pow_add_r by lia. f_equal. lia. }
    assert (E2 : 2 ^ (Z.of_nat s + Z.of_nat (S n) + 1) = 4 * (A * B)).
    { rewrite Z.pow_add_r by lia. rewrite E1. lia. }
    assert (E3 : 2 ^ (Z.of_nat s + 1) = 2 * A) by (rewrite Z.pow_add_r by lia; unfold A; lia).
    assert (E4 : 2 ^ Z.of_nat (s + n) = A * B) by (unfold A, B; rewrite <- Z.pow_add_r by lia; f_equal; lia).
    assert (E5 : 2 ^ (Z.of_nat s + Z.of_nat n) = A * B) by (rewrite <- E4; f_equal; lia).
    assert (E6 : 2 ^ (Z.of_nat s + Z.of_nat n + 1) = 2 * (A * B)) by (rewrite Z.pow_add_r, E5 by lia; lia).
    assert (E7 : 2 ^ Z.of_nat (S n) = 2 * B) by (rewrite Nat2Z.inj_succ; unfold Z.succ; rewrite Z.pow_add_r by lia; unfold B; lia).
    rewrite E1, E2, E3. rewrite E7 in M.
    set (m1 := m / B). set (m' := m mod B).
    assert (EM : m = B * m1 + m') by (apply Z.div_mod; lia).
    assert (M' : 0 <= m' < B) by (apply Z.mod_pos_bound; lia).
    assert (M1 : 0 <= m1 <= 1) by (split; [apply Z.div_pos; lia|apply Z.lt_succ_r, Z.div_lt_upper_bound; lia]).
    assert (RR : 0 <= m' * A + r < A * B) by nia.
    replace (h * (4 * (A * B)) + t * (2 * (A * B)) + m * A + r) with ((4 * h + (2 * t + m1)) * 2 ^ Z.of_nat (s + n) + (m' * A + r)) by (rewrite E4, EM; ring).
    rewrite sw_digits by (rewrite ?E4; lia).
    assert (ED : (if 2 * t + m1 =? 1 then 2 else if 2 * t + m1 =? 2 then 1 else 2 * t + m1) = 2 * m1 + t).
    { destruct (Z.eqb_spec (2 * t + m1) 1); [lia|]. destruct (Z.eqb_spec (2 * t + m1) 2); lia. }
    rewrite ED. specialize (IH (2 * h + m1) t m' r T M' R). rewrite E5, E6, E3 in IH.
    rewrite E4. replace ((4 * h + (2 * m1 + t)) * (A * B) + (m' * A + r)) with ((2 * h + m1) * (2 * (A * B)) + t * (A * B) + m' * A + r) by ring.
    rewrite IH, EM. ring.
Qed.
Lemma levels_ok s nbits : nbits <= k -> Forall (fun l => (l + 2 <= w)%nat) (levels s nbits).
Proof.
  intros N. apply Forall_forall. intros l H. unfold levels in H. apply in_seq in H.
  pose proof (log2ceil_le nbits (Z.of_nat w) ltac:(lia) N). lia.
Qed.
Lemma bit_deintl_ok s l nbits x : 0 <= nbits <= k -> log2ceil nbits = l -> Z.of_nat s < l -> word k x ->
  deinterleaved k l (Z.of_nat s) x (bit_deintl k s nbits x).
Proof.
  intros N E S X. pose proof k_pos. split; [now apply fold_swap_word|].
  intros h t m r H0 T M R LT. unfold bit_deintl, levels, bit. rewrite E.
  pose proof (log2ceil_le nbits (Z.of_nat w) ltac:(lia) ltac:(apply N)) as LW. rewrite E in LW.
  set (n := (Z.to_nat (l - 1) - s)%nat). assert (EL : l = Z.of_nat s + Z.of_nat n + 1) by (unfold n; lia).
  assert (0 < 2 ^ l) by (apply Z.pow_pos_nonneg; lia). assert (0 < 2 ^ (l - 1)) by (apply Z.pow_pos_nonneg; lia).
  assert (0 < 2 ^ Z.of_nat s) by (apply Z.pow_pos_nonneg; lia).
  rewrite fold_swap_bits; [|lia|exact X|nia].
  replace (l - 1) with (Z.of_nat s + Z.of_nat n) by lia. rewrite EL. f_equal. apply comp_sw_spec; try lia.
  replace (Z.of_nat n) with (l - 1 - Z.of_nat s) by lia. lia.
Qed.
Lemma bit_intl_deintl s nbits x : nbits <= k -> word k x -> bit_intl k s nbits (bit_deintl k s nbits x) = x.
Proof. intros N X. apply fold_swap_rev; [now apply levels_ok|exact X]. Qed.
Lemma bit_deintl_intl s nbits x : nbits <= k -> word k x -> bit_deintl k s nbits (bit_intl k s nbits x) = x.
Proof.
  intros N X. unfold bit_deintl, bit_intl. rewrite <- (rev_involutive (levels s nbits)) at 1.
  apply fold_swap_rev; [|exact X]. apply Forall_rev. now apply levels_ok.
Qed.
Lemma bit_intl_word s nbits x : word k x -> word k (bit_intl k s nbits x).
Proof. apply fold_swap_word. Qed.
Lemma bit_intl_ok s l nbits x : 0 <= nbits <= k -> log2ceil nbits = l -> Z.of_nat s < l -> word k x ->
  word k (bit_intl k s nbits x) /\ deinterleaved k l (Z.of_nat s) (bit_intl k s nbits x) x.
Proof.
  intros N E S X. split; [now apply bit_intl_word|].
  rewrite <- (bit_deintl_intl s nbits x) at 2 by (auto; lia). apply bit_deintl_ok; auto. now apply bit_intl_word.
Qed.
End Intl.
