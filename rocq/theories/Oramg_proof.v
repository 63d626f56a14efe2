(* The whole tree, the conversion to arithmetic shares, and the oblivious reads. *)
From Coq Require Import Btauto.
From Verif Require Import Base Ring_model Ring_spec Ring_proof Party Share_spec Semi_model Semi_proof Aby_model Aby_spec Aby_proof Abyb_proof Abyc_proof Oram_model Oram_spec Oram_proof.
Open Scope Z_scope.

Definition ceil2 (n : nat) : nat := (n / 2 + (if (n mod 2 =? 0)%nat then 0 else 1))%nat.
Lemma ceil2_spec n : (n <= 2 * ceil2 n <= n + 1)%nat.
Proof. unfold ceil2. pose proof (Nat.div_mod n 2). pose proof (Nat.mod_upper_bound n 2). destruct (Nat.eqb_spec (n mod 2) 0); lia. Qed.

Lemma resize_short n l : (n <= length l)%nat -> resize n l = firstn n l.
Proof. intros. unfold resize. rewrite firstn_app. replace (n - length l)%nat with 0%nat by lia. cbn. apply app_nil_r. Qed.
Lemma nthZ_firstn n l i : (i < n)%nat -> nthZ (firstn n l) i = nthZ l i.
Proof. unfold nthZ. revert l i. induction n; intros [|a l] [|i] H; try lia; try reflexivity. cbn. apply IHn. lia. Qed.

Lemma agree_cut p n m D E : agree p n D E -> (m <= n)%nat -> agree p m (resize m (fst D), snd D) (resize m (fst E), snd E).
Proof.
  intros (LD & LE & KD & KE & H) Hm. unfold agree. cbn [fst snd]. rewrite !resize_short, !firstn_length by lia.
  split; [lia|]. split; [lia|]. split; [lia|]. split; [lia|]. intros i Hi. rewrite !nthZ_firstn by lia. apply H. lia.
Qed.

Fixpoint path (p : nat) (bits : nat -> bool) (l r : nat) : nat :=
  match r with O => p | S r => path (2 * p + (if bits l then 1 else 0)) bits (S l) r end.

Lemma layers_ok enc key numel num QD QE bD bE bits r l half D E p :
  (forall i, (l <= i < l + r)%nat -> Z.lxor (nthZ bD i) (nthZ bE i) = maskbit (bits i)) ->
  agree p half D E -> (r = 0%nat \/ ceil2 numel <= 2 ^ (r - 1) * half)%nat ->
  exists D' E', layers enc key key numel num r l half bD bE QD QE D E = Ok (D', E') /\
    agree (path p bits l r) (if (r =? 0)%nat then half else 2 * ceil2 numel)%nat D' E'.
Proof.
  revert l half D E p. induction r as [|r IH]; intros l half D E p Hb Ha Hr; [eexists _, _; split; [reflexivity|exact Ha]|].
  destruct Hr as [Hr|Hr]; [discriminate|]. cbn [layers]. fold (ceil2 numel).
  set (h := if (r =? 0)%nat then ceil2 numel else half).
  assert (Ha' : agree p h ((if (r =? 0)%nat then resize h (fst D) else fst D), snd D) ((if (r =? 0)%nat then resize h (fst E) else fst E), snd E)).
  { unfold h. destruct r as [|r]; cbn [Nat.eqb].
    - apply (agree_cut p half); [exact Ha|]. change (2 ^ (1 - 1))%nat with 1%nat in Hr. lia.
    - destruct D, E. exact Ha. }
  destruct (layer_ok enc key h num QD QE (2 * l) (2 * l + 1) (bits l) (nthZ bD l) (nthZ bE l) _ _ p Ha') as (D' & E' & EQ & A'); [apply Hb; lia|].
  rewrite EQ. cbn [rbind fst snd].
  destruct (IH (S l) (2 * h)%nat D' E' (2 * p + (if bits l then 1 else 0))%nat) as (D2 & E2 & EQ2 & A2).
  - intros i Hi. apply Hb. lia.
  - exact A'.
  - destruct r as [|r]; [left; reflexivity|right]. unfold h. cbn [Nat.eqb]. replace (S (S r) - 1)%nat with (S r) in Hr by lia.
    replace (S r - 1)%nat with r by lia. rewrite Nat.pow_succ_r' in Hr. lia.
  - exists D2, E2. split; [exact EQ2|]. cbn [path Nat.eqb]. destruct r as [|r]; [unfold h in A2; exact A2|exact A2].
Qed.

(* ---- the path is the index ---- *)
Lemma low_bit x r : x mod 2 ^ Z.of_nat (S r) = x mod 2 ^ Z.of_nat r + 2 ^ Z.of_nat r * Z.b2z (Z.testbit x (Z.of_nat r)).
Proof.
  rewrite Nat2Z.inj_succ, Z.pow_succ_r by lia. rewrite (Z.mul_comm 2), Z.rem_mul_r by (apply Z.pow_nonzero || idtac; lia).
  rewrite Z.testbit_spec' by lia. reflexivity.
Qed.
Lemma path_index x depth r l p : (l + r = depth)%nat ->
  Z.of_nat (path p (fun i => Z.testbit x (Z.of_nat (depth - 1 - i))) l r) = Z.of_nat p * 2 ^ Z.of_nat r + x mod 2 ^ Z.of_nat r.
Proof.
  revert l p. induction r as [|r IH]; intros l p H; cbn [path].
  - rewrite Z.mod_1_r. change (2 ^ Z.of_nat 0) with 1. lia.
  - rewrite IH by lia. rewrite low_bit. replace (depth - 1 - l)%nat with r by lia. rewrite Nat2Z.inj_succ, Z.pow_succ_r by lia.
    destruct (Z.testbit x (Z.of_nat r)); cbn [Z.b2z]; lia.
Qed.

Lemma nth_rev_seq {A} (f : nat -> A) n i d : (i < n)%nat -> nth i (rev (map f (seq 0 n))) d = f (n - 1 - i)%nat.
Proof.
  intros H. rewrite rev_nth; rewrite map_length, seq_length; [|lia]. rewrite (nth_indep _ d (f 0%nat)) by (rewrite map_length, seq_length; lia).
  rewrite map_nth, seq_nth by lia. f_equal. lia.
Qed.
Lemma decompose_bit x n i : (i < n)%nat -> nthZ (bit_decompose x n) i = maskbit (Z.testbit x (Z.of_nat (n - 1 - i))).
Proof.
  intros H. unfold nthZ, bit_decompose. rewrite nth_rev_seq by exact H.
  assert (E : Z.land (Z.shiftr x (Z.of_nat (n - 1 - i))) 1 = Z.b2z (Z.testbit x (Z.of_nat (n - 1 - i)))).
  { rewrite (Z.land_ones _ 1) by lia. rewrite Z.shiftr_div_pow2 by lia. rewrite Z.testbit_spec' by lia. reflexivity. }
  rewrite E. destruct (Z.testbit x _); reflexivity.
Qed.
Lemma maskbit_xor a b : Z.lxor (maskbit a) (maskbit b) = maskbit (xorb a b).
Proof. destruct a, b; reflexivity. Qed.

Lemma log2ceil_bits n : index_bits n (log2ceil n).
Proof.
  unfold index_bits, log2ceil. destruct (Nat.leb_spec n 1) as [H|H].
  - split; [cbn; lia|]. intros. lia.
  - split.
    + destruct (Nat.log2_spec (n - 1)); lia.
    + intros b' Hb'. enough (Nat.log2 (n - 1) < b')%nat by lia. apply Nat.log2_lt_pow2; lia.
Qed.
Lemma index_bits_unique n b b' : index_bits n b -> index_bits n b' -> b = b'.
Proof. intros [H1 H2] [H3 H4]. pose proof (H2 b' H3). pose proof (H4 b H1). lia. Qed.

Lemma set_lsb_w x b : w128 (set_lsb x b).
Proof.
  unfold set_lsb, w128, ones128. rewrite Z.land_lor_distr_l, <- !Z.land_assoc. reflexivity.
Qed.

Lemma dpf_gen_ok enc numel key seedD seedE xD xE QD QE :
  exists vD eD vE eE, dpf_gen enc numel key key seedD seedE xD xE QD QE = Ok ((vD, eD), (vE, eE)) /\
    length vD = numel /\ length eD = numel /\ length vE = numel /\ length eE = numel /\
    forall i, (i < numel)%nat -> isbit (nthZ eD i) /\ isbit (nthZ eE i) /\
      if (Z.of_nat i =? Z.lxor xD xE mod 2 ^ Z.of_nat (log2ceil numel)) then Z.lxor (nthZ eD i) (nthZ eE i) = 1
      else nthZ vD i = nthZ vE i /\ nthZ eD i = nthZ eE i.
Proof.
  unfold dpf_gen. set (depth := log2ceil numel).
  set (bits := fun i => Z.testbit (Z.lxor xD xE) (Z.of_nat (depth - 1 - i))).
  destruct (log2ceil_bits numel) as [Hn _]. fold depth in Hn.
  destruct (layers_ok enc key numel (depth * 2) QD QE (bit_decompose xD depth) (bit_decompose xE depth) bits depth 0 1
              ([set_lsb seedD 0], [0]) ([set_lsb seedE 1], [1]) 0) as ([vD eD] & [vE eE] & EQ & (L1 & L2 & L3 & L4 & H)).
  - intros i Hi. rewrite !decompose_bit by lia. rewrite maskbit_xor, <- Z.lxor_spec. reflexivity.
  - split; [reflexivity|]. split; [reflexivity|]. split; [cbn; lia|]. split; [cbn; lia|].
    intros [|i] Hi; [|lia]. cbn [nthZ nth fst snd Nat.eqb]. split; [left; reflexivity|]. split; [right; reflexivity|]. split; [apply set_lsb_w|]. split; [apply set_lsb_w|reflexivity].
  - destruct depth as [|d]; [left; reflexivity|right]. pose proof (ceil2_spec numel). replace (S d - 1)%nat with d by lia. rewrite Nat.pow_succ_r' in Hn. lia.
  - rewrite EQ. cbn [rbind fst snd] in *.
    set (n' := (if (depth =? 0)%nat then 1 else 2 * ceil2 numel)%nat) in *.
    assert (Hn' : (numel <= n')%nat).
    { unfold n'. destruct (Nat.eqb_spec depth 0) as [E0|]; [rewrite E0 in Hn; exact Hn|apply ceil2_spec]. }
    unfold take. destruct (Nat.ltb_spec (length eD) numel); [lia|]. destruct (Nat.ltb_spec (length vD) numel); [lia|].
    destruct (Nat.ltb_spec (length eE) numel); [lia|]. destruct (Nat.ltb_spec (length vE) numel); [lia|]. cbn [rbind].
    eexists _, _, _, _. split; [reflexivity|]. rewrite !firstn_length. split; [lia|]. split; [lia|]. split; [lia|]. split; [lia|].
    intros i Hi. rewrite !nthZ_firstn by lia. destruct (H i ltac:(lia)) as (B1 & B2 & _ & _ & H'). split; [exact B1|]. split; [exact B2|].
    pose proof (path_index (Z.lxor xD xE) depth depth 0 0 eq_refl) as Hp. fold bits in Hp. cbn [Z.of_nat] in Hp. rewrite Z.mul_0_l, Z.add_0_l in Hp.
    rewrite <- Hp. destruct (Nat.eqb_spec i (path 0 bits 0 depth)) as [->|Hne].
    + rewrite Z.eqb_refl. exact H'.
    + destruct (Z.eqb_spec (Z.of_nat i) (Z.of_nat (path 0 bits 0 depth))); [lia|]. exact H'.
Qed.

(* ---- conversion to arithmetic shares ---- *)
Lemma total_sum k l a : eqm k (fold_left (radd k) l a) (a + sumZ l).
Proof. revert a. induction l as [|x l IH]; intros a; cbn [fold_left sumZ]; [apply eqm_of_eq; ring|]. rewrite IH. ev. apply eqm_of_eq; ring. Qed.
Lemma neg_total_sum k l a : eqm k (fold_left (rsub k) l a) (a - sumZ l).
Proof. revert a. induction l as [|x l IH]; intros a; cbn [fold_left sumZ]; [apply eqm_of_eq; ring|]. rewrite IH. ev. apply eqm_of_eq; ring. Qed.
Lemma cast_d_sum k l : eqm k (sumZ (cast_d k l)) (- sumZ l).
Proof. induction l as [|x l IH]; [reflexivity|]. unfold cast_d in *. cbn [map sumZ]. rewrite IH. ev. apply eqm_of_eq; ring. Qed.
Lemma cast_e_sum k l : eqm k (sumZ (cast_e k l)) (sumZ l).
Proof. induction l as [|x l IH]; [reflexivity|]. unfold cast_e in *. cbn [map sumZ]. rewrite IH. ev. apply eqm_of_eq; ring. Qed.
Lemma nthZ_map f l i : (i < length l)%nat -> nthZ (map f l) i = f (nthZ l i).
Proof. unfold nthZ. revert i. induction l as [|a l IH]; intros [|i] H; cbn in *; try (exfalso; lia); try reflexivity. apply IH. lia. Qed.
Lemma nthZ_zip f a b i : (i < length a)%nat -> length b = length a -> nthZ (zipWith f a b) i = f (nthZ a i) (nthZ b i).
Proof. unfold nthZ. revert b i. induction a as [|x a IH]; intros [|y b] [|i] H L; cbn in *; try (exfalso; lia); try reflexivity. apply IH; lia. Qed.
Lemma zip_len {A B C} (f : A -> B -> C) a b : length b = length a -> length (zipWith f a b) = length a.
Proof. revert b. induction a as [|x a IH]; intros [|y b] L; cbn in *; try lia. rewrite IH; lia. Qed.

(* sums of two lists that differ in at most one place *)
Lemma sum_diff l l' p : length l' = length l -> (forall i, (i < length l)%nat -> i <> p -> nthZ l i = nthZ l' i) ->
  sumZ l' - sumZ l = if (p <? length l)%nat then nthZ l' p - nthZ l p else 0.
Proof.
  revert l' p. induction l as [|a l IH]; intros [|b l'] p L H; cbn [length] in *; try lia; [reflexivity|].
  cbn [sumZ]. destruct p as [|p].
  - assert (E : l' = l).
    { clear IH. apply nth_ext with 0 0; [lia|]. intros n Hn. symmetry. exact (H (S n) ltac:(lia) ltac:(lia)). }
    subst l'. change (nthZ (b :: l) 0) with b. change (nthZ (a :: l) 0) with a. change (0 <? S (length l))%nat with true. cbv iota. lia.
  - assert (Eab : a = b) by exact (H 0%nat ltac:(lia) ltac:(lia)). subst b.
    change (nthZ (a :: l') (S p)) with (nthZ l' p). change (nthZ (a :: l) (S p)) with (nthZ l p). change (S p <? S (length l))%nat with (p <? length l)%nat.
    specialize (IH l' p ltac:(lia)). rewrite <- IH; [lia|]. intros i Hi Hp. exact (H (S i) ltac:(lia) ltac:(lia)).
Qed.

Lemma share_d k a b c e u : eqm k (mul2pc_share k true (a, b, c) e u) (c + e * b + u * a + e * u).
Proof. unfold mul2pc_share. cbv beta iota zeta. rewrite !eqm_radd, !eqm_rmul. reflexivity. Qed.
Lemma share_e k a b c e u : eqm k (mul2pc_share k false (a, b, c) e u) (c + e * b + u * a).
Proof. unfold mul2pc_share. cbv beta iota zeta. rewrite !eqm_radd, !eqm_rmul. reflexivity. Qed.
Lemma adjusted_c k a b c a' b' c' : eqm k (radd k c (rsub k (rmul k (radd k a' a) (radd k b' b)) (radd k c' c))) ((a' + a) * (b' + b) - c').
Proof. rewrite eqm_radd, eqm_rsub, eqm_rmul, !eqm_radd. apply eqm_of_eq. ring. Qed.
Lemma opened_diff k x a x' a' : eqm k (radd k (rsub k x a) (rsub k x' a')) (x + x' - a - a').
Proof. rewrite eqm_radd, !eqm_rsub. apply eqm_of_eq. ring. Qed.
Lemma masked_open k a b r r' : eqm k (radd k (radd k a (wrap k r)) (radd k b (wrap k r'))) (a + b + r + r').
Proof. rewrite eqm_radd, (eqm_radd k a), (eqm_radd k b), (eqm_wrap k r), (eqm_wrap k r'). apply eqm_of_eq. ring. Qed.
Lemma mul2pc_ok k QD QE xD yD xE yE : 
  let p := mul2pc k (mul_triple_d k 1 QD QE 0) (triple_e 1 QE 0) xD yD xE yE in eqm k (fst p + snd p) ((xD + xE) * (yD + yE)).
Proof.
  cbv zeta. unfold mul2pc, mul_triple_d, triple_e. cbv beta iota zeta. cbn [fst snd].
  generalize (QD 0%nat) (QD (1 + 0)%nat) (QD (2 * 1 + 0)%nat) (QE 0%nat) (QE (1 + 0)%nat) (QE (2 * 1 + 0)%nat). intros a b c a' b' c'.
  rewrite share_d, share_e. rewrite (adjusted_c k a b c a' b' c').
  rewrite (opened_diff k xD a xE a'), (opened_diff k yD b yE b'), (opened_diff k xE a' xD a), (opened_diff k yE b' yD b).
  apply eqm_of_eq. ring.
Qed.

Lemma onehot2_ok enc k s key xD xE R : 1 <= k ->
  exists oD oE, onehot2 enc k s key key xD xE R = Ok (oD, oE) /\ forall i, (i < s)%nat -> word k (nthZ oD i) /\ word k (nthZ oE i) /\
    eqm k (nthZ oD i + nthZ oE i) (if Z.of_nat i =? Z.lxor xD xE mod 2 ^ Z.of_nat (log2ceil s) then 1 else 0).
Proof.
  intros Hk. unfold onehot2.
  destruct (dpf_gen_ok enc s key (seed_d R) (seed_e R) xD xE (and_d R) (and_e R)) as (vD & eD & vE & eE & EQ & LvD & LeD & LvE & LeE & H).
  rewrite EQ. cbn [rbind]. clear EQ. set (t := Z.lxor xD xE mod 2 ^ Z.of_nat (log2ceil s)) in *.
  assert (Ht : 0 <= t) by (apply Z.mod_pos_bound; apply Z.pow_pos_nonneg; lia). clearbody t.
  unfold onehot_b2a. eexists _, _. split; [reflexivity|].
  assert (LcvD : length (cast_d k vD) = s) by (unfold cast_d; rewrite map_length; exact LvD).
  assert (LceD : length (cast_d k eD) = s) by (unfold cast_d; rewrite map_length; exact LeD).
  assert (LcvE : length (cast_e k vE) = s) by (unfold cast_e; rewrite map_length; exact LvE).
  assert (LceE : length (cast_e k eE) = s) by (unfold cast_e; rewrite map_length; exact LeE).
  intros i Hi. unfold convert.
  rewrite !nthZ_zip by lia. split; [words|]. split; [words|].
  set (P := mul2pc _ _ _ _ _ _ _).
  assert (HP := mul2pc_ok k (mul_d R) (mul_e R) (total k (cast_d k eD)) (neg_total k (cast_d k vD)) (total k (cast_e k eE)) (neg_total k (cast_e k vE))).
  fold P in HP. cbv zeta in HP. clearbody P.
  assert (TD : eqm k (total k (cast_d k eD)) (- sumZ eD)) by (unfold total; rewrite total_sum, cast_d_sum; apply eqm_of_eq; ring).
  assert (TE : eqm k (total k (cast_e k eE)) (sumZ eE)) by (unfold total; rewrite total_sum, cast_e_sum; apply eqm_of_eq; ring).
  assert (FD : eqm k (neg_total k (cast_d k vD)) (sumZ vD)) by (unfold neg_total; rewrite neg_total_sum, cast_d_sum; apply eqm_of_eq; ring).
  assert (FE : eqm k (neg_total k (cast_e k vE)) (- sumZ vE)) by (unfold neg_total; rewrite neg_total_sum, cast_e_sum; apply eqm_of_eq; ring).
  rewrite TD, TE, FD, FE in HP.
  assert (CD : forall l, length l = s -> eqm k (nthZ (cast_d k l) i) (- nthZ l i)).
  { intros l Hl. unfold cast_d. rewrite nthZ_map by lia. rewrite eqm_rmul, !eqm_wrap. apply eqm_of_eq; ring. }
  assert (CE : forall l, length l = s -> eqm k (nthZ (cast_e k l) i) (nthZ l i)).
  { intros l Hl. unfold cast_e. rewrite nthZ_map by lia. rewrite eqm_rmul, !eqm_wrap. apply eqm_of_eq; ring. }
  assert (One : forall e v pm bF, eqm k (rsub k (rsub k (rmul k e pm) v) (rmul k e bF)) (e * pm - v - e * bF)).
  { intros. rewrite !eqm_rsub, !eqm_rmul. reflexivity. }
  rewrite !One, (CD eD LeD), (CD vD LvD), (CE eE LeE), (CE vE LvE). clear One CD CE.
  rewrite (masked_open k (total k (cast_d k eD)) (total k (cast_e k eE))), (masked_open k (total k (cast_e k eE)) (total k (cast_d k eD))), (masked_open k (fst P) (snd P)), (masked_open k (snd P) (fst P)), TD, TE.
  apply eqm_trans with ((nthZ eE i - nthZ eD i) * (sumZ eE - sumZ eD) - (nthZ vE i - nthZ vD i) - (nthZ eE i - nthZ eD i) * (fst P + snd P)).
  { apply eqm_of_eq. ring. }
  rewrite HP. clear HP TD TE FD FE P.
  assert (Se := sum_diff eD eE (Z.to_nat t) ltac:(lia)). assert (Sv := sum_diff vD vE (Z.to_nat t) ltac:(lia)).
  rewrite LeD in Se. rewrite LvD in Sv.
  assert (Off : forall j, (j < s)%nat -> j <> Z.to_nat t -> nthZ vD j = nthZ vE j /\ nthZ eD j = nthZ eE j).
  { intros j Hj Hn. destruct (H j Hj) as (_ & _ & H'). destruct (Z.eqb_spec (Z.of_nat j) t); [lia|exact H']. }
  specialize (Se (fun j Hj Hn => proj2 (Off j Hj Hn))). specialize (Sv (fun j Hj Hn => proj1 (Off j Hj Hn))).
  destruct (H i Hi) as (B1 & B2 & H'). destruct (Z.eqb_spec (Z.of_nat i) t) as [Et|Et].
  - assert (Ei : Z.to_nat t = i) by lia. rewrite Ei in Se, Sv. rewrite (proj2 (Nat.ltb_lt i s) Hi) in Se, Sv.
    replace (- sumZ eD + sumZ eE) with (sumZ eE - sumZ eD) by ring. replace (sumZ vD + - sumZ vE) with (- (sumZ vE - sumZ vD)) by ring.
    rewrite Se, Sv. apply eqm_of_eq. destruct B1 as [E1|E1], B2 as [E2|E2]; rewrite E1, E2 in *; cbn in H'; try discriminate H'; ring.
  - destruct H' as [-> ->]. apply eqm_of_eq. ring.
Qed.

Lemma two_shares_of k a b v : 0 <= k -> word k a -> word k b -> word k v -> eqm k (a + b) v -> two_shares k a b v.
Proof.
  intros Hk Ha Hb Hv H. split; [exact Ha|]. split; [exact Hb|]. split; [exact Hv|].
  destruct (eqm_exists k v (a + b) Hk (eqm_sym _ _ _ H)) as [q ->]. exists q. reflexivity.
Qed.
Lemma unit_word k t i : 1 <= k -> word k (unit_at t i).
Proof. intros. unfold word, unit_at. pose proof (Z.pow_le_mono_r 2 1 k). destruct Nat.eq_dec; lia. Qed.

Lemma onehot_aa_ok enc k s X x keys R : 1 <= k -> repB k X x ->
  exists O, onehot_aa enc k s X keys R = Ok O /\ shares_unit k s O (Z.to_nat (x mod 2 ^ Z.of_nat (log2ceil s))).
Proof.
  intros Hk [HR [Hx Hsum]]. unfold onehot_aa.
  assert (Hpos : 0 <= x mod 2 ^ Z.of_nat (log2ceil s)) by (apply Z.mod_pos_bound; apply Z.pow_pos_nonneg; lia).
  assert (E : forall j, (j < 3)%nat -> Z.lxor (Z.lxor (fst (X j)) (snd (X j))) (fst (X (prv j))) = x).
  { intros j Hj. destruct (HR j Hj) as (_ & _ & ->). rewrite <- Hsum. clear - Hj. three j; cbn [nxt prv]; zbits; btauto. }
  destruct (onehot2_ok enc k s (keys 0%nat) (Z.lxor (fst (X 0%nat)) (snd (X 0%nat))) (fst (X (prv 0))) (R 0%nat) Hk) as (aD & aE & Ea & Ha).
  destruct (onehot2_ok enc k s (keys 1%nat) (Z.lxor (fst (X 1%nat)) (snd (X 1%nat))) (fst (X (prv 1))) (R 1%nat) Hk) as (bD & bE & Eb & Hb).
  destruct (onehot2_ok enc k s (keys 2%nat) (Z.lxor (fst (X 2%nat)) (snd (X 2%nat))) (fst (X (prv 2))) (R 2%nat) Hk) as (cD & cE & Ec & Hc).
  rewrite E in Ha, Hb, Hc by lia.
  change (nx (prv 0)) with 0%nat. change (nx (prv 1)) with 1%nat. change (nx (prv 2)) with 2%nat.
  rewrite Ea. cbn [rbind]. rewrite Eb. cbn [rbind]. rewrite Ec. cbn [rbind]. eexists. split; [reflexivity|].
  intros p i Hp Hi.
  assert (Q : forall oD oE, (forall q, (q < s)%nat -> word k (nthZ oD q) /\ word k (nthZ oE q) /\
      eqm k (nthZ oD q + nthZ oE q) (if Z.of_nat q =? x mod 2 ^ Z.of_nat (log2ceil s) then 1 else 0)) ->
      two_shares k (nthZ oD p) (nthZ oE p) (unit_at (Z.to_nat (x mod 2 ^ Z.of_nat (log2ceil s))) p)).
  { intros oD oE Ho. destruct (Ho p Hp) as (W1 & W2 & W3). apply two_shares_of; [lia|exact W1|exact W2|apply unit_word; lia|].
    rewrite W3. apply eqm_of_eq. unfold unit_at. destruct Nat.eq_dec, (Z.eqb_spec (Z.of_nat p) (x mod 2 ^ Z.of_nat (log2ceil s))); lia. }
  three i; cbn [nxt nx nextrank Nat.eqb fst snd].
  - apply (Q _ _ Hb).
  - apply (Q _ _ Hc).
  - apply (Q _ _ Ha).
Qed.

Lemma onehot_ap_ok enc k s X x keys R : 1 <= k -> repB k X x ->
  exists O, onehot_ap enc k s X keys R = Ok O /\ shares_unit2 k s O (Z.to_nat (x mod 2 ^ Z.of_nat (log2ceil s))).
Proof.
  intros Hk [HR [Hx Hsum]]. unfold onehot_ap. rewrite (Z.add_comm (keys 1%nat)).
  assert (Hpos : 0 <= x mod 2 ^ Z.of_nat (log2ceil s)) by (apply Z.mod_pos_bound; apply Z.pow_pos_nonneg; lia).
  assert (E : Z.lxor (Z.lxor (fst (X 1%nat)) (snd (X 1%nat))) (fst (X 0%nat)) = x).
  { destruct (HR 1%nat ltac:(lia)) as (_ & _ & ->). rewrite <- Hsum. cbn [nxt]. zbits; btauto. }
  destruct (onehot2_ok enc k s (wrap 128 (keys 0%nat + keys 1%nat)) (Z.lxor (fst (X 1%nat)) (snd (X 1%nat))) (fst (X 0%nat)) R Hk) as (oD & oE & Eo & Ho).
  rewrite E in Ho. rewrite Eo. cbn [rbind]. eexists. split; [reflexivity|]. intros p Hp. cbn [fst snd].
  destruct (Ho p Hp) as (W1 & W2 & W3). apply two_shares_of; [lia|exact W1|exact W2|apply unit_word; lia|].
  rewrite W3. apply eqm_of_eq. unfold unit_at. destruct Nat.eq_dec, (Z.eqb_spec (Z.of_nat p) (x mod 2 ^ Z.of_nat (log2ceil s))); lia.
Qed.

(* ---- reads ---- *)
Lemma shifted_lt n offset a : (a < n)%nat -> (offset <= n)%nat -> (shifted n offset a < n)%nat.
Proof. intros. unfold shifted. destruct (Nat.eqb_spec offset 0); [lia|]. apply Nat.mod_upper_bound. lia. Qed.
Lemma shifted_spec n offset a t : (a < n)%nat -> (t < n)%nat -> (offset <= n)%nat -> shifted n offset a = t <-> a = ((t + offset) mod n)%nat.
Proof.
  intros Ha Ht Ho. unfold shifted. destruct (Nat.eqb_spec offset 0) as [->|H0].
  - rewrite Nat.add_0_r, Nat.mod_small by lia. tauto.
  - assert (E1 : ((a + n - offset) mod n = if a <? offset then a + n - offset else a - offset)%nat).
    { destruct (Nat.ltb_spec a offset); [apply Nat.mod_small; lia|].
      replace (a + n - offset)%nat with ((a - offset) + 1 * n)%nat by lia. rewrite Nat.mod_add by lia. apply Nat.mod_small. lia. }
    assert (E2 : ((t + offset) mod n = if t + offset <? n then t + offset else t + offset - n)%nat).
    { destruct (Nat.ltb_spec (t + offset) n); [apply Nat.mod_small; lia|].
      replace (t + offset)%nat with ((t + offset - n) + 1 * n)%nat by lia. rewrite Nat.mod_add by lia. replace (t + offset - n + 1 * n - n)%nat with (t + offset - n)%nat by lia. apply Nat.mod_small. lia. }
    rewrite E1, E2. destruct (Nat.ltb_spec a offset), (Nat.ltb_spec (t + offset) n); lia.
Qed.
Lemma dot_unit n t v : dot n (unit_at t) v = if (t <? n)%nat then v t else 0.
Proof.
  induction n as [|n IH]; [reflexivity|]. cbn [dot]. rewrite IH. unfold unit_at.
  destruct (Nat.ltb_spec t n), (Nat.ltb_spec t (S n)), (Nat.eq_dec n t); subst; try lia.
Qed.

Lemma two_eqm k a b v : 0 <= k -> two_shares k a b v -> eqm k (a + b) v.
Proof. intros Hk (_ & _ & _ & q & ->). symmetry. apply eqm_mult. Qed.

Lemma read_oa_ok k n O db v S offset c t : 1 <= k -> shares_unit k n O t -> (t < n)%nat -> (offset <= n)%nat ->
  (forall a, (a < n)%nat -> repA k (db a c) (v a)) ->
  exists V, read_oa k n O db S offset c = Ok V /\ repA k V (v ((t + offset) mod n)%nat).
Proof.
  intros Hk HO Ht Hoff Hdb. unfold read_oa. destruct (Nat.ltb_spec n offset); [lia|]. eexists. split; [reflexivity|].
  set (t' := ((t + offset) mod n)%nat). assert (Ht' : (t' < n)%nat) by (apply Nat.mod_upper_bound; lia).
  apply repA_rot; [lia| |exact (proj1 (proj2 (Hdb t' Ht')))|].
  { intros i Hi. words. }
  cbn [nx nextrank Nat.eqb].
  assert (U : forall a, (a < n)%nat -> unit_at t (shifted n offset a) = unit_at t' a).
  { intros a Ha. unfold unit_at. pose proof (shifted_spec n offset a t Ha Ht Hoff) as [S1 S2]. fold t' in S1, S2.
    destruct (Nat.eq_dec (shifted n offset a) t) as [E|E], (Nat.eq_dec a t') as [E'|E']; try reflexivity; exfalso; auto. }
  assert (G : forall m, (m <= n)%nat -> forall i,
     eqm k (radd k (radd k (ring_mmul k m (fun _ a => fst (O (shifted n offset a) i)) (fun a b => fst (db a b i)) 0 c)
                           (ring_mmul k m (fun _ a => snd (O (shifted n offset a) i)) (fun a b => snd (db a b i)) 0 c))
                   (rsub k (wrap k (S i)) (wrap k (S (nx i)))))
           (dot m (fun a => fst (O (shifted n offset a) i)) (fun a => fst (db a c i)) + dot m (fun a => snd (O (shifted n offset a) i)) (fun a => snd (db a c i)) + (S i - S (nx i)))).
  { intros m _ i. rewrite eqm_radd, (eqm_radd k (ring_mmul _ _ _ _ _ _)), eqm_rsub, !eqm_wrap, !mmul_dot by lia. reflexivity. }
  pose proof (G n (le_n n) 0%nat) as G0. pose proof (G n (le_n n) 1%nat) as G1. pose proof (G n (le_n n) 2%nat) as G2. clear G.
  cbn [nx nextrank Nat.eqb] in G0, G1, G2. rewrite G0, G1, G2. clear G0 G1 G2.
  apply eqm_trans with (dot n (unit_at t') v).
  2: { apply eqm_of_eq. rewrite dot_unit. rewrite (proj2 (Nat.ltb_lt t' n) Ht'). reflexivity. }
  assert (G : forall m, (m <= n)%nat ->
    eqm k (dot m (fun a => fst (O (shifted n offset a) 0%nat)) (fun a => fst (db a c 0%nat)) + dot m (fun a => snd (O (shifted n offset a) 0%nat)) (fun a => snd (db a c 0%nat))
         + (dot m (fun a => fst (O (shifted n offset a) 1%nat)) (fun a => fst (db a c 1%nat)) + dot m (fun a => snd (O (shifted n offset a) 1%nat)) (fun a => snd (db a c 1%nat)))
         + (dot m (fun a => fst (O (shifted n offset a) 2%nat)) (fun a => fst (db a c 2%nat)) + dot m (fun a => snd (O (shifted n offset a) 2%nat)) (fun a => snd (db a c 2%nat))))
          (dot m (unit_at t') v)).
  { induction m as [|m IH]; intros Hm; [reflexivity|]. specialize (IH ltac:(lia)). cbn [dot]. rewrite <- IH. clear IH.
    assert (Hsh : (shifted n offset m < n)%nat) by (apply shifted_lt; lia).
    pose proof (two_eqm k _ _ _ ltac:(lia) (HO _ 0%nat Hsh ltac:(lia))) as Q0. pose proof (two_eqm k _ _ _ ltac:(lia) (HO _ 1%nat Hsh ltac:(lia))) as Q1.
    pose proof (two_eqm k _ _ _ ltac:(lia) (HO _ 2%nat Hsh ltac:(lia))) as Q2. rewrite U in Q0, Q1, Q2 by lia. cbn [nxt] in Q0, Q1, Q2.
    destruct (repA_shape k (db m c) (v m) ltac:(lia) (Hdb m ltac:(lia))) as [a [b [d [_ [_ [_ [E0 [E1 [E2 E]]]]]]]]].
    rewrite E0, E1, E2. cbn [fst snd]. rewrite <- E.
    match goal with |- eqm _ _ (?R + _) => apply eqm_trans with (R + ((fst (O (shifted n offset m) 0%nat) + snd (O (shifted n offset m) 2%nat)) * a
        + (fst (O (shifted n offset m) 1%nat) + snd (O (shifted n offset m) 0%nat)) * b + (fst (O (shifted n offset m) 2%nat) + snd (O (shifted n offset m) 1%nat)) * d)) end.
    - apply eqm_of_eq. ring.
    - rewrite Q0, Q1, Q2. apply eqm_of_eq. ring. }
  rewrite <- (G n (le_n n)). apply eqm_of_eq. ring.
Qed.

Lemma read_op_ok k n O db S offset c t : 1 <= k -> shares_unit2 k n O t -> (t < n)%nat -> (offset <= n)%nat -> (forall a, (a < n)%nat -> word k (db a c)) ->
  exists V, read_op k n O db S offset c = Ok V /\ repA k V (db ((t + offset) mod n)%nat c).
Proof.
  intros Hk HO Ht Hoff Hdb. unfold read_op. destruct (Nat.ltb_spec n offset); [lia|]. eexists. split; [reflexivity|].
  set (t' := ((t + offset) mod n)%nat). assert (Ht' : (t' < n)%nat) by (apply Nat.mod_upper_bound; lia).
  apply repA_rot; [lia| |apply Hdb; exact Ht'|].
  { intros i Hi. words. }
  cbn [nx nextrank Nat.eqb].
  rewrite (eqm_radd k (ring_mmul k n (fun _ a => O (shifted n offset a) 0%nat) db 0 c)), (eqm_radd k (ring_mmul k n (fun _ a => O (shifted n offset a) 1%nat) db 0 c)), (eqm_radd k 0).
  rewrite !eqm_rsub, !eqm_wrap, !mmul_dot by lia.
  apply eqm_trans with (dot n (unit_at t') (fun a => db a c)).
  2: { apply eqm_of_eq. rewrite dot_unit. rewrite (proj2 (Nat.ltb_lt t' n) Ht'). reflexivity. }
  apply eqm_trans with (dot n (fun a => O (shifted n offset a) 1%nat + O (shifted n offset a) 0%nat) (fun a => db a c)).
  - apply eqm_of_eq. rewrite dot_add_l. ring.
  - apply dot_eqm. intros a Ha. split; [|reflexivity].
    rewrite (two_eqm k _ _ _ ltac:(lia) (HO _ (shifted_lt n offset a Ha Hoff))). apply eqm_of_eq.
    unfold unit_at. pose proof (shifted_spec n offset a t Ha Ht Hoff) as [S1 S2]. fold t' in S1, S2.
    destruct (Nat.eq_dec (shifted n offset a) t) as [E|E], (Nat.eq_dec a t') as [E'|E']; try reflexivity; exfalso; auto.
Qed.

(* ---- the kernels, from arithmetic shares of the index ---- *)
Lemma a2b_repB k T t X S x : ringw k -> repA k X x -> exists V, a2b3 k T t X S = Ok V /\ repB k (bx V) x.
Proof.
  intros F H. assert (F' : exists w, (5 <= w)%nat /\ (w <= 7)%nat /\ k = 2 ^ Z.of_nat w).
  { destruct F as [-> | [-> | ->]]; [exists 5%nat|exists 6%nat|exists 7%nat]; repeat split; lia. }
  destruct F' as [w [W5 [W7 ->]]]. destruct (a2b3_ok w W5 W7 T t X S x H) as (V & E & _ & HB & Hk & Hv & _).
  exists V. split; [exact E|]. replace (2 ^ Z.of_nat w) with (bw V) by lia. exact HB.
Qed.
Lemma ringw_pos k : ringw k -> 1 <= k. Proof. unfold ringw. lia. Qed.

Lemma oram_onehot_aa_ok enc k s T t S X x keys R : ringw k -> repA k X x ->
  exists O, oram_onehot_aa enc k s T t S X keys R = Ok O /\ shares_unit k s O (Z.to_nat (x mod 2 ^ Z.of_nat (log2ceil s))).
Proof.
  intros F H. destruct (a2b_repB k T t X S x F H) as (V & E & HB). unfold oram_onehot_aa. rewrite E. cbn [rbind].
  apply onehot_aa_ok; [exact (ringw_pos k F)|exact HB].
Qed.
Lemma oram_onehot_ap_ok enc k s T t S X x keys R : ringw k -> repA k X x ->
  exists O, oram_onehot_ap enc k s T t S X keys R = Ok O /\ shares_unit2 k s O (Z.to_nat (x mod 2 ^ Z.of_nat (log2ceil s))).
Proof.
  intros F H. destruct (a2b_repB k T t X S x F H) as (V & E & HB). unfold oram_onehot_ap. rewrite E. cbn [rbind].
  apply onehot_ap_ok; [exact (ringw_pos k F)|exact HB].
Qed.
Lemma in_range s x : 0 <= x < Z.of_nat s -> x mod 2 ^ Z.of_nat (log2ceil s) = x.
Proof.
  intros H. apply Z.mod_small. split; [lia|]. destruct (log2ceil_bits s) as [Hs _]. apply Nat2Z.inj_le in Hs. rewrite Nat2Z.inj_pow in Hs.
  change (Z.of_nat 2) with 2 in Hs. lia.
Qed.

Lemma onehot_bits_aa enc k s T t S X x keys R : ringw k -> repA k X x ->
  exists O b, oram_onehot_aa enc k s T t S X keys R = Ok O /\ index_bits s b /\ shares_unit k s O (Z.to_nat (x mod 2 ^ Z.of_nat b)).
Proof. intros F H. destruct (oram_onehot_aa_ok enc k s T t S X x keys R F H) as (O & E & HO). exists O, (log2ceil s). split; [exact E|]. split; [apply log2ceil_bits|exact HO]. Qed.

Lemma read_secret enc k n T t S X x keys R db v P offset c : ringw k -> repA k X x -> x < Z.of_nat n -> (offset <= n)%nat ->
  (forall a, (a < n)%nat -> repA k (db a c) (v a)) ->
  exists O V, oram_onehot_aa enc k n T t S X keys R = Ok O /\ read_oa k n O db P offset c = Ok V /\ repA k V (v ((Z.to_nat x + offset) mod n)%nat).
Proof.
  intros F H Hx Ho Hdb. destruct (oram_onehot_aa_ok enc k n T t S X x keys R F H) as (O & E & HO).
  pose proof (proj1 (proj2 H)) as [Hx0 _]. rewrite in_range in HO by lia.
  destruct (read_oa_ok k n O db v P offset c (Z.to_nat x) (ringw_pos k F) HO ltac:(lia) Ho Hdb) as (V & EV & HV).
  exists O, V. split; [exact E|]. split; [exact EV|exact HV].
Qed.
Lemma read_public enc k n T t S X x keys R db P offset c : ringw k -> repA k X x -> x < Z.of_nat n -> (offset <= n)%nat ->
  (forall a, (a < n)%nat -> word k (db a c)) ->
  exists O V, oram_onehot_ap enc k n T t S X keys R = Ok O /\ read_op k n O db P offset c = Ok V /\ repA k V (db ((Z.to_nat x + offset) mod n)%nat c).
Proof.
  intros F H Hx Ho Hdb. destruct (oram_onehot_ap_ok enc k n T t S X x keys R F H) as (O & E & HO).
  pose proof (proj1 (proj2 H)) as [Hx0 _]. rewrite in_range in HO by lia.
  destruct (read_op_ok k n O db P offset c (Z.to_nat x) (ringw_pos k F) HO ltac:(lia) Ho Hdb) as (V & EV & HV).
  exists O, V. split; [exact E|]. split; [exact EV|exact HV].
Qed.
Lemma slice_ok enc k n size T t S X x keys R db v P c : ringw k -> repA k X x -> x + Z.of_nat size <= Z.of_nat n ->
  (forall a, (a < n)%nat -> repA k (db a c) (v a)) ->
  exists O, oram_onehot_aa enc k n T t S X keys R = Ok O /\ length (slice_rows k n size O db P c) = size /\
    forall idx, (idx < size)%nat -> exists V, nth_error (slice_rows k n size O db P c) idx = Some (Ok V) /\ repA k V (v (Z.to_nat x + idx)%nat).
Proof.
  intros F H Hx Hdb. destruct (oram_onehot_aa_ok enc k n T t S X x keys R F H) as (O & E & HO). pose proof (proj1 (proj2 H)) as [Hx0 _].
  exists O. split; [exact E|]. unfold slice_rows. split; [rewrite map_length, seq_length; reflexivity|]. intros idx Hi.
  rewrite in_range in HO by lia.
  destruct (read_oa_ok k n O db v (P idx c) idx c (Z.to_nat x) (ringw_pos k F) HO ltac:(lia) ltac:(lia) Hdb) as (V & EV & HV).
  exists V. split.
  - rewrite nth_error_map. rewrite (nth_error_nth' _ 0%nat) by (rewrite seq_length; lia). rewrite seq_nth by lia. cbn [option_map Nat.add]. rewrite EV. reflexivity.
  - rewrite Nat.mod_small in HV by lia. exact HV.
Qed.
Lemma onehot2_bits enc k s key xD xE R : 1 <= k ->
  exists oD oE b, onehot2 enc k s key key xD xE R = Ok (oD, oE) /\ index_bits s b /\
    forall i, (i < s)%nat -> two_shares k (nthZ oD i) (nthZ oE i) (unit_at (Z.to_nat (Z.lxor xD xE mod 2 ^ Z.of_nat b)) i).
Proof.
  intros Hk. destruct (onehot2_ok enc k s key xD xE R Hk) as (oD & oE & E & Ho). exists oD, oE, (log2ceil s). split; [exact E|]. split; [apply log2ceil_bits|].
  assert (Hpos : 0 <= Z.lxor xD xE mod 2 ^ Z.of_nat (log2ceil s)) by (apply Z.mod_pos_bound; apply Z.pow_pos_nonneg; lia).
  intros p Hp. destruct (Ho p Hp) as (W1 & W2 & W3). apply two_shares_of; [lia|exact W1|exact W2|apply unit_word; lia|].
  rewrite W3. apply eqm_of_eq. unfold unit_at. destruct Nat.eq_dec, (Z.eqb_spec (Z.of_nat p) (Z.lxor xD xE mod 2 ^ Z.of_nat (log2ceil s))); lia.
Qed.
