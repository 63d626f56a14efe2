From Verif Require Import Base Ring_model Ring_spec Ring_proof Share_spec Party Semi_model Semi_proof.
Open Scope Z_scope.

Lemma signed_sgn k x : 0 < k -> word k x -> signed_value k x (sgn k x).
Proof.
  intros K W. split; [now apply sgn_range|]. apply eqm_exists; [lia|]. apply eqm_sgn.
Qed.
Lemma signed_of_eqm k y v : 0 < k -> word k y -> eqm k y v -> - 2 ^ (k - 1) <= v < 2 ^ (k - 1) -> signed_value k y v.
Proof. intros K W E R. split; [exact R|]. apply eqm_exists; [lia|]. now symmetry. Qed.
Lemma eqm_rsar k d x : eqm k (rsar k d x) (sgn k x / 2 ^ d).
Proof. apply eqm_wrap. Qed.
(* floor differences *)
Lemma div_sub_bounds a b D : 0 < D -> (a - b) / D <= a / D - b / D <= (a - b) / D + 1.
Proof.
  intros H. pose proof (Z.div_mod a D ltac:(lia)). pose proof (Z.div_mod b D ltac:(lia)). pose proof (Z.div_mod (a - b) D ltac:(lia)).
  pose proof (Z.mod_pos_bound a D H). pose proof (Z.mod_pos_bound b D H). pose proof (Z.mod_pos_bound (a - b) D H).
  set (qa := a / D) in *. set (qb := b / D) in *. set (q := (a - b) / D) in *.
  assert (-1 < qa - qb - q < 2); [|lia]. split; nia.
Qed.
Lemma div_add_bounds a b D : 0 < D -> (a + b) / D - 1 <= a / D + b / D <= (a + b) / D.
Proof.
  intros H. pose proof (Z.div_mod a D ltac:(lia)). pose proof (Z.div_mod b D ltac:(lia)). pose proof (Z.div_mod (a + b) D ltac:(lia)).
  pose proof (Z.mod_pos_bound a D H). pose proof (Z.mod_pos_bound b D H). pose proof (Z.mod_pos_bound (a + b) D H).
  set (qa := a / D) in *. set (qb := b / D) in *. set (q := (a + b) / D) in *.
  assert (-2 < qa + qb - q < 1); [|lia]. split; nia.
Qed.
(* when d >= 1 a quotient has room for an error of one on both sides *)
Lemma quot_range k d v : 1 <= d -> 1 < k -> - 2 ^ (k - 1) <= v < 2 ^ (k - 1) -> - 2 ^ (k - 2) <= v / 2 ^ d < 2 ^ (k - 2).
Proof.
  intros D K V. pose proof (pow2_half (k - 1) ltac:(lia)) as E. replace (k - 1 - 1) with (k - 2) in E by lia.
  pose proof (pow2_half d ltac:(lia)). pose proof (pow2_pos (d - 1) ltac:(lia)). pose proof (pow2_pos (k - 2) ltac:(lia)).
  split; [apply Z.div_le_lower_bound; nia|apply Z.div_lt_upper_bound; nia].
Qed.
(* the reading of [truncated] used below *)
Lemma truncated_intro k d x y v e lo hi : 0 < k -> word k x -> word k y -> eqm k y v ->
  v = sgn k x / 2 ^ d + e -> lo <= e <= hi -> - 2 ^ (k - 1) <= v < 2 ^ (k - 1) -> truncated k d x y lo hi.
Proof.
  intros K WX WY E V LH R. exists (sgn k x), v. split; [now apply signed_sgn|]. split; [now apply signed_of_eqm|]. lia.
Qed.
Lemma room k d v e : 0 < k -> 0 <= d < k -> - 2 ^ (k - 1) <= v < 2 ^ (k - 1) -> -1 <= e <= 1 -> (d = 0 -> e = 0) ->
  (e = -1 -> 2 <= k) -> - 2 ^ (k - 1) <= v / 2 ^ d + e < 2 ^ (k - 1).
Proof.
  intros K D V E E0 Em. destruct (Z.eq_dec d 0) as [->|N].
  - rewrite (E0 eq_refl). change (2 ^ 0) with 1. rewrite Z.div_1_r. lia.
  - assert (1 < k) by lia. pose proof (quot_range k d v ltac:(lia) ltac:(lia) V).
    pose proof (pow2_half (k - 1) ltac:(lia)) as HH. replace (k - 1 - 1) with (k - 2) in HH by lia. pose proof (pow2_pos (k - 2) ltac:(lia)). lia.
Qed.

(* ---- TruncA, two parties ---- *)
Definition no_wrap2 k x x0 := - 2 ^ (k - 1) <= sgn k x0 - sgn k x < 2 ^ (k - 1).
Lemma trunc_a2_ok k d X x : 0 < k -> 0 <= d < k -> shA k 2 X x -> no_wrap2 k x (X 0%nat) ->
  exists y, shA k 2 (fun i => trunc_a2 k d i (X i)) y /\ truncated k d x y 0 1.
Proof.
  intros K D SX NW.
  assert (WX := shA_word k 2 X x SX). destruct SX as [W SX].
  assert (E : eqm k (X 0%nat + X 1%nat) x) by (apply (shA_eqm k 2 X x); [lia|split; assumption]).
  set (y := wrap k (sgn k (X 0%nat) / 2 ^ d - (sgn k (X 0%nat) - sgn k x) / 2 ^ d)).
  exists y. split.
  - apply shA_of; [lia| |apply word_wrap; lia|].
    { intros i I. unfold trunc_a2. destruct (_ =? _)%nat; [apply rsar_word|apply rneg_word]; lia. }
    cbn [total]. unfold trunc_a2. cbn [Nat.eqb]. unfold y. rewrite eqm_wrap, eqm_rneg, !eqm_rsar.
    replace (sgn k (rneg k (X 1%nat))) with (sgn k (X 0%nat) - sgn k x); [apply eqm_of_eq; ring|].
    rewrite <- (sgn_wrap k (sgn k (X 0%nat) - sgn k x)) by (auto; lia). f_equal.
    rewrite rneg_wrap. change (eqm k (sgn k (X 0%nat) - sgn k x) (- X 1%nat)). rewrite !eqm_sgn, <- E. apply eqm_of_eq; ring.
  - pose proof (pow2_pos d ltac:(lia)). pose proof (div_sub_bounds (sgn k (X 0%nat)) (sgn k (X 0%nat) - sgn k x) (2 ^ d) ltac:(lia)) as B.
    replace (sgn k (X 0%nat) - (sgn k (X 0%nat) - sgn k x)) with (sgn k x) in B by ring.
    pose proof (sgn_range k x K WX) as RX.
    set (v := sgn k (X 0%nat) / 2 ^ d - (sgn k (X 0%nat) - sgn k x) / 2 ^ d) in *.
    apply (truncated_intro k d x y v (v - sgn k x / 2 ^ d)); auto; try lia; [apply word_wrap; lia|apply eqm_wrap|].
    replace v with (sgn k x / 2 ^ d + (v - sgn k x / 2 ^ d)) by ring. apply room; auto; try lia.
    intros ->. unfold v. change (2 ^ 0) with 1. rewrite !Z.div_1_r. ring.
Qed.
(* counting: distinct integers inside an interval *)
Lemma interval_count (l : list Z) lo hi : NoDup l -> (forall v, In v l -> lo <= v < hi) -> Z.of_nat (length l) <= Z.max 0 (hi - lo).
Proof.
  intros ND B. set (f := fun i => lo + Z.of_nat i).
  assert (I : incl l (map f (seq 0 (Z.to_nat (hi - lo))))).
  { intros v V. specialize (B v V). apply in_map_iff. exists (Z.to_nat (v - lo)). split; [unfold f; lia|apply in_seq; lia]. }
  pose proof (NoDup_incl_length ND I) as L. rewrite map_length, seq_length in L. lia.
Qed.
Lemma sgn_inj k a b : word k a -> word k b -> sgn k a = sgn k b -> a = b.
Proof. intros A B E. rewrite <- (wrap_sgn k a A), <- (wrap_sgn k b B). now rewrite E. Qed.
Lemma count_words k (l : list Z) (lo hi : Z) : NoDup l -> (forall w, In w l -> word k w) -> (forall w, In w l -> lo <= sgn k w < hi) ->
  Z.of_nat (length l) <= Z.max 0 (hi - lo).
Proof.
  intros ND W B. rewrite <- (map_length (sgn k)). apply interval_count.
  - apply NoDup_map_in; [|exact ND]. intros a b A C E. now apply (sgn_inj k); auto.
  - intros v V. apply in_map_iff in V. destruct V as [w [<- I]]. auto.
Qed.
Definition split2 (k x x0 : Z) : nat -> Z := fun i => if (i =? 0)%nat then x0 else wrap k (x - x0).
Lemma split2_ok k x x0 : 0 <= k -> word k x -> word k x0 -> shA k 2 (split2 k x x0) x.
Proof.
  intros K W W0. apply shA_of; auto.
  - intros i I. unfold split2. destruct (_ =? _)%nat; [auto|now apply word_wrap].
  - cbn [total]. unfold split2. cbn [Nat.eqb]. rewrite eqm_wrap. apply eqm_of_eq; ring.
Qed.
Lemma shA_unique k n X x y : 0 <= k -> shA k n X x -> shA k n X y -> x = y.
Proof. intros K A B. rewrite <- (shA_wrap k n X x), <- (shA_wrap k n X y); auto. Qed.
Lemma trunc_a2_count k d x l : 0 < k -> 0 <= d < k -> word k x -> NoDup l ->
  (forall x0, In x0 l -> word k x0 /\
     forall y, shA k 2 (fun i => trunc_a2 k d i (split2 k x x0 i)) y -> ~ truncated k d x y 0 1) ->
  Z.of_nat (length l) <= Z.abs (sgn k x).
Proof.
  intros K D W ND B. pose proof (sgn_range k x K W) as RX.
  assert (BAD : forall x0, In x0 l -> word k x0 /\ ~ no_wrap2 k x x0).
  { intros x0 I. destruct (B x0 I) as [W0 N]. split; [exact W0|]. intros NW.
    destruct (trunc_a2_ok k d (split2 k x x0) x K D) as [y [SY T]]; [apply split2_ok; auto; lia|exact NW|]. exact (N y SY T). }
  destruct (Z.le_gt_cases 0 (sgn k x)).
  - pose proof (count_words k l (- 2 ^ (k - 1)) (- 2 ^ (k - 1) + sgn k x) ND) as C.
    assert (Z.of_nat (length l) <= Z.max 0 (- 2 ^ (k - 1) + sgn k x - - 2 ^ (k - 1))); [|lia]. apply C; [intros; now apply BAD|].
    intros w I. destruct (BAD w I) as [Ww N]. pose proof (sgn_range k w K Ww). unfold no_wrap2 in N. lia.
  - pose proof (count_words k l (2 ^ (k - 1) + sgn k x) (2 ^ (k - 1)) ND) as C.
    assert (Z.of_nat (length l) <= Z.max 0 (2 ^ (k - 1) - (2 ^ (k - 1) + sgn k x))); [|lia]. apply C; [intros; now apply BAD|].
    intros w I. destruct (BAD w I) as [Ww N]. pose proof (sgn_range k w K Ww). unfold no_wrap2 in N. lia.
Qed.

(* ---- TruncA, more parties: r, rb from the dealer ---- *)
Lemma trunc_an_ok k d n X R RB x r : 0 < k -> 0 <= d < k -> (0 < n)%nat -> shA k n X x -> shA k n R r -> shA k n RB (rsar k d r) ->
  - 2 ^ (k - 1) <= sgn k x - sgn k r < 2 ^ (k - 1) ->
  exists y, shA k n (trunc_an_all k d n X R RB) y /\ truncated k d x y (-1) 0.
Proof.
  intros K D N SX SR SB NW. assert (WX := shA_word k n X x SX). assert (WR := shA_word k n R r SR).
  set (v := sgn k r / 2 ^ d + (sgn k x - sgn k r) / 2 ^ d).
  exists (wrap k v). split.
  - apply shA_of; [lia| |apply word_wrap; lia|].
    { intros i I. unfold trunc_an_all, trunc_an. destruct (_ =? _)%nat; [apply radd_word; lia|now apply SB]. }
    assert (OD : forall i, (i < n)%nat -> open_diff k n X R i = wrap k (sgn k x - sgn k r)).
    { intros i I. rewrite open_diff_ok by lia. change (eqm k (total n X - total n R) (sgn k x - sgn k r)).
      rewrite (shA_eqm k n X x ltac:(lia) SX), (shA_eqm k n R r ltac:(lia) SR), !eqm_sgn. reflexivity. }
    transitivity (total n (fun i => RB i + (if (i =? 0)%nat then (sgn k x - sgn k r) / 2 ^ d else 0))).
    { apply total_eqm. intros i I. unfold trunc_an_all, trunc_an. rewrite OD by exact I. destruct (_ =? _)%nat; [|now rewrite Z.add_0_r].
      rewrite eqm_radd, eqm_rsar, sgn_wrap by (auto; lia). reflexivity. }
    rewrite total_rank0 by exact N. rewrite (shA_eqm k n RB _ ltac:(lia) SB), eqm_rsar, eqm_wrap. reflexivity.
  - pose proof (pow2_pos d ltac:(lia)). pose proof (div_add_bounds (sgn k r) (sgn k x - sgn k r) (2 ^ d) ltac:(lia)) as B.
    replace (sgn k r + (sgn k x - sgn k r)) with (sgn k x) in B by ring.
    pose proof (sgn_range k x K WX) as RX.
    apply (truncated_intro k d x (wrap k v) v (v - sgn k x / 2 ^ d)); auto; try (unfold v; lia); [apply word_wrap; lia|apply eqm_wrap|].
    replace v with (sgn k x / 2 ^ d + (v - sgn k x / 2 ^ d)) by ring. apply room; auto; try (unfold v; lia).
    + intros ->. unfold v. change (2 ^ 0) with 1. rewrite !Z.div_1_r. ring.
    + destruct (Z.eq_dec d 0) as [->|Nd]; [|lia]. intros E. exfalso. revert E. unfold v. change (2 ^ 0) with 1. rewrite !Z.div_1_r. lia.
Qed.
Lemma trunc_an_count k d n X x l : 0 < k -> 0 <= d < k -> (0 < n)%nat -> shA k n X x -> NoDup l ->
  (forall r, In r l -> word k r /\ exists R RB, shA k n R r /\ shA k n RB (rsar k d r) /\
     forall y, shA k n (trunc_an_all k d n X R RB) y -> ~ truncated k d x y (-1) 0) ->
  Z.of_nat (length l) <= Z.abs (sgn k x) + 1.
Proof.
  intros K D N SX ND B. assert (W := shA_word k n X x SX). pose proof (sgn_range k x K W) as RX.
  assert (BAD : forall r, In r l -> word k r /\ ~ (- 2 ^ (k - 1) <= sgn k x - sgn k r < 2 ^ (k - 1))).
  { intros r I. destruct (B r I) as [Wr [R [RB [SR [SB Nt]]]]]. split; [exact Wr|]. intros NW.
    destruct (trunc_an_ok k d n X R RB x r K D N SX SR SB NW) as [y [SY T]]. exact (Nt y SY T). }
  destruct (Z.le_gt_cases 0 (sgn k x)).
  - pose proof (count_words k l (- 2 ^ (k - 1)) (- 2 ^ (k - 1) + sgn k x + 1) ND) as C.
    assert (Z.of_nat (length l) <= Z.max 0 (- 2 ^ (k - 1) + sgn k x + 1 - - 2 ^ (k - 1))); [|lia]. apply C; [intros; now apply BAD|].
    intros w I. destruct (BAD w I) as [Ww Nw]. pose proof (sgn_range k w K Ww). lia.
  - pose proof (count_words k l (2 ^ (k - 1) + sgn k x) (2 ^ (k - 1)) ND) as C.
    assert (Z.of_nat (length l) <= Z.max 0 (2 ^ (k - 1) - (2 ^ (k - 1) + sgn k x))); [|lia]. apply C; [intros; now apply BAD|].
    intros w I. destruct (BAD w I) as [Ww Nw]. pose proof (sgn_range k w K Ww). lia.
Qed.

(* ---- TruncAPr ---- *)
Lemma truncpr_ok k d n X R RC RB x r : 1 < k -> 0 <= d <= k - 2 -> (0 < n)%nat -> shA k n X x -> shA k n R r ->
  shA k n RC ((r mod 2 ^ (k - 1)) / 2 ^ d) -> shA k n RB (r / 2 ^ (k - 1)) ->
  - 2 ^ (k - 2) <= sgn k x < 2 ^ (k - 2) ->
  exists y, shA k n (truncpr_all k d n X R RC RB) y /\ truncated k d x y 0 1.
Proof.
  intros K D N SX SR SC SB RX. assert (K0 : 0 <= k) by lia.
  assert (WX := shA_word k n X x SX). assert (WR := shA_word k n R r SR).
  pose proof (pow2_half k ltac:(lia)) as H1. pose proof (pow2_half (k - 1) ltac:(lia)) as H2. replace (k - 1 - 1) with (k - 2) in H2 by lia.
  pose proof (pow2_pos (k - 2) ltac:(lia)) as P2. pose proof (pow2_pos d ltac:(lia)) as PD.
  set (L := 2 ^ (k - 2)) in *. set (D' := 2 ^ d) in *.
  set (u := sgn k x + L). assert (U : 0 <= u < 2 * L) by (unfold u; lia).
  set (rh := r / 2 ^ (k - 1)) in *. set (rl := r mod 2 ^ (k - 1)) in *.
  assert (ER : r = 2 ^ (k - 1) * rh + rl) by (unfold rh, rl; apply Z.div_mod; lia).
  assert (BL : 0 <= rl < 2 ^ (k - 1)) by (apply Z.mod_pos_bound; lia).
  assert (BH : rh = 0 \/ rh = 1). { unfold word in WR. assert (0 <= rh < 2); [|lia]. split; nia. }
  set (c := wrap k (u + r)).
  assert (CC : allreduce0 (radd k) n (fun i => truncpr_mask k i (X i) (R i)) = c).
  { rewrite allreduce0_add by lia. change (eqm k (total n (fun i => truncpr_mask k i (X i) (R i))) (u + r)).
    transitivity (total n (fun i => (X i + R i) + (if (i =? 0)%nat then L else 0))).
    - apply total_eqm. intros i I. unfold truncpr_mask. destruct (_ =? _)%nat; repeat rewrite eqm_radd; apply eqm_of_eq; unfold L; ring.
    - rewrite total_rank0, total_add by exact N. rewrite (shA_eqm k n X x K0 SX), (shA_eqm k n R r K0 SR). unfold u. rewrite eqm_sgn. apply eqm_of_eq; ring. }
  (* carry of the low parts *)
  set (w := if 2 ^ (k - 1) <=? u + rl then 1 else 0).
  set (cl := u + rl - w * 2 ^ (k - 1)). assert (BC : 0 <= cl < 2 ^ (k - 1)) by (unfold cl, w; destruct (Z.leb_spec (2 ^ (k - 1)) (u + rl)); lia).
  set (ch := if (rh + w =? 1) then 1 else 0).
  assert (BW : w = 0 \/ w = 1) by (unfold w; destruct (_ <=? _); auto).
  assert (EC : c = ch * 2 ^ (k - 1) + cl).
  { unfold c. replace (u + r) with ((ch * 2 ^ (k - 1) + cl) + (if rh + w =? 2 then 1 else 0) * 2 ^ k).
    - rewrite eqm_mult. apply wrap_small. unfold ch. destruct (_ =? _); lia.
    - unfold ch, cl. rewrite ER. destruct (Z.eqb_spec (rh + w) 1), (Z.eqb_spec (rh + w) 2); destruct BH as [-> | ->], BW as [-> | ->]; lia. }
  assert (SH : rshr (k - 1) c = ch).
  { unfold rshr. rewrite EC. rewrite Z.div_add_l by lia. rewrite Z.div_small by lia. lia. }
  assert (HAT : rshr (1 + d) (rshl k 1 c) = cl / D').
  { unfold rshr, rshl. rewrite EC. replace ((ch * 2 ^ (k - 1) + cl) * 2 ^ 1) with (2 * cl + ch * 2 ^ k) by (rewrite H1; change (2^1) with 2; ring).
    rewrite eqm_mult, wrap_small by lia. rewrite pow2_split by lia. change (2 ^ 1) with 2. fold D'. rewrite Z.div_mul_cancel_l; lia. }
  assert (XW : ch = rh + w - 2 * rh * w) by (unfold ch; destruct BH as [-> | ->], BW as [-> | ->]; reflexivity).
  assert (BX : rh + ch - 2 * ch * rh = w) by (rewrite XW; destruct BH as [-> | ->], BW as [-> | ->]; reflexivity).
  set (v := cl / D' - rl / D' + w * 2 ^ (k - 1 - d) - 2 ^ (k - 2 - d)).
  assert (PKD : 2 ^ (k - 1) = 2 ^ (k - 1 - d) * D') by (unfold D'; rewrite <- pow2_split by lia; f_equal; lia).
  assert (PLD : L = 2 ^ (k - 2 - d) * D') by (unfold D', L; rewrite <- pow2_split by lia; f_equal; lia).
  exists (wrap k v). split.
  - apply shA_of; [lia| |now apply word_wrap|].
    { intros i I. unfold truncpr_all, truncpr. destruct (_ =? _)%nat; [apply rsub_word|apply radd_word]; lia. }
    unfold truncpr_all. rewrite CC.
    transitivity (total n (fun i => (RB i * (1 - 2 * ch) * 2 ^ (k - 1 - d) - RC i)
        + (if (i =? 0)%nat then cl / D' + ch * 2 ^ (k - 1 - d) - 2 ^ (k - 2 - d) else 0))).
    + apply total_eqm. intros i I. unfold truncpr. rewrite SH, HAT. destruct (_ =? _)%nat;
        repeat (rewrite ?eqm_radd, ?eqm_rsub, ?eqm_rmul, ?eqm_rshl); apply eqm_of_eq; ring.
    + rewrite total_rank0, total_sub by exact N.
      rewrite (total_ext n (fun i => RB i * (1 - 2 * ch) * 2 ^ (k - 1 - d)) (fun i => RB i * ((1 - 2 * ch) * 2 ^ (k - 1 - d)))) by (intros; ring).
      rewrite total_mul_r, (shA_eqm k n RB _ K0 SB), (shA_eqm k n RC _ K0 SC), eqm_wrap. apply eqm_of_eq. unfold v. rewrite <- BX. ring.
  - assert (EV : v = (u + rl) / D' - rl / D' - 2 ^ (k - 2 - d)).
    { unfold v, cl. replace (u + rl - w * 2 ^ (k - 1)) with (u + rl + (- w * 2 ^ (k - 1 - d)) * D') by (rewrite PKD; ring).
      rewrite Z.div_add by lia. ring. }
    pose proof (div_sub_bounds (u + rl) rl D' PD) as B. replace (u + rl - rl) with u in B by ring.
    assert (EU : u / D' = sgn k x / D' + 2 ^ (k - 2 - d)) by (unfold u; rewrite PLD, Z.div_add by lia; reflexivity).
    assert (BE : 0 <= v - sgn k x / D' <= 1) by (rewrite EV; lia).
    apply (truncated_intro k d x (wrap k v) v (v - sgn k x / D')); [lia|exact WX|now apply word_wrap|apply eqm_wrap|unfold D'; ring|exact BE|].
    replace v with (sgn k x / D' + (v - sgn k x / D')) by ring. apply room; [lia|lia|fold L in RX; lia|lia| |lia].
    intros ->. unfold D' in *. change (2 ^ 0) with 1 in *. rewrite EV, !Z.div_1_r. unfold u, L. replace (k - 2 - 0) with (k - 2) by lia. ring.
Qed.

(* ---- TruncAPr2 ---- *)
Lemma mw_ok k x x0 x1 : 1 < k -> word k x -> word k x0 -> word k x1 -> eqm k (x0 + x1) x ->
  - 2 ^ (k - 2) <= sgn k x < 2 ^ (k - 2) ->
  x0 + x1 = sgn k x + (mw_star k 0 x0 * mw_star k 1 x1 + (if x0 <? 2 ^ (k - 2) then 0 else 1)) * 2 ^ k.
Proof.
  intros K W W0 W1 E RX.
  assert (E' : eqm k (x0 + x1) (sgn k x)) by (rewrite eqm_sgn; exact E).
  apply eqm_exists in E'; [|lia]. destruct E' as [q Q].
  pose proof (pow2_half k ltac:(lia)) as H1. pose proof (pow2_half (k - 1) ltac:(lia)) as H2. replace (k - 1 - 1) with (k - 2) in H2 by lia.
  pose proof (pow2_pos (k - 2) ltac:(lia)) as P2.
  unfold mw_star, rsub, wrap. cbn [Nat.eqb]. set (L := 2 ^ (k - 2)) in *.
  assert (P4 : 2 ^ k = 4 * L) by lia. unfold word in *. rewrite P4 in *.
  rewrite Q. f_equal. f_equal.
  assert (M : (x0 - L) mod (4 * L) = if x0 <? L then x0 + 3 * L else x0 - L).
  { destruct (Z.ltb_spec x0 L).
    - symmetry. apply Z.mod_unique with (q := -1); lia.
    - apply Z.mod_small. lia. }
  rewrite M. destruct (Z.ltb_spec x0 L); destruct (Z.leb_spec (2 * L) x1);
    match goal with |- context[2 * L <=? ?t] => destruct (Z.leb_spec (2 * L) t) end; cbn [Z.mul Z.add Pos.mul Pos.add]; nia.
Qed.
Lemma truncpr2_ok k d w X A C x : 1 < k -> 1 <= d < k -> trunc_field d = Ok w -> shA k 2 X x ->
  eqm w (A 0%nat * A 1%nat) (C 0%nat + C 1%nat) ->
  - 2 ^ (k - 2) <= sgn k x < 2 ^ (k - 2) ->
  exists y, shA k 2 (truncpr2_all k d w A C X) y /\ truncated k d x y 0 1.
Proof.
  intros K D TF SX T RX. assert (K0 : 0 <= k) by lia. assert (WX := shA_word k 2 X x SX).
  assert (DW : d <= w /\ 0 < w).
  { revert TF. unfold trunc_field. repeat (match goal with |- context[?a <=? ?b] => destruct (Z.leb_spec a b) end; [intros Q; injection Q as <-; lia|]). discriminate. }
  assert (E : eqm k (X 0%nat + X 1%nat) x) by (apply (shA_eqm k 2 X x K0 SX)).
  assert (W0 : word k (X 0%nat)) by (apply SX; lia). assert (W1 : word k (X 1%nat)) by (apply SX; lia).
  pose proof (mw_ok k x (X 0%nat) (X 1%nat) ltac:(lia) WX W0 W1 E RX) as MW.
  set (m := mw_star k 0 (X 0%nat) * mw_star k 1 (X 1%nat) + (if X 0%nat <? 2 ^ (k - 2) then 0 else 1)) in *.
  set (D' := 2 ^ d). pose proof (pow2_pos d ltac:(lia)) as PD. fold D' in PD.
  assert (PKD : 2 ^ k = 2 ^ (k - d) * D') by (unfold D'; rewrite <- pow2_split by lia; f_equal; lia).
  set (v := X 0%nat / D' + X 1%nat / D' - m * 2 ^ (k - d) + 1).
  exists (wrap k v). split.
  - apply shA_of; [lia|intros; now apply radd_word|now apply word_wrap|].
    cbn [total]. unfold truncpr2_all, truncpr2. repeat (rewrite ?eqm_radd, ?eqm_rsub, ?eqm_rmul, ?eqm_rshl, ?eqm_wrap). unfold rshr. fold D'.
    assert (MS : eqm w (mw_all k w A C X 0%nat + mw_all k w A C X 1%nat) m).
    { unfold mw_all. cbn [Nat.eqb].
      pose proof (mulvvs_ok w A C (fun i => mw_star k i (X i)) ltac:(lia) T) as SV.
      apply shA_eqm in SV; [|lia]. cbn [total] in SV. rewrite eqm_rmul in SV. rewrite eqm_radd, eqm_rsub.
      transitivity ((0 + mulvvs_all w A C (fun i => mw_star k i (X i)) 0%nat + mulvvs_all w A C (fun i => mw_star k i (X i)) 1%nat) + (1 - (if X 0%nat <? 2 ^ (k - 2) then 1 else 0))).
      { apply eqm_of_eq; ring. }
      rewrite SV. apply eqm_of_eq. unfold m. destruct (_ <? _); ring. }
    apply eqm_exists in MS; [|lia]. destruct MS as [q Q].
    transitivity (X 0%nat / D' + X 1%nat / D' - (mw_all k w A C X 0%nat + mw_all k w A C X 1%nat) * 2 ^ (k - d) + 1); [apply eqm_of_eq; change (Z.of_nat 0) with 0; change (Z.of_nat 1) with 1; ring|].
    rewrite Q. replace (2 ^ w) with (2 ^ (w - d) * D') by (unfold D'; rewrite <- pow2_split by lia; f_equal; lia).
    transitivity (v + (- q * 2 ^ (w - d)) * 2 ^ k); [|apply eqm_mult]. apply eqm_of_eq. unfold v. rewrite PKD. ring.
  - pose proof (div_add_bounds (X 0%nat) (X 1%nat) D' PD) as B. rewrite MW, PKD in B.
    replace (sgn k x + m * (2 ^ (k - d) * D')) with (sgn k x + (m * 2 ^ (k - d)) * D') in B by ring. rewrite Z.div_add in B by lia.
    pose proof (pow2_half (k - 1) ltac:(lia)) as H2. replace (k - 1 - 1) with (k - 2) in H2 by lia.
    pose proof (pow2_pos (k - 2) ltac:(lia)) as P2.
    assert (BE : 0 <= v - sgn k x / D' <= 1) by (unfold v; lia).
    apply (truncated_intro k d x (wrap k v) v (v - sgn k x / D')); [lia|exact WX|now apply word_wrap|apply eqm_wrap|unfold D'; ring|exact BE|].
    replace v with (sgn k x / D' + (v - sgn k x / D')) by ring. apply room; lia.
Qed.
