(* Lemmas about sums over parties. *)
From Verif Require Import Base Ring_model Ring_spec Ring_proof Share_spec.
Open Scope Z_scope.

Lemma total_ext n X Y : (forall i, (i < n)%nat -> X i = Y i) -> total n X = total n Y.
Proof. induction n as [|n IH]; intros E; cbn; [reflexivity|]. rewrite IH by (intros; apply E; lia). now rewrite E by lia. Qed.
Lemma total_eqm k n X Y : (forall i, (i < n)%nat -> eqm k (X i) (Y i)) -> eqm k (total n X) (total n Y).
Proof.
  induction n as [|n IH]; intros E; cbn; [reflexivity|]. apply eqm_add; [apply IH; intros; apply E; lia|apply E; lia].
Qed.
Lemma total_add n X Y : total n (fun i => X i + Y i) = total n X + total n Y.
Proof. induction n as [|n IH]; cbn; [reflexivity|]. rewrite IH. ring. Qed.
Lemma total_sub n X Y : total n (fun i => X i - Y i) = total n X - total n Y.
Proof. induction n as [|n IH]; cbn; [reflexivity|]. rewrite IH. ring. Qed.
Lemma total_opp n X : total n (fun i => - X i) = - total n X.
Proof. induction n as [|n IH]; cbn; [reflexivity|]. rewrite IH. ring. Qed.
Lemma total_mul_l n c X : total n (fun i => c * X i) = c * total n X.
Proof. induction n as [|n IH]; cbn; [ring|]. rewrite IH. ring. Qed.
Lemma total_mul_r n c X : total n (fun i => X i * c) = total n X * c.
Proof. induction n as [|n IH]; cbn; [ring|]. rewrite IH. ring. Qed.
Lemma total_0 n : total n (fun _ => 0) = 0.
Proof. induction n as [|n IH]; cbn; [reflexivity|]. now rewrite IH. Qed.
Lemma total_delta n r v : (r < n)%nat -> total n (fun i => if (i =? r)%nat then v else 0) = v.
Proof.
  induction n as [|n IH]; intros R; [lia|]. cbn [total]. destruct (Nat.eqb_spec n r) as [->|N].
  - rewrite (total_ext r _ (fun _ => 0)); [rewrite total_0; lia|]. intros i I. destruct (Nat.eqb_spec i r); [lia|reflexivity].
  - rewrite IH by lia. lia.
Qed.
Lemma total_dot n K (A : nat -> nat -> Z) (b : nat -> Z) :
  total n (fun i => dot K (A i) b) = dot K (fun l => total n (fun i => A i l)) b.
Proof.
  induction K as [|K IH]; cbn [dot]; [now rewrite total_0|]. rewrite total_add, IH, total_mul_r. reflexivity.
Qed.
Lemma dot_comm K a b : dot K a b = dot K b a.
Proof. induction K as [|K IH]; cbn; [reflexivity|]. rewrite IH. ring. Qed.
Lemma total_dot_r n K (a : nat -> Z) (B : nat -> nat -> Z) :
  total n (fun i => dot K a (B i)) = dot K a (fun l => total n (fun i => B i l)).
Proof.
  rewrite dot_comm, <- total_dot. apply total_ext. intros. apply dot_comm.
Qed.
Lemma dot_add_l K a a' b : dot K (fun l => a l + a' l) b = dot K a b + dot K a' b.
Proof. induction K as [|K IH]; cbn; [reflexivity|]. rewrite IH. ring. Qed.
Lemma dot_sub_l K a a' b : dot K (fun l => a l - a' l) b = dot K a b - dot K a' b.
Proof. induction K as [|K IH]; cbn; [reflexivity|]. rewrite IH. ring. Qed.
Lemma dot_sub_r K a b b' : dot K a (fun l => b l - b' l) = dot K a b - dot K a b'.
Proof. rewrite dot_comm, dot_sub_l, !(dot_comm K a). reflexivity. Qed.
Lemma dot_eqm k K a b a' b' : (forall l, (l < K)%nat -> eqm k (a l) (a' l) /\ eqm k (b l) (b' l)) -> eqm k (dot K a b) (dot K a' b').
Proof.
  induction K as [|K IH]; intros E; cbn [dot]; [reflexivity|]. apply eqm_add; [apply IH; intros; apply E; lia|].
  destruct (E K) as [H1 H2]; [lia|]. now apply eqm_mul.
Qed.

Lemma xtotal_ext n X Y : (forall i, (i < n)%nat -> X i = Y i) -> xtotal n X = xtotal n Y.
Proof. induction n as [|n IH]; intros E; cbn; [reflexivity|]. rewrite IH by (intros; apply E; lia). now rewrite E by lia. Qed.
Lemma xtotal_xor n X Y : xtotal n (fun i => Z.lxor (X i) (Y i)) = Z.lxor (xtotal n X) (xtotal n Y).
Proof.
  induction n as [|n IH]; cbn [xtotal]; [reflexivity|]. rewrite IH. rewrite !Z.lxor_assoc. f_equal.
  rewrite <- !Z.lxor_assoc. f_equal. apply Z.lxor_comm.
Qed.
Lemma xtotal_0 n : xtotal n (fun _ => 0) = 0.
Proof. induction n as [|n IH]; cbn; [reflexivity|]. now rewrite IH. Qed.
Lemma xtotal_delta n r v : (r < n)%nat -> xtotal n (fun i => if (i =? r)%nat then v else 0) = v.
Proof.
  induction n as [|n IH]; intros R; [lia|]. cbn [xtotal]. destruct (Nat.eqb_spec n r) as [->|N].
  - rewrite (xtotal_ext r _ (fun _ => 0)); [rewrite xtotal_0; apply Z.lxor_0_l|]. intros i I. destruct (Nat.eqb_spec i r); [lia|reflexivity].
  - rewrite IH by lia. apply Z.lxor_0_r.
Qed.
(* any map commuting with xor and fixing 0 commutes with the xor total *)
Lemma xtotal_lin (f : Z -> Z) n X : f 0 = 0 -> (forall a b, f (Z.lxor a b) = Z.lxor (f a) (f b)) ->
  xtotal n (fun i => f (X i)) = f (xtotal n X).
Proof. intros F0 FX. induction n as [|n IH]; cbn [xtotal]; [now rewrite F0|]. now rewrite IH, FX. Qed.
Lemma xtotal_bit n X j : Z.testbit (xtotal n X) j = fold_left xorb (map (fun i => Z.testbit (X i) j) (seq 0 n)) false.
Proof.
  induction n as [|n IH]; cbn [xtotal]; [apply Z.testbit_0_l|].
  rewrite seq_S, map_app, fold_left_app, <- IH. cbn. apply Z.lxor_spec.
Qed.
(* the lxor version for a linear map known only on words *)
Lemma word_lxor k a b : 0 <= k -> word k a -> word k b -> word k (Z.lxor a b).
Proof.
  intros K A B. apply word_of_bits; [lia|apply Z.lxor_nonneg; unfold word in *; lia|].
  intros i I. now rewrite Z.lxor_spec, (word_bit_high k a), (word_bit_high k b).
Qed.
Lemma word_land_l k a b : 0 <= k -> word k a -> word k (Z.land a b).
Proof.
  intros K A. apply word_of_bits; [lia|apply Z.land_nonneg; left; apply A|].
  intros i I. now rewrite Z.land_spec, (word_bit_high k a).
Qed.
Lemma word_land_r k a b : 0 <= k -> word k b -> word k (Z.land a b).
Proof. intros. rewrite Z.land_comm. now apply word_land_l. Qed.
Lemma word_0 k : 0 <= k -> word k 0.
Proof. intros. split; [lia|now apply pow2_pos]. Qed.
Lemma word_wrap k x : 0 <= k -> word k (wrap k x).
Proof. apply wrap_range. Qed.
Lemma word_mono k k' x : 0 <= k <= k' -> word k x -> word k' x.
Proof. intros K [A B]. split; [exact A|]. pose proof (Z.pow_le_mono_r 2 k k'). lia. Qed.
Lemma xtotal_word k n X : 0 <= k -> (forall i, (i < n)%nat -> word k (X i)) -> word k (xtotal n X).
Proof.
  intros K. induction n as [|n IH]; intros W; cbn [xtotal]; [now apply word_0|]. apply word_lxor; [lia|apply IH; intros; apply W; lia|apply W; lia].
Qed.
Lemma wrap_lxor k a b : 0 <= k -> wrap k (Z.lxor a b) = Z.lxor (wrap k a) (wrap k b).
Proof.
  intros K. apply Z.bits_inj'. intros i I. rewrite Z.lxor_spec. change Z.testbit with bit. rewrite !bit_mod by lia.
  rewrite Z.lxor_spec. now destruct (i <? k).
Qed.
Lemma wrap_land k a b : 0 <= k -> wrap k (Z.land a b) = Z.land (wrap k a) (wrap k b).
Proof.
  intros K. apply Z.bits_inj'. intros i I. rewrite Z.land_spec. change Z.testbit with bit. rewrite !bit_mod by lia.
  rewrite Z.land_spec. now destruct (i <? k).
Qed.
Lemma wrap_0 k : 0 <= k -> wrap k 0 = 0.
Proof. intros. apply wrap_small. pose proof (pow2_pos k). lia. Qed.
Lemma wrap_le k w x : 0 <= w <= k -> wrap w (wrap k x) = wrap w x.
Proof.
  intros H. unfold wrap. replace (2 ^ k) with (2 ^ w * 2 ^ (k - w)) by (rewrite <- pow2_split by lia; f_equal; lia).
  pose proof (pow2_pos w ltac:(lia)). pose proof (pow2_pos (k - w) ltac:(lia)).
  rewrite Z.rem_mul_r by lia. rewrite Z.mul_comm with (n := 2 ^ w), Z.mod_add by lia. now rewrite Z.mod_mod by lia.
Qed.

Lemma shA_of k n X x : 0 <= k -> (forall i, (i < n)%nat -> word k (X i)) -> word k x -> eqm k (total n X) x -> shA k n X x.
Proof.
  intros K W Wx E. split; [exact W|]. rewrite <- (wrap_small k x) by exact Wx. rewrite <- E. now apply wrap_is_mod.
Qed.
Lemma shA_eqm k n X x : 0 <= k -> shA k n X x -> eqm k (total n X) x.
Proof. intros K [_ [_ [q ->]]]. symmetry. apply eqm_mult. Qed.
Lemma shA_word k n X x : shA k n X x -> word k x.
Proof. intros [_ [W _]]. exact W. Qed.
Lemma shA_wrap k n X x : 0 <= k -> shA k n X x -> wrap k (total n X) = x.
Proof. intros K S. pose proof (shA_eqm k n X x K S) as E. unfold eqm in E. rewrite E. apply wrap_small. now apply (shA_word k n X). Qed.
Lemma eqm_radd k a b : eqm k (radd k a b) (a + b). Proof. apply eqm_wrap. Qed.
Lemma eqm_rsub k a b : eqm k (rsub k a b) (a - b). Proof. apply eqm_wrap. Qed.
Lemma eqm_rmul k a b : eqm k (rmul k a b) (a * b). Proof. apply eqm_wrap. Qed.
Lemma eqm_rneg k a : eqm k (rneg k a) (- a). Proof. rewrite rneg_wrap. apply eqm_wrap. Qed.
Lemma eqm_rshl k s a : eqm k (rshl k s a) (a * 2 ^ s). Proof. apply eqm_wrap. Qed.
Lemma radd_word k a b : 0 <= k -> word k (radd k a b). Proof. apply wrap_range. Qed.
Lemma rsub_word k a b : 0 <= k -> word k (rsub k a b). Proof. apply wrap_range. Qed.
Lemma rmul_word k a b : 0 <= k -> word k (rmul k a b). Proof. apply wrap_range. Qed.
Lemma rneg_word k a : 0 <= k -> word k (rneg k a). Proof. apply wrap_range. Qed.
Lemma rshl_word k s a : 0 <= k -> word k (rshl k s a). Proof. apply wrap_range. Qed.
Lemma rsar_word k s a : 0 <= k -> word k (rsar k s a). Proof. apply wrap_range. Qed.
Lemma rshr_word k s a : 0 <= k -> 0 <= s -> word k a -> word k (rshr s a).
Proof.
  intros K S [A B]. unfold rshr. pose proof (pow2_pos s S). split; [apply Z.div_pos; lia|]. apply Z.div_lt_upper_bound; nia.
Qed.

(* the successor around the ring of parties *)
Definition nextp (n i : nat) : nat := if (S i =? n)%nat then O else S i.
Lemma total_next n R : (0 < n)%nat -> total n (fun i => R (nextp n i)) = total n R.
Proof.
  intros N. destruct n as [|m]; [lia|]. cbn [total]. unfold nextp at 2. rewrite Nat.eqb_refl.
  rewrite (total_ext m _ (fun i => R (S i))).
  2:{ intros i I. unfold nextp. destruct (Nat.eqb_spec (S i) (S m)); [lia|reflexivity]. }
  clear N. induction m as [|m IH]; cbn [total]; [reflexivity|]. lia.
Qed.
Lemma xtotal_next n R : (0 < n)%nat -> xtotal n (fun i => R (nextp n i)) = xtotal n R.
Proof.
  intros N. destruct n as [|m]; [lia|]. cbn [xtotal]. unfold nextp at 2. rewrite Nat.eqb_refl.
  rewrite (xtotal_ext m _ (fun i => R (S i))).
  2:{ intros i I. unfold nextp. destruct (Nat.eqb_spec (S i) (S m)); [lia|reflexivity]. }
  clear N. induction m as [|m IH]; cbn [xtotal]; [reflexivity|].
  rewrite (Z.lxor_comm _ (R (S m))), Z.lxor_assoc, IH. apply Z.lxor_comm.
Qed.
(* checkers used by the concrete examples *)
Definition wordb (k x : Z) : bool := (0 <=? x) && (x <? 2 ^ k).
Lemma wordb_ok k x : wordb k x = true -> word k x.
Proof. unfold wordb, word. lia. Qed.
Definition shAb (k : Z) (n : nat) (X : nat -> Z) (x : Z) : bool :=
  (0 <=? k) && forallb (fun i => wordb k (X i)) (seq 0 n) && wordb k x && (wrap k (total n X) =? x).
Lemma shAb_ok k n X x : shAb k n X x = true -> shA k n X x.
Proof.
  unfold shAb. rewrite !andb_true_iff. intros [[[K F] W] E]. apply wordb_ok in W. apply shA_of; auto; [lia| |].
  - intros i I. apply wordb_ok. rewrite forallb_forall in F. apply (F i). apply in_seq. lia.
  - unfold eqm. apply Z.eqb_eq in E. rewrite E. symmetry. now apply wrap_small.
Qed.
Definition shBb (k : Z) (n : nat) (X : nat -> Z) (x : Z) : bool :=
  forallb (fun i => wordb k (X i)) (seq 0 n) && wordb k x && (xtotal n X =? x).
Lemma shBb_ok k n X x : shBb k n X x = true -> shB k n X x.
Proof.
  unfold shBb. rewrite !andb_true_iff. intros [[F W] E]. apply wordb_ok in W. split; [|split; [exact W|lia]].
  intros i I. apply wordb_ok. rewrite forallb_forall in F. apply (F i). apply in_seq. lia.
Qed.
Ltac conj := cbv zeta; repeat match goal with |- _ /\ _ => split end.
