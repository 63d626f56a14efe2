From Verif Require Import Base Ring_model Ring_spec Ring_proof Share_spec Party Semi_model.
Open Scope Z_scope.

(* ---- opening ---- *)
Lemma filter_perm n r : (r < n)%nat -> Permutation (r :: filter (fun i => negb (i =? r)%nat) (seq 0 n)) (seq 0 n).
Proof.
  intros R. apply NoDup_Permutation.
  - constructor; [rewrite filter_In; intros [_ C]; rewrite Nat.eqb_refl in C; discriminate|]. apply NoDup_filter, seq_NoDup.
  - apply seq_NoDup.
  - intros x. cbn. rewrite filter_In, in_seq. split.
    + intros [->|[A _]]; lia.
    + intros A. destruct (Nat.eqb_spec x r) as [->|N]; [now left|]. right. split; [lia|reflexivity].
Qed.
Lemma sumZ_total n X : sumZ (map X (seq 0 n)) = total n X.
Proof.
  induction n as [|n IH]; [reflexivity|]. rewrite seq_S, map_app, sumZ_app, IH. cbn. lia.
Qed.
Lemma allreduce_add k n X r : 0 <= k -> (r < n)%nat -> word k (X r) -> allreduce (radd k) n X r = wrap k (total n X).
Proof.
  intros K R W. unfold allreduce. rewrite <- (wrap_small k (fold_left _ _ _)).
  2:{ apply fold_radd_word; assumption. }
  rewrite fold_radd. f_equal. rewrite <- sumZ_total. rewrite <- (sumZ_perm _ _ (Permutation_map X (filter_perm n r R))). reflexivity.
Qed.
Lemma allreduce0_add k n X : 0 <= k -> allreduce0 (radd k) n X = wrap k (total n X).
Proof.
  intros K. unfold allreduce0. rewrite <- (wrap_small k (fold_left _ _ _)).
  2:{ apply fold_radd_word; [lia|now apply word_0]. }
  rewrite fold_radd. now rewrite sumZ_total.
Qed.
Lemma fold_rxor xs : forall a, fold_left rxor xs a = Z.lxor a (xorZ xs).
Proof.
  induction xs as [|x xs IH]; intros a; cbn [fold_left xorZ]; [now rewrite Z.lxor_0_r|]. rewrite IH. unfold rxor. now rewrite Z.lxor_assoc.
Qed.
Lemma xorZ_perm l1 l2 : Permutation l1 l2 -> xorZ l1 = xorZ l2.
Proof.
  induction 1; cbn [xorZ]; auto; [now rewrite IHPermutation| |congruence].
  rewrite <- !Z.lxor_assoc. f_equal. apply Z.lxor_comm.
Qed.
Lemma xorZ_total n X : xorZ (map X (seq 0 n)) = xtotal n X.
Proof.
  induction n as [|n IH]; [reflexivity|]. rewrite seq_S, map_app, xorZ_app, IH. cbn. now rewrite Z.lxor_0_r.
Qed.
Lemma allreduce_xor n X r : (r < n)%nat -> allreduce rxor n X r = xtotal n X.
Proof.
  intros R. unfold allreduce. rewrite fold_rxor, <- xorZ_total.
  rewrite <- (xorZ_perm _ _ (Permutation_map X (filter_perm n r R))). reflexivity.
Qed.
Lemma allreduce0_xor n X : allreduce0 rxor n X = xtotal n X.
Proof. unfold allreduce0. now rewrite fold_rxor, Z.lxor_0_l, xorZ_total. Qed.
Lemma a2p_opens k n X x r : 0 <= k -> (r < n)%nat -> shA k n X x -> a2p k n X r = x.
Proof.
  intros K R S. unfold a2p. rewrite allreduce_add by (auto; apply S; auto). now apply shA_wrap.
Qed.
Lemma a2v_opens k n X x o : 0 <= k -> shA k n X x -> a2v k n X o o = x.
Proof.
  intros K S. unfold a2v. rewrite Nat.eqb_refl.
  rewrite <- (shA_wrap k n X x K S). rewrite <- allreduce0_add by exact K. unfold allreduce0.
  clear S. generalize (seq 0 n) as l. generalize 0 as a. intros a l; revert a.
  induction l as [|i l IH]; intros a; cbn; [reflexivity|]. apply IH.
Qed.
Lemma b2p_opens k n X x r : (r < n)%nat -> shB k n X x -> b2p n X r = x.
Proof. intros R [_ [_ S]]. unfold b2p. now rewrite allreduce_xor. Qed.

(* ---- sharing ---- *)
Lemma nextrank_nextp n i : nextrank n i = nextp n i. Proof. reflexivity. Qed.
Lemma v2a_shares k n o R x : 0 <= k -> (o < n)%nat -> word k x -> shA k n (v2a_all k n o R x) x.
Proof.
  intros K O W. apply shA_of; auto.
  - intros i _. unfold v2a_all, v2a. destruct (_ =? _)%nat; apply wrap_range; lia.
  - transitivity (total n (fun i => (R i - R (nextp n i)) + (if (i =? o)%nat then x else 0))).
    + apply total_eqm. intros i I. unfold v2a_all, v2a. destruct (_ =? _)%nat.
      * rewrite eqm_radd, eqm_rsub. reflexivity.
      * rewrite eqm_rsub. now rewrite Z.add_0_r.
    + rewrite total_add, total_sub, total_next, total_delta by lia. replace (total n R - total n R + x) with x by lia. reflexivity.
Qed.
Lemma v2b_shares k n o R x : 0 <= k -> (o < n)%nat -> word k x -> (forall i, (i < n)%nat -> word k (R i)) ->
  shB k n (fun i => v2b o i (R i) (R (nextrank n i)) x) x.
Proof.
  intros K O W WR.
  assert (NX : forall i, (i < n)%nat -> (nextrank n i < n)%nat) by (intros i I; unfold nextrank; destruct (Nat.eqb_spec (S i) n); lia).
  split; [|split; [exact W|]].
  - intros i I. unfold v2b, rxor. destruct (_ =? _)%nat; repeat apply word_lxor; auto.
  - rewrite (xtotal_ext n _ (fun i => Z.lxor (Z.lxor (R i) (R (nextp n i))) (if (i =? o)%nat then x else 0))).
    + rewrite !xtotal_xor, xtotal_next, xtotal_delta by lia. now rewrite Z.lxor_nilpotent, Z.lxor_0_l.
    + intros i I. unfold v2b, rxor. destruct (_ =? _)%nat; [reflexivity|now rewrite Z.lxor_0_r].
Qed.
Lemma from_to_shares k n v x rs : 0 <= k -> (0 < n)%nat -> word k x -> length rs = (n - 1)%nat -> Forall (word k) rs ->
  (forall o, v = VPrivate o -> (o < n)%nat) ->
  from_shares k (kind_of v) (to_shares k n v x rs) = Ok x /\ length (to_shares k n v x rs) = n.
Proof.
  intros K N W L F P. destruct v as [|o|]; cbn [kind_of to_shares].
  - destruct n; [lia|]. cbn. now rewrite repeat_length.
  - specialize (P o eq_refl). split; [|now rewrite map_length, seq_length].
    unfold from_shares. rewrite nth_error_map, (nth_error_nth' _ O) by (rewrite seq_length; lia).
    rewrite seq_nth by lia. cbn. now rewrite Nat.eqb_refl.
  - split; [|unfold additive_splits; cbn; lia]. unfold from_shares. unfold additive_splits at 1. f_equal.
    rewrite <- (wrap_small k (fold_left _ _ _)) by (apply fold_radd_word; [lia|now apply word_0]).
    rewrite fold_radd. rewrite Z.add_0_l, additive_splits_sum. now apply wrap_small.
Qed.

(* recombining the shares of ANY additive or boolean sharing *)
Lemma from_shares_any k n X x : 0 <= k -> (0 < n)%nat ->
  (shA k n X x -> from_shares k KA (map X (seq 0 n)) = Ok x) /\ (shB k n X x -> from_shares k KB (map X (seq 0 n)) = Ok x).
Proof.
  intros K N. assert (NE : exists h t, map X (seq 0 n) = h :: t) by (destruct n; [lia|cbn; eauto]).
  destruct NE as (h & t & NE).
  assert (FX : forall m, fold_left rxor (map X (seq 0 m)) 0 = xtotal m X).
  { induction m as [|m IH]; [reflexivity|]. rewrite seq_S, map_app, fold_left_app, IH. reflexivity. }
  assert (ST : forall m, sumZ (map X (seq 0 m)) = total m X).
  { induction m as [|m IH]; [reflexivity|]. rewrite seq_S, map_app, sumZ_app, IH. cbn. lia. }
  split.
  - intros [_ M]. unfold from_shares. rewrite NE. rewrite <- NE. f_equal.
    rewrite <- (wrap_small k (fold_left _ _ _)) by (apply fold_radd_word; [lia|now apply word_0]).
    rewrite fold_radd, Z.add_0_l, ST. now apply (is_mod_unique k _ _ _ K (wrap_is_mod k _ K)).
  - intros (_ & _ & E). unfold from_shares. rewrite NE. rewrite <- NE. f_equal. now rewrite FX.
Qed.
(* ---- linear kernels ---- *)
Lemma shA_add k n X Y x y : 0 <= k -> shA k n X x -> shA k n Y y -> shA k n (fun i => add_aa k (X i) (Y i)) (radd k x y).
Proof.
  intros K SX SY. apply shA_of; auto; [intros; now apply radd_word|now apply radd_word|].
  rewrite eqm_radd, <- (shA_eqm k n X x K SX), <- (shA_eqm k n Y y K SY), <- total_add.
  apply total_eqm. intros. apply eqm_radd.
Qed.
Lemma total_rank0 n X p : (0 < n)%nat -> total n (fun i => X i + (if (i =? 0)%nat then p else 0)) = total n X + p.
Proof. intros N. now rewrite total_add, total_delta. Qed.
Lemma shA_add_ap k n X x p : 0 <= k -> (0 < n)%nat -> shA k n X x -> shA k n (fun i => add_ap k i (X i) p) (radd k x p).
Proof.
  intros K N SX. apply shA_of; auto; [|now apply radd_word|].
  - intros i I. unfold add_ap. destruct (_ =? _)%nat; [now apply radd_word|now apply SX].
  - rewrite eqm_radd, <- (shA_eqm k n X x K SX), <- total_rank0 by exact N.
    apply total_eqm. intros i I. unfold add_ap. destruct (_ =? _)%nat; [apply eqm_radd|now rewrite Z.add_0_r].
Qed.
Lemma shA_neg k n X x : 0 <= k -> shA k n X x -> shA k n (fun i => negate_a k (X i)) (rneg k x).
Proof.
  intros K SX. apply shA_of; auto; [intros; now apply rneg_word|now apply rneg_word|].
  rewrite eqm_rneg, <- (shA_eqm k n X x K SX), <- total_opp. apply total_eqm. intros. apply eqm_rneg.
Qed.
Lemma shA_mul_ap k n X x p : 0 <= k -> shA k n X x -> shA k n (fun i => mul_ap k (X i) p) (rmul k x p).
Proof.
  intros K SX. apply shA_of; auto; [intros; now apply rmul_word|now apply rmul_word|].
  rewrite eqm_rmul, <- (shA_eqm k n X x K SX), <- total_mul_r. apply total_eqm. intros. apply eqm_rmul.
Qed.
Lemma shA_lshift k n X x s : 0 <= k -> shA k n X x -> shA k n (fun i => lshift_a k s (X i)) (rshl k s x).
Proof.
  intros K SX. apply shA_of; auto; [intros; now apply rshl_word|now apply rshl_word|].
  rewrite eqm_rshl, <- (shA_eqm k n X x K SX), <- total_mul_r. apply total_eqm. intros. apply eqm_rshl.
Qed.
Lemma eqm_mmul k K A B i j : 0 <= k -> eqm k (ring_mmul k K A B i j) (dot K (A i) (fun l => B l j)).
Proof. intros H. destruct (dot_loop_ok k K (A i) (fun l => B l j) H) as [_ [q E]]. unfold ring_mmul. rewrite E. apply eqm_mult. Qed.
Lemma mmul_word k K A B i j : 0 <= k -> word k (ring_mmul k K A B i j).
Proof. intros H. now destruct (dot_loop_ok k K (A i) (fun l => B l j) H). Qed.
Lemma shA_matmul_ap k n K X x P i j : 0 <= k -> (forall l, (l < K)%nat -> shA k n (fun p => X p i l) (x i l)) ->
  shA k n (fun p => matmul_ap k K (X p) P i j) (ring_mmul k K x P i j).
Proof.
  intros K0 SX. apply shA_of; auto; [intros; now apply mmul_word|now apply mmul_word|].
  rewrite eqm_mmul by lia. transitivity (total n (fun p => dot K (X p i) (fun l => P l j))).
  { apply total_eqm. intros. now apply eqm_mmul. }
  rewrite total_dot. apply dot_eqm. intros l L. split; [|reflexivity]. apply (shA_eqm k n (fun p => X p i l)); auto.
Qed.

(* ---- Beaver ---- *)
Lemma open_diff_ok k n X A r : 0 <= k -> (r < n)%nat -> open_diff k n X A r = wrap k (total n X - total n A).
Proof.
  intros K R. unfold open_diff. rewrite allreduce_add by (auto; now apply rsub_word).
  rewrite <- total_sub. apply total_eqm. intros. apply eqm_rsub.
Qed.
Lemma mul_aa_local k n A B C da db : 0 <= k -> (0 < n)%nat ->
  eqm k (total n (fun i => mul_aa k i (A i) (B i) (C i) da db))
        (da * total n B + total n A * db + total n C + da * db).
Proof.
  intros K N. transitivity (total n (fun i => (da * B i + A i * db + C i) + (if (i =? 0)%nat then da * db else 0))).
  - apply total_eqm. intros i I. unfold mul_aa. destruct (_ =? _)%nat.
    + rewrite !eqm_radd, !eqm_rmul. apply eqm_of_eq; ring.
    + rewrite !eqm_radd, !eqm_rmul. apply eqm_of_eq; ring.
  - rewrite total_rank0 by exact N. rewrite !total_add, total_mul_l, total_mul_r. reflexivity.
Qed.
Lemma mul_aa_word k i a b c da db : 0 <= k -> word k (mul_aa k i a b c da db).
Proof. intros. unfold mul_aa. destruct (_ =? _)%nat; now apply radd_word. Qed.
(* the general multiplication lemma: da, db are ANY words congruent to x - a and y - b *)
Lemma mul_aa_correct k n A B C x y da db : 0 <= k -> (0 < n)%nat ->
  eqm k (total n A * total n B) (total n C) -> eqm k da (x - total n A) -> eqm k db (y - total n B) ->
  shA k n (fun i => mul_aa k i (A i) (B i) (C i) da db) (rmul k x y).
Proof.
  intros K N T DA DB. apply shA_of; auto; [intros; now apply mul_aa_word|now apply rmul_word|].
  rewrite mul_aa_local by auto. rewrite eqm_rmul. rewrite <- T, DA, DB. apply eqm_of_eq. ring.
Qed.
Lemma mul_aa_all_ok k n X Y A B C x y : 0 <= k -> (0 < n)%nat -> shA k n X x -> shA k n Y y ->
  eqm k (total n A * total n B) (total n C) ->
  shA k n (mul_aa_all k n X Y A B C) (rmul k x y).
Proof.
  intros K N SX SY T.
  assert (G : shA k n (fun i => mul_aa k i (A i) (B i) (C i) (wrap k (total n X - total n A)) (wrap k (total n Y - total n B))) (rmul k x y)).
  { apply mul_aa_correct; auto; rewrite eqm_wrap; (rewrite (shA_eqm k n X x K SX) || rewrite (shA_eqm k n Y y K SY)); reflexivity. }
  destruct G as [G1 G2]. split; [intros; now apply mul_aa_word|].
  rewrite (total_ext n _ (fun i => mul_aa k i (A i) (B i) (C i) (wrap k (total n X - total n A)) (wrap k (total n Y - total n B)))); [exact G2|].
  intros i I. unfold mul_aa_all. now rewrite !open_diff_ok.
Qed.
Lemma square_correct k n A B x da : 0 <= k -> (0 < n)%nat ->
  eqm k (total n A * total n A) (total n B) -> eqm k da (x - total n A) ->
  shA k n (fun i => square_a k i (A i) (B i) da) (rmul k x x).
Proof.
  intros K N T DA. apply shA_of; auto; [|now apply rmul_word|].
  { intros. unfold square_a. destruct (_ =? _)%nat; now apply radd_word. }
  transitivity (total n (fun i => (A i * (da * 2) + B i) + (if (i =? 0)%nat then da * da else 0))).
  - apply total_eqm. intros i I. unfold square_a. destruct (_ =? _)%nat; rewrite !eqm_radd, !eqm_rmul; apply eqm_of_eq; ring.
  - rewrite total_rank0 by exact N. rewrite !total_add, total_mul_r. rewrite eqm_rmul. rewrite <- T, DA. apply eqm_of_eq. ring.
Qed.
Lemma square_all_ok k n X A B x : 0 <= k -> (0 < n)%nat -> shA k n X x ->
  eqm k (total n A * total n A) (total n B) -> shA k n (square_a_all k n X A B) (rmul k x x).
Proof.
  intros K N SX T.
  destruct (square_correct k n A B x (wrap k (total n X - total n A)) K N T) as [G1 G2].
  { rewrite eqm_wrap, (shA_eqm k n X x K SX). reflexivity. }
  split.
  - intros. unfold square_a_all, square_a. destruct (_ =? _)%nat; now apply radd_word.
  - rewrite (total_ext n _ (fun i => square_a k i (A i) (B i) (wrap k (total n X - total n A)))); [exact G2|].
    intros i I. unfold square_a_all. now rewrite open_diff_ok.
Qed.
Lemma matmul_correct k n K A B C x y DA DB r c : 0 <= k -> (0 < n)%nat ->
  eqm k (dot K (fun l => total n (fun p => A p r l)) (fun l => total n (fun p => B p l c))) (total n (fun p => C p r c)) ->
  (forall l, (l < K)%nat -> eqm k (DA r l) (x r l - total n (fun p => A p r l)) /\ eqm k (DB l c) (y l c - total n (fun p => B p l c))) ->
  shA k n (fun p => matmul_aa k K p (A p) (B p) (C p) DA DB r c) (ring_mmul k K x y r c).
Proof.
  intros K0 N T D. apply shA_of; auto; [|now apply mmul_word|].
  { intros. unfold matmul_aa. destruct (_ =? _)%nat; now apply radd_word. }
  transitivity (total n (fun p => (dot K (DA r) (fun l => B p l c) + dot K (A p r) (fun l => DB l c) + C p r c)
     + (if (p =? 0)%nat then dot K (DA r) (fun l => DB l c) else 0))).
  { apply total_eqm. intros p P. unfold matmul_aa. destruct (_ =? _)%nat; rewrite !eqm_radd, !eqm_mmul by lia; [reflexivity|]. now rewrite Z.add_0_r. }
  rewrite total_rank0 by exact N. rewrite !total_add.
  rewrite total_dot_r, total_dot. rewrite eqm_mmul by lia.
  set (a := fun l => total n (fun p => A p r l)). set (b := fun l => total n (fun p => B p l c)).
  fold a b in T.
  rewrite <- T.
  assert (E1 : eqm k (dot K (DA r) b) (dot K (fun l => x r l - a l) b)) by (apply dot_eqm; intros; split; [apply D; auto|reflexivity]).
  assert (E2 : eqm k (dot K a (fun l => DB l c)) (dot K a (fun l => y l c - b l))) by (apply dot_eqm; intros; split; [reflexivity|apply D; auto]).
  assert (E3 : eqm k (dot K (DA r) (fun l => DB l c)) (dot K (fun l => x r l - a l) (fun l => y l c - b l))) by (apply dot_eqm; intros; now apply D).
  change (fun l : nat => total n (fun i : nat => B i l c)) with b.
  change (fun l : nat => total n (fun i : nat => A i r l)) with a.
  rewrite E1, E2, E3. rewrite !dot_sub_l, !dot_sub_r.
  change (fun l : nat => x r l) with (x r). apply eqm_of_eq. ring.
Qed.
Lemma matmul_all_ok k n K X Y A B C x y r c : 0 <= k -> (0 < n)%nat ->
  (forall l, (l < K)%nat -> shA k n (fun p => X p r l) (x r l)) -> (forall l, (l < K)%nat -> shA k n (fun p => Y p l c) (y l c)) ->
  eqm k (dot K (fun l => total n (fun p => A p r l)) (fun l => total n (fun p => B p l c))) (total n (fun p => C p r c)) ->
  shA k n (fun p => matmul_aa_all k n K X Y A B C p r c) (ring_mmul k K x y r c).
Proof.
  intros K0 N SX SY T.
  destruct (matmul_correct k n K A B C x y
     (fun r l => wrap k (total n (fun p => X p r l) - total n (fun p => A p r l)))
     (fun l c => wrap k (total n (fun p => Y p l c) - total n (fun p => B p l c))) r c K0 N T) as [G1 G2].
  { intros l L. split; rewrite eqm_wrap; [rewrite (shA_eqm k n (fun p => X p r l) (x r l) K0 (SX l L))|rewrite (shA_eqm k n (fun p => Y p l c) (y l c) K0 (SY l L))]; reflexivity. }
  split; [intros; unfold matmul_aa_all, matmul_aa; destruct (_ =? _)%nat; now apply radd_word|].
  erewrite total_ext; [exact G2|]. intros p P. cbn beta. unfold matmul_aa_all, matmul_aa, ring_mmul, dot_loop.
  assert (OD : forall X A : nat -> Z, open_diff k n X A p = wrap k (total n X - total n A)) by (intros; now apply open_diff_ok).
  assert (FE : forall (f g : Z -> nat -> Z) l a, (forall a i, f a i = g a i) -> fold_left f l a = fold_left g l a).
  { clear. intros f g l a E. revert a; induction l as [|i l IH]; intros a; cbn; [reflexivity|]. now rewrite E, IH. }
  rewrite !(FE (fun acc l => radd k acc (rmul k (open_diff k n (fun p0 => X p0 r l) (fun p0 => A p0 r l) p) (B p l c)))
     (fun acc l => radd k acc (rmul k (wrap k (total n (fun p0 => X p0 r l) - total n (fun p0 => A p0 r l))) (B p l c)))) by (intros; now rewrite OD).
  rewrite !(FE (fun acc l => radd k acc (rmul k (A p r l) (open_diff k n (fun p0 => Y p0 l c) (fun p0 => B p0 l c) p)))
     (fun acc l => radd k acc (rmul k (A p r l) (wrap k (total n (fun p0 => Y p0 l c) - total n (fun p0 => B p0 l c)))))) by (intros; now rewrite OD).
  rewrite !(FE (fun acc l => radd k acc (rmul k (open_diff k n (fun p0 => X p0 r l) (fun p0 => A p0 r l) p) (open_diff k n (fun p0 => Y p0 l c) (fun p0 => B p0 l c) p)))
     (fun acc l => radd k acc (rmul k (wrap k (total n (fun p0 => X p0 r l) - total n (fun p0 => A p0 r l))) (wrap k (total n (fun p0 => Y p0 l c) - total n (fun p0 => B p0 l c)))))) by (intros; now rewrite !OD).
  reflexivity.
Qed.
Lemma land1 y : Z.land y 1 = y mod 2.
Proof. change 1 with (Z.ones 1). now rewrite Z.land_ones. Qed.
Lemma a1b_ok k X Y A B C x y : 0 < k -> shA k 2 X x -> shB k 2 Y y ->
  eqm k (total 2 A * total 2 B) (total 2 C) -> shA k 2 (mul_a1b_all k X Y A B C) (rmul k x (y mod 2)).
Proof.
  intros K SX [WY [Wy EY]] T. assert (K' : 0 <= k) by lia. apply shA_of; [lia| |now apply rmul_word|].
  { intros. unfold mul_a1b_all, mul_a1b. now apply radd_word. }
  set (YY := fun i => a1b_yy k (Y i)). set (XX := fun i => a1b_xx k (X i) (Y i)).
  assert (OX : forall i, (i < 2)%nat -> eqm k (open_diff k 2 XX A i) (total 2 XX - total 2 A)).
  { intros i I. rewrite open_diff_ok by lia. apply eqm_wrap. }
  assert (OY : forall i, (i < 2)%nat -> eqm k (open_diff k 2 YY B i) (total 2 YY - total 2 B)).
  { intros i I. rewrite open_diff_ok by lia. apply eqm_wrap. }
  rewrite eqm_rmul, <- (shA_eqm k 2 X x ltac:(lia) SX).
  unfold mul_a1b_all. fold XX YY. cbn [total] in *. unfold mul_a1b. cbn [Nat.eqb].
  fold (XX 0%nat) (XX 1%nat).
  change (a1b_xx k (X 0%nat) (Y 0%nat)) with (XX 0%nat). change (a1b_xx k (X 1%nat) (Y 1%nat)) with (XX 1%nat).
  change (a1b_yy k (Y 0%nat)) with (YY 0%nat). change (a1b_yy k (Y 1%nat)) with (YY 1%nat).
  repeat (rewrite ?eqm_radd, ?eqm_rsub, ?eqm_rmul). rewrite !OX, !OY by lia.
  assert (EX : forall i, eqm k (XX i) ((1 - 2 * YY i) * X i)).
  { intros i. unfold XX, a1b_xx. rewrite eqm_rmul, eqm_rsub, eqm_rshl. fold (YY i). apply eqm_of_eq. ring. }
  assert (MY : y mod 2 = YY 0%nat + YY 1%nat - 2 * YY 0%nat * YY 1%nat).
  { unfold YY, a1b_yy. rewrite <- land1, <- EY. cbn [xtotal]. rewrite Z.lxor_0_l, !land1.
    assert (P : forall a b, (Z.lxor a b) mod 2 = a mod 2 + b mod 2 - 2 * (a mod 2) * (b mod 2)).
    { intros a b. change (Z.lxor a b mod 2) with (wrap 1 (Z.lxor a b)). rewrite wrap_lxor by lia. unfold wrap. change (2^1) with 2.
      pose proof (Z.mod_pos_bound a 2). pose proof (Z.mod_pos_bound b 2).
      assert (Ha : a mod 2 = 0 \/ a mod 2 = 1) by lia. assert (Hb : b mod 2 = 0 \/ b mod 2 = 1) by lia.
      destruct Ha as [->| ->], Hb as [->| ->]; reflexivity. }
    apply P. }
  rewrite MY.
  transitivity ((0 + XX 0%nat + XX 1%nat) * (0 + YY 0%nat + YY 1%nat) - (0 + A 0%nat + A 1%nat) * (0 + B 0%nat + B 1%nat) + (0 + C 0%nat + C 1%nat)
     - XX 0%nat * YY 0%nat - XX 1%nat * YY 1%nat + X 0%nat * YY 0%nat + X 1%nat * YY 1%nat); [apply eqm_of_eq; ring|].
  rewrite <- T, !EX. apply eqm_of_eq. ring.
Qed.
Lemma mulvvs_ok k A C V : 0 < k -> eqm k (A 0%nat * A 1%nat) (C 0%nat + C 1%nat) ->
  shA k 2 (mulvvs_all k A C V) (rmul k (V 0%nat) (V 1%nat)).
Proof.
  intros K T. assert (K' : 0 <= k) by lia. apply shA_of; [lia| |now apply rmul_word|].
  { intros. unfold mulvvs_all, mulvvs. destruct (_ =? _)%nat; now apply radd_word. }
  unfold mulvvs_all, mulvvs, mulvvs_send. cbn [total Nat.eqb Nat.sub].
  repeat (rewrite ?eqm_radd, ?eqm_rmul, ?eqm_rneg).
  transitivity (V 0%nat * V 1%nat - A 0%nat * A 1%nat + (C 0%nat + C 1%nat)); [apply eqm_of_eq; ring|].
  rewrite <- T. apply eqm_of_eq. ring.
Qed.

(* ---- boolean ---- *)
Lemma bitwidth_bound x : 0 <= x -> x < 2 ^ bitwidth x /\ 0 <= bitwidth x.
Proof.
  intros X. unfold bitwidth. destruct (Z.eqb_spec x 0); [subst; cbn; lia|].
  pose proof (Z.log2_spec x). pose proof (Z.log2_nonneg x). rewrite <- Z.add_1_r in H. lia.
Qed.
Lemma bitwidth_word k x : 0 <= k -> word k x -> bitwidth x <= k.
Proof.
  intros K [A B]. unfold bitwidth. destruct (Z.eqb_spec x 0); [lia|].
  assert (Z.log2 x < k) by (apply Z.log2_lt_pow2; lia). lia.
Qed.
Lemma max_bitwidth_ok k xs x : 0 <= k -> Forall (word k) xs -> In x xs -> 0 <= max_bitwidth k xs <= k /\ x < 2 ^ max_bitwidth k xs.
Proof.
  intros K F I. destruct xs as [|v xs]; [destruct I|]. unfold max_bitwidth.
  assert (G : forall l m, 0 <= m <= k -> Forall (word k) l ->
     let r := fold_left (fun m v => Z.max m (bitwidth v)) l m in m <= r <= k /\ forall x, In x l -> bitwidth x <= r).
  { induction l as [|u l IH]; intros m M Fl; cbn [fold_left]; [split; [lia|intros ? []]|].
    inversion Fl as [|? ? Hu Hl]; subst. pose proof (bitwidth_word k u K Hu). pose proof (bitwidth_bound u (proj1 Hu)).
    destruct (IH (Z.max m (bitwidth u))) as [A B]; [lia|exact Hl|]. split; [lia|].
    intros x' [->|I']; [|auto]. lia. }
  destruct (G (v :: xs) 0 ltac:(lia) F) as [A B]. split; [lia|]. specialize (B x I).
  assert (Wx : word k x) by (rewrite Forall_forall in F; auto).
  destruct (bitwidth_bound x (proj1 Wx)) as [C D].
  pose proof (Z.pow_le_mono_r 2 (bitwidth x) (fold_left (fun m v => Z.max m (bitwidth v)) (v :: xs) 0)). lia.
Qed.
Lemma lt_pow_word nb x : 0 <= x -> x < 2 ^ nb -> word nb x.
Proof. split; assumption. Qed.
Lemma land_bound a b na nb : 0 <= a -> 0 <= b -> 0 <= na -> 0 <= nb -> a < 2 ^ na -> b < 2 ^ nb -> Z.land a b < 2 ^ Z.min na nb.
Proof.
  intros A B NA NB HA HB. destruct (Z.le_ge_cases na nb).
  - rewrite Z.min_l by lia. apply (word_land_l na a b NA). now split.
  - rewrite Z.min_r by lia. apply (word_land_r nb a b NB). now split.
Qed.
Lemma shBn_xor k n na nb X Y x y : shBn k n na X x -> shBn k n nb Y y -> shBn k n (nb_xor na nb) (fun i => xor_bb (X i) (Y i)) (rxor x y).
Proof.
  intros [[WX [Wx EX]] [NA HA]] [[WY [Wy EY]] [NB HB]]. unfold xor_bb, rxor, nb_xor.
  assert (word (Z.max na nb) (Z.lxor x y)).
  { apply word_lxor; [lia| |]; [apply (word_mono na)|apply (word_mono nb)]; try lia; split; auto; apply Wx || apply Wy. }
  split; [|split; [lia|apply H]]. split; [intros; apply word_lxor; auto; lia|]. split; [apply (word_mono (Z.max na nb)); auto; lia|].
  rewrite xtotal_xor. congruence.
Qed.
Lemma shBn_xor_bp k n na nb X x p : (0 < n)%nat -> shBn k n na X x -> word k p -> 0 <= nb <= k -> p < 2 ^ nb ->
  shBn k n (nb_xor na nb) (fun i => xor_bp i (X i) p) (rxor x p).
Proof.
  intros N [[WX [Wx EX]] [NA HA]] WP NB HB. unfold xor_bp, rxor, nb_xor.
  assert (word (Z.max na nb) (Z.lxor x p)).
  { apply word_lxor; [lia| |]; [apply (word_mono na)|apply (word_mono nb)]; try lia; split; auto; apply Wx || apply WP. }
  split; [|split; [lia|apply H]]. split; [|split; [apply (word_mono (Z.max na nb)); auto; lia|]].
  - intros i I. destruct (_ =? _)%nat; [apply word_lxor; auto; lia|auto].
  - rewrite (xtotal_ext n _ (fun i => Z.lxor (X i) (if (i =? 0)%nat then p else 0))).
    + rewrite xtotal_xor, xtotal_delta by lia. congruence.
    + intros i I. destruct (_ =? _)%nat; [reflexivity|now rewrite Z.lxor_0_r].
Qed.
Lemma land_lxor_distr_r a b c : Z.land (Z.lxor a b) c = Z.lxor (Z.land a c) (Z.land b c).
Proof. apply Z.bits_inj'. intros i I. rewrite !Z.land_spec, !Z.lxor_spec, !Z.land_spec. now destruct (Z.testbit a i), (Z.testbit b i), (Z.testbit c i). Qed.
Lemma land_lxor_distr_l a b c : Z.land c (Z.lxor a b) = Z.lxor (Z.land c a) (Z.land c b).
Proof. rewrite Z.land_comm, land_lxor_distr_r. now rewrite !(Z.land_comm c). Qed.
Lemma shBn_and_bp k n na nb X x p : shBn k n na X x -> word k p -> 0 <= nb <= k -> p < 2 ^ nb ->
  shBn k n (nb_and na nb) (fun i => and_bp (X i) p) (rand_ x p).
Proof.
  intros [[WX [Wx EX]] [NA HA]] WP NB HB. unfold and_bp, rand_, nb_and. split; [|split; [lia|]].
  - split; [intros; apply word_land_l; auto; lia|]. split; [apply word_land_l; auto; lia|].
    rewrite (xtotal_lin (fun v => Z.land v p)); [now rewrite EX|reflexivity|]. intros. apply land_lxor_distr_r.
  - apply land_bound; try lia; [apply Wx|apply WP].
Qed.
Lemma backtype_ok nb w : 0 <= nb -> backtype nb = Ok w -> nb <= w /\ (w = 8 \/ w = 16 \/ w = 32 \/ w = 64 \/ w = 128).
Proof.
  intros N. unfold backtype. repeat (match goal with |- context[?a <=? ?b] => destruct (Z.leb_spec a b) end; [intros E; injection E as <-; split; [lia|tauto]|]). discriminate.
Qed.
Lemma and_bb_ok k w n na nb X Y A B C x y : 0 <= k -> (0 < n)%nat -> shBn k n na X x -> shBn k n nb Y y ->
  backtype (nb_and na nb) = Ok w ->
  (forall i, (i < n)%nat -> word w (A i) /\ word w (B i) /\ word w (C i)) ->
  Z.land (xtotal n A) (xtotal n B) = xtotal n C ->
  xtotal n (and_bb_all w n X Y A B C) = rand_ x y /\ (forall i, (i < n)%nat -> word w (and_bb_all w n X Y A B C i)) /\
  rand_ x y < 2 ^ (nb_and na nb).
Proof.
  intros K N [[WX [Wx EX]] [NA HA]] [[WY [Wy EY]] [NB HB]] BT WT T.
  destruct (backtype_ok (nb_and na nb) w) as [BW WW]; [unfold nb_and; lia|exact BT|].
  assert (W0 : 0 <= w) by lia.
  assert (LT : Z.land x y < 2 ^ Z.min na nb) by (apply land_bound; try lia; [apply Wx|apply Wy]).
  unfold and_bb_all, rand_, nb_and in *. rewrite !allreduce0_xor.
  set (mx := xtotal n (fun i => wrap w (rxor (X i) (A i)))).
  set (my := xtotal n (fun i => wrap w (rxor (Y i) (B i)))).
  assert (MX : mx = Z.lxor (wrap w x) (xtotal n A)).
  { unfold mx, rxor. rewrite (xtotal_ext n _ (fun i => Z.lxor (wrap w (X i)) (A i))).
    - rewrite xtotal_xor. f_equal. rewrite (xtotal_lin (wrap w)); [now rewrite EX|apply wrap_0; lia|intros; apply wrap_lxor; lia].
    - intros i I. rewrite wrap_lxor by lia. f_equal. apply wrap_small. now apply WT. }
  assert (MY : my = Z.lxor (wrap w y) (xtotal n B)).
  { unfold my, rxor. rewrite (xtotal_ext n _ (fun i => Z.lxor (wrap w (Y i)) (B i))).
    - rewrite xtotal_xor. f_equal. rewrite (xtotal_lin (wrap w)); [now rewrite EY|apply wrap_0; lia|intros; apply wrap_lxor; lia].
    - intros i I. rewrite wrap_lxor by lia. f_equal. apply wrap_small. now apply WT. }
  assert (WA : word w (xtotal n A)) by (apply xtotal_word; [lia|intros; now apply WT]).
  assert (WB : word w (xtotal n B)) by (apply xtotal_word; [lia|intros; now apply WT]).
  split; [|split; [|exact LT]].
  - rewrite (xtotal_ext n _ (fun i => Z.lxor (Z.lxor (Z.lxor (C i) (Z.land mx (B i))) (Z.land my (A i))) (if (i =? 0)%nat then Z.land mx my else 0))).
    2:{ intros i I. unfold rxor, rand_. destruct (_ =? _)%nat; [reflexivity|now rewrite Z.lxor_0_r]. }
    rewrite !xtotal_xor, xtotal_delta by lia.
    rewrite (xtotal_lin (fun v => Z.land mx v)) by (try apply Z.land_0_r; intros; apply land_lxor_distr_l).
    rewrite (xtotal_lin (fun v => Z.land my v)) by (try apply Z.land_0_r; intros; apply land_lxor_distr_l).
    rewrite <- T, MX, MY.
    transitivity (Z.land (wrap w x) (wrap w y)).
    + apply Z.bits_inj'. intros i I. rewrite !Z.lxor_spec, !Z.land_spec, !Z.lxor_spec.
      destruct (Z.testbit (wrap w x) i), (Z.testbit (wrap w y) i), (Z.testbit (xtotal n A) i), (Z.testbit (xtotal n B) i); reflexivity.
    + rewrite <- wrap_land by lia. apply wrap_small. split; [apply Z.land_nonneg; left; apply Wx|].
      pose proof (Z.pow_le_mono_r 2 (Z.min na nb) w). lia.
  - intros i I. destruct (WT i I) as [H1 [H2 H3]].
    assert (word w mx) by (rewrite MX; apply word_lxor; auto; now apply word_wrap).
    unfold rxor, rand_. destruct (_ =? _)%nat; repeat apply word_lxor; auto; try lia; try (apply word_land_r; auto; lia); apply word_land_l; auto; lia.
Qed.
Lemma rshl_lxor k s a b : 0 <= k -> 0 <= s -> rshl k s (Z.lxor a b) = Z.lxor (rshl k s a) (rshl k s b).
Proof.
  intros K S. unfold rshl. rewrite <- !Z.shiftl_mul_pow2 by lia. rewrite Z.shiftl_lxor. now apply wrap_lxor.
Qed.
Lemma rshr_lxor s a b : 0 <= s -> rshr s (Z.lxor a b) = Z.lxor (rshr s a) (rshr s b).
Proof. intros S. unfold rshr. rewrite <- !Z.shiftr_div_pow2 by lia. apply Z.shiftr_lxor. Qed.
(* arithmetic shift of a word: bit i is bit min(i+s, k-1) *)
Lemma sgn_bit k x i : 0 < k -> word k x -> 0 <= i -> Z.testbit (sgn k x) i = Z.testbit x (Z.min i (k - 1)).
Proof.
  intros K W I. unfold sgn. pose proof (pow2_half k K). pose proof (pow2_pos (k - 1) ltac:(lia)).
  destruct (Z.ltb_spec x (2 ^ (k - 1))).
  - assert (W1 : word (k - 1) x) by (split; [apply W|lia]).
    destruct (Z.le_ge_cases i (k - 1)); [now rewrite Z.min_l by lia|].
    rewrite Z.min_r by lia. rewrite !(word_bit_high (k - 1) x) by (auto; lia). reflexivity.
  - destruct (Z.lt_ge_cases i k) as [L|G].
    + rewrite Z.min_l by lia. rewrite <- (Z.mod_pow2_bits_low (x - 2 ^ k) k) by lia.
      replace ((x - 2 ^ k) mod 2 ^ k) with x; [reflexivity|].
      replace (x - 2 ^ k) with (x + (-1) * 2 ^ k) by ring. rewrite Z.mod_add by (unfold word in W; lia). symmetry; apply Z.mod_small, W.
    + rewrite Z.min_r by lia.
      assert (T : Z.testbit x (k - 1) = true).
      { rewrite Z.testbit_true by lia. replace (x / 2 ^ (k - 1)) with 1; [reflexivity|]. apply Z.div_unique with (r := x - 2 ^ (k - 1)); unfold word in W; lia. }
      rewrite T. rewrite Z.testbit_true by lia.
      replace ((x - 2 ^ k) / 2 ^ i) with (-1); [reflexivity|].
      pose proof (Z.pow_le_mono_r 2 k i ltac:(lia) ltac:(lia)).
      apply Z.div_unique with (r := x - 2 ^ k + 2 ^ i); unfold word in W; lia.
Qed.
Lemma rsar_bit k s x i : 0 < k -> 0 <= s -> word k x -> 0 <= i < k -> Z.testbit (rsar k s x) i = Z.testbit x (Z.min (i + s) (k - 1)).
Proof.
  intros K S W I. unfold rsar. change Z.testbit with bit at 1. rewrite bit_mod by lia. destruct (Z.ltb_spec i k); [|lia]. cbn [andb].
  rewrite Z.div_pow2_bits by lia. apply sgn_bit; auto; lia.
Qed.
Lemma rsar_lxor k s a b : 0 < k -> 0 <= s -> word k a -> word k b -> rsar k s (Z.lxor a b) = Z.lxor (rsar k s a) (rsar k s b).
Proof.
  intros K S A B. apply Z.bits_inj'. intros i I. destruct (Z.lt_ge_cases i k).
  - rewrite Z.lxor_spec, !rsar_bit by (auto; try lia; apply word_lxor; auto; lia). apply Z.lxor_spec.
  - rewrite !(word_bit_high k); auto; try lia; [apply word_lxor; try lia; apply rsar_word; lia|apply rsar_word; lia].
Qed.
Lemma xtotal_lin_word (f : Z -> Z) k n X : 0 <= k -> f 0 = 0 -> (forall a b, word k a -> word k b -> f (Z.lxor a b) = Z.lxor (f a) (f b)) ->
  (forall i, (i < n)%nat -> word k (X i)) -> xtotal n (fun i => f (X i)) = f (xtotal n X).
Proof.
  intros K F0 FX. induction n as [|n IH]; intros W; cbn [xtotal]; [now rewrite F0|].
  assert (Wn : word k (X n)) by (apply W; lia). rewrite IH by (intros; apply W; lia). rewrite FX; [reflexivity| |exact Wn]. apply xtotal_word; [exact K|]. intros; apply W; lia.
Qed.
Lemma shBn_lshift k n nb smax s X x : 0 <= k -> 0 <= s <= smax -> shBn k n nb X x ->
  shBn k n (nb_lshift k nb smax) (fun i => lshift_b k s (X i)) (rshl k s x).
Proof.
  intros K S [[WX [Wx EX]] [NB HB]]. unfold lshift_b, nb_lshift. split; [|split; [lia|]].
  - split; [intros; now apply rshl_word|]. split; [now apply rshl_word|].
    rewrite (xtotal_lin (rshl k s)); [now rewrite EX| |intros; apply rshl_lxor; lia].
    unfold rshl. rewrite Z.mul_0_l. now apply wrap_0.
  - pose proof (pow2_pos s ltac:(lia)). pose proof (pow2_pos nb ltac:(lia)).
    destruct (Z.le_ge_cases (Z.max 0 (nb + smax)) k).
    + rewrite Z.min_l, Z.max_r by lia.
      assert (L : x * 2 ^ s < 2 ^ (nb + smax)).
      { apply Z.lt_le_trans with (2 ^ (nb + s)); [rewrite pow2_split by lia; unfold word in Wx; nia|apply Z.pow_le_mono_r; lia]. }
      unfold rshl. pose proof (Z.pow_le_mono_r 2 (nb + smax) k ltac:(lia) ltac:(lia)). rewrite wrap_small; [lia|]. unfold word in Wx. nia.
    + rewrite Z.min_r by lia. apply rshl_word; lia.
Qed.
Lemma shBn_rshift k n nb smin s X x : 0 <= k -> 0 <= smin <= s -> shBn k n nb X x ->
  shBn k n (nb_rshift nb smin) (fun i => rshift_b s (X i)) (rshr s x).
Proof.
  intros K S [[WX [Wx EX]] [NB HB]]. unfold rshift_b, nb_rshift. split; [|split; [lia|]].
  - split; [intros; apply rshr_word; auto; lia|]. split; [apply rshr_word; auto; lia|].
    rewrite (xtotal_lin (rshr s)); [now rewrite EX|unfold rshr; apply Z.div_0_l, Z.pow_nonzero; lia|intros; apply rshr_lxor; lia].
  - unfold rshr. apply Z.div_lt_upper_bound; [apply pow2_pos; lia|].
    rewrite <- pow2_split by lia. apply Z.lt_le_trans with (2 ^ nb); [exact HB|]. apply Z.pow_le_mono_r; lia.
Qed.
Lemma shBn_arshift k n nb s X x : 0 < k -> 0 <= s -> shBn k n nb X x -> shBn k n k (fun i => arshift_b k s (X i)) (rsar k s x).
Proof.
  intros K S [[WX [Wx EX]] [NB HB]]. unfold arshift_b. split; [|split; [lia|apply rsar_word; lia]].
  split; [intros; apply rsar_word; lia|]. split; [apply rsar_word; lia|].
  rewrite (xtotal_lin_word (rsar k s) k); [now rewrite EX|lia| |intros; apply rsar_lxor; auto; lia|exact WX].
  unfold rsar, sgn. pose proof (pow2_pos (k - 1) ltac:(lia)). destruct (Z.ltb_spec 0 (2 ^ (k - 1))); [|lia].
  rewrite Z.div_0_l by (apply Z.pow_nonzero; lia). apply wrap_0; lia.
Qed.
