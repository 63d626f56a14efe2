(* Merged keys and group marks. *)
From Coq Require Import ZifyBool ZifyNat ZifyN.
From Verif Require Import Base Ring_model Ring_spec Party Perm_model Perm_spec Perm_proof Fold Scan_model Scan_proof Radix_model Radix_spec Radix_proof Radixs_proof Radixk_proof Pv_model Pv_spec Pv_proof.
Open Scope nat_scope.

Lemma before_trans desc vs i j l : row_before desc vs i j -> row_before desc vs j l -> row_before desc vs i l.
Proof. induction vs as [|v vs IH]; cbn; [auto|]. destruct desc; intros [H|[H1 H]] [G|[G1 G]]; try (left; lia); right; (split; [lia|auto]). Qed.
Lemma before_eq_l desc vs i j l : (forall v, In v vs -> v i = v j) -> row_before desc vs j l -> row_before desc vs i l.
Proof. induction vs as [|v vs IH]; cbn; [auto|]. intros E. rewrite (E v) by auto. intros [H|[H G]]; [now left|]. right. split; [exact H|]. apply IH; auto. Qed.
Lemma before_eq_r desc vs i j l : row_before desc vs i j -> (forall v, In v vs -> v j = v l) -> row_before desc vs i l.
Proof. induction vs as [|v vs IH]; cbn; [auto|]. intros H E. rewrite <- (E v) by auto. destruct H as [H|[H G]]; [now left|]. right. split; [exact H|]. apply IH; auto. Qed.

Definition sorted_rows (n : nat) (desc : bool) (vs : list (nat -> Z)) : Prop := forall i j, i < j -> j < n -> row_before desc vs i j \/ (forall v, In v vs -> v i = v j).
Lemma sorted_mid n desc vs i t j : sorted_rows n desc vs -> i <= t <= j -> j < n -> (forall v, In v vs -> v i = v j) -> forall v, In v vs -> v i = v t.
Proof.
  intros S T J E. destruct (Nat.eq_dec i t) as [->|A]; [reflexivity|]. destruct (Nat.eq_dec t j) as [->|B]; [exact E|].
  destruct (S i t ltac:(lia) ltac:(lia)) as [H|H]; [|exact H]. exfalso. apply (before_neq desc vs i j E). destruct (S t j ltac:(lia) J) as [G|G]; [eapply before_trans; eauto|eapply before_eq_r; eauto].
Qed.

(* number of changes among positions 1..i *)
Fixpoint changes (same : nat -> bool) (i : nat) : nat := match i with O => 0 | S j => changes same j + (if same (S j) then 0 else 1) end.
Lemma changes_le same i : changes same i <= i.
Proof. induction i as [|i IH]; cbn; [lia|]. destruct (same (S i)); lia. Qed.
Lemma changes_mono same i j : i <= j -> changes same i <= changes same j.
Proof. induction 1 as [|j H IH]; [lia|]. cbn. lia. Qed.
Lemma changes_eq same i j : i <= j -> (changes same i = changes same j <-> forall t, i < t <= j -> same t = true).
Proof.
  induction 1 as [|j H IH]; [split; [intros _ t T; lia|reflexivity]|]. cbn [changes]. pose proof (changes_mono same i j H) as M. split.
  - intros E. destruct (same (S j)) eqn:Q; [|lia]. intros t T. destruct (Nat.eq_dec t (S j)) as [->|]; [exact Q|]. apply IH; lia.
  - intros A. rewrite (A (S j)) by lia. rewrite Nat.add_0_r. apply IH. intros t T. apply A. lia.
Qed.

Section Merge.
Variables (k : Z) (n : nat).
Hypothesis K : (0 < k)%Z.
Variables (cols : list (list Z)).
Hypothesis NE : cols <> [].
Hypothesis L : Forall (fun x => length x = n) cols.
Hypothesis W : Forall (Forall (word k)) cols.
Hypothesis N0 : 0 < n.

Lemma read_ok (x : list Z) i : i < length x -> read x i = Ok (nthZ x i).
Proof using. intros I. unfold read. now rewrite (nth_error_nth' x 0%Z I). Qed.
Lemma row_eq i j : row_of cols i = row_of cols j <-> Forall (fun x => nthZ x i = nthZ x j) cols.
Proof using. clear. unfold row_of. induction cols as [|x l IH]; cbn [map]; [split; constructor|]. split; [intros E; injection E as E1 E2; constructor; [exact E1|now apply IH]|intros F; inversion F; subst; f_equal; [assumption|now apply IH]]. Qed.
Lemma all_same_ok i j : i < n -> j < n -> exists b, all_same cols i j = Ok b /\ (b = true <-> row_of cols i = row_of cols j).
Proof using L.
  clear - L. intros I J. cut (exists b, all_same cols i j = Ok b /\ (b = true <-> Forall (fun x => nthZ x i = nthZ x j) cols)); [intros [b [B1 B2]]; exists b; split; [exact B1|]; now rewrite row_eq|]. induction cols as [|x l IH]; [exists true; split; [reflexivity|split; [constructor|reflexivity]]|]. inversion L as [|? ? Lx Ll]; subst.
  cbn [all_same]. rewrite !read_ok by lia. cbn [rbind]. destruct (Z.eqb_spec (nthZ x i) (nthZ x j)) as [E|E].
  - destruct (IH Ll) as [b [B1 B2]]. exists b. split; [exact B1|]. rewrite B2. split; [intros F; constructor; auto|intros F; now inversion F].
  - exists false. split; [reflexivity|]. split; [easy|]. intros F. inversion F. contradiction.
Qed.
Lemma sval_inj x i j : Forall (word k) x -> i < length x -> j < length x -> sval k x i = sval k x j <-> nthZ x i = nthZ x j.
Proof using K.
  clear - K. intros F I J. rewrite Forall_forall in F. assert (A : word k (nthZ x i)) by (apply F, nth_In, I). assert (B : word k (nthZ x j)) by (apply F, nth_In, J). unfold word, sval in *. cbv zeta.
  destruct (Z.ltb_spec (nthZ x i) (2 ^ (k - 1))), (Z.ltb_spec (nthZ x j) (2 ^ (k - 1))); lia.
Qed.
Lemma row_vals i j : i < n -> j < n -> row_of cols i = row_of cols j <-> forall v, In v (map (sval k) cols) -> v i = v j.
Proof using All.
  clear NE. intros I J. rewrite row_eq, Forall_forall. split.
  - intros H v V. apply in_map_iff in V. destruct V as [x [<- X]]. rewrite Forall_forall in L, W. apply sval_inj; auto; now rewrite (L x X).
  - intros H x X. rewrite Forall_forall in L, W. apply sval_inj; auto; try (now rewrite (L x X)). apply H, in_map_iff. now exists x.
Qed.
Lemma cols_head : exists x0 l, cols = x0 :: l /\ length x0 = n.
Proof using NE L. clear - NE L. destruct cols as [|x0 l]; [easy|]. exists x0, l. split; [reflexivity|]. exact (Forall_inv L). Qed.
Definition same_prev (i : nat) : bool := match all_same cols i (i - 1) with Ok b => b | _ => false end.
Lemma same_prev_ok i : 0 < i < n -> all_same cols i (i - 1) = Ok (same_prev i) /\ (same_prev i = true <-> row_of cols i = row_of cols (i - 1)).
Proof using L. clear - L. intros I. unfold same_prev. destruct (all_same_ok i (i - 1) ltac:(lia) ltac:(lia)) as [b [-> B]]. auto. Qed.
Lemma merge_loop_ok asc : forall todo i, 0 < i -> i + todo <= n ->
  merge_keys_loop k cols asc i todo (wrap k ((if asc then 1 else -1) * Z.of_nat (changes same_prev (i - 1)))) =
  Ok (map (fun t => wrap k ((if asc then 1 else -1) * Z.of_nat (changes same_prev t))) (seq i todo)).
Proof using All.
  induction todo as [|todo IH]; intros i I B; [reflexivity|]. cbn [merge_keys_loop seq map]. destruct (same_prev_ok i ltac:(lia)) as [E _]. rewrite E. cbn [rbind].
  set (s := if asc then 1%Z else (-1)%Z) in *.
  assert (V : (if same_prev i then wrap k (s * Z.of_nat (changes same_prev (i - 1))) else if asc then radd k (wrap k (s * Z.of_nat (changes same_prev (i - 1)))) 1 else rsub k (wrap k (s * Z.of_nat (changes same_prev (i - 1)))) 1) = wrap k (s * Z.of_nat (changes same_prev i))).
  { destruct i as [|j]; [lia|]. replace (S j - 1) with j by lia. cbn [changes]. destruct (same_prev (S j)).
    - now rewrite Nat.add_0_r.
    - unfold radd, rsub, s. destruct asc; match goal with |- wrap k ?u = wrap k ?v => change (eqm k u v) end; rewrite ?eqm_wrap; apply eqm_of_eq; lia. }
  rewrite V. pose proof (IH (i + 1) ltac:(lia) ltac:(lia)) as IH'. replace (i + 1 - 1) with i in IH' by lia. rewrite IH'. cbn [rbind]. rewrite Nat.add_1_r. reflexivity.
Qed.
Lemma merge_keys_kernel asc : merge_keys_p k cols asc = Ok (tab n (fun t => wrap k ((if asc then 1 else -1) * Z.of_nat (changes same_prev t)))).
Proof using All.
  unfold merge_keys_p. destruct cols_head as [x0 [l [EC Lx]]]. rewrite EC at 1. rewrite Lx.
  destruct (Nat.eqb_spec n 0); [lia|]. pose proof (merge_loop_ok asc (n - 1) 1 ltac:(lia) ltac:(lia)) as M. change (1 - 1) with 0 in M. cbn [changes] in M.
  rewrite Z.mul_0_r in M. rewrite wrap_small in M by (pose proof (pow2_pos k ltac:(lia)); lia). rewrite M. cbn [rbind]. unfold tab. replace (seq 0 n) with (0 :: seq 1 (n - 1)) by (replace n with (S (n - 1)) at 2 by lia; reflexivity).
  cbn [map changes]. rewrite Z.mul_0_r, wrap_small by (pose proof (pow2_pos k ltac:(lia)); lia). reflexivity.
Qed.
Lemma changes_rows desc : sorted_rows n desc (map (sval k) cols) -> forall i j, i <= j -> j < n -> (changes same_prev i = changes same_prev j <-> forall v, In v (map (sval k) cols) -> v i = v j).
Proof using All.
  intros S i j I J. rewrite changes_eq by exact I. split.
  - intros H. assert (A : forall t, i <= t <= j -> row_of cols i = row_of cols t).
    { induction t as [|t IH]; intros T; [f_equal; lia|]. destruct (Nat.eq_dec i (Datatypes.S t)) as [->|D]; [reflexivity|]. rewrite IH by lia.
      specialize (H (Datatypes.S t) ltac:(lia)). apply (same_prev_ok (Datatypes.S t) ltac:(lia)) in H. replace (Datatypes.S t - 1) with t in H by lia. now symmetry. }
    apply row_vals; [lia|lia|]. apply A. lia.
  - intros H t T. apply (same_prev_ok t ltac:(lia)). rewrite (row_vals t (t - 1)) by lia. intros v V.
    rewrite <- (sorted_mid n desc _ i t j S ltac:(lia) J H v V). apply (sorted_mid n desc _ i (t - 1) j S ltac:(lia) J H v V).
Qed.
Lemma merge_keys_merged asc : (Z.of_nat n <= 2 ^ (k - 1))%Z -> sorted_rows n (negb asc) (map (sval k) cols) ->
  exists m, merge_keys_p k cols asc = Ok m /\ length m = n /\ Forall (word k) m /\ (forall i, i < n -> (- Z.of_nat n < sval k m i < Z.of_nat n)%Z) /\ merged n (negb asc) (map (sval k) cols) (sval k m).
Proof using All.
  intros N S. eexists. split; [apply merge_keys_kernel|]. split; [apply tab_length|]. split.
  { apply Forall_forall. intros w H. unfold tab in H. apply in_map_iff in H. destruct H as [t [<- _]]. apply wrap_range. lia. }
  assert (V : forall i, i < n -> sval k (tab n (fun t => wrap k ((if asc then 1 else -1) * Z.of_nat (changes same_prev t)))) i = ((if asc then 1 else -1) * Z.of_nat (changes same_prev i))%Z).
  { intros i I. unfold sval, nthZ. rewrite tab_nth by exact I. apply (sgn_wrap k); [exact K|]. pose proof (changes_le same_prev i). destruct asc; lia. }
  split.
  { intros i I. rewrite V by exact I. pose proof (changes_le same_prev i). destruct asc; lia. }
  intros i j I J. cbn [row_before]. rewrite !V by assumption.
  assert (H : forall i j, i < j -> j < n -> (changes same_prev i < changes same_prev j <-> row_before (negb asc) (map (sval k) cols) i j) /\ (changes same_prev i = changes same_prev j <-> forall v, In v (map (sval k) cols) -> v i = v j)).
  { clear i j I J. intros i j I J. pose proof (changes_rows (negb asc) S i j ltac:(lia) J) as C. split; [|exact C]. pose proof (changes_mono same_prev i j ltac:(lia)) as M. split.
    - intros Q. destruct (S i j I J) as [B|B]; [exact B|]. apply C in B. lia.
    - intros B. destruct (Nat.eq_dec (changes same_prev i) (changes same_prev j)) as [Q|Q]; [|lia]. exfalso. apply (before_neq (negb asc) _ i j (proj1 C Q) B). }
  destruct (Nat.lt_trichotomy i j) as [A|[A|A]].
  - destruct (H i j A J) as [H1 H2]. rewrite <- H1, <- H2. destruct asc; cbn [negb]; lia.
  - subst j. split; [|split; [reflexivity|lia]]. split; [intros B; exfalso; destruct asc; cbn [negb] in B; lia|intros B; exfalso; exact (before_irr _ _ _ B)].
  - destruct (H j i A I) as [H1 H2]. pose proof (changes_mono same_prev j i ltac:(lia)) as M. split.
    + split; [intros B; exfalso; destruct asc; cbn [negb] in B; lia|]. intros B. exfalso. destruct (S j i A I) as [C|C]; [exact (before_asym _ _ _ _ B C)|]. apply (before_neq (negb asc) (map (sval k) cols) i j); [intros v V'; symmetry; auto|exact B].
    + assert (Q : changes same_prev i = changes same_prev j <-> forall v, In v (map (sval k) cols) -> v i = v j) by (split; [intros Q v V'; symmetry; apply H2; auto|intros Q; symmetry; apply H2; intros v V'; symmetry; auto]).
      rewrite <- Q. destruct asc; lia.
Qed.

(* group marks *)
Lemma group_mark_unfold b : group_mark_p cols b =
  if b then rbind (rmap (fun i => rbind (all_same cols i (i + 1)) (fun eq => Ok (if eq then 0 else 1)%Z)) (seq 0 (n - 1))) (fun r => Ok (r ++ [1%Z]))
  else rbind (rmap (fun i => rbind (all_same cols i (i - 1)) (fun eq => Ok (if eq then 1 else 0)%Z)) (seq 1 (n - 1))) (fun r => Ok (0%Z :: r)).
Proof using NE L N0. clear - NE L N0. unfold group_mark_p. destruct cols_head as [x0 [l [EC Lx]]]. rewrite EC at 1. rewrite Lx. destruct (Nat.eqb_spec n 0); [lia|reflexivity]. Qed.
Lemma end_mark_ok : exists m, group_mark_p cols true = Ok m /\ length m = n /\ forall i, i < n -> (nthZ m i = 0 \/ nthZ m i = 1)%Z /\ (nthZ m i = 1%Z <-> last_of_run cols n i).
Proof using NE L N0. clear - NE L N0.
  rewrite group_mark_unfold.
  set (b := fun i => match all_same cols i (i + 1) with Ok b => b | _ => false end).
  assert (B : forall i, i < n - 1 -> all_same cols i (i + 1) = Ok (b i) /\ (b i = true <-> row_of cols i = row_of cols (i + 1))).
  { intros i I. unfold b. destruct (all_same_ok i (i + 1) ltac:(lia) ltac:(lia)) as [c [-> C]]. auto. }
  assert (R : rmap (fun i => rbind (all_same cols i (i + 1)) (fun eq => Ok (if eq then 0 else 1)%Z)) (seq 0 (n - 1)) = Ok (tab (n - 1) (fun i => if b i then 0 else 1)%Z)).
  { unfold tab. assert (FI : Forall (fun i => i < n - 1) (seq 0 (n - 1))) by (apply Forall_forall; intros i I; apply in_seq in I; lia). induction FI as [|i r I FI IH]; [reflexivity|]. cbn [rmap map]. destruct (B i I) as [-> _]. cbn [rbind]. rewrite IH. reflexivity. }
  rewrite R. cbn [rbind]. eexists. split; [reflexivity|]. split; [rewrite app_length, tab_length; cbn; lia|]. intros i I. unfold nthZ. destruct (Nat.eq_dec i (n - 1)) as [->|D].
  - rewrite app_nth2, tab_length, Nat.sub_diag by (rewrite tab_length; lia). cbn. split; [auto|]. split; [|auto]. intros _ j J. lia.
  - rewrite app_nth1 by (rewrite tab_length; lia). rewrite tab_nth by lia. destruct (B i ltac:(lia)) as [_ H]. destruct (b i).
    + split; [auto|]. split; [easy|]. intros Q. destruct (Q (i + 1) ltac:(lia)) as [m [M NE']]. replace m with (i + 1) in NE' by lia. exfalso. apply NE'. symmetry. now apply H.
    + split; [auto|]. split; [|reflexivity]. intros _ j J. exists (i + 1). split; [lia|]. intros Q. assert (false = true) by (apply H; now symmetry). discriminate.
Qed.
Lemma start_mark_ok : exists m, group_mark_p cols false = Ok m /\ length m = n /\ forall i, i < n -> (nthZ m i = 0 \/ nthZ m i = 1)%Z /\ (nthZ m i = 0%Z <-> first_of_run cols i).
Proof using NE L N0. clear - NE L N0.
  rewrite group_mark_unfold.
  assert (R : rmap (fun i => rbind (all_same cols i (i - 1)) (fun eq => Ok (if eq then 1 else 0)%Z)) (seq 1 (n - 1)) = Ok (map (fun i => if same_prev i then 1 else 0)%Z (seq 1 (n - 1)))).
  { assert (FI : Forall (fun i => 0 < i < n) (seq 1 (n - 1))) by (apply Forall_forall; intros i I; apply in_seq in I; lia). induction FI as [|i r I FI IH]; [reflexivity|]. cbn [rmap map]. destruct (same_prev_ok i I) as [-> _]. cbn [rbind]. rewrite IH. reflexivity. }
  rewrite R. cbn [rbind]. eexists. split; [reflexivity|]. split; [cbn; rewrite map_length, seq_length; lia|]. intros i I. unfold nthZ. destruct i as [|i].
  - cbn. split; [auto|]. split; [|auto]. intros _ j J. lia.
  - cbn [nth]. rewrite <- seq_shift, map_map. rewrite (map_seq_nth (fun x => if same_prev (S x) then 1 else 0)%Z (n - 1) i 0%Z) by lia.
    destruct (same_prev_ok (S i) ltac:(lia)) as [_ H]. replace (S i - 1) with i in H by lia. destruct (same_prev (S i)).
    + split; [auto|]. split; [easy|]. intros Q. destruct (Q i ltac:(lia)) as [m [M NE']]. replace m with i in NE' by lia. exfalso. apply NE'. symmetry. now apply H.
    + split; [auto|]. split; [|reflexivity]. intros _ j J. exists i. split; [lia|]. intros Q. assert (false = true) by (apply H; now symmetry). discriminate.
Qed.
End Merge.

(* rounding *)
Lemma rounded_arshift_ok k bits x : (0 < bits < k)%Z -> word k x -> exists r, rounded_arshift k bits x = Ok (wrap k r) /\ nearest (sgn k x) bits r /\ (- 2 ^ (k - 1) <= r < 2 ^ (k - 1))%Z.
Proof.
  intros B W. unfold rounded_arshift, ring_arshift, in_shift. destruct (Z.leb_spec 0 bits), (Z.ltb_spec bits k), (Z.leb_spec 0 (bits - 1)), (Z.ltb_spec (bits - 1) k); try lia. cbn [andb rbind]. unfold rsar.
  unfold word in W. pose proof (sgn_range k x ltac:(lia) W) as R. set (s := sgn k x) in *. pose proof (pow2_pos (bits - 1) ltac:(lia)) as P. assert (P2 : (2 ^ bits = 2 * 2 ^ (bits - 1))%Z) by (rewrite <- Z.pow_succ_r by lia; f_equal; lia).
  pose proof (Z.div_mod s (2 ^ (bits - 1)) ltac:(lia)) as D. pose proof (Z.mod_pos_bound s (2 ^ (bits - 1)) ltac:(lia)) as M. set (h := (s / 2 ^ (bits - 1))%Z) in *.
  assert (Q : (s / 2 ^ bits = h / 2)%Z) by (unfold h; rewrite P2, Z.mul_comm, Z.div_div by lia; reflexivity). rewrite Q.
  pose proof (Z.div_mod h 2 ltac:(lia)) as D2. pose proof (Z.mod_pos_bound h 2 ltac:(lia)) as M2.
  assert (LB : Z.land (wrap k h) 1 = (h mod 2)%Z).
  { change 1%Z with (Z.ones 1) at 1. rewrite Z.land_ones by lia. unfold wrap. change (2 ^ 1)%Z with 2%Z. replace k with (Z.succ (k - 1)) by lia. rewrite Z.pow_succ_r by lia. rewrite Z.rem_mul_r by (pose proof (pow2_pos (k - 1) ltac:(lia)); lia). rewrite (Z.mul_comm 2 ((h / 2) mod 2 ^ (k - 1))), Z.mod_add by lia. now rewrite Z.mod_mod by lia. }
  rewrite LB. exists (h / 2 + h mod 2)%Z. split; [|split].
  - f_equal. unfold radd. match goal with |- wrap k ?u = wrap k ?v => change (eqm k u v) end. rewrite ?eqm_wrap. apply eqm_of_eq. reflexivity.
  - unfold nearest. rewrite P2. nia.
  - assert (k - 1 = bits - 1 + (k - bits))%Z as E by lia. assert (PK : (2 ^ (k - 1) = 2 ^ (bits - 1) * 2 ^ (k - bits))%Z) by (rewrite E at 1; apply Z.pow_add_r; lia). pose proof (pow2_pos (k - bits - 1) ltac:(lia)). assert (P3 : (2 ^ (k - bits) = 2 * 2 ^ (k - bits - 1))%Z) by (rewrite <- Z.pow_succ_r by lia; f_equal; lia).
    assert (- 2 ^ (k - bits) <= h < 2 ^ (k - bits))%Z by nia. assert (2 ^ (k - bits) <= 2 ^ (k - 1))%Z by (apply Z.pow_le_mono_r; lia). nia.
Qed.
