(* Proofs about group-by aggregation. *)
From Coq Require Import ZifyBool ZifyNat ZifyN Sorting.Sorted.
From Verif Require Import Base Ring_model Ring_spec Party Perm_model Perm_spec Perm_proof Fold Scan_model Scan_proof Radix_model Radix_spec Radix_proof Radixs_proof Radixk_proof Pv_model Pv_spec Pv_proof Pvg_proof Pvm_proof Pvs_proof Pva_proof Group_model Group_spec.
Open Scope nat_scope.

(* ---- runs of equal rows ---- *)
Definition psum (P : nat -> Z) (m : nat) : Z := sumZ (map P (seq 0 m)).
Lemma psum_S P m : psum P (S m) = (psum P m + P m)%Z.
Proof. unfold psum. rewrite seq_S, map_app, sumZ_app. cbn. lia. Qed.
Lemma psum_ext P Q m : (forall b, b < m -> P b = Q b) -> psum P m = psum Q m.
Proof. intros H. unfold psum. f_equal. apply map_ext_in. intros b B. apply in_seq in B. apply H. lia. Qed.
Lemma psum_interval P l h : l <= h -> forall n, h <= n -> psum (fun b => if (l <=? b) && (b <? h) then P b else 0%Z) n = (psum P h - psum P l)%Z.
Proof.
  intros LH. assert (A : forall m, m <= l -> psum (fun b => if (l <=? b) && (b <? h) then P b else 0%Z) m = 0%Z).
  { induction m as [|m IH]; intros M; [reflexivity|]. rewrite psum_S, IH by lia. destruct (Nat.leb_spec l m); [lia|]. reflexivity. }
  assert (B : forall m, l <= m -> m <= h -> psum (fun b => if (l <=? b) && (b <? h) then P b else 0%Z) m = (psum P m - psum P l)%Z).
  { induction 1 as [|m M IH]; intros H; [rewrite A by lia; lia|]. rewrite !psum_S, IH by lia. destruct (Nat.leb_spec l m), (Nat.ltb_spec m h); try lia. cbn. lia. }
  induction 1 as [|n N IH]; [apply B; lia|]. rewrite psum_S, IH. destruct (Nat.ltb_spec n h); [lia|]. rewrite andb_false_r. lia.
Qed.

Section Runs.
Variables (n : nat) (row : nat -> list Z) (is_end : nat -> bool).
Hypothesis CONT : forall i t j, i <= t <= j -> j < n -> row i = row j -> row i = row t.
Hypothesis END : forall a, a < n -> (is_end a = true <-> a = n - 1 \/ row (a + 1) <> row a).
Definition ends : list nat := filter is_end (seq 0 n).
Lemma filter_sorted (f : nat -> bool) l : StronglySorted lt l -> StronglySorted lt (filter f l).
Proof using.
  clear. induction 1 as [|a l S IH F]; cbn; [constructor|]. destruct (f a); [|exact IH]. constructor; [exact IH|]. rewrite Forall_forall in F |- *. intros x X. apply filter_In in X. apply F, X.
Qed.
Lemma seq_sorted m : forall s, StronglySorted lt (seq s m).
Proof using. clear. induction m as [|m IH]; intros s; cbn; constructor; [apply IH|]. apply Forall_forall. intros x X. apply in_seq in X. lia. Qed.
Lemma sorted_nth l : StronglySorted lt l -> forall r r', r < r' -> r' < length l -> nth r l 0 < nth r' l 0.
Proof using.
  clear. induction 1 as [|a l S IH F]; intros r r' R R'; cbn [length] in R'; [lia|]. destruct r as [|r], r' as [|r']; try lia; cbn [nth].
  - rewrite Forall_forall in F. apply F, nth_In. lia.
  - apply IH; lia.
Qed.
Lemma ends_lt r r' : r < r' -> r' < length ends -> nth r ends 0 < nth r' ends 0.
Proof using. clear. apply sorted_nth. apply filter_sorted, seq_sorted. Qed.
Lemma ends_In a : In a ends <-> a < n /\ is_end a = true.
Proof using. clear. unfold ends. rewrite filter_In, in_seq. split; intros [A B]; (split; [lia|exact B]). Qed.
Lemma ends_at r : r < length ends -> nth r ends 0 < n /\ is_end (nth r ends 0) = true.
Proof using. clear. intros R. apply ends_In, nth_In, R. Qed.
(* no end strictly between consecutive ends, nor before the first *)
Lemma between r b : r < length ends -> b < nth r ends 0 -> (r = 0 \/ nth (r - 1) ends 0 < b) -> is_end b = false.
Proof using.
  clear. intros R B L. destruct (is_end b) eqn:E; [|reflexivity]. exfalso. destruct (ends_at r R) as [N _].
  assert (I : In b ends) by (apply ends_In; split; [lia|exact E]). apply (In_nth _ _ 0) in I. destruct I as [r' [R' <-]].
  destruct (Nat.lt_trichotomy r r') as [H|[->|H]]; [pose proof (ends_lt r r' H R'); lia|lia|]. destruct L as [->|L]; [lia|].
  destruct (Nat.eq_dec r' (r - 1)) as [->|D]; [lia|]. pose proof (ends_lt r' (r - 1) ltac:(lia) ltac:(lia)). lia.
Qed.
Lemma chain e : e < n -> forall d, d <= e -> (forall b, e - d <= b < e -> is_end b = false) -> row (e - d) = row e.
Proof using END.
  clear CONT. intros N. induction d as [|d IH]; intros D H; [now rewrite Nat.sub_0_r|].
  assert (E : is_end (e - S d) = false) by (apply H; lia). destruct (list_eq_dec Z.eq_dec (row (e - S d + 1)) (row (e - S d))) as [Q|Q].
  - rewrite <- Q. replace (e - S d + 1) with (e - d) by lia. apply IH; [lia|]. intros b B. apply H. lia.
  - assert (is_end (e - S d) = true) by (apply END; [lia|now right]). congruence.
Qed.
Lemma end_split a b : a < b -> b < n -> is_end a = true -> row a <> row b.
Proof using CONT END. intros AB B E Q. apply END in E; [|lia]. destruct E as [E|E]; [lia|]. apply E. symmetry. apply (CONT a (a + 1) b); [lia|exact B|exact Q]. Qed.
Lemma group_interval r b : r < length ends -> b < n -> (row b = row (nth r ends 0) <-> (r = 0 \/ nth (r - 1) ends 0 < b) /\ b <= nth r ends 0).
Proof using CONT END.
  intros R B. destruct (ends_at r R) as [N E]. split.
  - intros Q. split.
    + destruct r as [|r]; [now left|right]. replace (S r - 1) with r by lia. destruct (Nat.lt_ge_cases (nth r ends 0) b) as [H|H]; [exact H|exfalso].
      destruct (ends_at r ltac:(lia)) as [N' E']. pose proof (ends_lt r (S r) ltac:(lia) R). apply (end_split (nth r ends 0) (nth (S r) ends 0)); [lia|exact N|exact E'|]. transitivity (row b); [|exact Q]. symmetry. apply (CONT b (nth r ends 0) (nth (S r) ends 0)); [lia|exact N|exact Q].
    + destruct (Nat.le_gt_cases b (nth r ends 0)) as [H|H]; [exact H|exfalso]. now apply (end_split (nth r ends 0) b H B E).
  - intros [L H]. replace b with (nth r ends 0 - (nth r ends 0 - b)) by lia. apply chain; [exact N|lia|]. intros b' B'. apply (between r); [exact R|lia|]. destruct L as [L|L]; [now left|right; lia].
Qed.
Definition before (P : nat -> Z) (r : nat) : Z := match r with O => 0%Z | S r' => psum P (S (nth r' ends 0)) end.
Lemma group_total P r : r < length ends ->
  psum (fun b => if list_eq_dec Z.eq_dec (row b) (row (nth r ends 0)) then P b else 0%Z) n = Z.sub (psum P (S (nth r ends 0))) (before P r).
Proof using CONT END.
  intros R. destruct (ends_at r R) as [N E]. set (l := match r with O => 0 | S r' => S (nth r' ends 0) end).
  assert (LE : l <= S (nth r ends 0)) by (unfold l; destruct r as [|r']; [lia|]; pose proof (ends_lt r' (S r') ltac:(lia) R); lia).
  assert (LL : forall b, l <= b <-> (r = 0 \/ nth (r - 1) ends 0 < b)).
  { intros b. unfold l. destruct r as [|r']; [split; [now left|lia]|]. replace (S r' - 1) with r' by lia. lia. }
  rewrite (psum_ext _ (fun b => if (l <=? b) && (b <? S (nth r ends 0)) then P b else 0%Z)).
  - rewrite psum_interval by lia. unfold l. destruct r; [reflexivity|reflexivity].
  - intros b B. pose proof (group_interval r b R B) as GI. rewrite <- LL in GI. destruct (list_eq_dec Z.eq_dec (row b) (row (nth r ends 0))) as [Q|Q].
    + apply GI in Q. destruct (Nat.leb_spec l b), (Nat.ltb_spec b (S (nth r ends 0))); try lia. reflexivity.
    + destruct (Nat.leb_spec l b), (Nat.ltb_spec b (S (nth r ends 0))); try reflexivity. exfalso. apply Q, GI. lia.
Qed.
Lemma end_after a : a < n -> exists r, r < length ends /\ row (nth r ends 0) = row a.
Proof using END.
  clear CONT. intros A. assert (EX : forall d, a + d < n -> (exists e, a <= e < n /\ is_end e = true /\ row e = row a) \/ (is_end (a + d) = false /\ row (a + d) = row a)).
  { induction d as [|d IH]; intros D.
    - rewrite Nat.add_0_r. destruct (is_end a) eqn:E; [left; exists a; repeat split; auto|right; auto].
    - destruct (IH ltac:(lia)) as [H|[E Q]]; [now left|]. assert (Q' : row (a + S d) = row a).
      { rewrite <- Q. destruct (list_eq_dec Z.eq_dec (row (a + d + 1)) (row (a + d))) as [H|H]; [replace (a + S d) with (a + d + 1) by lia; exact H|]. exfalso. assert (is_end (a + d) = true) by (apply END; [lia|now right]). congruence. }
      destruct (is_end (a + S d)) eqn:E'; [left; exists (a + S d); repeat split; auto; lia|right; auto]. }
  destruct (EX (n - 1 - a) ltac:(lia)) as [[e [I [E Q]]]|[E _]].
  - assert (IE : In e ends) by (apply ends_In; split; [lia|exact E]). apply (In_nth _ _ 0) in IE. destruct IE as [r [R <-]]. eauto.
  - replace (a + (n - 1 - a)) with (n - 1) in E by lia. assert (is_end (n - 1) = true) by (apply END; [lia|now left]). congruence.
Qed.
(* the stable descending order of the marks lists the ends first, in their order *)
Lemma marks_order (v : nat -> Z) : (forall a, a < n -> v a = if is_end a then 1%Z else 0%Z) -> stable_order n true [v] (ends ++ filter (fun a => negb (is_end a)) (seq 0 n)).
Proof using.
  clear. intros V. split.
  - unfold is_perm, ends. induction (seq 0 n) as [|a l IH]; [constructor|]. cbn [filter]. destruct (is_end a); cbn [negb app]; [now constructor|]. etransitivity; [symmetry; apply Permutation_middle|]. now constructor.
  - intros a b i j AB A B. set (rest := filter (fun a => negb (is_end a)) (seq 0 n)) in *.
    assert (RI : forall x, In x rest <-> x < n /\ is_end x = false) by (intros x; unfold rest; rewrite filter_In, in_seq, negb_true_iff; split; intros [? ?]; (split; [lia|assumption])).
    assert (NE : forall r x, nth_error (ends ++ rest) r = Some x -> (r < length ends /\ nth r ends 0 = x /\ x < n /\ is_end x = true) \/ (length ends <= r /\ r - length ends < length rest /\ nth (r - length ends) rest 0 = x /\ x < n /\ is_end x = false)).
    { intros r x H. destruct (Nat.lt_ge_cases r (length ends)) as [R|R].
      - left. rewrite nth_error_app1 in H by exact R. pose proof (nth_error_nth _ _ 0 H) as Q. split; [exact R|]. split; [exact Q|]. apply ends_In. eapply nth_error_In, H.
      - right. rewrite nth_error_app2 in H by exact R. pose proof (nth_error_nth _ _ 0 H) as Q. pose proof (nth_error_Some_lt _ _ _ H). split; [exact R|]. split; [assumption|]. split; [exact Q|]. apply RI. eapply nth_error_In, H. }
    assert (RS : StronglySorted lt rest) by (apply filter_sorted, seq_sorted).
    destruct (NE _ _ A) as [[A1 [A2 [A3 A4]]]|[A1 [A2 [A3 [A4 A5]]]]], (NE _ _ B) as [[B1 [B2 [B3 B4]]]|[B1 [B2 [B3 [B4 B5]]]]]; try lia.
    + right. split; [intros u [<- | []]; rewrite !V by assumption; now rewrite A4, B4|]. rewrite <- A2, <- B2. now apply ends_lt.
    + left. cbn [row_before]. left. rewrite !V by assumption. rewrite A4, B5. lia.
    + right. split; [intros u [<- | []]; rewrite !V by assumption; now rewrite A5, B5|]. rewrite <- A3, <- B3. apply sorted_nth; [exact RS|lia|lia].
Qed.
End Runs.
