(* The radix sort is a stable sort. *)
From Coq Require Import ZifyBool ZifyNat ZifyN.
From Verif Require Import Base Ring_model Ring_spec Party Perm_model Perm_spec Perm_proof Fold Scan_model Scan_proof Radix_model Radix_spec.
Open Scope nat_scope.

(* ---- tabulated vectors ---- *)
Definition tab {A} (n : nat) (g : nat -> A) : list A := map g (seq 0 n).
Lemma tab_length {A} n (g : nat -> A) : length (tab n g) = n.
Proof. unfold tab. now rewrite map_length, seq_length. Qed.
Lemma tab_nth {A} n (g : nat -> A) i d : i < n -> nth i (tab n g) d = g i.
Proof. apply map_seq_nth. Qed.
Lemma tab_ext {A} n (g h : nat -> A) : (forall i, i < n -> g i = h i) -> tab n g = tab n h.
Proof. intros H. apply map_ext_in. intros i I. apply in_seq in I. apply H. lia. Qed.
Lemma tab_eta {A} (x : list A) d : x = tab (length x) (fun i => nth i x d).
Proof.
  apply nth_error_ext_; [now rewrite tab_length|]. intros i I. rewrite (nth_error_nth' x d I). rewrite (nth_error_nth' _ d) by (now rewrite tab_length). now rewrite tab_nth.
Qed.
Lemma tab_S {A} n (g : nat -> A) : tab (S n) g = tab n g ++ [g n].
Proof. unfold tab. rewrite seq_S, map_app. reflexivity. Qed.
Lemma tab_app {A} n m (g : nat -> A) : tab (n + m) g = tab n g ++ tab m (fun i => g (n + i)).
Proof. unfold tab. rewrite seq_app, map_app. f_equal. cbn [Nat.add]. rewrite <- (Nat.add_0_r n) at 1. rewrite <- !map_map with (f := fun i => n + i). f_equal. clear. generalize 0. induction m as [|m IH]; intros s; [reflexivity|]. cbn. f_equal. now rewrite <- IH, Nat.add_succ_r. Qed.
Lemma vec2_tab {A} (f : A -> A -> A) n g h : vec2 f (tab n g) (tab n h) = Ok (tab n (fun i => f (g i) (h i))).
Proof.
  unfold vec2. rewrite !tab_length, Nat.eqb_refl. f_equal. unfold tab. generalize (seq 0 n). intros l. induction l as [|x l IH]; [reflexivity|]. cbn. now rewrite IH.
Qed.
Lemma repeat_tab {A} (x : A) n : repeat x n = tab n (fun _ => x).
Proof. unfold tab. generalize 0. induction n as [|n IH]; intros s; [reflexivity|]. cbn. now rewrite (IH (S s)). Qed.
Lemma firstn_tab {A} m n (g : nat -> A) : m <= n -> firstn m (tab n g) = tab m g.
Proof. intros H. replace n with (m + (n - m)) by lia. rewrite tab_app, firstn_app, tab_length, Nat.sub_diag. cbn [firstn]. rewrite app_nil_r, firstn_all2; [reflexivity|]. rewrite tab_length. lia. Qed.

(* ---- ranks in a strict total order ---- *)
Definition cnt {A} (P : A -> bool) (l : list A) : nat := length (filter P l).
Lemma cnt_app {A} (P : A -> bool) a b : cnt P (a ++ b) = cnt P a + cnt P b.
Proof. unfold cnt. now rewrite filter_app, app_length. Qed.
Lemma cnt_le {A} (P Q : A -> bool) l : (forall x, In x l -> P x = true -> Q x = true) -> cnt P l <= cnt Q l.
Proof.
  unfold cnt. induction l as [|x l IH]; intros H; [reflexivity|]. cbn. assert (forall y, In y l -> P y = true -> Q y = true) as IHl by (intros; apply H; auto; now right). specialize (IH IHl).
  destruct (P x) eqn:E; [rewrite (H x) by (auto; now left); cbn; lia|]. destruct (Q x); cbn; lia.
Qed.
Lemma cnt_lt {A} (P Q : A -> bool) l a : In a l -> (forall x, In x l -> P x = true -> Q x = true) -> P a = false -> Q a = true -> cnt P l < cnt Q l.
Proof.
  intros I H Pa Qa. destruct (in_split a l I) as [u [w ->]]. rewrite !cnt_app. change (a :: w) with ([a] ++ w). rewrite !cnt_app.
  assert (cnt P u <= cnt Q u) by (apply cnt_le; intros; apply H; auto; apply in_or_app; now left).
  assert (cnt P w <= cnt Q w) by (apply cnt_le; intros; apply H; auto; apply in_or_app; right; now right).
  assert (cnt P [a] = 0) by (unfold cnt; cbn; now rewrite Pa). assert (cnt Q [a] = 1) by (unfold cnt; cbn; now rewrite Qa). lia.
Qed.
Lemma cnt_ext {A} (P Q : A -> bool) l : (forall x, In x l -> P x = Q x) -> cnt P l = cnt Q l.
Proof. unfold cnt. induction l as [|x l IH]; intros H; [reflexivity|]. cbn. rewrite (H x) by (now left). destruct (Q x); cbn; rewrite IH; auto; intros; apply H; now right. Qed.
Lemma cnt_split {A} (P Q R : A -> bool) l : (forall x, In x l -> R x = (P x || Q x)%bool /\ (P x && Q x)%bool = false) -> cnt R l = cnt P l + cnt Q l.
Proof.
  unfold cnt. induction l as [|x l IH]; intros H; [reflexivity|]. cbn. destruct (H x ltac:(now left)) as [-> E].
  assert (IHl : length (filter R l) = length (filter P l) + length (filter Q l)) by (apply IH; intros; apply H; now right).
  destruct (P x), (Q x); cbn in *; try discriminate; lia.
Qed.
Lemma cnt_none {A} (P : A -> bool) l : (forall x, In x l -> P x = false) -> cnt P l = 0.
Proof. unfold cnt. induction l as [|x l IH]; intros H; [reflexivity|]. cbn. rewrite (H x) by (now left). apply IH. intros; apply H; now right. Qed.
Lemma cnt_bound {A} (P : A -> bool) l : cnt P l <= length l.
Proof. unfold cnt. induction l as [|x l IH]; [reflexivity|]. cbn. destruct (P x); cbn; lia. Qed.

(* digit order: smaller digit first, then position *)
Definition dlt (dg : nat -> nat) (c a : nat) : bool := (dg c <? dg a) || ((dg c =? dg a) && (c <? a)).
Definition rank (n : nat) (dg : nat -> nat) (a : nat) : nat := cnt (fun c => dlt dg c a) (seq 0 n).
Lemma dlt_trans dg a b c : dlt dg a b = true -> dlt dg b c = true -> dlt dg a c = true.
Proof. unfold dlt. lia. Qed.
Lemma dlt_irr dg a : dlt dg a a = false.
Proof. unfold dlt. lia. Qed.
Lemma rank_mono n dg a b : a < n -> b < n -> dlt dg a b = true -> rank n dg a < rank n dg b.
Proof.
  intros A B H. unfold rank. apply (cnt_lt _ _ _ a); [apply in_seq; lia| |apply dlt_irr|exact H]. intros x _ X. exact (dlt_trans dg x a b X H).
Qed.
Lemma rank_iff n dg a b : a < n -> b < n -> (rank n dg a < rank n dg b <-> dg a < dg b \/ (dg a = dg b /\ a < b)).
Proof.
  intros A B. assert (D : dlt dg a b = true <-> dg a < dg b \/ (dg a = dg b /\ a < b)) by (unfold dlt; lia). rewrite <- D. split; [|now apply rank_mono].
  intros L. destruct (dlt dg a b) eqn:E; [reflexivity|]. exfalso. destruct (Nat.eq_dec a b) as [->|NE]; [lia|]. assert (dlt dg b a = true) by (unfold dlt in *; lia). pose proof (rank_mono n dg b a B A H). lia.
Qed.
Lemma rank_lt n dg a : a < n -> rank n dg a < n.
Proof. intros A. unfold rank. rewrite <- (seq_length n 0) at 2.
  apply Nat.lt_le_trans with (cnt (fun _ => true) (seq 0 n)); [|apply cnt_bound]. apply (cnt_lt _ _ _ a); auto; [apply in_seq; lia|apply dlt_irr].
Qed.
Lemma rank_perm n dg : is_perm n (tab n (rank n dg)).
Proof.
  apply perm_of; [apply tab_length| |].
  - intros i p E. pose proof (nth_error_Some_lt _ _ _ E) as L. rewrite tab_length in L. apply (nth_of_error _ _ _ 0) in E. rewrite tab_nth in E by exact L. subst. now apply rank_lt.
  - intros i j p Ei Ej. pose proof (nth_error_Some_lt _ _ _ Ei) as Li. pose proof (nth_error_Some_lt _ _ _ Ej) as Lj. rewrite tab_length in Li, Lj.
    apply (nth_of_error _ _ _ 0) in Ei. apply (nth_of_error _ _ _ 0) in Ej. rewrite tab_nth in Ei, Ej by assumption. destruct (Nat.lt_trichotomy i j) as [H|[H|H]]; auto; exfalso.
    + destruct (Nat.le_gt_cases (dg i) (dg j)) as [G|G]; [assert (rank n dg i < rank n dg j) by (apply rank_iff; auto; lia)|assert (rank n dg j < rank n dg i) by (apply rank_iff; auto)]; lia.
    + destruct (Nat.le_gt_cases (dg j) (dg i)) as [G|G]; [assert (rank n dg j < rank n dg i) by (apply rank_iff; auto; lia)|assert (rank n dg i < rank n dg j) by (apply rank_iff; auto)]; lia.
Qed.

(* ---- the prefix sums of the indicator blocks ---- *)
Definition ind (dg : nat -> nat) (d c : nat) : Z := if dg c =? d then 1%Z else 0%Z.
Fixpoint blocks (n : nat) (g : nat -> nat -> Z) (D : nat) : list Z := match D with O => [] | S D' => blocks n g D' ++ tab n (g D') end.
Lemma blocks_length n g D : length (blocks n g D) = D * n.
Proof. induction D as [|D IH]; [reflexivity|]. cbn [blocks]. rewrite app_length, IH, tab_length. lia. Qed.
Lemma blocks_firstn n g D d m : d < D -> m <= n -> firstn (d * n + m) (blocks n g D) = blocks n g d ++ tab m (g d).
Proof.
  induction D as [|D IH]; intros H M; [lia|]. cbn [blocks]. rewrite firstn_app, blocks_length. destruct (Nat.eq_dec d D) as [->|NE].
  - rewrite firstn_all2 by (rewrite blocks_length; lia). f_equal. replace (D * n + m - D * n) with m by lia. now apply firstn_tab.
  - assert (d * n + m <= D * n) by nia. replace (d * n + m - D * n) with 0 by lia. cbn [firstn]. rewrite app_nil_r. apply IH; lia.
Qed.
Lemma blocks_nth n g D d a : d < D -> a < n -> nth (d * n + a) (blocks n g D) 0%Z = g d a.
Proof.
  intros H A. rewrite <- (nth_first _ _ (d * n + a) (d * n + S a)) by lia. rewrite blocks_firstn by lia. rewrite app_nth2 by (rewrite blocks_length; lia). rewrite blocks_length.
  replace (d * n + a - d * n) with a by lia. apply tab_nth. lia.
Qed.
Lemma sum_ind dg d m : sumZ (tab m (ind dg d)) = Z.of_nat (cnt (fun c => dg c =? d) (seq 0 m)).
Proof.
  unfold tab, cnt. induction (seq 0 m) as [|c l IH]; [reflexivity|]. cbn [map sumZ filter]. rewrite IH. unfold ind. destruct (dg c =? d); cbn [length]; lia.
Qed.
Lemma sum_blocks n dg d : sumZ (blocks n (ind dg) d) = Z.of_nat (cnt (fun c => dg c <? d) (seq 0 n)).
Proof.
  induction d as [|d IH]; cbn [blocks]; [cbn; rewrite cnt_none; [reflexivity|intros x _; destruct (dg x); reflexivity]|]. rewrite sumZ_app, IH, sum_ind.
  rewrite (cnt_split (fun c => dg c <? d) (fun c => dg c =? d) (fun c => dg c <? S d)); [lia|]. intros x _. lia.
Qed.
Lemma sum_rank n dg D a : a < n -> dg a < D -> sumZ (firstn (S (dg a * n + a)) (blocks n (ind dg) D)) = Z.of_nat (S (rank n dg a)).
Proof.
  intros A H. replace (S (dg a * n + a)) with (dg a * n + S a) by lia. rewrite blocks_firstn by lia. rewrite sumZ_app, sum_blocks, sum_ind, <- Nat2Z.inj_add. f_equal. unfold rank.
  rewrite (cnt_split (fun c => dg c <? dg a) (fun c => (dg c =? dg a) && (c <? a)) (fun c => dlt dg c a)) by (intros x _; unfold dlt; lia).
  rewrite <- Nat.add_succ_r. f_equal.
  rewrite seq_S, cnt_app. cbn [Nat.add]. assert (cnt (fun c => dg c =? dg a) [a] = 1) as -> by (unfold cnt; cbn; now rewrite Nat.eqb_refl).
  replace n with (a + (n - a)) by lia. rewrite seq_app, cnt_app. rewrite (cnt_none _ (seq (0 + a) (n - a))) by (intros x X; apply in_seq in X; lia).
  rewrite (cnt_ext (fun c => (dg c =? dg a) && (c <? a)) (fun c => dg c =? dg a)) by (intros x X; apply in_seq in X; lia). lia.
Qed.

Section Ring.
Variable k : Z.
Hypothesis K : (0 < k)%Z.
Lemma one_small : (1 < 2 ^ k)%Z.
Proof. apply Z.pow_gt_1; lia. Qed.
Lemma msum_radd l : l <> [] -> Forall (word k) l -> msum (radd k) l = Some (wrap k (sumZ l)).
Proof.
  induction l as [|x l IH]; intros NE F; [easy|]. inversion F as [|? ? W F']; subst. cbn [msum sumZ]. destruct l as [|y l].
  - cbn. rewrite Z.add_0_r, wrap_small; [reflexivity|exact W].
  - rewrite IH by (easy || exact F'). cbn [lf]. unfold radd. f_equal. match goal with |- wrap k ?u = wrap k ?v => change (eqm k u v) end. rewrite ?eqm_wrap. reflexivity.
Qed.
Lemma radd_assoc a b c : radd k a (radd k b c) = radd k (radd k a b) c.
Proof. unfold radd. match goal with |- wrap k ?u = wrap k ?v => change (eqm k u v) end. rewrite ?eqm_wrap. apply eqm_of_eq. lia. Qed.
Lemma wrap_word x : word k (wrap k x).
Proof. unfold word, wrap. apply Z.mod_pos_bound. pose proof one_small. lia. Qed.
Lemma ind_word dg d c : word k (ind dg d c).
Proof. pose proof one_small. unfold ind, word. destruct (dg c =? d); lia. Qed.
Lemma blocks_word n dg D : Forall (word k) (blocks n (ind dg) D).
Proof. induction D as [|D IH]; cbn [blocks]; [constructor|]. apply Forall_app. split; [exact IH|]. apply Forall_forall. intros x X. unfold tab in X. apply in_map_iff in X. destruct X as [c [<- _]]. apply ind_word. Qed.
Lemma prefix_ok n dg D : exists ps, prefix_sum k (blocks n (ind dg) D) = Ok ps /\ length ps = D * n /\
  forall a, a < n -> dg a < D -> nth (dg a * n + a) ps 0%Z = wrap k (Z.of_nat (S (rank n dg a))).
Proof.
  unfold prefix_sum. set (f := blocks n (ind dg) D). assert (Lf : length f = D * n) by apply blocks_length.
  destruct (scan_ok k (radd k) radd_assoc (fun x y _ _ => wrap_word _) ltac:(lia) (S (length f)) f) as [ps [E [L [_ N]]]]; [lia|lia|apply blocks_word|].
  exists ps. split; [exact E|]. split; [lia|]. intros a A H. assert (B : dg a * n + a < length f) by (rewrite Lf; nia).
  specialize (N _ B). rewrite msum_radd in N.
  - apply (f_equal (fun o => match o with Some v => v | None => 0%Z end)) in N. cbv beta iota in N. rewrite N. unfold f. now rewrite sum_rank.
  - intros Q. apply (f_equal (@length Z)) in Q. rewrite firstn_length in Q. cbn [length] in Q. lia.
  - apply Forall_forall. intros x X. assert (In x f) by (rewrite <- (firstn_skipn (S (dg a * n + a)) f); apply in_or_app; now left). pose proof (blocks_word n dg D) as W. rewrite Forall_forall in W. now apply W.
Qed.
Lemma slice_fs n dg D ps d : d < D -> length ps = D * n ->
  slice1 (zipWith (rmul k) (blocks n (ind dg) D) ps) (d * n) ((d + 1) * n) 1 = Ok (tab n (fun a => rmul k (ind dg d a) (nth (d * n + a) ps 0%Z))).
Proof.
  intros H L. rewrite (slice1_ok _ _ _ 1 0%Z); [|lia|rewrite zip_length by (rewrite blocks_length; lia); rewrite blocks_length; nia].
  rewrite Nat.div_1_r. replace ((d + 1) * n - d * n + 1 - 1) with n by nia. f_equal. apply tab_ext. intros a A. rewrite Nat.mul_1_l.
  rewrite nth_zip by (rewrite ?blocks_length; nia). now rewrite blocks_nth.
Qed.
Definition is_bit (x : list Z) : Prop := Forall (fun b => b = 0%Z \/ b = 1%Z) x.
Definition bitn (x : list Z) (i : nat) : nat := Z.to_nat (nth i x 0%Z).
Lemma bit_cases x i : is_bit x -> nth i x 0%Z = 0%Z /\ bitn x i = 0 \/ nth i x 0%Z = 1%Z /\ bitn x i = 1.
Proof.
  intros B. unfold bitn. destruct (Nat.lt_ge_cases i (length x)) as [L|L].
  - unfold is_bit in B. rewrite Forall_forall in B. destruct (B (nth i x 0%Z)) as [E|E]; [now apply nth_In| |]; rewrite E; auto.
  - rewrite nth_overflow by lia. auto.
Qed.
Lemma wrap01 x : (0 <= x <= 1)%Z -> wrap k x = x.
Proof. intros H. apply wrap_small. pose proof one_small. lia. Qed.
Lemma final_rank n r : (Z.of_nat n < 2 ^ k)%Z -> r < n -> wrap k (wrap k (Z.of_nat (S r)) - 1) = Z.of_nat r.
Proof. intros H R. rewrite (wrap_small k (Z.of_nat (S r))) by lia. rewrite wrap_small by lia. lia. Qed.
Lemma by_bv1_tab n g : (forall i, g i = 0%Z \/ g i = 1%Z) -> (Z.of_nat n < 2 ^ k)%Z -> gen_inv_perm_by_bv1 k (tab n g) = Ok (tab n (fun a => Z.of_nat (rank n (fun i => Z.to_nat (g i)) a))).
Proof.
  intros B N. unfold gen_inv_perm_by_bv1. rewrite tab_length, repeat_tab, vec2_tab. cbn [rbind]. set (dg := fun i => Z.to_nat (g i)).
  assert (F : tab n (fun i => rsub k 1 (g i)) ++ tab n g = blocks n (ind dg) 2).
  { cbn [blocks app]. f_equal; apply tab_ext; intros i I; unfold rsub, ind, dg; destruct (B i) as [-> | ->]; cbn; try reflexivity; now rewrite wrap01 by lia. }
  rewrite F. destruct (prefix_ok n dg 2) as [ps [E [Lp P]]]. rewrite E. cbn [rbind].
  unfold vec2 at 1. rewrite blocks_length, Lp, Nat.eqb_refl. cbn [rbind].
  pose proof (slice_fs n dg 2 ps 0 ltac:(lia) Lp) as S0. pose proof (slice_fs n dg 2 ps 1 ltac:(lia) Lp) as S1.
  replace (0 * n) with 0 in S0 by lia. replace ((0 + 1) * n) with n in S0 by lia. replace (1 * n) with n in S1 by lia. replace ((1 + 1) * n) with (2 * n) in S1 by lia.
  rewrite S0, S1. cbn [rbind]. rewrite !vec2_tab. cbn [rbind]. rewrite vec2_tab. f_equal. apply tab_ext. intros a A. cbn [Nat.add].
  assert (H : dg a < 2) by (unfold dg; destruct (B a) as [-> | ->]; lia). specialize (P a A H).
  rewrite <- (final_rank n (rank n dg a) N (rank_lt n _ a A)). rewrite <- P. unfold radd, rsub, rmul, ind.
  match goal with |- wrap k ?u = wrap k ?v => change (eqm k u v) end.
  unfold dg. destruct (B a) as [-> | ->]; change (Z.to_nat 1) with 1; change (Z.to_nat 0) with 0; cbn [Nat.eqb Nat.mul Nat.add]; rewrite ?Nat.add_0_r; rewrite ?eqm_wrap; apply eqm_of_eq; lia.
Qed.
Lemma by_bv2_tab n g h : (forall i, g i = 0%Z \/ g i = 1%Z) -> (forall i, h i = 0%Z \/ h i = 1%Z) -> (Z.of_nat n < 2 ^ k)%Z ->
  gen_inv_perm_by_bv2 k (tab n g) (tab n h) = Ok (tab n (fun a => Z.of_nat (rank n (fun i => Z.to_nat (g i) + 2 * Z.to_nat (h i)) a))).
Proof.
  intros B B' N. unfold gen_inv_perm_by_bv2. rewrite !tab_length, Nat.eqb_refl. cbn [negb]. set (dg := fun i => Z.to_nat (g i) + 2 * Z.to_nat (h i)).
  rewrite repeat_tab. do 6 (rewrite vec2_tab; cbn [rbind]).
  match goal with |- context [prefix_sum k ?l] => assert (F : l = blocks n (ind dg) 4) end.
  { cbn [blocks app]. rewrite <- !app_assoc. repeat match goal with |- _ ++ _ = _ ++ _ => f_equal end; apply tab_ext; intros i I; unfold rsub, rmul, ind, dg;
    destruct (B i) as [-> | ->], (B' i) as [-> | ->]; cbn; do 4 (rewrite ?(wrap01 0), ?(wrap01 1) by lia; cbn); reflexivity. }
  rewrite F. destruct (prefix_ok n dg 4) as [ps [E [Lp P]]]. rewrite E. cbn [rbind].
  unfold vec2 at 1. rewrite blocks_length, Lp, Nat.eqb_refl. cbn [rbind].
  pose proof (slice_fs n dg 4 ps 0 ltac:(lia) Lp) as S0. pose proof (slice_fs n dg 4 ps 1 ltac:(lia) Lp) as S1. pose proof (slice_fs n dg 4 ps 2 ltac:(lia) Lp) as S2. pose proof (slice_fs n dg 4 ps 3 ltac:(lia) Lp) as S3.
  replace (0 * n) with 0 in S0 by lia. replace ((0 + 1) * n) with n in S0 by lia. replace (1 * n) with n in S1 by lia. replace ((1 + 1) * n) with (2 * n) in S1 by lia.
  replace ((2 + 1) * n) with (3 * n) in S2 by lia. replace ((3 + 1) * n) with (4 * n) in S3 by lia.
  rewrite S0, S1, S2, S3. cbn [rbind]. do 3 (rewrite vec2_tab; cbn [rbind]). rewrite vec2_tab. f_equal. apply tab_ext. intros a A.
  assert (H : dg a < 4) by (unfold dg; destruct (B a) as [-> | ->], (B' a) as [-> | ->]; lia). specialize (P a A H).
  rewrite <- (final_rank n (rank n dg a) N (rank_lt n _ a A)). rewrite <- P. unfold radd, rsub, rmul, ind.
  match goal with |- wrap k ?u = wrap k ?v => change (eqm k u v) end. unfold dg.
  destruct (B a) as [-> | ->], (B' a) as [-> | ->]; change (Z.to_nat 1) with 1; change (Z.to_nat 0) with 0; cbn [Nat.eqb Nat.mul Nat.add]; rewrite ?Nat.add_0_r; rewrite ?eqm_wrap; rewrite ?eqm_wrap; apply eqm_of_eq; lia.
Qed.
Lemma bit_any x i : is_bit x -> nth i x 0%Z = 0%Z \/ nth i x 0%Z = 1%Z.
Proof. intros B. destruct (bit_cases x i B) as [[E _]|[E _]]; auto. Qed.
Lemma by_bv1_ok n x : length x = n -> is_bit x -> (Z.of_nat n < 2 ^ k)%Z -> gen_inv_perm_by_bv1 k x = Ok (tab n (fun a => Z.of_nat (rank n (bitn x) a))).
Proof. intros <- B N. rewrite (tab_eta x 0%Z) at 1. apply by_bv1_tab; [|exact N]. intros i. now apply bit_any. Qed.
Lemma by_bv2_ok n x y : length x = n -> length y = n -> is_bit x -> is_bit y -> (Z.of_nat n < 2 ^ k)%Z ->
  gen_inv_perm_by_bv2 k x y = Ok (tab n (fun a => Z.of_nat (rank n (fun i => bitn x i + 2 * bitn y i) a))).
Proof. intros <- L B B' N. rewrite (tab_eta x 0%Z), (tab_eta y 0%Z) at 1. rewrite L. apply by_bv2_tab; auto; intros i; now apply bit_any. Qed.
End Ring.
