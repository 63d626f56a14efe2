(* Parallel scan and reductions compute folds. *)
From Coq Require Import ZifyBool ZifyNat ZifyN.
From Verif Require Import Base Ring_model Ring_spec Party Perm_model Perm_proof Fold Scan_model.
Open Scope nat_scope.

Lemma slice1_ok {A} (l : list A) start stop step d : 0 < step -> stop <= length l ->
  slice1 l start stop step = Ok (map (fun j => nth (start + step * j) l d) (seq 0 ((stop - start + step - 1) / step))).
Proof.
  intros SP H. unfold slice1.
  assert (B : forall j, In j (seq 0 ((stop - start + step - 1) / step)) -> start + step * j < length l).
  { intros j I. apply in_seq in I. assert (j * step < stop - start); [|nia].
    assert (S j <= (stop - start + step - 1) / step) as Q by lia.
    apply (Nat.mul_le_mono_l _ _ step) in Q. pose proof (Nat.mul_div_le (stop - start + step - 1) step ltac:(lia)). nia. }
  revert B. generalize (seq 0 ((stop - start + step - 1) / step)). intros q. induction q as [|j js IH]; intros B; [reflexivity|]. cbn [rmap map].
  unfold read at 1. destruct (nth_error_lt l (start + step * j)) as [v E]; [apply B; now left|]. rewrite E. cbn [rbind]. rewrite IH by (intros; apply B; now right).
  cbn [rbind]. now rewrite (nth_of_error _ _ _ d E).
Qed.
Lemma slice1_firstn {A} (l : list A) n : n <= length l -> slice1 l 0 n 1 = Ok (firstn n l).
Proof.
  intros H. destruct l as [|d l'] eqn:E; [cbn in H; assert (n = 0) by lia; subst; reflexivity|]. rewrite <- E in *. clear E l'.
  rewrite (slice1_ok l 0 n 1 d) by lia. rewrite Nat.div_1_r. replace (n - 0 + 1 - 1) with n by lia. f_equal.
  apply nth_error_ext_; [rewrite map_length, seq_length, firstn_length; lia|]. rewrite map_length, seq_length. intros i I.
  rewrite (map_nth_error _ i (seq 0 n) (d := i)) by (rewrite (nth_error_nth' _ 0) by (rewrite seq_length; exact I); now rewrite seq_nth).
  cbn [Nat.add Nat.mul]. rewrite Nat.add_0_r. rewrite (nth_error_nth' _ d) by (rewrite firstn_length; lia). f_equal. revert l H. induction n as [|n IH]; [lia|]. clear IH.
  intros l H. revert n i H I. induction l as [|x l IHl]; intros n i H I; [cbn in H; lia|]. destruct i as [|i]; [reflexivity|]. cbn [firstn nth]. destruct n as [|n]; [lia|]. apply IHl; cbn in H; lia.
Qed.
Lemma slice1_mid {A} (l : list A) m n : m <= n <= length l -> slice1 l m n 1 = Ok (firstn (n - m) (skipn m l)).
Proof.
  intros H. rewrite <- (slice1_firstn (skipn m l) (n - m)) by (rewrite skipn_length; lia). unfold slice1. rewrite !Nat.div_1_r.
  replace (n - m - 0 + 1 - 1) with (n - m + 1 - 1) by lia.
  generalize (seq 0 (n - m + 1 - 1)). clear. intros q. induction q as [|j js IH]; [reflexivity|]. cbn [rmap]. rewrite IH.
  assert (R : read l (m + 1 * j) = read (skipn m l) (0 + 1 * j)); [|now rewrite R].
  unfold read. rewrite <- (firstn_skipn m l) at 1. cbn [Nat.add]. clear. revert l. induction m as [|m IHm]; intros l; [reflexivity|].
  destruct l as [|x l]; [cbn; now destruct (j + 0)|]. cbn [firstn skipn app Nat.add nth_error]. apply IHm.
Qed.

Section Ops.
Context {A : Type} (f : A -> A -> A).
Hypothesis assoc : forall a b c, f a (f b c) = f (f a b) c.
Lemma msum_nonempty (l : list A) : l <> [] -> exists v, msum f l = Some v.
Proof. destruct l as [|x l]; [easy|]. intros _. cbn. destruct (msum f l); cbn; eauto. Qed.
End Ops.

Section Reduce.
Context {A : Type} (f : A -> A -> A).
Hypothesis assoc : forall a b c, f a (f b c) = f (f a b) c.
Hypothesis comm : forall a b, f a b = f b a.

Lemma vec2_sum (x y : list A) : length x = length y -> exists z, vec2 f x y = Ok z /\ length z = length x /\ msum f z = lf f (msum f x) (msum f y).
Proof.
  intros L. unfold vec2. rewrite L, Nat.eqb_refl. exists (zipWith f x y). split; [reflexivity|]. split; [|now apply msum_zip].
  revert y L. induction x as [|a x IH]; intros [|b y] L; cbn in *; try lia. rewrite IH; lia.
Qed.
Lemma skipn_add {B} : forall a b (l : list B), skipn a (skipn b l) = skipn (b + a) l.
Proof. intros a b. induction b as [|b IH]; intros l; [reflexivity|]. destruct l as [|x l]; [now rewrite !skipn_nil|]. cbn. apply IH. Qed.
Lemma cut3 (l : list A) p q : p <= q -> l = firstn p l ++ firstn (q - p) (skipn p l) ++ skipn q l.
Proof.
  intros H. rewrite <- (firstn_skipn p l) at 1. f_equal. rewrite <- (firstn_skipn (q - p) (skipn p l)) at 1. f_equal. rewrite skipn_add. f_equal. lia.
Qed.
Lemma halving_ok : forall fuel l, l <> [] -> length l <= fuel -> (exists t, length l = 2 ^ t) -> exists v, halving f fuel l = Ok [v] /\ msum f l = Some v.
Proof.
  induction fuel as [|fu IH]; intros l NE L [t T]; [destruct l; [easy|cbn in L; lia]|]. cbn [halving].
  destruct (Nat.ltb_spec 1 (length l)) as [G|G].
  - destruct t as [|t]; [cbn in T; lia|]. assert (H2 : length l / 2 = 2 ^ t) by (rewrite T; cbn [Nat.pow]; rewrite Nat.mul_comm; now apply Nat.div_mul).
    assert (HP : 2 ^ t <> 0) by (now apply Nat.pow_nonzero). cbn [Nat.pow] in T.
    rewrite slice1_firstn, slice1_mid by lia. cbn [rbind]. rewrite H2. set (h := 2 ^ t) in *. replace (2 * h - h) with h by lia.
    destruct (vec2_sum (firstn h l) (firstn h (skipn h l))) as [z [E [Lz M]]]; [rewrite !firstn_length, skipn_length; lia|]. rewrite E. cbn [rbind].
    rewrite firstn_length in Lz. destruct (IH z) as [v [V1 V2]]; [intros ->; cbn in Lz; lia|lia|exists t; fold h; lia|]. exists v. split; [exact V1|].
    rewrite <- V2, M. rewrite <- msum_app by exact assoc. f_equal. rewrite (firstn_all2 (skipn h l)) by (rewrite skipn_length; lia). now rewrite firstn_skipn.
  - destruct l as [|v [|]]; cbn in G; try lia; [easy|]. exists v. split; reflexivity.
Qed.
Lemma lower_exp_ok : forall fuel len t, 0 < len -> len <= fuel + 2 ^ t -> 2 ^ t <= len -> exists u, lower_exp fuel len (2 ^ t) = 2 ^ u /\ 2 ^ u <= len < 2 * 2 ^ u.
Proof.
  induction fuel as [|fu IH]; intros len t P F T; cbn [lower_exp].
  - exists t. assert (2 ^ t <> 0) by (now apply Nat.pow_nonzero). lia.
  - destruct (Nat.leb_spec (2 * 2 ^ t) len) as [G|G]; [|exists t; lia]. change (2 * 2 ^ t) with (2 ^ S t). apply IH; cbn [Nat.pow]; lia || (assert (2 ^ t <> 0) by (now apply Nat.pow_nonzero); lia).
Qed.
Theorem associative_reduce_ok l : l <> [] -> exists v, associative_reduce f l = Ok [v] /\ fold1 f l = Some v.
Proof.
  intros NE. rewrite fold1_msum by exact assoc. unfold associative_reduce. destruct (Nat.ltb_spec (length l) 2) as [G|G].
  - destruct l as [|v [|]]; cbn in G; try lia; [easy|]. exists v. split; reflexivity.
  - destruct (lower_exp_ok (length l) (length l) 0) as [u [E B]]; cbn [Nat.pow]; try lia. cbn [Nat.pow] in E. rewrite E. set (e := 2 ^ u) in *.
    destruct (Nat.eqb_spec (length l) e) as [Q|Q]; cbn [rbind].
    + apply halving_ok; auto. exists u. exact Q.
    + rewrite !slice1_mid by lia. cbn [rbind skipn]. rewrite Nat.sub_0_r.
      destruct (vec2_sum (firstn (length l - e) (skipn e l)) (firstn (e - (2 * e - length l)) (skipn (2 * e - length l) l))) as [z [Ez [Lz M]]]; [rewrite !firstn_length, !skipn_length; lia|].
      rewrite Ez. cbn [rbind]. rewrite firstn_length, skipn_length in Lz. set (a := firstn (2 * e - length l) l).
      assert (La : length a = 2 * e - length l) by (unfold a; rewrite firstn_length; lia).
      destruct (halving_ok (length l) (a ++ z)) as [v [V1 V2]]; [intros H; apply app_eq_nil in H; destruct H as [-> ->]; cbn in *; lia|rewrite app_length; lia|exists u; rewrite app_length; fold e; lia|].
      exists v. split; [exact V1|]. rewrite <- V2, msum_app, M by exact assoc. rewrite (cut3 l (2 * e - length l) e) at 1 by lia. fold a. rewrite !msum_app by exact assoc. f_equal.
      rewrite lf_comm by exact comm. f_equal. rewrite firstn_all2 by (rewrite skipn_length; lia). reflexivity.
Qed.

Definition tsum (tails : list (list A)) : option A := fold_right (fun t acc => lf f (msum f t) acc) None tails.
Lemma tree_down_ok : forall fuel l tails, l <> [] -> length l <= fuel -> Forall (fun t => length t = 1) tails -> exists v tails', tree_down f fuel l tails = Ok ([v], tails') /\
  Forall (fun t => length t = 1) tails' /\ lf f (Some v) (tsum tails') = lf f (msum f l) (tsum tails).
Proof.
  induction fuel as [|fu IH]; intros l tails NE L T; [destruct l; [easy|cbn in L; lia]|]. cbn [tree_down].
  destruct (Nat.ltb_spec 1 (length l)) as [G|G].
  - set (h := length l / 2). assert (Hh : 2 * h <= length l <= 2 * h + 1) by (unfold h; lia). assert (0 < h) by lia.
    rewrite slice1_firstn, slice1_mid by lia. cbn [rbind]. replace (2 * h - h) with h by lia.
    destruct (vec2_sum (firstn h l) (firstn h (skipn h l))) as [z [E [Lz M]]]; [rewrite !firstn_length, skipn_length; lia|]. rewrite firstn_length in Lz.
    assert (Z0 : z <> []) by (intros ->; cbn [length] in Lz; lia).
    pose proof (cut3 l h (2 * h) ltac:(lia)) as C. replace (2 * h - h) with h in C by lia.
    assert (ML : msum f l = lf f (msum f z) (msum f (skipn (2 * h) l))) by (rewrite C at 1; rewrite !msum_app by exact assoc; rewrite M; symmetry; now rewrite lf_assoc by exact assoc).
    destruct (Nat.odd (length l)) eqn:O.
    + rewrite slice1_mid by lia. cbn [rbind]. rewrite E. cbn [rbind]. set (t := firstn (length l - 2 * h) (skipn (2 * h) l)).
      assert (Ht : t = skipn (2 * h) l) by (unfold t; apply firstn_all2; rewrite skipn_length; lia).
      assert (Lt : length t = 1). { rewrite Ht, skipn_length. apply Nat.odd_spec in O. destruct O as [q O]. lia. }
      destruct (IH z (t :: tails)) as [v [tails' [V1 [V2 V3]]]]; auto; [lia|]. exists v, tails'. split; [exact V1|]. split; [exact V2|]. rewrite V3. cbn [tsum fold_right].
      fold (tsum tails). rewrite lf_assoc by exact assoc. f_equal. now rewrite ML, Ht.
    + cbn [rbind]. rewrite E. cbn [rbind]. destruct (IH z tails) as [v [tails' [V1 [V2 V3]]]]; auto; [lia|]. exists v, tails'. split; [exact V1|]. split; [exact V2|]. rewrite V3. f_equal.
      rewrite ML. assert (length l = 2 * h). { rewrite <- Nat.negb_even in O. apply negb_false_iff, Nat.even_spec in O. destruct O as [q O]. lia. }
      rewrite skipn_all2 by lia. cbn [msum]. now rewrite lf_none_r.
  - destruct l as [|v [|]]; cbn in G; try lia; [easy|]. exists v, tails. split; [reflexivity|]. split; [exact T|reflexivity].
Qed.
Lemma tree_up_ok : forall tails v, Forall (fun t => length t = 1) tails -> exists w, tree_up f [v] tails = Ok [w] /\ Some w = lf f (Some v) (tsum tails).
Proof.
  induction tails as [|t tails IH]; intros v T; cbn [tree_up]; [exists v; split; reflexivity|]. inversion T as [|? ? T1 T2]; subst.
  destruct t as [|x [|]]; cbn in T1; try lia. unfold vec2. cbn [length Nat.eqb zipWith rbind]. destruct (IH (f v x) T2) as [w [W1 W2]]. exists w. split; [exact W1|].
  rewrite W2. cbn [tsum fold_right msum]. fold (tsum tails). rewrite lf_assoc by exact assoc. reflexivity.
Qed.
Theorem tree_reduce_ok l : l <> [] -> exists v, tree_reduce f l = Ok [v] /\ fold1 f l = Some v.
Proof.
  intros NE. rewrite fold1_msum by exact assoc. unfold tree_reduce. destruct (tree_down_ok (S (length l)) l [] NE) as [v [tails [E [T SU]]]]; [lia|constructor|].
  rewrite E. cbn [rbind]. destruct (tree_up_ok tails v T) as [w [W1 W2]]. exists w. split; [exact W1|]. rewrite W2, SU. cbn [tsum fold_right]. now rewrite lf_none_r.
Qed.
Theorem reduce_row_ok ign init l : l <> [] -> exists v, reduce_row f ign init l = Ok v /\ fold1 f (if ign then l else init :: l) = Some v.
Proof.
  intros NE. unfold reduce_row. destruct (tree_reduce_ok l NE) as [v [E F]]. rewrite E. cbn [rbind]. eexists. split; [reflexivity|]. destruct ign; [exact F|].
  rewrite fold1_msum in * by exact assoc. cbn [msum]. rewrite F. cbn. now rewrite comm.
Qed.
End Reduce.

(* ---- scan ---- *)
Lemma inter_spec : forall l, l <> [] -> length (inter l) = 2 * length l - 1 /\ (forall i, i < length l -> nth (2 * i) (inter l) 0%Z = nth i l 0%Z /\ nth (2 * i + 1) (inter l) 0%Z = 0%Z).
Proof.
  induction l as [|x l IH]; intros NE; [easy|]. destruct l as [|y l].
  - split; [reflexivity|]. intros i I. cbn in I. assert (i = 0) by lia. subst. split; reflexivity.
  - destruct (IH ltac:(easy)) as [L N]. change (inter (x :: y :: l)) with (x :: 0%Z :: inter (y :: l)). split; [cbn [length] in *; lia|].
    intros [|i] I; [split; reflexivity|]. destruct (N i ltac:(cbn in *; lia)) as [N1 N2]. replace (2 * S i) with (S (S (2 * i))) by lia. cbn [nth Nat.add]. split; [exact N1|].
    replace (S (2 * i) + 1) with (S (2 * i + 1)) by lia. exact N2.
Qed.
Lemma map_seq_nth {B} (g : nat -> B) n i d : i < n -> nth i (map g (seq 0 n)) d = g i.
Proof. intros H. rewrite (nth_indep _ d (g 0)) by (rewrite map_length, seq_length; exact H). rewrite map_nth. now rewrite seq_nth. Qed.
Lemma nth_zip f (x y : list Z) i : i < length x -> i < length y -> nth i (zipWith f x y) 0%Z = f (nth i x 0%Z) (nth i y 0%Z).
Proof. revert y i. induction x as [|a x IH]; intros [|b y] [|i] H1 H2; cbn in *; try lia; auto. apply IH; lia. Qed.
Lemma zip_length (f : Z -> Z -> Z) x : forall y, length x = length y -> length (zipWith f x y) = length x.
Proof. induction x as [|a x IH]; intros [|b y] L; cbn in *; try lia. rewrite IH; lia. Qed.

Lemma nth_first {B} (l : list B) d : forall i m, i < m -> nth i (firstn m l) d = nth i l d.
Proof. induction l as [|x l IH]; intros [|i] [|m] H; cbn; try lia; auto. apply IH. lia. Qed.

Section Scan.
Variables (k : Z) (fn : Z -> Z -> Z).
Hypothesis assoc : forall a b c, fn a (fn b c) = fn (fn a b) c.
Hypothesis Wfn : forall x y, word k x -> word k y -> word k (fn x y).
Lemma msum_snoc (l : list Z) i : S i < length l -> msum fn (firstn (S (S i)) l) = lf fn (msum fn (firstn (S i) l)) (Some (nth (S i) l 0%Z)).
Proof.
  intros H. assert (E : firstn (S (S i)) l = firstn (S i) l ++ [nth (S i) l 0%Z]).
  { clear - H. revert i H. induction l as [|x l IH]; intros i H; [cbn in H; lia|]. destruct i as [|i].
    - destruct l as [|y l]; [cbn in H; lia|reflexivity].
    - change (firstn (S (S (S i))) (x :: l)) with (x :: firstn (S (S i)) l). rewrite IH by (cbn in H; lia). reflexivity. }
  rewrite E, msum_app by exact assoc. reflexivity.
Qed.
Lemma pairs_sum (l red : list Z) : (forall i, i < length red -> nth i red 0%Z = fn (nth (2 * i) l 0%Z) (nth (2 * i + 1) l 0%Z)) -> 2 * length red <= length l ->
  forall i, i < length red -> msum fn (firstn (S i) red) = msum fn (firstn (2 * i + 2) l).
Proof.
  intros R L. induction i as [|i IH]; intros I.
  - destruct red as [|r red]; [cbn in I; lia|]. destruct l as [|x [|y l]]; cbn in L; try lia. cbn. specialize (R 0 I). cbn in R. now rewrite R.
  - rewrite msum_snoc by lia. rewrite IH by lia. replace (2 * S i + 2) with (S (S (2 * i + 2))) by lia. rewrite msum_snoc by lia.
    replace (S (2 * i + 2)) with (S (S (2 * i + 1))) by lia. rewrite msum_snoc by lia. replace (S (2 * i + 1)) with (2 * i + 2) by lia.
    rewrite <- lf_assoc by exact assoc. f_equal. cbn [lf]. rewrite R by lia. f_equal; f_equal; f_equal; lia.
Qed.
Lemma words_nth l i : Forall (word k) l -> (0 <= k)%Z -> word k (nth i l 0%Z).
Proof.
  intros W K. destruct (Nat.lt_ge_cases i (length l)) as [G|G]; [rewrite Forall_forall in W; apply W; now apply nth_In|].
  rewrite nth_overflow by lia. unfold word. pose proof (Z.pow_pos_nonneg 2 k). lia.
Qed.
Theorem scan_ok : (0 <= k)%Z -> forall fuel l, length l <= fuel -> 0 < fuel -> Forall (word k) l -> exists out, associative_scan fuel k fn l = Ok out /\ length out = length l /\ Forall (word k) out /\
  forall i, i < length l -> Some (nth i out 0%Z) = msum fn (firstn (S i) l).
Proof.
  intros K. induction fuel as [|fu IH]; intros l L F W; [lia|]. cbn [associative_scan]. set (N := length l) in *.
  destruct (Nat.ltb_spec N 2) as [G|G].
  - exists l. split; [reflexivity|]. split; [reflexivity|]. split; [exact W|]. intros i I. fold N in I. assert (i = 0) by lia. subst. destruct l as [|x [|]]; cbn in *; try lia. reflexivity.
  - rewrite (slice1_ok l 0 (N - 1) 2 0%Z), (slice1_ok l 1 N 2 0%Z) by (fold N; lia). cbn [rbind].
    replace ((N - 1 - 0 + 2 - 1) / 2) with (N / 2) by (f_equal; lia). replace ((N - 1 + 2 - 1) / 2) with (N / 2) by (f_equal; lia).
    unfold vec2 at 1. rewrite !map_length, Nat.eqb_refl. cbn [rbind].
    set (red := zipWith fn _ _).
    assert (Lr : length red = N / 2) by (unfold red; rewrite zip_length; rewrite !map_length, ?seq_length; reflexivity).
    assert (Nr : forall i, i < length red -> nth i red 0%Z = fn (nth (2 * i) l 0%Z) (nth (2 * i + 1) l 0%Z)).
    { intros i I. unfold red. rewrite nth_zip by (rewrite map_length, seq_length; lia). rewrite !map_seq_nth by lia. f_equal; f_equal; lia. }
    assert (Wr : Forall (word k) red).
    { apply Forall_forall. intros x X. apply (In_nth _ _ 0%Z) in X. destruct X as [i [I <-]]. rewrite Nr by exact I. apply Wfn; now apply words_nth. }
    destruct (IH red) as [odd [E1 [L1 [W1 S1]]]]; [lia|lia|exact Wr|]. rewrite E1. cbn [rbind]. rewrite Lr in L1.
    set (m := if Nat.even N then length odd - 1 else length odd). assert (Hm : m = (N - 1) / 2).
    { unfold m. destruct (Nat.even N) eqn:EV.
      - apply Nat.even_spec in EV. destruct EV as [q EV]. lia.
      - rewrite <- Nat.negb_odd in EV. apply negb_false_iff, Nat.odd_spec in EV. destruct EV as [q EV]. lia. }
    rewrite slice1_firstn by (unfold m; destruct (Nat.even N); lia). cbn [rbind].
    rewrite (slice1_ok l 2 N 2 0%Z) by (fold N; lia). cbn [rbind]. replace ((N - 2 + 2 - 1) / 2) with ((N - 1) / 2) by (f_equal; lia).
    unfold vec2 at 1. rewrite map_length, seq_length, firstn_length. replace (Nat.min m (length odd)) with ((N - 1) / 2) by lia. rewrite Nat.eqb_refl. cbn [rbind].
    rewrite slice1_firstn by (fold N; lia). cbn [rbind].
    set (ev := zipWith fn (firstn m odd) _).
    assert (Le : length ev = (N - 1) / 2) by (unfold ev; rewrite zip_length; rewrite ?map_length, ?seq_length, firstn_length; lia).
    assert (Ne : forall i, i < length ev -> nth i ev 0%Z = fn (nth i odd 0%Z) (nth (2 * i + 2) l 0%Z)).
    { intros i I. unfold ev. rewrite nth_zip by (rewrite ?map_length, ?seq_length, ?firstn_length; lia). rewrite map_seq_nth by lia. f_equal; [|f_equal; lia].
      apply nth_first. lia. }
    assert (exists x0 l0, l = x0 :: l0) as [x0 [l0 El]] by (clear - G; unfold N in G; destruct l; [cbn in G; lia|eauto]). assert (F1 : firstn 1 l = [x0]) by (rewrite El; reflexivity). rewrite F1.
    set (fe := [x0] ++ ev). assert (Lf : length fe = S ((N - 1) / 2)) by (unfold fe; rewrite app_length; cbn [length]; lia).
    assert (Sf : forall i, i < length fe -> Some (nth i fe 0%Z) = msum fn (firstn (S (2 * i)) l)).
    { intros [|i] I; [rewrite El; reflexivity|]. unfold fe. cbn [app nth]. rewrite Ne by lia. replace (2 * S i) with (S (2 * i + 1)) by lia. rewrite msum_snoc by (fold N; lia).
      replace (S (2 * i + 1)) with (2 * i + 2) by lia. rewrite <- (pairs_sum l red Nr) by (fold N; lia). rewrite <- S1 by lia. reflexivity. }
    assert (So : forall i, i < length odd -> Some (nth i odd 0%Z) = msum fn (firstn (S (2 * i + 1)) l)).
    { intros i I. rewrite S1 by lia. rewrite (pairs_sum l red Nr) by (fold N; lia). do 2 f_equal. lia. }
    destruct (inter_spec fe) as [If1 If2]; [intros Q; rewrite Q in Lf; cbn [length] in Lf; lia|].
    destruct (inter_spec odd) as [Io1 Io2]; [intros Q; rewrite Q in L1; cbn [length] in L1; lia|].
    set (pe := pad1 fe 0 _). set (po := pad1 odd 1 _).
    assert (SM : (length fe =? length odd) = Nat.even N).
    { destruct (Nat.even N) eqn:EV; [apply Nat.eqb_eq|apply Nat.eqb_neq].
      - apply Nat.even_spec in EV. destruct EV as [q EV]. lia.
      - rewrite <- Nat.negb_odd in EV. apply negb_false_iff, Nat.odd_spec in EV. destruct EV as [q EV]. lia. }
    assert (EVc : (Nat.even N = true /\ exists q, N = 2 * q) \/ (Nat.even N = false /\ exists q, N = 2 * q + 1)).
    { destruct (Nat.even N) eqn:EV; [left|right]; (split; [reflexivity|]).
      - apply Nat.even_spec in EV. exact EV.
      - rewrite <- Nat.negb_odd in EV. apply negb_false_iff, Nat.odd_spec in EV. exact EV. }
    assert (Lpe : length pe = N). { unfold pe, pad1. rewrite !app_length, !repeat_length, SM, If1, Lf. destruct EVc as [[-> [q Q]]|[-> [q Q]]]; lia. }
    assert (Lpo : length po = N). { unfold po, pad1. rewrite !app_length, !repeat_length, SM, Io1, L1. destruct EVc as [[-> [q Q]]|[-> [q Q]]]; lia. }
    assert (PE : forall i, 2 * i < N -> nth (2 * i) pe 0%Z = nth i fe 0%Z).
    { intros i I. unfold pe, pad1. cbn [repeat app]. rewrite app_nth1 by lia. apply If2. lia. }
    assert (PE1 : forall i, 2 * i + 1 < N -> nth (2 * i + 1) pe 0%Z = 0%Z).
    { intros i I. unfold pe, pad1. cbn [repeat app]. destruct (Nat.lt_ge_cases (2 * i + 1) (length (inter fe))) as [Q|Q].
      - rewrite app_nth1 by lia. apply If2. lia.
      - rewrite app_nth2 by lia. apply nth_repeat. }
    assert (PO : forall i, 2 * i + 1 < N -> nth (2 * i + 1) po 0%Z = nth i odd 0%Z).
    { intros i I. unfold po, pad1. cbn [repeat app]. replace (2 * i + 1) with (S (2 * i)) by lia. cbn [nth]. rewrite app_nth1 by lia. apply Io2. lia. }
    assert (PO1 : forall i, 2 * i < N -> nth (2 * i) po 0%Z = 0%Z).
    { intros [|i] I; [reflexivity|]. unfold po, pad1. cbn [repeat app]. replace (2 * S i) with (S (2 * i + 1)) by lia. cbn [nth]. destruct (Nat.lt_ge_cases (2 * i + 1) (length (inter odd))) as [Q|Q].
      - rewrite app_nth1 by lia. apply Io2. lia.
      - rewrite app_nth2 by lia. apply nth_repeat. }
    assert (Wfe : Forall (word k) fe).
    { constructor; [rewrite El in W; now inversion W|]. apply Forall_forall. intros x X. apply (In_nth _ _ 0%Z) in X. destruct X as [i [I <-]]. rewrite Ne by exact I. apply Wfn; now apply words_nth. }
    unfold vec2. rewrite Lpe, Lpo, Nat.eqb_refl. eexists. split; [reflexivity|]. split; [rewrite zip_length; congruence|].
    assert (V : forall i, i < N -> nth i (zipWith (radd k) pe po) 0%Z = if Nat.even i then nth (i / 2) fe 0%Z else nth (i / 2) odd 0%Z).
    { intros i I. rewrite nth_zip by lia. unfold radd. destruct (Nat.Even_or_Odd i) as [[q ->]|[q ->]].
      - rewrite PE, PO1 by lia. assert (Nat.even (2 * q) = true) as -> by (apply Nat.even_spec; now exists q). replace (2 * q / 2) with q by (rewrite Nat.mul_comm; symmetry; now apply Nat.div_mul).
        rewrite Z.add_0_r. apply wrap_small. now apply words_nth.
      - rewrite PE1, PO by lia. assert (Nat.even (2 * q + 1) = false) as -> by (rewrite <- Nat.negb_odd; apply negb_false_iff, Nat.odd_spec; now exists q).
        replace ((2 * q + 1) / 2) with q by (apply Nat.div_unique with (r := 1); lia). cbn [Z.add]. apply wrap_small. now apply words_nth. }
    split.
    + apply Forall_forall. intros x X. apply (In_nth _ _ 0%Z) in X. destruct X as [i [I <-]]. rewrite zip_length in I by congruence. rewrite V by lia. destruct (Nat.even i); now apply words_nth.
    + intros i I. fold N in I. rewrite V by exact I. destruct (Nat.Even_or_Odd i) as [[q ->]|[q ->]].
      * assert (Nat.even (2 * q) = true) as -> by (apply Nat.even_spec; now exists q). replace (2 * q / 2) with q by (rewrite Nat.mul_comm; symmetry; now apply Nat.div_mul). apply Sf. lia.
      * assert (Nat.even (2 * q + 1) = false) as -> by (rewrite <- Nat.negb_odd; apply negb_false_iff, Nat.odd_spec; now exists q).
        replace ((2 * q + 1) / 2) with q by (apply Nat.div_unique with (r := 1); lia). apply So. lia.
Qed.
End Scan.
