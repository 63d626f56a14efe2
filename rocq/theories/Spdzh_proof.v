(* Plaintext-level statements about honest runs, and the deviations that are not caught. *)
From Verif Require Import Base Ring_spec Share_spec Ring_model Party Semi_model Semi_proof Trunc_proof Ring_proof Spdz_model Spdz_spec Spdz_proof Spdzc_proof.
Open Scope Z_scope.

Definition authb (K : Z) (n : nat) (gk : Z) (x : ash) (v : Z) : bool := shAb K n (av x) v && shAb K n (am x) (wrap K (v * gk)).
Lemma authb_ok K n gk x v : 0 <= K -> authb K n gk x v = true -> authentic K n gk x v.
Proof.
  intros H E. apply andb_true_iff in E. destruct E as [E1 E2]. split; [now apply shAb_ok|]. exists (wrap K (v * gk)). split; [|now apply shAb_ok].
  split; [now apply word_wrap|]. apply eqm_exists; [lia|apply eqm_wrap].
Qed.
Lemma is_mod_wrap k v : 0 <= k -> is_mod k v (wrap k v).
Proof. intros H. split; [now apply word_wrap|]. apply eqm_exists; [lia|apply eqm_wrap]. Qed.
Lemma is_mod_eq k v w : 0 <= k -> is_mod k v w -> w = wrap k v.
Proof. intros H [W [q E]]. rewrite <- (wrap_small k w W). change (eqm k w v). rewrite E. apply eqm_mult. Qed.

Section H.
Variables K k s : Z.
Variable n : nat.
Variable KS : nat -> Z.
Variable gk : Z.
Hypothesis Hk : 0 < k.
Hypothesis Hs : 0 <= s.
Hypothesis HK : k + s <= K.
Hypothesis Hn : (0 < n)%nat.
Notation A := (authentic K n gk).
Notation H := (holds K k n gk).

Lemma key_ok R w : words K n R -> shA K n (key_shares K s n R w) (new_key s w).
Proof. clear KS. intros W. apply adjust_ok; auto; [lia|]. apply (word_mono s K); [lia|]. exact (word_wrap s w Hs). Qed.
Lemma holds_of x v p : A x v -> eqm k v p -> word k p -> H x p.
Proof. clear KS. intros HA E W. exists v. split; [exact HA|]. rewrite <- (wrap_small k p W). replace (wrap k p) with (wrap k v) by exact E. apply is_mod_wrap. lia. Qed.
Lemma holds_wrap x v p : A x v -> eqm k v p -> exists t, is_mod k p t /\ H x t.
Proof. clear KS. intros HA E. exists (wrap k p). split; [apply is_mod_wrap; lia|]. apply (holds_of x v); auto; [now rewrite eqm_wrap|apply word_wrap; lia]. Qed.
Lemma holds_inv x p : H x p -> exists v, A x v /\ eqm k v p /\ word k p.
Proof. clear KS. intros [v [HA P]]. exists v. split; [exact HA|]. split; [|apply P]. rewrite (is_mod_eq k v p ltac:(lia) P). now rewrite eqm_wrap. Qed.
Lemma down a b : eqm K a b -> eqm k a b. Proof. clear KS. apply eqm_le. lia. Qed.
Ltac inv X v HA E W := apply holds_inv in X; destruct X as [v [HA [E W]]].

Lemma coin_H R M w : words K n R -> words K n M -> exists r, A (auth_coin K k n gk R M w) r.
Proof. clear KS. intros WR WM. exists (w mod 2 ^ k). apply coin_ok; auto; lia. Qed.
Lemma bit_H R M w : words K n R -> words K n M -> H (auth_bit K n gk R M w) (w mod 2).
Proof. clear KS.
  intros WR WM. apply (holds_of _ (w mod 2)); [apply bit_ok; auto; lia|reflexivity|]. apply (word_mono 1 k); [lia|]. exact (word_wrap 1 w ltac:(lia)).
Qed.
Lemma get_mac_H hm x cn r v : A cn r -> shA K n (av x) v -> (hm = true -> A x v) -> exists p, is_mod k v p /\ H (get_mac K n gk hm x cn) p.
Proof. clear KS. intros HC HX HM. apply (holds_wrap _ v); [|reflexivity]. apply (get_mac_ok K n gk) with (r := r); auto; lia. Qed.
Lemma v2a_H o R M x cn r : (o < n)%nat -> word k x -> A cn r -> H (v2a_s K n gk o R M x cn) x.
Proof. clear KS. intros O W HC. apply (holds_of _ x); [|reflexivity|exact W]. apply v2a_ok with (r := r); auto; [lia|]. apply (word_mono k K); [lia|exact W]. Qed.
Lemma rand_H W cn r : words K n W -> A cn r -> H (rand_a K n gk W cn) (wrap k (total n (fun i => rshr 2 (W i)))).
Proof. clear KS.
  intros HW HC. unfold rand_a. apply (holds_of _ (wrap K (total n (fun i => rshr 2 (W i))))).
  - apply auth_array_ok with (r := r); auto; [lia|]. apply shA_of; [lia|intros i I; apply rshr_word; [lia|lia|now apply HW]|apply word_wrap; lia|now rewrite eqm_wrap].
  - transitivity (total n (fun i => rshr 2 (W i))); [apply down, eqm_wrap|symmetry; apply eqm_wrap].
  - apply word_wrap. lia.
Qed.
Lemma neg_H x p : H x p -> exists t, is_mod k (- p) t /\ H (neg_a K x) t.
Proof. clear KS. intros X. inv X v HA E W. apply (holds_wrap _ (rneg K v)); [apply neg_ok; auto; lia|]. rewrite (down _ _ (eqm_rneg K v)), E. reflexivity. Qed.
Lemma add_H x y p q : H x p -> H y q -> exists t, is_mod k (p + q) t /\ H (add_aa_s K x y) t.
Proof. clear KS. intros X Y. inv X v HA E W. inv Y w HB F V. apply (holds_wrap _ (radd K v w)); [apply add_ok; auto; lia|]. rewrite (down _ _ (eqm_radd K v w)), E, F. reflexivity. Qed.
Lemma mul_ap_H x p q : H x p -> word k q -> exists t, is_mod k (p * q) t /\ H (mul_ap_s K x q) t.
Proof. clear KS. intros X V. inv X v HA E W. apply (holds_wrap _ (rmul K v (cast_up K q))); [apply mul_ap_ok; auto; lia|]. rewrite (down _ _ (eqm_rmul K _ _)), E. unfold cast_up. now rewrite (down _ _ (eqm_wrap K q)). Qed.
Lemma lshift_H b x p : H x p -> exists t, is_mod k (p * 2 ^ b) t /\ H (lshift_s K b x) t.
Proof. clear KS. intros X. inv X v HA E W. apply (holds_wrap _ (rshl K b v)); [apply lshift_ok; auto; lia|]. rewrite (down _ _ (eqm_rshl K _ _)), E. reflexivity. Qed.
Lemma matmul_ap_H Q x p P i j : (forall l, (l < Q)%nat -> H (x i l) (p i l) /\ word k (P l j)) -> exists t, is_mod k (dot Q (p i) (fun l => P l j)) t /\ H (matmul_ap_s K Q x P i j) t.
Proof. clear KS.
  intros X. set (v := fun a l => wrap K (total n (av (x a l)))).
  assert (HV : forall l, (l < Q)%nat -> A (x i l) (v i l) /\ eqm k (v i l) (p i l)).
  { intros l L. destruct (X l L) as [Y _]. inv Y w HA E W. unfold v. replace (wrap K (total n (av (x i l)))) with w; [now split|]. destruct HA as [HA _]. symmetry. apply (shA_wrap K n _ w); [lia|exact HA]. }
  apply (holds_wrap _ (ring_mmul K Q v (fun a b => cast_up K (P a b)) i j)); [apply matmul_ap_ok; auto; [lia|]; intros l L; now apply HV|].
  rewrite (down _ _ (eqm_mmul K Q v _ i j ltac:(lia))). apply dot_eqm. intros l L. split; [now apply HV|]. unfold cast_up. apply down. apply eqm_wrap.
Qed.

(* values out *)
Lemma sum_radd (f : nat -> Z) l : forall a, eqm K (fold_left (fun acc i => radd K acc (f i)) l a) (a + sumZ (map f l)).
Proof. clear KS.
  induction l as [|i l IH]; intros a; cbn [fold_left map sumZ]; [apply eqm_of_eq; lia|]. rewrite IH, eqm_radd. apply eqm_of_eq. lia.
Qed.
Lemma from_shares_val x v p : shA K n (av x) v -> is_mod k v p -> from_shares K k n x = p.
Proof. clear KS.
  intros HX HP. unfold from_shares, cast_down, low. change (_ mod 2 ^ k) with (wrap k (fold_left (fun acc i => radd K acc (av x i)) (seq 0 n) 0)). rewrite wrap_wrap.
  rewrite (is_mod_eq k v p ltac:(lia) HP). change (eqm k (fold_left (fun acc i => radd K acc (av x i)) (seq 0 n) 0) v). apply down.
  rewrite sum_radd, sumZ_total. rewrite (shA_eqm K n _ v ltac:(lia) HX). apply eqm_of_eq. lia.
Qed.
Lemma total_nth (l : list Z) : forall m, length l = m -> total m (fun i => nthZ l i) = sumZ l.
Proof. clear KS.
  intros m L. rewrite <- sumZ_total. f_equal. subst m. apply (nth_ext _ _ 0 0); [now rewrite map_length, seq_length|].
  intros i I. rewrite map_length, seq_length in I. rewrite (nth_indep _ 0 (nthZ l 0)) by now rewrite map_length, seq_length.
  rewrite (map_nth (fun i => nthZ l i)). now rewrite seq_nth.
Qed.
Lemma to_shares_val x rs : word k x -> length rs = (n - 1)%nat -> Forall (word K) rs -> shA K n (av (to_shares K x rs)) x.
Proof. clear KS.
  intros W L F. assert (WK : word K x) by (apply (word_mono k K); [lia|exact W]). cbn [to_shares av]. unfold cast_up. rewrite (wrap_small K x WK).
  apply shA_of; [lia| |exact WK|].
  - intros [|i] I; unfold nthZ, additive_splits; cbn [nth].
    + assert (FW : forall l a, word K a -> word K (fold_left (rsub K) l a)) by (induction l as [|b l IH]; intros a Wa; cbn [fold_left]; [exact Wa|apply IH; apply rsub_word; lia]). now apply FW.
    + rewrite Forall_forall in F. apply F. apply nth_In. lia.
  - rewrite total_nth by (cbn [additive_splits length]; lia). change (wrap K (sumZ (additive_splits K x rs)) = wrap K x). now rewrite additive_splits_sum.
Qed.

Hypothesis HKS : shA K n KS gk.
Let EK : eqm K (total n KS) gk := shA_eqm K n KS gk ltac:(lia) HKS.
Lemma p2a_H R M x : word k x -> H (p2a K n KS R M x) x.
Proof. intros W. apply (holds_of _ x); [|reflexivity|exact W]. apply p2a_ok; auto; [lia|]. apply (word_mono k K); [lia|exact W]. Qed.
Lemma add_ap_H x p q : H x p -> word k q -> exists t, is_mod k (p + q) t /\ H (add_ap_s K KS x q) t.
Proof. intros X V. inv X v HA E W. apply (holds_wrap _ (radd K v (cast_up K q))); [apply add_ap_ok; auto; lia|]. rewrite (down _ _ (eqm_radd K _ _)), E. unfold cast_up. now rewrite (down _ _ (eqm_wrap K q)). Qed.

(* a family of plaintexts has a family of values *)
Definition val (x : nat -> ash) : nat -> Z := fun j => wrap K (total n (av (x j))).
Lemma val_ok N x p : (forall j, (j < N)%nat -> H (x j) (p j)) -> forall j, (j < N)%nat -> A (x j) (val x j) /\ eqm k (val x j) (p j) /\ word k (p j).
Proof.
  intros X j J. specialize (X j J). inv X w HA E W. unfold val. assert (EW : wrap K (total n (av (x j))) = w) by (destruct HA as [HA _]; apply (shA_wrap K n _ w); [lia|exact HA]). rewrite EW. split; [exact HA|now split].
Qed.
Lemma val_A N x : (forall j, (j < N)%nat -> exists r, A (x j) r) -> forall j, (j < N)%nat -> A (x j) (val x j).
Proof. intros X j J. destruct (X j J) as [w HA]. unfold val. assert (EW : wrap K (total n (av (x j))) = w) by (destruct HA as [HA' _]; apply (shA_wrap K n _ w); [lia|exact HA']). now rewrite EW. Qed.

Lemma reveal_H N x cn p coins : (forall j, (j < N)%nat -> H (x j) (p j)) -> (forall j, (j < N)%nat -> exists r, A (cn j) r) ->
  exists f, a2p_s K k s n KS N x cn coins (fun _ => 0) 0 = Ok f /\ forall j, (j < N)%nat -> f j = p j.
Proof.
  intros X C. pose proof (val_ok N x p X) as V. pose proof (val_A N cn C) as VC.
  destruct (a2p_gen K k s n KS gk ltac:(lia) Hn EK Hk Hs HK N x cn (val x) (val cn) coins (fun _ => 0) 0) as [[_ NP]|[f [E [_ F]]]].
  - intros j J. split; [now apply V|now apply VC].
  - exfalso. apply NP. now apply honest_passes.
  - exists f. split; [exact E|]. intros j J. destruct (V j J) as (_ & EV & W). rewrite (F j J), Z.add_0_r. rewrite <- (wrap_small k (p j) W). exact EV.
Qed.
Lemma reveal_priv_H rank N x cn cn' p R M rr coins : (rank < n)%nat -> (forall j, (j < N)%nat -> H (x j) (p j) /\ word K (rr j)) ->
  (forall j, (j < N)%nat -> exists r, A (cn j) r) -> (forall j, (j < N)%nat -> exists r, A (cn' j) r) ->
  exists f, a2v_s K k s n KS gk rank N x cn cn' R M rr coins (fun _ => 0) 0 = Ok f /\ forall j, (j < N)%nat -> f j = p j.
Proof.
  intros RK X C C'. pose proof (val_ok N x p (fun j J => proj1 (X j J))) as V. pose proof (val_A N cn C) as VC. pose proof (val_A N cn' C') as VC'.
  destruct (a2v_gen K k s n KS gk ltac:(lia) Hn EK Hk Hs HK rank N x cn cn' (val x) (val cn) (val cn') R M rr coins (fun _ => 0) 0 RK) as [[_ NP]|[f [E [_ F]]]].
  - intros j J. split; [now apply V|]. split; [now apply VC|]. split; [now apply VC'|now apply X].
  - exfalso. apply NP. now apply honest_passes.
  - exists f. split; [exact E|]. intros j J. destruct (V j J) as (_ & EV & W). rewrite (F j J), Z.add_0_r. rewrite <- (wrap_small k (p j) W). exact EV.
Qed.
Lemma mul_H N x y p q P B C MP MB MC coins1 coins2 e f resp1 resp2 :
  (forall j, (j < N)%nat -> H (x j) (p j) /\ H (y j) (q j) /\ words K n (P j) /\ words K n (B j) /\ words K n (C j) /\ words K n (MP j) /\ words K n (MB j) /\ words K n (MC j)) ->
  let r := mul_aa_s K k s n KS N x y (fun j => auth_mul K n gk (P j) (B j) (C j) (MP j) (MB j) (MC j)) coins1 coins2 e f resp1 resp2 in
  (forall j, (j < N)%nat -> e j mod 2 ^ k = 0 /\ f j mod 2 ^ k = 0) ->
  (forall z, r = Ok z -> forall j, (j < N)%nat -> exists t, is_mod k (p j * q j) t /\ H (z j) t) /\
  ((forall j, (j < N)%nat -> e j = 0 /\ f j = 0) -> resp1 = 0 -> resp2 = 0 -> exists z, r = Ok z).
Proof.
  intros X r EF. pose proof (val_ok N x p (fun j J => proj1 (X j J))) as V. assert (Y : forall j, (j < N)%nat -> H (y j) (q j)) by (intros j J; now destruct (X j J) as (_ & ? & _)). pose proof (val_ok N y q Y) as W.
  set (tr := fun j => auth_mul K n gk (P j) (B j) (C j) (MP j) (MB j) (MC j)) in *.
  assert (T : forall j, (j < N)%nat -> A (fst (fst (tr j))) (val (fun j => fst (fst (tr j))) j) /\ A (snd (fst (tr j))) (val (fun j => snd (fst (tr j))) j) /\ A (snd (tr j)) (val (fun j => snd (tr j)) j) /\
     is_mod K (val (fun j => fst (fst (tr j))) j * val (fun j => snd (fst (tr j))) j) (val (fun j => snd (tr j)) j)).
  { intros j J. destruct (X j J) as (_ & _ & WP & WB & WC & WMP & WMB & WMC).
    destruct (mul_triple_ok K n gk ltac:(lia) Hn (P j) (B j) (C j) (MP j) (MB j) (MC j)) as (a & b & c & HA & HB & HC & M); [intros i I; repeat split; (apply WP || apply WB || apply WC || apply WMP || apply WMB || apply WMC); exact I|].
    fold (tr j) in HA, HB, HC. unfold val.
    assert (wrap K (total n (av (fst (fst (tr j))))) = a) as -> by (destruct HA as [HA' _]; apply (shA_wrap K n _ a); [lia|exact HA']).
    assert (wrap K (total n (av (snd (fst (tr j))))) = b) as -> by (destruct HB as [HB' _]; apply (shA_wrap K n _ b); [lia|exact HB']).
    assert (wrap K (total n (av (snd (tr j)))) = c) as -> by (destruct HC as [HC' _]; apply (shA_wrap K n _ c); [lia|exact HC']). auto. }
  destruct (mul_gen K k s n KS gk ltac:(lia) Hn EK Hk Hs HK N x y tr (val x) (val y) _ _ _ coins1 coins2 e f resp1 resp2 (fun j J => conj (proj1 (V j J)) (conj (proj1 (W j J)) (T j J)))) as [[E NP]|[z [E [_ F]]]].
  - split; [intros z Ez; unfold r in Ez; rewrite E in Ez; discriminate|]. intros Z0 -> ->. exfalso. apply NP. split; apply honest_passes; intros j J; now apply Z0.
  - split; [|intros; now exists z]. intros z' Ez j J. unfold r in Ez. rewrite E in Ez. injection Ez as <-. apply (holds_wrap _ _ _ (F j J)).
    rewrite (down _ _ (eqm_rmul K _ _)). destruct (EF j J) as [E0 F0]. apply eqm_mul.
    + transitivity (val x j); [exact (low_zero k n Hk Hn (val x j) (e j) E0)|now apply V].
    + transitivity (val y j); [exact (low_zero k n Hk Hn (val y j) (f j) F0)|now apply W].
Qed.
(* the product of matrices after any deviation: nothing is checked *)
Lemma matmul_H Q x y p q P B C MP MB MC e f i j :
  (forall a, (a < n)%nat -> word K (C a i j) /\ word K (MC a i j) /\ forall l, (l < Q)%nat -> word K (P a i l) /\ word K (B a l j) /\ word K (MP a i l) /\ word K (MB a l j)) ->
  (forall l, (l < Q)%nat -> H (x i l) (p i l) /\ H (y l j) (q l j)) ->
  let t := auth_dot K n gk Q P B C MP MB MC in
  exists z, is_mod k (dot Q (fun l => p i l + e i l) (fun l => q l j + f l j)) z /\ H (matmul_aa_s K n KS Q x y (fst (fst t)) (snd (fst t)) (snd t) e f i j) z.
Proof.
  intros W X t. destruct (dot_triple_ok K n gk ltac:(lia) Hn Q P B C MP MB MC i j W) as (va & vb & HT & HC). fold t in HT, HC.
  set (v := fun a l => wrap K (total n (av (x a l)))). set (w := fun l b => wrap K (total n (av (y l b)))).
  assert (HV : forall l, (l < Q)%nat -> A (x i l) (v i l) /\ eqm k (v i l) (p i l)).
  { intros l L. destruct (X l L) as [Y _]. inv Y u HA E Wu. unfold v. replace (wrap K (total n (av (x i l)))) with u; [now split|]. destruct HA as [HA _]. symmetry. apply (shA_wrap K n _ u); [lia|exact HA]. }
  assert (HW : forall l, (l < Q)%nat -> A (y l j) (w l j) /\ eqm k (w l j) (q l j)).
  { intros l L. destruct (X l L) as [_ Y]. inv Y u HA E Wu. unfold w. replace (wrap K (total n (av (y l j)))) with u; [now split|]. destruct HA as [HA _]. symmetry. apply (shA_wrap K n _ u); [lia|exact HA]. }
  pose proof (matmul_gen K n KS gk ltac:(lia) Hn EK Q x y (fst (fst t)) (snd (fst t)) (snd t) v w va vb e f i j) as G.
  apply (holds_wrap _ _ _ (G (fun l L => conj (proj1 (HV l L)) (conj (proj1 (HW l L)) (HT l L))) HC)).
  rewrite (down _ _ (eqm_mmul K Q _ _ i j ltac:(lia))). apply dot_eqm. intros l L. split; rewrite (down _ _ (eqm_radd K _ _)); (apply eqm_add; [|reflexivity]); [now apply HV|now apply HW].
Qed.
Lemma trunc_H d N x p R RB M MB cn coins : 0 <= d < k ->
  (forall j, (j < N)%nat -> H (x j) (p j) /\ words K n (R j) /\ words K n (RB j) /\ words K n (M j) /\ words K n (MB j) /\ (exists r, A (cn j) r) /\
     - 2 ^ (k - 1) <= sgn k (p j) - sgn k (total n (R j) mod 2 ^ k) < 2 ^ (k - 1)) ->
  exists z, trunc_s K k s n KS d N x (fun j => auth_trunc K k n gk d (R j) (RB j) (M j) (MB j)) cn coins (fun _ => 0) 0 = Ok z /\
    forall j, (j < N)%nat -> exists y, H (z j) y /\ truncated k d (p j) y (-1) 0.
Proof.
  intros D X. pose proof (val_ok N x p (fun j J => proj1 (X j J))) as V.
  assert (VC := val_A N cn (fun j J => proj1 (proj2 (proj2 (proj2 (proj2 (proj2 (X j J)))))))).
  set (tr := fun j => auth_trunc K k n gk d (R j) (RB j) (M j) (MB j)). set (r := fun j => total n (R j) mod 2 ^ k).
  assert (T : forall j, (j < N)%nat -> word k (r j) /\ A (fst (tr j)) (r j) /\ A (snd (tr j)) (wrap k (sgn k (r j) / 2 ^ d))).
  { intros j J. destruct (X j J) as (_ & WR & WRB & WM & WMB & _).
    destruct (trunc_pair_ok K k s n gk ltac:(lia) Hn Hk Hs HK d (R j) (RB j) (M j) (MB j) D) as (r0 & Wr & HR & HB); [intros i I; repeat split; (apply WR || apply WRB || apply WM || apply WMB); exact I|].
    fold (tr j) in HR, HB. assert (ER : r0 = r j).
    { destruct HR as [HR _]. pose proof (shA_eqm K n _ _ ltac:(lia) HR) as E.
      assert (AD : shA K n (adjust K n (R j) (low k (allreduce0 (radd K) n (R j)))) (low k (allreduce0 (radd K) n (R j)))) by (apply adjust_ok; [lia|exact Hn|exact WR|apply (low_word K k n); lia]).
      rewrite <- (shA_wrap K n _ r0 ltac:(lia) HR). unfold tr, auth_trunc. cbn [fst av]. rewrite (shA_wrap K n _ _ ltac:(lia) AD). rewrite allreduce0_add by lia. unfold r. apply (low_wrap K k s n Hn Hk Hs HK). }
    subst r0. auto. }
  destruct (trunc_gen K k s n KS gk ltac:(lia) Hn EK Hk Hs HK d N x tr cn (val x) r (val cn) coins (fun _ => 0) 0 D) as [[_ NP]|[z [E [_ F]]]].
  - intros j J. destruct (T j J) as (?&?&?). split; [now apply V|]. split; [auto|]. split; [auto|]. split; [auto|now apply VC].
  - exfalso. apply NP. now apply honest_passes.
  - exists z. split; [exact E|]. intros j J. destruct (F j J) as (y & HA & EY). rewrite Z.add_0_r in EY. destruct (V j J) as (_ & EV & W). destruct (T j J) as (Wr & _).
    assert (EP : p j = wrap k (val x j)) by (rewrite <- (wrap_small k (p j) W); symmetry; exact EV).
    exists (wrap k y). split; [exists y; split; [exact HA|apply is_mod_wrap; lia]|]. rewrite EP. apply (trunc_floor k n Hn Hk d (val x j) (r j) y); auto. rewrite <- EP. now apply X.
Qed.
(* a value that never got a MAC *)
Lemma fresh_passes N x cn v r coins resp : (forall j, (j < N)%nat -> shA K n (av (x j)) (v j) /\ (forall i, (i < n)%nat -> am (x j) i = 0) /\ A (cn j) (r j)) ->
  returns (a2p_s K k s n KS N x cn coins (fun _ => 0) resp) = true -> passed k s gk N coins v resp.
Proof.
  intros X. unfold a2p_s. destruct (mac_check _ _ _ _ _ _ _ _ _ _) eqn:E; [|discriminate]. intros _.
  apply (check_iff K k s n KS gk ltac:(lia) Hn EK N coins _ _ (fun j => rshl K k (r j)) v resp ltac:(lia) HK) in E; [exact E| |].
  - intros j J. destruct (X j J) as (SX & Z0 & HC). cbn [am masked].
    transitivity (total n (fun i => am (cn j) i * 2 ^ k)).
    + apply total_eqm. intros i I. rewrite (Z0 i I), eqm_radd, eqm_rshl. apply eqm_of_eq. ring.
    + rewrite total_mul_r, (auth_m K n gk _ _ ltac:(lia) HC), eqm_rshl. apply eqm_of_eq. ring.
  - intros j J. destruct (X j J) as (SX & Z0 & HC). unfold opening. rewrite eqm_radd, allreduce_add by (auto; first [lia|apply radd_word; lia]). rewrite eqm_wrap. cbn [av masked].
    transitivity (total n (fun i => av (x j) i + av (cn j) i * 2 ^ k)).
    + rewrite Z.add_0_r. apply total_eqm. intros i I. now rewrite eqm_radd, eqm_rshl.
    + rewrite total_add, total_mul_r, (auth_v K n gk _ _ ltac:(lia) HC), (shA_eqm K n _ _ ltac:(lia) SX), eqm_rshl. apply eqm_of_eq. ring.
Qed.
(* whoever shifts the sharing before AuthArrayRef owns the value *)
Lemma shifted_input o m R M x d cn r : (o < n)%nat -> (m < n)%nat -> word k x -> A cn r ->
  let v := fun i => radd K (av (v2a_s K n gk o R M x cn) i) (if (i =? m)%nat then d else 0) in
  exists t, is_mod k (x + d) t /\ H (mkash v (auth_array K n gk v cn)) t.
Proof.
  intros O Mm W HC v. pose proof (v2a_H o R M x cn r O W HC) as X. inv X u HA E Wx.
  apply (holds_wrap _ (wrap K (u + d))).
  - apply auth_array_ok with (r := r); auto; [lia|]. apply shA_of; [lia|intros i I; apply radd_word; lia|apply word_wrap; lia|]. rewrite eqm_wrap.
    transitivity (total n (fun i => av (v2a_s K n gk o R M x cn) i + (if (i =? m)%nat then d else 0))); [apply total_eqm; intros; apply eqm_radd|].
    rewrite total_add, total_delta by exact Mm. now rewrite (auth_v K n gk _ _ ltac:(lia) HA).
  - rewrite (down _ _ (eqm_wrap K _)), E. reflexivity.
Qed.
End H.

(* ---- witnesses ---- *)
Definition sh2 (a b : Z) : nat -> Z := fun i => if (i =? 0)%nat then a else b.
Lemma words_sh2 K a b : word K a -> word K b -> words K 2 (sh2 a b).
Proof. intros WA WB i I. unfold sh2. now destruct (i =? 0)%nat. Qed.
Lemma words_0 K n : 0 <= K -> words K n (fun _ => 0).
Proof. intros H i I. now apply word_0. Qed.
Definition coin0 (K k : Z) (n : nat) (gk : Z) : ash := auth_coin K k n gk (fun _ => 0) (fun _ => 0) 0.
Lemma coin0_ok K k n gk : 0 <= k <= K -> (0 < n)%nat -> authentic K n gk (coin0 K k n gk) 0.
Proof. intros H N. replace 0 with (0 mod 2 ^ k) by (apply Z.mod_0_l; pose proof (pow2_pos k ltac:(lia)); lia). apply coin_ok; auto; try lia; now apply words_0; lia. Qed.
Lemma fresh_bound K k s n N j0 KS x cn v r coins : 0 < k -> 0 <= s -> k + s <= K -> (0 < n)%nat -> (j0 < N)%nat -> v j0 mod 2 ^ k <> 0 ->
  (forall g, 0 <= g < 2 ^ s -> shA K n (KS g) g /\ forall j, (j < N)%nat -> shA K n (av (x j)) (v j) /\ (forall i, (i < n)%nat -> am (x j) i = 0) /\ authentic K n g (cn g j) (r g j)) ->
  4 * pairs s (fun c g => returns (a2p_s K k s n (KS g) N x (cn g) (coin_at j0 c coins) (fun _ => 0) 0)) <= (s + 5) * 2 ^ s.
Proof.
  intros Hk Hs HK Hn J V H. apply (detect k s N j0 coins v (fun _ => 0)); auto. intros c g Gg T. destruct (H g Gg) as [HKS HX].
  exact (fresh_passes K k s n (KS g) g Hk Hs HK Hn HKS N x (cn g) v (r g) (coin_at j0 c coins) 0 HX T).
Qed.
