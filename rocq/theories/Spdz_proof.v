From Verif Require Import Base Ring_spec Share_spec Ring_model Party Semi_model Semi_proof Trunc_proof Spdz_model Spdz_spec.
Open Scope Z_scope.

Lemma auth_of K n gk x v : 0 <= K -> (forall i, (i < n)%nat -> word K (av x i)) -> (forall i, (i < n)%nat -> word K (am x i)) -> word K v ->
  eqm K (total n (av x)) v -> eqm K (total n (am x)) (v * gk) -> authentic K n gk x v.
Proof.
  intros H WA WM Wv EA EM. split; [now apply shA_of|]. exists (wrap K (v * gk)). split.
  - split; [now apply word_wrap|]. apply eqm_exists; [lia|apply eqm_wrap].
  - apply shA_of; auto; [now apply word_wrap|]. now rewrite eqm_wrap.
Qed.
Lemma auth_v K n gk x v : 0 <= K -> authentic K n gk x v -> eqm K (total n (av x)) v.
Proof. intros H [A _]. now apply shA_eqm. Qed.
Lemma auth_m K n gk x v : 0 <= K -> authentic K n gk x v -> eqm K (total n (am x)) (v * gk).
Proof.
  intros H [_ [m [[_ [q E]] S]]]. rewrite (shA_eqm _ _ _ _ H S). rewrite E. apply eqm_mult.
Qed.
Lemma auth_wv K n gk x v i : authentic K n gk x v -> (i < n)%nat -> word K (av x i).
Proof. intros [[A _] _]. apply A. Qed.
Lemma auth_wm K n gk x v i : authentic K n gk x v -> (i < n)%nat -> word K (am x i).
Proof. intros [_ [m [_ [A _]]]]. apply A. Qed.
Lemma auth_w K n gk x v : authentic K n gk x v -> word K v.
Proof. intros [A _]. exact (shA_word _ _ _ _ A). Qed.

Ltac wd := first [apply radd_word; lia|apply rsub_word; lia|apply rmul_word; lia|apply rneg_word; lia|apply rshl_word; lia|apply mmul_word; lia|apply word_wrap; lia|apply rsar_word; lia].
Ltac ring_eqm := repeat first [setoid_rewrite eqm_radd|setoid_rewrite eqm_rsub|setoid_rewrite eqm_rmul].

Lemma total_if n o X Y : (o < n)%nat -> total n (fun i => if (i =? o)%nat then X i + Y else X i) = total n X + Y.
Proof.
  intros N. transitivity (total n (fun i => X i + (if (i =? o)%nat then Y else 0))).
  - apply total_ext. intros i _. destruct (_ =? _)%nat; lia.
  - now rewrite total_add, total_delta.
Qed.
Lemma total_if0 n X Y : (0 < n)%nat -> total n (fun i => if (i =? 0)%nat then X i + Y else X i) = total n X + Y.
Proof. apply total_if. Qed.

Lemma dot_add_r N a b b' : dot N a (fun l => b l + b' l) = dot N a b + dot N a b'.
Proof. induction N; cbn [dot]; [lia|]. rewrite IHN. ring. Qed.
Lemma eqm_le K k a b : 0 <= k <= K -> eqm K a b -> eqm k a b.
Proof. intros H E. unfold eqm in *. rewrite <- (wrap_le K k a H), <- (wrap_le K k b H). congruence. Qed.

Section P.
Variables K k s : Z.
Variable n : nat.
Variable KS : nat -> Z.
Variable gk : Z.
Hypothesis HK : 0 <= K.
Hypothesis Hn : (0 < n)%nat.
Notation A := (authentic K n gk).

(* ---- dealer ---- *)
Lemma adjust_ok R v : (forall i, (i < n)%nat -> word K (R i)) -> word K v -> shA K n (adjust K n R v) v.
Proof. clear KS.
  intros WR Wv. apply shA_of; auto.
  - intros i I. unfold adjust. destruct (Nat.eqb_spec i 0); [wd|auto].
  - transitivity (total n (fun i => if (i =? 0)%nat then R i + (v - total n R) else R i)).
    + apply total_eqm. intros i I. unfold adjust. destruct (Nat.eqb_spec i 0) as [->|]; [|reflexivity].
      rewrite eqm_radd, eqm_rsub, allreduce0_add by lia. rewrite eqm_wrap. reflexivity.
    + rewrite total_if0 by exact Hn. apply eqm_of_eq. lia.
Qed.
Lemma adjust_auth R M v : (forall i, (i < n)%nat -> word K (R i)) -> (forall i, (i < n)%nat -> word K (M i)) -> word K v ->
  A (mkash (adjust K n R v) (adjust K n M (rmul K v gk))) v.
Proof. clear KS.
  intros WR WM Wv. assert (Wm : word K (rmul K v gk)) by wd.
  pose proof (adjust_ok R v WR Wv) as HA. pose proof (adjust_ok M _ WM Wm) as HM.
  apply auth_of; cbn [av am]; auto; [apply HA|apply HM|exact (shA_eqm _ _ _ _ HK HA)|].
  rewrite (shA_eqm _ _ _ _ HK HM). apply eqm_rmul.
Qed.
Lemma raw_auth R M v : (forall i, (i < n)%nat -> word K (R i)) -> (forall i, (i < n)%nat -> word K (M i)) -> v = wrap K (total n R) ->
  A (mkash R (adjust K n M (rmul K v gk))) v.
Proof. clear KS.
  intros WR WM ->. assert (Wm : word K (rmul K (wrap K (total n R)) gk)) by wd. pose proof (adjust_ok M _ WM Wm) as HM.
  apply auth_of; cbn [av am]; auto; [apply HM|wd|now rewrite eqm_wrap|]. rewrite (shA_eqm _ _ _ _ HK HM). apply eqm_rmul.
Qed.
Lemma low_word x : 0 <= k <= K -> word K (low k x).
Proof. clear KS. intros H. unfold low. apply (word_mono k K); [lia|]. exact (word_wrap k x ltac:(lia)). Qed.
Lemma coin_ok R M w : 0 <= k <= K -> (forall i, (i < n)%nat -> word K (R i)) -> (forall i, (i < n)%nat -> word K (M i)) ->
  A (auth_coin K k n gk R M w) (w mod 2 ^ k).
Proof. clear KS. intros H WR WM. unfold auth_coin. apply adjust_auth; auto. now apply low_word. Qed.
Lemma bit_ok R M w : 1 <= K -> (forall i, (i < n)%nat -> word K (R i)) -> (forall i, (i < n)%nat -> word K (M i)) ->
  A (auth_bit K n gk R M w) (w mod 2).
Proof. clear KS. intros H WR WM. unfold auth_bit. change (2 ^ 1) with 2. apply adjust_auth; auto. apply (word_mono 1 K); [lia|]. exact (word_wrap 1 w ltac:(lia)). Qed.
Lemma mul_triple_ok P Q C MP MQ MC : (forall i, (i < n)%nat -> word K (P i) /\ word K (Q i) /\ word K (C i) /\ word K (MP i) /\ word K (MQ i) /\ word K (MC i)) ->
  let t := auth_mul K n gk P Q C MP MQ MC in
  exists a b c, A (fst (fst t)) a /\ A (snd (fst t)) b /\ A (snd t) c /\ is_mod K (a * b) c.
Proof. clear KS.
  intros W t. exists (wrap K (total n P)), (wrap K (total n Q)), (rmul K (wrap K (total n P)) (wrap K (total n Q))).
  unfold t, auth_mul. rewrite !allreduce0_add by lia. cbn [fst snd].
  split; [apply raw_auth; auto; intros i I; now destruct (W i I) as (?&?&?&?&?&?)|].
  split; [apply raw_auth; auto; intros i I; now destruct (W i I) as (?&?&?&?&?&?)|].
  split; [apply adjust_auth; [intros i I; now destruct (W i I) as (?&?&?&?&?&?)|intros i I; now destruct (W i I) as (?&?&?&?&?&?)|wd]|].
  split; [wd|]. apply eqm_exists; [lia|]. apply eqm_rmul.
Qed.

(* ---- AuthArrayRef ---- *)
Lemma auth_array_ok X cn v r : A cn r -> shA K n X v -> A (mkash X (auth_array K n gk X cn)) v.
Proof. clear KS.
  intros HC HX. assert (Wv := shA_word _ _ _ _ HX). apply auth_of; cbn [av am]; auto; [apply HX| |exact (shA_eqm _ _ _ _ HK HX)|].
  - intros i I. unfold auth_array. destruct (_ =? _)%nat; [wd|exact (auth_wm _ _ _ _ _ i HC I)].
  - assert (E : eqm K (allreduce (radd K) n (fun i => rsub K (X i) (av cn i)) 0) (v - r)).
    { rewrite allreduce_add by (auto; wd). rewrite eqm_wrap. rewrite <- (shA_eqm _ _ _ _ HK HX), <- (auth_v _ _ _ _ _ HK HC), <- total_sub.
      apply total_eqm. intros. apply eqm_rsub. }
    unfold auth_array. transitivity (total n (fun i => if (i =? 0)%nat then am cn i + (v - r) * gk else am cn i)).
    + apply total_eqm. intros i I. destruct (_ =? _)%nat; [|reflexivity]. now rewrite eqm_radd, eqm_rmul, E.
    + rewrite total_if0 by exact Hn. rewrite (auth_m _ _ _ _ _ HK HC). apply eqm_of_eq. ring.
Qed.
Lemma get_mac_ok (hm : bool) x cn v r : A cn r -> shA K n (av x) v -> (hm = true -> A x v) -> A (get_mac K n gk hm x cn) v.
Proof. clear KS. intros HC HX HM. unfold get_mac. destruct hm; [now apply HM|]. now apply (auth_array_ok _ _ _ r). Qed.

(* ---- linear kernels ---- *)
Lemma zero_v R : eqm K (total n (fun i => rsub K (R i) (R (nextrank n i)))) 0.
Proof. clear KS.
  transitivity (total n (fun i => R i - R (nextp n i))); [apply total_eqm; intros; apply eqm_rsub|].
  rewrite total_sub, total_next by exact Hn. apply eqm_of_eq. lia.
Qed.
Hypothesis HKS : eqm K (total n KS) gk.
Lemma p2a_ok R M x : word K x -> A (p2a K n KS R M x) x.
Proof.
  intros W. assert (CU : cast_up K x = x) by (unfold cast_up; now apply wrap_small).
  apply auth_of; cbn [av am p2a zero_a]; auto; rewrite ?CU.
  - intros i I. destruct (_ =? _)%nat; wd.
  - intros i I. wd.
  - transitivity (total n (fun i => if (i =? 0)%nat then rsub K (R i) (R (nextrank n i)) + x else rsub K (R i) (R (nextrank n i)))).
    + apply total_eqm. intros i I. destruct (_ =? _)%nat; [apply eqm_radd|reflexivity].
    + rewrite total_if0 by exact Hn. rewrite zero_v. apply eqm_of_eq. lia.
  - transitivity (total n (fun i => rsub K (M i) (M (nextrank n i)) + x * KS i)).
    + apply total_eqm. intros i I. now rewrite eqm_radd, eqm_rmul.
    + rewrite total_add, total_mul_l, zero_v, HKS. apply eqm_of_eq. lia.
Qed.
Lemma owner_v R x o : (o < n)%nat -> word K x ->
  shA K n (fun i => if (i =? o)%nat then radd K (rsub K (R i) (R (nextrank n i))) x else rsub K (R i) (R (nextrank n i))) x.
Proof.
  intros O W. apply shA_of; auto; [intros i I; destruct (_ =? _)%nat; wd|].
  transitivity (total n (fun i => if (i =? o)%nat then rsub K (R i) (R (nextrank n i)) + x else rsub K (R i) (R (nextrank n i)))).
  - apply total_eqm. intros i I. destruct (_ =? _)%nat; [apply eqm_radd|reflexivity].
  - rewrite total_if by exact O. rewrite zero_v. apply eqm_of_eq. lia.
Qed.
(* a sharing authenticated by AuthArrayRef, plus a MAC share of zero *)
Lemma private_ok V M cn x r : A cn r -> shA K n V x ->
  A (mkash V (fun i => radd K (rsub K (M i) (M (nextrank n i))) (auth_array K n gk V cn i))) x.
Proof.
  intros HC HV. pose proof (auth_array_ok _ _ _ r HC HV) as HA. assert (W := shA_word _ _ _ _ HV).
  apply auth_of; cbn [av am]; auto; [apply HV|intros; wd|exact (shA_eqm _ _ _ _ HK HV)|].
  transitivity (total n (fun i => rsub K (M i) (M (nextrank n i)) + auth_array K n gk V cn i)); [apply total_eqm; intros; apply eqm_radd|].
  rewrite total_add, zero_v. pose proof (auth_m _ _ _ _ _ HK HA) as E. cbn [am] in E. now rewrite E.
Qed.
Lemma v2a_ok o R M x cn r : (o < n)%nat -> word K x -> A cn r -> A (v2a_s K n gk o R M x cn) x.
Proof.
  intros O W HC. unfold v2a_s, zero_a, cast_up. cbn [av am]. rewrite (wrap_small K x W). apply (private_ok _ _ _ _ r); auto. now apply owner_v.
Qed.
Ltac lin := intros; cbn [av am]; wd.
Lemma neg_ok x v : A x v -> A (neg_a K x) (rneg K v).
Proof.
  intros H. apply auth_of; [exact HK|lin|lin|wd| |]; cbn [av am neg_a].
  - rewrite eqm_rneg, <- (auth_v _ _ _ _ _ HK H), <- total_opp. apply total_eqm. intros. apply eqm_rneg.
  - transitivity (total n (fun i => - am x i)); [apply total_eqm; intros; apply eqm_rneg|]. rewrite total_opp, (auth_m _ _ _ _ _ HK H), eqm_rneg. apply eqm_of_eq. ring.
Qed.
Lemma add_ok x y v w : A x v -> A y w -> A (add_aa_s K x y) (radd K v w).
Proof.
  intros H G. apply auth_of; [exact HK|lin|lin|wd| |]; cbn [av am add_aa_s].
  - rewrite eqm_radd, <- (auth_v _ _ _ _ _ HK H), <- (auth_v _ _ _ _ _ HK G), <- total_add. apply total_eqm. intros. apply eqm_radd.
  - transitivity (total n (fun i => am x i + am y i)); [apply total_eqm; intros; apply eqm_radd|].
    rewrite total_add, (auth_m _ _ _ _ _ HK H), (auth_m _ _ _ _ _ HK G), eqm_radd. apply eqm_of_eq. ring.
Qed.
Lemma sub_ok x y v w : A x v -> A y w -> A (sub_s K x y) (rsub K v w).
Proof.
  intros H G. apply auth_of; [exact HK|lin|lin|wd| |]; cbn [av am sub_s].
  - rewrite eqm_rsub, <- (auth_v _ _ _ _ _ HK H), <- (auth_v _ _ _ _ _ HK G), <- total_sub. apply total_eqm. intros. apply eqm_rsub.
  - transitivity (total n (fun i => am x i - am y i)); [apply total_eqm; intros; apply eqm_rsub|].
    rewrite total_sub, (auth_m _ _ _ _ _ HK H), (auth_m _ _ _ _ _ HK G), eqm_rsub. apply eqm_of_eq. ring.
Qed.
(* adding the public word q *)
Lemma add_pub x v q : A x v ->
  A (mkash (fun i => if (i =? 0)%nat then radd K (av x i) q else av x i) (fun i => radd K (am x i) (rmul K q (KS i)))) (radd K v q).
Proof.
  intros H. apply auth_of; cbn [av am]; [exact HK| |lin|wd| |].
  - intros i I. destruct (_ =? _)%nat; [wd|exact (auth_wv _ _ _ _ _ i H I)].
  - transitivity (total n (fun i => if (i =? 0)%nat then av x i + q else av x i)).
    + apply total_eqm. intros i I. destruct (_ =? _)%nat; [apply eqm_radd|reflexivity].
    + rewrite total_if0 by exact Hn. now rewrite (auth_v _ _ _ _ _ HK H), eqm_radd.
  - transitivity (total n (fun i => am x i + q * KS i)); [apply total_eqm; intros; now rewrite eqm_radd, eqm_rmul|].
    rewrite total_add, total_mul_l, (auth_m _ _ _ _ _ HK H), HKS, eqm_radd. apply eqm_of_eq. ring.
Qed.
Lemma add_ap_ok x v p : A x v -> A (add_ap_s K KS x p) (radd K v (cast_up K p)).
Proof. intros H. now apply add_pub. Qed.
Lemma mul_ap_ok x v p : A x v -> A (mul_ap_s K x p) (rmul K v (cast_up K p)).
Proof.
  intros H. apply auth_of; [exact HK|lin|lin|wd| |]; cbn [av am mul_ap_s].
  - rewrite eqm_rmul, <- (auth_v _ _ _ _ _ HK H), <- total_mul_r. apply total_eqm. intros. apply eqm_rmul.
  - transitivity (total n (fun i => am x i * cast_up K p)); [apply total_eqm; intros; apply eqm_rmul|].
    rewrite total_mul_r, (auth_m _ _ _ _ _ HK H), eqm_rmul. apply eqm_of_eq. ring.
Qed.
Lemma lshift_ok x v b : A x v -> A (lshift_s K b x) (rshl K b v).
Proof.
  intros H. apply auth_of; [exact HK|lin|lin|wd| |]; cbn [av am lshift_s].
  - rewrite eqm_rshl, <- (auth_v _ _ _ _ _ HK H), <- total_mul_r. apply total_eqm. intros. apply eqm_rshl.
  - transitivity (total n (fun i => am x i * 2 ^ b)); [apply total_eqm; intros; apply eqm_rshl|].
    rewrite total_mul_r, (auth_m _ _ _ _ _ HK H), eqm_rshl. apply eqm_of_eq. ring.
Qed.
Lemma dot_scale N a b c : dot N a (fun l => b l * c) = dot N a b * c.
Proof. induction N; cbn [dot]; [lia|]. rewrite IHN. ring. Qed.
Lemma dot_scale_l N a b c : dot N (fun l => a l * c) b = dot N a b * c.
Proof. induction N; cbn [dot]; [lia|]. rewrite IHN. ring. Qed.
Lemma matmul_ap_ok Q x v P i j : (forall l, (l < Q)%nat -> A (x i l) (v i l)) ->
  A (matmul_ap_s K Q x P i j) (ring_mmul K Q v (fun a b => cast_up K (P a b)) i j).
Proof.
  intros H. apply auth_of; [exact HK|lin|lin|wd| |]; cbn [av am matmul_ap_s].
  - transitivity (total n (fun p => dot Q (fun b => av (x i b) p) (fun l => cast_up K (P l j)))); [apply total_eqm; intros; now rewrite eqm_mmul|].
    rewrite (total_dot n Q (fun p l => av (x i l) p)). rewrite eqm_mmul by lia. apply dot_eqm. intros l L. split; [|reflexivity]. apply (auth_v _ _ _ _ _ HK (H l L)).
  - transitivity (total n (fun p => dot Q (fun b => am (x i b) p) (fun l => cast_up K (P l j)))); [apply total_eqm; intros; now rewrite eqm_mmul|].
    rewrite (total_dot n Q (fun p l => am (x i l) p)). rewrite eqm_mmul by lia. rewrite <- dot_scale_l. apply dot_eqm. intros l L. split; [|reflexivity]. apply (auth_m _ _ _ _ _ HK (H l L)).
Qed.
Lemma masked_ok x cn v r : A x v -> A cn r -> A (masked K k x cn) (radd K v (rshl K k r)).
Proof. intros H G. apply (add_ok x (lshift_s K k cn)); auto. now apply lshift_ok. Qed.

(* ---- opening and checking ---- *)
Lemma opening_ok x v e : A x v -> opening K n (av x) e = wrap K (v + e).
Proof.
  intros H. unfold opening. rewrite allreduce_add by (auto; apply (auth_wv _ _ _ _ _ _ H Hn)). unfold radd.
  change (eqm K (wrap K (total n (av x)) + e) (v + e)). now rewrite eqm_wrap, (auth_v _ _ _ _ _ HK H).
Qed.
Lemma check_iff N coins t mac w e resp : 0 < k + s -> k + s <= K -> (forall j, (j < N)%nat -> eqm K (total n (mac j)) (w j * gk)) -> (forall j, (j < N)%nat -> eqm K (t j) (w j + e j)) ->
  mac_check K k s n KS N coins t mac resp = true <-> eqm (k + s) (dot N (fun j => coins j mod 2 ^ s) e * gk) resp.
Proof.
  intros P1 P2 HM HT. unfold mac_check. set (c := fun j => coins j mod 2 ^ s).
  rewrite allreduce0_add by lia.
  assert (E : eqm K (wrap K (total n (fun i => rsub K (ring_mmul K N (fun _ l => c l) (fun l _ => mac l i) 0 0) (rmul K (ring_mmul K N (fun _ l => c l) (fun l _ => t l) 0 0) (KS i)))))
     (- (dot N c e * gk))).
  { rewrite eqm_wrap. transitivity (total n (fun i => dot N c (fun l => mac l i) - dot N c t * KS i)).
    - apply total_eqm. intros i I. rewrite eqm_rsub, eqm_rmul, !eqm_mmul by lia. reflexivity.
    - rewrite total_sub, total_mul_l, (total_dot_r n N c (fun i l => mac l i)). rewrite HKS.
      assert (E1 : eqm K (dot N c (fun l => total n (fun i => mac l i))) (dot N c (fun l => w l * gk))) by (apply dot_eqm; intros l L; split; [reflexivity|exact (HM l L)]).
      assert (E2 : eqm K (dot N c t) (dot N c (fun l => w l + e l))) by (apply dot_eqm; intros l L; split; [reflexivity|exact (HT l L)]).
      rewrite E1, E2, dot_scale, dot_add_r. apply eqm_of_eq. ring. }
  replace (k + s =? 0) with false by lia. set (T := wrap K (total n _)) in *.
  assert (E' : eqm (k + s) (radd K T resp) (resp - dot N c e * gk)).
  { apply (eqm_le K); [lia|]. rewrite eqm_radd, E. apply eqm_of_eq. ring. }
  rewrite Z.eqb_eq. change (radd K T resp mod 2 ^ (k + s)) with (wrap (k + s) (radd K T resp)). rewrite E'.
  change (eqm (k + s) (dot N c e * gk) resp) with (wrap (k + s) (dot N c e * gk) = wrap (k + s) resp).
  split; intros Q.
  - change (eqm (k + s) (dot N c e * gk) resp).
    assert (eqm (k + s) (resp - dot N c e * gk) 0) by (change (wrap (k + s) (resp - dot N c e * gk) = wrap (k + s) 0); now rewrite Q, wrap_0 by lia).
    transitivity (resp - (resp - dot N c e * gk)); [apply eqm_of_eq; ring|]. rewrite H. apply eqm_of_eq. ring.
  - change (eqm (k + s) (dot N c e * gk) resp) in Q. rewrite <- (wrap_0 (k + s)) by lia. change (eqm (k + s) (resp - dot N c e * gk) 0). rewrite Q. apply eqm_of_eq. ring.
Qed.

(* opening and checking authenticated sharings, with whatever was added by the deviating parties *)
Lemma check_opened N coins (m : nat -> ash) w e resp : 0 < k + s -> k + s <= K -> (forall j, (j < N)%nat -> A (m j) (w j)) ->
  mac_check K k s n KS N coins (fun j => opening K n (av (m j)) (e j)) (fun j => am (m j)) resp = true <->
  eqm (k + s) (dot N (fun j => coins j mod 2 ^ s) e * gk) resp.
Proof.
  intros P1 P2 H. apply (check_iff N coins _ _ w e resp); auto; intros j J.
  - exact (auth_m _ _ _ _ _ HK (H j J)).
  - rewrite (opening_ok _ _ (e j) (H j J)). apply eqm_wrap.
Qed.
Hypothesis Hk : 0 < k.
Hypothesis Hs : 0 <= s.
Hypothesis HKk : k + s <= K.
Lemma low_wrap x : low k (wrap K x) = wrap k x.
Proof. unfold low. change (wrap k (wrap K x) = wrap k x). apply wrap_le. lia. Qed.
Lemma wrapk_add a b : wrap k (a + rshl K k b) = wrap k a.
Proof.
  change (eqm k (a + rshl K k b) a). transitivity (a + b * 2 ^ k); [|apply eqm_mult].
  apply eqm_add; [reflexivity|]. apply (eqm_le K k); [lia|]. apply eqm_rshl.
Qed.
Definition passed N coins e resp := eqm (k + s) (dot N (fun j => coins j mod 2 ^ s) e * gk) resp.
Lemma a2p_gen N x cn v r coins e resp : (forall j, (j < N)%nat -> A (x j) (v j) /\ A (cn j) (r j)) ->
  (a2p_s K k s n KS N x cn coins e resp = Err /\ ~ passed N coins e resp) \/
  (exists f, a2p_s K k s n KS N x cn coins e resp = Ok f /\ passed N coins e resp /\ forall j, (j < N)%nat -> f j = wrap k (v j + e j)).
Proof.
  intros H. unfold a2p_s.
  assert (HM : forall j, (j < N)%nat -> A (masked K k (x j) (cn j)) (radd K (v j) (rshl K k (r j)))) by (intros j J; destruct (H j J); now apply masked_ok).
  pose proof (check_opened N coins _ _ e resp ltac:(lia) HKk HM) as C. cbv beta in C.
  destruct (mac_check _ _ _ _ _ _ _ _ _ _) eqn:E.
  - right. eexists. split; [reflexivity|]. split; [now apply C|]. intros j J. rewrite (opening_ok _ _ _ (HM j J)). rewrite low_wrap. unfold cast_down.
    rewrite wrap_wrap. change (eqm k (radd K (v j) (rshl K k (r j)) + e j) (v j + e j)). apply eqm_add; [|reflexivity].
    transitivity (v j + rshl K k (r j)); [apply (eqm_le K k); [lia|]; apply eqm_radd|]. apply wrapk_add.
  - left. split; [reflexivity|]. intros P. apply C in P. discriminate.
Qed.
Lemma a2v_gen rank N x cn cn' v r r' R M rr coins e resp : (rank < n)%nat -> (forall j, (j < N)%nat -> A (x j) (v j) /\ A (cn j) (r j) /\ A (cn' j) (r' j) /\ word K (rr j)) ->
  (a2v_s K k s n KS gk rank N x cn cn' R M rr coins e resp = Err /\ ~ passed N coins e resp) \/
  (exists f, a2v_s K k s n KS gk rank N x cn cn' R M rr coins e resp = Ok f /\ passed N coins e resp /\ forall j, (j < N)%nat -> f j = wrap k (v j + e j)).
Proof.
  intros RK H. unfold a2v_s. set (z := fun j => a2v_mask K n gk rank (R j) (M j) (rr j) (cn' j)).
  assert (HZ : forall j, (j < N)%nat -> A (z j) (rr j)).
  { intros j J. destruct (H j J) as (_ & _ & HC & W). unfold z, a2v_mask, zero_a. cbn [av am]. apply (private_ok _ _ _ _ (r' j)); auto. now apply owner_v. }
  assert (HM : forall j, (j < N)%nat -> A (masked K k (add_aa_s K (x j) (z j)) (cn j)) (radd K (radd K (v j) (rr j)) (rshl K k (r j)))).
  { intros j J. destruct (H j J) as (HX & HC & _). apply masked_ok; auto. apply add_ok; auto. }
  pose proof (check_opened N coins _ _ e resp ltac:(lia) HKk HM) as C. cbv beta in C.
  destruct (mac_check _ _ _ _ _ _ _ _ _ _) eqn:E.
  - right. eexists. split; [reflexivity|]. split; [now apply C|]. intros j J. rewrite (opening_ok _ _ _ (HM j J)). unfold rsub. rewrite low_wrap. unfold cast_down.
    rewrite wrap_wrap. change (eqm k (wrap K (radd K (radd K (v j) (rr j)) (rshl K k (r j)) + e j) - rr j) (v j + e j)).
    transitivity ((v j + e j) + rshl K k (r j)); [|apply wrapk_add]. apply (eqm_le K k); [lia|]. rewrite eqm_wrap, !eqm_radd. apply eqm_of_eq. ring.
  - left. split; [reflexivity|]. intros P. apply C in P. discriminate.
Qed.

(* ---- multiplication ---- *)
Lemma beaver_ok a b c x y va vb vc pe pf : A a va -> A b vb -> A c vc -> eqm K vc (va * vb) -> eqm K pe (x - va) -> eqm K pf (y - vb) ->
  A (beaver_s K KS a b c pe pf) (rmul K x y).
Proof.
  intros HA HB HC EC EE EF. apply auth_of; [exact HK| |lin|wd| |]; cbn [av am beaver_s].
  - intros i I. destruct (_ =? _)%nat; wd.
  - transitivity (total n (fun i => if (i =? 0)%nat then (pe * av b i + pf * av a i + av c i) + pe * pf else pe * av b i + pf * av a i + av c i)).
    + apply total_eqm. intros i I. destruct (_ =? _)%nat; rewrite !eqm_radd, !eqm_rmul; reflexivity.
    + rewrite total_if0, !total_add, !total_mul_l by exact Hn.
      rewrite (auth_v _ _ _ _ _ HK HA), (auth_v _ _ _ _ _ HK HB), (auth_v _ _ _ _ _ HK HC), EC, EE, EF, eqm_rmul. apply eqm_of_eq. ring.
  - transitivity (total n (fun i => pe * am b i + pf * am a i + am c i + (pe * pf) * KS i)).
    + apply total_eqm. intros i I. rewrite !eqm_radd, !eqm_rmul. reflexivity.
    + rewrite !total_add, !total_mul_l.
      rewrite (auth_m _ _ _ _ _ HK HA), (auth_m _ _ _ _ _ HK HB), (auth_m _ _ _ _ _ HK HC), EC, EE, EF, eqm_rmul, HKS. apply eqm_of_eq. ring.
Qed.
Lemma is_mod_eqm v w : is_mod K v w -> eqm K w v.
Proof. intros [_ [q ->]]. apply eqm_mult. Qed.
Lemma mul_gen N x y tr v w va vb vc coins1 coins2 e f resp1 resp2 :
  (forall j, (j < N)%nat -> A (x j) (v j) /\ A (y j) (w j) /\ A (fst (fst (tr j))) (va j) /\ A (snd (fst (tr j))) (vb j) /\ A (snd (tr j)) (vc j) /\ is_mod K (va j * vb j) (vc j)) ->
  (mul_aa_s K k s n KS N x y tr coins1 coins2 e f resp1 resp2 = Err /\ ~ (passed N coins1 e resp1 /\ passed N coins2 f resp2)) \/
  (exists z, mul_aa_s K k s n KS N x y tr coins1 coins2 e f resp1 resp2 = Ok z /\ (passed N coins1 e resp1 /\ passed N coins2 f resp2) /\
     forall j, (j < N)%nat -> A (z j) (rmul K (v j + e j) (w j + f j))).
Proof.
  intros H. unfold mul_aa_s.
  assert (HE : forall j, (j < N)%nat -> A (sub_s K (x j) (fst (fst (tr j)))) (rsub K (v j) (va j))) by (intros j J; destruct (H j J) as (?&?&?&?&?&?); now apply sub_ok).
  assert (HF : forall j, (j < N)%nat -> A (sub_s K (y j) (snd (fst (tr j)))) (rsub K (w j) (vb j))) by (intros j J; destruct (H j J) as (?&?&?&?&?&?); now apply sub_ok).
  pose proof (check_opened N coins1 _ _ e resp1 ltac:(lia) HKk HE) as C1. pose proof (check_opened N coins2 _ _ f resp2 ltac:(lia) HKk HF) as C2. cbv beta in C1, C2.
  destruct (mac_check K k s n KS N coins1 _ _ _) eqn:E1; [destruct (mac_check K k s n KS N coins2 _ _ _) eqn:E2|].
  - right. eexists. split; [reflexivity|]. split; [split; [now apply C1|now apply C2]|]. intros j J. destruct (H j J) as (?&?&?&?&?&?).
    apply (beaver_ok _ _ _ _ _ (va j) (vb j) (vc j)); auto; [now apply is_mod_eqm| |].
    + rewrite (opening_ok _ _ _ (HE j J)), eqm_wrap, eqm_rsub. apply eqm_of_eq. ring.
    + rewrite (opening_ok _ _ _ (HF j J)), eqm_wrap, eqm_rsub. apply eqm_of_eq. ring.
  - left. split; [reflexivity|]. intros [_ P]. apply C2 in P. discriminate.
  - left. split; [reflexivity|]. intros [P _]. apply C1 in P. discriminate.
Qed.
Lemma dot_triple_ok Q P B C MP MB MC i j :
  (forall p, (p < n)%nat -> word K (C p i j) /\ word K (MC p i j) /\ forall l, (l < Q)%nat -> word K (P p i l) /\ word K (B p l j) /\ word K (MP p i l) /\ word K (MB p l j)) ->
  let t := auth_dot K n gk Q P B C MP MB MC in
  exists va vb, (forall l, (l < Q)%nat -> A (fst (fst t) i l) (va i l) /\ A (snd (fst t) l j) (vb l j)) /\ A (snd t i j) (ring_mmul K Q va vb i j).
Proof.
  intros W t. exists (fun i l => allreduce0 (radd K) n (fun p => P p i l)), (fun l j => allreduce0 (radd K) n (fun p => B p l j)).
  unfold t, auth_dot. cbn [fst snd]. split.
  - intros l L. split; (apply raw_auth; [intros p I; now destruct (W p I) as (_&_&Z); destruct (Z l L) as (?&?&?&?)|intros p I; now destruct (W p I) as (_&_&Z); destruct (Z l L) as (?&?&?&?)|apply allreduce0_add; lia]).
  - apply adjust_auth; [intros p I; now destruct (W p I)|intros p I; now destruct (W p I) as (?&?&?)|wd].
Qed.
Lemma matmul_gen Q x y a b c v w va vb e f i j : (forall l, (l < Q)%nat -> A (x i l) (v i l) /\ A (y l j) (w l j) /\ A (a i l) (va i l) /\ A (b l j) (vb l j)) ->
  A (c i j) (ring_mmul K Q va vb i j) ->
  A (matmul_aa_s K n KS Q x y a b c e f i j) (ring_mmul K Q (fun i l => radd K (v i l) (e i l)) (fun l j => radd K (w l j) (f l j)) i j).
Proof.
  intros H HC. unfold matmul_aa_s.
  set (pe := fun i j => opening K n (av (sub_s K (x i j) (a i j))) (e i j)). set (pf := fun i j => opening K n (av (sub_s K (y i j) (b i j))) (f i j)).
  assert (PE : forall l, (l < Q)%nat -> eqm K (pe i l) (v i l + e i l - va i l)).
  { intros l L. destruct (H l L) as (?&?&?&?). unfold pe. rewrite (opening_ok _ (rsub K (v i l) (va i l))) by now apply sub_ok. rewrite eqm_wrap, eqm_rsub. apply eqm_of_eq. ring. }
  assert (PF : forall l, (l < Q)%nat -> eqm K (pf l j) (w l j + f l j - vb l j)).
  { intros l L. destruct (H l L) as (?&?&?&?). unfold pf. rewrite (opening_ok _ (rsub K (w l j) (vb l j))) by now apply sub_ok. rewrite eqm_wrap, eqm_rsub. apply eqm_of_eq. ring. }
  set (dA := va i). set (dB := fun l => vb l j). set (X := fun l => v i l + e i l). set (Y := fun l => w l j + f l j).
  assert (EP : eqm K (dot Q (pe i) (fun l => pf l j)) (dot Q (fun l => X l - dA l) (fun l => Y l - dB l))) by (apply dot_eqm; intros l L; split; [exact (PE l L)|exact (PF l L)]).
  assert (EC : eqm K (ring_mmul K Q va vb i j) (dot Q dA dB)) by now apply eqm_mmul.
  assert (EZ : eqm K (ring_mmul K Q (fun i l => radd K (v i l) (e i l)) (fun l j => radd K (w l j) (f l j)) i j) (dot Q X Y)).
  { rewrite eqm_mmul by lia. apply dot_eqm. intros l L. split; apply eqm_radd. }
  apply auth_of; cbn [av am]; [exact HK| |lin|wd| |].
  - intros p I. destruct (_ =? _)%nat; wd.
  - transitivity (total n (fun p => if (p =? 0)%nat then (dot Q (pe i) (fun l => av (b l j) p) + dot Q (fun l => av (a i l) p) (fun l => pf l j) + av (c i j) p) + dot Q (pe i) (fun l => pf l j)
       else dot Q (pe i) (fun l => av (b l j) p) + dot Q (fun l => av (a i l) p) (fun l => pf l j) + av (c i j) p)).
    { apply total_eqm. intros p I. destruct (_ =? _)%nat; rewrite !eqm_radd, !eqm_mmul by lia; reflexivity. }
    rewrite total_if0, !total_add by exact Hn.
    rewrite (total_dot_r n Q (pe i) (fun p l => av (b l j) p)), (total_dot n Q (fun p l => av (a i l) p)).
    assert (E1 : eqm K (dot Q (pe i) (fun l => total n (fun p => av (b l j) p))) (dot Q (fun l => X l - dA l) dB)).
    { apply dot_eqm. intros l L. destruct (H l L) as (?&?&?&HB). split; [exact (PE l L)|exact (auth_v _ _ _ _ _ HK HB)]. }
    assert (E2 : eqm K (dot Q (fun l => total n (fun p => av (a i l) p)) (fun l => pf l j)) (dot Q dA (fun l => Y l - dB l))).
    { apply dot_eqm. intros l L. destruct (H l L) as (?&?&HA&?). split; [exact (auth_v _ _ _ _ _ HK HA)|exact (PF l L)]. }
    rewrite E1, E2, EP, (auth_v _ _ _ _ _ HK HC), EC, EZ. rewrite !dot_sub_l, !dot_sub_r. apply eqm_of_eq. unfold X, Y, dA, dB. ring.
  - transitivity (total n (fun p => dot Q (pe i) (fun l => am (b l j) p) + dot Q (fun l => am (a i l) p) (fun l => pf l j) + am (c i j) p + dot Q (pe i) (fun l => pf l j) * KS p)).
    { apply total_eqm. intros p I. rewrite !eqm_radd, !eqm_rmul, !eqm_mmul by lia. reflexivity. }
    rewrite !total_add, total_mul_l.
    rewrite (total_dot_r n Q (pe i) (fun p l => am (b l j) p)), (total_dot n Q (fun p l => am (a i l) p)).
    assert (E1 : eqm K (dot Q (pe i) (fun l => total n (fun p => am (b l j) p))) (dot Q (fun l => X l - dA l) dB * gk)).
    { rewrite <- dot_scale. apply dot_eqm. intros l L. destruct (H l L) as (?&?&?&HB). split; [exact (PE l L)|exact (auth_m _ _ _ _ _ HK HB)]. }
    assert (E2 : eqm K (dot Q (fun l => total n (fun p => am (a i l) p)) (fun l => pf l j)) (dot Q dA (fun l => Y l - dB l) * gk)).
    { rewrite <- dot_scale_l. apply dot_eqm. intros l L. destruct (H l L) as (?&?&HA&?). split; [exact (auth_m _ _ _ _ _ HK HA)|exact (PF l L)]. }
    rewrite E1, E2, EP, (auth_m _ _ _ _ _ HK HC), EC, EZ, HKS. rewrite !dot_sub_l, !dot_sub_r. apply eqm_of_eq. unfold X, Y, dA, dB. ring.
Qed.

(* ---- truncation ---- *)
Lemma tr_low_ok d x : 0 <= d < k -> tr_low K k d x = wrap k (sgn k (wrap k x) / 2 ^ d).
Proof.
  intros D. unfold tr_low, rsar, rshl.
  pose proof (pow2_pos (K - k) ltac:(lia)) as P1. pose proof (pow2_pos k ltac:(lia)) as P2. pose proof (pow2_pos d ltac:(lia)) as P3.
  assert (E : wrap K (x * 2 ^ (K - k)) = wrap k x * 2 ^ (K - k)).
  { unfold wrap. replace (2 ^ K) with (2 ^ k * 2 ^ (K - k)) by (rewrite <- Z.pow_add_r by lia; f_equal; lia). apply Z.mul_mod_distr_r; lia. }
  rewrite E. assert (SG : sgn K (wrap k x * 2 ^ (K - k)) = sgn k (wrap k x) * 2 ^ (K - k)).
  { unfold sgn. replace (2 ^ (K - 1)) with (2 ^ (k - 1) * 2 ^ (K - k)) by (rewrite <- Z.pow_add_r by lia; f_equal; lia).
    replace (2 ^ K) with (2 ^ k * 2 ^ (K - k)) by (rewrite <- Z.pow_add_r by lia; f_equal; lia).
    destruct (Z.ltb_spec (wrap k x) (2 ^ (k - 1))); destruct (Z.ltb_spec (wrap k x * 2 ^ (K - k)) (2 ^ (k - 1) * 2 ^ (K - k))); nia. }
  rewrite SG, low_wrap. f_equal. rewrite Z.pow_add_r by lia. rewrite (Z.mul_comm (2 ^ (K - k)) (2 ^ d)). apply Z.div_mul_cancel_r; lia.
Qed.
Lemma trunc_pair_ok d R RB M MB : 0 <= d < k -> (forall i, (i < n)%nat -> word K (R i) /\ word K (RB i) /\ word K (M i) /\ word K (MB i)) ->
  let t := auth_trunc K k n gk d R RB M MB in
  exists r, word k r /\ A (fst t) r /\ A (snd t) (wrap k (sgn k r / 2 ^ d)).
Proof. clear KS HKS.
  intros D W t. exists (low k (wrap K (total n R))). unfold t, auth_trunc. cbn [fst snd]. rewrite allreduce0_add by lia.
  assert (WK : forall z, word K (wrap k z)) by (intros; apply (word_mono k K); [lia|apply word_wrap; lia]).
  rewrite tr_low_ok by lia. rewrite low_wrap, !wrap_wrap.
  split; [apply word_wrap; lia|]. split; (apply adjust_auth; [intros i I; now destruct (W i I) as (?&?&?&?)|intros i I; now destruct (W i I) as (?&?&?&?)|apply WK]).
Qed.
Lemma trunc_gen d N x tr cn v r c coins e resp : 0 <= d < k ->
  (forall j, (j < N)%nat -> A (x j) (v j) /\ word k (r j) /\ A (fst (tr j)) (r j) /\ A (snd (tr j)) (wrap k (sgn k (r j) / 2 ^ d)) /\ A (cn j) (c j)) ->
  (trunc_s K k s n KS d N x tr cn coins e resp = Err /\ ~ passed N coins e resp) \/
  (exists z, trunc_s K k s n KS d N x tr cn coins e resp = Ok z /\ passed N coins e resp /\
     forall j, (j < N)%nat -> exists y, A (z j) y /\ eqm k y (sgn k (r j) / 2 ^ d + sgn k (wrap k (v j + e j - r j)) / 2 ^ d)).
Proof.
  intros D H. unfold trunc_s.
  assert (HM : forall j, (j < N)%nat -> A (masked K k (sub_s K (x j) (fst (tr j))) (cn j)) (radd K (rsub K (v j) (r j)) (rshl K k (c j)))).
  { intros j J. destruct (H j J) as (?&?&?&?&?). apply masked_ok; auto. now apply sub_ok. }
  pose proof (check_opened N coins _ _ e resp ltac:(lia) HKk HM) as C. cbv beta in C.
  destruct (mac_check _ _ _ _ _ _ _ _ _ _) eqn:E.
  - right. eexists. split; [reflexivity|]. split; [now apply C|]. intros j J. destruct (H j J) as (?&?&?&HB&?).
    eexists. split; [apply add_pub; exact HB|]. rewrite (opening_ok _ _ _ (HM j J)), tr_low_ok by lia.
    transitivity (wrap k (sgn k (r j) / 2 ^ d) + wrap k (sgn k (wrap k (wrap K (radd K (rsub K (v j) (r j)) (rshl K k (c j)) + e j))) / 2 ^ d)); [apply (eqm_le K k); [lia|]; apply eqm_radd|].
    rewrite !eqm_wrap. rewrite wrap_le by lia.
    replace (wrap k (radd K (rsub K (v j) (r j)) (rshl K k (c j)) + e j)) with (wrap k (v j + e j - r j)); [reflexivity|].
    change (eqm k (v j + e j - r j) (radd K (rsub K (v j) (r j)) (rshl K k (c j)) + e j)). symmetry.
    transitivity ((v j + e j - r j) + rshl K k (c j)); [|apply wrapk_add]. apply (eqm_le K k); [lia|]. rewrite !eqm_radd, eqm_rsub. apply eqm_of_eq. ring.
  - left. split; [reflexivity|]. intros P. apply C in P. discriminate.
Qed.
Lemma trunc_floor d v r y : 0 <= d < k -> word k r -> eqm k y (sgn k r / 2 ^ d + sgn k (wrap k (v - r)) / 2 ^ d) ->
  - 2 ^ (k - 1) <= sgn k (wrap k v) - sgn k r < 2 ^ (k - 1) -> truncated k d (wrap k v) (wrap k y) (-1) 0.
Proof.
  intros D WR EY NW. set (x := wrap k v) in *. assert (WX : word k x) by (apply word_wrap; lia).
  assert (SE : sgn k (wrap k (v - r)) = sgn k x - sgn k r).
  { rewrite <- (sgn_wrap k (sgn k x - sgn k r)) by (auto; lia). f_equal. change (eqm k (v - r) (sgn k x - sgn k r)). rewrite !eqm_sgn. unfold x. now rewrite eqm_wrap. }
  rewrite SE in EY. set (u := sgn k r / 2 ^ d + (sgn k x - sgn k r) / 2 ^ d) in *.
  pose proof (pow2_pos d ltac:(lia)). pose proof (div_add_bounds (sgn k r) (sgn k x - sgn k r) (2 ^ d) ltac:(lia)) as B.
  replace (sgn k r + (sgn k x - sgn k r)) with (sgn k x) in B by ring. pose proof (sgn_range k x Hk WX) as RX.
  apply (truncated_intro k d x (wrap k y) u (u - sgn k x / 2 ^ d)); auto; try (unfold u; lia); [apply word_wrap; lia|now rewrite eqm_wrap|].
  replace u with (sgn k x / 2 ^ d + (u - sgn k x / 2 ^ d)) by ring. apply room; auto; try (unfold u; lia).
  + intros ->. unfold u. change (2 ^ 0) with 1. rewrite !Z.div_1_r. ring.
  + destruct (Z.eq_dec d 0) as [->|Nd]; [|lia]. intros E. exfalso. revert E. unfold u. change (2 ^ 0) with 1. rewrite !Z.div_1_r. lia.
Qed.
End P.
(* an honest run *)
Lemma dot_zero N a e : (forall j, (j < N)%nat -> e j = 0) -> dot N a e = 0.
Proof. induction N; cbn [dot]; [lia|]. intros Z0. rewrite IHN by (intros; apply Z0; lia). rewrite (Z0 N) by lia. lia. Qed.
Lemma honest_passes k s gk N coins e : (forall j, (j < N)%nat -> e j = 0) -> passed k s gk N coins e 0.
Proof. intros E. unfold passed. rewrite dot_zero by exact E. reflexivity. Qed.
