(* The semi2k kernels meet the requirements of the dispatch layer. *)
From Verif Require Import Base Ring_model Ring_spec Ring_proof Share_spec Party Semi_model Semi_proof Circ_model Circ_proof Conv_model Conv_spec Conv_proof Perm_proof.
From Verif Require Import Disp_model Disp_spec Disp_proof Dispd_proof Disps_model Disps_spec.
Open Scope Z_scope.
#[local] Existing Instance strict.

Section Inst.
Variable w : nat.
Hypothesis W5 : (5 <= w)%nat.
Hypothesis W7 : (w <= 7)%nat.
Variable n : nat.
Hypothesis N : (0 < n)%nat.
Notation k := (2 ^ Z.of_nat w).
Variable T : tapes.
Hypothesis G : good_tapes k n T.
Definition sA (X : nat -> Z) (x : Z) : Prop := shA k n X x.
Definition sB (S0 : Z * (nat -> Z)) (x : Z) : Prop := shBn k n (fst S0) (snd S0) x.

Lemma kpos : 32 <= k <= 128.
Proof. clear - W5 W7. assert (H : w = 5%nat \/ w = 6%nat \/ w = 7%nat) by lia. destruct H as [-> | [-> | ->]]; cbn; lia. Qed.
Lemma brelB nb S0 x : brel k n nb S0 x -> sB S0 x.
Proof. intros [E H]. unfold sB. now rewrite E. Qed.
Lemma Bbrel S0 x : sB S0 x -> brel k n (fst S0) S0 x.
Proof. intros H. now split. Qed.
Lemma mul_tape t : eqm k (total n (tp_a T t) * total n (tp_b T t)) (total n (tp_c T t)).
Proof.
  destruct (gt_mul _ _ _ G t) as (a & b & c & SA & SB & SC & E). pose proof kpos as KP.
  rewrite (shA_eqm k n _ a ltac:(lia) SA), (shA_eqm k n _ b ltac:(lia) SB), (shA_eqm k n _ c ltac:(lia) SC).
  unfold eqm. symmetry. destruct E as [W [q ->]]. apply eqm_mult.
Qed.
Lemma sq_tape t : eqm k (total n (tp_sa T t) * total n (tp_sa T t)) (total n (tp_sb T t)).
Proof.
  destruct (gt_sq _ _ _ G t) as (a & b & SA & SB & E). pose proof kpos as KP.
  rewrite (shA_eqm k n _ a ltac:(lia) SA), (shA_eqm k n _ b ltac:(lia) SB).
  unfold eqm. symmetry. destruct E as [W [q ->]]. apply eqm_mult.
Qed.
Lemma vv_tape t : eqm k (tp_va T t 0%nat * tp_va T t 1%nat) (tp_vc T t 0%nat + tp_vc T t 1%nat).
Proof.
  destruct (gt_vv _ _ _ G t) as (c & [_ [q E]] & [_ [q' E']]). transitivity c; [rewrite E; symmetry; apply eqm_mult|rewrite E'; apply eqm_mult].
Qed.
Lemma semi_ok : proto_ok k n (semi_proto k n T) sA sB.
Proof.
  pose proof kpos as KP. constructor; cbn [semi_proto k_nb k_setnb k_p2a k_p2b k_v2a k_a2b k_b2a k_negate_a k_add_ap k_add_aa k_mul_ap k_mul_aa k_lshift_a
    k_and_bp k_and_bb k_xor_bp k_xor_bb k_lshift_b k_rshift_b k_arshift_b k_square_a k_mul_a1b k_msb_a2b k_equal_aa k_equal_ap k_mul_vvs ash bsh].
  - intros b x [[_ [Wx _]] [NB L]]. split; [exact NB|]. split; [apply Wx|exact L].
  - intros b x [SB _] L. pose proof kpos. split; [|reflexivity]. split; [exact SB|]. cbn [fst]. change (2 ^ 1) with 2. lia.
  - intros t p W. refine (ok_gives _ _ _ _ eq_refl _). apply v2a_shares; auto; lia.
  - intros t v p W B L. refine (ok_gives _ _ _ _ eq_refl _). split; [|now split]. apply v2b_shares; auto; try lia. intros i I. now apply (gt_r _ _ _ G).
  - intros t o f O W. refine (ok_gives _ _ _ _ eq_refl _). apply v2a_shares; auto; lia.
  - intros t a x SX. destruct (a2b_ok w W5 W7 n N _ _ _ (gt_and _ _ _ G t) gate (tp_prss T t) a x (gt_prss _ _ _ G t) SX) as [V [E H]].
    refine (ok_gives _ _ _ _ E _). now apply brelB in H.
  - intros t b x SX. apply Bbrel in SX.
    destruct (b2a_randbit_ok w W5 W7 n N gate (tp_bits T t) (fst b) b x SX) as [A [E H]].
    { intros j J. apply (gt_bits _ _ _ G t). destruct SX as [_ [_ [NB _]]]. lia. }
    exact (ok_gives _ _ _ _ E H).
  - intros t a x SX. refine (ok_gives _ _ _ _ eq_refl _). rewrite <- rneg_wrap. apply shA_neg; [lia|exact SX].
  - intros t a x p SX W. refine (ok_gives _ _ _ _ eq_refl _). apply shA_add_ap; auto; lia.
  - intros t a x b y SX SY. refine (ok_gives _ _ _ _ eq_refl _). apply shA_add; auto; lia.
  - intros t a x p SX W. refine (ok_gives _ _ _ _ eq_refl _). apply shA_mul_ap; auto; lia.
  - intros t a x b y SX SY. refine (ok_gives _ _ _ _ eq_refl _). apply mul_aa_all_ok; auto; [lia|apply mul_tape].
  - intros t a x s SX S0. refine (ok_gives _ _ _ _ eq_refl _). apply shA_lshift; auto; lia.
  - intros t b x v p SX W B L. refine (ok_gives _ _ _ _ eq_refl _). apply (shBn_and_bp k n (fst b) v (snd b) x p); auto.
  - intros t b x c y SX SY. apply Bbrel in SX, SY.
    destruct (and_share_ok w W5 W7 n N _ _ _ (gt_and _ _ _ G t) 0%nat (fst b) (fst c) b c x y SX SY) as [V [E H]].
    refine (ok_gives _ _ _ _ E _). now apply brelB in H.
  - intros t b x v p SX W B L. refine (ok_gives _ _ _ _ eq_refl _). apply (shBn_xor_bp k n (fst b) v (snd b) x p); auto.
  - intros t b x c y SX SY. refine (ok_gives _ _ _ _ eq_refl _). apply shBn_xor; assumption.
  - intros _ t b x s SX S0. refine (ok_gives _ _ _ _ eq_refl _). apply (shBn_lshift k n (fst b) s s); auto; lia.
  - intros _ t b x s SX S0. refine (ok_gives _ _ _ _ eq_refl _). apply (shBn_rshift k n (fst b) s s); auto; lia.
  - intros _ t b x s v SX S0 SV. refine (ok_gives _ _ _ _ eq_refl _). rewrite <- (rsar_wrap k ltac:(lia) x s v SV); [|apply SX].
    apply (shBn_arshift k n (fst b)); auto; lia.
  - intros _. exact I.
  - intros m [= <-] t a x SX. refine (ok_gives _ _ _ _ eq_refl _). apply square_all_ok; auto; [lia|apply sq_tape].
  - intros m E t a x b y SX SY NB. destruct (Nat.eqb_spec n 2) as [N2|]; [|discriminate]. injection E as <-. refine (ok_gives _ _ _ _ eq_refl _).
    pose proof (mul_tape t) as MT. destruct SY as [SY [_ L]]. rewrite NB in L. change (2 ^ 1) with 2 in L. unfold sA in *. rewrite N2 in *.
    replace y with (y mod 2). { apply a1b_ok; auto; lia. } apply Z.mod_small. destruct SY as [_ [[Y _] _]]. lia.
  - intros m E t a x SX. destruct (Nat.eqb_spec n 2) as [N2|]; [|discriminate]. injection E as <-.
    destruct (msb_a2b_ok w W5 W7 n N _ _ _ (gt_and _ _ _ G t) gate 0%nat (tp_prss T t) a x N2 (gt_prss _ _ _ G t) SX) as [V [E H]].
    refine (ok_gives _ _ _ _ E _). now apply brelB in H.
  - intros m [= <-] t a x b y SX SY. destruct (gt_eq _ _ _ G t) as (r & SA & SB).
    destruct (equal_aa_ok w W5 W7 n N _ _ _ (gt_and _ _ _ G t) gate 0%nat (tp_piv T t) _ _ a b x y r (gt_piv _ _ _ G t) SA SB SX SY) as [V [E H]].
    refine (ok_gives _ _ _ _ E _). now apply brelB in H.
  - intros m [= <-] t a x p SX W. destruct (gt_eq _ _ _ G t) as (r & SA & SB).
    destruct (equal_ap_ok w W5 W7 n N _ _ _ (gt_and _ _ _ G t) gate 0%nat (tp_piv T t) _ _ a x p r (gt_piv _ _ _ G t) SA SB SX W) as [V [E H]].
    refine (ok_gives _ _ _ _ E _). now apply brelB in H.
  - intros m E t o f o' g O O' D WF WG. destruct (Nat.eqb_spec n 2) as [N2|]; [|discriminate]. injection E as <-.
    destruct (Nat.eqb_spec o o') as [|_]; [contradiction|]. refine (ok_gives _ _ _ _ eq_refl _). unfold sA.
    set (V := fun i => if (i =? o)%nat then f i else g i).
    replace (f o * g o') with (V 0%nat * V 1%nat).
    + rewrite N2. apply mulvvs_ok; [lia|apply vv_tape].
    + unfold V. assert (C : (o = 0 /\ o' = 1 \/ o = 1 /\ o' = 0)%nat) by lia. destruct C as [[-> ->] | [-> ->]]; cbn [Nat.eqb]; ring.
Qed.
Lemma sA_word a x : sA a x -> word k x. Proof. intros [_ [W _]]. exact W. Qed.

Lemma results_wp (m : M (val (semi_proto k n T))) a :
  wp m (fun r => holds k n (semi_proto k n T) sA sB r a) -> results k n T m a.
Proof.
  intros H0 t. destruct (wp_run _ _ H0 t) as (r & t' & E & HR). exists r, t'. split; [exact E|]. pose proof kpos as KP. split; [exact HR|].
  intros rank R. destruct HR as [W HR]. destruct r as [p|o f|s|s]; cbn [reveal].
  - exact HR.
  - apply HR.
  - apply a2p_opens; [lia|exact R|exact HR].
  - apply (b2p_opens k); [exact R|apply HR].
Qed.
End Inst.
Lemma results_mono k n T (m : M (val (semi_proto k n T))) a b : a = b -> results k n T m a -> results k n T m b.
Proof. now intros <-. Qed.
