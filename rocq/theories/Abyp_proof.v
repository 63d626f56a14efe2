(* The aby3 kernels meet the requirements of the dispatch layer; the boolean shifts do when they complete. *)
From Verif Require Import Base Ring_model Ring_spec Ring_proof Share_spec Party Semi_model Semi_proof Trunc_proof Circ_model Circ_spec Circ_proof Aby_model Aby_spec Aby_proof Abyb_proof Abyc_proof.
From Verif Require Import Disp_model Disp_spec Disp_proof Dispd_proof Abyp_model Abyp_spec.
Open Scope Z_scope.

Section Inst.
Variable w : nat.
Hypothesis W5 : (5 <= w)%nat.
Hypothesis W7 : (w <= 7)%nat.
Notation k := (2 ^ Z.of_nat w).
Variable T : tapes3.
Hypothesis G : good_roles T.
Definition rA (X : shr) (x : Z) : Prop := repA k X x.
Definition rB (X : Aby_model.bsh) (x : Z) : Prop := repBn k (bw X) (bn X) (bx X) x.
Lemma k_pos : 32 <= k <= 128.
Proof. clear - W5 W7. assert (H : w = 5%nat \/ w = 6%nat \/ w = 7%nat) by lia. destruct H as [-> | [-> | ->]]; cbn; lia. Qed.
Lemma toR X x : rB X x -> arel k (bn X) X x. Proof. now split. Qed.
Lemma ofR nb X x : arel k nb X x -> rB X x. Proof. intros [E H]. unfold rB. now rewrite E. Qed.

Lemma p2b_w_ok v p : word k p -> 0 <= v <= k -> p < 2 ^ v -> rB (p2b_w v p) p.
Proof using W5 W7.
  intros Wx NB XB. pose proof (fk_pos w W5 W7). unfold rB, p2b_w. cbn [bw bn bx].
  destruct (bt_ok v ltac:(lia)) as [BL BI]. pose proof (store_pos _ BI). pose proof (bt_le v k (fk w W5 W7) NB).
  apply repBn_intro; auto.
  assert (W : word (bt v) p) by (apply (word_mono v); [lia|split; [apply Wx|exact XB]]).
  apply (repB_intro _ _ _ p 0 0); words; try (rewrite wrap_small by exact W; reflexivity); try reflexivity. now rewrite !Z.lxor_0_r.
Qed.
Lemma and_bp_w_ok X x v p : rB X x -> word k p -> 0 <= v <= k -> p < 2 ^ v -> rB (and_bp_w X v p) (Z.land x p).
Proof using W5 W7.
  intros HX WP V0 PB. pose proof (fk_pos w W5 W7). apply (ofR (nb_and (bn X) v)). unfold and_bp_w, nb_and. set (nb' := Z.min (bn X) v).
  pose proof (repBn_word _ _ _ _ _ HX) as Wx.
  assert (NB : 0 <= nb' <= k) by (destruct HX as [_ [? _]]; lia). destruct (bt_ok nb' ltac:(lia)) as [BL BI]. pose proof (store_pos _ BI). pose proof (bt_le nb' k (fk w W5 W7) NB).
  assert (Wz : word nb' (Z.land x p)).
  { destruct HX as [_ [? _]]. split; [apply Z.land_nonneg; left; apply Wx|]. apply land_bound; try lia; try apply Wx; try apply WP. }
  assert (F : wrap (bt nb') (rand_ x p) = Z.land x p) by (apply wrap_small; apply (word_mono nb'); auto; lia).
  rewrite <- F. apply (map_ok w W5 W7 (bn X) nb' (bt nb') X x (fun v => wrap (bt nb') (rand_ v p))); auto; [split; auto|intros; words| |rewrite F; apply Wz].
  intros a b _ _. unfold rand_. rewrite land_lxor_distr_r. apply wrap_lxor. lia.
Qed.
Lemma xor_bp_w_ok X x v p : rB X x -> word k p -> 0 <= v <= k -> p < 2 ^ v -> rB (xor_bp_w X v p) (Z.lxor x p).
Proof using W5 W7.
  intros HX WP V0 PB. pose proof (fk_pos w W5 W7). apply (ofR (nb_xor (bn X) v)). unfold xor_bp_w, nb_xor. set (nb' := Z.max (bn X) v).
  pose proof (repBn_word _ _ _ _ _ HX) as Wx. destruct HX as [HX [NX _]].
  assert (NB : 0 <= nb' <= k) by lia. destruct (bt_ok nb' ltac:(lia)) as [BL BI]. pose proof (store_pos _ BI). pose proof (bt_le nb' k (fk w W5 W7) NB).
  assert (Wz : word nb' (Z.lxor x p)).
  { apply Party.word_lxor; [lia| |]; [apply (word_mono (bn X))|apply (word_mono v)]; auto; try lia. split; [apply WP|exact PB]. }
  split; [reflexivity|]. cbn [bw bx bn]. apply repBn_intro; auto; [|apply Wz].
  destruct (repB_shape _ _ _ HX) as [a [b [c [A [B [C [E0 [E1 [E2 E]]]]]]]]].
  apply (repB_intro _ _ _ (wrap (bt nb') (rxor a p)) (wrap (bt nb') (rxor b p)) (wrap (bt nb') (rxor c p))); words;
    unfold both; rewrite ?E0, ?E1, ?E2; try reflexivity.
  rewrite <- !wrap_lxor by lia. rewrite <- (wrap_small (bt nb') (Z.lxor x p)) by (apply (word_mono nb'); auto; lia).
  f_equal. rewrite <- E. unfold rxor. apply Z.bits_inj'. intros i I. rewrite !Z.lxor_spec.
  destruct (Z.testbit a i), (Z.testbit b i), (Z.testbit c i), (Z.testbit p i); reflexivity.
Qed.
(* the shifts, as far as they complete *)
Section Any.
Context {md : Mode}.
Hypothesis MD : shifts -> strictly = false.
Lemma aby_ok : proto_ok k 3 (aby_proto k T) rA rB.
Proof.
  pose proof k_pos as KP. assert (K0 : 0 <= k) by lia.
  constructor; cbn [aby_proto k_nb k_setnb k_p2a k_p2b k_v2a k_a2b k_b2a k_negate_a k_add_ap k_add_aa k_mul_ap k_mul_aa k_lshift_a
    k_and_bp k_and_bb k_xor_bp k_xor_bb k_lshift_b k_rshift_b k_arshift_b k_square_a k_mul_a1b k_msb_a2b k_equal_aa k_equal_ap k_mul_vvs ash Disp_model.bsh].
  - intros b x H. split; [apply H|]. exact (repBn_word _ _ _ _ _ H).
  - intros b x (HX & _ & (V1 & V2) & IV & _) L. split; [|reflexivity]. pose proof (store_pos _ IV). assert (8 <= bw b) by (cbn in IV; lia).
    unfold rB. cbn [bw bn bx]. split; [exact HX|]. split; [lia|]. split; [lia|]. split; [exact IV|]. exact L.
  - intros t p W. refine (ok_gives _ _ _ _ eq_refl _). now apply p2a3_ok.
  - intros t v p W B L. refine (ok_gives _ _ _ _ eq_refl _). now apply p2b_w_ok.
  - intros t o f O W. refine (ok_gives _ _ _ _ eq_refl _). now apply v2a3_ok.
  - intros t a x H. destruct (a2b3_ok w W5 W7 (t3_gate T t) 0%nat a (fun i => t3_s T t i 0%nat) x H) as (V & E & HV). exact (ok_gives _ _ _ _ E (ofR _ _ _ HV)).
  - intros t b x H. destruct (G t) as [P0 P2].
    destruct (b2a3_ok w W5 W7 (t3_gate T t) 0%nat (t3_piv T t) b x (bn b) (fun i => t3_s T t i 0%nat) (fun i => t3_s T t i 1%nat) (t3_r T t) (t3_m0 T t) (t3_m1 T t) P0 P2 (toR _ _ H)) as (V & E & HV).
    exact (ok_gives _ _ _ _ E HV).
  - intros t a x H. refine (ok_gives _ _ _ _ eq_refl _). now apply negate_a3_ok.
  - intros t a x p H W. refine (ok_gives _ _ _ _ eq_refl _). now apply add_ap3_ok.
  - intros t a x b y H H'. refine (ok_gives _ _ _ _ eq_refl _). now apply add_aa3_ok.
  - intros t a x p H W. refine (ok_gives _ _ _ _ eq_refl _). now apply mul_ap3_ok.
  - intros t a x b y H H'. refine (ok_gives _ _ _ _ eq_refl _). now apply mul_aa3_ok.
  - intros t a x s H S0. destruct (lshift_a3_ok k a x s) as (V & E & HV); auto. exact (ok_gives _ _ _ _ E HV).
  - intros t b x v p H W B L. refine (ok_gives _ _ _ _ eq_refl _). now apply and_bp_w_ok.
  - intros t b x c y H H'. refine (ok_gives _ _ _ _ eq_refl _). eapply ofR. apply (and_bb3_ok w W5 W7 (bn b) (bn c)); now apply toR.
  - intros t b x v p H W B L. refine (ok_gives _ _ _ _ eq_refl _). now apply xor_bp_w_ok.
  - intros t b x c y H H'. refine (ok_gives _ _ _ _ eq_refl _). eapply ofR. apply (xor_bb3_ok w W5 W7 (bn b) (bn c)); now apply toR.
  - intros SH t b x s H S0. unfold lshift_b3. destruct (in_shift _ _); [|exact (MD SH)]. refine (ok_gives _ _ _ _ eq_refl _). eapply ofR.
    exact (lshift_val_ok w W5 W7 (bn b) b x s S0 (toR _ _ H)).
  - intros SH t b x s H S0. unfold rshift_b3. destruct (in_shift _ _); [|exact (MD SH)]. refine (ok_gives _ _ _ _ eq_refl _). eapply ofR.
    apply (rshift_val_ok w W5 W7 (bn b)); [lia|now apply toR].
  - intros SH t b x s v H S0 SV. unfold arshift_b3. destruct (Z.eqb_spec (bn b) k) as [EN|]; [|exact (MD SH)].
    destruct (arshift_b3_ok w W5 W7 b x s S0) as (V & E & HV); [split; [exact EN|unfold rB in H; now rewrite EN in H]|].
    unfold arshift_b3 in E. rewrite EN, Z.eqb_refl in E. destruct (in_shift _ _); [|discriminate]. 
    refine (ok_gives _ _ _ _ eq_refl _). rewrite EN. injection E as <-. apply ofR in HV. rewrite <- (rsar_wrap k ltac:(lia) x s v SV); [exact HV|].
    exact (repBn_wordk _ _ _ _ _ H).
  - discriminate.
  - discriminate.
  - intros m [= <-] t a x b y H H' NB. destruct (mul_a1b3_ok k (bw b) a (bx b) x y (t3_s T t)) as (V & E & HV); auto.
    { apply H'. } { pose proof (repBn_word _ _ _ _ _ H') as [_ L]. rewrite NB in L. exact L. }
    rewrite NB. exact (ok_gives _ _ _ _ E HV).
  - intros m [= <-] t a x H. destruct (msb_a2b3_ok w W5 W7 (t3_gate T t) 0%nat a (fun i => t3_s T t i 0%nat) x H) as (V & E & HV). exact (ok_gives _ _ _ _ E (ofR _ _ _ HV)).
  - intros m [= <-] t a x b y H H'. destruct (G t) as [P0 P2].
    destruct (equal_aa3_ok w W5 W7 (t3_gate T t) (t3_piv T t) a b x y (t3_own T t) (t3_s T t) (t3_q T t) P0 P2 H H') as (V & E & HV). exact (ok_gives _ _ _ _ E (ofR _ _ _ HV)).
  - intros m [= <-] t a x p H W. destruct (G t) as [P0 P2].
    destruct (equal_ap3_ok w W5 W7 (t3_gate T t) (t3_piv T t) a x p (t3_own T t) (t3_s T t) (t3_q T t) P0 P2 H W) as (V & E & HV). exact (ok_gives _ _ _ _ E (ofR _ _ _ HV)).
  - discriminate.
Qed.
End Any.
Lemma rA_word a x : rA a x -> word k x. Proof. apply repA_word. Qed.
Lemma reveal_ok r a rank : holds k 3 (aby_proto k T) rA rB r a -> (rank < 3)%nat -> reveal3 k T rank r = a.
Proof.
  intros [W HR] R. pose proof k_pos. destruct r as [p|o f|s|s]; cbn [reveal3].
  - exact HR.
  - apply HR.
  - apply a2p3_ok; [lia|exact R|exact HR].
  - apply (b2p3_ok w W5 W7 (bn s)); [exact R|now apply toR].
Qed.
Lemma results3_wp (m : M (val (aby_proto k T))) a : wp (md := shiftless) m (fun r => holds k 3 (aby_proto k T) rA rB r a) -> results3 k T m a.
Proof.
  intros H t. specialize (H t). destruct (m t) as [[r t']| |]; [|discriminate H..]. exists r, t'. split; [reflexivity|]. split; [exact H|].
  intros rank R. now apply reveal_ok.
Qed.
Lemma done3_wp (m : M (val (aby_proto k T))) a : wp (md := lenient) m (fun r => holds k 3 (aby_proto k T) rA rB r a) -> if_done3 k T m a.
Proof.
  intros H t r t' E. specialize (H t). rewrite E in H. split; [exact H|]. intros rank R. now apply reveal_ok.
Qed.
End Inst.
Lemma wp_run3 {X} (m : M X) Q : wp (md := shiftless) m Q -> forall t, exists r t', m t = Ok (r, t') /\ Q r.
Proof. intros H t. specialize (H t). destruct (m t) as [[r t']| |]; [|discriminate H|discriminate H]. now exists r, t'. Qed.
