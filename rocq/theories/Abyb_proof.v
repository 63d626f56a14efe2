From Verif Require Import Base Ring_model Ring_spec Ring_proof Share_spec Party Semi_model Semi_proof.
From Verif Require Import Circ_model Circ_spec Circ_proof Circc_proof Circr_proof Conv_proof.
From Verif Require Import Aby_model Aby_spec Aby_proof.
Open Scope Z_scope.

Definition arel (k : Z) (nb : Z) (X : bsh) (x : Z) : Prop := bn X = nb /\ repBn k (bw X) nb (bx X) x.

Lemma bt_ok nb : 0 <= nb <= 128 -> nb <= bt nb /\ In (bt nb) [8; 16; 32; 64; 128].
Proof.
  intros H. unfold bt. repeat match goal with |- context [?a <=? ?b] => destruct (Z.leb_spec a b) end; (split; [lia|cbn; tauto]).
Qed.
Lemma bt_le nb k : k = 32 \/ k = 64 \/ k = 128 -> 0 <= nb <= k -> nb <= bt nb <= k.
Proof.
  intros F H. unfold bt. repeat match goal with |- context [?a <=? ?b] => destruct (Z.leb_spec a b) end; lia.
Qed.
Lemma bt_field k : k = 32 \/ k = 64 \/ k = 128 -> bt k = k.
Proof. intros [-> | [-> | ->]]; reflexivity. Qed.
Lemma bt_backtype nb : nb <= 128 -> backtype nb = Ok (bt nb).
Proof.
  intros H. unfold backtype, bt. repeat match goal with |- context [?a <=? ?b] => destruct (Z.leb_spec a b) end; try reflexivity. lia.
Qed.
Lemma store_pow v : In v [8; 16; 32; 64; 128] -> exists lv, v = 2 ^ Z.of_nat lv /\ (3 <= lv <= 7)%nat.
Proof.
  cbn. intros [<- | [<- | [<- | [<- | [<- | []]]]]]; [exists 3%nat|exists 4%nat|exists 5%nat|exists 6%nat|exists 7%nat]; (split; [reflexivity|lia]).
Qed.
Lemma store_pos v : In v [8; 16; 32; 64; 128] -> 8 <= v <= 128.
Proof. cbn. lia. Qed.

(* a map that is linear over xor acts on the plaintext *)
Lemma repB_map v v' f X x : 0 <= v -> 0 <= v' -> (forall a, word v a -> word v' (f a)) ->
  (forall a b, word v a -> word v b -> f (Z.lxor a b) = Z.lxor (f a) (f b)) ->
  repB v X x -> repB v' (fun i => both f (X i)) (f x).
Proof.
  intros V V' W L H. destruct (repB_shape v X x H) as [a [b [c [A [B [C [E0 [E1 [E2 E]]]]]]]]].
  apply (repB_intro v' _ _ (f a) (f b) (f c)); auto; unfold both; rewrite ?E0, ?E1, ?E2; try reflexivity.
  rewrite <- E, !L; auto. now apply word_lxor.
Qed.
Lemma repBn_intro k v nb X x : repB v X x -> 0 <= nb <= k -> nb <= v <= k -> In v [8; 16; 32; 64; 128] -> x < 2 ^ nb -> repBn k v nb X x.
Proof. intros. unfold repBn. tauto. Qed.
Lemma repBn_word k v nb X x : repBn k v nb X x -> word nb x.
Proof. intros [[_ [[W _] _]] [_ [_ [_ H]]]]. now split. Qed.
Lemma repBn_wordk k v nb X x : repBn k v nb X x -> word k x.
Proof. intros H. apply (word_mono nb); [apply H|now apply (repBn_word k v nb X)]. Qed.

Lemma lxor_and3 v a b c a' b' c' r0 r1 r2 : 0 <= v ->
  Z.lxor (Z.lxor
    (wrap v (Z.lxor (Z.lxor (Z.lxor (Z.land a a') (Z.land a b')) (Z.land b a')) (Z.lxor (wrap v r0) (wrap v r1))))
    (wrap v (Z.lxor (Z.lxor (Z.lxor (Z.land b b') (Z.land b c')) (Z.land c b')) (Z.lxor (wrap v r1) (wrap v r2)))))
    (wrap v (Z.lxor (Z.lxor (Z.lxor (Z.land c c') (Z.land c a')) (Z.land a c')) (Z.lxor (wrap v r2) (wrap v r0))))
  = wrap v (Z.land (Z.lxor (Z.lxor a b) c) (Z.lxor (Z.lxor a' b') c')).
Proof.
  intros V. apply Z.bits_inj'. intros i I. change Z.testbit with bit. unfold bit at 1. rewrite !Z.lxor_spec. change Z.testbit with bit. rewrite !bit_mod by lia.
  rewrite !Z.lxor_spec, !Z.land_spec, !Z.lxor_spec. change (Z.testbit (wrap v r0) i) with (bit (wrap v r0) i). change (Z.testbit (wrap v r1) i) with (bit (wrap v r1) i).
  change (Z.testbit (wrap v r2) i) with (bit (wrap v r2) i). rewrite !bit_mod by lia. destruct (i <? v); cbn [andb]; [|reflexivity].
  destruct (Z.testbit r0 i), (Z.testbit r1 i), (Z.testbit r2 i); destruct (Z.testbit a i), (Z.testbit b i), (Z.testbit c i); destruct (Z.testbit a' i), (Z.testbit b' i), (Z.testbit c' i); reflexivity.
Qed.
(* one three-party AND: the shares l, r live in v1- and v2-bit words, the result in v bits *)
Lemma and3_ok v v1 v2 X Y x y S : 0 <= v -> repB v1 X x -> repB v2 Y y ->
  repB v (rot (fun i => wrap v (rxor (rxor (rxor (rand_ (fst (X i)) (fst (Y i))) (rand_ (fst (X i)) (snd (Y i)))) (rand_ (snd (X i)) (fst (Y i))))
                 (rxor (wrap v (S i)) (wrap v (S (nx i))))))) (wrap v (Z.land x y)).
Proof.
  intros V HX HY. destruct (repB_shape _ _ _ HX) as [a [b [c [_ [_ [_ [E0 [E1 [E2 E]]]]]]]]].
  destruct (repB_shape _ _ _ HY) as [a' [b' [c' [_ [_ [_ [E0' [E1' [E2' E']]]]]]]]].
  apply repB_rot; [intros; words|words|]. cbn [nx nextrank Nat.eqb]. rewrite E0, E1, E2, E0', E1', E2'. cbn [fst snd]. unfold rxor, rand_.
  rewrite lxor_and3 by lia. now rewrite E, E'.
Qed.

Section Field.
Variable w : nat.
Hypothesis W5 : (5 <= w)%nat.
Hypothesis W7 : (w <= 7)%nat.
Let k := 2 ^ Z.of_nat w.
Notation R := (arel k).

Lemma fk : k = 32 \/ k = 64 \/ k = 128.
Proof. unfold k. assert (H : w = 5%nat \/ w = 6%nat \/ w = 7%nat) by lia. destruct H as [-> | [-> | ->]]; cbn; auto. Qed.
Lemma fk_pos : 32 <= k <= 128.
Proof. destruct fk; lia. Qed.
Lemma fk_in : In k [8; 16; 32; 64; 128].
Proof. pose proof fk. cbn. lia. Qed.

Lemma xor_bb3_ok na nb X Y x y : R na X x -> R nb Y y -> R (Z.max na nb) (xor_bb3 X Y) (Z.lxor x y).
Proof.
  intros [EX HX] [EY HY]. pose proof fk_pos. unfold xor_bb3. rewrite EX, EY. unfold nb_xor. set (nb' := Z.max na nb).
  pose proof (repBn_word _ _ _ _ _ HX) as Wx. pose proof (repBn_word _ _ _ _ _ HY) as Wy.
  destruct HX as [HX [NX _]], HY as [HY [NY _]].
  assert (NB : 0 <= nb' <= k) by lia. destruct (bt_ok nb' ltac:(lia)) as [BL BI]. pose proof (store_pos _ BI). pose proof (bt_le nb' k fk NB).
  assert (Wz : word nb' (Z.lxor x y)) by (apply word_lxor; [lia| |]; [apply (word_mono na)|apply (word_mono nb)]; auto; lia).
  split; [reflexivity|]. cbn [bw bx bn]. apply repBn_intro; auto; [|apply Wz].
  destruct (repB_shape _ _ _ HX) as [a [b [c [A [B [C [E0 [E1 [E2 E]]]]]]]]].
  destruct (repB_shape _ _ _ HY) as [a' [b' [c' [A' [B' [C' [E0' [E1' [E2' E']]]]]]]]].
  apply (repB_intro _ _ _ (wrap (bt nb') (Z.lxor a a')) (wrap (bt nb') (Z.lxor b b')) (wrap (bt nb') (Z.lxor c c'))); words;
    rewrite ?E0, ?E1, ?E2, ?E0', ?E1', ?E2'; try reflexivity.
  rewrite <- !wrap_lxor by lia. rewrite <- (wrap_small (bt nb') (Z.lxor x y)) by (apply (word_mono nb'); auto; lia).
  f_equal. rewrite <- E, <- E'. apply Z.bits_inj'. intros i I. rewrite !Z.lxor_spec.
  destruct (Z.testbit a i), (Z.testbit b i), (Z.testbit c i), (Z.testbit a' i), (Z.testbit b' i), (Z.testbit c' i); reflexivity.
Qed.
Lemma and_bb3_ok na nb X Y x y S : R na X x -> R nb Y y -> R (Z.min na nb) (and_bb3 X Y S) (Z.land x y).
Proof.
  intros [EX HX] [EY HY]. pose proof fk_pos. unfold and_bb3. rewrite EX, EY. unfold nb_and. set (nb' := Z.min na nb).
  pose proof (repBn_word _ _ _ _ _ HX) as Wx. pose proof (repBn_word _ _ _ _ _ HY) as Wy.
  destruct HX as [HX [NX _]], HY as [HY [NY _]].
  assert (NB : 0 <= nb' <= k) by lia. destruct (bt_ok nb' ltac:(lia)) as [BL BI]. pose proof (store_pos _ BI). pose proof (bt_le nb' k fk NB).
  assert (Wz : word nb' (Z.land x y)).
  { split; [apply Z.land_nonneg; left; apply Wx|]. apply land_bound; try lia; try apply Wx; try apply Wy. }
  split; [reflexivity|]. cbn [bw bx bn]. apply repBn_intro; auto; [|apply Wz].
  rewrite <- (wrap_small (bt nb') (Z.land x y)) by (apply (word_mono nb'); auto; lia).
  apply (and3_ok _ (bw X) (bw Y)); auto. lia.
Qed.
(* the generic shape of the kernels that map both components *)
Lemma map_ok nb nb' v' X x f : R nb X x -> 0 <= nb' <= k -> nb' <= v' <= k -> In v' [8; 16; 32; 64; 128] ->
  (forall a, word (bw X) a -> word v' (f a)) ->
  (forall a b, word (bw X) a -> word (bw X) b -> f (Z.lxor a b) = Z.lxor (f a) (f b)) -> f x < 2 ^ nb' ->
  R nb' (mkB v' nb' (fun i => both f (bx X i))) (f x).
Proof.
  intros [EX [HX [NX [NV [IV _]]]]] NB BL BI Wf Lf B. pose proof (store_pos _ BI). pose proof (store_pos _ IV).
  split; [reflexivity|]. cbn [bw bx bn]. apply repBn_intro; auto. apply (repB_map (bw X)); auto; lia.
Qed.
Lemma and_bp3_ok nb X x p : R nb X x -> word k p -> R (Z.min nb (bitwidth p)) (and_bp3 X p) (Z.land x p).
Proof.
  intros HR WP. destruct HR as [EX HX]. pose proof fk_pos. unfold and_bp3. rewrite EX. unfold nb_and. set (nb' := Z.min nb (bitwidth p)).
  pose proof (repBn_word _ _ _ _ _ HX) as Wx. destruct (bitwidth_bound p (proj1 WP)) as [PB P0]. pose proof (bitwidth_word k p ltac:(lia) WP).
  assert (NB : 0 <= nb' <= k) by (destruct HX as [_ [? _]]; lia). destruct (bt_ok nb' ltac:(lia)) as [BL BI]. pose proof (store_pos _ BI). pose proof (bt_le nb' k fk NB).
  assert (Wz : word nb' (Z.land x p)).
  { destruct HX as [_ [? _]]. split; [apply Z.land_nonneg; left; apply Wx|]. apply land_bound; try lia; try apply Wx; try apply WP. }
  assert (F : wrap (bt nb') (rand_ x p) = Z.land x p) by (apply wrap_small; apply (word_mono nb'); auto; lia).
  rewrite <- F. apply (map_ok nb nb' (bt nb') X x (fun v => wrap (bt nb') (rand_ v p))); auto; [split; auto|intros; words| |rewrite F; apply Wz].
  intros a b _ _. unfold rand_. rewrite land_lxor_distr_r. apply wrap_lxor. lia.
Qed.
Lemma xor_bp3_ok nb X x p : R nb X x -> word k p -> R (Z.max nb (bitwidth p)) (xor_bp3 X p) (Z.lxor x p).
Proof.
  intros [EX HX] WP. pose proof fk_pos. unfold xor_bp3. rewrite EX. unfold nb_xor. set (nb' := Z.max nb (bitwidth p)).
  pose proof (repBn_word _ _ _ _ _ HX) as Wx. destruct (bitwidth_bound p (proj1 WP)) as [PB P0]. pose proof (bitwidth_word k p ltac:(lia) WP).
  destruct HX as [HX [NX _]].
  assert (NB : 0 <= nb' <= k) by lia. destruct (bt_ok nb' ltac:(lia)) as [BL BI]. pose proof (store_pos _ BI). pose proof (bt_le nb' k fk NB).
  assert (Wz : word nb' (Z.lxor x p)).
  { apply word_lxor; [lia| |]; [apply (word_mono nb)|apply (word_mono (bitwidth p))]; auto; try lia. split; [apply WP|exact PB]. }
  split; [reflexivity|]. cbn [bw bx bn]. apply repBn_intro; auto; [|apply Wz].
  destruct (repB_shape _ _ _ HX) as [a [b [c [A [B [C [E0 [E1 [E2 E]]]]]]]]].
  apply (repB_intro _ _ _ (wrap (bt nb') (rxor a p)) (wrap (bt nb') (rxor b p)) (wrap (bt nb') (rxor c p))); words;
    unfold both; rewrite ?E0, ?E1, ?E2; try reflexivity.
  rewrite <- !wrap_lxor by lia. rewrite <- (wrap_small (bt nb') (Z.lxor x p)) by (apply (word_mono nb'); auto; lia).
  f_equal. rewrite <- E. unfold rxor. apply Z.bits_inj'. intros i I. rewrite !Z.lxor_spec.
  destruct (Z.testbit a i), (Z.testbit b i), (Z.testbit c i), (Z.testbit p i); reflexivity.
Qed.
Lemma lshift_val_ok nb X x s : 0 <= s < k -> R nb X x -> R (nb_lshift k nb s) (lshift_val k X s) (rshl k s x).
Proof.
  intros S HR. destruct HR as [EX HX]. pose proof fk_pos. unfold lshift_val. rewrite EX. set (nb' := nb_lshift k nb s).
  pose proof (repBn_word _ _ _ _ _ HX) as Wx. assert (NX : 0 <= nb <= k) by apply HX.
  assert (NB : 0 <= nb' <= k) by (unfold nb', nb_lshift; lia). destruct (bt_ok nb' ltac:(lia)) as [BL BI]. pose proof (store_pos _ BI). pose proof (bt_le nb' k fk NB).
  assert (F : rshl (bt nb') s (wrap (bt nb') x) = rshl k s x /\ rshl k s x < 2 ^ nb').
  { unfold nb', nb_lshift in *. rewrite Z.max_r in * by lia. destruct (Z.le_ge_cases (nb + s) k).
    - rewrite Z.min_l in * by lia.
      assert (B : 0 <= x * 2 ^ s < 2 ^ (nb + s)) by (rewrite pow2_split by lia; pose proof (pow2_pos s ltac:(lia)); destruct Wx; split; nia).
      unfold rshl. rewrite (wrap_small (bt (nb + s)) x) by (apply (word_mono nb); auto; lia).
      rewrite !wrap_small; [lia|apply (word_mono (nb + s)); auto; lia|apply (word_mono (nb + s)); auto; lia].
    - rewrite Z.min_r in * by lia. rewrite (bt_field k fk). rewrite (wrap_small k x) by (apply (word_mono nb); auto; lia).
      split; [reflexivity|]. apply rshl_word. lia. }
  destruct F as [F FB]. rewrite <- F. apply (map_ok nb nb' (bt nb') X x (fun a => rshl (bt nb') s (wrap (bt nb') a))); auto; [split; auto|intros; words| |now rewrite F].
  intros a b _ _. rewrite wrap_lxor, rshl_lxor by lia. reflexivity.
Qed.
Lemma rshift_val_ok nb X x s : 0 <= s -> R nb X x -> R (nb - Z.min nb s) (rshift_val X s) (rshr s x).
Proof.
  intros S HR. destruct HR as [EX HX]. pose proof fk_pos. unfold rshift_val. rewrite EX. unfold nb_rshift. set (nb' := nb - Z.min nb s).
  pose proof (repBn_word _ _ _ _ _ HX) as Wx. assert (NX : 0 <= nb <= k) by apply HX.
  assert (NB : 0 <= nb' <= k) by (unfold nb'; lia). destruct (bt_ok nb' ltac:(lia)) as [BL BI]. pose proof (store_pos _ BI). pose proof (bt_le nb' k fk NB).
  assert (FB : word nb' (rshr s x)).
  { unfold rshr, nb'. split; [apply Z.div_pos; [apply Wx|apply pow2_pos; lia]|]. apply Z.div_lt_upper_bound; [apply pow2_pos; lia|].
    rewrite <- pow2_split by lia. apply Z.lt_le_trans with (2 ^ nb); [apply Wx|]. apply Z.pow_le_mono_r; lia. }
  assert (F : wrap (bt nb') (rshr s x) = rshr s x) by (apply wrap_small, (word_mono nb'); auto; lia).
  rewrite <- F. apply (map_ok nb nb' (bt nb') X x (fun a => wrap (bt nb') (rshr s a))); auto; [split; auto|intros; words| |rewrite F; apply FB].
  intros a b _ _. rewrite rshr_lxor, wrap_lxor by lia. reflexivity.
Qed.
(* the swap network works the same at every width that holds the block *)
Lemma fold_swap_width lv lw lb ls : (lv <= 7)%nat -> (lw <= 7)%nat -> (lb <= lv)%nat -> (lb <= lw)%nat -> Forall (fun l => (l + 2 <= lb)%nat) ls ->
  forall x, word (2 ^ Z.of_nat lb) x -> fold_left (swap_level (2 ^ Z.of_nat lv)) ls x = fold_left (swap_level (2 ^ Z.of_nat lw)) ls x.
Proof.
  intros V7 V7' LV LW F. induction F as [|l ls HL F IH]; intros x Wx; [reflexivity|]. cbn [fold_left].
  assert (P : forall q, 0 < 2 ^ Z.of_nat q) by (intros; apply Z.pow_pos_nonneg; lia).
  assert (M : forall q, (lb <= q)%nat -> 2 ^ Z.of_nat lb <= 2 ^ Z.of_nat q) by (intros; apply Z.pow_le_mono_r; lia).
  pose proof (P lb). pose proof (P lv). pose proof (P lw). pose proof (M lv LV). pose proof (M lw LW).
  assert (B : forall q, (q <= 7)%nat -> (lb <= q)%nat -> word (2 ^ Z.of_nat lb) (swap_level (2 ^ Z.of_nat q) x l)).
  { intros q Q7 QB. apply (fold_swap_bound q [l] lb x Q7 QB); auto. }
  assert (E : swap_level (2 ^ Z.of_nat lv) x l = swap_level (2 ^ Z.of_nat lw) x l).
  { apply (tb_eq_word (2 ^ Z.of_nat lb)); [lia|apply B; auto|apply B; auto|]. intros i I.
    rewrite !swap_level_bits; try lia; try reflexivity; auto; apply (word_mono (2 ^ Z.of_nat lb)); auto; lia. }
  rewrite E. apply IH. now apply B.
Qed.
Lemma swaps_ok ls lb X x : Forall (fun l => (l + 2 <= lb)%nat) ls -> R (2 ^ Z.of_nat lb) X x ->
  R (2 ^ Z.of_nat lb) (mkB (bw X) (2 ^ Z.of_nat lb) (fun i => both (fold_left (swap_level (bw X)) ls) (bx X i))) (fold_left (swap_level k) ls x).
Proof.
  intros F HR. destruct HR as [EX HX]. pose proof fk_pos. pose proof (repBn_word _ _ _ _ _ HX) as Wx.
  destruct HX as [HX [NX [NV [IV HB]]]]. destruct (store_pow _ IV) as [lv [EV LV]].
  assert (L1 : (lb <= lv)%nat) by (rewrite EV in NV; destruct NV as [NV _]; apply Z.pow_le_mono_r_iff in NV; lia).
  assert (L2 : (lb <= w)%nat) by (destruct NX as [_ NX]; apply Z.pow_le_mono_r_iff in NX; lia).
  assert (FW : forall q v, (q <= 7)%nat -> (lb <= q)%nat -> word (2 ^ Z.of_nat q) v -> word (2 ^ Z.of_nat q) (fold_left (swap_level (2 ^ Z.of_nat q)) ls v)).
  { intros q v Q7 QB V. apply (fold_swap_bound q); auto. eapply Forall_impl; [|exact F]. cbn. intros; lia. }
  assert (E : fold_left (swap_level k) ls x = fold_left (swap_level (bw X)) ls x).
  { rewrite EV. apply (fold_swap_width w lv lb); auto; lia. }
  rewrite E. apply (map_ok (2 ^ Z.of_nat lb)); auto.
  - split; auto. now apply repBn_intro.
  - rewrite EV. intros a A. apply FW; auto; lia.
  - rewrite EV. intros a b _ _. apply fold_swap_lxor. apply Z.pow_nonneg; lia.
  - rewrite <- E. apply (fold_swap_bound w ls lb x); auto.
Qed.
Lemma bitdeintl_b3_ok lb s X x : R (2 ^ Z.of_nat lb) X x ->
  exists V, bitdeintl_b3 X s = Ok V /\ R (2 ^ Z.of_nat lb) V (bit_deintl k s (2 ^ Z.of_nat lb) x).
Proof.
  intros HR. unfold bitdeintl_b3. assert (EN : bn X = 2 ^ Z.of_nat lb) by apply HR. rewrite EN.
  replace (has_single_bit (2 ^ Z.of_nat lb)) with true by (symmetry; apply single_bit_pow; exists (Z.of_nat lb); lia).
  eexists. split; [reflexivity|]. apply swaps_ok; auto. apply levels_block.
Qed.
Lemma bitintl_b3_ok lb s X x : R (2 ^ Z.of_nat lb) X x ->
  exists V, bitintl_b3 X s = Ok V /\ R (2 ^ Z.of_nat lb) V (bit_intl k s (2 ^ Z.of_nat lb) x).
Proof.
  intros HR. unfold bitintl_b3. assert (EN : bn X = 2 ^ Z.of_nat lb) by apply HR. rewrite EN.
  replace (has_single_bit (2 ^ Z.of_nat lb)) with true by (symmetry; apply single_bit_pow; exists (Z.of_nat lb); lia).
  eexists. split; [reflexivity|]. apply swaps_ok; auto. apply Forall_rev, levels_block.
Qed.
Lemma aby_implements T : implements_b k (aby_bops k T) R.
Proof.
  pose proof fk_pos as KP. constructor; cbn [aby_bops b_nb b_setnb b_xor b_and b_andp b_lsh b_rsh b_deintl].
  - intros nb X x [E H]. split; [exact E|]. split; [apply H|]. exact (repBn_word _ _ _ _ _ H).
  - intros nb X x nb' [E [H [NB [NV [IV HB]]]]] L' B'. split; [reflexivity|]. cbn [bw bx bn]. destruct (bt_ok nb' ltac:(lia)) as [BL BI].
    pose proof (store_pos _ BI). pose proof (store_pos _ IV).
    pose proof (bt_le nb' k fk ltac:(lia)). apply repBn_intro; auto; [|lia|destruct (Z.max_spec (bw X) (bt nb')) as [[_ ->] | [_ ->]]; auto].
    destruct H as [HR [Hw HE]]. split; [|split; [apply (word_mono (bw X)); auto; lia|exact HE]].
    intros i Hi. destruct (HR i Hi) as [A [B C]]. repeat split; try (apply (word_mono (bw X)); auto; lia); auto; apply A || apply B.
  - intros. now apply xor_bb3_ok.
  - intros. eexists. split; [reflexivity|]. now apply and_bb3_ok.
  - intros n X x p P H. apply and_bp3_ok; auto. apply word_wrap. lia.
  - intros. now apply lshift_val_ok.
  - intros. apply rshift_val_ok; auto. lia.
  - intros l X x s L H. replace l with (Z.of_nat (Z.to_nat l)) in * by lia. now apply bitdeintl_b3_ok.
Qed.

(* ---- the remaining kernels ---- *)
Lemma cast_b3_ok nb v nb' X x : nb <= nb' <= v -> v <= k -> In v [8; 16; 32; 64; 128] -> R nb X x -> R nb' (cast_b3 v nb' X) x.
Proof.
  intros L VK IV HR. pose proof fk_pos. pose proof (store_pos _ IV). assert (N : 0 <= nb <= k) by apply HR.
  assert (Wx : word nb x) by (apply (repBn_word k (bw X) nb (bx X)), HR).
  assert (F : wrap v x = x) by (apply wrap_small, (word_mono nb); auto; lia). rewrite <- F.
  apply (map_ok nb nb' v X x (wrap v)); auto; try lia; [intros; words|intros; apply wrap_lxor; lia|].
  rewrite F. apply Z.lt_le_trans with (2 ^ nb); [apply Wx|apply Z.pow_le_mono_r; lia].
Qed.
Lemma b2p3_ok nb X x rank : (rank < 3)%nat -> R nb X x -> b2p3 k X rank = x.
Proof.
  intros Hr [_ H]. pose proof fk_pos. pose proof (repBn_wordk _ _ _ _ _ H) as Wx. destruct H as [H _].
  destruct (repB_shape _ _ _ H) as [a [b [c [_ [_ [_ [E0 [E1 [E2 E]]]]]]]]]. rewrite <- (wrap_small k x) by exact Wx. unfold b2p3. f_equal. unfold rxor.
  rewrite <- E. three rank; cbn [nx nextrank Nat.eqb]; rewrite ?E0, ?E1, ?E2; cbn [fst snd]; apply Z.bits_inj'; intros i I; rewrite !Z.lxor_spec;
    destruct (Z.testbit a i), (Z.testbit b i), (Z.testbit c i); reflexivity.
Qed.
Lemma b2v3_ok nb X x o : (o < 3)%nat -> R nb X x -> b2v3 k X o o = x.
Proof. intros Ho H. unfold b2v3. rewrite Nat.eqb_refl. now apply (b2p3_ok nb). Qed.
Lemma from_shares_b_ok nb X x : R nb X x -> from_shares_b k X = x.
Proof.
  intros [_ H]. pose proof fk_pos. pose proof (repBn_wordk _ _ _ _ _ H) as Wx. destruct H as [[_ [_ E]] _].
  unfold from_shares_b, rxor. rewrite Z.lxor_0_l, E. now apply wrap_small.
Qed.
Lemma p2b3_ok xs x : Forall (word k) xs -> In x xs -> R (max_bitwidth k xs) (p2b3 k xs x) x.
Proof.
  intros F I. pose proof fk_pos. destruct (max_bitwidth_ok k xs x ltac:(lia) F I) as [NB XB].
  assert (Wx : word k x) by (rewrite Forall_forall in F; auto). unfold p2b3. set (nb' := max_bitwidth k xs) in *.
  destruct (bt_ok nb' ltac:(lia)) as [BL BI]. pose proof (store_pos _ BI). pose proof (bt_le nb' k fk NB).
  split; [reflexivity|]. cbn [bw bx bn]. apply repBn_intro; auto.
  assert (W : word (bt nb') x) by (apply (word_mono nb'); [lia|split; [apply Wx|exact XB]]).
  apply (repB_intro _ _ _ x 0 0); words; try (rewrite wrap_small by exact W; reflexivity); try reflexivity. now rewrite !Z.lxor_0_r.
Qed.
Lemma lsb_word v x : 1 <= v -> word v (lsb x).
Proof. intros V. unfold lsb. apply (word_mono 1); [lia|]. change 1 with (Z.ones 1) at 2. rewrite Z.land_ones by lia. apply (word_wrap 1). lia. Qed.
Lemma rand_b3_ok S : exists x, R 1 (rand_b3 k S) x.
Proof.
  pose proof fk_pos. unfold rand_b3. exists (Z.lxor (Z.lxor (lsb (wrap k (S 0%nat))) (lsb (wrap k (S 1%nat)))) (lsb (wrap k (S 2%nat)))).
  split; [reflexivity|]. cbn [bw bx bn]. change (bt 1) with 8. apply repBn_intro; [|lia|lia|cbn; tauto|].
  - apply (repB_intro 8 _ _ (lsb (wrap k (S 0%nat))) (lsb (wrap k (S 1%nat))) (lsb (wrap k (S 2%nat)))); try (apply lsb_word; lia); try reflexivity. lia.
  - apply (word_lxor 1); [lia| |apply lsb_word; lia]. apply word_lxor; try lia; apply lsb_word; lia.
Qed.
Lemma make_bit_secret_ok x r0 r1 : word 8 x -> R 1 (make_bit_secret x r0 r1) (x mod 2).
Proof.
  intros W. pose proof fk_pos. unfold make_bit_secret. split; [reflexivity|]. cbn [bw bx bn]. change (bt 1) with 8.
  apply repBn_intro; [|lia|lia|cbn; tauto|apply Z.mod_pos_bound; lia].
  apply (repB_intro 8 _ _ (lsb (wrap 8 r0)) (lsb (wrap 8 r1)) (lsb (rsub 8 (rsub 8 x (wrap 8 r0)) (wrap 8 r1)))); try (apply lsb_word; lia); try reflexivity; [lia|].
  change (x mod 2) with (wrap 1 x). unfold lsb. apply (tb_eq_word 1); [lia| |apply word_wrap; lia|].
  - apply (word_lxor 1); [lia| |apply lsb_word; lia]. apply word_lxor; try lia; apply lsb_word; lia.
  - intros i I. replace i with 0 by lia. rewrite !Z.lxor_spec, !Z.land_spec. replace (Z.testbit (wrap 1 x) 0) with (Z.testbit x 0) by (symmetry; apply (Z.mod_pow2_bits_low x 1 0); lia).
    change (Z.testbit 1 0) with true. rewrite !andb_true_r, !Z.bit0_odd.
    assert (D : forall v, Z.odd (wrap 8 v) = Z.odd v).
    { intros v. unfold wrap. rewrite <- !Z.bit0_odd. apply (Z.mod_pow2_bits_low v 8 0). lia. }
    unfold rsub. rewrite !D, !Z.odd_sub, !D, !Z.odd_sub, !D. destruct (Z.odd x), (Z.odd r0), (Z.odd r1); reflexivity.
Qed.
Lemma lshift_b3_ok nb X x s : 0 <= s < k -> s < 32 \/ 0 < nb -> R nb X x ->
  lshift_b3 k X s = Ok (lshift_val k X s) /\ R (nb_lshift k nb s) (lshift_val k X s) (rshl k s x).
Proof.
  intros S D H. pose proof (lshift_val_ok nb X x s S H) as HV. split; [|exact HV]. unfold lshift_b3.
  replace (in_shift (promoted (bw (lshift_val k X s))) s) with true; [reflexivity|]. symmetry. unfold in_shift, promoted.
  assert (N : 0 <= nb <= k) by apply H. destruct HV as [_ [_ [_ [L _]]]]. unfold nb_lshift in L. pose proof fk_pos. lia.
Qed.
Lemma rshift_b3_ok nb X x s : 0 <= s < 32 \/ 0 <= s < bw X -> R nb X x ->
  rshift_b3 X s = Ok (rshift_val X s) /\ R (nb - Z.min nb s) (rshift_val X s) (rshr s x).
Proof.
  intros S H. split; [|apply rshift_val_ok; auto; lia]. unfold rshift_b3.
  replace (in_shift (promoted (bw X)) s) with true; [reflexivity|]. symmetry. unfold in_shift, promoted. lia.
Qed.
Lemma arshift_b3_ok X x s : 0 <= s < k -> R k X x -> exists V, arshift_b3 k X s = Ok V /\ R k V (rsar k s x).
Proof.
  intros S HR. pose proof HR as [EN [HX [NX [[V1 V2] [IV HB]]]]]. assert (EV : bw X = k) by lia. pose proof fk_pos. unfold arshift_b3. rewrite EN, Z.eqb_refl, EV.
  replace (in_shift (promoted k) s) with true by (symmetry; unfold in_shift, promoted; lia). eexists. split; [reflexivity|].
  apply (map_ok k k k X x (rsar k s)); auto; try lia; [apply fk_in|intros; words| |apply rsar_word; lia].
  rewrite EV. intros a b A B. apply rsar_lxor; auto; lia.
Qed.
(* bit reversal of one component *)
Lemma bitrev_el_bits v s e x : 0 < v -> 0 <= s <= e -> e <= v -> (e <? promoted v) && (s <? promoted v) = true -> word v x ->
  exists y, bitrev_el v s e x = Ok y /\ word v y /\
    forall i, 0 <= i < v -> Z.testbit y i = if (s <=? i) && (i <? e) then Z.testbit x (e - 1 - i + s) else Z.testbit x i.
Proof.
  intros V SE EV D W. unfold bitrev_el. rewrite D. eexists. split; [reflexivity|].
  set (T := bitrev_loop _ _ _ _ _ _).
  assert (TB : forall i, 0 <= i -> Z.testbit T i = (s <=? i) && (i <=? e - 1) && Z.testbit x (e - 1 - i + s)).
  { intros i I. unfold T. rewrite bitrev_loop_bits by lia. rewrite Z.testbit_0_l. cbn [orb]. now replace (e - 1 - s + s) with (e - 1) by lia. }
  split.
  - apply word_of_bits; [lia|apply Z.lor_nonneg; split; [apply Z.land_nonneg; left; apply W|apply word_wrap; lia]|]. intros i I. unfold bit. rewrite Z.lor_spec, Z.land_spec.
    rewrite (word_bit_high v x), !tb_wrap by (auto; lia). destruct (Z.ltb_spec i v); [lia|reflexivity].
  - intros i I. rewrite Z.lor_spec, Z.land_spec, !tb_wrap, TB by lia. destruct (Z.ltb_spec i v); [|lia]. cbn [andb].
    rewrite Z.lnot_spec, tb_wrap, pow2_sub_bits by lia. destruct (Z.ltb_spec i v); [|lia]. cbn [andb].
    destruct (Z.leb_spec s i), (Z.ltb_spec i e), (Z.leb_spec i (e - 1)); try lia; cbn [andb negb]; rewrite ?andb_false_r, ?andb_true_r, ?orb_false_r; reflexivity.
Qed.
Definition revd (x y s e : Z) : Prop := forall i, 0 <= i -> Z.testbit y i = if (s <=? i) && (i <? e) then Z.testbit x (e - 1 - i + s) else Z.testbit x i.
Lemma bitrev_b3_ok nb X x s e : 0 <= s <= e -> e <= k -> R nb X x ->
  e < Z.max 32 (bt (Z.max nb e)) ->
  exists V y, bitrev_b3 X s e = Ok V /\ R (Z.max nb e) V y /\ revd x y s e.
Proof.
  intros SE EK HR D. pose proof fk_pos. destruct HR as [EN HX]. assert (N : 0 <= nb <= k) by apply HX.
  pose proof (repBn_word _ _ _ _ _ HX) as Wx.
  unfold bitrev_b3. rewrite EN. replace ((s <=? e) && (e <=? 128)) with true by (symmetry; lia). set (nb' := Z.max nb e) in *. assert (NB : 0 <= nb' <= k) by lia.
  destruct (bt_ok nb' ltac:(lia)) as [BL BI]. pose proof (store_pos _ BI). pose proof (bt_le nb' k fk NB). set (v := bt nb') in *.
  assert (DD : (e <? promoted v) && (s <? promoted v) = true) by (unfold promoted; lia).
  assert (BE : forall a, word v a -> exists y, bitrev_el v s e a = Ok y /\ word v y /\
    forall i, 0 <= i < v -> Z.testbit y i = if (s <=? i) && (i <? e) then Z.testbit a (e - 1 - i + s) else Z.testbit a i).
  { intros a A. apply bitrev_el_bits; auto; lia. }
  set (f := fun a => match bitrev_el v s e (wrap v a) with Ok r => r | _ => 0 end).
  assert (BF : forall a, word v (f a) /\ forall i, 0 <= i < v -> Z.testbit (f a) i = if (s <=? i) && (i <? e) then Z.testbit (wrap v a) (e - 1 - i + s) else Z.testbit (wrap v a) i).
  { intros a. destruct (BE (wrap v a)) as [y [Ey Hy]]; [words|]. unfold f. rewrite Ey. exact Hy. }
  destruct (BE 0 ltac:(words)) as [y0 [E0 _]]. rewrite E0. cbn [rbind].
  assert (Wv : word v x) by (apply (word_mono nb); auto; lia).
  assert (RV : revd x (f x) s e).
  { intros i I. destruct (BF x) as [W B]. rewrite (wrap_small v x) in B by exact Wv. destruct (Z.lt_ge_cases i v); [now apply B|].
    rewrite (word_bit_high v (f x) i) by (auto; lia). destruct (Z.leb_spec s i), (Z.ltb_spec i e); try lia; cbn [andb]; rewrite (word_bit_high v x i) by (auto; lia); reflexivity. }
  eexists _, (f x). split; [reflexivity|]. split; [|exact RV].
  apply (map_ok nb nb' v X x f); auto; [split; auto| | |].
  - intros a _. apply BF.
  - intros a b _ _. apply (tb_eq_word v); [lia|apply BF|apply word_lxor; [lia|apply BF|apply BF]|]. intros i I. rewrite Z.lxor_spec.
    rewrite (proj2 (BF (Z.lxor a b)) i I), (proj2 (BF a) i I), (proj2 (BF b) i I). rewrite wrap_lxor by lia. destruct ((s <=? i) && (i <? e)); apply Z.lxor_spec.
  - destruct (BF x) as [W _]. enough (WN : word nb' (f x)) by apply WN. apply word_of_bits; [lia|apply W|]. intros i I. unfold bit. rewrite RV by lia.
    destruct (Z.leb_spec s i), (Z.ltb_spec i e); try lia; cbn [andb]; apply (word_bit_high nb); auto; lia.
Qed.
End Field.
