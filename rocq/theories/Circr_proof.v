(* Circuits over related representations: whatever implements the word operations computes the plain circuit. *)
From Verif Require Import Base Ring_model Ring_spec Ring_proof Circ_model Circ_spec Circ_proof Circc_proof Semi_model.
From Coq Require Import ZifyBool ZifyNat.
Open Scope Z_scope.

Lemma fold_left_rel {A B C} (R : A -> B -> Prop) (f : A -> C -> A) (g : B -> C -> B) ls : forall a b,
  R a b -> (forall a b l, In l ls -> R a b -> R (f a l) (g b l)) -> R (fold_left f ls a) (fold_left g ls b).
Proof.
  induction ls as [|l ls IH]; intros a b H S; [exact H|]. cbn [fold_left]. apply IH.
  - apply S; [now left|exact H].
  - intros a' b' l' I. apply S. now right.
Qed.
Lemma pow2_lt a b : 0 <= a -> a < b -> 2 ^ a < 2 ^ b.
Proof. intros A B. apply Z.pow_lt_mono_r; lia. Qed.
Lemma level_in_range k nbits l : nbits <= k -> (Z.of_nat l < log2ceil nbits) -> 0 <= 2 ^ Z.of_nat l < k.
Proof.
  intros N L. split; [apply Z.pow_nonneg; lia|].
  assert (2 <= nbits). { destruct (Z.ltb_spec nbits 2); [|lia]. unfold log2ceil in L. destruct (Z.leb_spec nbits 1); lia. }
  pose proof (log2ceil_half nbits ltac:(lia)). assert (2 ^ Z.of_nat l <= 2 ^ (log2ceil nbits - 1)) by (apply Z.pow_le_mono_r; lia). lia.
Qed.

(* an implementation of the basic blocks, for in-range shift amounts *)
Record implements {T} (k : Z) (c : cbb T) (R : T -> Z -> Prop) : Prop := {
  im_word : forall a x, R a x -> word k x;
  im_xor : forall a b x y, R a x -> R b y -> R (c_xor c a b) (Z.lxor x y);
  im_and : forall t a b x y, R a x -> R b y -> R (c_and c t a b) (Z.land x y);
  im_lsh : forall a x s, 0 <= s < k -> R a x -> R (c_lsh c a s) (rshl k s x);
  im_rsh : forall a x s, 0 <= s < k -> R a x -> R (c_rsh c a s) (rshr s x);
  im_init : forall a x m, 0 <= m < 2 ^ 128 -> R a x -> R (c_init c a m) (wrap k m);
  im_setnb : forall a x nb, 0 <= nb <= k -> x < 2 ^ nb -> R a x -> R (c_setnb c a nb) x }.

Lemma mask_range (l : list Z) n : forallb (fun m => (0 <=? m) && (m <? 2 ^ 128)) l = true -> 0 <= nth n l 0 < 2 ^ 128.
Proof.
  intros F. rewrite forallb_forall in F. destruct (Nat.ltb_spec n (length l)) as [L|L].
  - specialize (F (nth n l 0) (nth_In l 0 L)). lia.
  - rewrite nth_overflow by lia. lia.
Qed.
Section Param.
Variable T : Type.
Variable w : nat.
Hypothesis W1 : (1 <= w)%nat.
Hypothesis W7 : (w <= 7)%nat.
Let k := 2 ^ Z.of_nat w.
Variable c : cbb T.
Variable R : T -> Z -> Prop.
Hypothesis I : implements k c R.
Let RP (ab : T * T) (xy : Z * Z) : Prop := R (fst ab) (fst xy) /\ R (snd ab) (snd xy).
Local Lemma k_ge2 : 2 <= k.
Proof. change 2 with (2 ^ 1) at 1. apply Z.pow_le_mono_r; lia. Qed.
Local Lemma k_le : k <= 128.
Proof. change 128 with (2 ^ 7). apply Z.pow_le_mono_r; lia. Qed.
Lemma kogge_stone_rel a b x y nbits : 1 <= nbits <= k -> R a x -> R b y ->
  R (kogge_stone T c a b nbits) (kogge_stone Z (plain k) x y nbits).
Proof.
  intros NB A B. pose proof k_ge2. unfold kogge_stone.
  assert (F : RP (fold_left (ks_level T c) (seq 0 (Z.to_nat (log2ceil nbits))) (c_xor c a b, c_and c 0 a b))
                 (fold_left (ks_level Z (plain k)) (seq 0 (Z.to_nat (log2ceil nbits))) (c_xor (plain k) x y, c_and (plain k) 0 x y))).
  { apply fold_left_rel.
    - split; cbn [fst snd plain c_xor c_and]; [now apply (im_xor k c R I)|now apply (im_and k c R I)].
    - intros [P G] [p g] l L [HP HG]. apply in_seq in L. cbn [fst snd] in *.
      pose proof (level_in_range k nbits l ltac:(lia) ltac:(lia)) as SR. unfold ks_level. split; cbn [fst snd plain c_xor c_and c_lsh].
      + apply (im_and k c R I); [exact HP|]. now apply (im_lsh k c R I).
      + apply (im_xor k c R I); [exact HG|]. apply (im_and k c R I); [exact HP|]. now apply (im_lsh k c R I). }
  destruct (fold_left (ks_level T c) _ _) as [P G]. destruct (fold_left (ks_level Z (plain k)) _ _) as [p g]. destruct F as [_ HG]. cbn [snd] in HG.
  cbn [plain c_xor c_lsh]. apply (im_xor k c R I); [now apply (im_xor k c R I)|]. apply (im_lsh k c R I); [lia|exact HG].
Qed.
Lemma skl_spread_rel a x idx : (idx <= w)%nat -> R a x -> R (skl_spread T c idx a) (skl_spread Z (plain k) idx x).
Proof.
  intros L A. unfold skl_spread. apply fold_left_rel; [exact A|]. intros a' x' l LI H. apply in_seq in LI.
  cbn [plain c_xor c_lsh]. apply (im_xor k c R I); [exact H|]. apply (im_lsh k c R I); [|exact H].
  split; [apply Z.pow_nonneg; lia|]. apply pow2_lt; lia.
Qed.
Lemma sklansky_rel a b x y nbits : 1 <= nbits <= k -> R a x -> R b y ->
  R (sklansky T c a b nbits) (sklansky Z (plain k) x y nbits).
Proof.
  intros NB A B. pose proof k_ge2. pose proof (log2ceil_le nbits (Z.of_nat w) ltac:(lia) ltac:(apply NB)) as LW. unfold sklansky.
  assert (F : RP (fold_left (skl_level T c) (seq 0 (Z.to_nat (log2ceil nbits))) (c_xor c a b, c_and c 0 a b))
                 (fold_left (skl_level Z (plain k)) (seq 0 (Z.to_nat (log2ceil nbits))) (c_xor (plain k) x y, c_and (plain k) 0 x y))).
  { apply fold_left_rel.
    - split; cbn [fst snd plain c_xor c_and]; [now apply (im_xor k c R I)|now apply (im_and k c R I)].
    - intros [P G] [p g] l L [HP HG]. apply in_seq in L. cbn [fst snd] in *.
      assert (LL : (l <= w)%nat) by lia.
      pose proof (mask_range skl_sel l eq_refl) as M1. pose proof (mask_range skl_keep l eq_refl) as M2.
      assert (I1 : R (c_init c G (nth l skl_sel 0)) (wrap k (nth l skl_sel 0))) by (eapply (im_init k c R I); eauto).
      assert (I2 : R (c_init c G (nth l skl_keep 0)) (wrap k (nth l skl_keep 0))) by (eapply (im_init k c R I); eauto).
      assert (SP : forall t z Z', R z Z' -> R (skl_spread T c l (c_lsh c (c_and c t z (c_init c G (nth l skl_sel 0))) 1))
          (skl_spread Z (plain k) l (rshl k 1 (Z.land Z' (wrap k (nth l skl_sel 0)))))).
      { intros t z Z' HZ. apply skl_spread_rel; [exact LL|]. apply (im_lsh k c R I); [lia|]. now apply (im_and k c R I). }
      unfold skl_level. cbv zeta. split; cbn [fst snd plain c_xor c_and c_lsh c_init].
      + apply (im_and k c R I); [exact HP|]. apply (im_xor k c R I); [now apply SP|exact I2].
      + apply (im_xor k c R I); [exact HG|]. apply (im_and k c R I); [exact HP|]. now apply SP. }
  destruct (fold_left (skl_level T c) _ _) as [P G]. destruct (fold_left (skl_level Z (plain k)) _ _) as [p g]. destruct F as [_ HG]. cbn [snd] in HG.
  cbn [plain c_xor c_lsh]. apply (im_xor k c R I); [now apply (im_xor k c R I)|]. apply (im_lsh k c R I); [lia|exact HG].
Qed.
Local Lemma ones_range h : 0 <= h <= 128 -> 0 <= 2 ^ h - 1 < 2 ^ 128.
Proof.
  intros H. assert (1 <= 2 ^ h) by (pose proof (Z.pow_pos_nonneg 2 h); lia).
  assert (2 ^ h <= 2 ^ 128) by (apply Z.pow_le_mono_r; lia). lia.
Qed.
Lemma odd_even_split_rel t a x nbits : 2 <= nbits <= k -> R a x ->
  R (odd_even_split T c t a nbits) (odd_even_split Z (plain k) t x nbits).
Proof.
  intros NB A. pose proof k_ge2. pose proof k_le. unfold odd_even_split.
  assert (F : R (fold_left (oes_level T c t) (seq 0 (Z.to_nat (log2ceil nbits - 1))) (c_lsh c a 0))
                (fold_left (oes_level Z (plain k) t) (seq 0 (Z.to_nat (log2ceil nbits - 1))) (c_lsh (plain k) x 0))).
  { apply fold_left_rel; [apply (im_lsh k c R I); [lia|exact A]|]. intros r z l L HR. apply in_seq in L.
    pose proof (level_in_range k nbits l ltac:(lia) ltac:(lia)) as SR.
    pose proof (mask_range keep_masks l eq_refl) as M1. pose proof (mask_range swap_masks l eq_refl) as M2.
    unfold oes_level. cbn [plain c_xor c_and c_lsh c_rsh c_init].
    assert (I1 : R (c_init c r (nth l keep_masks 0)) (wrap k (nth l keep_masks 0))) by (eapply (im_init k c R I); eauto).
    assert (I2 : R (c_init c r (nth l swap_masks 0)) (wrap k (nth l swap_masks 0))) by (eapply (im_init k c R I); eauto).
    apply (im_xor k c R I); [now apply (im_and k c R I)|]. apply (im_xor k c R I).
    - apply (im_and k c R I); [now apply (im_rsh k c R I)|exact I2].
    - apply (im_lsh k c R I); [exact SR|]. now apply (im_and k c R I). }
  cbv zeta. set (r := fold_left (oes_level T c t) _ _) in *. set (z := fold_left (oes_level Z _ t) _ _) in *.
  destruct (has_single_bit nbits) eqn:SB; [exact F|]. cbn [plain c_xor c_and c_lsh c_rsh c_init].
  assert (D : nbits / 2 < nbits) by (apply Z.div_lt; lia). assert (D0 : 0 <= nbits / 2) by (apply Z.div_pos; lia).
  apply (im_xor k c R I).
  - apply (im_lsh k c R I); [lia|]. apply (im_rsh k c R I); [|exact F]. split; [apply Z.pow_nonneg; lia|].
    unfold log2floor. destruct (Z.leb_spec nbits 1); [lia|]. unfold has_single_bit in SB. pose proof (Z.log2_spec nbits). lia.
  - apply (im_and k c R I); [exact F|]. eapply (im_init k c R I); [|exact F]. apply ones_range. lia.
Qed.
Lemma bit_split_rel t a x kk : 2 <= kk <= k -> kk mod 2 = 0 -> R a x ->
  RP (bit_split T c t a kk) (bit_split Z (plain k) t x kk).
Proof.
  intros KK EV A. pose proof k_ge2. pose proof k_le.
  pose proof (bit_split_plain w W7 W1 t x kk KK EV (im_word k c R I _ _ A)) as [t0 [t1 [E [T0 [T1 _]]]]]. fold k in E.
  assert (D : kk / 2 < kk) by (apply Z.div_lt; lia). assert (D0 : 0 <= kk / 2) by (apply Z.div_pos; lia).
  pose proof (odd_even_split_rel t a x kk KK A) as O. unfold bit_split in E.
  set (perm := odd_even_split Z (plain k) t x kk) in *. cbn [plain c_and c_rsh c_init c_setnb] in E. injection E as E0 E1.
  assert (IM : R (c_init c (odd_even_split T c t a kk) (2 ^ (kk / 2) - 1)) (wrap k (2 ^ (kk / 2) - 1))).
  { eapply (im_init k c R I); [|exact O]. apply ones_range. lia. }
  unfold bit_split. fold perm. cbn [plain c_and c_rsh c_init c_setnb]. split; cbn [fst snd]; rewrite ?E0, ?E1.
  - rewrite <- E0 in T0 |- *. apply (im_setnb k c R I); [lia|apply T0|]. now apply (im_and k c R I).
  - rewrite <- E1 in T1 |- *. apply (im_setnb k c R I); [lia|apply T1|]. apply (im_and k c R I); [|exact IM]. apply (im_rsh k c R I); [lia|exact O].
Qed.
Lemma carry_loop_rel : forall fuel t P G p g kc, kc <= k -> R P p -> R G g ->
  R (carry_loop T c fuel t P G kc) (carry_loop Z (plain k) fuel t p g kc).
Proof.
  pose proof k_ge2.
  assert (KE : k mod 2 = 0).
  { unfold k. replace (Z.of_nat w) with (1 + (Z.of_nat w - 1)) by lia. rewrite Z.pow_add_r by lia. change (2 ^ 1) with 2. rewrite Z.mul_comm. apply Z.mod_mul. lia. }
  induction fuel as [|f IH]; intros t P G p g kc KC HP HG; [exact HG|]. cbn [carry_loop].
  destruct (Z.leb_spec kc 1) as [L|L]; [exact HG|].
  assert (Main : forall P G p g kc, 2 <= kc <= k -> kc mod 2 = 0 -> R P p -> R G g ->
    R (let '(P0, P1) := bit_split T c t P kc in let '(G0, G1) := bit_split T c (t + 50) G kc in
       carry_loop T c f (t + 110) (c_and c (t + 100) P1 P0) (c_xor c G1 (c_and c (t + 101) P1 G0)) (kc / 2))
      (let '(P0, P1) := bit_split Z (plain k) t p kc in let '(G0, G1) := bit_split Z (plain k) (t + 50) g kc in
       carry_loop Z (plain k) f (t + 110) (c_and (plain k) (t + 100) P1 P0) (c_xor (plain k) G1 (c_and (plain k) (t + 101) P1 G0)) (kc / 2))).
  { clear P G p g kc KC HP HG L. intros P G p g kc KC EV HP HG.
    pose proof (bit_split_rel t P p kc KC EV HP) as SP. pose proof (bit_split_rel (t + 50) G g kc KC EV HG) as SG.
    destruct (bit_split T c t P kc) as [P0 P1]. destruct (bit_split Z (plain k) t p kc) as [p0 p1].
    destruct (bit_split T c (t + 50) G kc) as [G0 G1]. destruct (bit_split Z (plain k) (t + 50) g kc) as [g0 g1].
    destruct SP as [SP0 SP1]. destruct SG as [SG0 SG1]. cbn [fst snd] in *.
    assert (kc / 2 < kc) by (apply Z.div_lt; lia). apply IH; [lia| |].
    - now apply (im_and k c R I).
    - apply (im_xor k c R I); [exact SG1|]. now apply (im_and k c R I). }
  destruct (Z.eqb_spec (kc mod 2) 0) as [E|E].
  - apply Main; auto. lia.
  - pose proof (Z.mod_pos_bound kc 2 ltac:(lia)). pose proof (Z.div_mod kc 2 ltac:(lia)). pose proof (Z.div_mod k 2 ltac:(lia)).
    apply Main; [lia| |apply (im_lsh k c R I); [lia|exact HP]|apply (im_lsh k c R I); [lia|exact HG]].
    symmetry. apply (Z.mod_unique _ _ (kc / 2 + 1)); [left; lia|lia].
Qed.
Theorem kogge_stone_correct a b x y nbits : 1 <= nbits <= k -> R a x -> R b y -> x < 2 ^ nbits -> y < 2 ^ nbits ->
  R (kogge_stone T c a b nbits) (wrap k (x + y)).
Proof.
  intros NB A B XN YN. pose proof k_ge2. rewrite <- (kogge_stone_plain k x y ltac:(lia) (im_word k c R I _ _ A) (im_word k c R I _ _ B) nbits NB XN YN).
  now apply kogge_stone_rel.
Qed.
Theorem sklansky_correct a b x y nbits : 1 <= nbits <= k -> R a x -> R b y -> x < 2 ^ nbits -> y < 2 ^ nbits ->
  R (sklansky T c a b nbits) (wrap k (x + y)).
Proof.
  intros NB A B XN YN. pose proof k_ge2. pose proof k_le.
  rewrite <- (sklansky_plain k ltac:(lia) x y (im_word k c R I _ _ A) (im_word k c R I _ _ B) nbits NB XN YN).
  now apply sklansky_rel.
Qed.
Theorem carry_out_correct a b x y nbits : 1 <= nbits <= k -> R a x -> R b y ->
  exists z, carry_out T c a b nbits = Ok z /\ R z (carry x y nbits).
Proof.
  intros NB A B. pose proof k_ge2.
  pose proof (carry_out_plain w W7 W1 x y nbits NB (im_word k c R I _ _ A) (im_word k c R I _ _ B)) as E. fold k in E.
  unfold carry_out in *. destruct (Z.eqb_spec nbits 0); [lia|]. cbv zeta in *.
  destruct (Z.eqb_spec nbits 1) as [N|N].
  - injection E as E. eexists. split; [reflexivity|]. rewrite <- E. cbn [plain c_and c_init].
    assert (RA : R (c_and c 0 a b) (Z.land x y)) by now apply (im_and k c R I).
    apply (im_and k c R I); [exact RA|]. eapply (im_init k c R I); [|exact RA]. lia.
  - injection E as E. eexists. split; [reflexivity|]. rewrite <- E. apply carry_loop_rel; [lia|now apply (im_xor k c R I)|now apply (im_and k c R I)].
Qed.
End Param.

(* ---- ab_api circuits: a share T with bit count nb represents the word x ---- *)
Record implements_b {T} (k : Z) (b : bops T) (R : Z -> T -> Z -> Prop) : Prop := {
  ib_nb : forall nb X x, R nb X x -> b_nb b X = nb /\ 0 <= nb <= k /\ 0 <= x < 2 ^ nb;
  ib_setnb : forall nb X x nb', R nb X x -> 0 <= nb' <= k -> x < 2 ^ nb' -> R nb' (b_setnb b X nb') x;
  ib_xor : forall n m X Y x y, R n X x -> R m Y y -> R (Z.max n m) (b_xor b X Y) (Z.lxor x y);
  ib_and : forall t n m X Y x y, R n X x -> R m Y y -> exists V, b_and b t X Y = Ok V /\ R (Z.min n m) V (Z.land x y);
  ib_andp : forall n X x p, 0 <= p < 2 ^ 128 -> R n X x -> R (Z.min n (bitwidth (wrap k p))) (b_andp b X p) (Z.land x (wrap k p));
  ib_lsh : forall n X x s, 0 <= s < k -> R n X x -> R (nb_lshift k n s) (b_lsh b X s) (rshl k s x);
  ib_rsh : forall n X x s, 0 <= s < k -> R n X x -> R (n - Z.min n s) (b_rsh b X s) (rshr s x);
  ib_deintl : forall l X x s, 0 <= l -> R (2 ^ l) X x ->
    exists V, b_deintl b X s = Ok V /\ R (2 ^ l) V (bit_deintl k s (2 ^ l) x) }.

Lemma bitwidth_ones h : 0 <= h -> bitwidth (2 ^ h - 1) = h.
Proof.
  intros H. unfold bitwidth. destruct (Z.eqb_spec (2 ^ h - 1) 0) as [E|E].
  - destruct (Z.eq_dec h 0); [lia|]. assert (2 ^ 1 <= 2 ^ h) by (apply Z.pow_le_mono_r; lia). change (2 ^ 1) with 2 in *. lia.
  - assert (h <> 0) by (intros ->; now apply E). assert (1 <= 2 ^ h) by (pose proof (Z.pow_pos_nonneg 2 h); lia).
    assert (E2 : 2 ^ h = 2 * 2 ^ (h - 1)) by (replace h with (1 + (h - 1)) at 1 by lia; rewrite Z.pow_add_r by lia; lia).
    rewrite (Z.log2_unique (2 ^ h - 1) (h - 1)); [lia|lia|]. replace (Z.succ (h - 1)) with h by lia. lia.
Qed.
Lemma b2z_cyb x y i : 0 <= i -> Z.b2z (cyb x y i) = carry x y i.
Proof. intros Hi. unfold cyb. pose proof (carry_range x y i Hi). destruct (Z.eqb_spec (carry x y i) 1); cbn [Z.b2z]; lia. Qed.
Section AB.
Variable T : Type.
Variable w : nat.
Hypothesis W1 : (1 <= w)%nat.
Hypothesis W7 : (w <= 7)%nat.
Let k := 2 ^ Z.of_nat w.
Variable b : bops T.
Variable R : Z -> T -> Z -> Prop.
Hypothesis I : implements_b k b R.
Local Lemma ab_k_ge2 : 2 <= k.
Proof. change 2 with (2 ^ 1) at 1. apply Z.pow_le_mono_r; lia. Qed.
Local Lemma ab_k_le : k <= 128.
Proof. change 128 with (2 ^ 7). apply Z.pow_le_mono_r; lia. Qed.

Lemma vand2_ok t n m X1 X2 Y1 Y2 x1 x2 y1 y2 : R n X1 x1 -> R n X2 x2 -> R m Y1 y1 -> R m Y2 y2 ->
  exists V1 V2, vand2 T b t X1 X2 Y1 Y2 = Ok (V1, V2) /\ R (Z.min n m) V1 (Z.land x1 y1) /\ R (Z.min n m) V2 (Z.land x2 y2).
Proof.
  intros A1 A2 B1 B2. unfold vand2.
  rewrite (proj1 (ib_nb k b R I _ _ _ A1)), (proj1 (ib_nb k b R I _ _ _ A2)), (proj1 (ib_nb k b R I _ _ _ B1)), (proj1 (ib_nb k b R I _ _ _ B2)), !Z.eqb_refl. cbn [andb].
  destruct (ib_and k b R I t _ _ _ _ _ _ A1 B1) as [V1 [E1 H1]]. destruct (ib_and k b R I (S t) _ _ _ _ _ _ A2 B2) as [V2 [E2 H2]].
  rewrite E1. cbn [rbind]. rewrite E2. cbn [rbind]. eauto 6.
Qed.
Lemma ppa_levels_ok t n ls : forall P G p g, Forall (fun l => 0 <= 2 ^ Z.of_nat l < k) ls -> R n P p -> R n G g ->
  exists G', ppa_levels T b t ls P G = Ok G' /\ R n G' (snd (fold_left (ks_level Z (plain k)) ls (p, g))).
Proof.
  induction ls as [|l ls IH]; intros P G p g F HP HG; [exists G; now split|].
  inversion F as [|? ? FL FR]; subst. cbn [ppa_levels fold_left].
  pose proof (ib_lsh k b R I _ _ _ _ FL HP) as LP. pose proof (ib_lsh k b R I _ _ _ _ FL HG) as LG.
  destruct (vand2_ok (t + 2 * l + 1) _ _ P P _ _ _ _ _ _ HP HP LP LG) as [V1 [V2 [E [H1 H2]]]]. rewrite E. cbn [rbind].
  pose proof (ib_nb k b R I _ _ _ HP) as [_ [NK _]].
  assert (EN : Z.min n (nb_lshift k n (2 ^ Z.of_nat l)) = n) by (unfold nb_lshift; lia). rewrite EN in H1, H2.
  pose proof (ib_xor k b R I _ _ _ _ _ _ HG H2) as HX. rewrite Z.max_id in HX.
  unfold ks_level at 2. cbn [plain c_xor c_and c_lsh]. fold (plain k). now apply IH.
Qed.
Lemma add_bb_ok t n X Y x y : 1 <= n -> R n X x -> R n Y y ->
  exists V, add_bb T b t X Y = Ok V /\ R (Z.min (n + 1) k) V (wrap k (x + y)).
Proof.
  intros N HX HY. pose proof ab_k_ge2. destruct (ib_nb k b R I _ _ _ HX) as [NX [NK XR]]. destruct (ib_nb k b R I _ _ _ HY) as [NY [_ YR]].
  unfold add_bb. rewrite NX, NY, Z.eqb_refl. unfold ppa_kogge_stone.
  destruct (ib_and k b R I t _ _ _ _ _ _ HX HY) as [G [EG HG]]. rewrite EG. cbn [rbind]. rewrite Z.min_id in HG.
  pose proof (ib_xor k b R I _ _ _ _ _ _ HX HY) as HP. rewrite Z.max_id in HP.
  destruct (ppa_levels_ok t n (seq 0 (Z.to_nat (log2ceil n))) (b_xor b X Y) G (Z.lxor x y) (Z.land x y)) as [G' [EG' HG']]; [|exact HP|exact HG|].
  { apply Forall_forall. intros l L. apply in_seq in L. apply (level_in_range k n); lia. }
  rewrite EG'. cbn [rbind]. eexists. split; [reflexivity|].
  assert (WX : word k x) by (apply (word_le n); [lia|exact XR]). assert (WY : word k y) by (apply (word_le n); [lia|exact YR]).
  assert (E : wrap k (x + y) = Z.lxor (Z.lxor x y) (rshl k 1 (snd (fold_left (ks_level Z (plain k)) (seq 0 (Z.to_nat (log2ceil n))) (Z.lxor x y, Z.land x y))))).
  { rewrite <- (kogge_stone_plain k x y ltac:(lia) WX WY n) by lia. unfold kogge_stone. cbn [plain c_xor c_and c_lsh]. fold (plain k).
    destruct (fold_left (ks_level Z (plain k)) _ _). reflexivity. }
  rewrite E. replace (Z.min (n + 1) k) with (Z.max n (nb_lshift k n 1)) by (unfold nb_lshift; lia).
  apply (ib_xor k b R I); [exact HP|]. apply (ib_lsh k b R I); [lia|exact HG'].
Qed.

Lemma bit_scatter_ok l X x : 1 <= l -> R (2 ^ l) X x -> exists Vh Vl, bit_scatter T b X 0 = Ok (Vh, Vl) /\
  exists h o, R (2 ^ (l - 1)) Vh h /\ R (2 ^ (l - 1)) Vl o /\
  forall m, 0 <= m < 2 ^ (l - 1) -> Z.testbit o m = Z.testbit x (2 * m) /\ Z.testbit h m = Z.testbit x (2 * m + 1).
Proof.
  intros L HX. pose proof ab_k_ge2 as K2. pose proof ab_k_le as K128. destruct (ib_nb k b R I _ _ _ HX) as [NX [NK XR]]. unfold bit_scatter. rewrite NX.
  replace (has_single_bit (2 ^ l)) with true by (symmetry; apply single_bit_pow; exists l; lia).
  destruct (ib_deintl k b R I l X x 0 ltac:(lia) HX) as [V [E HV]]. rewrite E. cbn [rbind]. clear E.
  assert (E2 : 2 ^ l = 2 * 2 ^ (l - 1)) by (replace l with (1 + (l - 1)) at 1 by lia; rewrite Z.pow_add_r by lia; lia).
  set (H := 2 ^ (l - 1)) in *. assert (HP : 0 < H) by (apply Z.pow_pos_nonneg; lia).
  assert (EH : 2 ^ l / 2 = H) by (rewrite E2, Z.mul_comm, Z.div_mul; lia). rewrite EH.
  eexists _, _. split; [reflexivity|]. eexists _, _. split; [|split].
  - replace H with (2 ^ l - Z.min (2 ^ l) H) at 1 by lia. apply (ib_rsh k b R I); [lia|exact HV].
  - assert (OR : 0 <= 2 ^ H - 1 < 2 ^ 128).
    { assert (1 <= 2 ^ H) by (pose proof (Z.pow_pos_nonneg 2 H); lia). assert (2 ^ H <= 2 ^ 128) by (apply Z.pow_le_mono_r; lia). lia. }
    assert (WR : wrap k (2 ^ H - 1) = 2 ^ H - 1).
    { apply wrap_small. assert (2 ^ H <= 2 ^ k) by (apply Z.pow_le_mono_r; lia). lia. }
    pose proof (ib_andp k b R I _ _ _ _ OR HV) as HA. rewrite WR, bitwidth_ones in HA by lia.
    replace (Z.min (2 ^ l) H) with H in HA by lia. exact HA.
  - intros m M.
    assert (WX : word k x) by (apply (word_le (2 ^ l)); [lia|exact XR]).
    assert (LL : log2ceil (2 ^ l) = l) by (apply log2ceil_pow; lia).
    pose proof (bit_deintl_ok w W7 0 l (2 ^ l) x ltac:(fold k; lia) LL ltac:(lia) WX) as [DW DB]. fold k in DW, DB. unfold bit in DB.
    change (Z.of_nat 0) with 0 in DB. change (2 ^ 0) with 1 in DB. change (2 ^ (0 + 1)) with 2 in DB.
    replace (l - 1 - 0) with (l - 1) in DB by lia. fold H in DB.
    rewrite Z.land_spec, tb_rshr by lia. replace (2 ^ H - 1) with (Z.ones H) by (rewrite Z.ones_equiv; lia).
    rewrite Z.ones_spec_low by lia. rewrite andb_true_r. split.
    + specialize (DB 0 0 m 0 ltac:(lia) ltac:(lia) ltac:(lia) ltac:(lia) ltac:(lia)).
      replace (0 * 2 ^ l + 0 * H + m * 1 + 0) with m in DB by ring. rewrite DB. f_equal. ring.
    + specialize (DB 0 1 m 0 ltac:(lia) ltac:(lia) ltac:(lia) ltac:(lia) ltac:(lia)).
      replace (0 * 2 ^ l + 1 * H + m * 1 + 0) with (m + H) in DB by ring. rewrite DB. f_equal. ring.
Qed.
Lemma carry_a2b_loop_ok : forall l fuel t P G p g, (l <= fuel)%nat -> R (2 ^ Z.of_nat l) P p -> R (2 ^ Z.of_nat l) G g ->
  exists V, carry_a2b_loop T b fuel t P G (2 ^ Z.of_nat l) = Ok V /\
    R 1 V (Z.b2z (gw (Z.testbit p) (Z.testbit g) (2 ^ Z.of_nat l - 1) (2 ^ l))).
Proof.
  induction l as [|l IH]; intros fuel t P G p g F HP HG.
  - exists G. split; [destruct fuel; reflexivity|]. change (2 ^ Z.of_nat 0) with 1 in *. change (2 ^ 0)%nat with 1%nat. rewrite gw_1.
    destruct (ib_nb k b R I _ _ _ HG) as [_ [_ GR]]. change (2 ^ 1) with 2 in GR. assert (C : g = 0 \/ g = 1) by lia.
    destruct C as [-> | ->]; exact HG.
  - destruct fuel as [|f]; [lia|]. cbn [carry_a2b_loop].
    assert (E2 : 2 ^ Z.of_nat (S l) = 2 * 2 ^ Z.of_nat l) by (rewrite Nat2Z.inj_succ; apply Z.pow_succ_r; lia).
    assert (LP : 0 < 2 ^ Z.of_nat l) by (apply Z.pow_pos_nonneg; lia).
    assert (EM : 2 ^ Z.of_nat (S l) mod 2 = 0) by (rewrite E2, Z.mul_comm; apply Z.mod_mul; lia).
    replace (2 ^ Z.of_nat (S l) <=? 1) with false by lia. rewrite EM. cbn [Z.eqb].
    destruct (bit_scatter_ok (Z.of_nat (S l)) P p ltac:(lia) HP) as [P1 [P0 [EP [p1 [p0 [HP1 [HP0 BP]]]]]]]. rewrite EP. cbn [rbind].
    destruct (bit_scatter_ok (Z.of_nat (S l)) G g ltac:(lia) HG) as [G1 [G0 [EG [g1 [g0 [HG1 [HG0 BG]]]]]]]. rewrite EG. cbn [rbind].
    replace (Z.of_nat (S l) - 1) with (Z.of_nat l) in * by lia.
    destruct (vand2_ok t _ _ P0 G0 P1 P1 _ _ _ _ HP0 HG0 HP1 HP1) as [V1 [V2 [E [H1 H2]]]]. rewrite E. cbn [rbind].
    rewrite Z.min_id in H1, H2. pose proof (ib_xor k b R I _ _ _ _ _ _ HG1 H2) as HX. rewrite Z.max_id in HX.
    replace (2 ^ Z.of_nat (S l) / 2) with (2 ^ Z.of_nat l) by (rewrite E2, Z.mul_comm, Z.div_mul; lia).
    destruct (IH f (t + 2)%nat _ _ _ _ ltac:(lia) H1 HX) as [V [EV HV]]. exists V. split; [exact EV|].
    assert (GP : gw (Z.testbit (Z.land p0 p1)) (Z.testbit (Z.lxor g1 (Z.land g0 p1))) (2 ^ Z.of_nat l - 1) (2 ^ l)
               = gw (Z.testbit p) (Z.testbit g) (2 ^ Z.of_nat (S l) - 1) (2 ^ S l)).
    { replace (2 ^ Z.of_nat (S l) - 1) with (2 * (2 ^ Z.of_nat l - 1) + 1) by lia. replace (2 ^ S l)%nat with (2 ^ l + 2 ^ l)%nat by (cbn; lia).
      apply gw_pairs; intros i Hi; rewrite of_nat_pow2 in Hi.
      - rewrite Z.land_spec. destruct (BP i ltac:(lia)) as [-> ->]. apply andb_comm.
      - rewrite Z.lxor_spec, Z.land_spec. destruct (BP i ltac:(lia)) as [_ ->]. destruct (BG i ltac:(lia)) as [-> ->]. now rewrite (andb_comm (Z.testbit g (2 * i))). }
    rewrite <- GP. exact HV.
Qed.
(* the two uses: the carry out of all bits, and the carry into the top bit of the field *)
Lemma carry_a2b_pow t l X Y x y : R (2 ^ Z.of_nat l) X x -> R (2 ^ Z.of_nat l) Y y ->
  exists V, carry_a2b T b t X Y (2 ^ Z.of_nat l) = Ok V /\ R 1 V (carry x y (2 ^ Z.of_nat l)).
Proof.
  intros HX HY. unfold carry_a2b. destruct (ib_and k b R I t _ _ _ _ _ _ HX HY) as [G [EG HG]]. rewrite EG. cbn [rbind]. rewrite Z.min_id in HG.
  pose proof (ib_xor k b R I _ _ _ _ _ _ HX HY) as HP. rewrite Z.max_id in HP.
  assert (LP : 0 < 2 ^ Z.of_nat l) by (apply Z.pow_pos_nonneg; lia).
  destruct (carry_a2b_loop_ok l (Z.to_nat (2 ^ Z.of_nat l)) (S t) (b_xor b X Y) G (Z.lxor x y) (Z.land x y)) as [V [EV HV]]; [|exact HP|exact HG|].
  { pose proof (Z.pow_gt_lin_r 2 (Z.of_nat l) ltac:(lia) ltac:(lia)). lia. }
  exists V. split; [exact EV|]. rewrite <- b2z_cyb by lia.
  rewrite (gw_ext _ (fun j => xorb (Z.testbit x j) (Z.testbit y j)) _ (fun j => Z.testbit x j && Z.testbit y j)) in HV;
    [|intros; apply Z.lxor_spec|intros; apply Z.land_spec].
  rewrite gw_carry in HV by (rewrite <- ?of_nat_pow2 in *; lia). replace (2 ^ Z.of_nat l - 1 + 1) with (2 ^ Z.of_nat l) in HV by lia. exact HV.
Qed.
Lemma carry_a2b_top t X Y x y : (2 <= w)%nat -> R k X x -> R k Y y ->
  exists V, carry_a2b T b t X Y (k - 1) = Ok V /\ R 1 V (carry x y (k - 1)).
Proof.
  intros W2 HX HY. pose proof ab_k_ge2 as K2. pose proof ab_k_le. unfold carry_a2b.
  destruct (ib_and k b R I t _ _ _ _ _ _ HX HY) as [G [EG HG]]. rewrite EG. cbn [rbind]. rewrite Z.min_id in HG.
  pose proof (ib_xor k b R I _ _ _ _ _ _ HX HY) as HP. rewrite Z.max_id in HP.
  assert (K4 : 4 <= k) by (change 4 with (2 ^ 2); apply Z.pow_le_mono_r; lia).
  assert (LK : Z.of_nat w < k) by (apply Z.pow_gt_lin_r; lia).
  assert (KE : exists h, k = 2 * h).
  { exists (2 ^ (Z.of_nat w - 1)). unfold k. replace (Z.of_nat w) with (1 + (Z.of_nat w - 1)) at 1 by lia. rewrite Z.pow_add_r by lia. lia. }
  assert (ST : forall f u P G, carry_a2b_loop T b (S f) u P G (k - 1) = carry_a2b_loop T b (S f) u (b_lsh b P 1) (b_lsh b G 1) k).
  { intros f u P' G'. cbn [carry_a2b_loop]. destruct KE as [h KE].
    replace (k - 1 <=? 1) with false by lia. replace (k <=? 1) with false by lia.
    assert (M1 : (k - 1) mod 2 = 1) by (symmetry; apply (Z.mod_unique _ _ (h - 1)); [left; lia|lia]).
    assert (M0 : k mod 2 = 0) by (symmetry; apply (Z.mod_unique _ _ h); [left; lia|lia]).
    rewrite M1, M0. cbn [Z.eqb]. replace (k - 1 + 1) with k by lia. reflexivity. }
  replace (Z.to_nat (k - 1)) with (S (Z.to_nat (k - 2))) by lia. rewrite ST.
  pose proof (ib_lsh k b R I _ _ _ 1 ltac:(lia) HP) as LP. pose proof (ib_lsh k b R I _ _ _ 1 ltac:(lia) HG) as LG.
  replace (nb_lshift k k 1) with k in LP, LG by (unfold nb_lshift; lia).
  destruct (carry_a2b_loop_ok w (S (Z.to_nat (k - 2))) (S t) _ _ _ _ ltac:(lia) LP LG) as [V [EV HV]].
  exists V. split; [exact EV|]. rewrite <- b2z_cyb by lia. fold k in HV.
  rewrite (gw_ext _ (fun j => Z.testbit (Z.lxor x y) (j - 1)) _ (fun j => Z.testbit (Z.land x y) (j - 1))) in HV.
  - rewrite gw_shift in HV.
    rewrite (gw_ext _ (fun j => xorb (Z.testbit x j) (Z.testbit y j)) _ (fun j => Z.testbit x j && Z.testbit y j)) in HV;
      [|intros; apply Z.lxor_spec|intros; apply Z.land_spec].
    rewrite gw_carry in HV; [|lia|].
    + replace (k - 1 - 1 + 1) with (k - 1) in HV by lia. exact HV.
    + apply Nat2Z.inj_lt. rewrite of_nat_pow2. fold k. lia.
  - intros j J. rewrite of_nat_pow2 in J. fold k in J. rewrite tb_rshl by lia. replace (j <? k) with true by lia. reflexivity.
  - intros j J. rewrite of_nat_pow2 in J. fold k in J. rewrite tb_rshl by lia. replace (j <? k) with true by lia. reflexivity.
Qed.

(* the default bitdeintl_b body computes the same word *)
Lemma b_swap_level_ok n X x l : (l + 2 <= w)%nat -> R n X x -> exists n', R n' (b_swap_level T b X l) (swap_level k x l).
Proof.
  intros L H. pose proof ab_k_ge2 as K2.
  assert (SR : 0 <= 2 ^ Z.of_nat l < k) by (split; [apply Z.pow_nonneg; lia|apply pow2_lt; lia]).
  pose proof (mask_range keep_masks l eq_refl) as M1. pose proof (mask_range swap_masks l eq_refl) as M2.
  unfold b_swap_level, swap_level, rxor, rand_.
  pose proof (ib_andp k b R I _ _ _ _ M1 H) as H1. pose proof (ib_rsh k b R I _ _ _ _ SR H) as H2.
  pose proof (ib_andp k b R I _ _ _ _ M2 H2) as H3. pose proof (ib_andp k b R I _ _ _ _ M2 H) as H4.
  pose proof (ib_lsh k b R I _ _ _ _ SR H4) as H5.
  eexists. exact (ib_xor k b R I _ _ _ _ _ _ (ib_xor k b R I _ _ _ _ _ _ H1 H3) H5).
Qed.
Lemma fold_b_swap ls : forall n X x, Forall (fun l => (l + 2 <= w)%nat) ls -> R n X x ->
  exists n', R n' (fold_left (b_swap_level T b) ls X) (fold_left (swap_level k) ls x).
Proof.
  induction ls as [|l ls IH]; intros n X x F H; [now exists n|]. inversion F as [|? ? FL FR]; subst. cbn [fold_left].
  destruct (b_swap_level_ok n X x l FL H) as [n' H']. exact (IH n' _ _ FR H').
Qed.
End AB.
(* interleaving stays inside blocks of 2^l bits *)
Lemma sw_block l lb i : (l + 2 <= lb)%nat -> sw l i / 2 ^ Z.of_nat lb = i / 2 ^ Z.of_nat lb.
Proof.
  intros L. set (S := 2 ^ Z.of_nat l). assert (SP : 0 < S) by (apply Z.pow_pos_nonneg; lia).
  set (q := i / S / 4). set (d := (i / S) mod 4).
  assert (D : 0 <= d < 4) by (apply Z.mod_pos_bound; lia).
  assert (E : i = (4 * q + d) * S + i mod S).
  { unfold q, d. rewrite <- (Z.div_mod (i / S) 4) by lia. rewrite Z.mul_comm. apply Z.div_mod. lia. }
  pose proof (Z.mod_pos_bound i S SP) as MR.
  assert (W : 2 ^ Z.of_nat lb = S * (4 * 2 ^ Z.of_nat (lb - (l + 2)))).
  { unfold S. change 4 with (2 ^ 2). rewrite <- !Z.pow_add_r by lia. f_equal. lia. }
  set (Q := 2 ^ Z.of_nat (lb - (l + 2))) in *. assert (QP : 0 < Q) by (apply Z.pow_pos_nonneg; lia).
  assert (F : forall c, 0 <= c < 4 -> ((4 * q + c) * S + i mod S) / 2 ^ Z.of_nat lb = q / Q).
  { intros c C. rewrite W. rewrite <- Z.div_div by lia. rewrite <- Z.div_div by lia.
    rewrite (Z.add_comm _ (i mod S)), Z.div_add by lia. rewrite (Z.div_small (i mod S)) by lia. rewrite Z.add_0_l.
    replace (4 * q + c) with (c + q * 4) by lia. rewrite Z.div_add by lia. rewrite (Z.div_small c) by lia. reflexivity. }
  rewrite E at 2. rewrite (F d D). rewrite E. rewrite sw_digits by (fold S; lia). fold S. apply F.
  destruct (Z.eqb_spec d 1); [lia|]. destruct (Z.eqb_spec d 2); lia.
Qed.
Lemma fold_swap_bound w ls lb x : (w <= 7)%nat -> (lb <= w)%nat -> Forall (fun l => (l + 2 <= lb)%nat) ls -> word (2 ^ Z.of_nat lb) x ->
  word (2 ^ Z.of_nat lb) (fold_left (swap_level (2 ^ Z.of_nat w)) ls x).
Proof.
  intros W7 LB F. revert x. induction F as [|l ls H F IH]; intros x X; [exact X|]. cbn [fold_left]. apply IH.
  assert (KP : 0 < 2 ^ Z.of_nat w) by (apply Z.pow_pos_nonneg; lia). assert (LP : 0 < 2 ^ Z.of_nat lb) by (apply Z.pow_pos_nonneg; lia).
  assert (LK : 2 ^ Z.of_nat lb <= 2 ^ Z.of_nat w) by (apply Z.pow_le_mono_r; lia).
  assert (XK : word (2 ^ Z.of_nat w) x) by (apply (word_le (2 ^ Z.of_nat lb)); [lia|exact X]).
  pose proof (swap_level_word w W7 x l XK) as WS.
  apply word_of_bits; [lia|apply WS|]. apply (word_tb_false (2 ^ Z.of_nat w)); [lia|lia|exact WS|].
  intros j J JL. rewrite swap_level_bits by (auto; lia). apply (word_bit_high (2 ^ Z.of_nat lb)); [lia|exact X|].
  pose proof (sw_block l lb j ltac:(lia)) as SB.
  assert (1 <= j / 2 ^ Z.of_nat lb) by (apply Z.div_le_lower_bound; lia).
  pose proof (Z.mul_div_le (sw l j) (2 ^ Z.of_nat lb) LP). nia.
Qed.
Lemma levels_block s lb : Forall (fun l => (l + 2 <= lb)%nat) (levels s (2 ^ Z.of_nat lb)).
Proof.
  apply Forall_forall. intros l H. unfold levels in H. apply in_seq in H. rewrite log2ceil_pow in H by lia. lia.
Qed.
Section AB2.
Variable T : Type.
Variable w : nat.
Hypothesis W1 : (1 <= w)%nat.
Hypothesis W7 : (w <= 7)%nat.
Let k := 2 ^ Z.of_nat w.
Variable b : bops T.
Variable R : Z -> T -> Z -> Prop.
Hypothesis I : implements_b k b R.
Lemma block_le l : 2 ^ Z.of_nat l <= k -> (l <= w)%nat.
Proof. intros H. unfold k in H. apply Z.pow_le_mono_r_iff in H; lia. Qed.
Lemma bitdeintl_default_ok l X x s : R (2 ^ Z.of_nat l) X x ->
  exists V, bitdeintl_default T b X s = Ok V /\ R (2 ^ Z.of_nat l) V (bit_deintl k s (2 ^ Z.of_nat l) x).
Proof.
  intros H. destruct (ib_nb k b R I _ _ _ H) as [NX [NK XR]]. pose proof (block_le l (proj2 NK)) as LW.
  unfold bitdeintl_default. rewrite NX.
  replace (has_single_bit (2 ^ Z.of_nat l)) with true by (symmetry; apply single_bit_pow; exists (Z.of_nat l); lia).
  destruct (fold_b_swap T w W1 W7 b R I (levels s (2 ^ Z.of_nat l)) _ _ _ (levels_ok w W7 s (2 ^ Z.of_nat l) (proj2 NK)) H) as [n' H'].
  eexists. split; [reflexivity|]. eapply (ib_setnb k b R I); [exact H'|exact NK|]. fold k.
  apply (fold_swap_bound w _ l x W7 LW (levels_block s l) XR).
Qed.
Lemma bitintl_default_ok l X x s : R (2 ^ Z.of_nat l) X x ->
  exists V, bitintl_default T b X s = Ok V /\ R (2 ^ Z.of_nat l) V (bit_intl k s (2 ^ Z.of_nat l) x).
Proof.
  intros H. destruct (ib_nb k b R I _ _ _ H) as [NX [NK XR]]. pose proof (block_le l (proj2 NK)) as LW.
  unfold bitintl_default. rewrite NX.
  replace (has_single_bit (2 ^ Z.of_nat l)) with true by (symmetry; apply single_bit_pow; exists (Z.of_nat l); lia).
  destruct (fold_b_swap T w W1 W7 b R I (rev (levels s (2 ^ Z.of_nat l))) _ _ _ (Forall_rev (levels_ok w W7 s (2 ^ Z.of_nat l) (proj2 NK))) H) as [n' H'].
  eexists. split; [reflexivity|]. eapply (ib_setnb k b R I); [exact H'|exact NK|]. fold k.
  apply (fold_swap_bound w _ l x W7 LW (Forall_rev (levels_block s l)) XR).
Qed.
End AB2.
