(* Proofs about SecureNN: linear kernels, input and output, the sign, and the runs in which the comparison is wrong. *)
From Verif Require Import Base Ring_model Ring_spec Ring_proof Share_spec Party Semi_model Semi_proof Trunc_proof Conv_model Conv_spec Conv_proof Snn_model Snn_spec Snn_proof Snc_proof.
From Coq Require Import Lia ZifyBool ZifyNat.
Open Scope Z_scope.

Section W.
Variable k : Z.
Hypothesis K : 0 < k.
Lemma K0 : 0 <= k. Proof. lia. Qed.

Lemma weq a b : word k a -> word k b -> eqm k a b -> a = b.
Proof. intros A B E. rewrite <- (wrap_id k a A), <- (wrap_id k b B). exact E. Qed.
Lemma shA_to n X x y : shA k n X x -> word k y -> eqm k x y -> shA k n X y.
Proof. intros S W E. rewrite <- (weq x y (shA_word k n X x S) W E). exact S. Qed.
Lemma mod_word x : word k (x mod 2 ^ k). Proof. apply (word_wrap k). exact K0. Qed.
Lemma eqm_mod x : eqm k x (x mod 2 ^ k). Proof. symmetry. apply (eqm_wrap k x). Qed.
Lemma shares3_word n X v i : shares3 k n X v -> (i < n)%nat -> word k (v i).
Proof. intros S I. apply (sh3_elim k K n X v i S I). Qed.
Lemma add_aa3 n X Y x y : shares3 k n X x -> shares3 k n Y y -> shares3 k n (fun p i => add_aa k (X p i) (Y p i)) (fun i => (x i + y i) mod 2 ^ k).
Proof.
  intros SX SY i I. destruct (SX i I) as [A A2]. destruct (SY i I) as [B B2]. split; [exact (shA_add k 3 _ _ _ _ K0 A B)|]. unfold add_aa. rewrite A2, B2. apply wrap_0. exact K0.
Qed.
Lemma add_ap3 n X x q : shares3 k n X x -> shares3 k n (fun p i => add_ap k p (X p i) (q i)) (fun i => (x i + q i) mod 2 ^ k).
Proof. intros SX i I. destruct (SX i I) as [A A2]. split; [exact (shA_add_ap k 3 _ _ (q i) K0 ltac:(lia) A)|exact A2]. Qed.
Lemma negate3 n X x : shares3 k n X x -> shares3 k n (fun p i => negate_a k (X p i)) (fun i => (- x i) mod 2 ^ k).
Proof. intros SX i I. destruct (SX i I) as [A A2]. split; [refine (shA_to 3 _ _ _ (shA_neg k 3 _ _ K0 A) (mod_word _) _); rewrite eqm_rneg; apply eqm_mod|]. unfold negate_a. rewrite A2. apply weq; [apply rneg_word; exact K0|apply Party.word_0; lia|rewrite eqm_rneg; reflexivity]. Qed.
Lemma mul_ap3 n X x q : shares3 k n X x -> shares3 k n (fun p i => mul_ap k (X p i) (q i)) (fun i => (x i * q i) mod 2 ^ k).
Proof. intros SX i I. destruct (SX i I) as [A A2]. split; [exact (shA_mul_ap k 3 _ _ (q i) K0 A)|]. unfold mul_ap. rewrite A2. apply wrap_0. exact K0. Qed.
Lemma lshift3 n X x s : 0 <= s -> shares3 k n X x -> shares3 k n (fun p i => lshift_a k s (X p i)) (fun i => (x i * 2 ^ s) mod 2 ^ k).
Proof.
  intros S0 SX i I. destruct (SX i I) as [A A2]. split; [refine (shA_to 3 _ _ _ (shA_lshift k 3 _ _ s K0 A) (mod_word _) _); rewrite eqm_rshl; apply eqm_mod|]. unfold lshift_a. rewrite A2. unfold rshl. apply wrap_0. exact K0.
Qed.
Lemma matmul_ap3 M C N X x q : shares3 k (M * C) X x ->
  shares3 k (M * N) (fun p i => matmul_ap k C (fun r l => X p (r * C + l)%nat) (fun l c => q (l * N + c)%nat) (i / N) (i mod N)) (fun i => (dot C (fun l => x (i / N * C + l)%nat) (fun l => q (l * N + i mod N)%nat)) mod 2 ^ k).
Proof.
  intros SX i I. assert (NP : (0 < N)%nat) by (destruct N; lia). assert (IR : (i / N < M)%nat) by (apply Nat.div_lt_upper_bound; lia).
  assert (L : forall l, (l < C)%nat -> (i / N * C + l < M * C)%nat) by (intros l HL; nia). split.
  - pose proof (shA_matmul_ap k 3 C (fun p r l => X p (r * C + l)%nat) (fun r l => x (r * C + l)%nat) (fun l c => q (l * N + c)%nat) (i / N) (i mod N) K0 (fun l HL => proj1 (SX _ (L l HL)))) as H.
    refine (shA_to 3 _ _ _ H (mod_word _) _). rewrite eqm_mmul by exact K0. apply eqm_mod.
  - transitivity (ring_mmul k C (fun _ _ => 0) (fun l c => q (l * N + c)%nat) (i / N) (i mod N)).
    + unfold matmul_ap. apply weq; [apply mmul_word; exact K0|apply mmul_word; exact K0|]. rewrite !eqm_mmul by exact K0. apply eqm_eq.
      apply dot_ext. intros l HL. split; [apply SX, L, HL|reflexivity].
    + apply weq; [apply mmul_word; exact K0|apply Party.word_0; lia|]. rewrite eqm_mmul by exact K0. apply eqm_eq.
      clear. induction C as [|C IH]; cbn [dot]; [reflexivity|]. lia.
Qed.

Variable F : nat -> list nat -> arr.
Hypothesis WF : generates k F.
Lemma mulaa3_ok n g X Y x y : in_step g -> shares3 k n X x -> shares3 k n Y y ->
  shares3 k n (fst (mulaa3 k F n g X Y)) (fun i => (x i * y i) mod 2 ^ k) /\ in_step (snd (mulaa3 k F n g X Y)).
Proof. intros S SX SY. exact (bilinear_ok k K F WF _ n n n (mul_m k) g X Y x y (mul_bilin k K n) S SX SY). Qed.
Definition prod_at (C N : nat) (x y : arr) : arr := fun i => (dot C (fun l => x (i / N * C + l)%nat) (fun l => y (l * N + i mod N)%nat)) mod 2 ^ k.
Lemma prod_at_rc C N x y r c : (c < N)%nat -> prod_at C N x y (r * N + c)%nat = (dot C (fun l => x (r * C + l)%nat) (fun l => y (l * N + c)%nat)) mod 2 ^ k.
Proof.
  intros HC. unfold prod_at. assert (D : ((r * N + c) / N = r)%nat) by (symmetry; apply (Nat.div_unique _ _ _ c); lia).
  assert (E : ((r * N + c) mod N = c)%nat) by (symmetry; apply (Nat.mod_unique _ _ r); lia). rewrite D, E. reflexivity.
Qed.
Lemma mat_m_at C N x y i : mat_m k C N x y i = prod_at C N x y i.
Proof. apply weq; [apply mmul_word; exact K0|apply mod_word|]. unfold mat_m, prod_at. rewrite eqm_mmul by exact K0. apply eqm_mod. Qed.
Lemma matmulaa3_ok M C N g X Y x y : in_step g -> shares3 k (M * C) X x -> shares3 k (C * N) Y y ->
  shares3 k (M * N) (fst (matmulaa3 k F M C N g X Y)) (prod_at C N x y) /\ in_step (snd (matmulaa3 k F M C N g X Y)).
Proof.
  intros S SX SY. destruct (bilinear_ok k K F WF _ (M * C) (C * N) (M * N) (mat_m k C N) g X Y x y (mat_bilin k K M C N) S SX SY) as [A B].
  split; [|exact B]. apply (shares3_ext k (M * N) _ _ _ (fun i _ => mat_m_at C N x y i) A).
Qed.
Lemma matmul_simple3_ok M C N g a0 a1 b0 b1 c0 X Y x y : in_step g -> shares3 k (M * C) X x -> shares3 k (C * N) Y y ->
  let z := matmul_simple3 k F M C N g a0 a1 b0 b1 c0 X Y in shares3 k (M * N) (fst z) (prod_at C N x y) /\ in_step (snd z).
Proof.
  intros S SX SY. cbv zeta. unfold matmul_simple3. cbv zeta. set (c1 := fun i => rsub k _ _).
  destruct (open_finish k (mat_m k C N) X Y a0 b0 c0 a1 b1 c1) as [z0 z1] eqn:E. apply refresh_ok; [exact K|exact S|]. intros i I. split; [apply mod_word|].
  pose proof (open_finish_ok k _ (M * C) (C * N) (M * N) (mat_m k C N) X Y a0 b0 c0 a1 b1 c1 x y i (mat_bilin k K M C N) I (fun j J => proj2 (proj2 (proj2 (proj2 (sh3_elim k K (M * C) X x j SX J))))) (fun j J => proj2 (proj2 (proj2 (proj2 (sh3_elim k K (C * N) Y y j SY J)))))) as H.
  rewrite E in H. cbn [fst snd] in H. rewrite <- mat_m_at. apply H. unfold c1. rewrite eqm_rsub. apply eqm_eq. lia.
Qed.

(* ---- io ---- *)
Lemma io3 v x rs : word k x -> (exists r, rs = [r] /\ word k r) -> (match v with VPrivate o => (o < 3)%nat | _ => True end) ->
  from_shares k (match v with VPublic => KPublic | VPrivate o => KPrivate o | VSecret => KA end) (to_shares3 k v x rs) = Ok x.
Proof.
  intros WX (r & -> & WR) HO. destruct v as [|o|]; cbn [to_shares3].
  - reflexivity.
  - destruct o as [|[|[|o]]]; [reflexivity|reflexivity|reflexivity|lia].
  - unfold from_shares, additive_splits. cbn. f_equal. apply weq; [apply radd_word; exact K0|exact WX|]. rewrite !eqm_radd, (eqm_rsub k (rsub k x r)), !(eqm_rsub k x r). apply eqm_eq. idtac. lia.
Qed.
Lemma io3_shares n (x r : arr) : (forall i, (i < n)%nat -> word k (x i) /\ word k (r i)) -> shares3 k n (fun p i => nthZ (to_shares3 k VSecret (x i) [r i]) p) x.
Proof.
  intros W. apply sh3_intro; [exact K|]. intros i I. destruct (W i I) as [WX WR]. cbn.
  conj; [apply rsub_word; exact K0|exact WR| |exact WX|rewrite eqm_rsub; apply eqm_eq; lia].
  apply weq; [apply rsub_word; exact K0|apply Party.word_0; lia|]. rewrite !eqm_rsub. apply eqm_eq. lia.
Qed.
(* A2P and A2V *)
Lemma open3 n X x i r : shares3 k n X x -> (i < n)%nat -> (r < 3)%nat -> a2p k 3 (fun p => X p i) r = x i /\ a2v k 3 (fun p => X p i) r r = x i.
Proof. intros S I R. destruct (S i I) as [A _]. split; [apply a2p_opens; [exact K0|exact R|exact A]|apply a2v_opens; [exact K0|exact A]]. Qed.
(* RandA: the product with a random array opens to another value *)
Lemma randa_mul n g (G Y : sharing) y : in_step g -> (forall p i, word k (G p i)) -> shares3 k n Y y ->
  shares3 k n (fst (mulaa3 k F n g (randa3 G) Y)) (fun i => ((rshr 2 (G 0%nat i) + rshr 2 (G 1%nat i)) * y i) mod 2 ^ k).
Proof.
  intros S WG SY. set (X' := per3 (randa3 G 0%nat) (randa3 G 1%nat) (fun _ => 0)).
  assert (SX : shares3 k n X' (fun i => (rshr 2 (G 0%nat i) + rshr 2 (G 1%nat i)) mod 2 ^ k)).
  { apply sh3_intro; [exact K|]. intros i _. unfold X', randa3. cbn [per3]. assert (B : forall p, word k (rshr 2 (G p i))).
    { intros p. specialize (WG p i). unfold word, rshr in *. split; [apply Z.div_pos; lia|]. apply Z.le_lt_trans with (G p i); [|lia]. apply Z.div_le_upper_bound; lia. }
    conj; [apply B|apply B|reflexivity|apply mod_word|apply eqm_mod]. }
  destruct (mulaa3_ok n g X' Y _ y S SX SY) as [H _]. change (fst (mulaa3 k F n g X' Y)) with (fst (mulaa3 k F n g (randa3 G) Y)) in H.
  apply (shares3_ext k n _ _ _) with (2 := H). intros i _. cbn beta. rewrite Zmult_mod_idemp_l. reflexivity.
Qed.
End W.

(* ---- the comparison, with conditions on the random words only ---- *)
Section M.
Variable k : Z.
Hypothesis K : 15 <= k.
Hypothesis K2 : k <= 128.
Variable F : nat -> list nat -> arr.
Hypothesis WF : generates k F.
Lemma msb_safe_r u x H B0 B1 : msb_ranges k H -> mx H = x -> word k B0 -> word k B1 -> cong1 k (B0 + B1) u -> msb_safe k u x -> msb_r0 k H B0 B1 <> 2 ^ k - 1.
Proof.
  intros RH EX W0 W1 [q C] SF E. apply SF. destruct (msb_r_ok k K H B0 B1 RH W0 W1) as (_ & _ & q' & Q). rewrite E, EX in Q. pose proof (big k K).
  apply Z.mod_divide; [lia|]. exists (1 - q' - 2 * q). rewrite C in Q. lia.
Qed.
Lemma msb_total n g Hc Hm A v : let h := fst (g 1%nat) in in_step g ->
  (forall i, (i < n)%nat -> helper_ranges k (delta0 (Hc i)) (eta0 (Hc i)) (mx (Hm i)) (mx0 (Hm i)) (crz (Hc i)) (mrz (Hm i))) -> shares3 k n A v ->
  (forall i, (i < n)%nat -> conv_safe k (F 1%nat (h ++ [n]) i) (F 1%nat (h ++ [n; n]) i) (F 1%nat (h ++ [n; n; n]) i) (eta0 (Hc i)) ((2 * A 0%nat i) mod 2 ^ k)) ->
  (forall i, (i < n)%nat -> msb_safe k ((2 * v i) mod 2 ^ k) (mx (Hm i))) ->
  shares3 k n (fst (msb_arith k F n g Hc Hm A)) (fun i => Z.b2z (bit (v i) (k - 2))) /\ in_step (snd (msb_arith k F n g Hc Hm A)).
Proof.
  intros h S RG SA CS MS. set (A2 := fun p i => radd k (A p i) (A p i)).
  assert (RGC : forall i, (i < n)%nat -> conv_ranges k (Hc i) /\ msb_ranges k (Hm i)).
  { intros i I. destruct (RG i I) as (a & b & c & d & e & f). unfold conv_ranges, msb_ranges. auto 10. }
  assert (S2 : shares3 k n A2 (fun i => (2 * v i) mod 2 ^ k)).
  { pose proof (add_aa3 k ltac:(lia) n A A v v SA SA) as H. apply (shares3_ext k n _ _ _) with (2 := H). intros i _. cbn beta. f_equal. lia. }
  assert (L1 : conv_lucky k F n (fst (g 1%nat)) Hc (A2 0%nat)).
  { intros i I. cbn. fold h. destruct (CS i I) as [a b]. split; [exact a|]. replace (A2 0%nat i) with ((2 * A 0%nat i) mod 2 ^ k); [exact b|]. unfold A2, radd, wrap. f_equal. lia. }
  apply (msb_arith_ok k K K2 F WF n g Hc Hm A v S RGC SA L1). intros i I. left.
  destruct (share_convert3_ok k K K2 F WF n g Hc A2 _ S (fun j J => proj1 (RGC j J)) S2 L1) as [HB _]. destruct (HB i I) as (C0 & C1 & C2).
  exact (msb_safe_r _ _ (Hm i) _ _ (proj2 (RGC i I)) eq_refl C0 C1 C2 (MS i I)).
Qed.
(* at most one value of the mask is unsafe *)
Lemma unsafe_unique u x x' : 0 <= x <= 2 ^ k - 2 -> 0 <= x' <= 2 ^ k - 2 -> ~ msb_safe k u x -> ~ msb_safe k u x' -> x = x'.
Proof.
  intros X X' N N'. pose proof (big k K). unfold msb_safe in *. assert (E : (2 * u + x) mod (2 ^ k - 1) = 0) by lia. assert (E' : (2 * u + x') mod (2 ^ k - 1) = 0) by lia.
  apply Z.mod_divide in E; [|lia]. apply Z.mod_divide in E'; [|lia]. destruct E as [q Q]. destruct E' as [q' Q']. assert (q = q') by nia. lia.
Qed.
Lemma sign_bit s : - 2 ^ (k - 2) <= s < 2 ^ (k - 2) -> Z.b2z (bit (s mod 2 ^ k) (k - 2)) = if s <? 0 then 1 else 0.
Proof.
  intros R. unfold bit. rewrite Z.mod_pow2_bits_low by lia. assert (P : 0 < 2 ^ (k - 2)) by lia.
  assert (E : Z.b2z (Z.testbit s (k - 2)) = (s / 2 ^ (k - 2)) mod 2) by (symmetry; rewrite <- Z.testbit_spec' by lia; reflexivity).
  rewrite E. destruct (Z.ltb_spec s 0).
  - replace (s / 2 ^ (k - 2)) with (-1); [reflexivity|]. apply (Z.div_unique _ _ _ (s + 2 ^ (k - 2))); lia.
  - rewrite Z.div_small by lia. reflexivity.
Qed.
End M.

(* ---- two threads and one accumulator ---- *)
Lemma pc2_false k rank e1 e2 m wt : (m < Z.to_nat k)%nat -> pc2 k rank e1 e2 (repeat false m) 0 m wt = ([], pc k rank (e_sel e2) (e_r e2) (e_t e2) (e_x e2) (e_u e2) (e_s e2) m wt).
Proof.
  revert wt. induction m as [|m IH]; intros wt M; [reflexivity|]. cbn [repeat pc2 pc]. destruct (Nat.eqb_spec (S m) (Z.to_nat k)); [lia|]. unfold step1. rewrite IH by lia. reflexivity.
Qed.
Lemma pc2_false_all k rank e1 e2 wt : (0 < Z.to_nat k)%nat -> pc2 k rank e1 e2 (repeat false (Z.to_nat k)) 0 (Z.to_nat k) wt = ([], pc k rank (e_sel e2) (e_r e2) (e_t e2) (e_x e2) (e_u e2) (e_s e2) (Z.to_nat k) 0).
Proof.
  intros P. destruct (Z.to_nat k) as [|m] eqn:E; [lia|]. cbn [repeat pc2 pc]. rewrite E, Nat.eqb_refl. unfold step1. rewrite pc2_false by lia. reflexivity.
Qed.
Lemma pc2_true k rank e1 e2 sc m m2 wt : (m < Z.to_nat k)%nat ->
  exists wt', pc2 k rank e1 e2 (repeat true m ++ sc) m m2 wt = (pc k rank (e_sel e1) (e_r e1) (e_t e1) (e_x e1) (e_u e1) (e_s e1) m wt ++ fst (pc2 k rank e1 e2 sc 0 m2 wt'), snd (pc2 k rank e1 e2 sc 0 m2 wt')).
Proof.
  revert wt. induction m as [|m IH]; intros wt M; [exists wt; cbn; destruct (pc2 _ _ _ _ sc _ _ _); reflexivity|].
  cbn [repeat app pc2 pc]. destruct (Nat.eqb_spec (S m) (Z.to_nat k)); [lia|]. unfold step1.
  match goal with |- context[pc2 k rank e1 e2 (repeat true m ++ sc) m m2 ?w] => destruct (IH w ltac:(lia)) as [wt' ->] end. exists wt'. reflexivity.
Qed.
Lemma pc2_seq k rank e1 e2 wt : (0 < Z.to_nat k)%nat -> pc2 k rank e1 e2 (repeat true (Z.to_nat k) ++ repeat false (Z.to_nat k)) (Z.to_nat k) (Z.to_nat k) wt =
  (pc k rank (e_sel e1) (e_r e1) (e_t e1) (e_x e1) (e_u e1) (e_s e1) (Z.to_nat k) 0, pc k rank (e_sel e2) (e_r e2) (e_t e2) (e_x e2) (e_u e2) (e_s e2) (Z.to_nat k) 0).
Proof.
  intros P. set (sc := repeat false _). set (m2 := Z.to_nat k) at 3. destruct (Z.to_nat k) as [|m] eqn:E; [lia|]. cbn [repeat app pc2 pc]. rewrite E, Nat.eqb_refl. unfold step1.
  match goal with |- context[pc2 k rank e1 e2 (repeat true m ++ sc) m m2 ?w] => destruct (pc2_true k rank e1 e2 sc m m2 w ltac:(lia)) as [wt' ->] end.
  unfold sc, m2. rewrite <- E. rewrite pc2_false_all by lia. cbn [fst snd]. rewrite app_nil_r, E. reflexivity.
Qed.
