(* Proofs about the SecureNN kernels. *)
From Verif Require Import Base Ring_model Ring_spec Ring_proof Share_spec Party Semi_model Semi_proof Trunc_proof Circ_model Conv_model Conv_spec Conv_proof Snn_model Snn_spec.
From Coq Require Import Lia ZifyBool ZifyNat.
Open Scope Z_scope.

Section K.
Variable k : Z.
Hypothesis K : 0 < k.
Variable F : nat -> list nat -> arr.
Hypothesis WF : generates k F.

Lemma sh3_intro n (X : sharing) v : (forall i, (i < n)%nat -> word k (X 0%nat i) /\ word k (X 1%nat i) /\ X 2%nat i = 0 /\ word k (v i) /\ eqm k (X 0%nat i + X 1%nat i) (v i)) -> shares3 k n X v.
Proof.
  intros H i I. destruct (H i I) as (W0 & W1 & E2 & Wv & E). split; [|exact E2].
  apply shA_of; [lia| |exact Wv|].
  - intros p P. destruct p as [|[|[|p]]]; [exact W0|exact W1|rewrite E2; apply Party.word_0; lia|lia].
  - cbn [total]. rewrite E2. rewrite Z.add_0_l, Z.add_0_r. exact E.
Qed.
Lemma sh3_elim n (X : sharing) v i : shares3 k n X v -> (i < n)%nat -> word k (X 0%nat i) /\ word k (X 1%nat i) /\ X 2%nat i = 0 /\ word k (v i) /\ eqm k (X 0%nat i + X 1%nat i) (v i).
Proof.
  intros H I. destruct (H i I) as [S E2]. pose proof (shA_eqm k 3 _ _ ltac:(lia) S) as E. pose proof (shA_word k 3 _ _ S) as Wv. destruct S as [W _].
  cbn [total] in E. rewrite E2, Z.add_0_l, Z.add_0_r in E. repeat split; try apply (W 0%nat); try apply (W 1%nat); try lia; try exact E; try apply Wv.
Qed.

Lemma both_eq p n g : both F p n g = (F p (fst g), F (nextrank 3 p) (snd g), (fst g ++ [n], snd g ++ [n])). Proof. reflexivity. Qed.

Definition push3 (n : nat) (g : gens) : gens := per3 (fst (g 0%nat) ++ [n], snd (g 0%nat) ++ [n]) (fst (g 1%nat) ++ [n], snd (g 1%nat) ++ [n]) (fst (g 2%nat) ++ [n], snd (g 2%nat) ++ [n]).
Lemma push3_step n g : in_step g -> in_step (push3 n g).
Proof. intros (A & B & C). repeat split; cbn; congruence. Qed.
Lemma draw3_ok n g : in_step g -> draw3 F n g = (F 1%nat (fst (g 1%nat)), F 1%nat (fst (g 1%nat)), push3 n g).
Proof. intros (A & B & C). unfold draw3, push3. rewrite !both_eq. cbn [nextrank Nat.eqb]. rewrite A. reflexivity. Qed.

Lemma p2a3_ok n g x : in_step g -> (forall i, (i < n)%nat -> word k (x i)) -> shares3 k n (fst (p2a3 k F n g x)) x /\ in_step (snd (p2a3 k F n g x)).
Proof.
  intros S W. split; [|exact (push3_step n g S)]. apply sh3_intro. intros i I. unfold p2a3. rewrite !both_eq. cbn [fst per3 nextrank Nat.eqb].
  destruct S as (A & B & C). rewrite A. conj; [apply WF|apply rsub_word; lia|reflexivity|apply W; exact I|].
  rewrite eqm_rsub. apply eqm_eq. lia.
Qed.
Lemma v2a3_ok n owner g x : (owner < 3)%nat -> in_step g -> (forall i, (i < n)%nat -> word k (x i)) ->
  shares3 k n (fst (v2a3 k F n owner g x)) x /\ in_step (snd (v2a3 k F n owner g x)).
Proof.
  intros O S W. split; [|exact (push3_step n g S)]. apply sh3_intro. intros i I. unfold v2a3. rewrite !both_eq. cbn [fst nextrank Nat.eqb].
  destruct S as (A & B & C). rewrite A, B, C. destruct owner as [|[|[|o]]]; [| | |lia]; cbn [Nat.eqb per3].
  - conj; [apply radd_word; lia|apply rneg_word; lia|reflexivity|apply W; exact I|]. rewrite eqm_radd, eqm_rneg. apply eqm_eq. lia.
  - conj; [apply WF|apply radd_word; lia|reflexivity|apply W; exact I|]. rewrite eqm_radd, eqm_rneg. apply eqm_eq. lia.
  - conj; [apply radd_word; lia|apply rsub_word; lia|reflexivity|apply W; exact I|]. rewrite !eqm_radd, !eqm_rsub. apply eqm_eq. lia.
Qed.

(* ---- products ---- *)
Definition bilin (M : arr -> arr -> nat -> Z) (n1 n2 n3 : nat) (m : arr -> arr -> arr) : Prop :=
  (forall a b i, (i < n3)%nat -> eqm k (m a b i) (M a b i)) /\ (forall a b i, word k (m a b i)) /\
  (forall a a' b i, M (fun j => a j + a' j) b i = M a b i + M a' b i) /\ (forall a b b' i, M a (fun j => b j + b' j) i = M a b i + M a b' i) /\
  (forall a a' b b' i, (i < n3)%nat -> (forall j, (j < n1)%nat -> eqm k (a j) (a' j)) -> (forall j, (j < n2)%nat -> eqm k (b j) (b' j)) -> eqm k (M a b i) (M a' b' i)).

Lemma open_finish_ok M n1 n2 n3 m X Y a0 b0 c0 a1 b1 c1 x y i : bilin M n1 n2 n3 m -> (i < n3)%nat ->
  (forall j, (j < n1)%nat -> eqm k (X 0%nat j + X 1%nat j) (x j)) -> (forall j, (j < n2)%nat -> eqm k (Y 0%nat j + Y 1%nat j) (y j)) ->
  eqm k (c0 i + c1 i) (m (opened k a0 a1) (opened k b0 b1) i) ->
  let r := open_finish k m X Y a0 b0 c0 a1 b1 c1 in eqm k (fst r i + snd r i) (m x y i).
Proof.
  intros (Em & Wm & Al & Ar & Cg) I HX HY HC. cbn [open_finish fst snd]. unfold finish. cbn [Nat.eqb].
  rewrite !eqm_radd. rewrite (Em _ _ _ I) in HC. rewrite !(Em _ _ i I).
  set (da := fun j => x j - (a0 j + a1 j)). set (db := fun j => y j - (b0 j + b1 j)).
  assert (D1 : forall j, (j < n1)%nat -> eqm k (opened k (diff k (X 0%nat) a0) (diff k (X 1%nat) a1) j) (da j)).
  { intros j J. unfold opened, diff, da. rewrite eqm_radd, !eqm_rsub, <- (HX j J). apply eqm_eq. lia. }
  assert (D1' : forall j, (j < n1)%nat -> eqm k (opened k (diff k (X 1%nat) a1) (diff k (X 0%nat) a0) j) (da j)).
  { intros j J. unfold opened, diff, da. rewrite eqm_radd, !eqm_rsub, <- (HX j J). apply eqm_eq. lia. }
  assert (D2 : forall j, (j < n2)%nat -> eqm k (opened k (diff k (Y 0%nat) b0) (diff k (Y 1%nat) b1) j) (db j)).
  { intros j J. unfold opened, diff, db. rewrite eqm_radd, !eqm_rsub, <- (HY j J). apply eqm_eq. lia. }
  assert (D2' : forall j, (j < n2)%nat -> eqm k (opened k (diff k (Y 1%nat) b1) (diff k (Y 0%nat) b0) j) (db j)).
  { intros j J. unfold opened, diff, db. rewrite eqm_radd, !eqm_rsub, <- (HY j J). apply eqm_eq. lia. }
  rewrite (Cg _ da _ b0 i I D1 (fun j _ => eqm_eq k _ _ eq_refl)), (Cg _ a0 _ db i I (fun j _ => eqm_eq k _ _ eq_refl) D2), (Cg _ da _ db i I D1 D2).
  rewrite (Cg _ da _ b1 i I D1' (fun j _ => eqm_eq k _ _ eq_refl)), (Cg _ a1 _ db i I (fun j _ => eqm_eq k _ _ eq_refl) D2').
  transitivity (M da b0 i + M a0 db i + M da db i + M da b1 i + M a1 db i + (c0 i + c1 i)); [apply eqm_eq; lia|]. rewrite HC.
  rewrite (Cg _ (fun j => a0 j + a1 j) _ (fun j => b0 j + b1 j) i I (fun j _ => eqm_radd k _ _) (fun j _ => eqm_radd k _ _)).
  rewrite Al, !Ar. 
  assert (E : eqm k (M x y i) (M (fun j => da j + (fun j => a0 j + a1 j) j) (fun j => db j + (fun j => b0 j + b1 j) j) i)).
  { apply (Cg _ _ _ _ i I); intros j J; apply eqm_eq; unfold da, db; cbn beta; lia. }
  rewrite E. repeat (rewrite Al || rewrite Ar). apply eqm_eq. lia.
Qed.

Lemma refresh_ok n g z0 z1 v : in_step g -> (forall i, (i < n)%nat -> word k (v i) /\ eqm k (z0 i + z1 i) (v i)) ->
  shares3 k n (fst (refresh k F n g z0 z1)) v /\ in_step (snd (refresh k F n g z0 z1)).
Proof.
  intros S H. split; [|exact (push3_step n g S)]. apply sh3_intro. intros i I. destruct (H i I) as [W E]. unfold refresh. rewrite !both_eq. cbn [fst per3 nextrank Nat.eqb].
  destruct S as (A & B & C). rewrite A. conj; [apply rsub_word; lia|apply radd_word; lia|reflexivity|exact W|].
  rewrite eqm_rsub, eqm_radd, <- E. apply eqm_eq. lia.
Qed.

Lemma deal_ok M n1 n2 n3 m g : bilin M n1 n2 n3 m -> in_step g -> let '((a0, b0, c0), (a1, b1, c1), g') := deal k F m n1 n2 n3 g in
  (forall i, eqm k (c0 i + c1 i) (m (opened k a0 a1) (opened k b0 b1) i)) /\ in_step g' /\
  (forall i, word k (a0 i) /\ word k (b0 i) /\ word k (c0 i) /\ word k (a1 i) /\ word k (b1 i) /\ word k (c1 i)).
Proof.
  intros (Em & Wm & _) (A & B & C). unfold deal, both, first, second. cbn [fst snd nextrank Nat.eqb]. conj.
  - intros i. rewrite C, B. rewrite eqm_rsub. apply eqm_eq. lia.
  - repeat split; cbn; rewrite ?A, ?B, ?C; reflexivity.
  - intros i. conj; try apply WF. apply rsub_word. lia.
Qed.
Lemma bilinear_ok M n1 n2 n3 m g X Y x y : bilin M n1 n2 n3 m -> in_step g -> shares3 k n1 X x -> shares3 k n2 Y y ->
  shares3 k n3 (fst (bilinear k F m n1 n2 n3 g X Y)) (m x y) /\ in_step (snd (bilinear k F m n1 n2 n3 g X Y)).
Proof.
  intros B S SX SY. unfold bilinear. pose proof (deal_ok M n1 n2 n3 m g B S) as D.
  destruct (deal k F m n1 n2 n3 g) as [[[[a0 b0] c0] [[a1 b1] c1]] g']. destruct D as (HC & S' & _).
  destruct (open_finish k m X Y a0 b0 c0 a1 b1 c1) as [z0 z1] eqn:E. apply refresh_ok; [exact S'|]. intros i I. split; [apply B|].
  pose proof (open_finish_ok M n1 n2 n3 m X Y a0 b0 c0 a1 b1 c1 x y i B I (fun j J => proj2 (proj2 (proj2 (proj2 (sh3_elim n1 X x j SX J))))) (fun j J => proj2 (proj2 (proj2 (proj2 (sh3_elim n2 Y y j SY J))))) (HC i)) as H.
  cbv zeta in H. rewrite E in H. exact H.
Qed.
Lemma mul_bilin n : bilin (fun a b i => a i * b i) n n n (mul_m k).
Proof.
  unfold mul_m, bilin. conj.
  - intros. apply eqm_rmul.
  - intros. apply rmul_word. lia.
  - intros. lia.
  - intros. lia.
  - intros a a' b b' i I H1 H2. now rewrite (H1 i I), (H2 i I).
Qed.
Lemma mat_bilin R C N : bilin (fun a b i => dot C (fun l => a (i / N * C + l)%nat) (fun l => b (l * N + i mod N)%nat)) (R * C) (C * N) (R * N) (mat_m k C N).
Proof.
  unfold mat_m, bilin. conj.
  - intros a b i I. now rewrite eqm_mmul by lia.
  - intros. apply mmul_word. lia.
  - intros a a' b i. apply (dot_add_l C).
  - intros a b b' i. etransitivity; [apply dot_comm|]. etransitivity; [apply (dot_add_l C)|]. f_equal; apply dot_comm.
  - intros a a' b b' i I H1 H2. assert (N0 : (N <> 0)%nat) by (intros ->; lia). assert (Q : (i / N < R)%nat) by (apply Nat.div_lt_upper_bound; lia).
    assert (P : (i mod N < N)%nat) by (apply Nat.mod_upper_bound; exact N0).
    apply dot_eqm. intros l L. split; [apply H1|apply H2]; nia.
Qed.

(* ---- truncation, conversion from boolean shares ---- *)
Lemma move2_ok X x : shA k 3 X x -> shA k 3 (move2 k X) x /\ move2 k X 2%nat = 0.
Proof.
  intros S. split; [|reflexivity]. pose proof (shA_eqm k 3 _ _ ltac:(lia) S) as E. pose proof (shA_word k 3 _ _ S) as W. destruct S as [WX _].
  apply shA_of; [lia| |exact W|].
  - intros i I. destruct i as [|[|[|i]]]; [apply radd_word; lia|apply WX; lia|apply Party.word_0; lia|lia].
  - cbn [total move2 per3] in *. rewrite eqm_radd, <- E. apply eqm_eq. lia.
Qed.
Lemma allreduce2 R : allreduce (radd k) 3 R 2 = radd k (radd k (R 2%nat) (R 0%nat)) (R 1%nat). Proof. reflexivity. Qed.
Lemma allreduce2_eqm R : eqm k (allreduce (radd k) 3 R 2) (total 3 R).
Proof. rewrite allreduce2, !eqm_radd. apply eqm_eq. cbn [total]. lia. Qed.
Lemma adjusted3 R v : (forall p, (p < 3)%nat -> word k (R p)) -> word k v ->
  shA k 3 (per3 (radd k (R 0%nat) (rsub k v (allreduce (radd k) 3 R 2))) (R 1%nat) (R 2%nat)) v.
Proof.
  intros WR Wv. apply shA_of; [lia| |exact Wv|].
  - intros p P. destruct p as [|[|[|p]]]; [apply radd_word; lia|apply WR; lia|apply WR; lia|lia].
  - cbn [total per3]. rewrite eqm_radd, eqm_rsub, allreduce2_eqm. apply eqm_eq. cbn [total]. lia.
Qed.
Lemma truncapr3_ok d R RC RB X x vx : 1 < k -> 0 <= d <= k - 2 -> (forall p, (p < 3)%nat -> word k (R p) /\ word k (RC p) /\ word k (RB p)) ->
  shA k 3 X x -> signed_value k x vx -> - 2 ^ (k - 2) <= vx < 2 ^ (k - 2) ->
  let Z := truncapr3 k d R RC RB X in exists y, shA k 3 Z y /\ Z 2%nat = 0 /\ truncated k d x y 0 1.
Proof.
  intros K1 D W SX [RX [q Ex]] RG. unfold truncapr3. set (r := allreduce (radd k) 3 R 2).
  assert (Wr : word k r) by (unfold r; rewrite allreduce2; apply radd_word; lia).
  assert (Wx := shA_word k 3 X x SX).
  assert (SG : sgn k x = vx). { rewrite <- (sgn_wrap k vx K RX). f_equal. rewrite Ex, eqm_mult. symmetry. now apply wrap_small. }
  assert (SR : shA k 3 R r). { apply shA_of; [lia|intros i I; apply W; lia|exact Wr|]. unfold r. symmetry. apply allreduce2_eqm. }
  assert (P1 : 2 ^ k = 2 * 2 ^ (k - 1)) by (replace k with (1 + (k - 1)) at 1 by lia; rewrite Z.pow_add_r by lia; lia).
  pose proof (pow2_pos (k - 1) ltac:(lia)) as PP. pose proof (pow2_pos d ltac:(lia)) as PD.
  assert (V1 : rshr (d + 1) (rshl k 1 r) = (r mod 2 ^ (k - 1)) / 2 ^ d).
  { unfold rshr, rshl, wrap. rewrite P1. change (2 ^ 1) with 2. rewrite (Z.mul_comm r 2), Z.mul_mod_distr_l by lia.
    rewrite Z.pow_add_r by lia. change (2 ^ 1) with 2. rewrite (Z.mul_comm (2 ^ d) 2). now rewrite Z.div_mul_cancel_l by lia. }
  assert (B1 : 0 <= r mod 2 ^ (k - 1) < 2 ^ (k - 1)) by (apply Z.mod_pos_bound; lia).
  assert (W1 : word k (rshr (d + 1) (rshl k 1 r))).
  { rewrite V1. split; [apply Z.div_pos; lia|]. apply Z.le_lt_trans with (r mod 2 ^ (k - 1)); [apply Z.div_le_upper_bound; nia|lia]. }
  assert (W2 : word k (rshr (k - 1) r)) by (apply rshr_word; [lia|lia|exact Wr]).
  pose proof (adjusted3 RC _ (fun p P => proj1 (proj2 (W p P))) W1) as SC. pose proof (adjusted3 RB _ (fun p P => proj2 (proj2 (W p P))) W2) as SB.
  fold r in SC, SB. rewrite V1 in SC at 2. 
  destruct (truncpr_ok k d 3 X R _ _ x r K1 D ltac:(lia) SX SR SC SB ltac:(lia)) as [y [SY T]].
  destruct (move2_ok _ _ SY) as [SM M0]. exists y. split; [exact SM|]. split; [exact M0|exact T].
Qed.

(* ---- and triples ---- *)
Lemma vview_land w a b i : 0 <= w -> vview k w (fun j => Z.land (a j) (b j)) i = Z.land (vview k w a i) (vview k w b i).
Proof. intros W. unfold vview, rshr. rewrite <- !Z.shiftr_div_pow2 by lia. rewrite Z.shiftr_land. now rewrite wrap_land. Qed.
Lemma vview_lxor w a b i : 0 <= w -> vview k w (fun j => Z.lxor (a j) (b j)) i = Z.lxor (vview k w a i) (vview k w b i).
Proof. intros W. unfold vview, rshr. rewrite <- !Z.shiftr_div_pow2 by lia. rewrite Z.shiftr_lxor. now rewrite wrap_lxor. Qed.
Lemma and_deal_ok w n g : 0 <= w -> in_step g -> let '(A, B, C, g') := and_deal k F w n g in
  in_step g' /\ forall i, (forall p, (p < 3)%nat -> word w (A p i) /\ word w (B p i) /\ word w (C p i)) /\
    Z.land (xtotal 3 (fun p => A p i)) (xtotal 3 (fun p => B p i)) = xtotal 3 (fun p => C p i).
Proof.
  intros W (A & B & C). unfold and_deal, both, first, second. cbn [fst snd nextrank Nat.eqb]. split.
  - repeat split; cbn; rewrite ?A, ?B, ?C; reflexivity.
  - intros i. split.
    + intros p P. destruct p as [|[|[|p]]]; [| | |lia]; cbn [per3]; conj; try (apply word_wrap; lia); apply Party.word_0; lia.
    + cbn [xtotal per3]. rewrite C, B. unfold rxor, rand_. rewrite !Z.lxor_0_r, !Z.lxor_0_l.
      rewrite vview_lxor by exact W. rewrite (vview_land w (fun j => Z.lxor _ _) (fun j => Z.lxor _ _)) by exact W. rewrite !vview_lxor by exact W.
      rewrite (Z.lxor_comm (Z.land _ _)), <- Z.lxor_assoc, Z.lxor_nilpotent, Z.lxor_0_l. reflexivity.
Qed.
Lemma shares3_ext n X v v' : (forall i, (i < n)%nat -> v i = v' i) -> shares3 k n X v -> shares3 k n X v'.
Proof. intros E S i I. destruct (S i I) as [A B]. split; [|exact B]. now rewrite <- E. Qed.
Lemma and_bb3_ok w n g na nb X Y x y : k = 32 \/ k = 64 \/ k = 128 -> in_step g -> backtype (nb_and na nb) = Ok w ->
  (forall i, (i < n)%nat -> shBn k 3 na (fun p => X p i) (x i)) -> (forall i, (i < n)%nat -> shBn k 3 nb (fun p => Y p i) (y i)) ->
  in_step (snd (and_bb3 k F w n g X Y)) /\ forall i, (i < n)%nat -> shBn k 3 (nb_and na nb) (fun p => fst (and_bb3 k F w n g X Y) p i) (Z.land (x i) (y i)).
Proof.
  intros KK S BT HX HY. unfold and_bb3.
  assert (W : 0 <= w).
  { unfold backtype in BT. repeat (match type of BT with context[?a <=? ?b] => destruct (Z.leb_spec a b) end; [injection BT as <-; lia|]). discriminate. }
  pose proof (and_deal_ok w n g W S) as D. destruct (and_deal k F w n g) as [[[A B] C] g'] eqn:E. destruct D as [S' D].
  split; [exact S'|]. intros i I. destruct (D i) as [WT T]. cbn [fst].
  destruct (and_bb_ok k w 3 na nb _ _ (fun q => A q i) (fun q => B q i) (fun q => C q i) _ _ ltac:(lia) ltac:(lia) (HX i I) (HY i I) BT WT T) as (XT & WZ & LT).
  destruct (HX i I) as [[WX [Wx EX]] [NA HA]]. destruct (HY i I) as [[WY [Wy EY]] [NB HB]].
  assert (LW : w <= k).
  { unfold backtype, nb_and in BT. repeat (match type of BT with context[?a <=? ?b] => destruct (Z.leb_spec a b) end; [injection BT as <-; lia|]). discriminate. }
  split; [|split; [unfold nb_and; lia|exact LT]].
  split; [|split; [apply word_land_l; [lia|exact Wx]|exact XT]].
  intros p P. apply (word_mono w); [lia|now apply WZ].
Qed.
Lemma recon_all (G : nat -> nat -> Z) j : radd k (radd k (G j 2%nat) (G j 0%nat)) (G j 1%nat) = allreduce (radd k) 3 (G j) 2. Proof. reflexivity. Qed.
Lemma randbit3_ok G rnd j (b : bool) : (forall p, (p < 3)%nat -> word k (G j p)) -> rnd j = Z.b2z b -> shA k 3 (randbit3 k G rnd j) (Z.b2z b).
Proof.
  intros W E. unfold randbit3. cbv zeta. rewrite recon_all, E. apply adjusted3; [exact W|]. assert (2 ^ 1 <= 2 ^ k) by (apply Z.pow_le_mono_r; lia). split; destruct b; cbn [Z.b2z]; lia.
Qed.
End K.

Section B2A.
Variable w : nat.
Hypotheses (W5 : (5 <= w)%nat) (W7 : (w <= 7)%nat).
Local Notation k := (2 ^ Z.of_nat w).
Lemma b2a3_ok G rnd nb X x : brel k 3 nb X x -> (forall j p, (j < Z.to_nat nb)%nat -> (p < 3)%nat -> word k (G j p)) ->
  (forall j, (j < Z.to_nat nb)%nat -> exists b : bool, rnd j = Z.b2z b) ->
  exists A, b2a3 k G rnd X = Ok A /\ shA k 3 A x /\ A 2%nat = 0.
Proof.
  intros [E [SX [NB XB]]] WG HR. assert (KP : 0 < k) by (apply pow2_pos; lia). unfold b2a3. rewrite E. destruct (Z.ltb_spec k nb); [lia|].
  assert (Wx : word k x) by (destruct SX as [_ [H' _]]; exact H').
  assert (HB : random_bits k 3 (randbit3 k G rnd) (Z.to_nat nb)).
  { intros j J. destruct (HR j J) as [b Hb]. exists b. apply randbit3_ok; auto. }
  destruct (Z.eqb_spec nb 0) as [-> | NZ].
  - eexists. split; [reflexivity|]. split; [|reflexivity]. apply shA_of; [lia|intros; apply Party.word_0; lia|exact Wx|]. rewrite total_0. apply eqm_eq. change (2 ^ 0) with 1 in XB. destruct Wx. lia.
  - eexists. split; [reflexivity|]. set (m := Z.to_nat nb) in *. set (RB := randbit3 k G rnd) in *. apply move2_ok; [exact KP|].
    apply shA_of; [lia|intros; apply fold_radd_word; lia|exact Wx|].
    transitivity (total 3 (fun i => total m (fun j => rb_bit k i (rb_c k k (rb_open 3 k m RB (snd X)) j) (RB j i) * 2 ^ Z.of_nat j))).
    + apply total_eqm. intros i I. rewrite (fold_radd k (fun j => rshl k (Z.of_nat j) (rb_bit k i (rb_c k k (rb_open 3 k m RB (snd X)) j) (RB j i)))).
      apply total_eqm. intros j J. apply eqm_rshl.
    + rewrite total_swap. rewrite <- (ofbits_word m x) at 1 by (destruct Wx; unfold m; rewrite Z2Nat.id; lia). rewrite ofbits_total.
      apply total_eqm. intros j J. rewrite total_mul_r. destruct (HB j J) as [b Hb].
      now rewrite (shA_eqm k 3 _ _ ltac:(lia) (rb_bit_ok w W5 W7 3 ltac:(lia) (fun _ _ => O) RB (snd X) x k m j b ltac:(unfold m; lia) J SX Hb)).
Qed.
End B2A.
