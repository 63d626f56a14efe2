From Verif Require Import Base Ring_model Ring_spec Ring_proof Share_spec Party Semi_model Semi_proof Trunc_proof.
From Verif Require Import Circ_model Aby_model Aby_spec Aby_proof Abyc_proof.
Open Scope Z_scope.

(* ---- re-sharing of two summands ---- *)
Lemma reshare_ok k P j S t0 t1 : 0 <= k -> (P < 3)%nat -> repA k (reshare k P (nx P) j S t0 t1) (wrap k (t0 + t1)).
Proof.
  intros K LP. unfold reshare, by_role. set (D := fun i => wrap k (S i j)).
  three P; cbn [nx nextrank Nat.eqb]; fold (D 0%nat) (D 1%nat) (D 2%nat).
  - set (u := radd k (rsub k t0 (D 0%nat)) (rsub k t1 (D 2%nat))).
    apply (repA_intro k _ _ (D 0%nat) u (D 2%nat)); unfold u; words; try reflexivity; [cbn [Nat.eqb]; f_equal; unfold radd; f_equal; ring|].
    do 3 ev. apply eqm_of_eq. ring.
  - set (u := radd k (rsub k t0 (D 1%nat)) (rsub k t1 (D 0%nat))).
    apply (repA_intro k _ _ (D 0%nat) (D 1%nat) u); unfold u; words; try reflexivity; [cbn [Nat.eqb]; f_equal; unfold radd; f_equal; ring|].
    do 3 ev. apply eqm_of_eq. ring.
  - set (u := radd k (rsub k t0 (D 2%nat)) (rsub k t1 (D 1%nat))).
    apply (repA_intro k _ _ u (D 1%nat) (D 2%nat)); unfold u; words; try reflexivity; [cbn [Nat.eqb]; f_equal; unfold radd; f_equal; ring|].
    do 3 ev. apply eqm_of_eq. ring.
Qed.
(* the roles' view of a sharing *)
Lemma rep_two k X x P : 0 <= k -> (P < 3)%nat -> repA k X x ->
  word k (snd (X (nx P))) /\ eqm k (fst (X P) + snd (X P) + snd (X (nx P))) x.
Proof.
  intros K LP H. destruct (repA_shape k X x K H) as [a [b [c [A [B [C [E0 [E1 [E2 E]]]]]]]]].
  three P; cbn [nx nextrank Nat.eqb]; rewrite ?E0, ?E1, ?E2; cbn [fst snd]; (split; [assumption|]); rewrite <- E; apply eqm_of_eq; ring.
Qed.
Lemma trunc_field_ok d w : 0 <= d -> trunc_field d = Ok w -> d <= w /\ 0 < w.
Proof.
  intros D. unfold trunc_field. repeat (match goal with |- context[?a <=? ?b] => destruct (Z.leb_spec a b) end; [intros Q; injection Q as <-; lia|]). discriminate.
Qed.
Lemma trunc_field_some d : d <= 128 -> exists w, trunc_field d = Ok w.
Proof. intros D. unfold trunc_field. repeat (match goal with |- context[?a <=? ?b] => destruct (Z.leb_spec a b) end; [eauto|]). lia. Qed.
(* a wrap count known modulo 2^w, w >= d, is enough *)
Lemma unshift k d w m u : 0 <= d -> d <= k -> d <= w -> eqm w u m -> eqm k (u * 2 ^ (k - d)) (m * 2 ^ (k - d)).
Proof.
  intros D K W E. apply eqm_exists in E; [|lia]. destruct E as [q ->].
  replace ((m + q * 2 ^ w) * 2 ^ (k - d)) with (m * 2 ^ (k - d) + q * (2 ^ w * 2 ^ (k - d))) by ring.
  replace (2 ^ w * 2 ^ (k - d)) with (2 ^ (w - d) * 2 ^ k) by (rewrite <- !Z.pow_add_r by lia; f_equal; lia).
  rewrite Z.mul_assoc. apply eqm_mult.
Qed.
(* ---- PrivateMul ---- *)
Lemma pm_ok w P S x y : 0 <= w -> (P < 3)%nat ->
  eqm w (fst (pm_roles w P (nx P) (nx (nx P)) S x y) + snd (pm_roles w P (nx P) (nx (nx P)) S x y)) (x * y).
Proof.
  intros W LP. assert (N3 : nx (nx (nx P)) = P) by (three P; reflexivity). unfold pm_roles, private_mul. rewrite !N3. cbn [fst snd].
  set (a := wrap w (S P 0%nat)). set (c0 := wrap w (S P 1%nat)). set (b := wrap w (S (nx (nx P)) 0%nat)). set (c1 := wrap w (S (nx (nx P)) 1%nat)).
  do 4 ev. apply eqm_of_eq. ring.
Qed.
Lemma word_b2 w x k : 0 < w -> 0 < k -> word k x -> wrap w (Z.land (rshr (k - 1) x) 1) = (if 2 ^ (k - 1) <=? x then 1 else 0).
Proof.
  intros W K [A B]. unfold rshr. pose proof (pow2_half k K) as H. pose proof (pow2_pos (k - 1) ltac:(lia)).
  assert (1 < 2 ^ w) by (apply (Z.pow_lt_mono_r 2 0 w); lia).
  change 1 with (Z.ones 1) at 2. rewrite Z.land_ones by lia. change (2 ^ 1) with 2.
  destruct (Z.leb_spec (2 ^ (k - 1)) x).
  - replace (x / 2 ^ (k - 1)) with 1 by (apply Z.div_unique with (x - 2 ^ (k - 1)); lia). apply wrap_small. unfold word. change (1 mod 2) with 1. lia.
  - rewrite Z.div_small by lia. apply wrap_small. unfold word. change (0 mod 2) with 0. lia.
Qed.

Lemma radd_swap k a b : radd k a b = radd k b a.
Proof. unfold radd. now rewrite Z.add_comm. Qed.

Lemma radd_0 k a : word k a -> radd k 0 a = a.
Proof. unfold radd. rewrite Z.add_0_l. apply wrap_small. Qed.

Section Trunc.
Variables k d : Z.
Hypothesis K1 : 1 < k.

Lemma trunc_a3_ok X x S : 0 <= d < k -> repA k X x -> no_wrap2 k x (fst (X 0%nat)) ->
  exists V y, trunc_a3 k d X S = Ok V /\ repA k V y /\ truncated k d x y 0 1.
Proof.
  intros D H NW. destruct (repA_shape k X x ltac:(lia) H) as [a [b [c [A [B [C [E0 [E1 [E2 E]]]]]]]]]. rewrite E0 in NW. cbn [fst] in NW.
  set (X2 := fun i => if (i =? 0)%nat then a else radd k b c).
  assert (S2 : shA k 2 X2 x).
  { apply shA_of; [lia|intros i _; unfold X2; destruct (i =? 0)%nat; words|exact (repA_word k X x H)|]. cbn [total]. unfold X2. cbn [Nat.eqb]. ev. rewrite <- E. apply eqm_of_eq; ring. }
  destruct (trunc_a2_ok k d X2 x ltac:(lia) D S2 NW) as [y [SY TY]].
  unfold trunc_a3. replace (in_shift k d) with true by (symmetry; unfold in_shift; lia). rewrite E0, E1, E2. cbn [fst snd nx nextrank Nat.eqb].
  set (r1 := wrap k (S 2%nat)). set (t1 := rneg k (rsar k d (rneg k (radd k b c)))).
  eexists _, y. split; [reflexivity|]. split; [|exact TY].
  apply (repA_intro k _ _ (rsar k d a) (rsub k t1 r1) r1); unfold r1; words; try reflexivity; [exact (shA_word _ _ _ _ SY)|].
  pose proof (shA_eqm k 2 _ _ ltac:(lia) SY) as T. cbn [total] in T. unfold trunc_a2, X2 in T. cbn [Nat.eqb] in T. fold t1 in T. rewrite <- T. do 3 ev. apply eqm_of_eq. ring.
Qed.
Lemma trunc_apr3_ok pivot X x S u1 u2 : 0 <= pivot -> pivot + 2 < 2 ^ 64 -> 0 <= d <= k - 2 -> repA k X x -> - 2 ^ (k - 2) <= sgn k x < 2 ^ (k - 2) ->
  exists V y, trunc_apr3 k d pivot X S u1 u2 = Ok V /\ repA k V y /\ truncated k d x y 0 1.
Proof.
  intros P0 P2 D H RX. unfold trunc_apr3. replace ((0 <=? d) && (d <=? k - 2)) with true by (symmetry; lia).
  match goal with |- context [with_roles pivot ?f] => destruct (roles_ok pivot f P0 P2) as [P [LP EP]] end. rewrite EP. clear EP.
  destruct (rep_two k X x P ltac:(lia) LP H) as [WB EB]. set (x0 := radd k (fst (X P)) (snd (X P))) in *. set (x1 := snd (X (nx P))) in *.
  assert (N3 : nx (nx (nx P)) = P) by (three P; reflexivity). rewrite !N3.
  set (r0 := wrap k (S P 0%nat)). set (r2 := wrap k (S (nx (nx P)) 0%nat)). set (r := radd k r2 r0).
  set (X2 := fun i => if (i =? 0)%nat then x0 else x1). set (R2 := fun i => if (i =? 0)%nat then r0 else r2).
  assert (W0 : word k x0) by (unfold x0; words). assert (Wx : word k x) by exact (repA_word k X x H).
  assert (S2 : shA k 2 X2 x).
  { apply shA_of; [lia|intros i _; unfold X2; destruct (i =? 0)%nat; words|exact Wx|]. cbn [total]. unfold X2. cbn [Nat.eqb]. unfold x0. ev. rewrite <- EB. apply eqm_of_eq; ring. }
  assert (SR : shA k 2 R2 r).
  { apply shA_of; [lia|intros i _; unfold R2, r0, r2; destruct (i =? 0)%nat; words|unfold r; words|]. cbn [total]. unfold R2. cbn [Nat.eqb]. unfold r. ev. apply eqm_of_eq; ring. }
  set (rc1 := wrap k (- wrap k u2)). set (rb1 := wrap k (- wrap k u1)).
  set (rc0 := radd k (wrap k u2) (rshr (d + 1) (rshl k 1 r))). set (rb0 := radd k (wrap k u1) (rshr (k - 1) r)).
  assert (Wr : word k r) by (unfold r; words).
  pose proof (pow2_half k ltac:(lia)) as PH. pose proof (pow2_pos (k - 1) ltac:(lia)) as PP. pose proof (pow2_pos d ltac:(lia)) as PD.
  assert (RCV : rshr (d + 1) (rshl k 1 r) = r mod 2 ^ (k - 1) / 2 ^ d).
  { unfold rshr, rshl, wrap. change (2 ^ 1) with 2. rewrite PH, (Z.mul_comm r 2), Z.mul_mod_distr_l by lia. rewrite Z.pow_add_r by lia. change (2 ^ 1) with 2.
    rewrite (Z.mul_comm (2 ^ d) 2). apply Z.div_mul_cancel_l; lia. }
  assert (WC : word k (r mod 2 ^ (k - 1) / 2 ^ d)).
  { pose proof (Z.mod_pos_bound r (2 ^ (k - 1)) PP). split; [apply Z.div_pos; lia|]. apply Z.div_lt_upper_bound; nia. }
  assert (WBt : word k (r / 2 ^ (k - 1))) by (destruct Wr; split; [apply Z.div_pos; lia|apply Z.div_lt_upper_bound; nia]).
  assert (SC : shA k 2 (fun i => if (i =? 0)%nat then rc0 else rc1) (r mod 2 ^ (k - 1) / 2 ^ d)).
  { apply shA_of; [lia|intros i _; unfold rc0, rc1; destruct (i =? 0)%nat; words|exact WC|]. cbn [total Nat.eqb]. unfold rc0, rc1. rewrite RCV. generalize (wrap k u2). intros v. do 3 ev. apply eqm_of_eq; ring. }
  assert (SB : shA k 2 (fun i => if (i =? 0)%nat then rb0 else rb1) (r / 2 ^ (k - 1))).
  { apply shA_of; [lia|intros i _; unfold rb0, rb1; destruct (i =? 0)%nat; words|exact WBt|]. cbn [total Nat.eqb]. unfold rb0, rb1, rshr. generalize (wrap k u1). intros v. do 3 ev. apply eqm_of_eq; ring. }
  destruct (truncpr_ok k d 2 X2 R2 _ _ x r K1 D ltac:(lia) S2 SR SC SB RX) as [y [SY TY]].
  set (c0 := radd k (radd k (radd k x0 (2 ^ (k - 2))) r0) (radd k x1 r2)).
  replace (radd k (radd k x1 r2) (radd k (radd k x0 (2 ^ (k - 2))) r0)) with c0 by (unfold c0; apply radd_swap).
  assert (CE : allreduce0 (radd k) 2 (fun i => truncpr_mask k i (X2 i) (R2 i)) = c0).
  { unfold allreduce0, truncpr_mask, X2, R2, c0. cbn [seq map fold_left Nat.eqb].
    replace (radd k 0 (radd k (radd k x0 (2 ^ (k - 2))) r0)) with (radd k (radd k x0 (2 ^ (k - 2))) r0); [reflexivity|].
    symmetry. apply radd_0. words. }
  exists (reshare k P (nx P) 1 S (truncpr k d 0 c0 rc0 rb0) (truncpr k d 1 c0 rc1 rb1)), y. split; [reflexivity|]. split; [|exact TY].
  replace y with (wrap k (truncpr k d 0 c0 rc0 rb0 + truncpr k d 1 c0 rc1 rb1)); [apply reshare_ok; auto; lia|].
  rewrite <- (shA_wrap k 2 _ _ ltac:(lia) SY). cbn [total]. unfold truncpr_all. rewrite CE. cbn [Nat.eqb]. now rewrite Z.add_0_l.
Qed.
Lemma trunc_apr23_ok pivot X x S : 0 <= pivot -> pivot + 2 < 2 ^ 64 -> 1 <= d < k -> d <= 128 -> repA k X x -> - 2 ^ (k - 2) <= sgn k x < 2 ^ (k - 2) ->
  exists V y, trunc_apr23 k d pivot X S = Ok V /\ repA k V y /\ truncated k d x y 0 1.
Proof.
  intros P0 P2 D D128 H RX. unfold trunc_apr23. replace ((1 <=? d) && (d <? k)) with true by (symmetry; lia).
  destruct (trunc_field_some d D128) as [w TF]. destruct (trunc_field_ok d w ltac:(lia) TF) as [DW W0]. rewrite TF. cbn [rbind].
  match goal with |- context [with_roles pivot ?f] => destruct (roles_ok pivot f P0 P2) as [P [LP EP]] end. rewrite EP. clear EP.
  destruct (rep_two k X x P ltac:(lia) LP H) as [WB EB]. set (x0 := radd k (fst (X P)) (snd (X P))) in *. set (x1 := snd (X (nx P))) in *.
  assert (WX0 : word k x0) by (unfold x0; words). assert (Wx : word k x) by exact (repA_word k X x H).
  assert (E : eqm k (x0 + x1) x) by (unfold x0; ev; exact EB).
  pose proof (mw_ok k x x0 x1 K1 Wx WX0 WB E RX) as MW.
  set (m := mw_star k 0 x0 * mw_star k 1 x1 + (if x0 <? 2 ^ (k - 2) then 0 else 1)) in *.
  pose proof (pm_ok w P S (mw_star k 0 x0) (mw_star k 1 x1) ltac:(lia) LP) as PM. set (z := pm_roles w P (nx P) (nx (nx P)) S (mw_star k 0 x0) (mw_star k 1 x1)) in *.
  set (mw0 := radd w (fst z) (rsub w 1 (if x0 <? 2 ^ (k - 2) then 1 else 0))).
  assert (MS : eqm w (mw0 + snd z) m).
  { unfold mw0. do 3 ev. transitivity (fst z + snd z + (1 - (if x0 <? 2 ^ (k - 2) then 1 else 0))); [apply eqm_of_eq; ring|]. rewrite PM. apply eqm_of_eq. unfold m. destruct (_ <? _); ring. }
  set (D' := 2 ^ d). pose proof (pow2_pos d ltac:(lia)) as PD. fold D' in PD.
  assert (PKD : 2 ^ k = 2 ^ (k - d) * D') by (unfold D'; rewrite <- pow2_split by lia; f_equal; lia).
  set (v := x0 / D' + x1 / D' - m * 2 ^ (k - d) + 1).
  eexists _, (wrap k v). split; [reflexivity|]. split.
  - match goal with |- repA k (reshare k P (nx P) 2 S ?t0 ?t1) _ => replace (wrap k v) with (wrap k (t0 + t1)); [apply reshare_ok; auto; lia|] end.
    match goal with |- wrap k ?a = wrap k ?b => change (eqm k a b) end. do 4 ev. unfold rshr. fold D'.
    transitivity (x0 / D' + x1 / D' - (mw0 + snd z) * 2 ^ (k - d) + 1); [apply eqm_of_eq; ring|]. rewrite (unshift k d w m _ ltac:(lia) ltac:(lia) DW MS). reflexivity.
  - pose proof (div_add_bounds x0 x1 D' PD) as B. rewrite MW, PKD in B.
    replace (sgn k x + m * (2 ^ (k - d) * D')) with (sgn k x + (m * 2 ^ (k - d)) * D') in B by ring. rewrite Z.div_add in B by lia.
    pose proof (pow2_half (k - 1) ltac:(lia)) as H2. replace (k - 1 - 1) with (k - 2) in H2 by lia.
    pose proof (pow2_pos (k - 2) ltac:(lia)) as P2'.
    assert (BE : 0 <= v - sgn k x / D' <= 1) by (unfold v; lia).
    apply (truncated_intro k d x (wrap k v) v (v - sgn k x / D')); [lia|exact Wx|now apply word_wrap; lia|apply eqm_wrap|unfold D'; ring|exact BE|].
    replace v with (sgn k x / D' + (v - sgn k x / D')) by ring. apply room; lia.
Qed.
(* truncation with a sign hint: x >= 0, resp. x < 0 *)
Lemma trunc_msb3_ok (neg : bool) pivot X x S : 0 <= pivot -> pivot + 2 < 2 ^ 64 -> 1 <= d < k -> d <= 128 -> repA k X x ->
  (if neg then sgn k x < 0 else 0 <= sgn k x) ->
  exists V y, trunc_msb3 k neg d pivot X S = Ok V /\ repA k V y /\ truncated k d x y (-1) 0.
Proof.
  intros P0 P2 D D128 H SG. unfold trunc_msb3. replace ((1 <=? d) && (d <? k)) with true by (symmetry; lia).
  destruct (trunc_field_some d D128) as [w TF]. destruct (trunc_field_ok d w ltac:(lia) TF) as [DW W0]. rewrite TF. cbn [rbind].
  match goal with |- context [with_roles pivot ?f] => destruct (roles_ok pivot f P0 P2) as [P [LP EP]] end. rewrite EP. clear EP.
  destruct (rep_two k X x P ltac:(lia) LP H) as [WB EB]. set (x0 := radd k (radd k (fst (X P)) (snd (X P))) (2 ^ (k - 1))) in *. set (x1 := snd (X (nx P))) in *.
  assert (WX0 : word k x0) by (unfold x0; words). assert (Wx : word k x) by exact (repA_word k X x H).
  pose proof (pow2_half k ltac:(lia)) as PH. pose proof (pow2_pos (k - 1) ltac:(lia)) as PP. pose proof (sgn_range k x ltac:(lia) Wx) as SR.
  set (h := 2 ^ (k - 1)) in *. set (x' := sgn k x + h).
  assert (E : eqm k (x0 + x1) x').
  { unfold x0, x'. do 2 ev. transitivity (fst (X P) + snd (X P) + x1 + h); [apply eqm_of_eq; ring|]. rewrite EB, eqm_sgn. reflexivity. }
  assert (BX : 0 <= x' < 2 ^ k) by (unfold x'; lia).
  set (m0 := if h <=? x0 then 1 else 0). set (m1 := if h <=? x1 then 1 else 0).
  set (wc := if neg then 1 - (1 - m0) * (1 - m1) else m0 * m1).
  assert (MW : x0 + x1 = x' + wc * 2 ^ k).
  { apply eqm_exists in E; [|lia]. destruct E as [q Q]. destruct WX0 as [A0 A1]. destruct WB as [B0 B1].
    rewrite Q. f_equal. f_equal. unfold wc, m0, m1. rewrite PH in *. unfold x' in *.
    destruct (Z.leb_spec h x0), (Z.leb_spec h x1); destruct neg; cbn; nia. }
  rewrite !(word_b2 w) by (auto; lia). fold h m0 m1.
  set (a0 := if neg then rsub w 1 m0 else m0). set (a1 := if neg then rsub w 1 m1 else m1).
  pose proof (pm_ok w P S a0 a1 ltac:(lia) LP) as PM. set (z := pm_roles w P (nx P) (nx (nx P)) S a0 a1) in *.
  set (w0 := if neg then rsub w 1 (fst z) else fst z). set (w1 := if neg then rsub w 0 (snd z) else snd z).
  assert (MS : eqm w (w0 + w1) wc).
  { unfold w0, w1, wc, a0, a1 in *. destruct neg; [|exact PM]. do 2 ev. transitivity (1 - (fst z + snd z)); [apply eqm_of_eq; ring|]. rewrite PM. do 3 ev. reflexivity. }
  set (D' := 2 ^ d). pose proof (pow2_pos d ltac:(lia)) as PD. fold D' in PD.
  assert (PKD : 2 ^ k = 2 ^ (k - d) * D') by (unfold D'; rewrite <- pow2_split by lia; f_equal; lia).
  assert (PHD : h = 2 ^ (k - d - 1) * D') by (unfold D', h; rewrite <- pow2_split by lia; f_equal; lia).
  set (v := x0 / D' + x1 / D' - wc * 2 ^ (k - d) - 2 ^ (k - d - 1)).
  eexists _, (wrap k v). split; [reflexivity|]. split.
  - match goal with |- repA k (reshare k P (nx P) 2 S ?t0 ?t1) _ => replace (wrap k v) with (wrap k (t0 + t1)); [apply reshare_ok; auto; lia|] end.
    match goal with |- wrap k ?a = wrap k ?b => change (eqm k a b) end. do 4 ev. unfold rshr. fold D'.
    transitivity (x0 / D' + x1 / D' - (w0 + w1) * 2 ^ (k - d) - 2 ^ (k - d - 1)); [apply eqm_of_eq; ring|]. rewrite (unshift k d w wc _ ltac:(lia) ltac:(lia) DW MS). reflexivity.
  - pose proof (div_add_bounds x0 x1 D' PD) as B. rewrite MW, PKD in B. unfold x' in B. rewrite PHD in B.
    replace (sgn k x + 2 ^ (k - d - 1) * D' + wc * (2 ^ (k - d) * D')) with (sgn k x + (2 ^ (k - d - 1) + wc * 2 ^ (k - d)) * D') in B by ring. rewrite Z.div_add in B by lia.
    assert (BE : -1 <= v - sgn k x / D' <= 0) by (unfold v; lia).
    apply (truncated_intro k d x (wrap k v) v (v - sgn k x / D')); [lia|exact Wx|now apply word_wrap; lia|apply eqm_wrap|unfold D'; ring|exact BE|].
    replace v with (sgn k x / D' + (v - sgn k x / D')) by ring. apply room; fold h; lia.
Qed.
End Trunc.
