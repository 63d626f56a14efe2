From Verif Require Import Base Ring_model Ring_spec Ring_proof Share_spec Party Semi_model Semi_proof.
From Verif Require Import Circ_model Circ_spec Circ_proof Circc_proof Circr_proof Conv_proof.
From Verif Require Import Aby_model Aby_spec Aby_proof Abyb_proof.
Open Scope Z_scope.

(* ---- roles ---- *)
Lemma roles_ok {A} pivot (f : nat -> nat -> nat -> A) : 0 <= pivot -> pivot + 2 < 2 ^ 64 ->
  exists P, (P < 3)%nat /\ with_roles pivot f = Ok (f P (nx P) (nx (nx P))).
Proof.
  intros L U. assert (R : role pivot 0 = Z.to_nat (pivot mod 3) /\ role pivot 1 = Z.to_nat ((pivot + 1) mod 3) /\ role pivot 2 = Z.to_nat ((pivot + 2) mod 3)).
  { unfold role. rewrite !wrap_small by lia. now rewrite Z.add_0_r. }
  destruct R as [R0 [R1 R2]]. unfold with_roles. rewrite R0, R1, R2.
  pose proof (Z.mod_pos_bound pivot 3 ltac:(lia)) as B. rewrite <- (Z.add_mod_idemp_l pivot 1 3), <- (Z.add_mod_idemp_l pivot 2 3) by lia.
  exists (Z.to_nat (pivot mod 3)). split; [lia|]. assert (C : pivot mod 3 = 0 \/ pivot mod 3 = 1 \/ pivot mod 3 = 2) by lia.
  destruct C as [C | [C | C]]; rewrite C; reflexivity.
Qed.
Lemma xorc m w : rxor (rxor m w) w = m.
Proof. unfold rxor. now rewrite Z.lxor_assoc, Z.lxor_nilpotent, Z.lxor_0_r. Qed.
Lemma xorc' m w : rxor (rxor w m) w = m.
Proof. unfold rxor. now rewrite (Z.lxor_comm w m), Z.lxor_assoc, Z.lxor_nilpotent, Z.lxor_0_r. Qed.

(* ---- arithmetic share times bit ---- *)
Lemma odd_lsb x : lsb x = Z.b2z (Z.odd x).
Proof.
  unfold lsb. change 1 with (Z.ones 1). rewrite Z.land_ones by lia. change (2 ^ 1) with 2. rewrite Zmod_odd. now destruct (Z.odd x).
Qed.
Lemma mul_a1b3_ok k v X B a b S : 0 <= k -> repA k X a -> repB v B b -> b < 2 ->
  exists V, mul_a1b3 k 1 X B S = Ok V /\ repA k V (wrap k (a * b)).
Proof.
  intros K HA HB LB. destruct (repA_shape k X a K HA) as [a0 [a1 [a2 [A0 [A1 [A2 [E0 [E1 [E2 E]]]]]]]]].
  assert (B0 : 0 <= b) by (destruct HB as [_ [[? _] _]]; assumption).
  destruct (repB_shape v B b HB) as [b0 [b1 [b2 [_ [_ [_ [F0 [F1 [F2 F]]]]]]]]].
  unfold mul_a1b3. cbn [Z.eqb]. eexists. split; [reflexivity|]. unfold ot.
  cbn [nx nextrank Nat.eqb]. rewrite E0, E2, F0, F1, F2. cbn [fst snd].
  set (D := fun g j => wrap k (S g j)).
  assert (BV : b = Z.b2z (xorb (xorb (Z.odd b0) (Z.odd b1)) (Z.odd b2))).
  { rewrite <- F in *. assert (Z.lxor (Z.lxor b0 b1) b2 = lsb (Z.lxor (Z.lxor b0 b1) b2)) as ->.
    { unfold lsb. change 1 with (Z.ones 1). rewrite Z.land_ones by lia. rewrite Z.mod_small; [reflexivity|change (2 ^ 1) with 2; lia]. }
    rewrite odd_lsb. f_equal. rewrite <- !Z.bit0_odd, !Z.lxor_spec. reflexivity. }
  set (o1 := rsub k (rsub k (rmul k b a1) (D 0%nat 0%nat)) (D 1%nat 0%nat)).
  set (o2 := rsub k (rsub k (rmul k b (radd k a2 a0)) (D 2%nat 0%nat)) (D 0%nat 1%nat)).
  match goal with |- context [rxor (if Z.odd b2 then ?x else ?y) ?z] => assert (O1 : rxor (if Z.odd b2 then x else y) z = o1) end.
  { unfold a1b_msg. cbn [fst snd]. rewrite !odd_lsb. fold (D 0%nat 0%nat) (D 1%nat 0%nat). unfold o1. rewrite BV.
    destruct (Z.odd b2); rewrite xorc; destruct (Z.odd b0), (Z.odd b1); reflexivity. }
  match goal with |- context [rxor (if Z.odd b1 then ?x else ?y) ?z] => assert (O2 : rxor (if Z.odd b1 then x else y) z = o2) end.
  { unfold a1b_msg. cbn [fst snd]. rewrite !odd_lsb. fold (D 2%nat 0%nat) (D 0%nat 1%nat). unfold o2. rewrite BV.
    destruct (Z.odd b1); rewrite xorc; destruct (Z.odd b0), (Z.odd b2); reflexivity. }
  apply (repA_intro k _ _ (radd k (D 0%nat 0%nat) (D 0%nat 1%nat)) (radd k (D 1%nat 0%nat) o2) (radd k o1 (D 2%nat 0%nat))); words.
  - cbn [fst snd]. rewrite O2. reflexivity.
  - cbn [fst snd]. rewrite O1, O2. reflexivity.
  - cbn [fst snd]. rewrite O1. reflexivity.
  - unfold o1, o2. do 4 ev. rewrite <- E. apply eqm_of_eq. ring.
Qed.

Section Field.
Variable w : nat.
Hypothesis W5 : (5 <= w)%nat.
Hypothesis W7 : (w <= 7)%nat.
Let k := 2 ^ Z.of_nat w.
Notation R := (arel k).
Variable T : nat -> nat -> Z.
Notation ops := (aby_bops k T).

(* ---- A2B ---- *)
Lemma a2b_m_ok X S x0 x1 : fst (X 0%nat) = x0 -> snd (X 0%nat) = x1 -> R k (a2b_m k X S) (wrap k (x0 + x1)).
Proof.
  intros E0 E1. pose proof (fk_pos w W5 W7) as KP. fold k in KP. split; [reflexivity|]. cbn [bw bx bn a2b_m].
  apply repBn_intro; [|lia|lia|apply (fk_in w W5 W7)|apply word_wrap; lia].
  assert (W : word k (wrap k (x0 + x1))) by words.
  apply repB_rot; [intros i Hi; three i; cbn [nx nextrank Nat.eqb]; unfold rxor; repeat apply word_lxor; words|exact W|].
  cbn [nx nextrank Nat.eqb]. rewrite E0, E1. unfold rxor, radd. generalize (wrap k (x0 + x1)), (wrap k (S 0%nat)), (wrap k (S 1%nat)), (wrap k (S 2%nat)).
  intros u a b c. apply Z.bits_inj'. intros i I. rewrite !Z.lxor_spec. destruct (Z.testbit u i), (Z.testbit a i), (Z.testbit b i), (Z.testbit c i); reflexivity.
Qed.
Lemma a2b_n_ok X c : word k c -> snd (X 1%nat) = c -> fst (X 2%nat) = c -> R k (a2b_n k X) c.
Proof.
  intros W E1 E2. pose proof (fk_pos w W5 W7) as KP. fold k in KP. split; [reflexivity|]. cbn [bw bx bn a2b_n].
  apply repBn_intro; [|lia|lia|apply (fk_in w W5 W7)|apply W].
  apply (repB_intro k _ _ 0 0 c); words; cbn [Nat.eqb]; rewrite ?E1, ?E2; try reflexivity.
Qed.
Lemma a2b3_ok t X S x : repA k X x -> exists V, a2b3 k T t X S = Ok V /\ R k V x.
Proof.
  intros H. pose proof (fk_pos w W5 W7) as KP. fold k in KP. destruct (repA_shape k X x ltac:(lia) H) as [a [b [c [A [B [C [E0 [E1 [E2 E]]]]]]]]].
  pose proof (a2b_m_ok X S a b ltac:(now rewrite E0) ltac:(now rewrite E0)) as HM. pose proof (a2b_n_ok X c C ltac:(now rewrite E1) ltac:(now rewrite E2)) as HN.
  destruct (add_bb_ok bsh w ltac:(lia) W7 ops R (aby_implements w W5 W7 T) t k _ _ _ _ ltac:(lia) HM HN) as [V [EV HV]].
  exists V. split; [exact EV|]. fold k in HV. rewrite Z.min_r in HV by lia.
  replace x with (wrap k (wrap k (a + b) + c)); [exact HV|]. rewrite <- (wrap_small k x) by exact (repA_word k X x H).
  change (eqm k (wrap k (a + b) + c) x). rewrite <- E. do 4 ev. reflexivity.
Qed.
(* ---- MSB ---- *)
Lemma msb_range3 x : word k x -> 0 <= rshr (k - 1) x < 2.
Proof.
  intros [A B]. pose proof (fk_pos w W5 W7) as KP. fold k in KP. unfold rshr. assert (2 ^ k = 2 * 2 ^ (k - 1)) by (replace k with (1 + (k - 1)) at 1 by lia; rewrite Z.pow_add_r by lia; lia).
  pose proof (pow2_pos (k - 1) ltac:(lia)). split; [apply Z.div_pos; lia|apply Z.div_lt_upper_bound; lia].
Qed.
Lemma msb_a2b3_ok t X S x : repA k X x -> exists V, msb_a2b3 k T t X S = Ok V /\ R 1 V (rshr (k - 1) x).
Proof.
  intros H. pose proof (fk_pos w W5 W7) as KP. fold k in KP. destruct (repA_shape k X x ltac:(lia) H) as [a [b [c [A [B [C [E0 [E1 [E2 E]]]]]]]]].
  pose proof (a2b_m_ok X S a b ltac:(now rewrite E0) ltac:(now rewrite E0)) as HM. pose proof (a2b_n_ok X c C ltac:(now rewrite E1) ltac:(now rewrite E2)) as HN.
  set (m := wrap k (a + b)) in *. assert (Wm : word k m) by (unfold m; words).
  destruct (carry_a2b_top bsh w ltac:(lia) W7 ops R (aby_implements w W5 W7 T) t _ _ _ _ ltac:(lia) HM HN) as [V [EV HV]]. fold k in EV, HV.
  unfold msb_a2b3. rewrite EV. cbn [rbind]. eexists. split; [reflexivity|].
  pose proof (xor_bb3_ok w W5 W7 _ _ _ _ _ _ HM HN) as H1. fold k in H1. rewrite Z.max_id in H1.
  pose proof (rshift_val_ok w W5 W7 _ _ _ (k - 1) ltac:(lia) H1) as H2. fold k in H2.
  pose proof (xor_bb3_ok w W5 W7 _ _ _ _ _ _ H2 HV) as H3. fold k in H3. replace (Z.max (k - Z.min k (k - 1)) 1) with 1 in H3 by lia.
  replace (rshr (k - 1) x) with (Z.lxor (rshr (k - 1) (Z.lxor m c)) (carry m c (k - 1))); [exact H3|].
  pose proof (repA_word k X x H) as Wx. pose proof (msb_range3 x Wx) as L4.
  assert (L3 : word 1 (Z.lxor (rshr (k - 1) (Z.lxor m c)) (carry m c (k - 1)))) by apply (repBn_word _ _ _ _ _ (proj2 H3)).
  assert (EX : x = wrap k (m + c)).
  { rewrite <- (wrap_small k x) by exact Wx. change (eqm k x (m + c)). rewrite <- E. unfold m. do 4 ev. reflexivity. }
  apply (tb_eq_word 1); [lia|exact L3|exact L4|]. intros i I. replace i with 0 by lia. clear i I.
  rewrite Z.lxor_spec, !tb_rshr, Z.lxor_spec, <- b2z_cyb, Z.b2z_bit0, !Z.add_0_l by lia.
  rewrite EX, tb_wrap by lia. destruct (Z.ltb_spec (k - 1) k); [|lia]. cbn [andb]. rewrite add_bits by lia. reflexivity.
Qed.
(* ---- B2A by adder ---- *)
Lemma zero_rep : repA k (fun _ => (0, 0)) 0.
Proof. pose proof (fk_pos w W5 W7) as KP. fold k in KP. apply (repA_intro k _ _ 0 0 0); words; try reflexivity. Qed.
Lemma b2a_ppa3_ok t X x nb RA RB : R nb X x -> exists V, b2a_ppa3 k T t X RA RB = Ok V /\ repA k V x.
Proof.
  intros H. pose proof (fk_pos w W5 W7) as KP. fold k in KP. assert (N : 0 <= nb <= k) by apply H. assert (EN : bn X = nb) by apply H.
  assert (Wn : word nb x) by exact (repBn_word _ _ _ _ _ (proj2 H)).
  assert (Wx : word k x) by (apply (word_mono nb); auto; lia).
  unfold b2a_ppa3. rewrite EN. destruct (Z.leb_spec nb k); [|lia]. destruct (Z.eqb_spec nb 0) as [-> |NZ].
  { eexists. split; [reflexivity|]. replace x with 0 by (destruct Wn; change (2 ^ 0) with 1 in *; lia). apply zero_rep. }
  pose proof (cast_b3_ok w W5 W7 nb k k X x ltac:(fold k; lia) ltac:(fold k; lia) (fk_in w W5 W7) H) as HE. fold k in HE.
  set (r := wrap k (wrap k (RA 1%nat) + wrap k (RA 2%nat))).
  match goal with |- context [add_bb bsh ops t (cast_b3 k k X) ?q] => assert (HQ : R k q r) end.
  { split; [reflexivity|]. cbn [bw bx bn]. apply repBn_intro; [|lia|lia|apply (fk_in w W5 W7)|apply word_wrap; lia].
    assert (W : word k r) by (unfold r; words).
    apply repB_rot; [intros i Hi; three i; cbn [nx nextrank Nat.eqb]; unfold rxor; repeat apply word_lxor; words|exact W|].
    cbn [nx nextrank Nat.eqb]. unfold rxor, radd. fold r. generalize r, (wrap k (RB 0%nat)), (wrap k (RB 1%nat)), (wrap k (RB 2%nat)).
    intros u a b c. apply Z.bits_inj'. intros i I. rewrite !Z.lxor_spec. destruct (Z.testbit u i), (Z.testbit a i), (Z.testbit b i), (Z.testbit c i); reflexivity. }
  destruct (add_bb_ok bsh w ltac:(lia) W7 ops R (aby_implements w W5 W7 T) t k _ _ _ _ ltac:(lia) HE HQ) as [V [EV HV]]. fold k in EV, HV.
  rewrite EV. cbn [rbind]. rewrite Z.min_r in HV by lia. assert (BV : bw V = k) by (destruct HV as [_ [_ [_ [? _]]]]; lia). rewrite BV, Z.eqb_refl.
  eexists. split; [reflexivity|]. destruct HV as [_ [HV _]]. rewrite BV in HV. destruct (repB_shape _ _ _ HV) as [a [b [c [_ [_ [_ [E0 [_ [E2 E]]]]]]]]].
  rewrite E0, E2. cbn [fst snd]. unfold rxor. rewrite E.
  apply repA_rot; [lia| |exact Wx|].
  - intros i Hi. destruct (i =? 0)%nat; words.
  - cbn [Nat.eqb]. unfold r. generalize (wrap k (RA 1%nat)), (wrap k (RA 2%nat)). intros u1 u2. do 4 ev. apply eqm_of_eq. ring.
Qed.
(* ---- B2A by oblivious transfer ---- *)
Lemma bit_compose_eqm nb f : eqm k (bit_compose k nb f) (total nb (fun j => f j * 2 ^ Z.of_nat j)).
Proof.
  unfold bit_compose. rewrite fold_radd. induction nb as [|nb IH]; cbn [total]; [reflexivity|]. rewrite IH. unfold rshl. do 4 ev. reflexivity.
Qed.
Lemma bit_compose_word nb f : word k (bit_compose k nb f).
Proof. pose proof (fk_pos w W5 W7) as KP. fold k in KP. unfold bit_compose. apply (fold_radd_word k (fun j => rshl k (Z.of_nat j) (f j))). lia. Qed.
Lemma b2a_ot3_ok pivot X x nb RR M0 M1 : 0 <= pivot -> pivot + 2 < 2 ^ 64 -> R nb X x ->
  exists V, b2a_ot3 k pivot X RR M0 M1 = Ok V /\ repA k V x.
Proof.
  intros P0 P2 H. pose proof (fk_pos w W5 W7) as KP. fold k in KP. assert (N : 0 <= nb <= k) by apply H. assert (EN : bn X = nb) by apply H.
  assert (Wn : word nb x) by exact (repBn_word _ _ _ _ _ (proj2 H)).
  assert (Wx : word k x) by (apply (word_mono nb); auto; lia).
  unfold b2a_ot3. rewrite EN. destruct (Z.leb_spec nb k); [|lia]. destruct (Z.eqb_spec nb 0) as [-> |NZ].
  { eexists. split; [reflexivity|]. replace x with 0 by (destruct Wn; change (2 ^ 0) with 1 in *; lia). apply zero_rep. }
  match goal with |- context [with_roles pivot ?f] => destruct (roles_ok pivot f P0 P2) as [P [LP EP]] end. rewrite EP. clear EP.
  eexists. split; [reflexivity|]. destruct H as [_ [H _]]. destruct (repB_shape _ _ _ H) as [a [b [c [_ [_ [_ [E0 [E1 [E2 E]]]]]]]]].
  set (q := fun i : nat => match i with O => a | 1%nat => b | _ => c end).
  assert (EX : forall i, (i < 3)%nat -> bx X i = (q i, q (nx i))) by (intros i Hi; three i; assumption).
  set (C := fun i => bit_compose k (Z.to_nat nb) (fun j => wrap k (RR j i))).
  set (c2 := bit_compose k (Z.to_nat nb) (fun j => rsub k (Z.b2z (Z.testbit x (Z.of_nat j))) (radd k (wrap k (RR j (nx (nx P)))) (wrap k (RR j P))))).
  assert (N3 : nx (nx (nx P)) = P) by (three P; reflexivity).
  assert (L1 : (nx P < 3)%nat) by now apply nx_lt. assert (L2 : (nx (nx P) < 3)%nat) by now apply nx_lt.
  rewrite !N3, !EX by assumption. cbn [fst snd]. rewrite !N3.
  match goal with |- repA k (by_role _ _ (_, ?u) _ _) _ => assert (EC : u = c2) end.
  { unfold c2, bit_compose.
    assert (XB : forall j, Z.testbit x (Z.of_nat j) = xorb (Z.testbit (rxor (q (nx (nx P))) (q P)) (Z.of_nat j)) (Z.testbit (q (nx P)) (Z.of_nat j))).
    { intros j. rewrite <- E. unfold rxor. rewrite !Z.lxor_spec. three P; cbn [nx nextrank Nat.eqb q];
        destruct (Z.testbit a (Z.of_nat j)), (Z.testbit b (Z.of_nat j)), (Z.testbit c (Z.of_nat j)); reflexivity. }
    generalize (seq 0 (Z.to_nat nb)) as l, 0. induction l as [|j l IH]; intros u; [reflexivity|]. cbn [fold_left]. rewrite IH. f_equal. f_equal. f_equal.
    rewrite XB. destruct (Z.testbit (q (nx P)) (Z.of_nat j)); rewrite xorc'; destruct (Z.testbit (rxor (q (nx (nx P))) (q P)) (Z.of_nat j)); reflexivity. }
  rewrite EC. clear EC. fold (C P) (C (nx (nx P))).
  assert (SUM : eqm k (C P + c2 + C (nx (nx P))) x).
  { unfold C, c2. rewrite !bit_compose_eqm.
    transitivity (ofbits (Z.to_nat nb) (fun j => Z.testbit x (Z.of_nat j))); [|apply eqm_of_eq, ofbits_word; rewrite Z2Nat.id by lia; exact Wn].
    rewrite ofbits_total. generalize (Z.to_nat nb) as m. induction m as [|m IH]; cbn [total]; [reflexivity|].
    set (A := total m _) in *. set (B := total m _) in *. set (D := total m _) in *. set (G := total m _) in *.
    rewrite <- IH. do 4 ev. apply eqm_of_eq. ring. }
  assert (W1 : word k c2) by apply bit_compose_word. assert (WC : forall i, word k (C i)) by (intros; apply bit_compose_word).
  unfold by_role. three P; cbn [nx nextrank Nat.eqb] in *.
  - apply (repA_intro k _ _ (C 0%nat) c2 (C 2%nat)); auto; try reflexivity. lia.
  - apply (repA_intro k _ _ (C 0%nat) (C 1%nat) c2); auto; try reflexivity; [lia|]. rewrite <- SUM. apply eqm_of_eq; ring.
  - apply (repA_intro k _ _ c2 (C 1%nat) (C 2%nat)); auto; try reflexivity; [lia|]. rewrite <- SUM. apply eqm_of_eq; ring.
Qed.
Lemma b2a3_ok t pivot X x nb RA RB RR M0 M1 : 0 <= pivot -> pivot + 2 < 2 ^ 64 -> R nb X x ->
  exists V, b2a3 k T t pivot X RA RB RR M0 M1 = Ok V /\ repA k V x.
Proof. intros. unfold b2a3. destruct (bn X <=? 8); [now apply (b2a_ot3_ok _ _ _ nb)|now apply (b2a_ppa3_ok _ _ _ nb)]. Qed.

(* ---- equality ---- *)
Lemma eqz_tree_ok Q : forall l fuel F z, (l < fuel)%nat -> repB (Z.max 8 (2 ^ Z.of_nat l)) F z -> z < 2 ^ (2 ^ Z.of_nat l) ->
  exists V v, eqz_tree fuel Q (2 ^ Z.of_nat l) F = Ok V /\ repB 8 V v /\ v < 2 /\
    (v = 1 <-> forall i, 0 <= i < 2 ^ Z.of_nat l -> Z.testbit z i = true).
Proof.
  induction l as [|l IH]; intros fuel F z LF HF ZB; (destruct fuel as [|fuel]; [lia|]).
  - exists F, z. change (2 ^ Z.of_nat 0) with 1 in *. change (2 ^ 1) with 2 in *. rewrite Z.max_l in HF by lia. split; [reflexivity|]. split; [exact HF|]. split; [exact ZB|].
    assert (0 <= z) by apply HF. split.
    + intros -> i I. now replace i with 0 by lia.
    + intros B. specialize (B 0 ltac:(lia)). rewrite Z.bit0_odd in B. assert (C : z = 0 \/ z = 1) by lia. destruct C as [-> | ->]; [discriminate|reflexivity].
  - assert (P : 0 < 2 ^ Z.of_nat l) by (apply Z.pow_pos_nonneg; lia).
    assert (D : 2 ^ Z.of_nat (S l) = 2 * 2 ^ Z.of_nat l) by (rewrite Nat2Z.inj_succ, Z.pow_succ_r; lia). rewrite D in *. set (h := 2 ^ Z.of_nat l) in *.
    cbn [eqz_tree]. destruct (Z.eqb_spec (2 * h) 1); [lia|]. replace (2 * h / 2) with h by (symmetry; rewrite Z.mul_comm; apply Z.div_mul; lia).
    assert (Z0 : 0 <= z) by apply HF. assert (Wz : word (2 * h) z) by (split; assumption).
    set (c8 := 2 * h <=? 8). set (v := if c8 then 8 else h).
    set (left := fun a => if c8 then rshr h a else wrap h a). set (right := fun a => if c8 then a else rshr h a).
    assert (EVv : Z.max 8 h = v).
    { unfold v, c8. destruct (Z.leb_spec (2 * h) 8); [lia|]. destruct (Nat.le_gt_cases l 2) as [L2|L2].
      - exfalso. assert (C : (l = 0 \/ l = 1 \/ l = 2)%nat) by lia. destruct C as [-> | [-> | ->]]; unfold h in *; cbn in *; lia.
      - assert (2 ^ 3 <= h) by (apply Z.pow_le_mono_r; lia). change (2 ^ 3) with 8 in *. lia. }
    assert (V8 : 8 <= v) by lia.
    assert (SM : forall a, word (Z.max 8 (2 * h)) a -> word v (left a) /\ word v (right a)).
    { intros a A. unfold left, right, v, c8 in *. destruct (Z.leb_spec (2 * h) 8).
      - rewrite Z.max_l in A by lia. split; [|exact A]. apply rshr_word; auto; lia.
      - rewrite Z.max_r in A by lia. split; [words|]. unfold rshr. destruct A as [A1 A2]. split; [apply Z.div_pos; [lia|apply pow2_pos; lia]|].
        apply Z.div_lt_upper_bound; [apply pow2_pos; lia|]. rewrite <- pow2_split by lia. now replace (h + h) with (2 * h) by lia. }
    assert (HL : repB v (fun i => both left (F i)) (left z)).
    { apply (repB_map (Z.max 8 (2 * h)) v left F z); auto; try lia; [intros a A; now apply SM|]. intros a b _ _. unfold left. destruct c8; [apply rshr_lxor; lia|apply wrap_lxor; lia]. }
    assert (HR : repB v (fun i => both right (F i)) (right z)).
    { apply (repB_map (Z.max 8 (2 * h)) v right F z); auto; try lia; [intros a A; now apply SM|]. intros a b _ _. unfold right. destruct c8; [reflexivity|apply rshr_lxor; lia]. }
    pose proof (and3_ok v v v _ _ _ _ (Q (2 * h)) ltac:(lia) HL HR) as HN.
    assert (LW : forall i, 0 <= i < h -> Z.testbit (Z.land (left z) (right z)) i = Z.testbit z i && Z.testbit z (i + h)).
    { intros i I. rewrite Z.land_spec. unfold left, right. destruct c8; rewrite ?tb_rshr, ?tb_wrap by lia; [apply andb_comm|].
      destruct (Z.ltb_spec i h); [reflexivity|lia]. }
    assert (WL : word h (Z.land (left z) (right z))).
    { assert (HH : word h (rshr h z)).
      { unfold rshr. split; [apply Z.div_pos; [lia|apply pow2_pos; lia]|]. apply Z.div_lt_upper_bound; [apply pow2_pos; lia|]. rewrite <- pow2_split by lia. replace (h + h) with (2 * h) by lia. apply Wz. }
      unfold left, right. destruct c8; [apply word_land_l; auto; lia|apply word_land_r; auto; lia]. }
    rewrite wrap_small in HN by (apply (word_mono h); auto; lia).
    destruct (IH fuel _ _ ltac:(lia) ltac:(rewrite EVv; exact HN) (proj2 WL)) as [V [u [EV [HV [LU IFF]]]]].
    exists V, u. split; [exact EV|]. split; [exact HV|]. split; [exact LU|]. rewrite IFF. split.
    + intros B i I. destruct (Z.lt_ge_cases i h).
      * specialize (B i ltac:(lia)). rewrite LW in B by lia. apply andb_true_iff in B. apply B.
      * specialize (B (i - h) ltac:(lia)). rewrite LW in B by lia. apply andb_true_iff in B. destruct B as [_ B]. now replace (i - h + h) with i in B by lia.
    + intros B i I. rewrite LW by lia. rewrite !B by lia. reflexivity.
Qed.
Lemma eqz3_ok pivot X x r S Q : 0 <= pivot -> pivot + 2 < 2 ^ 64 -> repA k X x ->
  exists V, eqz3 k pivot X r S Q = Ok V /\ R 8 V (if x =? 0 then 1 else 0).
Proof.
  intros P0 P2 H. pose proof (fk_pos w W5 W7) as KP. fold k in KP. pose proof (repA_word k X x H) as Wx.
  destruct (repA_shape k X x ltac:(lia) H) as [a [b [c [A [B [C [E0 [E1 [E2 E]]]]]]]]].
  set (q := fun i : nat => match i with O => a | 1%nat => b | _ => c end).
  assert (EX : forall i, (i < 3)%nat -> X i = (q i, q (nx i))) by (intros i Hi; three i; assumption).
  unfold eqz3. match goal with |- context [with_roles pivot ?f] => destruct (roles_ok pivot f P0 P2) as [P [LP EP]] end. rewrite EP. clear EP. cbn [rbind].
  assert (N3 : nx (nx (nx P)) = P) by (three P; reflexivity).
  assert (L1 : (nx P < 3)%nat) by now apply nx_lt. assert (L2 : (nx (nx P) < 3)%nat) by now apply nx_lt.
  rewrite !EX by assumption. cbn [fst snd]. rewrite !N3.
  set (d0 := wrap k (S (nx P) 0%nat)). set (d1 := wrap k (S (nx P) 1%nat)). set (d2 := wrap k (S (nx P) 2%nat)). set (rr := wrap k r).
  set (cc := radd k (radd k (rsub k rr d0) (q P)) (radd k d0 (radd k (q (nx P)) (q (nx (nx P)))))).
  set (flag := rxor (wrap k (Z.lnot (rxor cc d1))) d2).
  assert (Wr : word k rr) by (unfold rr; words). assert (Wc : word k cc) by (unfold cc; words).
  assert (W1 : word k d1) by (unfold d1; words). assert (W2 : word k d2) by (unfold d2; words).
  assert (CC : cc = wrap k (x + rr)).
  { rewrite <- (wrap_small k cc) by exact Wc. change (eqm k cc (x + rr)). unfold cc. do 4 ev. rewrite <- E. apply eqm_of_eq. three P; cbn [nx nextrank Nat.eqb q]; ring. }
  set (z := Z.lxor (Z.lxor (rxor rr d1) d2) flag).
  assert (Wf : word k flag) by (unfold flag, rxor; apply word_lxor; words).
  assert (WB : word k (rxor rr d1)) by (unfold rxor; apply word_lxor; words).
  match goal with |- context [eqz_tree _ _ _ ?F] => assert (HF : repB k F z) end.
  { unfold by_role, z. three P; cbn [nx nextrank Nat.eqb].
    - apply (repB_intro k _ _ (rxor rr d1) d2 flag); auto; try reflexivity. lia.
    - apply (repB_intro k _ _ flag (rxor rr d1) d2); auto; try reflexivity; [lia|]. rewrite Z.lxor_assoc. apply Z.lxor_comm.
    - apply (repB_intro k _ _ d2 flag (rxor rr d1)); auto; try reflexivity; [lia|]. rewrite Z.lxor_comm. now rewrite <- Z.lxor_assoc. }
  assert (Wz : word k z) by apply HF.
  assert (ZB : forall i, 0 <= i < k -> Z.testbit z i = Bool.eqb (Z.testbit cc i) (Z.testbit rr i)).
  { intros i I. unfold z, flag, rxor. rewrite !Z.lxor_spec, tb_wrap, Z.lnot_spec, Z.lxor_spec by lia. destruct (Z.ltb_spec i k); [|lia]. cbn [andb].
    destruct (Z.testbit rr i), (Z.testbit d1 i), (Z.testbit d2 i), (Z.testbit cc i); reflexivity. }
  assert (ALL : (forall i, 0 <= i < k -> Z.testbit z i = true) <-> x = 0).
  { transitivity (cc = rr).
    - split; intros HH.
      + apply (tb_eq_word k); auto; [lia|]. intros i I. specialize (HH i I). rewrite ZB in HH by lia. now apply Bool.eqb_prop.
      + intros i I. rewrite ZB, HH by lia. apply Bool.eqb_reflx.
    - rewrite CC. split; intros HH.
      + assert (Q0 : eqm k x 0).
        { assert (Q1 : eqm k (x + rr) rr) by (rewrite <- HH at 2; ev; reflexivity). replace x with (x + rr - rr) by ring. rewrite Q1. apply eqm_of_eq; ring. }
        unfold eqm in Q0. rewrite wrap_small, wrap_0 in Q0 by (auto; lia). exact Q0.
      + rewrite HH, Z.add_0_l. now apply wrap_small. }
  match goal with |- context [eqz_tree ?f ?q0 _ ?F] =>
    destruct (eqz_tree_ok q0 w f F z) as [V [v [EV [HV [LV IFF]]]]] end.
  - assert (Z.of_nat w < k) by (unfold k; apply Z.pow_gt_lin_r; lia). lia.
  - fold k. rewrite Z.max_r by lia. exact HF.
  - fold k. apply Wz.
  - fold k in EV, IFF. rewrite EV. cbn [rbind]. eexists. split; [reflexivity|].
    replace (if x =? 0 then 1 else 0) with v.
    + split; [reflexivity|]. cbn [bw bx bn]. change (bt 8) with 8. apply repBn_intro; auto; try lia; try (cbn; tauto).
    + assert (V0 : 0 <= v) by apply HV. rewrite ALL in IFF. destruct (Z.eqb_spec x 0); [now apply IFF|]. assert (v <> 1) by (intros HH; apply IFF in HH; contradiction). lia.
Qed.
Lemma diff0 x y : word k x -> word k y -> (wrap k (x - y) =? 0) = (x =? y).
Proof.
  intros [X1 X2] [Y1 Y2]. pose proof (fk_pos w W5 W7) as KP. fold k in KP. unfold wrap. destruct (Z.eqb_spec x y) as [-> | NE].
  - now rewrite Z.sub_diag, Z.mod_0_l by (apply Z.pow_nonzero; lia).
  - destruct (Z.eqb_spec ((x - y) mod 2 ^ k) 0) as [Z0|]; [|reflexivity]. exfalso. apply NE.
    apply Z.mod_divide in Z0; [|apply Z.pow_nonzero; lia]. destruct Z0 as [q Q]. assert (q = 0) by nia. lia.
Qed.
Lemma equal_aa3_ok pivot X Y x y r S Q : 0 <= pivot -> pivot + 2 < 2 ^ 64 -> repA k X x -> repA k Y y ->
  exists V, equal_aa3 k pivot X Y r S Q = Ok V /\ R 8 V (if x =? y then 1 else 0).
Proof.
  intros P0 P2 HX HY. pose proof (fk_pos w W5 W7) as KP. fold k in KP. rewrite <- diff0 by (eapply repA_word; eassumption). apply eqz3_ok; auto.
  destruct (repA_shape k X x ltac:(lia) HX) as [a [b [c [A [B [C [E0 [E1 [E2 E]]]]]]]]]. destruct (repA_shape k Y y ltac:(lia) HY) as [a' [b' [c' [A' [B' [C' [E0' [E1' [E2' E']]]]]]]]].
  apply (repA_intro k _ _ (rsub k a a') (rsub k b b') (rsub k c c')); words; rewrite ?E0, ?E1, ?E2, ?E0', ?E1', ?E2'; try reflexivity.
  ev. rewrite <- E, <- E'. apply eqm_of_eq. ring.
Qed.
Lemma equal_ap3_ok pivot X x p r S Q : 0 <= pivot -> pivot + 2 < 2 ^ 64 -> repA k X x -> word k p ->
  exists V, equal_ap3 k pivot X p r S Q = Ok V /\ R 8 V (if x =? p then 1 else 0).
Proof.
  intros P0 P2 HX HP. pose proof (fk_pos w W5 W7) as KP. fold k in KP. rewrite <- diff0 by (auto; eapply repA_word; eassumption). apply eqz3_ok; auto.
  destruct (repA_shape k X x ltac:(lia) HX) as [a [b [c [A [B [C [E0 [E1 [E2 E]]]]]]]]].
  apply (repA_intro k _ _ a (rsub k b p) c); words; cbn [Nat.eqb]; rewrite ?E0, ?E1, ?E2; try reflexivity.
  ev. rewrite <- E. apply eqm_of_eq. ring.
Qed.
End Field.
