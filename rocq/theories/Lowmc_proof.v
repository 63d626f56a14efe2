From Verif Require Import Base Ring_model Ring_spec Ring_proof Share_spec Party Semi_model Semi_proof Lowmc_model Lowmc_spec.
Open Scope Z_scope.

(* ---- sums modulo two ---- *)
Lemma xsum_ext m f g : (forall j, (j < m)%nat -> f j = g j) -> xsum m f = xsum m g.
Proof. induction m as [|m IH]; intros H; cbn [xsum]; [reflexivity|]. rewrite IH by (intros; apply H; lia). now rewrite H by lia. Qed.
Lemma xsum_xor m f g : xsum m (fun j => xorb (f j) (g j)) = xorb (xsum m f) (xsum m g).
Proof. induction m as [|m IH]; cbn [xsum]; [reflexivity|]. rewrite IH. now destruct (xsum m f), (xsum m g), (f m), (g m). Qed.
Lemma xsum_add a b f : xsum (a + b) f = xorb (xsum a f) (xsum b (fun j => f (a + j)%nat)).
Proof.
  induction b as [|b IH]; cbn [xsum]; [rewrite Nat.add_0_r; now destruct (xsum a f)|]. rewrite Nat.add_succ_r. cbn [xsum]. rewrite IH. now rewrite xorb_assoc.
Qed.
Lemma xsum_false m : xsum m (fun _ => false) = false. Proof. induction m as [|m IH]; cbn [xsum]; [reflexivity|]. now rewrite IH. Qed.
Lemma xtotal_bits n X j : Z.testbit (xtotal n X) j = xsum n (fun p => Z.testbit (X p) j).
Proof. induction n as [|n IH]; cbn [xtotal xsum]; [apply Z.testbit_0_l|]. now rewrite Z.lxor_spec, IH. Qed.
Lemma land_1 v : Z.land v 1 = Z.b2z (Z.testbit v 0).
Proof. change 1 with (Z.ones 1) at 1. rewrite Z.land_ones by lia. now rewrite Z.bit0_mod. Qed.
Lemma b2z_bit b j : 0 <= j -> Z.testbit (Z.b2z b) j = if j =? 0 then b else false.
Proof. intros J. destruct (Z.eqb_spec j 0) as [->|]; [apply Z.b2z_bit0|]. destruct b; cbn [Z.b2z]; [|apply Z.testbit_0_l]. replace 1 with (2 ^ 0) by reflexivity. apply Z.pow2_bits_false. lia. Qed.

(* ---- products over GF(2) ---- *)
Lemma fold_half_bit lg : forall x, Z.testbit (fold_half lg x) 0 = xsum (2 ^ lg) (fun j => Z.testbit x (Z.of_nat j)).
Proof.
  induction lg as [|l IH]; intros x; cbn [fold_half].
  - cbn [Nat.pow xsum]. now rewrite xorb_false_l.
  - rewrite IH. replace (2 ^ S l)%nat with (2 ^ l + 2 ^ l)%nat by (cbn [Nat.pow]; lia). rewrite xsum_add, <- xsum_xor. apply xsum_ext. intros j J.
    rewrite Z.lxor_spec, Z.shiftr_spec by lia. do 2 f_equal. rewrite Nat2Z.inj_add, Nat2Z.inj_pow. lia.
Qed.
Lemma parity_bit lg x : bit_parity lg x = Z.b2z (xsum (2 ^ lg) (fun j => Z.testbit x (Z.of_nat j))).
Proof. unfold bit_parity. now rewrite land_1, fold_half_bit. Qed.
Definition rowbit (lg : nat) (y r : Z) : bool := xsum (2 ^ lg) (fun j => Z.testbit r (Z.of_nat j) && Z.testbit y (Z.of_nat j)).
Lemma parity_row lg y r : bit_parity lg (Z.land y r) = Z.b2z (rowbit lg y r).
Proof. rewrite parity_bit. f_equal. apply xsum_ext. intros j _. rewrite Z.land_spec. apply andb_comm. Qed.
Lemma dot_from_bit lg y rows : forall i out j, 0 <= i -> 0 <= j -> Z.testbit (dot_from lg i rows y out) j =
  Z.testbit out j || (if j <? i then false else match nth_error rows (Z.to_nat (j - i)) with Some r => rowbit lg y r | None => false end).
Proof.
  induction rows as [|r rows IH]; intros i out j I J; cbn [dot_from].
  - destruct (j <? i); [now rewrite orb_false_r|]. destruct (Z.to_nat (j - i)); now rewrite orb_false_r.
  - rewrite IH by lia. rewrite Z.lor_spec, Z.shiftl_spec by lia. rewrite parity_row.
    destruct (Z.ltb_spec j (i + 1)), (Z.ltb_spec j i); try lia.
    + rewrite (Z.testbit_neg_r _ (j - i)) by lia. now rewrite !orb_false_r.
    + assert (j = i) by lia. subst j. rewrite Z.sub_diag. cbn [Z.to_nat nth_error]. rewrite b2z_bit by lia. cbn. now rewrite orb_false_r.
    + rewrite b2z_bit by lia. destruct (Z.eqb_spec (j - i) 0); [lia|]. rewrite orb_false_r. f_equal.
      replace (Z.to_nat (j - i)) with (S (Z.to_nat (j - (i + 1)))) by lia. reflexivity.
Qed.
Lemma dot_bit lg rows y j : 0 <= j -> Z.testbit (dot_gf2 lg rows y) j = match nth_error rows (Z.to_nat j) with Some r => rowbit lg y r | None => false end.
Proof.
  intros J. unfold dot_gf2. rewrite dot_from_bit by lia. rewrite Z.testbit_0_l. cbn [orb]. destruct (Z.ltb_spec j 0); [lia|]. now rewrite Z.sub_0_r.
Qed.
Lemma dot_product lg rows y : gf2_product (2 ^ lg) rows y (dot_gf2 lg rows y).
Proof. intros j J. now apply dot_bit. Qed.
Lemma rowbit_xor lg a b r : rowbit lg (Z.lxor a b) r = xorb (rowbit lg a r) (rowbit lg b r).
Proof.
  unfold rowbit. rewrite <- xsum_xor. apply xsum_ext. intros j _. rewrite Z.lxor_spec. now destruct (Z.testbit r (Z.of_nat j)), (Z.testbit a (Z.of_nat j)), (Z.testbit b (Z.of_nat j)).
Qed.
Lemma dot_xor lg rows a b : dot_gf2 lg rows (Z.lxor a b) = Z.lxor (dot_gf2 lg rows a) (dot_gf2 lg rows b).
Proof.
  apply Z.bits_inj'. intros j J. rewrite Z.lxor_spec, !dot_bit by exact J. destruct (nth_error rows (Z.to_nat j)); [apply rowbit_xor|reflexivity].
Qed.
Lemma dot_0 lg rows : dot_gf2 lg rows 0 = 0.
Proof.
  apply Z.bits_inj'. intros j J. rewrite dot_bit, Z.testbit_0_l by exact J. destruct (nth_error rows (Z.to_nat j)) as [r|]; [|reflexivity].
  unfold rowbit. rewrite (xsum_ext _ _ (fun _ => false)); [apply xsum_false|]. intros i _. now rewrite Z.testbit_0_l, andb_false_r.
Qed.
Lemma dot_from_pos lg y rows : forall i out, 0 <= i -> 0 <= out -> 0 <= dot_from lg i rows y out.
Proof.
  induction rows as [|r rows IH]; intros i out I O; cbn [dot_from]; [exact O|]. apply IH; [lia|]. apply Z.lor_nonneg. split; [exact O|]. apply Z.shiftl_nonneg.
  rewrite parity_row. destruct (rowbit lg y r); cbn; lia.
Qed.
Lemma dot_word lg rows y k : Z.of_nat (length rows) = k -> word k (dot_gf2 lg rows y).
Proof.
  intros L. apply word_of_bits; [lia|apply dot_from_pos; lia|]. intros i I. rewrite dot_bit by lia.
  assert (E : nth_error rows (Z.to_nat i) = None) by (apply nth_error_None; lia). now rewrite E.
Qed.
Lemma dot_shared lg rows n X : xtotal n (fun p => dot_gf2 lg rows (X p)) = dot_gf2 lg rows (xtotal n X).
Proof. apply (xtotal_lin (dot_gf2 lg rows)); [apply dot_0|apply dot_xor]. Qed.

(* ---- the plaintext substitution ---- *)
Lemma abc_bit x i e : 0 <= e -> Z.testbit (abc_of x i) e = if e <? 3 then Z.testbit x (3 * Z.of_nat i + e) else false.
Proof.
  intros E. unfold abc_of. change 7 with (Z.ones 3). rewrite Z.land_spec, Z.shiftr_spec by lia. rewrite Z.testbit_ones_nonneg by lia. rewrite (Z.add_comm e).
  destruct (e <? 3); [apply andb_true_r|apply andb_false_r].
Qed.
Lemma abc_range x i : 0 <= abc_of x i < 8.
Proof. unfold abc_of. change 7 with (Z.ones 3). rewrite Z.land_ones by lia. apply Z.mod_pos_bound. reflexivity. Qed.
Lemma eight v : 0 <= v < 8 -> v = 0 \/ v = 1 \/ v = 2 \/ v = 3 \/ v = 4 \/ v = 5 \/ v = 6 \/ v = 7. Proof. lia. Qed.
Ltac cases8 H := destruct (eight _ H) as [?E|[?E|[?E|[?E|[?E|[?E|[?E|?E]]]]]]].
Definition sub_bit (nb : nat) (tab : list Z) (x j : Z) : bool :=
  if j <? 3 * Z.of_nat nb then Z.testbit (nth (Z.to_nat (abc_of x (Z.to_nat (j / 3)))) tab 0) (j mod 3) else Z.testbit x j.
Lemma small_tab tab v : Forall (fun w => 0 <= w < 8) tab -> 0 <= nth v tab 0 < 8.
Proof. intros F. destruct (Nat.ltb_spec v (length tab)); [rewrite Forall_forall in F; apply F, nth_In; lia|]. rewrite nth_overflow by lia. lia. Qed.
Lemma small_high w e : 0 <= w < 8 -> 3 <= e -> Z.testbit w e = false.
Proof. intros W E. apply (word_bit_high 3); [lia|exact W|exact E]. Qed.
Lemma subst_loop_bit lg nb tab x : Forall (fun w => 0 <= w < 8) tab -> word (width lg) x -> 3 * Z.of_nat nb <= width lg ->
  forall left tmp, (left <= nb)%nat -> 0 <= tmp -> (forall j, 0 <= j -> Z.testbit tmp j = sub_bit nb tab x (j + 3 * Z.of_nat left)) ->
  0 <= subst_loop lg tab x left tmp /\ forall j, 0 <= j -> Z.testbit (subst_loop lg tab x left tmp) j = sub_bit nb tab x j.
Proof.
  intros F W B. induction left as [|l IH]; intros tmp L P H; cbn [subst_loop].
  - split; [exact P|]. intros j J. rewrite H by exact J. f_equal. lia.
  - set (v := nth (Z.to_nat (Z.land (Z.shiftr x (3 * Z.of_nat l)) 7)) tab 0). assert (V : 0 <= v < 8) by now apply small_tab.
    assert (WP : 0 < width lg) by (unfold width; lia).
    apply IH; [lia|apply Z.lxor_nonneg; split; intros _; [lia|apply (word_wrap (width lg)); lia]|]. intros j J.
    rewrite Z.lxor_spec. pose proof (bit_mod (width lg) (Z.shiftl tmp 3) j ltac:(lia)) as BM. unfold bit in BM. rewrite BM. rewrite Z.shiftl_spec by lia.
    destruct (Z.ltb_spec j 3) as [J3|J3].
    + rewrite (Z.testbit_neg_r _ (j - 3)) by lia. rewrite andb_false_r, xorb_false_l. unfold sub_bit. destruct (Z.ltb_spec (j + 3 * Z.of_nat l) (3 * Z.of_nat nb)); [|lia].
      replace ((j + 3 * Z.of_nat l) / 3) with (Z.of_nat l) by (rewrite (Z.mul_comm 3), Z.div_add by lia; rewrite Z.div_small by lia; lia).
      replace ((j + 3 * Z.of_nat l) mod 3) with j by (rewrite (Z.mul_comm 3), Z.mod_add by lia; rewrite Z.mod_small by lia; lia).
      rewrite Nat2Z.id. reflexivity.
    + rewrite (small_high v j V J3), xorb_false_r. destruct (Z.ltb_spec j (width lg)).
      * cbn [andb]. rewrite H by lia. f_equal. lia.
      * cbn [andb]. unfold sub_bit. destruct (Z.ltb_spec (j + 3 * Z.of_nat l) (3 * Z.of_nat nb)); [lia|]. symmetry. apply (word_bit_high (width lg)); [lia|exact W|lia].
Qed.
Lemma subst_bit lg nb tab x : Forall (fun w => 0 <= w < 8) tab -> word (width lg) x -> 3 * Z.of_nat nb <= width lg ->
  0 <= substitution lg nb tab x /\ forall j, 0 <= j -> Z.testbit (substitution lg nb tab x) j = sub_bit nb tab x j.
Proof.
  intros F W B. unfold substitution. apply subst_loop_bit; auto; [apply Z.shiftr_nonneg; destruct W; lia|].
  intros j J. rewrite Z.shiftr_spec by exact J. unfold sub_bit. destruct (Z.ltb_spec (j + 3 * Z.of_nat nb) (3 * Z.of_nat nb)); [lia|reflexivity].
Qed.
Lemma subst_word lg nb tab x : Forall (fun w => 0 <= w < 8) tab -> word (width lg) x -> 3 * Z.of_nat nb <= width lg -> word (width lg) (substitution lg nb tab x).
Proof.
  intros F W B. destruct (subst_bit lg nb tab x F W B) as [P H]. apply word_of_bits; [unfold width; lia|exact P|]. intros i I.
  assert (0 < width lg) by (unfold width; lia). rewrite H by lia. unfold sub_bit. destruct (Z.ltb_spec i (3 * Z.of_nat nb)); [lia|]. apply (word_bit_high (width lg)); [lia|exact W|exact I].
Qed.
Lemma tab_small : Forall (fun w => 0 <= w < 8) sbox_tab /\ Forall (fun w => 0 <= w < 8) inv_sbox_tab.
Proof. unfold sbox_tab, inv_sbox_tab. split; repeat constructor; lia. Qed.
Lemma sub_at nb tab x i e : (i < nb)%nat -> 0 <= e < 3 -> sub_bit nb tab x (3 * Z.of_nat i + e) = Z.testbit (nth (Z.to_nat (abc_of x i)) tab 0) e.
Proof.
  intros I E. unfold sub_bit. destruct (Z.ltb_spec (3 * Z.of_nat i + e) (3 * Z.of_nat nb)); [|lia].
  replace ((3 * Z.of_nat i + e) / 3) with (Z.of_nat i) by (rewrite Z.add_comm, (Z.mul_comm 3), Z.div_add by lia; rewrite Z.div_small by lia; lia).
  replace ((3 * Z.of_nat i + e) mod 3) with e by (rewrite Z.add_comm, (Z.mul_comm 3), Z.mod_add by lia; rewrite Z.mod_small by lia; lia). now rewrite Nat2Z.id.
Qed.
Lemma bits3 x i : Z.testbit x (3 * Z.of_nat i) = Z.testbit (abc_of x i) 0 /\ Z.testbit x (3 * Z.of_nat i + 1) = Z.testbit (abc_of x i) 1 /\ Z.testbit x (3 * Z.of_nat i + 2) = Z.testbit (abc_of x i) 2.
Proof. rewrite !abc_bit by lia. cbn [Z.ltb Z.compare Pos.compare Pos.compare_cont]. now rewrite Z.add_0_r. Qed.
Lemma subst_ok lg nb x : word (width lg) x -> 3 * Z.of_nat nb <= width lg -> substituted nb x (substitution lg nb sbox_tab x).
Proof.
  intros W B. destruct (subst_bit lg nb sbox_tab x (proj1 tab_small) W B) as [_ H]. split.
  - intros i I. cbv zeta. rewrite <- (Z2Nat.id i) by lia. set (m := Z.to_nat i). assert (M : (m < nb)%nat) by lia. rewrite !H by lia.
    rewrite !(sub_at nb sbox_tab x m) by (auto; lia). pose proof (sub_at nb sbox_tab x m 0 M ltac:(lia)) as E0. rewrite Z.add_0_r in E0. rewrite E0.
    destruct (bits3 x m) as [-> [-> ->]]. pose proof (abc_range x m) as R. cases8 R; rewrite E; cbn; auto.
  - intros j J. rewrite H by lia. unfold sub_bit. destruct (Z.ltb_spec j (3 * Z.of_nat nb)); [lia|reflexivity].
Qed.
Lemma substituted_unique nb x y z : 0 <= y -> 0 <= z -> substituted nb x y -> substituted nb x z -> y = z.
Proof.
  intros Y Z0 [H1 H2] [G1 G2]. apply Z.bits_inj'. intros j J. destruct (Z.ltb_spec j (3 * Z.of_nat nb)); [|now rewrite H2, G2].
  specialize (H1 (j / 3)). specialize (G1 (j / 3)). assert (I : 0 <= j / 3 < Z.of_nat nb) by (split; [apply Z.div_pos; lia|apply Z.div_lt_upper_bound; lia]).
  specialize (H1 I). specialize (G1 I). cbv zeta in H1, G1. destruct H1 as [A1 [B1 C1]], G1 as [A2 [B2 C2]].
  pose proof (Z.div_mod j 3 ltac:(lia)) as D. pose proof (Z.mod_pos_bound j 3 ltac:(lia)) as R.
  assert (Q : j mod 3 = 0 \/ j mod 3 = 1 \/ j mod 3 = 2) by lia. destruct Q as [Q|[Q|Q]]; rewrite Q in D; rewrite D; [rewrite Z.add_0_r; now rewrite C1, C2|now rewrite B1, B2|now rewrite A1, A2].
Qed.
Lemma subst_inverse_gen lg nb t1 t2 x : Forall (fun w => 0 <= w < 8) t1 -> Forall (fun w => 0 <= w < 8) t2 -> (forall v, 0 <= v < 8 -> nth (Z.to_nat (nth (Z.to_nat v) t1 0)) t2 0 = v) ->
  word (width lg) x -> 3 * Z.of_nat nb <= width lg -> substitution lg nb t2 (substitution lg nb t1 x) = x.
Proof.
  intros T1 T2 TT W B. pose proof (subst_word lg nb t1 x T1 W B) as W1. destruct (subst_bit lg nb t1 x T1 W B) as [_ H].
  destruct (subst_bit lg nb t2 _ T2 W1 B) as [_ G]. apply Z.bits_inj'. intros j J. rewrite G by exact J. unfold sub_bit at 1.
  destruct (Z.ltb_spec j (3 * Z.of_nat nb)) as [L|L].
  - set (i := Z.to_nat (j / 3)). assert (I : (i < nb)%nat) by (unfold i; apply Nat2Z.inj_lt; rewrite Z2Nat.id by (apply Z.div_pos; lia); apply Z.div_lt_upper_bound; lia).
    assert (A : abc_of (substitution lg nb t1 x) i = nth (Z.to_nat (abc_of x i)) t1 0).
    { apply Z.bits_inj'. intros e E. rewrite abc_bit by exact E. destruct (Z.ltb_spec e 3); [rewrite H by lia; now apply sub_at|]. symmetry. apply small_high; [now apply small_tab|assumption]. }
    rewrite A. assert (Q : nth (Z.to_nat (nth (Z.to_nat (abc_of x i)) t1 0)) t2 0 = abc_of x i) by (apply TT, abc_range).
    rewrite Q. pose proof (Z.mod_pos_bound j 3 ltac:(lia)) as R. rewrite abc_bit by lia. destruct (Z.ltb_spec (j mod 3) 3); [|lia]. f_equal. unfold i. rewrite Z2Nat.id by (apply Z.div_pos; lia).
    symmetry. apply Z.div_mod. lia.
  - rewrite H by exact J. unfold sub_bit. destruct (Z.ltb_spec j (3 * Z.of_nat nb)); [lia|reflexivity].
Qed.
Lemma subst_inverse lg nb x : word (width lg) x -> 3 * Z.of_nat nb <= width lg -> substitution lg nb inv_sbox_tab (substitution lg nb sbox_tab x) = x.
Proof. apply subst_inverse_gen; [apply tab_small|apply tab_small|]. intros v V. cases8 V; subst v; reflexivity. Qed.
Lemma subst_inverse' lg nb x : word (width lg) x -> 3 * Z.of_nat nb <= width lg -> substitution lg nb sbox_tab (substitution lg nb inv_sbox_tab x) = x.
Proof. apply subst_inverse_gen; [apply tab_small|apply tab_small|]. intros v V. cases8 V; subst v; reflexivity. Qed.

(* ---- the shared substitution ---- *)
Lemma width_pos lg : 0 < width lg. Proof. unfold width. lia. Qed.
Lemma bca_bit x i e : 0 <= e -> Z.testbit (bca_of x i) e =
  if e =? 0 then Z.testbit x (3 * Z.of_nat i + 2) else if e =? 1 then Z.testbit x (3 * Z.of_nat i) else if e =? 2 then Z.testbit x (3 * Z.of_nat i + 1) else false.
Proof.
  intros E. unfold bca_of. change 3 with (Z.ones 2) at 2. change 1 with (Z.ones 1) at 2. rewrite Z.lor_spec, Z.shiftl_spec by exact E. rewrite !Z.land_spec.
  rewrite (Z.testbit_ones_nonneg 1) by lia. rewrite (Z.shiftr_spec x (3 * Z.of_nat i + 2)) by exact E.
  destruct (Z.eqb_spec e 0) as [->|N0]; [rewrite (Z.testbit_neg_r (Z.shiftr x _)) by lia; cbn [Z.ltb Z.compare andb orb]; now rewrite andb_true_r|].
  rewrite Z.shiftr_spec by lia. rewrite (Z.testbit_ones_nonneg 2) by lia. destruct (Z.ltb_spec e 1); [lia|]. rewrite andb_false_r, orb_false_r.
  destruct (Z.eqb_spec e 1) as [->|N1]; [cbn [Z.sub Z.add Z.opp Z.pos_sub Z.ltb Z.compare]; now rewrite andb_true_r|].
  destruct (Z.eqb_spec e 2) as [->|N2]; [replace (2 - 1 + 3 * Z.of_nat i) with (3 * Z.of_nat i + 1) by lia; apply andb_true_r|].
  destruct (Z.ltb_spec (e - 1) 2); [lia|]. apply andb_false_r.
Qed.
Lemma bca_pos x i : 0 <= bca_of x i.
Proof.
  unfold bca_of. apply Z.lor_nonneg. split; [apply Z.shiftl_nonneg, Z.land_nonneg; right; lia|apply Z.land_nonneg; right; lia].
Qed.
Lemma bca_word x i : word 3 (bca_of x i).
Proof.
  apply word_of_bits; [lia|apply bca_pos|]. intros e E. rewrite bca_bit by lia. destruct (Z.eqb_spec e 0), (Z.eqb_spec e 1), (Z.eqb_spec e 2); first [lia | reflexivity].
Qed.
Lemma abc_word x i : word 3 (abc_of x i). Proof. exact (abc_range x i). Qed.
Lemma abc_shared n X i : xtotal n (fun p => abc_of (X p) i) = abc_of (xtotal n X) i.
Proof.
  apply Z.bits_inj'. intros e E. rewrite xtotal_bits, abc_bit by exact E. rewrite (xsum_ext _ _ (fun p => if e <? 3 then Z.testbit (X p) (3 * Z.of_nat i + e) else false)) by (intros; now apply abc_bit).
  destruct (e <? 3); [now rewrite xtotal_bits|apply xsum_false].
Qed.
Lemma bca_shared n X i : xtotal n (fun p => bca_of (X p) i) = bca_of (xtotal n X) i.
Proof.
  apply Z.bits_inj'. intros e E. rewrite xtotal_bits, bca_bit by exact E. rewrite (xsum_ext _ _ _ (fun p _ => bca_bit (X p) i e E)).
  destruct (e =? 0); [now rewrite xtotal_bits|]. destruct (e =? 1); [now rewrite xtotal_bits|]. destruct (e =? 2); [now rewrite xtotal_bits|apply xsum_false].
Qed.
Lemma and3_ok n T t X i : (0 < n)%nat -> good_triple8 n (T t) ->
  xtotal n (and3 n T t (fun q => abc_of (X q) i) (fun q => bca_of (X q) i)) = Z.land (abc_of (xtotal n X) i) (bca_of (xtotal n X) i).
Proof.
  intros N G. unfold and3. destruct (T t) as [[A B] C]. destruct G as [GW GE]. cbn [fst snd] in GW, GE.
  refine (proj1 (and_bb_ok 3 8 n 3 3 _ _ A B C (abc_of (xtotal n X) i) (bca_of (xtotal n X) i) _ N _ _ eq_refl GW (eq_sym GE))); [lia| |].
  - split; [split; [intros; apply abc_word|split; [apply abc_word|apply abc_shared]]|]. split; [lia|apply abc_word].
  - split; [split; [intros; apply bca_word|split; [apply bca_word|apply bca_shared]]|]. split; [lia|apply bca_word].
Qed.
Lemma extract_bit_0 v j : 0 <= j -> Z.testbit (extract_bit v j) 0 = Z.testbit v j.
Proof. intros J. unfold extract_bit. rewrite land_1, Z.b2z_bit0, Z.shiftr_spec by lia. reflexivity. Qed.
Lemma packed_bit_0 v i off : 0 <= off -> Z.testbit (packed_bit v i off) 0 = Z.testbit v (3 * Z.of_nat i + off).
Proof. intros J. unfold packed_bit. rewrite land_1, Z.b2z_bit0, Z.shiftr_spec by lia. reflexivity. Qed.
Lemma sbox_bit_0 x W i : 
  Z.testbit (sbox_bit x W (3 * i + 2)) 0 = xorb (Z.testbit x (3 * Z.of_nat i + 2)) (Z.testbit (W i) 1) /\
  Z.testbit (sbox_bit x W (3 * i + 1)) 0 = xorb (xorb (Z.testbit x (3 * Z.of_nat i + 2)) (Z.testbit x (3 * Z.of_nat i + 1))) (Z.testbit (W i) 0) /\
  Z.testbit (sbox_bit x W (3 * i)) 0 = xorb (xorb (xorb (Z.testbit x (3 * Z.of_nat i + 1)) (Z.testbit x (3 * Z.of_nat i))) (Z.testbit x (3 * Z.of_nat i + 2))) (Z.testbit (W i) 2).
Proof.
  assert (D : forall e, (e < 3)%nat -> ((3 * i + e) / 3 = i /\ (3 * i + e) mod 3 = e)%nat).
  { intros e E. split; [rewrite Nat.add_comm, Nat.mul_comm, Nat.div_add by lia; rewrite Nat.div_small by lia; lia|rewrite Nat.add_comm, Nat.mul_comm, Nat.mod_add by lia; now apply Nat.mod_small]. }
  unfold sbox_bit, xor_bb, rxor. split; [|split].
  - destruct (D 2%nat ltac:(lia)) as [-> ->]. rewrite Z.lxor_spec, packed_bit_0, extract_bit_0 by lia. reflexivity.
  - destruct (D 1%nat ltac:(lia)) as [-> ->]. rewrite Z.lxor_spec, !extract_bit_0, Z.lxor_spec by lia. rewrite abc_bit, bca_bit by lia. reflexivity.
  - replace (3 * i)%nat with (3 * i + 0)%nat by lia. destruct (D 0%nat ltac:(lia)) as [-> ->].
    rewrite !Z.lxor_spec, packed_bit_0, !extract_bit_0, Z.lxor_spec by lia. rewrite abc_bit, bca_bit by lia. reflexivity.
Qed.
Lemma collect_bit x W t : forall j, 0 <= j -> Z.testbit (collect x W t) j = if j <? Z.of_nat t then Z.testbit (sbox_bit x W (Z.to_nat j)) 0 else false.
Proof.
  induction t as [|t IH]; intros j J; cbn [collect].
  - rewrite Z.testbit_0_l. destruct (Z.ltb_spec j (Z.of_nat 0)); [lia|reflexivity].
  - rewrite Z.lor_spec, IH, Z.shiftl_spec by exact J. rewrite land_1.
    destruct (Z.ltb_spec j (Z.of_nat t)), (Z.ltb_spec j (Z.of_nat (S t))); try lia.
    + rewrite (Z.testbit_neg_r (Z.b2z _)) by lia. apply orb_false_r.
    + assert (E : j = Z.of_nat t) by lia. subst j. rewrite Z.sub_diag, Z.b2z_bit0, Nat2Z.id. reflexivity.
    + rewrite b2z_bit by lia. destruct (Z.eqb_spec (j - Z.of_nat t) 0); [lia|]. reflexivity.
Qed.
Lemma collect_pos x W t : 0 <= collect x W t.
Proof. induction t as [|t IH]; cbn [collect]; [lia|]. apply Z.lor_nonneg. split; [exact IH|]. apply Z.shiftl_nonneg, Z.land_nonneg. right. lia. Qed.
Lemma sbox_local_bit nb x W j : 0 <= j -> Z.testbit (sbox_local nb x W) j = if j <? 3 * Z.of_nat nb then Z.testbit (sbox_bit x W (Z.to_nat j)) 0 else Z.testbit x j.
Proof.
  intros J. unfold sbox_local. rewrite Z.lor_spec, collect_bit, Z.shiftl_spec by exact J. rewrite Nat2Z.inj_mul. change (Z.of_nat 3) with 3.
  destruct (Z.ltb_spec j (3 * Z.of_nat nb)).
  - rewrite (Z.testbit_neg_r (Z.shiftr _ _)) by lia. apply orb_false_r.
  - rewrite Z.shiftr_spec by lia. cbn [orb]. f_equal. lia.
Qed.
Lemma sbox_local_word lg nb x W : word (width lg) x -> 3 * Z.of_nat nb <= width lg -> word (width lg) (sbox_local nb x W).
Proof.
  intros WX B. pose proof (width_pos lg). apply word_of_bits; [lia| |].
  - unfold sbox_local. apply Z.lor_nonneg. split; [apply collect_pos|]. apply Z.shiftl_nonneg, Z.shiftr_nonneg. destruct WX; lia.
  - intros j J. rewrite sbox_local_bit by lia. destruct (Z.ltb_spec j (3 * Z.of_nat nb)); [lia|]. apply (word_bit_high (width lg)); [lia|exact WX|exact J].
Qed.
Lemma sbox_shared_substituted nb n T t X : (0 < n)%nat -> (forall i, (i < nb)%nat -> good_triple8 n (T (t + i)%nat)) ->
  substituted nb (xtotal n X) (xtotal n (sbox_shared nb n T t X)).
Proof.
  intros N G. split.
  - intros z I. cbv zeta. rewrite <- (Z2Nat.id z) by lia. set (i := Z.to_nat z). assert (L : (i < nb)%nat) by lia.
    pose proof (and3_ok n T (t + i)%nat X i N (G i L)) as HA. set (W := fun p i => and3 n T (t + i) (fun q => abc_of (X q) i) (fun q => bca_of (X q) i) p).
    assert (WB : forall e, xsum n (fun p => Z.testbit (W p i) e) = Z.testbit (abc_of (xtotal n X) i) e && Z.testbit (bca_of (xtotal n X) i) e).
    { intros e. rewrite <- Z.land_spec, <- HA, xtotal_bits. reflexivity. }
    assert (Q : forall e, (e < 3)%nat -> Z.testbit (xtotal n (sbox_shared nb n T t X)) (3 * Z.of_nat i + Z.of_nat e) = xsum n (fun p => Z.testbit (sbox_bit (X p) (W p) (3 * i + e)) 0)).
    { intros e E. rewrite xtotal_bits. apply xsum_ext. intros p _. unfold sbox_shared. rewrite sbox_local_bit by lia. destruct (Z.ltb_spec (3 * Z.of_nat i + Z.of_nat e) (3 * Z.of_nat nb)); [|lia].
      replace (Z.to_nat (3 * Z.of_nat i + Z.of_nat e)) with (3 * i + e)%nat by lia. reflexivity. }
    pose proof (Q 2%nat ltac:(lia)) as Q2. pose proof (Q 1%nat ltac:(lia)) as Q1. pose proof (Q 0%nat ltac:(lia)) as Q0. rewrite Nat.add_0_r in Q0. 
    change (Z.of_nat 2) with 2 in Q2. change (Z.of_nat 1) with 1 in Q1. change (Z.of_nat 0) with 0 in Q0. rewrite Z.add_0_r in Q0. rewrite Q0, Q1, Q2.
    rewrite (xsum_ext n _ _ (fun p _ => proj1 (sbox_bit_0 (X p) (W p) i))). rewrite (xsum_ext n _ _ (fun p _ => proj1 (proj2 (sbox_bit_0 (X p) (W p) i)))).
    rewrite (xsum_ext n _ _ (fun p _ => proj2 (proj2 (sbox_bit_0 (X p) (W p) i)))). rewrite !xsum_xor, !WB, <- !xtotal_bits. rewrite !abc_bit, !bca_bit by lia.
    cbn [Z.ltb Z.compare Pos.compare Pos.compare_cont Z.eqb Pos.eqb]. rewrite Z.add_0_r.
    destruct (Z.testbit (xtotal n X) (3 * Z.of_nat i)), (Z.testbit (xtotal n X) (3 * Z.of_nat i + 1)), (Z.testbit (xtotal n X) (3 * Z.of_nat i + 2)); auto.
  - intros j J. rewrite !xtotal_bits. apply xsum_ext. intros p _. unfold sbox_shared. rewrite sbox_local_bit by lia. destruct (Z.ltb_spec j (3 * Z.of_nat nb)); [lia|reflexivity].
Qed.
Lemma sbox_shared_ok lg nb n T t X x : (0 < n)%nat -> 3 * Z.of_nat nb <= width lg -> (forall i, (i < nb)%nat -> good_triple8 n (T (t + i)%nat)) ->
  shB (width lg) n X x -> shB (width lg) n (sbox_shared nb n T t X) (substitution lg nb sbox_tab x).
Proof.
  intros N B G [WX [Wx E]]. pose proof (width_pos lg) as WP. destruct (subst_bit lg nb sbox_tab x (proj1 tab_small) Wx B) as [SP _].
  assert (WS : forall p, (p < n)%nat -> word (width lg) (sbox_shared nb n T t X p)) by (intros p P; apply sbox_local_word; auto).
  split; [exact WS|]. split; [now apply subst_word; [apply tab_small|..]|].
  apply (substituted_unique nb x); [|exact SP| |now apply subst_ok].
  - apply (xtotal_word (width lg)); [lia|exact WS].
  - rewrite <- E. now apply sbox_shared_substituted.
Qed.

(* ---- the cipher ---- *)
Lemma shB_xor k n X Y x y : 0 <= k -> shB k n X x -> shB k n Y y -> shB k n (fun p => xor_bb (X p) (Y p)) (Z.lxor x y).
Proof.
  intros K [WX [Wx EX]] [WY [Wy EY]]. unfold xor_bb, rxor. split; [intros i I; apply word_lxor; auto|]. split; [now apply word_lxor|]. rewrite xtotal_xor. congruence.
Qed.
Lemma shB_xor_p k n X x c : 0 <= k -> (0 < n)%nat -> word k c -> shB k n X x -> shB k n (fun p => xor_bp p (X p) c) (Z.lxor x c).
Proof.
  intros K N C [WX [Wx EX]]. unfold xor_bp, rxor. split; [intros i I; destruct (i =? 0)%nat; [apply word_lxor|]; auto|]. split; [now apply word_lxor|].
  rewrite (xtotal_ext n _ (fun i => Z.lxor (X i) (if (i =? 0)%nat then c else 0))) by (intros i _; destruct (i =? 0)%nat; [reflexivity|now rewrite Z.lxor_0_r]).
  rewrite xtotal_xor, xtotal_delta by exact N. congruence.
Qed.
Lemma shB_dot lg k n rows X : Z.of_nat (length rows) = k -> shB k n (fun p => dot_gf2 lg rows (X p)) (dot_gf2 lg rows (xtotal n X)).
Proof. intros L. split; [intros; now apply dot_word|]. split; [now apply dot_word|apply dot_shared]. Qed.
Lemma shared_round_ok lg nb n T keys t X x r : (0 < n)%nat -> 3 * Z.of_nat nb <= width lg -> (forall i, good_triple8 n (T i)) -> good_rnd (width lg) r ->
  shB (width lg) n X x -> fst (shared_round lg nb n T keys (t, X) r) = (t + nb)%nat /\
  shB (width lg) n (snd (shared_round lg nb n T keys (t, X) r)) (encrypt_round lg nb (xtotal n keys) x r).
Proof.
  intros N B G [L1 [C L2]] V. pose proof (width_pos lg) as WP. split; [reflexivity|]. cbn [shared_round snd]. unfold encrypt_round.
  pose proof (sbox_shared_ok lg nb n T t X x N B (fun i _ => G (t + i)%nat) V) as S. apply shB_xor; [lia| |].
  - apply shB_xor_p; [lia|exact N|exact C|]. rewrite <- (proj2 (proj2 S)). now apply shB_dot.
  - now apply (shB_dot 7).
Qed.
Lemma shared_rounds_ok lg nb n T keys rs : (0 < n)%nat -> 3 * Z.of_nat nb <= width lg -> (forall i, good_triple8 n (T i)) -> Forall (good_rnd (width lg)) rs ->
  forall t X x, shB (width lg) n X x -> shB (width lg) n (snd (fold_left (shared_round lg nb n T keys) rs (t, X))) (fold_left (encrypt_round lg nb (xtotal n keys)) rs x).
Proof.
  intros N B G F. induction F as [|r rs R F IH]; intros t X x V; cbn [fold_left]; [exact V|].
  destruct (shared_round_ok lg nb n T keys t X x r N B G R V) as [_ H]. destruct (shared_round lg nb n T keys (t, X) r) as [t' X']. apply IH. exact H.
Qed.
Theorem lowmc_b_ok lg nb n T keys kmat0 rs X x : (0 < n)%nat -> 3 * Z.of_nat nb <= width lg -> (forall i, good_triple8 n (T i)) ->
  Z.of_nat (length kmat0) = width lg -> Forall (good_rnd (width lg)) rs -> shB (width lg) n X x ->
  shB (width lg) n (lowmc_b lg nb n T kmat0 rs keys X) (encrypt lg nb kmat0 rs (xtotal n keys) x).
Proof.
  intros N B G L F V. pose proof (width_pos lg) as WP. unfold lowmc_b, encrypt. apply shared_rounds_ok; auto. apply shB_xor; [lia|exact V|]. now apply (shB_dot 7).
Qed.
Lemma lxor_cancel a b : Z.lxor (Z.lxor a b) b = a. Proof. now rewrite Z.lxor_assoc, Z.lxor_nilpotent, Z.lxor_0_r. Qed.
Definition inverts (lg : nat) (inv : rnd -> list Z) (r : rnd) : Prop := forall v, word (width lg) v -> dot_gf2 lg (inv r) (dot_gf2 lg (lin r) v) = v.
Lemma encrypt_round_word lg nb key c r : good_rnd (width lg) r -> word (width lg) (encrypt_round lg nb key c r).
Proof.
  intros [L1 [C L2]]. pose proof (width_pos lg). unfold encrypt_round. apply word_lxor; [lia| |now apply dot_word]. apply word_lxor; [lia|now apply dot_word|exact C].
Qed.
Lemma decrypt_ok lg nb inv kmat0 rs key x : 3 * Z.of_nat nb <= width lg -> Z.of_nat (length kmat0) = width lg -> Forall (good_rnd (width lg)) rs ->
  Forall (inverts lg inv) rs -> word (width lg) x -> decrypt lg nb inv kmat0 rs key (encrypt lg nb kmat0 rs key x) = x.
Proof.
  intros B L F I W. pose proof (width_pos lg) as WP. unfold decrypt, encrypt.
  assert (H : forall rs, Forall (good_rnd (width lg)) rs -> Forall (inverts lg inv) rs -> forall c, word (width lg) c ->
     fold_left (decrypt_round lg nb inv key) (rev rs) (fold_left (encrypt_round lg nb key) rs c) = c).
  { clear F I. intros l F. induction F as [|r l R F IH]; intros I c Wc; [reflexivity|]. inversion I as [|? ? I1 I2]; subst. cbn [fold_left rev]. rewrite fold_left_app. cbn [fold_left].
    rewrite IH; [|exact I2|now apply encrypt_round_word]. unfold decrypt_round, encrypt_round. rewrite !lxor_cancel. rewrite I1; [now apply subst_inverse|].
    apply subst_word; auto. apply tab_small. }
  rewrite H; auto; [apply lxor_cancel|]. apply word_lxor; [lia|exact W|now apply dot_word].
Qed.

(* ---- several inputs ---- *)
Lemma concat_bit k xs : 0 < k -> Forall (word k) xs -> forall i ret j, 0 <= i -> 0 <= j -> Z.testbit (concat_bits k i xs ret) j =
  Z.testbit ret j || (if j <? k * i then false else match nth_error xs (Z.to_nat (j / k - i)) with Some x => Z.testbit x (j mod k) | None => false end).
Proof.
  intros K F. induction F as [|x xs W F IH]; intros i ret j I J; cbn [concat_bits].
  - destruct (j <? k * i); [now rewrite orb_false_r|]. destruct (Z.to_nat (j / k - i)); now rewrite orb_false_r.
  - rewrite IH by lia. rewrite Z.lor_spec, Z.shiftl_spec by exact J. pose proof (Z.div_mod j k ltac:(lia)) as D. pose proof (Z.mod_pos_bound j k K) as M.
    destruct (Z.ltb_spec j (k * i)).
    + destruct (Z.ltb_spec j (k * (i + 1))); [|nia]. rewrite (Z.testbit_neg_r x) by lia. now rewrite !orb_false_r.
    + destruct (Z.ltb_spec j (k * (i + 1))).
      * assert (Q : j / k = i) by nia. rewrite Q, Z.sub_diag. cbn [Z.to_nat nth_error]. rewrite orb_false_r. do 2 f_equal. nia.
      * assert (Q : i + 1 <= j / k) by nia. rewrite (word_bit_high k x (j - k * i)) by (try assumption; nia). rewrite orb_false_r. f_equal.
        replace (Z.to_nat (j / k - i)) with (S (Z.to_nat (j / k - (i + 1)))) by lia. reflexivity.
Qed.

Lemma concat_at k xs i e x : 0 < k -> Forall (word k) xs -> nth_error xs i = Some x -> 0 <= e < k -> Z.testbit (concat_bits k 0 xs 0) (k * Z.of_nat i + e) = Z.testbit x e.
Proof.
  intros K F N E. rewrite concat_bit by (try assumption; lia). rewrite Z.testbit_0_l. cbn [orb]. destruct (Z.ltb_spec (k * Z.of_nat i + e) (k * 0)); [lia|].
  replace ((k * Z.of_nat i + e) / k) with (Z.of_nat i) by (rewrite Z.add_comm, Z.mul_comm, Z.div_add by lia; rewrite Z.div_small by lia; lia).
  replace ((k * Z.of_nat i + e) mod k) with e by (rewrite Z.add_comm, Z.mul_comm, Z.mod_add by lia; rewrite Z.mod_small by lia; lia).
  rewrite Z.sub_0_r, Nat2Z.id, N. reflexivity.
Qed.
Lemma concat_pos k xs : 0 < k -> Forall (word k) xs -> forall i ret, 0 <= i -> 0 <= ret -> 0 <= concat_bits k i xs ret.
Proof.
  intros K F. induction F as [|x xs W F IH]; intros i ret I R; cbn [concat_bits]; [exact R|]. apply IH; [lia|]. apply Z.lor_nonneg. split; [exact R|]. apply Z.shiftl_nonneg. destruct W; lia.
Qed.
Lemma concat_word k xs w : 0 < k -> Forall (word k) xs -> k * Z.of_nat (length xs) <= w -> word w (concat_bits k 0 xs 0).
Proof.
  intros K F L. apply word_of_bits; [lia|apply concat_pos; auto; lia|]. intros j J. rewrite concat_bit by (try assumption; lia). rewrite Z.testbit_0_l. cbn [orb]. destruct (j <? k * 0); [reflexivity|].
  assert (Q : Z.of_nat (length xs) <= j / k) by (apply Z.div_le_lower_bound; lia).
  assert (E : nth_error xs (Z.to_nat (j / k - 0)) = None) by (apply nth_error_None; lia). now rewrite E.
Qed.
Lemma concat_inj k xs ys : 0 < k -> Forall (word k) xs -> Forall (word k) ys -> length xs = length ys -> concat_bits k 0 xs 0 = concat_bits k 0 ys 0 -> xs = ys.
Proof.
  intros K F G L E. apply (nth_ext xs ys 0 0 L). intros i I. assert (NX : nth_error xs i = Some (nth i xs 0)) by now apply nth_error_nth'.
  assert (NY : nth_error ys i = Some (nth i ys 0)) by (apply nth_error_nth'; lia). rewrite Forall_forall in F, G.
  assert (WX : word k (nth i xs 0)) by (apply F, nth_In; exact I). assert (WY : word k (nth i ys 0)) by (apply G, nth_In; lia).
  apply Z.bits_inj'. intros e E0. destruct (Z.ltb_spec e k).
  - rewrite <- (concat_at k xs i e) by (try apply Forall_forall; auto; lia). rewrite <- (concat_at k ys i e) by (try apply Forall_forall; auto; lia). now rewrite E.
  - rewrite !(word_bit_high k) by (try assumption; lia). reflexivity.
Qed.
Lemma Forall2_words k n Xs xs : Forall2 (shB k n) Xs xs -> Forall (word k) xs /\ forall p, (p < n)%nat -> Forall (word k) (map (fun X : nat -> Z => X p) Xs).
Proof.
  intros H. induction H as [|X x Xs xs [WX [Wx _]] H [I1 I2]]; [split; [constructor|intros; constructor]|]. split; [now constructor|]. intros p P. cbn [map]. constructor; auto.
Qed.
Lemma f2_length {A B} (R : A -> B -> Prop) l l' : Forall2 R l l' -> length l = length l'.
Proof. induction 1; cbn [length]; congruence. Qed.
Lemma concat_shared k n w Xs xs : 0 < k -> Forall2 (shB k n) Xs xs -> k * Z.of_nat (length xs) <= w ->
  shB w n (fun p => concat_bits k 0 (map (fun X => X p) Xs) 0) (concat_bits k 0 xs 0).
Proof.
  intros K H L. destruct (Forall2_words k n Xs xs H) as [F FP]. pose proof (f2_length _ _ _ H) as LX.
  split; [intros p P; apply concat_word; auto; rewrite map_length; lia|]. split; [now apply concat_word|].
  apply Z.bits_inj'. intros j J. rewrite xtotal_bits. rewrite concat_bit by (try assumption; lia). rewrite Z.testbit_0_l. cbn [orb].
  rewrite (xsum_ext n _ (fun p => if j <? k * 0 then false else match nth_error (map (fun X => X p) Xs) (Z.to_nat (j / k - 0)) with Some x => Z.testbit x (j mod k) | None => false end))
    by (intros p P; rewrite concat_bit by (auto; lia); now rewrite Z.testbit_0_l).
  destruct (j <? k * 0); [apply xsum_false|]. generalize (Z.to_nat (j / k - 0)). clear LX F FP L. induction H as [|X x Xs xs [_ [_ E]] H IH]; intros i.
  - destruct i; apply xsum_false.
  - destruct i as [|i]; cbn [map nth_error]; [now rewrite <- E, xtotal_bits|]. apply IH.
Qed.
Lemma remap_shared lg w n k : 0 <= w -> forall ms Xs xs A a, Forall2 (shB k n) Xs xs -> Forall (fun m => Z.of_nat (length m) = w) ms -> shB w n A a ->
  shB w n (fun p => remap lg ms (map (fun X => X p) Xs) (A p)) (remap lg ms xs a).
Proof.
  intros W ms. induction ms as [|m ms IH]; intros Xs xs A a H F V; [exact V|]. inversion F as [|? ? M F']; subst. destruct H as [|X x Xs xs S H]; [exact V|]. cbn [map remap].
  apply (IH Xs xs (fun p => Z.lxor (A p) (dot_gf2 lg m (X p))) (Z.lxor a (dot_gf2 lg m x)) H F'). destruct S as [_ [_ <-]]. apply (shB_xor _ n A (fun p => dot_gf2 lg m (X p))); auto. now apply shB_dot.
Qed.

(* ---- a linear layer that is not injective ---- *)
Lemma collision lg nb kmat0 rs r key d : 3 * Z.of_nat nb <= width lg -> Z.of_nat (length kmat0) = width lg ->
  word (width lg) d -> d <> 0 -> dot_gf2 lg (lin r) d = 0 ->
  exists x y, word (width lg) x /\ word (width lg) y /\ x <> y /\ encrypt lg nb kmat0 (r :: rs) key x = encrypt lg nb kmat0 (r :: rs) key y.
Proof.
  intros B L D N Z0. pose proof (width_pos lg) as WP. set (k0 := round_key kmat0 key). assert (WK : word (width lg) k0) by now apply dot_word.
  assert (W0 : word (width lg) 0) by (apply word_0; lia).
  set (u := substitution lg nb inv_sbox_tab 0). set (v := substitution lg nb inv_sbox_tab d).
  assert (WU : word (width lg) u) by (apply subst_word; auto; apply tab_small). assert (WV : word (width lg) v) by (apply subst_word; auto; apply tab_small).
  exists (Z.lxor u k0), (Z.lxor v k0). split; [apply word_lxor; auto; lia|]. split; [apply word_lxor; auto; lia|]. split.
  - intros E. apply N. assert (U : u = v) by (rewrite <- (lxor_cancel u k0), <- (lxor_cancel v k0); now rewrite E).
    rewrite <- (subst_inverse' lg nb d D B). fold v. rewrite <- U. unfold u. now rewrite subst_inverse'.
  - unfold encrypt. fold k0. rewrite !lxor_cancel. cbn [fold_left]. f_equal. unfold encrypt_round. f_equal. f_equal. unfold u, v. rewrite !subst_inverse' by assumption. now rewrite Z0, dot_0.
Qed.
