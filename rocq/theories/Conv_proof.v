From Verif Require Import Base Ring_model Ring_spec Ring_proof Circ_model Circ_spec Circ_proof Circc_proof Circr_proof.
From Verif Require Import Share_spec Party Semi_model Semi_proof Conv_model Conv_spec.
Open Scope Z_scope.

Lemma swap_level_lxor k l a b : 0 <= k -> swap_level k (Z.lxor a b) l = Z.lxor (swap_level k a l) (swap_level k b l).
Proof.
  intros K. unfold swap_level, rxor, rand_. assert (0 <= 2 ^ Z.of_nat l) by (apply Z.pow_nonneg; lia).
  assert (D : forall x y z, Z.land (Z.lxor x y) z = Z.lxor (Z.land x z) (Z.land y z)).
  { intros. apply Z.bits_inj'. intros m M. rewrite !Z.lxor_spec, !Z.land_spec, !Z.lxor_spec.
    destruct (Z.testbit x m), (Z.testbit y m), (Z.testbit z m); reflexivity. }
  rewrite !rshr_lxor, !D, !rshl_lxor by auto.
  apply Z.bits_inj'. intros j J. rewrite !Z.lxor_spec.
  repeat match goal with |- context [Z.testbit ?e j] => generalize (Z.testbit e j); intros [] end; reflexivity.
Qed.
Lemma fold_swap_lxor k ls : 0 <= k -> forall a b,
  fold_left (swap_level k) ls (Z.lxor a b) = Z.lxor (fold_left (swap_level k) ls a) (fold_left (swap_level k) ls b).
Proof. intros K. induction ls as [|l ls IH]; intros a b; cbn [fold_left]; [reflexivity|]. now rewrite swap_level_lxor, IH. Qed.
Lemma fold_swap_0 k ls : 0 <= k -> fold_left (swap_level k) ls 0 = 0.
Proof. intros K. pose proof (fold_swap_lxor k ls K 0 0) as E. change (Z.lxor 0 0) with 0 in E. rewrite E. apply Z.lxor_nilpotent. Qed.

Lemma skipn_plus {A} a b (l : list A) : skipn a (skipn b l) = skipn (b + a) l.
Proof. revert l. induction b; intros l; [reflexivity|]. destruct l; [now rewrite !skipn_nil|]. cbn [skipn Nat.add]. apply IHb. Qed.
Lemma Forall2_len {A B} (P : A -> B -> Prop) l m : Forall2 P l m -> length l = length m.
Proof. induction 1; cbn; congruence. Qed.
Lemma eqm_eq k a b : a = b -> eqm k a b.
Proof. now intros ->. Qed.
(* ---- integers from bits ---- *)
Fixpoint ofbits (m : nat) (f : nat -> bool) : Z :=
  match m with O => 0 | S p => ofbits p f + Z.b2z (f p) * 2 ^ Z.of_nat p end.
Lemma ofbits_range m f : 0 <= ofbits m f < 2 ^ Z.of_nat m.
Proof.
  induction m as [|m IH]; [cbn; lia|]. cbn [ofbits]. rewrite Nat2Z.inj_succ, Z.pow_succ_r by lia.
  destruct (f m); cbn [Z.b2z]; lia.
Qed.
Lemma tb_top m b v j : 0 <= v < 2 ^ m -> 0 <= m -> 0 <= j ->
  Z.testbit (v + Z.b2z b * 2 ^ m) j = if j <? m then Z.testbit v j else (j =? m) && b.
Proof.
  intros V M J. pose proof (pow2_pos m M). destruct (Z.ltb_spec j m).
  - pose proof (tb_wrap m (v + Z.b2z b * 2 ^ m) j M) as E. unfold wrap in E. rewrite Z.mod_add, Z.mod_small in E by lia.
    rewrite E. destruct (Z.ltb_spec j m); [reflexivity|lia].
  - replace j with (j - m + m) at 1 by lia. rewrite <- Z.div_pow2_bits by lia. rewrite Z.div_add, Z.div_small by lia. cbn [Z.add].
    destruct (Z.eqb_spec j m) as [->|NE].
    + rewrite Z.sub_diag, Z.b2z_bit0. reflexivity.
    + cbn [andb]. destruct b; cbn [Z.b2z]; [|apply Z.testbit_0_l]. replace (j - m) with (Z.succ (j - m - 1)) by lia.
      change 1 with (2 * 0 + 1). rewrite Z.testbit_odd_succ by lia. apply Z.testbit_0_l.
Qed.
Lemma ofbits_tb m f j : Z.testbit (ofbits m f) (Z.of_nat j) = (j <? m)%nat && f j.
Proof.
  induction m as [|m IH]; [apply Z.testbit_0_l|]. cbn [ofbits]. rewrite tb_top by (try apply ofbits_range; lia). rewrite IH.
  destruct (Nat.ltb_spec j m), (Nat.ltb_spec j (S m)), (Z.ltb_spec (Z.of_nat j) (Z.of_nat m)), (Z.eqb_spec (Z.of_nat j) (Z.of_nat m));
    try lia; cbn [andb]; try reflexivity. replace j with m by lia. reflexivity.
Qed.
Lemma ofbits_word m x : 0 <= x < 2 ^ Z.of_nat m -> ofbits m (fun j => Z.testbit x (Z.of_nat j)) = x.
Proof.
  intros X. apply (tb_eq_word (Z.of_nat m)); [lia|apply ofbits_range|exact X|]. intros i I.
  replace i with (Z.of_nat (Z.to_nat i)) by lia. rewrite ofbits_tb. destruct (Nat.ltb_spec (Z.to_nat i) m); [reflexivity|lia].
Qed.
Lemma ofbits_total m f : ofbits m f = total m (fun j => Z.b2z (f j) * 2 ^ Z.of_nat j).
Proof. induction m; cbn [ofbits total]; [reflexivity|]. now rewrite IHm. Qed.
Lemma total_swap n m (F : nat -> nat -> Z) : total n (fun i => total m (fun j => F i j)) = total m (fun j => total n (fun i => F i j)).
Proof. induction n as [|n IH]; cbn [total]; [now rewrite total_0|]. now rewrite IH, total_add. Qed.
Lemma xtotal_lsb n X : Z.testbit (xtotal n X) 0 = Z.odd (total n X).
Proof.
  induction n as [|n IH]; [reflexivity|]. cbn [xtotal total]. now rewrite Z.lxor_spec, IH, Z.odd_add, Z.bit0_odd.
Qed.
Lemma xtotal_bit_ext n X Y i j : (forall p, (p < n)%nat -> Z.testbit (X p) i = Z.testbit (Y p) j) ->
  Z.testbit (xtotal n X) i = Z.testbit (xtotal n Y) j.
Proof.
  intros H. rewrite !xtotal_bit. f_equal. apply map_ext_in. intros p P. apply in_seq in P. apply H. lia.
Qed.
Lemma fold_radd k (F : nat -> Z) m : eqm k (fold_left (fun a j => radd k a (F j)) (seq 0 m) 0) (total m F).
Proof.
  induction m as [|m IH]; [reflexivity|]. rewrite seq_S, fold_left_app. cbn [fold_left total Nat.add]. now rewrite eqm_radd, IH.
Qed.
Lemma fold_radd_word k (F : nat -> Z) m : 0 <= k -> word k (fold_left (fun a j => radd k a (F j)) (seq 0 m) 0).
Proof.
  intros K. destruct m as [|m]; [now apply Party.word_0|]. rewrite seq_S, fold_left_app. cbn [fold_left]. now apply radd_word.
Qed.
Lemma Forall2_two {A B} (P : A -> B -> Prop) l a b : Forall2 P l [a; b] -> exists m q, l = [m; q] /\ P m a /\ P q b.
Proof. intros F. inversion F as [|m ? l1 ? HM F1]; subst. inversion F1 as [|q ? l2 ? HQ F2]; subst. inversion F2; subst. eauto. Qed.
Section Semi.
Variable w : nat.
Hypothesis W5 : (5 <= w)%nat.
Hypothesis W7 : (w <= 7)%nat.
Let k := 2 ^ Z.of_nat w.
Variable n : nat.
Hypothesis N : (0 < n)%nat.
Variables TA TB TC : nat -> Z -> nat -> Z.
Hypothesis TR : good_triples n TA TB TC.
Notation R := (brel k n).
Notation ops := (semi_bops k n TA TB TC).

Lemma k_field : k = 32 \/ k = 64 \/ k = 128.
Proof. unfold k. assert (H : w = 5%nat \/ w = 6%nat \/ w = 7%nat) by lia. destruct H as [-> | [-> | ->]]; cbn; auto. Qed.
Lemma k_pos : 32 <= k <= 128.
Proof. destruct k_field; lia. Qed.
Lemma backtype_some nb : 0 <= nb <= k -> exists v, backtype nb = Ok v /\ nb <= v <= k /\ In v [8; 16; 32; 64; 128].
Proof.
  intros H. unfold backtype. pose proof k_field.
  destruct (Z.leb_spec nb 8); [exists 8; cbn; repeat split; auto; lia|].
  destruct (Z.leb_spec nb 16); [exists 16; cbn; repeat split; auto; lia|].
  destruct (Z.leb_spec nb 32); [exists 32; cbn; repeat split; auto; lia|].
  destruct (Z.leb_spec nb 64); [exists 64; cbn; repeat split; auto; lia|].
  destruct (Z.leb_spec nb 128); [exists 128; cbn; repeat split; auto 10; lia|]. lia.
Qed.
Lemma and_share_ok t na nb X Y x y : R na X x -> R nb Y y ->
  exists V, and_share n TA TB TC t X Y = Ok V /\ R (Z.min na nb) V (Z.land x y).
Proof.
  intros [EX HX] [EY HY]. pose proof k_pos. unfold and_share. rewrite EX, EY.
  assert (B : 0 <= nb_and na nb <= k) by (unfold nb_and; destruct HX as [_ [? _]], HY as [_ [? _]]; lia).
  destruct (backtype_some _ B) as [v [BV [LV IV]]]. rewrite BV. cbn [rbind]. eexists. split; [reflexivity|]. split; [reflexivity|]. cbn [snd].
  destruct (TR t v IV) as [TW TE].
  destruct (and_bb_ok k v n na nb (snd X) (snd Y) (TA t v) (TB t v) (TC t v) x y ltac:(lia) N HX HY BV TW TE) as [E1 [E2 E3]].
  split; [|split; [exact B|exact E3]]. split; [|split; [|exact E1]].
  - intros i Hi. apply (word_mono v); [lia|now apply E2].
  - unfold rand_ in *. split; [apply Z.land_nonneg; left; destruct HX as [[_ [[? _] _]] _]; lia|].
    eapply Z.lt_le_trans; [exact E3|]. apply Z.pow_le_mono_r; lia.
Qed.
Lemma linear_share ls nb lb X x : (forall l, In l ls -> (l + 2 <= lb)%nat) -> (lb <= w)%nat -> nb = 2 ^ Z.of_nat lb ->
  shBn k n nb X x -> shBn k n nb (fun i => fold_left (swap_level k) ls (X i)) (fold_left (swap_level k) ls x).
Proof.
  intros L LB -> [[WX [Wx EX]] [NB HB]]. pose proof k_pos.
  assert (FW : forall v, word k v -> word k (fold_left (swap_level k) ls v)).
  { intros v V. apply (fold_swap_bound w); auto. apply Forall_forall. intros l Hl. specialize (L l Hl). lia. }
  assert (W : word (2 ^ Z.of_nat lb) (fold_left (swap_level k) ls x)).
  { apply fold_swap_bound; auto; [apply Forall_forall; auto|]. destruct Wx. split; [lia|exact HB]. }
  split; [|split; [exact NB|exact (proj2 W)]].
  split; [intros; apply FW; auto|]. split; [apply FW; auto|].
  rewrite (xtotal_lin_word (fun v => fold_left (swap_level k) ls v) k n X); [now rewrite EX|lia|apply fold_swap_0; lia| |exact WX].
  intros. apply fold_swap_lxor. lia.
Qed.
Lemma semi_implements : implements_b k ops R.
Proof.
  pose proof k_pos as KP. constructor; cbn [semi_bops b_nb b_setnb b_xor b_and b_andp b_lsh b_rsh b_deintl].
  - intros nb X x [E [[WX [[Wx _] EX]] [NB HB]]]. repeat split; auto; lia.
  - intros nb X x nb' [E [H [NB HB]]] L' B'. split; [reflexivity|]. cbn [snd]. split; [exact H|]. split; auto.
  - intros na nb X Y x y [E H] [E' H']. split; [cbn [fst]; unfold nb_xor; now rewrite E, E'|]. cbn [snd].
    apply (shBn_xor k n na nb); auto.
  - intros. now apply and_share_ok.
  - intros na X x p P [E H]. assert (WP : word k (wrap k p)) by (apply Party.word_wrap; lia).
    destruct (bitwidth_bound (wrap k p) (proj1 WP)). pose proof (bitwidth_word k _ ltac:(lia) WP).
    split; [cbn [fst]; unfold nb_and; now rewrite E|]. cbn [snd]. apply (shBn_and_bp k n na (bitwidth (wrap k p))); auto.
  - intros na X x s S [E H]. split; [cbn [fst]; now rewrite E|]. cbn [snd]. apply shBn_lshift; auto; lia.
  - intros na X x s S [E H]. split; [cbn [fst]; unfold nb_rshift; now rewrite E|]. cbn [snd]. apply (shBn_rshift k n na s s); auto; lia.
  - intros l X x s L [E H]. rewrite E.
    replace (has_single_bit (2 ^ l)) with true by (symmetry; apply single_bit_pow; exists l; lia).
    eexists. split; [reflexivity|]. split; [reflexivity|]. cbn [snd].
    replace l with (Z.of_nat (Z.to_nat l)) in * by lia. set (lb := Z.to_nat l) in *.
    assert (LB : (lb <= w)%nat). { destruct H as [_ [H _]]. unfold k in H. apply (proj2 (Z.pow_le_mono_r_iff 2 _ _ ltac:(lia) ltac:(lia))) in H || (destruct H as [_ H]; apply Z.pow_le_mono_r_iff in H; lia). }
    unfold bit_deintl. apply (linear_share _ _ lb); auto.
    pose proof (levels_block s lb) as F. rewrite Forall_forall in F. exact F.
Qed.
Lemma bitintl_share_ok lb s X x : R (2 ^ Z.of_nat lb) X x ->
  exists V, bitintl_share k X s = Ok V /\ R (2 ^ Z.of_nat lb) V (bit_intl k s (2 ^ Z.of_nat lb) x).
Proof.
  intros [E H]. unfold bitintl_share. rewrite E.
  replace (has_single_bit (2 ^ Z.of_nat lb)) with true by (symmetry; apply single_bit_pow; exists (Z.of_nat lb); lia).
  eexists. split; [reflexivity|]. split; [reflexivity|]. cbn [snd].
  assert (LB : (lb <= w)%nat). { destruct H as [_ [[_ H] _]]. apply Z.pow_le_mono_r_iff in H; lia. }
  unfold bit_intl. apply (linear_share _ _ lb); auto.
  pose proof (levels_block s lb) as F. rewrite Forall_forall in F. intros l Hl. apply F. now apply in_rev.
Qed.

(* ---- additive to boolean ---- *)
Variable tg : nat -> nat -> nat.
Lemma sadd_ok t X Y x y : R k X x -> R k Y y -> exists V, sadd k n TA TB TC t X Y = Ok V /\ R k V (wrap k (x + y)).
Proof.
  intros HX HY. pose proof k_pos.
  destruct (add_bb_ok bshare w ltac:(lia) W7 ops R semi_implements t k X Y x y ltac:(lia) HX HY) as [V [E H']].
  exists V. split; [exact E|]. fold k in H'. rewrite Z.min_r in H' by lia. exact H'.
Qed.
Lemma rmapi_add_ok lv : forall ls rs la ra j, Forall2 (R k) ls la -> Forall2 (R k) rs ra -> length ls = length rs ->
  exists next, rmapi (fun j '(x, y) => sadd k n TA TB TC (tg lv j) x y) j (combine ls rs) = Ok next /\
    Forall2 (R k) next (zipWith (fun a b => wrap k (a + b)) la ra) /\ length next = length ls.
Proof.
  induction ls as [|X ls IH]; intros rs la ra j F G L; destruct rs as [|Y rs]; try discriminate.
  - inversion F; subst. exists []. cbn. auto.
  - inversion F as [|? x ? la' HX FT]; inversion G as [|? y ? ra' HY GT]; subst. cbn [combine rmapi zipWith].
    destruct (sadd_ok (tg lv j) X Y x y HX HY) as [V [E HV]]. rewrite E. cbn [rbind].
    destruct (IH rs la' ra' (S j) FT GT ltac:(cbn in L; lia)) as [nx [E2 [F2 L2]]]. rewrite E2. cbn [rbind].
    exists (V :: nx). split; [reflexivity|]. split; [now constructor|cbn; lia].
Qed.
Lemma sum_zip_wrap la : forall ra, length la = length ra ->
  wrap k (sumZ (zipWith (fun a b => wrap k (a + b)) la ra)) = wrap k (sumZ la + sumZ ra).
Proof.
  pose proof k_pos. induction la as [|a la IH]; intros [|b ra] L; try discriminate; [reflexivity|].
  cbn [zipWith]. rewrite !sumZ_cons. unfold wrap in *. rewrite Z.add_mod_idemp_l by (apply Z.pow_nonzero; lia).
  rewrite <- Z.add_mod_idemp_r, IH, Z.add_mod_idemp_r by (cbn in L; try lia; apply Z.pow_nonzero; lia). f_equal. lia.
Qed.
Lemma same_nb_ok ls la : Forall2 (R k) ls la -> same_nb ls = true.
Proof.
  intros F. assert (A : forall X, In X ls -> fst X = k).
  { induction F as [|X x ls la [H _] F IH]; [easy|]. intros Y [<- | I]; auto. }
  destruct ls as [|X ls]; [reflexivity|]. unfold same_nb. apply forallb_forall. intros Y I.
  rewrite (A Y I), (A X ltac:(now left)). apply Z.eqb_refl.
Qed.
Lemma vreduce_add_ok : forall fuel lv xs zs, xs <> [] -> (length xs <= fuel)%nat -> Forall2 (R k) xs zs ->
  exists V, vreduce_add k n TA TB TC tg fuel lv xs = Ok V /\ R k V (wrap k (sumZ zs)).
Proof.
  pose proof k_pos as KP. induction fuel as [|fuel IH]; intros lv xs zs NE L F; [destruct xs; [easy|cbn in L; lia]|].
  destruct xs as [|X xs]; [easy|]. destruct xs as [|Y xs].
  - inversion F as [|? x ? ? HX FT]; subst. inversion FT; subst. exists X. split; [reflexivity|].
    rewrite sumZ_cons. change (sumZ []) with 0. rewrite Z.add_0_r, wrap_small; [exact HX|].
    destruct HX as [_ [[_ [H _]] _]]. exact H.
  - remember (X :: Y :: xs) as l eqn:EL. assert (LL : (2 <= length l)%nat) by (subst l; cbn; lia).
    assert (EV : vreduce_add k n TA TB TC tg (S fuel) lv l =
      let half := (length l / 2)%nat in
      if same_nb (firstn half l) && same_nb (firstn half (skipn half l)) then
        rbind (rmapi (fun j '(x, y) => sadd k n TA TB TC (tg lv j) x y) 0 (combine (firstn half l) (firstn half (skipn half l)))) (fun next =>
        vreduce_add k n TA TB TC tg fuel (S lv) (next ++ (if (length l mod 2 =? 1)%nat then skipn (length l - 1) l else [])))
      else Err) by (subst l; reflexivity).
    rewrite EV. clear EV. cbv zeta. set (half := (length l / 2)%nat).
    assert (HH : (2 * half <= length l)%nat) by (unfold half; pose proof (Nat.div_mod (length l) 2); lia).
    assert (H1 : (1 <= half)%nat) by (unfold half; pose proof (Nat.div_mod (length l) 2); pose proof (Nat.mod_upper_bound (length l) 2); lia).
    pose proof F as FF. rewrite <- (firstn_skipn half l) in FF. apply Forall2_app_inv_l in FF. destruct FF as [za [zr [Fa [Fr EZ]]]].
    rewrite <- (firstn_skipn half (skipn half l)) in Fr. apply Forall2_app_inv_l in Fr. destruct Fr as [zb [zc [Fb [Fc EZ2]]]].
    rewrite (same_nb_ok _ _ Fa), (same_nb_ok _ _ Fb). cbn [andb].
    assert (La : length (firstn half l) = half) by (rewrite firstn_length; lia).
    assert (Lb : length (firstn half (skipn half l)) = half) by (rewrite firstn_length, skipn_length; lia).
    destruct (rmapi_add_ok lv _ _ _ _ 0%nat Fa Fb ltac:(lia)) as [nx [E1 [F1 L1]]]. rewrite E1. cbn [rbind].
    set (tl := if (length l mod 2 =? 1)%nat then skipn (length l - 1) l else []).
    assert (TL : tl = skipn half (skipn half l)).
    { rewrite skipn_plus. unfold tl. pose proof (Nat.div_mod (length l) 2 ltac:(lia)) as DM. fold half in DM. pose proof (Nat.mod_upper_bound (length l) 2 ltac:(lia)).
      destruct (Nat.eqb_spec (length l mod 2) 1) as [E|E].
      - f_equal. lia.
      - symmetry. apply skipn_all2. lia. }
    destruct (IH (S lv) (nx ++ tl) (zipWith (fun a b => wrap k (a + b)) za zb ++ zc)) as [V [EV HV]].
    + destruct nx; [rewrite La in L1; cbn [length] in L1; lia|easy].
    + rewrite app_length, L1, La, TL, !skipn_length. lia.
    + apply Forall2_app; [exact F1|]. rewrite TL. exact Fc.
    + exists V. split; [exact EV|]. replace (wrap k (sumZ zs)) with (wrap k (sumZ (zipWith (fun a b => wrap k (a + b)) za zb ++ zc))); [exact HV|].
      rewrite EZ, EZ2, !sumZ_app. apply Forall2_len in Fa, Fb.
      pose proof (sum_zip_wrap za zb ltac:(lia)) as E. unfold wrap in *. rewrite <- Z.add_mod_idemp_l, E, Z.add_mod_idemp_l by (apply Z.pow_nonzero; lia).
      f_equal. lia.
Qed.
Lemma sumZ_map_seq (X : nat -> Z) m : sumZ (map X (seq 0 m)) = total m X.
Proof. induction m; [reflexivity|]. rewrite seq_S, map_app, sumZ_app, IHm. cbn. lia. Qed.
Lemma own_bshares_ok RR X : (forall i j, (i < n)%nat -> (j < n)%nat -> word k (RR j i)) -> (forall i, (i < n)%nat -> word k (X i)) ->
  forall l, (forall j, In j l -> (j < n)%nat) ->
  Forall2 (R k) (map (fun idx => (k, fun i => v2b idx i (RR idx i) (RR idx (nextrank n i)) (X i))) l) (map X l).
Proof.
  intros WR WX l. pose proof k_pos. induction l as [|j l IH]; intros HL; cbn [map]; constructor; [|apply IH; auto with datatypes].
  split; [reflexivity|]. cbn [snd]. assert (HJ : (j < n)%nat) by (apply HL; now left).
  pose proof (v2b_shares k n j (RR j) (X j) ltac:(lia) HJ (WX j HJ) ltac:(auto)) as [A [B C]].
  split; [|split; [lia|exact (proj2 B)]].
  assert (EQ : forall i, v2b j i (RR j i) (RR j (nextrank n i)) (X i) = v2b j i (RR j i) (RR j (nextrank n i)) (X j)).
  { intros i. unfold v2b. destruct (Nat.eqb_spec i j); [now subst|reflexivity]. }
  split; [intros i Hi; rewrite EQ; auto|]. split; [exact B|]. rewrite <- C. apply xtotal_ext. intros. apply EQ.
Qed.
Lemma a2b_ok RR X x : (forall i j, (i < n)%nat -> (j < n)%nat -> word k (RR j i)) -> shA k n X x ->
  exists V, a2b k n TA TB TC tg RR X = Ok V /\ R k V x.
Proof.
  intros WR [WX EX]. pose proof k_pos. unfold a2b.
  destruct (vreduce_add_ok n 0 (own_bshares k n RR X) (map X (seq 0 n))) as [V [E HV]].
  - unfold own_bshares. destruct n; [lia|]. rewrite <- cons_seq. cbn. easy.
  - unfold own_bshares. now rewrite map_length, seq_length.
  - apply own_bshares_ok; auto. intros j Hj. apply in_seq in Hj. lia.
  - rewrite E. cbn [rbind]. eexists. split; [reflexivity|]. split; [reflexivity|]. cbn [snd]. rewrite sumZ_map_seq in HV.
    rewrite (is_mod_unique k _ _ _ ltac:(lia) EX (wrap_is_mod k _ ltac:(lia))). destruct HV as [_ HV]. exact HV.
Qed.
Lemma b2a_ok t RR r X x : (forall i j, (i < n)%nat -> (j < n)%nat -> word k (RR j i)) -> (forall i, (i < n)%nat -> word k (r i)) ->
  R k X x -> exists A, b2a k n TA TB TC tg t RR r X = Ok A /\ shA k n A x.
Proof.
  intros WR Wr HX. pose proof k_pos as KP. unfold b2a.
  assert (SR : shA k n r (wrap k (total n r))) by (apply shA_of; auto; [lia|apply Party.word_wrap; lia|symmetry; apply eqm_wrap; lia]).
  destruct (a2b_ok RR r _ WR SR) as [rb [E1 H1]]. rewrite E1. cbn [rbind].
  destruct (sadd_ok t X rb x _ HX H1) as [s [E2 H2]]. rewrite E2. cbn [rbind].
  eexists. split; [reflexivity|]. assert (Wx : word k x) by (destruct HX as [_ [[_ [H _]] _]]; exact H).
  apply shA_of; [lia| |exact Wx|].
  - intros i I. destruct (_ =? _)%nat; [apply radd_word; lia|apply rneg_word; lia].
  - set (v := wrap k (x + wrap k (total n r))) in *.
    transitivity (total n (fun i => - r i + (if (i =? 0)%nat then v else 0))).
    + apply total_eqm. intros i I. destruct (_ =? _)%nat; [|now rewrite eqm_rneg, Z.add_0_r].
      rewrite eqm_radd, eqm_rneg, allreduce_xor by exact I. destruct H2 as [_ [[_ [_ ->]] _]]. reflexivity.
    + rewrite total_add, total_opp, total_delta by exact N. unfold v. rewrite !eqm_wrap by lia. apply eqm_eq. lia.
Qed.

(* ---- boolean to additive through random bits ---- *)
Lemma rb_mask_bits wd nb RB i : Z.of_nat nb <= wd ->
  rb_mask wd nb RB i = ofbits nb (fun j => Z.testbit (RB j i) 0).
Proof.
  intros L. unfold rb_mask. assert (G : forall m, (m <= nb)%nat ->
    fold_left (fun m j => radd wd m (rshl wd (Z.of_nat j) (rand_ (wrap wd (RB j i)) 1))) (seq 0 m) 0 = ofbits m (fun j => Z.testbit (RB j i) 0)).
  { induction m as [|m IH]; intros M; [reflexivity|]. rewrite seq_S, fold_left_app, IH by lia. cbn [fold_left ofbits Nat.add].
    assert (E : rand_ (wrap wd (RB m i)) 1 = Z.b2z (Z.testbit (RB m i) 0)).
    { unfold rand_. change 1 with (Z.ones 1) at 1. rewrite Z.land_ones by lia. change (2 ^ 1) with 2.
      rewrite <- Z.bit0_mod, tb_wrap by lia. destruct (Z.ltb_spec 0 wd); [reflexivity|lia]. }
    rewrite E. unfold radd, rshl.
    pose proof (ofbits_range m (fun j => Z.testbit (RB j i) 0)) as B1. pose proof (ofbits_range (S m) (fun j => Z.testbit (RB j i) 0)) as B2.
    cbn [ofbits] in B2. assert (LP : 2 ^ Z.of_nat (S m) <= 2 ^ wd) by (apply Z.pow_le_mono_r; lia).
    assert (P : 0 <= Z.b2z (Z.testbit (RB m i) 0) * 2 ^ Z.of_nat m) by (apply Z.mul_nonneg_nonneg; [destruct (Z.testbit _ 0); cbn; lia|apply Z.pow_nonneg; lia]).
    rewrite (wrap_small wd (Z.b2z _ * _)) by lia. apply wrap_small. lia. }
  apply G. lia.
Qed.
Lemma rb_lsb RB m j b : (j < m)%nat -> shA k n (RB j) (Z.b2z b) -> Z.testbit (xtotal n (RB j)) 0 = b.
Proof.
  intros J H. pose proof k_pos. rewrite xtotal_lsb, <- Z.bit0_odd. apply shA_wrap in H; [|lia].
  rewrite <- (Z.b2z_bit0 b), <- H, tb_wrap by lia. destruct (Z.ltb_spec 0 k); [reflexivity|lia].
Qed.
Lemma rb_open_bits wd m RB X x j b : Z.of_nat m <= wd -> (j < m)%nat -> shB k n X x -> shA k n (RB j) (Z.b2z b) ->
  Z.testbit (rb_open n wd m RB X) (Z.of_nat j) = xorb (Z.testbit x (Z.of_nat j)) b.
Proof.
  intros L J [WX [Wx EX]] HB. unfold rb_open. rewrite allreduce0_xor.
  transitivity (Z.testbit (xtotal n (fun i => Z.lxor (X i) (rb_mask wd m RB i))) (Z.of_nat j)).
  { apply xtotal_bit_ext. intros p P. rewrite tb_wrap by lia. destruct (Z.ltb_spec (Z.of_nat j) wd); [reflexivity|lia]. }
  rewrite xtotal_xor, Z.lxor_spec, EX. f_equal. rewrite <- (rb_lsb RB m j b J HB).
  apply xtotal_bit_ext. intros p P. rewrite rb_mask_bits, ofbits_tb by exact L. destruct (Nat.ltb_spec j m); [reflexivity|lia].
Qed.
Lemma rb_c_bit wd c j : 0 <= k -> rb_c k wd c j = Z.b2z (Z.testbit c (Z.of_nat j)).
Proof.
  intros _. pose proof k_pos. unfold rb_c, rand_, rshr. change 1 with (Z.ones 1) at 1. rewrite Z.land_ones by lia. change (2 ^ 1) with 2.
  rewrite <- Z.bit0_mod, tb_wrap, Z.div_pow2_bits by lia. destruct (Z.ltb_spec 0 k); [|lia]. cbn [andb]. reflexivity.
Qed.
Lemma rb_bit_ok RB X x wd m j b : Z.of_nat m <= wd -> (j < m)%nat -> shB k n X x -> shA k n (RB j) (Z.b2z b) ->
  shA k n (fun i => rb_bit k i (rb_c k wd (rb_open n wd m RB X) j) (RB j i)) (Z.b2z (Z.testbit x (Z.of_nat j))).
Proof.
  intros L J HX HB. pose proof k_pos as KP. rewrite rb_c_bit, (rb_open_bits wd m RB X x j b L J HX HB) by lia.
  set (xb := Z.testbit x (Z.of_nat j)). apply shA_of; [lia| | |].
  - intros i I. unfold rb_bit. destruct (_ =? _)%nat; [apply radd_word; lia|apply rmul_word; lia].
  - split; [destruct xb; cbn; lia|]. assert (2 ^ 1 <= 2 ^ k) by (apply Z.pow_le_mono_r; lia). destruct xb; cbn [Z.b2z]; lia.
  - set (c := Z.b2z (xorb xb b)).
    transitivity (total n (fun i => (1 - c * 2) * RB j i + (if (i =? 0)%nat then c else 0))).
    + apply total_eqm. intros i I. unfold rb_bit. destruct (_ =? _)%nat.
      * rewrite eqm_radd, eqm_rmul, eqm_rsub, eqm_rmul. apply eqm_eq. lia.
      * rewrite eqm_rmul, eqm_rsub, eqm_rmul. apply eqm_eq. lia.
    + rewrite total_add, total_mul_l, total_delta by exact N. rewrite (shA_eqm k n _ _ ltac:(lia) HB).
      apply eqm_eq. unfold c. destruct xb, b; reflexivity.
Qed.
Lemma b2a_randbit_ok RB nb X x : R nb X x -> random_bits k n RB (Z.to_nat nb) ->
  exists A, b2a_randbit k n RB X = Ok A /\ shA k n A x.
Proof.
  intros [E [SX [NB XB]]] HB. pose proof k_pos as KP. unfold b2a_randbit. rewrite E. destruct (Z.ltb_spec k nb); [lia|].
  assert (Wx : word k x) by (destruct SX as [_ [H' _]]; exact H').
  destruct (Z.eqb_spec nb 0) as [-> | NZ].
  - eexists. split; [reflexivity|]. apply shA_of; [lia|intros; apply Party.word_0; lia|exact Wx|]. rewrite total_0. apply eqm_eq. change (2 ^ 0) with 1 in XB. destruct Wx. lia.
  - destruct (backtype_some nb NB) as [v [BV [LV IV]]]. rewrite BV. cbn [rbind]. eexists. split; [reflexivity|]. set (m := Z.to_nat nb) in *.
    apply shA_of; [lia|intros; apply fold_radd_word; lia|exact Wx|].
    transitivity (total n (fun i => total m (fun j => rb_bit k i (rb_c k v (rb_open n v m RB (snd X)) j) (RB j i) * 2 ^ Z.of_nat j))).
    + apply total_eqm. intros i I. rewrite (fold_radd k (fun j => rshl k (Z.of_nat j) (rb_bit k i (rb_c k v (rb_open n v m RB (snd X)) j) (RB j i)))).
      apply total_eqm. intros j J. apply eqm_rshl.
    + rewrite total_swap. rewrite <- (ofbits_word m x) at 1 by (destruct Wx; unfold m; rewrite Z2Nat.id; lia). rewrite ofbits_total.
      apply total_eqm. intros j J. rewrite total_mul_r. destruct (HB j J) as [b Hb].
      now rewrite (shA_eqm k n _ _ ltac:(lia) (rb_bit_ok RB (snd X) x v m j b ltac:(unfold m; lia) J SX Hb)).
Qed.
Lemma b2a_disassemble_ok RB nb X x : 0 < nb -> R nb X x -> random_bits k n RB (Z.to_nat nb) ->
  exists L, b2a_disassemble k n RB X = Ok L /\ length L = Z.to_nat nb /\
    forall j d, (j < Z.to_nat nb)%nat -> shA k n (nth j L d) (Z.b2z (Z.testbit x (Z.of_nat j))).
Proof.
  intros NZ [E [SX [NB XB]]] HB. unfold b2a_disassemble. rewrite E.
  destruct (Z.ltb_spec 0 nb); [|lia]. destruct (Z.leb_spec nb k); [|lia]. cbn [andb].
  destruct (backtype_some nb NB) as [v [BV [LV IV]]]. rewrite BV. cbn [rbind]. eexists. split; [reflexivity|].
  split; [now rewrite map_length, seq_length|]. intros j d J.
  rewrite nth_indep with (d' := (fun j => fun i => rb_bit k i (rb_c k v (rb_open n v (Z.to_nat nb) RB (snd X)) j) (RB j i)) 0%nat) by (now rewrite map_length, seq_length).
  rewrite (map_nth (fun j => fun i => rb_bit k i (rb_c k v (rb_open n v (Z.to_nat nb) RB (snd X)) j) (RB j i))), seq_nth by exact J. cbn [Nat.add].
  destruct (HB j J) as [b Hb]. apply (rb_bit_ok RB (snd X) x v (Z.to_nat nb) j b); auto. lia.
Qed.

(* ---- most significant bit ---- *)
Lemma msb_range x : word k x -> 0 <= rshr (k - 1) x < 2.
Proof.
  intros [A B]. pose proof k_pos. unfold rshr. assert (2 ^ k = 2 * 2 ^ (k - 1)) by (replace k with (1 + (k - 1)) at 1 by lia; rewrite Z.pow_add_r by lia; lia).
  pose proof (pow2_pos (k - 1) ltac:(lia)). split; [apply Z.div_pos; lia|apply Z.div_lt_upper_bound; lia].
Qed.
Lemma msb_a2b_ok t RR X x : n = 2%nat -> (forall i j, (i < n)%nat -> (j < n)%nat -> word k (RR j i)) -> shA k n X x ->
  exists V, msb_a2b k n TA TB TC t RR X = Ok V /\ R 1 V (rshr (k - 1) x).
Proof.
  intros N2 WR [WX EX]. pose proof k_pos as KP. unfold msb_a2b. rewrite (proj2 (Nat.eqb_eq n 2) N2).
  pose proof (own_bshares_ok RR X WR WX (seq 0 n) ltac:(intros j Hj; apply in_seq in Hj; lia)) as F. fold (own_bshares k n RR X) in F.
  replace (map X (seq 0 n)) with [X 0%nat; X 1%nat] in F by (rewrite N2; reflexivity).
  apply Forall2_two in F. destruct F as [m [q [EL [HM HQ]]]]. rewrite EL.
  destruct (carry_a2b_top bshare w ltac:(lia) W7 ops R semi_implements t m q (X 0%nat) (X 1%nat) ltac:(lia) HM HQ) as [V [E HV]].
  fold k in E, HV. rewrite E. cbn [rbind]. eexists. split; [reflexivity|].
  pose proof (ib_xor k ops R semi_implements _ _ _ _ _ _ HM HQ) as H1. rewrite Z.max_id in H1.
  pose proof (ib_rsh k ops R semi_implements _ _ _ (k - 1) ltac:(lia) H1) as H2.
  pose proof (ib_xor k ops R semi_implements _ _ _ _ _ _ H2 HV) as H3.
  replace (Z.max (k - Z.min k (k - 1)) 1) with 1 in H3 by lia.
  replace (rshr (k - 1) x) with (Z.lxor (rshr (k - 1) (Z.lxor (X 0%nat) (X 1%nat))) (carry (X 0%nat) (X 1%nat) (k - 1))); [exact H3|].
  assert (Wx : word k x) by apply EX.
  pose proof (ib_nb k ops R semi_implements _ _ _ H3) as [_ [_ L3]]. pose proof (msb_range x Wx) as L4.
  apply (tb_eq_word 1); [lia|exact L3|exact L4|]. intros i I. replace i with 0 by lia. clear i I.
  rewrite Z.lxor_spec, !tb_rshr, Z.lxor_spec, <- b2z_cyb, Z.b2z_bit0, !Z.add_0_l by lia.
  rewrite (is_mod_unique k _ _ _ ltac:(lia) EX (wrap_is_mod k _ ltac:(lia))), tb_wrap by lia.
  destruct (Z.ltb_spec (k - 1) k); [|lia]. cbn [andb]. rewrite N2. cbn [total]. rewrite Z.add_0_l, add_bits by lia. reflexivity.
Qed.
Lemma msb_s_ok t RR X x : (forall i j, (i < n)%nat -> (j < n)%nat -> word k (RR j i)) -> shA k n X x ->
  exists V, msb_s k n TA TB TC tg t RR X = Ok V /\ R 1 V (rshr (k - 1) x).
Proof.
  intros WR SX. pose proof k_pos. unfold msb_s. destruct (Nat.eqb_spec n 2); [now apply msb_a2b_ok|].
  destruct (a2b_ok RR X x WR SX) as [V [E H1]]. rewrite E. cbn [rbind]. eexists. split; [reflexivity|].
  rewrite Z.max_r by lia. pose proof (ib_rsh k ops R semi_implements _ _ _ (k - 1) ltac:(lia) H1) as H2.
  replace (k - Z.min k (k - 1)) with 1 in H2 by lia. exact H2.
Qed.

(* ---- equality with zero ---- *)
Lemma eqz_loop_ok : forall l fuel t S z, (l < fuel)%nat -> (l <= w)%nat -> R k S z ->
  exists V v, eqz_loop n TA TB TC fuel t (2 ^ Z.of_nat l) S = Ok V /\ R k V v /\
    (Z.testbit v 0 = true <-> forall i, 0 <= i < 2 ^ Z.of_nat l -> Z.testbit z i = true).
Proof.
  pose proof k_pos as KP. induction l as [|l IH]; intros fuel t S z F LW H; (destruct fuel as [|fuel]; [lia|]).
  - exists S, z. split; [reflexivity|]. split; [exact H|]. change (2 ^ Z.of_nat 0) with 1. split; [intros B i I; now replace i with 0 by lia|intros B; apply B; lia].
  - assert (P : 0 < 2 ^ Z.of_nat l) by (apply Z.pow_pos_nonneg; lia).
    assert (D : 2 ^ Z.of_nat (Datatypes.S l) = 2 * 2 ^ Z.of_nat l) by (rewrite Nat2Z.inj_succ, Z.pow_succ_r; lia).
    assert (LK : 2 ^ Z.of_nat (Datatypes.S l) <= k) by (unfold k; apply Z.pow_le_mono_r; lia).
    cbn [eqz_loop]. destruct (Z.eqb_spec (2 ^ Z.of_nat (Datatypes.S l)) 1); [lia|].
    replace (2 ^ Z.of_nat (Datatypes.S l) / 2) with (2 ^ Z.of_nat l) by (rewrite D, Z.mul_comm, Z.div_mul; lia).
    set (h := 2 ^ Z.of_nat l) in *.
    assert (H' : R k (fst S, fun i => rshr h (snd S i)) (rshr h z)).
    { destruct H as [E [[WX [Wz EX]] [NB HB]]]. split; [exact E|]. cbn [snd].
      assert (WR' : forall a, word k a -> word k (rshr h a)) by (intros; apply rshr_word; [lia|lia|assumption]).
      split; [|split; [lia|apply WR'; exact Wz]]. split; [auto|]. split; [auto|].
      rewrite (xtotal_lin (rshr h)); [now rewrite EX|apply Z.div_0_l; apply Z.pow_nonzero; lia|intros; apply rshr_lxor; lia]. }
    destruct (and_share_ok t k k S _ z _ H H') as [V [E HV]]. rewrite E. cbn [rbind]. rewrite Z.min_id in HV.
    destruct (IH fuel (Datatypes.S t) V _ ltac:(lia) ltac:(lia) HV) as [V' [v [E' [HV' B]]]].
    exists V', v. split; [exact E'|]. split; [exact HV'|]. rewrite B. split; intros A i I.
    + destruct (Z.ltb_spec i h).
      * specialize (A i ltac:(lia)). rewrite Z.land_spec in A. now apply andb_prop in A.
      * specialize (A (i - h) ltac:(lia)). rewrite Z.land_spec, tb_rshr in A by lia. apply andb_prop in A. replace (i - h + h) with i in A by lia. apply A.
    + rewrite Z.land_spec, tb_rshr by lia. now rewrite !A by lia.
Qed.
Lemma eqz_ok t pivot RA RB X x r : (pivot < n)%nat -> shA k n RA r -> shB k n RB r -> shA k n X x ->
  exists V, eqz k n TA TB TC t pivot RA RB X = Ok V /\ R k V (if x =? 0 then 1 else 0).
Proof.
  intros P SA [WB [Wr EB]] SX. pose proof k_pos as KP. unfold eqz.
  set (cc := wrap k (r + x)).
  assert (EC : forall i, (i < n)%nat -> allreduce (radd k) n (fun i => radd k (RA i) (X i)) i = cc).
  { intros i I. rewrite allreduce_add by (auto; try apply radd_word; lia). unfold cc. apply eqm_wrap_eq || idtac.
    change (eqm k (total n (fun i => radd k (RA i) (X i))) (r + x)).
    transitivity (total n (fun i => RA i + X i)); [apply total_eqm; intros; apply eqm_radd|].
    rewrite total_add. apply eqm_add; apply shA_eqm; auto; lia. }
  set (rb := fun i => if (i =? pivot)%nat then rnot k (rxor (RB i) (allreduce (radd k) n (fun i => radd k (RA i) (X i)) i)) else RB i).
  assert (Wc : word k cc) by (apply Party.word_wrap; lia).
  assert (Wz : word k (rnot k (Z.lxor r cc))) by (apply rnot_word; lia).
  assert (HR : R k (k, rb) (rnot k (Z.lxor r cc))).
  { split; [reflexivity|]. cbn [snd]. split; [|split; [lia|exact (proj2 Wz)]]. split; [|split; [exact Wz|]].
    - intros i I. unfold rb. destruct (_ =? _)%nat; [apply rnot_word; lia|auto].
    - apply (tb_eq_word k); [lia| |exact Wz|].
      + apply xtotal_word; [lia|]. intros i I. unfold rb. destruct (_ =? _)%nat; [apply rnot_word; lia|auto].
      + intros i I. pose proof (rnot_bits k (Z.lxor r cc) i ltac:(lia) ltac:(apply Party.word_lxor; auto; lia) I) as RN. unfold bit in RN. rewrite RN, Z.lxor_spec, <- EB.
        transitivity (Z.testbit (xtotal n (fun j => Z.lxor (RB j) (if (j =? pivot)%nat then rnot k cc else 0))) i).
        * apply xtotal_bit_ext. intros p Hp. unfold rb. destruct (Nat.eqb_spec p pivot); [|now rewrite Z.lxor_0_r].
          rewrite EC by lia. pose proof (rnot_bits k (rxor (RB p) cc) i ltac:(lia) ltac:(apply Party.word_lxor; auto; lia) I) as R1.
          pose proof (rnot_bits k cc i ltac:(lia) Wc I) as R2. unfold bit in R1, R2. rewrite R1. unfold rxor. rewrite !Z.lxor_spec, R2.
          destruct (Z.testbit (RB p) i), (Z.testbit cc i); reflexivity.
        * rewrite xtotal_xor, xtotal_delta, Z.lxor_spec by exact P. pose proof (rnot_bits k cc i ltac:(lia) Wc I) as R2. unfold bit in R2. rewrite R2.
          destruct (Z.testbit (xtotal n RB) i), (Z.testbit cc i); reflexivity. }
  destruct (eqz_loop_ok w (Z.to_nat k) t (k, rb) _ ltac:(assert (Z.of_nat w < 32 <= k) by lia; lia) ltac:(lia) HR) as [V [v [E [HV B]]]].
  fold k in E, B. rewrite E. cbn [rbind]. eexists. split; [reflexivity|]. split; [reflexivity|]. cbn [snd].
  destruct HV as [_ [[WV [Wv EV]] _]].
  assert (VE : Z.land v 1 = if x =? 0 then 1 else 0).
  { rewrite land1. rewrite <- Z.bit0_mod.
    destruct (Z.eqb_spec x 0) as [X0|X0].
    - rewrite (proj2 B); [reflexivity|]. intros i I.
      pose proof (rnot_bits k (Z.lxor r cc) i ltac:(lia) ltac:(apply Party.word_lxor; auto; lia) I) as RN. unfold bit in RN. rewrite RN.
      unfold cc. rewrite X0, Z.add_0_r, wrap_small by exact Wr. now rewrite Z.lxor_nilpotent, Z.testbit_0_l.
    - destruct (Z.testbit v 0) eqn:TV; [|reflexivity]. exfalso. apply X0.
      assert (RC : r = cc).
      { apply (tb_eq_word k); auto; [lia|]. intros i I. pose proof (proj1 B eq_refl i I) as BI.
        pose proof (rnot_bits k (Z.lxor r cc) i ltac:(lia) ltac:(apply Party.word_lxor; auto; lia) I) as RN. unfold bit in RN. rewrite RN, Z.lxor_spec in BI.
        destruct (Z.testbit r i), (Z.testbit cc i); cbn in BI; congruence. }
      pose proof (shA_word _ _ _ _ SX) as [X1 X2]. unfold cc, wrap in RC. destruct Wr.
      pose proof (Z.div_mod (r + x) (2 ^ k) ltac:(apply Z.pow_nonzero; lia)) as DM. rewrite <- RC in DM.
      assert (x = 2 ^ k * ((r + x) / 2 ^ k)) by lia. assert ((r + x) / 2 ^ k = 0); [|nia]. nia. }
  rewrite <- VE. assert (K2 : 2 <= 2 ^ k) by (change 2 with (2 ^ 1) at 1; apply Z.pow_le_mono_r; lia).
  assert (W1 : word k (Z.land v 1)) by (rewrite VE; destruct (_ =? _); split; lia).
  split; [|split; [lia|exact (proj2 W1)]]. split; [intros i I; apply word_land_l; auto; lia|]. split; [exact W1|].
  unfold rand_. rewrite (xtotal_lin (fun a => Z.land a 1)); [now rewrite EV|reflexivity|].
  intros a b. apply Z.bits_inj'. intros i I. rewrite !Z.lxor_spec, !Z.land_spec, Z.lxor_spec. destruct (Z.testbit a i), (Z.testbit b i), (Z.testbit 1 i); reflexivity.
Qed.
Lemma diff_zero x y : word k x -> word k y -> (wrap k (x - y) =? 0) = (x =? y).
Proof.
  intros [X1 X2] [Y1 Y2]. pose proof k_pos. unfold wrap. destruct (Z.eqb_spec x y) as [-> | NE].
  - now rewrite Z.sub_diag, Z.mod_0_l by (apply Z.pow_nonzero; lia).
  - destruct (Z.eqb_spec ((x - y) mod 2 ^ k) 0) as [Z0|]; [|reflexivity]. exfalso. apply NE.
    apply Z.mod_divide in Z0; [|apply Z.pow_nonzero; lia]. destruct Z0 as [q Q]. assert (q = 0) by nia. lia.
Qed.
Lemma equal_aa_ok t pivot RA RB X Y x y r : (pivot < n)%nat -> shA k n RA r -> shB k n RB r -> shA k n X x -> shA k n Y y ->
  exists V, equal_aa k n TA TB TC t pivot RA RB X Y = Ok V /\ R k V (if x =? y then 1 else 0).
Proof.
  intros P SA SB SX SY. pose proof k_pos as KP.
  assert (SD : shA k n (fun i => rsub k (X i) (Y i)) (wrap k (x - y))).
  { apply shA_of; [lia|intros; apply rsub_word; lia|apply Party.word_wrap; lia|].
    rewrite eqm_wrap by lia. transitivity (total n (fun i => X i - Y i)); [apply total_eqm; intros; apply eqm_rsub|]. rewrite total_sub.
    now rewrite (shA_eqm k n X x ltac:(lia) SX), (shA_eqm k n Y y ltac:(lia) SY). }
  rewrite <- (diff_zero x y (shA_word _ _ _ _ SX) (shA_word _ _ _ _ SY)).
  exact (eqz_ok t pivot RA RB _ _ r P SA SB SD).
Qed.
Lemma equal_ap_ok t pivot RA RB X x p r : (pivot < n)%nat -> shA k n RA r -> shB k n RB r -> shA k n X x -> word k p ->
  exists V, equal_ap k n TA TB TC t pivot RA RB X p = Ok V /\ R k V (if x =? p then 1 else 0).
Proof.
  intros P SA SB SX Wp. pose proof k_pos as KP.
  assert (SD : shA k n (fun i => if (i =? 0)%nat then rsub k (X i) p else X i) (wrap k (x - p))).
  { apply shA_of; [lia| |apply Party.word_wrap; lia|].
    - intros i I. destruct (_ =? _)%nat; [apply rsub_word; lia|now apply SX].
    - rewrite eqm_wrap by lia. transitivity (total n (fun i => X i - (if (i =? 0)%nat then p else 0))).
      + apply total_eqm. intros i I. destruct (_ =? _)%nat; [apply eqm_rsub|now rewrite Z.sub_0_r].
      + rewrite total_sub, total_delta by exact N. now rewrite (shA_eqm k n X x ltac:(lia) SX). }
  rewrite <- (diff_zero x p (shA_word _ _ _ _ SX) Wp).
  exact (eqz_ok t pivot RA RB _ _ r P SA SB SD).
Qed.
End Semi.
