(* Rounding to nearest, ties to even, for the semi2k protocol. *)
From Verif Require Import Base Ring_model Ring_spec Ring_proof Share_spec Party Semi_model Semi_proof Circ_model Circ_proof Conv_model Conv_spec Conv_proof Perm_proof.
From Verif Require Import Disp_model Disp_spec Disp_proof Dispd_proof Disps_model Disps_spec Disps_proof Hlo_model Hlo_spec Hlo_proof.
Open Scope Z_scope.
#[local] Existing Instance strict.

(* ---- partial correctness: whenever the computation succeeds ---- *)
Definition post {X} (m : M X) (Q : X -> Prop) : Prop := forall t r t', m t = Ok (r, t') -> Q r.
Lemma post_bind {X Y} (m : M X) (f : X -> M Y) P Q : post m P -> (forall x, P x -> post (f x) Q) -> post (bind m f) Q.
Proof.
  intros A B t r t' E. unfold bind, rbind in E. destruct (m t) as [[x t1]| |] eqn:E1; try discriminate. now apply (B x (A _ _ _ E1) _ _ _ E).
Qed.
Lemma post_ret {X} (x : X) (Q : X -> Prop) : Q x -> post (ret x) Q.
Proof. intros q t r t' [= <- <-]. exact q. Qed.
Lemma post_any {X} (m : M X) : post m (fun _ => True). Proof. easy. Qed.
Lemma post_bop pr {X} (f : nat -> res X) (c : X -> val pr) (Q : val pr -> Prop) : (forall t x, f t = Ok x -> Q (c x)) -> post (bop pr f c) Q.
Proof.
  intros H. unfold bop. apply (post_bind _ _ (fun x => Q (c x))).
  - intros t r t' E. unfold call, rbind in E. destruct (f t) eqn:E1; try discriminate. injection E as <- <-. now apply (H t).
  - intros x q. now apply post_ret.
Qed.
Lemma wp_post {X} (m : M X) (P Q : X -> Prop) : wp m P -> post m Q -> wp m (fun x => P x /\ Q x).
Proof. intros A B. apply run_wp. intros t. destruct (wp_run _ _ A t) as (r & t' & E & p). exists r, t'. split; [exact E|]. split; [exact p|]. now apply (B t r t'). Qed.

Section Reduce.
Variable k : Z.
Variable n : nat.
Variable pr : proto.
Variable isA : ash pr -> Z -> Prop.
Variable isB : bsh pr -> Z -> Prop.
Notation val := (val pr).
Notation holds := (holds k n pr isA isB).
Variable op : val -> val -> M val.
Variable g : Z -> Z -> Z.
Hypothesis GA : forall a b c, g a (g b c) = g (g a b) c.
Hypothesis GC : forall a b, g a b = g b a.
Hypothesis G0 : forall a, g a 0 = a.
Variable T : val -> Prop.
Hypothesis TS : forall x y, T x -> T y -> same_type pr x y = true.
Hypothesis TA : forall x y a b, T x -> T y -> holds x a -> holds y b -> wp (op x y) (fun r => holds r (g a b) /\ T r).
Definition gsum (l : list Z) : Z := fold_right g 0 l.
Lemma gsum_app l1 l2 : gsum (l1 ++ l2) = g (gsum l1) (gsum l2).
Proof using GA GC G0. induction l1 as [|a l1 IH]; cbn [app gsum fold_right]; [rewrite GC; symmetry; apply G0|]. unfold gsum in *. now rewrite IH, GA. Qed.
Lemma pack_ok l : Forall T l -> packable pr l = true.
Proof using TS.
  intros F. destruct l as [|x r]; [reflexivity|]. cbn. apply forallb_forall. intros y I. inversion F; subst. apply TS; [assumption|].
  rewrite Forall_forall in H2. now apply H2.
Qed.
Lemma mapM_op : forall l1 l2 a1 a2, Forall2 holds l1 a1 -> Forall2 holds l2 a2 -> Forall T l1 -> Forall T l2 -> length l1 = length l2 ->
  wp (mapM (fun '(x, y) => op x y) (combine l1 l2)) (fun r => Forall T r /\ length r = length l1 /\
     exists c, Forall2 holds r c /\ gsum c = g (gsum a1) (gsum a2)).
Proof using TA GA GC G0.
  intros l1 l2 a1 a2 F1. revert l2 a2. induction F1 as [|x a l1 a1 X F1 IH]; intros l2 a2 F2 T1 T2 E.
  - destruct l2; [|discriminate]. inversion F2; subst. apply wp_ret. split; [constructor|]. split; [reflexivity|]. exists []. split; [constructor|].
    cbn. symmetry. apply G0.
  - destruct l2 as [|y l2]; [discriminate|]. inversion F2 as [|? b ? a2' Y F2']; subst. inversion T1; subst. inversion T2; subst.
    cbn [combine mapM]. apply wp_bind. eapply wp_mono; [eapply (TA x y a b); assumption|]. intros r [R TR]. apply wp_bind.
    eapply wp_mono; [eapply (IH l2 a2'); auto|]. intros rs (FT & LE & c & FC & EC). apply wp_ret.
    split; [now constructor|]. split; [cbn; now rewrite LE|]. exists (g a b :: c). split; [now constructor|].
    cbn [gsum fold_right]. unfold gsum in *. rewrite EC. rewrite !GA. f_equal. rewrite <- !GA. f_equal. apply GC.
Qed.
Lemma vreduce_ok : forall fuel xs a, Forall2 holds xs a -> Forall T xs -> xs <> [] -> (length xs <= S fuel)%nat ->
  wp (vreduce pr op fuel xs) (fun r => holds r (gsum a) /\ T r).
Proof using TA TS GA GC G0.
  induction fuel as [|fuel IH]; intros xs a F FT NE L.
  - destruct xs as [|x [|y r]]; [contradiction| |cbn in L; lia]. inversion F as [|? b ? ? X F']; subst. inversion F'; subst. cbn [vreduce].
    apply wp_ret. inversion FT; subst. split; [|assumption]. cbn [gsum fold_right]. now rewrite G0.
  - destruct xs as [|x [|y r]]; [contradiction| |].
    { inversion F as [|? b ? ? X F']; subst. inversion F'; subst. cbn [vreduce].
      apply wp_ret. inversion FT; subst. split; [|assumption]. cbn [gsum fold_right]. now rewrite G0. }
    set (xs := x :: y :: r) in *. assert (LL : (2 <= length xs)%nat) by (cbn; lia).
    change (wp (let half := (length xs / 2)%nat in
          let ls := firstn half xs in
          let rs := firstn half (skipn half xs) in
          if packable pr ls && packable pr rs then
            bind (mapM (fun '(x, y) => op x y) (combine ls rs)) (fun next =>
            vreduce pr op fuel (next ++ (if (length xs mod 2 =? 1)%nat then skipn (length xs - 1) xs else [])))
          else fail) (fun r => holds r (gsum a) /\ T r)).
    clearbody xs. clear x y r. cbv zeta. set (h := (length xs / 2)%nat).
    assert (HD : (length xs = 2 * h + length xs mod 2 /\ length xs mod 2 <= 1 /\ 1 <= h)%nat).
    { pose proof (Nat.div_mod (length xs) 2 ltac:(lia)). pose proof (Nat.mod_upper_bound (length xs) 2 ltac:(lia)). unfold h. split; [lia|]. split; [lia|].
      apply (Nat.div_le_lower_bound (length xs) 2 1); lia. }
    set (tl := if (length xs mod 2 =? 1)%nat then skipn (length xs - 1) xs else []).
    assert (SP : xs = firstn h xs ++ firstn h (skipn h xs) ++ tl).
    { rewrite <- (firstn_skipn h xs) at 1. f_equal. rewrite <- (firstn_skipn h (skipn h xs)) at 1. f_equal. rewrite skipn_skipn'. unfold tl.
      destruct (Nat.eqb_spec (length xs mod 2) 1) as [E|E].
      - f_equal. lia.
      - apply skipn_all2. lia. }
    assert (LT : (length tl <= 1)%nat).
    { unfold tl. destruct (length xs mod 2 =? 1)%nat; [rewrite skipn_length; lia|cbn; lia]. }
    set (ls := firstn h xs) in *. set (rs := firstn h (skipn h xs)) in *.
    assert (LS : length ls = h) by (unfold ls; rewrite firstn_length; lia).
    assert (LR : length rs = h) by (unfold rs; rewrite firstn_length, skipn_length; lia).
    assert (LX : (length xs = h + h + length tl)%nat) by (rewrite SP, !app_length; lia).
    clearbody ls rs tl h. rewrite SP in F, FT. apply F2_app_split in F. destruct F as (a1 & a23 & -> & F1 & F23).
    apply F2_app_split in F23. destruct F23 as (a2 & a3 & -> & F2 & F3).
    apply Forall_app in FT. destruct FT as [T1 T23]. apply Forall_app in T23. destruct T23 as [T2 T3].
    rewrite (pack_ok ls T1), (pack_ok rs T2). cbn [andb]. apply wp_bind. eapply wp_mono; [eapply (mapM_op ls rs a1 a2); auto; lia|].
    intros nx (TN & LN & c & FC & EC). eapply wp_mono; [eapply (IH (nx ++ tl) (c ++ a3))|].
    + now apply Forall2_app.
    + now apply Forall_app.
    + destruct nx; [cbn in LN; lia|discriminate].
    + rewrite app_length. lia.
    + intros r [R TR]. split; [|exact TR]. eapply (holds_eq k n pr isA isB); [exact R|]. rewrite !gsum_app, EC. symmetry. apply GA.
Qed.
End Reduce.

Section Inst.
Variable w : nat.
Hypothesis W5 : (5 <= w)%nat.
Hypothesis W7 : (w <= 7)%nat.
Variable n : nat.
Hypothesis N : (0 < n)%nat.
Notation k := (2 ^ Z.of_nat w).
Variable T : tapes.
Hypothesis G : good_tapes k n T.
Variable others : nat -> Z.
Hypothesis OT : forall t, 0 <= others t <= k.
Notation pr := (semi_proto k n T).
Notation val := (val pr).
Notation sA := (sA w n). Notation sB := (sB w n).
Notation holds := (holds k n pr sA sB).
Let KP := kpos w W5 W7.
Lemma K1 : 1 < k. Proof. lia. Qed.
Notation OKP := (semi_ok w W5 W7 n N T G).
Notation WA := (sA_word w n).
Notation bit_type := (bit_type pr).

Definition wide (x : val) (m : Z) : Prop := match x with VB s => m <= fst s | _ => True end.
Lemma bit_type_ok x a i : holds x a -> (forall s, x <> VA s) -> 0 <= i < k -> wide x (i + 1) ->
  wp (bit_of k pr x i) (fun r => holds r (if Z.testbit a i then 1 else 0) /\ bit_type x r).
Proof.
  intros X NA I0 WD. apply wp_post; [apply (bit_of_ok k K1 n pr sA sB OKP WA others OT x a i X I0)|].
  unfold bit_of. destruct x as [p|o f|s|s].
  - cbn [hal_rshift]. intros t r t' E. cbv [bind ret rbind hal_and commutative const] in E. injection E as <- <-. eexists. reflexivity.
  - cbn [hal_rshift]. intros t r t' E. cbv [bind ret rbind hal_and commutative const v_un] in E. injection E as <- <-. eexists. reflexivity.
  - exfalso. now apply (NA s).
  - cbn [hal_rshift]. unfold rshift_s. cbn [to_b wide] in *.
    apply (post_bind _ _ (fun r : val => exists s' : bsh pr, r = @VB pr s' /\ 1 <= fst s')).
    + apply (post_bind _ _ (fun b => b = s)); [now apply post_ret|]. intros ? ->. apply post_bop. intros t y [= <-]. eexists. split; [reflexivity|].
      cbn [fst]. unfold nb_rshift. lia.
    + intros r (s' & -> & L). unfold hal_and, const. cbn [commutative]. unfold and_sp. cbn [to_b].
      apply (post_bind _ _ (fun b => b = s')); [now apply post_ret|]. intros ? ->. apply post_bop. intros t y [= <-]. cbn [Dispd_proof.bit_type]. eexists. split; [reflexivity|].
      cbn [k_nb semi_proto fst]. unfold pwidth, nb_and.
      assert (E1 : bitwidth (wrap k 1) = 1). { rewrite wrap_small; [reflexivity|]. assert (2 ^ 1 <= 2 ^ k) by (apply Z.pow_le_mono_r; lia). lia. }
      rewrite E1. lia.
Qed.
Lemma post_and_b (b c : bsh pr) : fst b = 1 -> fst c = 1 -> post (hal_and pr others (VB b) (VB c)) (fun r : val => exists s : bsh pr, r = @VB pr s /\ fst s = 1).
Proof using.
  intros B C. unfold hal_and. cbn [commutative]. unfold and_ss. cbn [to_b].
  apply (post_bind _ _ (fun x => x = c)); [now apply post_ret|]. intros ? ->. apply (post_bind _ _ (fun x => x = b)); [now apply post_ret|]. intros ? ->.
  apply post_bop. intros t y E. exists y. split; [reflexivity|]. cbn [k_and_bb semi_proto] in E. unfold and_share, rbind in E.
  destruct (backtype (nb_and (fst c) (fst b))); try discriminate. injection E as <-. cbn [fst]. rewrite B, C. reflexivity.
Qed.
Lemma post_xor_b (b c : bsh pr) : fst b = 1 -> fst c = 1 -> post (hal_xor pr others (VB b) (VB c)) (fun r : val => exists s : bsh pr, r = @VB pr s /\ fst s = 1).
Proof using.
  intros B C. unfold hal_xor. cbn [commutative]. unfold xor_ss. cbn [to_b].
  apply (post_bind _ _ (fun x => x = c)); [now apply post_ret|]. intros ? ->. apply (post_bind _ _ (fun x => x = b)); [now apply post_ret|]. intros ? ->.
  apply post_bop. intros t y E. exists y. split; [reflexivity|]. cbn [k_xor_bb semi_proto] in E. injection E as <-. cbn [fst]. rewrite B, C. reflexivity.
Qed.
Lemma post_or x r1 r2 : (forall s, x <> VA s) -> bit_type x r1 -> bit_type x r2 -> post (hal_or pr others r1 r2) (bit_type x).
Proof using.
  intros NA T1 T2. destruct x as [p|o f|s|s].
  - destruct T1 as [p1 ->], T2 as [p2 ->]. intros t r t' E. cbv [hal_or bind ret rbind hal_and hal_xor commutative] in E. injection E as <- <-. eexists. reflexivity.
  - destruct T1 as [p1 ->], T2 as [p2 ->]. intros t r t' E. unfold hal_or, hal_and, hal_xor in E. cbn [commutative] in E. unfold and_vv, xor_vv in E.
    rewrite Nat.eqb_refl in E. cbv [bind ret rbind v_bin] in E. cbn [commutative] in E. rewrite Nat.eqb_refl in E. cbv [ret v_bin] in E. cbn [commutative] in E. rewrite Nat.eqb_refl in E. injection E as <- <-. eexists. reflexivity.
  - exfalso. now apply (NA s).
  - destruct T1 as (b & -> & B), T2 as (c & -> & C). unfold hal_or.
    eapply post_bind; [apply post_and_b; assumption|]. intros ? (s1 & -> & S1). eapply post_bind; [apply post_xor_b; assumption|]. intros ? (s2 & -> & S2).
    cbn [Dispd_proof.bit_type]. apply post_xor_b; assumption.
Qed.

Lemma lor_gsum (f : nat -> bool) l : gsum Z.lor (map (fun i => if f i then 1 else 0) l) = if existsb f l then 1 else 0.
Proof using. induction l as [|i l IH]; [reflexivity|]. cbn [map existsb]. unfold gsum in *. cbn [fold_right]. rewrite IH. destruct (f i), (existsb f l); reflexivity. Qed.
Lemma mapM_bits x a : holds x a -> (forall s, x <> VA s) -> forall l, Forall (fun i => Z.of_nat i < k /\ wide x (Z.of_nat i + 1)) l ->
  wp (mapM (fun i => bit_of k pr x (Z.of_nat i)) l) (fun r => Forall2 holds r (map (fun i => if Z.testbit a (Z.of_nat i) then 1 else 0) l) /\ Forall (bit_type x) r).
Proof.
  intros X NA. induction l as [|i l IH]; intros F; [apply wp_ret; split; constructor|]. inversion F as [|? ? [H1 H2] F']; subst. cbn [mapM map].
  apply wp_bind. eapply wp_mono; [apply (bit_type_ok x a (Z.of_nat i)); auto; lia|]. cbv beta. intros r [R TR]. apply wp_bind. eapply wp_mono; [now apply IH|]. cbv beta. intros rs [RS TS]. apply wp_ret.
  split; constructor; assumption.
Qed.
Lemma low_bits_zero a m : 0 <= m -> 0 <= a -> existsb (fun i => Z.testbit a (Z.of_nat i)) (seq 0 (Z.to_nat m)) = negb (a mod 2 ^ m =? 0).
Proof using. clear.
  intros M A. destruct (Z.eqb_spec (a mod 2 ^ m) 0) as [E|E]; cbn [negb].
  - apply Bool.not_true_is_false. intros H. apply existsb_exists in H. destruct H as (i & I0 & B). apply in_seq in I0.
    assert (Z.testbit (a mod 2 ^ m) (Z.of_nat i) = true) by (rewrite Z.mod_pow2_bits_low; [exact B|lia]). rewrite E, Z.bits_0 in H. discriminate.
  - apply existsb_exists. set (i := Z.log2 (a mod 2 ^ m)). pose proof (Z.mod_pos_bound a (2 ^ m) ltac:(apply pow2_pos; lia)).
    assert (I1 : i < m). { apply Z.log2_lt_pow2; lia. } pose proof (Z.log2_nonneg (a mod 2 ^ m)) as I2. fold i in I2.
    exists (Z.to_nat i). split; [apply in_seq; lia|]. rewrite Z2Nat.id by lia. rewrite <- (Z.mod_pow2_bits_low a m i) by lia. apply Z.bit_log2. lia.
Qed.

Section Fx.
Variable f : Z.
Hypothesis F : 2 <= f < k.
(* the word above the fraction, one more if the fraction is above a half or a half and that word is odd *)
Definition comp (v : Z) : bool := Z.testbit v (f - 1) && (negb (v mod 2 ^ (f - 1) =? 0) || Z.testbit v f).
Lemma rnte_round v : is_round_even f v (v / 2 ^ f * 2 ^ f + (if comp v then 2 ^ f else 0)).
Proof using F.
  clear - F. pose proof (pow2_pos (f - 1) ltac:(lia)) as P. assert (E : 2 ^ f = 2 * 2 ^ (f - 1)) by (rewrite <- Z.pow_succ_r by lia; f_equal; lia).
  pose proof (Z.div_mod v (2 ^ f) ltac:(lia)) as D. pose proof (Z.mod_pos_bound v (2 ^ f) ltac:(lia)) as B.
  assert (H1 : v mod 2 ^ f = v mod 2 ^ (f - 1) + 2 ^ (f - 1) * (if Z.testbit v (f - 1) then 1 else 0)).
  { rewrite E, (Z.mul_comm 2), Z.rem_mul_r by lia. f_equal. rewrite <- Z.shiftr_div_pow2, Zmod_odd, <- Z.bit0_odd, Z.shiftr_spec by lia. rewrite Z.add_0_l. reflexivity. }
  assert (H2 : Z.testbit v f = Z.odd (v / 2 ^ f)). { rewrite <- Z.shiftr_div_pow2, <- Z.bit0_odd, Z.shiftr_spec by lia. now rewrite Z.add_0_l. }
  pose proof (Z.mod_pos_bound v (2 ^ (f - 1)) P) as B1.
  unfold comp. rewrite H2. set (q := v / 2 ^ f) in *. set (h := 2 ^ (f - 1)) in *. set (r := v mod h) in *.
  assert (EV : Z.odd q = false -> exists c, q = 2 * c). { intros O. exists (q / 2). pose proof (Z.div_mod q 2 ltac:(lia)) as DQ. rewrite Zmod_odd, O in DQ. lia. }
  assert (OD : Z.odd q = true -> exists c, q = 2 * c + 1). { intros O. exists (q / 2). pose proof (Z.div_mod q 2 ltac:(lia)) as DQ. rewrite Zmod_odd, O in DQ. lia. }
  unfold is_round_even. rewrite (Z.pow_add_r 2 f 1) by lia. change (2 ^ 1) with 2. clearbody q r. rewrite H1, E in D. rewrite E in *.
  destruct (Z.testbit v (f - 1)); cbn [andb].
  - destruct (Z.eqb_spec r 0) as [R|R]; cbn [negb orb].
    + destruct (Z.odd q).
      * destruct (OD eq_refl) as [c ->]. split; [exists (2 * c + 1 + 1); ring|]. split.
        -- destruct (Z.le_gt_cases 0 (v - ((2 * c + 1) * (2 * h) + 2 * h))); [rewrite Z.abs_eq by lia|rewrite Z.abs_neq by lia]; lia.
        -- intros _. exists (c + 1). ring.
      * destruct (EV eq_refl) as [c ->]. split; [exists (2 * c); ring|]. split.
        -- destruct (Z.le_gt_cases 0 (v - (2 * c * (2 * h) + 0))); [rewrite Z.abs_eq by lia|rewrite Z.abs_neq by lia]; lia.
        -- intros _. exists c. ring.
    + split; [exists (q + 1); ring|]. rewrite Z.abs_neq by lia. split; lia.
  - split; [exists q; ring|]. rewrite Z.abs_eq by lia. split; lia.
Qed.
(* bits of a word and of its signed value agree below the width *)
Lemma testbit_signed a v i : signed_value k a v -> 0 <= i < k -> Z.testbit v i = Z.testbit a i.
Proof.
  intros [_ [q ->]] I0. rewrite <- (Z.mod_pow2_bits_low (a + q * 2 ^ k) k i) by lia. rewrite Z.mod_add by (apply Z.pow_nonzero; lia).
  apply Z.mod_pow2_bits_low. lia.
Qed.
Lemma mod_signed a v m : signed_value k a v -> 0 <= m <= k -> v mod 2 ^ m = a mod 2 ^ m.
Proof.
  intros [_ [q ->]] M0. replace (2 ^ k) with (2 ^ (k - m) * 2 ^ m) by (rewrite <- Z.pow_add_r by lia; f_equal; ring).
  rewrite Z.mul_assoc. apply Z.mod_add. apply Z.pow_nonzero; lia.
Qed.
Lemma rnte_ok x a v : holds x a -> signed_value k a v -> wide x (f - 1) ->
  exists u, is_round_even f v u /\ wp (round_rnte k pr others f x) (fun r => holds r (wrap k u)).
Proof.
  intros X V WD. exists (v / 2 ^ f * 2 ^ f + (if comp v then 2 ^ f else 0)). split; [apply rnte_round|]. unfold round_rnte.
  apply wp_bind. eapply wp_mono; [apply wp_post; [apply (hal_prefer_b_ok k K1 n pr sA sB OKP WA others OT x a X)|]|].
  { instantiate (1 := fun r : val => wide r (f - 1)). destruct x as [p|o g|s|s]; cbn [hal_prefer_b]; try (apply post_ret; exact WD).
    - unfold hal_xor, const. cbn [commutative]. unfold xor_sp. cbn [to_b]. eapply post_bind.
      + instantiate (1 := fun b : bsh pr => k <= fst b). intros t r t' E. unfold call, rbind in E. cbn [k_a2b semi_proto] in E.
        destruct (a2b k n (tp_ta T t) (tp_tb T t) (tp_tc T t) gate (tp_prss T t) s) as [V0| |] eqn:EA; try discriminate. injection E as <- <-.
        destruct (a2b_ok w W5 W7 n N _ _ _ (gt_and _ _ _ G t) gate (tp_prss T t) s a (gt_prss _ _ _ G t) (proj2 X)) as [V1 [E1 [E2 _]]].
        rewrite EA in E1. injection E1 as <-. rewrite E2. lia.
      + intros b B. apply post_bop. intros t y E. cbv beta in B. injection E as <-. cbn [wide fst]. unfold nb_xor. clear - B F. lia. }
  cbv beta. intros xp [(XP & NA & _) WP].
  assert (F' : 0 <= f < k) by lia.
  destruct (floor_ok k K1 n pr sA sB OKP WA others OT f F' xp a v XP V) as (fl & FL & _ & HF).
  assert (FE : fl = v / 2 ^ f * 2 ^ f).
  { apply (floor_unique k f F' v); [exact FL|]. split; [now exists (v / 2 ^ f)|]. pose proof (pow2_pos f ltac:(lia)). pose proof (Z.div_mod v (2 ^ f) ltac:(lia)).
    pose proof (Z.mod_pos_bound v (2 ^ f) ltac:(lia)). lia. }
  rewrite FE in HF. clear fl FL FE.
  apply wp_bind. eapply wp_mono; [exact HF|]. cbv beta. intros y HY.
  apply wp_bind. eapply wp_mono; [apply (bit_of_ok k K1 n pr sA sB OKP WA others OT xp a f XP); lia|]. cbv beta. intros ba HA.
  apply wp_bind. eapply wp_mono; [apply (bit_of_ok k K1 n pr sA sB OKP WA others OT xp a (f - 1) XP); lia|]. cbv beta. intros bb HB.
  apply wp_bind. eapply wp_mono; [apply (mapM_bits xp a XP NA)|].
  { apply Forall_forall. intros i I0. apply in_seq in I0. split; [lia|]. destruct xp; cbn [wide] in *; auto; lia. }
  cbv beta. intros cs [FC TC]. assert (LC : length cs = Z.to_nat (f - 1)) by (rewrite (F2_length k n pr sA sB _ _ FC), map_length, seq_length; reflexivity).
  apply wp_bind. eapply wp_mono; [apply (vreduce_ok k n pr sA sB (hal_or pr others) Z.lor Z.lor_assoc Z.lor_comm Z.lor_0_r (bit_type xp)) with (a := map (fun i => if Z.testbit a (Z.of_nat i) then 1 else 0) (seq 0 (Z.to_nat (f - 1))))|].
  - intros u1 u2 T1 T2. destruct xp as [p|o g|s|s]; cbn [Dispd_proof.bit_type] in *.
    + destruct T1 as [? ->], T2 as [? ->]. reflexivity.
    + destruct T1 as [? ->], T2 as [? ->]. cbn [same_type]. apply Nat.eqb_refl.
    + exfalso. now apply (NA s).
    + destruct T1 as (b1 & -> & B1), T2 as (b2 & -> & B2). cbn [same_type]. rewrite B1, B2. reflexivity.
  - intros u1 u2 a1 a2 T1 T2 H1 H2. apply wp_post; [apply (hal_or_ok k K1 n pr sA sB OKP WA others OT u1 u2 a1 a2 H1 H2)|]. now apply post_or.
  - exact FC.
  - exact TC.
  - destruct cs; [cbn in LC; lia|discriminate].
  - lia.
  - cbv beta. intros c [HC _]. rewrite (lor_gsum (fun i => Z.testbit a (Z.of_nat i))), low_bits_zero in HC by (try apply XP; lia).
    apply wp_bind. eapply wp_mono; [apply (hal_or_ok k K1 n pr sA sB OKP WA others OT c ba _ _ HC HA)|]. cbv beta. intros ca HCA.
    apply wp_bind. eapply wp_mono; [apply (hal_and_ok k K1 n pr sA sB OKP WA others OT bb ca _ _ HB HCA)|]. cbv beta. intros cm [HM _].
    assert (CM : Z.land (if Z.testbit a (f - 1) then 1 else 0) (Z.lor (if negb (a mod 2 ^ (f - 1) =? 0) then 1 else 0) (if Z.testbit a f then 1 else 0)) = if comp v then 1 else 0).
    { unfold comp. rewrite (testbit_signed a v (f - 1)), (testbit_signed a v f), (mod_signed a v (f - 1)) by (auto; lia).
      destruct (Z.testbit a (f - 1)), (a mod 2 ^ (f - 1) =? 0), (Z.testbit a f); reflexivity. }
    rewrite CM in HM. assert (HS : holds (setnb1 pr cm) (if comp v then 1 else 0)) by (apply (setnb1_ok k n pr sA sB OKP WA others OT); [exact HM|destruct (comp v); lia]).
    apply wp_bind. eapply wp_mono; [eapply (hal_lshift_ok k K1 n pr sA sB OKP WA others OT); [exact HS|lia]|]. cbv beta. intros cf [HCF _].
    eapply wp_mono; [apply (hal_add_ok k K1 n pr sA sB OKP WA y cf _ _ HY HCF)|]. cbv beta. intros z [HZ _].
    eapply (holds_eq k n pr sA sB); [exact HZ|]. match goal with |- wrap k ?x = wrap k ?y => change (eqm k x y) end. rewrite !eqm_wrap. apply eqm_of_eq.
    destruct (comp v); ring.
Qed.
End Fx.
End Inst.
