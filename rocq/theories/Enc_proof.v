From Coq Require Import QArith Qabs Qpower ZifyBool.
From Verif Require Import Base Enc_model Enc_spec.
Open Scope Z_scope.

Lemma tables_inverse p d : getEncodeType p = Ok d -> getDecodeType d = p.
Proof. destruct p; cbn; intros H; inversion H; reflexivity. Qed.

Lemma tables_inverse' d : getEncodeType (getDecodeType d) = Ok d.
Proof. destruct d; reflexivity. Qed.

Lemma int_cast_id_signed b x : 0 < b -> - 2 ^ (b - 1) <= x < 2 ^ (b - 1) -> int_cast b true x = x.
Proof. intros. unfold int_cast. now apply sgn_wrap. Qed.

Lemma int_cast_id_unsigned b x : 0 <= x < 2 ^ b -> int_cast b false x = x.
Proof. intros. unfold int_cast. now apply wrap_small. Qed.

(* the word read back as signed T and cast to b <= k bits only depends on x mod 2^b *)
Lemma int_cast_eqm k b s x y : 0 <= b <= k -> eqm k x y -> int_cast b s x = int_cast b s y.
Proof.
  intros Hb H. apply eqm_exists in H as [q ->]; [|lia].
  assert (E : wrap b (y + q * 2 ^ k) = wrap b y).
  { replace k with ((k - b) + b) by lia. rewrite Z.pow_add_r by lia.
    rewrite Z.mul_assoc. apply eqm_mult. }
  unfold int_cast. now rewrite E.
Qed.

Lemma encode_decode_elt f p d x w :
  getEncodeType p = Ok d -> pt_range p x -> encode_int f p x = Ok w ->
  decode_int f d w = Ok x.
Proof.
  intros Hd Hr He.
  assert (Hf : 0 < fbits f) by (destruct f; cbn; lia).
  unfold encode_int in He. rewrite Hd in He.
  destruct (pt_int p) as [[b s]|] eqn:Hp; [|discriminate].
  destruct (fbits f <? b) eqn:Hlt; [discriminate|].
  injection He as <-.
  set (k := fbits f) in *.
  assert (Hw : eqm k (sgn k (wrap k (int_cast k true x))) x).
  { rewrite eqm_sgn, eqm_wrap. unfold int_cast. rewrite eqm_sgn, eqm_wrap. reflexivity. }
  assert (Hgen : forall bb ss, 0 <= bb <= k -> int_cast bb ss x = x ->
     int_cast bb ss (sgn k (wrap k (int_cast k true x))) = x).
  { intros bb ss Hb Hi. rewrite (int_cast_eqm k bb ss _ x Hb Hw). exact Hi. }
  destruct p; cbn in Hd; try discriminate; injection Hd as <-; cbn in Hp; try discriminate;
    injection Hp as <- <-; unfold decode_int; cbn [getDecodeType pt_int]; f_equal;
    cbn in Hr;
    try (apply Hgen; [lia|]; first [apply int_cast_id_signed; cbn; lia | apply int_cast_id_unsigned; cbn; lia]).
  (* bool *)
  fold k. change (Z.land ?a 1) with (Z.land a (Z.ones 1)).
  rewrite Z.land_ones by lia.
  transitivity (wrap 1 x); [exact (int_cast_eqm k 1 false _ x ltac:(lia) Hw)|].
  destruct Hr; subst; reflexivity.
Qed.

Lemma encode_int_total f p x :
  (exists d, getEncodeType p = Ok d) -> pt_range p x -> pt_width p <= fbits f ->
  exists w, encode_int f p x = Ok w /\ 0 <= w < 2 ^ fbits f.
Proof.
  intros [d Hd] Hr Hw. unfold encode_int. rewrite Hd.
  assert (Hf : 0 <= fbits f) by (destruct f; cbn; lia).
  destruct p; cbn in *; try discriminate; try contradiction;
    match goal with |- context [?a <? ?b] => destruct (Z.ltb_spec a b); [lia|] end;
    eexists; split; try reflexivity; now apply wrap_range.
Qed.

Lemma encode_ints_roundtrip f p d xs :
  In p int_pts -> getEncodeType p = Ok d -> Forall (pt_range p) xs -> pt_width p <= fbits f ->
  exists ws, encode_ints f p xs = Ok ws /\ length ws = length xs /\
             Forall (fun w => 0 <= w < 2 ^ fbits f) ws /\
             decode_ints f d ws = Ok xs.
Proof.
  intros Hin Hd Hr Hw.
  assert (Hgen : exists ws, rmap (encode_int f p) xs = Ok ws /\ length ws = length xs /\
             Forall (fun w => 0 <= w < 2 ^ fbits f) ws /\ decode_ints f d ws = Ok xs).
  { induction Hr as [|x xs Hx Hr IH].
    - exists []. repeat split; constructor.
    - destruct IH as (ws & E & L & F & D).
      destruct (encode_int_total f p x (ex_intro _ d Hd) Hx Hw) as (w & Ew & Rw).
      exists (w :: ws). cbn [rmap]. rewrite Ew; cbn [rbind]. rewrite E; cbn [rbind].
      repeat split; cbn [length]; [lia|now constructor|].
      unfold decode_ints in *. cbn [rmap].
      rewrite (encode_decode_elt f p d x w Hd Hx Ew); cbn [rbind].
      rewrite D. reflexivity. }
  destruct Hgen as (ws & E & R). exists ws. split; [|exact R].
  unfold encode_ints. rewrite Hd.
  destruct (pt_int p) as [[b s]|] eqn:Hp.
  - replace b with (pt_width p) by (destruct p; cbn in *; congruence).
    destruct (Z.ltb_spec (fbits f) (pt_width p)); [lia|exact E].
  - exfalso. destruct p; cbn in *; intuition congruence.
Qed.

Lemma encode_ints_rejects f p xs :
  In p int_pts -> fbits f < pt_width p -> encode_ints f p xs = Err.
Proof.
  intros Hin Hw. unfold encode_ints.
  destruct p; cbn in *; try (exfalso; intuition congruence);
  destruct f; cbn in *; try lia; reflexivity.
Qed.

(* ---- floats ---- *)
Lemma inject_pow2 s : 0 <= s -> (Qpower 2 s == inject_Z (2 ^ s))%Q.
Proof. intros H. rewrite Zpower_Qpower by exact H. reflexivity. Qed.

Lemma two_nz : ~ (2 == 0)%Q. Proof. intro H; discriminate. Qed.

Lemma fval_nonneg m s : 0 <= s -> (fval m s == inject_Z (m * 2 ^ s))%Q.
Proof. intros H. unfold fval. rewrite inject_pow2 by exact H. now rewrite inject_Z_mult. Qed.

Lemma fval_neg m s : s < 0 -> (fval m s * inject_Z (2 ^ (- s)) == inject_Z m)%Q.
Proof.
  intros H. unfold fval. rewrite <- inject_pow2 by lia.
  rewrite <- Qmult_assoc, <- Qpower_plus by apply two_nz.
  replace (s + - s) with 0 by lia. cbn. ring.
Qed.

Lemma inj_pow_pos s : 0 <= s -> (0 < inject_Z (2 ^ s))%Q.
Proof. intros H. change 0%Q with (inject_Z 0). rewrite <- Zlt_Qlt. now apply pow2_pos. Qed.

Lemma scaled_ge_spec m s u : scaled_ge m s u = true <-> (inject_Z u <= fval m s)%Q.
Proof.
  unfold scaled_ge. destruct (Z.leb_spec 0 s) as [H|H].
  - rewrite fval_nonneg by exact H. rewrite <- Zle_Qle. lia.
  - rewrite <- (Qmult_le_r _ _ (inject_Z (2 ^ (- s)))) by (apply inj_pow_pos; lia).
    rewrite fval_neg by exact H. rewrite <- inject_Z_mult, <- Zle_Qle. lia.
Qed.

Lemma scaled_le_spec m s u : scaled_le m s u = true <-> (fval m s <= inject_Z u)%Q.
Proof.
  unfold scaled_le. destruct (Z.leb_spec 0 s) as [H|H].
  - rewrite fval_nonneg by exact H. rewrite <- Zle_Qle. lia.
  - rewrite <- (Qmult_le_r _ _ (inject_Z (2 ^ (- s)))) by (apply inj_pow_pos; lia).
    rewrite fval_neg by exact H. rewrite <- inject_Z_mult, <- Zle_Qle. lia.
Qed.

Lemma scaled_trunc_spec m s :
  let c := scaled_trunc m s in
  (0 <= fval m s -> inject_Z c <= fval m s < inject_Z (c + 1) /\ 0 <= inject_Z c)%Q /\
  (fval m s <= 0 -> inject_Z (c - 1) < fval m s <= inject_Z c /\ inject_Z c <= 0)%Q.
Proof.
  cbn zeta. unfold scaled_trunc. destruct (Z.leb_spec 0 s) as [H|H].
  - rewrite fval_nonneg by exact H. change 0%Q with (inject_Z 0).
    rewrite <- !Zle_Qle, <- !Zlt_Qlt. lia.
  - pose proof (inj_pow_pos (- s) ltac:(lia)) as HP.
    assert (P : 0 < 2 ^ (- s)) by (apply pow2_pos; lia).
    assert (L : forall a, (inject_Z a <= fval m s)%Q <-> a * 2 ^ (- s) <= m).
    { intros a. rewrite <- (Qmult_le_r _ _ _ HP), fval_neg by exact H.
      now rewrite <- inject_Z_mult, <- Zle_Qle. }
    assert (U : forall a, (fval m s <= inject_Z a)%Q <-> m <= a * 2 ^ (- s)).
    { intros a. rewrite <- (Qmult_le_r _ _ _ HP), fval_neg by exact H.
      now rewrite <- inject_Z_mult, <- Zle_Qle. }
    assert (Us : forall a, (fval m s < inject_Z a)%Q <-> m < a * 2 ^ (- s)).
    { intros a. rewrite <- (Qmult_lt_r _ _ _ HP), fval_neg by exact H.
      now rewrite <- inject_Z_mult, <- Zlt_Qlt. }
    assert (Ls : forall a, (inject_Z a < fval m s)%Q <-> a * 2 ^ (- s) < m).
    { intros a. rewrite <- (Qmult_lt_r _ _ _ HP), fval_neg by exact H.
      now rewrite <- inject_Z_mult, <- Zlt_Qlt. }
    set (D := 2 ^ (- s)) in *.
    pose proof (Z.quot_rem m D ltac:(lia)) as QR.
    split; intros Hs.
    + assert (0 <= m) by (apply (L 0) in Hs; lia).
      pose proof (Z.rem_bound_pos m D ltac:(lia) P).
      pose proof (Z.quot_pos m D ltac:(lia) P).
      change 0%Q with (inject_Z 0). rewrite <- Zle_Qle.
      rewrite L, Us. nia.
    + assert (m <= 0) by (apply (U 0) in Hs; lia).
      assert (HR : - D < Z.rem m D <= 0) by (apply Z.rem_bound_neg_pos || (pose proof (Z.rem_bound_pos (- m) D ltac:(lia) P); rewrite Z.rem_opp_l in *; lia)).
      assert (Z.quot m D <= 0).
      { pose proof (Z.quot_pos (- m) D ltac:(lia) P). rewrite Z.quot_opp_l in * by lia. lia. }
      change 0%Q with (inject_Z 0). rewrite <- Zle_Qle.
      rewrite U, Ls. nia.
Qed.

Lemma fval_scale m e f : (fval m e * Qpower 2 f == fval m (e + f))%Q.
Proof. unfold fval. rewrite Qpower_plus by apply two_nz. ring. Qed.

Lemma encode_float_ok k fxp p m e :
  2 < k -> 0 <= fxp <= k - 2 -> finite_in p m e ->
  exists c, encode_float k fxp p (FFin m e) = Ok c /\
    - 2 ^ (k - 2) <= c < 2 ^ (k - 2) /\
    let v := (fval m e * Qpower 2 fxp)%Q in
    ((inject_Z (2 ^ (k - 2)) <= v)%Q -> c = 2 ^ (k - 2) - 1) /\
    ((v <= inject_Z (- 2 ^ (k - 2)))%Q -> c = - 2 ^ (k - 2)) /\
    ((inject_Z (- 2 ^ (k - 2)) < v < inject_Z (2 ^ (k - 2)))%Q ->
       (Qabs (v - inject_Z c) < 1)%Q /\ (Qabs (inject_Z c) <= Qabs v)%Q /\
       (0 <= v * inject_Z c)%Q).
Proof.
  intros Hk Hf Hfin. cbn zeta.
  set (N := 2 ^ (k - 2)).
  assert (HN : 0 < N) by (apply pow2_pos; lia).
  assert (HN2 : 2 ^ (k - 1) = 2 * N).
  { unfold N. replace (k - 1) with (1 + (k - 2)) by lia. rewrite Z.pow_add_r by lia. reflexivity. }
  pose proof (fval_scale m e fxp) as Hv.
  set (s := e + fxp) in *.
  assert (T1 := scaled_trunc_spec m s). cbn zeta in T1.
  set (t := scaled_trunc m s) in *.
  (* infinite thresholds are beyond every finite input *)
  assert (Hinf : femax p <= k - 2 - fxp -> (inject_Z (- N) < fval m s < inject_Z N)%Q).
  { intros Hle. unfold finite_in in Hfin.
    assert (HA : (Qabs (fval m s) < inject_Z N)%Q).
    { rewrite <- Hv, Qabs_Qmult.
      rewrite (Qabs_pos (Qpower 2 fxp)) by (rewrite inject_pow2 by lia; apply Qlt_le_weak, inj_pow_pos; lia).
      apply Qlt_le_trans with (Qpower 2 (femax p) * Qpower 2 fxp)%Q.
      - apply Qmult_lt_r; [rewrite inject_pow2 by lia; apply inj_pow_pos; lia|exact Hfin].
      - rewrite <- Qpower_plus by apply two_nz.
        assert (0 <= femax p) by (destruct p; cbn; lia).
        rewrite inject_pow2 by lia. rewrite <- Zle_Qle. unfold N.
        apply Z.pow_le_mono_r; lia. }
    apply Qabs_Qlt_condition in HA. rewrite <- inject_Z_opp in HA. exact HA. }
  (* effective threshold tests *)
  assert (Hup : forall b, (match flp_upper k fxp p with Some u => scaled_ge m s u | None => false end) = b ->
            if b then (inject_Z (N - 1) <= fval m s)%Q else (fval m s < inject_Z N)%Q).
  { intros b Hb. unfold flp_upper in Hb. fold N in Hb.
    destruct ((k - 2 <=? 53) && (k - 2 <=? fprec p)) eqn:Hc.
    - destruct b.
      + now apply scaled_ge_spec.
      + assert (~ (inject_Z (N - 1) <= fval m s)%Q) by (rewrite <- scaled_ge_spec, Hb; discriminate).
        apply Qlt_trans with (inject_Z (N - 1)); [now apply Qnot_le_lt|].
        rewrite <- Zlt_Qlt; lia.
    - destruct (Z.leb_spec (femax p) (k - 2 - fxp)) as [Hle|Hle].
      + subst b. now apply Hinf.
      + destruct b.
        * apply scaled_ge_spec in Hb. apply Qle_trans with (inject_Z N); [rewrite <- Zle_Qle; lia|exact Hb].
        * apply Qnot_le_lt. rewrite <- scaled_ge_spec, Hb. discriminate. }
  assert (Hlo : forall b, (match flp_lower k fxp p with Some l => scaled_le m s l | None => false end) = b ->
            if b then (fval m s <= inject_Z (- N))%Q else (inject_Z (- N) < fval m s)%Q).
  { intros b Hb. unfold flp_lower in Hb. fold N in Hb.
    destruct (Z.leb_spec (femax p) (k - 2 - fxp)) as [Hle|Hle].
    - subst b. now apply Hinf.
    - destruct b.
      + now apply scaled_le_spec.
      + apply Qnot_le_lt. rewrite <- scaled_le_spec, Hb. discriminate. }
  assert (Htr : (inject_Z (- N) < fval m s < inject_Z N)%Q -> - N <= t < N /\
      ((Qabs (fval m s - inject_Z t) < 1)%Q /\ (Qabs (inject_Z t) <= Qabs (fval m s))%Q /\
       (0 <= fval m s * inject_Z t)%Q)).
  { intros [Hl Hr]. destruct T1 as [Tp Tn].
    destruct (Qlt_le_dec 0 (fval m s)) as [Hpos|Hneg].
    - destruct (Tp (Qlt_le_weak _ _ Hpos)) as [[A B] C].
      assert (t < N) by (rewrite Zlt_Qlt; eapply Qle_lt_trans; eassumption).
      assert (0 <= t) by (rewrite Zle_Qle; exact C).
      rewrite inject_Z_plus in B.
      repeat split; try lia.
      + apply Qabs_Qlt_condition. split.
        * apply Qlt_le_trans with 0%Q; [reflexivity|]. now apply -> Qle_minus_iff.
        * apply Qplus_lt_r with (z := inject_Z t). setoid_replace (inject_Z t + (fval m s - inject_Z t))%Q with (fval m s) by ring. exact B.
      + rewrite !Qabs_pos; auto using Qlt_le_weak.
      + apply Qmult_le_0_compat; auto using Qlt_le_weak.
    - destruct (Tn Hneg) as [[A B] C].
      assert (- N < t + 1) by (rewrite Zlt_Qlt; eapply Qlt_le_trans; [exact Hl|]; eapply Qle_trans; [exact B|]; rewrite <- Zle_Qle; lia).
      assert (t <= 0) by (rewrite Zle_Qle; exact C).
      unfold Z.sub in A. rewrite inject_Z_plus in A.
      repeat split; try lia.
      + apply Qabs_Qlt_condition. split.
        * apply Qplus_lt_r with (z := inject_Z t). setoid_replace (inject_Z t + (fval m s - inject_Z t))%Q with (fval m s) by ring. exact A.
        * apply Qle_lt_trans with 0%Q; [|reflexivity].
          apply Qle_minus_iff. setoid_replace (0 + - (fval m s - inject_Z t))%Q with (inject_Z t + - fval m s)%Q by ring.
          now apply -> Qle_minus_iff.
      + rewrite !Qabs_neg by auto. apply Qopp_le_compat. exact B.
      + setoid_replace (fval m s * inject_Z t)%Q with ((- fval m s) * (- inject_Z t))%Q by ring.
        apply Qmult_le_0_compat; change 0%Q with (- 0)%Q; now apply Qopp_le_compat. }
  unfold encode_float.
  destruct (Z.ltb_spec fxp 0); [lia|]. destruct (Z.leb_spec k fxp); [lia|]. cbn [orb].
  fold s N. setoid_rewrite Hv.
  destruct (match flp_upper k fxp p with Some u => scaled_ge m s u | None => false end) eqn:E1.
  - specialize (Hup true eq_refl). cbn in Hup.
    exists (N - 1). split; [reflexivity|]. split; [lia|]. repeat split.
    + intros Hc. exfalso. assert (N - 1 <= - N); [|lia].
      rewrite Zle_Qle. eapply Qle_trans; eassumption.
    + apply Qabs_Qlt_condition. split.
      * apply Qlt_le_trans with 0%Q; [reflexivity|]. now apply -> Qle_minus_iff.
      * apply Qplus_lt_r with (z := inject_Z (N - 1)).
        setoid_replace (inject_Z (N - 1) + (fval m s - inject_Z (N - 1)))%Q with (fval m s) by ring.
        change 1%Q with (inject_Z 1). rewrite <- inject_Z_plus. replace (N - 1 + 1) with N by lia. apply H1.
    + assert ((0 <= inject_Z (N - 1))%Q) by (change 0%Q with (inject_Z 0); rewrite <- Zle_Qle; lia).
      rewrite !Qabs_pos; auto. eapply Qle_trans; eassumption.
    + assert ((0 <= inject_Z (N - 1))%Q) by (change 0%Q with (inject_Z 0); rewrite <- Zle_Qle; lia).
      apply Qmult_le_0_compat; auto. eapply Qle_trans; eassumption.
  - specialize (Hup false eq_refl). cbn in Hup.
    destruct (match flp_lower k fxp p with Some l => scaled_le m s l | None => false end) eqn:E2.
    + specialize (Hlo true eq_refl). cbn in Hlo.
      exists (- N). split; [reflexivity|]. split; [lia|].
      split; [|split; [reflexivity|]].
      * intros Hc. exfalso. assert (N <= - N); [|lia]. rewrite Zle_Qle. eapply Qle_trans; eassumption.
      * intros [Hc _]. exfalso. apply (Qlt_not_le _ _ Hc Hlo).
    + specialize (Hlo false eq_refl). cbn in Hlo.
      destruct (Htr (conj Hlo Hup)) as [Ht Hs].
      fold t. rewrite HN2.
      destruct (Z.leb_spec (- (2 * N)) t); [|lia]. destruct (Z.ltb_spec t (2 * N)); [|lia].
      exists t. split; [reflexivity|]. split; [lia|].
      split; [intros Hc; exfalso; apply (Qlt_not_le _ _ Hup Hc)|].
      split; [intros Hc; exfalso; apply (Qlt_not_le _ _ Hlo Hc)|]. intros _; exact Hs.
Qed.

Lemma encode_float_special k fxp p :
  0 <= fxp < k ->
  encode_float k fxp p FNan = Ok 0 /\
  encode_float k fxp p FPInf = Ok (2 ^ (k - 2) - 1) /\
  encode_float k fxp p FNInf = Ok (- 2 ^ (k - 2)).
Proof.
  intros H. unfold encode_float. destruct (Z.ltb_spec fxp 0); [lia|].
  destruct (Z.leb_spec k fxp); [lia|]. repeat split; reflexivity.
Qed.

Lemma decode_float_code k fxp c :
  2 < k -> - 2 ^ (k - 2) <= c < 2 ^ (k - 2) ->
  decode_float k fxp (wrap k c) = FFin c (- fxp).
Proof.
  intros Hk Hc. unfold decode_float. rewrite sgn_wrap; [reflexivity|lia|].
  assert (2 ^ (k - 1) = 2 * 2 ^ (k - 2)).
  { replace (k - 1) with (1 + (k - 2)) by lia. rewrite Z.pow_add_r by lia. reflexivity. }
  pose proof (pow2_pos (k - 2) ltac:(lia)). lia.
Qed.

Lemma fval_code c fxp : (fval c (- fxp) == inject_Z c * Qpower 2 (- fxp))%Q.
Proof. reflexivity. Qed.

Lemma pow2Q_pos f : (0 < Qpower 2 f)%Q.
Proof.
  destruct (Z.le_gt_cases 0 f).
  - rewrite inject_pow2 by lia. now apply inj_pow_pos.
  - replace f with (- (- f)) by lia. rewrite Qpower_opp. apply Qinv_lt_0_compat.
    rewrite inject_pow2 by lia. apply inj_pow_pos; lia.
Qed.

Lemma pow2Q_inv f : (Qpower 2 f * Qpower 2 (- f) == 1)%Q.
Proof. rewrite <- Qpower_plus by apply two_nz. replace (f + - f) with 0 by lia. reflexivity. Qed.

Lemma encode_float_decoded k fxp p m e :
  2 < k -> 0 <= fxp <= k - 2 -> finite_in p m e ->
  exists c, encode_float k fxp p (FFin m e) = Ok c /\
    - 2 ^ (k - 2) <= c < 2 ^ (k - 2) /\
    decode_float k fxp (wrap k c) = FFin c (- fxp) /\
    let x := fval m e in let y := fval c (- fxp) in let B := fval 1 (k - 2 - fxp) in
    ((B <= x)%Q -> c = 2 ^ (k - 2) - 1) /\
    ((x <= - B)%Q -> c = - 2 ^ (k - 2)) /\
    ((- B < x < B)%Q ->
       (Qabs (x - y) < fval 1 (- fxp))%Q /\ (Qabs y <= Qabs x)%Q /\ (0 <= x * y)%Q).
Proof.
  intros Hk Hf Hfin.
  destruct (encode_float_ok k fxp p m e Hk Hf Hfin) as (c & E & R & S). cbn zeta in S.
  exists c. split; [exact E|]. split; [exact R|]. split; [now apply decode_float_code|].
  cbn zeta. destruct S as (S1 & S2 & S3).
  pose proof (pow2Q_pos fxp) as P. pose proof (pow2Q_pos (- fxp)) as P'.
  pose proof (pow2Q_inv fxp) as I.
  assert (HB : (fval 1 (k - 2 - fxp) * Qpower 2 fxp == inject_Z (2 ^ (k - 2)))%Q).
  { rewrite fval_scale. replace (k - 2 - fxp + fxp) with (k - 2) by lia.
    rewrite fval_nonneg by lia. now rewrite Z.mul_1_l. }
  set (B := fval 1 (k - 2 - fxp)) in *. set (x := fval m e) in *.
  assert (Hy : (fval c (- fxp) * Qpower 2 fxp == inject_Z c)%Q).
  { unfold fval. rewrite <- Qmult_assoc, (Qmult_comm (Qpower 2 (- fxp))), I. ring. }
  assert (HR : (fval 1 (- fxp) * Qpower 2 fxp == 1)%Q).
  { unfold fval. rewrite <- Qmult_assoc, (Qmult_comm (Qpower 2 (- fxp))), I. reflexivity. }
  set (y := fval c (- fxp)) in *.
  split; [|split].
  - intros H. apply S1. rewrite <- HB. now apply Qmult_le_r.
  - intros H. apply S2. rewrite inject_Z_opp, <- HB.
    setoid_replace (- (B * Qpower 2 fxp))%Q with (- B * Qpower 2 fxp)%Q by ring. now apply Qmult_le_r.
  - intros [H1 H2].
    destruct S3 as (A1 & A2 & A3).
    { split.
      - rewrite inject_Z_opp, <- HB.
        setoid_replace (- (B * Qpower 2 fxp))%Q with (- B * Qpower 2 fxp)%Q by ring. now apply Qmult_lt_r.
      - rewrite <- HB. now apply Qmult_lt_r. }
    rewrite <- Hy in A1, A2, A3. repeat split.
    + apply Qmult_lt_r with (Qpower 2 fxp); [exact P|].
      rewrite <- (Qabs_pos (Qpower 2 fxp)) at 1 by now apply Qlt_le_weak.
      rewrite <- Qabs_Qmult.
      setoid_replace ((x - y) * Qpower 2 fxp)%Q with (x * Qpower 2 fxp - y * Qpower 2 fxp)%Q by ring.
      rewrite HR. exact A1.
    + apply Qmult_le_r with (Qpower 2 fxp); [exact P|].
      rewrite <- (Qabs_pos (Qpower 2 fxp)) by now apply Qlt_le_weak.
      now rewrite <- !Qabs_Qmult.
    + apply Qmult_le_r with (Qpower 2 fxp * Qpower 2 fxp)%Q.
      * rewrite <- (Qmult_0_l (Qpower 2 fxp)). now apply Qmult_lt_r.
      * setoid_replace (0 * (Qpower 2 fxp * Qpower 2 fxp))%Q with 0%Q by ring.
        setoid_replace (x * y * (Qpower 2 fxp * Qpower 2 fxp))%Q with (x * Qpower 2 fxp * (y * Qpower 2 fxp))%Q by ring.
        exact A3.
Qed.
