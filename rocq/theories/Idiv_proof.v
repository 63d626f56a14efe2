(* Integer division is exact in the stated range. *)
From Verif Require Import Enc_model.
From Verif Require Import Base Ring_model Ring_spec Ring_proof Share_spec Semi_model Semi_proof Party Circ_proof Perm_proof.
From Verif Require Import Disp_model Disp_spec Disp_proof Dispd_proof Hlo_model Hlo_spec Hlo_proof Dyn_model Dynu_proof Fxp_model Fxp_spec Fxpn_proof Fxp_proof Idiv_model.
Open Scope list_scope. Open Scope Z_scope.

(* a quotient of u / v off by at most one, truncated, is off by at most one *)
Lemma quot_off u v U z : 0 <= u -> 0 < v -> 0 < U -> Z.abs (v * z - u * U) <= v * U -> - 1 <= Z.quot z U - u / v <= 1.
Proof.
  intros Hu Hv HU B. apply Z.abs_le in B. pose proof (Z.div_mod u v ltac:(lia)) as E. pose proof (Z.mod_pos_bound u v Hv) as M.
  pose proof (Z.div_pos u v Hu Hv) as Q0. set (q := u / v) in *. set (m := u mod v) in *. clearbody q m. subst u.
  assert (L : - U <= z) by (destruct (Z.le_gt_cases (- U) z) as [|G]; [assumption|]; exfalso; assert (v * z < v * - U) by (apply Z.mul_lt_mono_pos_l; lia); nia).
  destruct (Z.le_gt_cases 0 z) as [P|P].
  - rewrite Z.quot_div_nonneg by lia. pose proof (Z.div_mod z U ltac:(lia)) as EZ. pose proof (Z.mod_pos_bound z U HU) as MZ.
    set (a := z / U) in *. set (b := z mod U) in *. clearbody a b. subst z.
    (* v (U a + b) in [ (v q + m) U - v U, (v q + m) U + v U ] *)
    split.
    + destruct (Z.le_gt_cases (-1) (a - q)); [assumption|]. exfalso. assert (a + 1 <= q - 1) by lia.
      assert (U * a + b < U * (q - 1)) by nia. assert (v * (U * a + b) < v * (U * (q - 1))) by (apply Z.mul_lt_mono_pos_l; lia). nia.
    + destruct (Z.le_gt_cases (a - q) 1); [assumption|]. exfalso. assert (q + 2 <= a) by lia.
      assert (U * (q + 2) <= U * a + b) by nia. assert (v * (U * (q + 2)) <= v * (U * a + b)) by (apply Z.mul_le_mono_nonneg_l; lia). nia.
  - destruct (Z.eq_dec z (- U)) as [->|NE].
    { rewrite Z.quot_opp_l, Z.quot_same by lia. assert (q <= 0) by (destruct (Z.le_gt_cases q 0); [assumption|]; exfalso; nia). lia. }
    replace (Z.quot z U) with 0 by (symmetry; rewrite <- (Z.opp_involutive z), Z.quot_opp_l by lia; rewrite Z.quot_small by lia; reflexivity).
    assert (q <= 1); [|lia]. destruct (Z.le_gt_cases q 1); [assumption|]. exfalso. nia.
Qed.
(* the correction *)
Lemma corrected u v a : 0 <= u -> 0 < v -> - 1 <= a - u / v <= 1 -> a + (if u <? v * a + v then 0 else 1) - (if u <? v * a then 1 else 0) = u / v.
Proof.
  intros Hu Hv A. pose proof (Z.div_mod u v ltac:(lia)) as E. pose proof (Z.mod_pos_bound u v Hv) as M. set (q := u / v) in *. set (m := u mod v) in *. clearbody q m.
  assert (a = q - 1 \/ a = q \/ a = q + 1) as [-> | [-> | ->]] by lia; repeat match goal with |- context[?a <? ?b] => destruct (Z.ltb_spec a b) end; try lia; exfalso; nia.
Qed.
Lemma abs_sign v : v * (if v <? 0 then -1 else 1) = Z.abs v.
Proof. destruct (Z.ltb_spec v 0); lia. Qed.
Lemma quot_signs u v : v <> 0 -> Z.abs u / Z.abs v * ((if u <? 0 then -1 else 1) * (if v <? 0 then -1 else 1)) = Z.quot u v.
Proof.
  intros V. rewrite <- (Z.quot_div_nonneg (Z.abs u) (Z.abs v)) by lia. destruct (Z.ltb_spec u 0), (Z.ltb_spec v 0).
  - rewrite (Z.abs_neq u), (Z.abs_neq v), Z.quot_opp_opp by lia. ring.
  - rewrite (Z.abs_neq u), (Z.abs_eq v), Z.quot_opp_l by lia. ring.
  - rewrite (Z.abs_eq u), (Z.abs_neq v), Z.quot_opp_r by lia. ring.
  - rewrite (Z.abs_eq u), (Z.abs_eq v) by lia. ring.
Qed.

Section Proof.
Context {md : Mode} {HS : Shifts}.
Variable w : nat.
Variable k : Z.
Hypothesis KW : k = 2 ^ Z.of_nat w.
Hypothesis K1 : 1 < k.
Variable n : nat.
Variable pr : proto.
Variable isA : ash pr -> Z -> Prop.
Variable isB : bsh pr -> Z -> Prop.
Hypothesis HO : proto_ok k n pr isA isB.
Hypothesis wordA : forall a x, isA a x -> word k x.
Variable others : nat -> Z.
Hypothesis OT : forall t, 0 <= others t <= k.
Variable fk : fxp_kernels pr.
Hypothesis TR : trunc_ok k pr isA (k_trunc_a fk).
Hypothesis BR : bitrev_ok k pr isB (k_bitrev_b fk).
Variable f : Z.
Hypothesis F : 1 <= f <= k - 2.
Hypothesis F31 : f < 31.
Hypothesis U256 : 256 <= 2 ^ f.
Hypothesis KF : 2 * f + 4 <= k.
Variable iters : nat.
Notation N := (num_iters f iters).
Hypothesis NI : (0 < N)%nat.
Hypothesis NB : 16 * (3 * Z.of_nat N + 1) <= 2 ^ f.
Notation val := (val pr).
Notation holds := (holds k n pr isA isB).
Notation hw := (hw k n pr isA isB).
Notation U := (2 ^ f).
Let F' : 0 <= f < k. Proof. clear - F. lia. Qed.
Notation wmul := (w_mul k K1 n pr isA isB HO wordA others OT).
Notation wadd := (w_add k K1 n pr isA isB HO wordA).
Notation wsub := (w_sub k K1 n pr isA isB HO wordA).
Notation sgr := (signed_of_range k).
Let k0 : 0 < k. Proof. clear - K1. lia. Qed.

Lemma w_sign x v : hw x v -> - 2 ^ (k - 1) <= v < 2 ^ (k - 1) -> wp (hal_sign k pr x) (fun r => hw r (if v <? 0 then -1 else 1)).
Proof. intros X V. exact (hal_sign_ok k K1 n pr isA isB HO wordA others OT x _ v X (sgr v k0 V)). Qed.
Lemma w_int2fxp x v : hw x v -> - 2 ^ (k - 1) <= v < 2 ^ (k - 1) -> wp (int2fxp k pr f x) (fun r => hw r (v * U)).
Proof. intros X V. exact (int2fxp_ok k K1 n pr isA isB HO wordA others OT f F' x _ v X (sgr v k0 V)). Qed.
Lemma w_fxp2int x v : hw x v -> - 2 ^ (k - 1) <= v < 2 ^ (k - 1) -> wp (fxp2int k pr f x) (fun r => hw r (Z.quot v U)).
Proof. intros X V. exact (fxp2int_ok k K1 n pr isA isB HO wordA others OT f F' x _ v X (sgr v k0 V) F31). Qed.
Lemma w_less x y u v : hw x u -> hw y v -> - 2 ^ (k - 1) <= u < 2 ^ (k - 1) -> - 2 ^ (k - 1) <= v < 2 ^ (k - 1) -> - 2 ^ (k - 1) <= u - v < 2 ^ (k - 1) ->
  wp (hal_less k pr x y) (fun r => holds r (if u <? v then 1 else 0)).
Proof. intros X Y HU HV D. exact (hal_less_ok k K1 n pr isA isB HO wordA others OT x y _ _ u v X Y (sgr u k0 HU) (sgr v k0 HV) D). Qed.
Lemma w_not x b : holds x b -> 0 <= b <= 1 -> wp (logical_not k pr others x) (fun r => holds r (1 - b)).
Proof. apply (logical_not_ok k K1 n pr isA isB HO wordA others OT). Qed.
Lemma w_of x a : holds x a -> hw x a. Proof. exact (of_holds k n pr isA isB x a). Qed.

(* the approximate quotient: small, and close when the divisor is *)
Definition approx (u v a : Z) : Prop := (v = 0 \/ U <= v -> a = 0) /\ (0 < v < U -> - 1 <= a - u / v <= 1).
Definition acc_ok (u v : Z) : Prop := u * (U + accuracy N * (3 * Z.of_nat N + 4)) + accuracy N * (v + 2) <= accuracy N * (v * U).
Lemma close_off u v z : 0 <= u -> 0 < v -> acc_ok u v -> quotient_close N f (u * U) (v * U) z -> - 1 <= Z.quot z U - u / v <= 1.
Proof using U256.
  clear - U256. intros Hu Hv A C. apply quot_off; [assumption..|lia|]. unfold quotient_close in C. unfold acc_ok in A.
  assert (AC : 0 < accuracy N) by (unfold accuracy; apply Z.pow_pos_nonneg; [lia|]; pose proof (Z.pow_nonneg 2 (Z.of_nat N - 1) ltac:(lia)); lia).
  set (ac := accuracy N) in *. set (c := 3 * Z.of_nat N + 4) in *. clearbody ac. assert (c0 : 0 <= c) by (unfold c; lia). clearbody c. set (UU := 2 ^ f) in *. clearbody UU.
  rewrite (Z.abs_eq (u * UU)), (Z.abs_eq (v * UU)) in C by nia.
  replace (v * UU * z - u * UU * UU) with (UU * (v * z - u * UU)) in C by ring. rewrite Z.abs_mul, (Z.abs_eq UU) in C by lia.
  set (d := Z.abs (v * z - u * UU)) in *. assert (0 <= d) by apply Z.abs_nonneg. clearbody d.
  assert (S : UU * (ac * d) < UU * (ac * (v * UU) + 1)).
  { replace (ac * (UU * d)) with (UU * (ac * d)) in C by ring. eapply Z.le_lt_trans; [exact C|].
    assert (UU * (u * (UU + ac * c) + ac * (v + 2)) <= UU * (ac * (v * UU))) by (apply Z.mul_le_mono_nonneg_l; lia). nia. }
  apply Z.mul_lt_mono_pos_l in S; [|lia]. assert (ac * d <= ac * (v * UU)) by lia. apply Z.mul_le_mono_pos_l in H0; lia.
Qed.

Definition q_of (u v a : Z) : Z := a + (1 - (if u <? v * a + v then 1 else 0)) - (if u <? v * a then 1 else 0).
Lemma quotient_ok x y u v : hw x u -> hw y v -> 0 <= u -> 0 <= v -> v * U < 2 ^ (k - 1) -> u + 2 * v + 1 < 2 ^ (k - 1) -> u < 2 ^ (k - 2) -> v < 2 ^ (k - 3) ->
  (0 < v < U -> acc_ok u v /\ 5 * (U * U) * u + 2 * U <= 2 ^ (k - 1)) ->
  wp (quotient k pr fk others f iters x y) (fun r => exists a, approx u v a /\ hw r (q_of u v a)).
Proof.
  intros X Y Hu Hv VR UR1 UR2 UR3 OV. unfold quotient. assert (PF : 0 < U) by lia. pose proof (pow2_pos (k - 1) ltac:(lia)) as PK.
  assert (VW : - 2 ^ (k - 1) <= v < 2 ^ (k - 1)) by nia. assert (UW : - 2 ^ (k - 1) <= u < 2 ^ (k - 1)) by lia.
  assert (P2 : 2 ^ (2 * f) = U * U) by (rewrite <- !Z.pow_add_r by lia; f_equal; lia).
  apply wp_bind. eapply wp_mono; [eapply w_int2fxp; [exact X|exact UW]|]. cbv beta. intros xf XF.
  apply wp_bind. eapply wp_mono; [eapply w_int2fxp; [exact Y|exact VW]|]. cbv beta. intros yf YF.
  apply wp_bind. eapply wp_mono.
  { eapply (w_divg w k KW K1 n pr isA isB HO wordA others OT fk TR BR f F U256 KF iters xf yf (u * U) (v * U) Unknown Unknown); [discriminate|exact I|exact I|exact NI|exact NB|exact XF|exact YF|nia|].
    rewrite P2, !Z.abs_eq by nia. intros [V0 V1]. assert (VU : 0 < v < U) by nia. destruct (OV VU) as [_ O2]. set (UU := 2 ^ f) in *. set (H2 := 2 ^ (k - 1)) in *. clearbody UU H2.
    clear - O2 VU PF Hu. split; [nia|]. assert (UU * (5 * (UU * UU) * u + 2 * UU) <= UU * (H2 * v)) by (apply Z.mul_le_mono_nonneg_l; nia). nia. }
  cbv beta. intros aq (z & ZQ & ZR & Z0 & ZC). rewrite P2, !Z.abs_eq in * by nia.
  apply wp_bind. eapply wp_mono; [eapply w_fxp2int; [exact ZQ|exact ZR]|]. cbv beta. intros q Q. set (a := Z.quot z U) in *.
  assert (AP : approx u v a).
  { split.
    - intros V0. unfold a. assert (Z.abs z <= 1) by (apply Z0; nia). assert (z = -1 \/ z = 0 \/ z = 1) as [-> | [-> | ->]] by lia; [|reflexivity|apply Z.quot_small; lia].
      change (-1) with (- (1)). rewrite Z.quot_opp_l by lia. rewrite Z.quot_small by lia. reflexivity.
    - intros VU. destruct (OV VU) as [A _]. apply close_off; [lia|lia|exact A|]. apply ZC. nia. }
  clearbody a. clear ZQ ZR Z0 ZC.
  assert (RA : - v <= v * a <= u + v).
  { destruct (Z.le_gt_cases U v) as [L|L]; [destruct AP as [AP _]; rewrite AP by lia; lia|]. destruct (Z.eq_dec v 0) as [->|NZ]; [lia|].
    destruct AP as [_ AP]. specialize (AP ltac:(lia)). pose proof (Z.div_mod u v NZ) as E. pose proof (Z.mod_pos_bound u v ltac:(lia)) as M. pose proof (Z.div_pos u v Hu ltac:(lia)) as QP.
    set (qq := u / v) in *. clearbody qq. nia. }
  assert (H4 : 2 ^ (k - 1) = 4 * 2 ^ (k - 3)) by (change 4 with (2 ^ 2); rewrite <- Z.pow_add_r by lia; f_equal; lia).
  assert (H5 : 2 ^ (k - 2) = 2 * 2 ^ (k - 3)) by (rewrite <- Z.pow_succ_r by lia; f_equal; lia).
  apply wp_bind. eapply wp_mono; [eapply wmul; [exact Y|exact Q]|]. cbv beta. intros ax AX.
  apply wp_bind. eapply wp_mono; [eapply wadd; [exact AX|exact Y]|]. cbv beta. intros nx NX.
  unfold less_equal, greater. apply wp_bind. apply wp_bind. eapply wp_mono; [eapply (w_less x nx u (v * a + v) X NX); lia|]. cbv beta. intros g GG.
  eapply wp_mono; [eapply w_not; [exact GG|destruct (u <? v * a + v); lia]|]. cbv beta. intros v1 V1.
  apply wp_bind. eapply wp_mono; [eapply (w_less x ax u (v * a) X AX); lia|]. cbv beta. intros v2 V2.
  apply wp_bind. eapply wp_mono; [eapply wadd; [exact Q|apply w_of; exact V1]|]. cbv beta. intros q1 Q1.
  eapply wp_mono; [eapply wsub; [exact Q1|apply w_of; exact V2]|]. cbv beta. intros r R. exists a. split; [exact AP|exact R].
Qed.
(* what the quotient is, for every divisor *)
Definition answer (u v : Z) : Z := if (0 <? v) && (v <? U) then u / v else if u <? v then 0 else 1.
Lemma q_answer u v a : 0 <= u -> 0 <= v -> approx u v a -> q_of u v a = answer u v.
Proof using U256.
  clear - U256. intros Hu Hv [A0 A1]. unfold q_of, answer. destruct (Z.ltb_spec 0 v), (Z.ltb_spec v U); cbn [andb].
  - rewrite <- (corrected u v a Hu ltac:(lia) (A1 ltac:(lia))). destruct (u <? v * a + v); lia.
  - rewrite A0 by lia. rewrite Z.mul_0_r. destruct (Z.ltb_spec u (0 + v)), (Z.ltb_spec u 0), (Z.ltb_spec u v); lia.
  - assert (v = 0) as -> by lia. rewrite A0 by lia. rewrite Z.mul_0_r, !Z.add_0_l. destruct (Z.ltb_spec u 0); lia.
  - lia.
Qed.
Definition sgn1 (v : Z) : Z := if v <? 0 then -1 else 1.
Lemma idiv_ok x y u v : hw x u -> hw y v -> Z.abs v * U < 2 ^ (k - 1) -> Z.abs u + 2 * Z.abs v + 1 < 2 ^ (k - 1) -> Z.abs u < 2 ^ (k - 2) -> Z.abs v < 2 ^ (k - 3) ->
  (0 < Z.abs v < U -> acc_ok (Z.abs u) (Z.abs v) /\ 5 * (U * U) * Z.abs u + 2 * U <= 2 ^ (k - 1)) ->
  wp (idiv_secret k pr fk others f iters x y) (fun r => hw r (answer (Z.abs u) (Z.abs v) * (sgn1 u * sgn1 v))).
Proof.
  intros X Y VR UR1 UR2 UR3 OV. unfold idiv_secret. assert (PF : 0 < U) by lia.
  apply wp_bind. eapply wp_mono; [eapply w_sign; [exact X|lia]|]. cbv beta. intros sx SX.
  apply wp_bind. eapply wp_mono; [eapply w_sign; [exact Y|nia]|]. cbv beta. intros sy SY.
  apply wp_bind. eapply wp_mono; [eapply wmul; [exact X|exact SX]|]. cbv beta. rewrite abs_sign. intros ax AX.
  apply wp_bind. eapply wp_mono; [eapply wmul; [exact Y|exact SY]|]. cbv beta. rewrite abs_sign. intros ay AY.
  apply wp_bind. eapply wp_mono; [eapply (quotient_ok ax ay _ _ AX AY); try lia; exact OV|]. cbv beta. intros q (a & A & Q).
  rewrite q_answer in Q by (assumption || lia).
  apply wp_bind. eapply wp_mono; [eapply wmul; [exact SX|exact SY]|]. cbv beta. intros s S.
  eapply wp_mono; [eapply wmul; [exact Q|exact S]|]. cbv beta. intros r R. exact R.
Qed.
Lemma remainder_ok x y u v m z : hw x u -> hw y v -> wp m (fun q => hw q z) -> wp (q <- m ;; p <- hal_mul k pr q y ;; hal_sub k pr x p) (fun r => hw r (u - z * v)).
Proof.
  intros X Y M. apply wp_bind. eapply wp_mono; [exact M|]. intros q Z. apply wp_bind. eapply wp_mono; [eapply wmul; [exact Z|exact Y]|]. cbv beta. intros p P.
  eapply wp_mono; [eapply wsub; [exact X|exact P]|]. trivial.
Qed.

(* ---- fixed-point remainder ---- *)
Lemma trunc_floor z : 0 <= z -> Z.quot z U * U = z / U * U.
Proof using U256. clear - U256. intros Z0. rewrite Z.quot_div_nonneg by lia. reflexivity. Qed.
Lemma floor_of z c : is_floor f z c -> c = z / U * U.
Proof using U256. clear - U256. intros [[q ->] H]. f_equal. apply (Z.div_unique _ _ q (z - q * U)); [left; lia|ring]. Qed.
Lemma ceil_of z c : z < 0 -> is_ceil f z c -> c = Z.quot z U * U.
Proof using U256.
  clear - U256. intros Z0 [[q ->] H]. f_equal. rewrite <- (Z.opp_involutive z), Z.quot_opp_l, Z.quot_div_nonneg by lia.
  rewrite <- (Z.div_unique (- z) U (- q) (- z + q * U)); [ring|left; lia|ring].
Qed.
Lemma f_rem_ok x y m u v (P0 : Z -> Prop) : hw x u -> hw y v -> wp m (fun q => exists z, hw q z /\ P0 z) ->
  (forall z, P0 z -> Z.abs z + U < 2 ^ (k - 1) /\ - 2 ^ (k - 2) <= Z.quot z U * U * v < 2 ^ (k - 2)) ->
  wp (q <- m ;; p <- greater_equal k pr others q (const k pr 0) ;; lo <- f_floor k pr f q ;; hi <- f_ceil k pr f q ;; r <- hal_mux k pr p lo hi ;;
      t <- f_mul k pr fk f r y Unknown ;; hal_sub k pr x t)
    (fun r => exists z d, P0 z /\ hw r (u - Z.quot z U * v + d) /\ Z.abs d <= 1).
Proof.
  intros X Y M RG. assert (PF : 0 < U) by lia. apply wp_bind. eapply wp_mono; [exact M|]. intros q (z & Q & PZ). destruct (RG z PZ) as [ZR TRG]. assert (SV : signed_value k (wrap k z) z) by (apply sgr; lia).
  unfold greater_equal. apply wp_bind. apply wp_bind. eapply wp_mono; [eapply (w_less q (const k pr 0) z 0 Q); [apply (hw_const k K1)|lia..]|]. cbv beta. intros l L.
  eapply wp_mono; [eapply w_not; [exact L|destruct (z <? 0); lia]|]. cbv beta. intros p P.
  destruct (floor_ok k K1 n pr isA isB HO wordA others OT f F' q _ z Q SV) as (cl & CL & RL & WL).
  apply wp_bind. eapply wp_mono; [exact WL|]. cbv beta. intros lo LO.
  destruct (ceil_ok k K1 n pr isA isB HO wordA others OT f F' q _ z Q SV ltac:(lia)) as (ch & CH & RH & WH).
  apply wp_bind. eapply wp_mono; [exact WH|]. cbv beta. intros hi HI.
  apply wp_bind. eapply wp_mono; [eapply (hal_mux_ok k K1 n pr isA isB HO wordA others OT); [exact P|destruct (z <? 0); lia|exact LO|exact HI]|]. cbv beta. intros r R.
  assert (R' : hw r (Z.quot z U * U)).
  { destruct (Z.ltb_spec z 0) as [L0|L0]; cbn in R.
    - rewrite <- (ceil_of z ch L0 CH). exact R.
    - rewrite (trunc_floor z L0), <- (floor_of z cl CL). exact R. }
  apply wp_bind. eapply wp_mono; [eapply (w_fmul w k K1 n pr isA isB HO wordA others OT fk TR f F r y _ _ Unknown R' Y); [exact TRG|exact I]|]. cbv beta.
  intros t (s & S & TN & _). eapply wp_mono; [eapply wsub; [exact X|exact S]|]. cbv beta. intros o O. exists z, (Z.quot z U * v - s). split; [exact PZ|]. split.
  - eapply hw_eq; [exact O|]. ring.
  - unfold tnear in TN. replace (s * U - Z.quot z U * U * v) with (- (Z.quot z U * v - s) * U) in TN by ring.
    rewrite Z.abs_mul, Z.abs_opp, (Z.abs_eq U) in TN by lia. nia.
Qed.
(* the products of an approximate quotient stay in range *)
Lemma close_range a b z : 0 < Z.abs b < 2 ^ (2 * f) -> 5 * U * Z.abs a < 2 ^ (k - 1) -> quotient_close N f a b z -> 2 * Z.abs (b * z) < 2 ^ (k - 1) - 2 ^ (2 * f).
Proof.
  intros B A C. unfold quotient_close in C. assert (P2 : 2 ^ (2 * f) = U * U) by (rewrite <- !Z.pow_add_r by lia; f_equal; lia).
  assert (K4 : 8 * (U * U) <= 2 ^ (k - 1)). { rewrite <- P2. change 8 with (2 ^ 3). rewrite <- Z.pow_add_r by lia. apply Z.pow_le_mono_r; lia. }
  assert (AC : 128 <= accuracy N). { unfold accuracy. change 128 with (2 ^ 7). apply Z.pow_le_mono_r; [lia|]. assert (2 ^ 0 <= 2 ^ (Z.of_nat N - 1)) by (apply Z.pow_le_mono_r; lia). lia. }
  rewrite P2 in *. set (ac := accuracy N) in *. set (c := 3 * Z.of_nat N + 4) in *. assert (CU : 64 * c <= 7 * U) by (unfold c; lia). assert (0 <= c) by (unfold c; lia).
  set (H2 := 2 ^ (k - 1)) in *. set (UU := 2 ^ f) in *. set (a' := Z.abs a) in *. assert (0 <= a') by (unfold a'; lia). set (b' := Z.abs b) in *.
  assert (D : Z.abs (b * z) <= Z.abs (b * z - a * UU) + a' * UU).
  { replace (a' * UU) with (Z.abs (a * UU)) by (unfold a'; rewrite Z.abs_mul, (Z.abs_eq UU) by lia; reflexivity).
    replace (b * z) with ((b * z - a * UU) + a * UU) at 1 by ring. apply Z.abs_triangle. }
  set (e := Z.abs (b * z - a * UU)) in *. set (g := Z.abs (b * z)) in *. clearbody ac c H2 UU a' b' e g. clear - C A B D AC CU K4 U256 H H0.
  assert (E : ac * (128 * e) <= ac * (a' * UU + 128 * (c * a' + UU + 1 + b'))).
  { replace (ac * (128 * e)) with (128 * (ac * e)) by ring. assert (128 * (a' * UU) <= ac * (a' * UU)) by (apply Z.mul_le_mono_nonneg_r; nia). nia. }
  apply Z.mul_le_mono_pos_l in E; [|lia]. assert (64 * (c * a') <= 7 * (UU * a')) by nia. nia.
Qed.
End Proof.
