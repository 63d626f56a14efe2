(* C59: integer division truncates toward zero.  C60: remainder.  Theorems speak of the semi2k protocol with two or more
   parties and of operands of any visibility, not both public. *)
From Verif Require Import Enc_model.
From Verif Require Import Base Ring_model Ring_spec Ring_proof Share_spec Party Semi_model Semi_proof Circ_model Conv_model Conv_spec Conv_props.
From Verif Require Import Disp_model Disp_spec Disp_proof Dispd_proof Disps_model Disps_spec Disps_proof Disp_props Hlo_model Hlo_spec Hlo_proof Dyn_model.
From Verif Require Import Fxp_model Fxp_spec Fxpn_proof Fxp_proof Fxps_model Fxps_spec Fxps_proof Fxp_props Idiv_model Idiv_proof.
Open Scope list_scope. Open Scope Z_scope.
#[local] Existing Instance strict.

Section C59.
Variable w n : nat.
Hypothesis W : (5 <= w <= 7)%nat.   (* FM32, FM64, FM128 *)
Hypothesis N : (2 <= n)%nat.
Notation k := (2 ^ Z.of_nat w).
Variable T : tapes.
Hypothesis G : good_tapes k n T.
Variable TT : trunc_tapes.
Hypothesis GT : good_trunc k n TT.
Variable others : nat -> Z.          (* bit widths of the other elements of public arrays *)
Hypothesis OT : forall t, 0 <= others t <= k.
Variable f : Z.                      (* fraction bits *)
Hypothesis F8 : 8 <= f < 31.
Hypothesis KF : 2 * f + 4 <= k.
Variable iters : nat.                (* Goldschmidt steps *)
Hypothesis I0 : (0 < iters)%nat.
Let steps : nat := if 30 <=? f then Nat.max iters 3 else iters.
Hypothesis B : 16 * (3 * Z.of_nat steps + 1) <= 2 ^ f.
Notation pr := (semi_proto k n T).
Notation fk := (semi_fxp k n T TT).
Notation encodes := (encodes k n T).
Notation results_in := (results_in k n T).
Notation idiv := (idiv k pr fk others f iters).
Notation remainder := (remainder k pr fk others f iters).
Notation f_remainder := (f_remainder k pr fk others f iters).
Let K1 : 1 < k. Proof. destruct (kpos w (proj1 W) (proj2 W)). lia. Qed.
Let N0 : (0 < n)%nat. Proof. lia. Qed.
Let F : 1 <= f <= k - 2. Proof. lia. Qed.
Let OKP := semi_ok w (proj1 W) (proj2 W) n N0 T G.
Let WA := sA_word w n.
Let TR := semi_trunc_ok w (proj1 W) (proj2 W) n N T TT GT.
Let BR := semi_bitrev_ok w (proj1 W) (proj2 W) n N T.
Let RI := results_in_wp w (proj1 W) (proj2 W) n N T.
Let U256 : 256 <= 2 ^ f. Proof. change 256 with (2 ^ 8). apply Z.pow_le_mono_r; lia. Qed.
Let NI : (0 < num_iters f iters)%nat. Proof. unfold num_iters. destruct (30 <=? f); lia. Qed.
Let hw_of x a v : encodes x a -> signed_value k a v -> hw k n pr (sA w n) (sB w n) x v.
Proof. intros [Wa E] [_ [q ->]]. split; [apply Party.word_wrap; lia|]. rewrite eqm_mult, wrap_small by exact Wa. exact E. Qed.
Let core x y a b u v (X : encodes x a) (Y : encodes y b) (U : signed_value k a u) (V : signed_value k b v) :=
  idiv_ok w k eq_refl K1 n pr _ _ OKP WA others OT fk TR BR f F (proj2 F8) U256 KF iters NI B x y u v (hw_of x a u X U) (hw_of y b v Y V).

(* what the approximation needs of dividend u and divisor v: the product with the reciprocal fits the ring, and the error of the
   fixed-point quotient stays below one *)
Definition accurate (u v : Z) : Prop :=
  5 * 2 ^ (2 * f) * Z.abs u + 2 * 2 ^ f <= 2 ^ (k - 1) /\
  Z.abs u * (2 ^ f + accuracy steps * (3 * Z.of_nat steps + 4)) + accuracy steps * (Z.abs v + 2) <= accuracy steps * (Z.abs v * 2 ^ f).
Let P2 : 2 ^ (2 * f) = 2 ^ f * 2 ^ f. Proof. rewrite <- !Z.pow_add_r by lia. f_equal. lia. Qed.
Let K2 : 2 ^ (k - 1) = 2 * 2 ^ (k - 2). Proof. rewrite <- Z.pow_succ_r by lia. f_equal. lia. Qed.
Let K3 : 2 ^ (k - 1) = 4 * 2 ^ (k - 3). Proof. change 4 with (2 ^ 2). rewrite <- Z.pow_add_r by lia. f_equal. lia. Qed.
Let K4 : 8 * (2 ^ f * 2 ^ f) <= 2 ^ (k - 1). Proof. rewrite <- P2. change 8 with (2 ^ 3). rewrite <- Z.pow_add_r by lia. apply Z.pow_le_mono_r; lia. Qed.
Lemma div_wp x y a b u v : encodes x a -> encodes y b -> signed_value k a u -> signed_value k b v -> 0 < Z.abs v < 2 ^ f -> accurate u v ->
  wp (idiv_secret k pr fk others f iters x y) (fun r => hw k n pr (sA w n) (sB w n) r (Z.quot u v)) /\ - 2 ^ (k - 1) <= Z.quot u v < 2 ^ (k - 1) /\ Z.abs u < 2 ^ (k - 1).
Proof.
  intros X Y U V VR [A1 A2]. rewrite P2 in A1. assert (HU : Z.abs u < 2 ^ (k - 2) /\ Z.abs u + 2 * Z.abs v + 1 < 2 ^ (k - 1) /\ Z.abs v * 2 ^ f < 2 ^ (k - 1) /\ Z.abs v < 2 ^ (k - 3)).
  { set (a' := Z.abs u) in *. assert (0 <= a') by (unfold a'; lia). clear - A1 VR U256 K2 K3 K4 H. set (UU := 2 ^ f) in *. set (H1 := 2 ^ (k - 1)) in *. clearbody UU H1 a'. nia. }
  split; [|split].
  - eapply wp_mono; [eapply (core x y a b u v X Y U V); try apply HU; intros _; split; assumption|]. cbv beta. intros r R. eapply hw_eq; [exact R|].
    unfold answer. destruct (Z.ltb_spec 0 (Z.abs v)), (Z.ltb_spec (Z.abs v) (2 ^ f)); try lia. cbn [andb]. unfold sgn1. apply quot_signs. lia.
  - assert (Z.abs (Z.quot u v) <= Z.abs u); [|lia]. rewrite <- Z.quot_abs by lia. apply Z.quot_le_upper_bound; [lia|]. nia.
  - lia.
Qed.
(* the quotient is rounded toward zero, exactly *)
Theorem C59_div x y a b u v m : encodes x a -> encodes y b -> signed_value k a u -> signed_value k b v -> 0 < Z.abs v < 2 ^ f -> accurate u v ->
  idiv x y = Some m -> results_in m (fun z => z = Z.quot u v).
Proof.
  intros X Y U V VR A M. unfold Idiv_model.idiv in M. assert (E : m = idiv_secret k pr fk others f iters x y) by (destruct x, y; congruence). subst m. apply RI.
  destruct (div_wp x y a b u v X Y U V VR A) as (H & R & _). eapply wp_mono; [exact H|]. cbv beta. intros r Q. exists (Z.quot u v). split; [exact Q|]. split; [exact R|reflexivity].
Qed.
(* the default numbers of fraction bits and steps of FM32 and FM64 *)
Theorem C59_div_default x y a b u v m : w = 5%nat /\ f = 8 /\ iters = 2%nat /\ Z.abs u <= 25 * Z.abs v /\ Z.abs u <= 6553 \/
  w = 6%nat /\ f = 18 /\ iters = 2%nat /\ Z.abs u <= 10000 * Z.abs v /\ Z.abs u <= 26843545 ->
  encodes x a -> encodes y b -> signed_value k a u -> signed_value k b v -> 0 < Z.abs v < 2 ^ f ->
  idiv x y = Some m -> results_in m (fun z => z = Z.quot u v).
Proof.
  intros D X Y U V VR. apply (C59_div x y a b u v m X Y U V VR). unfold accurate.
  destruct D as [(-> & -> & E & D1 & D2)|(-> & -> & E & D1 & D2)]; unfold steps; rewrite E; clear - D1 D2 VR; cbn [Z.leb Z.compare Pos.compare Pos.compare_cont];
    [change (accuracy 2) with 16384|change (accuracy 2) with 16384];
    set (u' := Z.abs u) in *; set (v' := Z.abs v) in *; clearbody u' v'; cbn -[Z.mul Z.add] in *; lia.
Qed.
(* a divisor of 2^f or more: the answer is 0, 1 or -1, whatever the quotient *)
Theorem C59_div_large x y a b u v m : encodes x a -> encodes y b -> signed_value k a u -> signed_value k b v -> 2 ^ f <= Z.abs v -> Z.abs v * 2 ^ f < 2 ^ (k - 1) ->
  Z.abs u < 2 ^ (k - 2) -> idiv x y = Some m ->
  results_in m (fun z => z = if Z.abs u <? Z.abs v then 0 else Z.sgn u * Z.sgn v).
Proof.
  intros X Y U V VR VB UB M. unfold Idiv_model.idiv in M. assert (E : m = idiv_secret k pr fk others f iters x y) by (destruct x, y; congruence). subst m. apply RI.
  assert (HV : Z.abs v < 2 ^ (k - 3) /\ Z.abs u + 2 * Z.abs v + 1 < 2 ^ (k - 1)) by (clear - VR VB UB U256 K2 K3; nia). pose proof (pow2_pos (k - 1) ltac:(lia)) as PK.
  eapply wp_mono; [eapply (core x y a b u v X Y U V); try lia|]. cbv beta. intros r R. exists (if Z.abs u <? Z.abs v then 0 else Z.sgn u * Z.sgn v). split; [|split; [|reflexivity]].
  - eapply hw_eq; [exact R|]. unfold answer, sgn1. destruct (Z.ltb_spec 0 (Z.abs v)), (Z.ltb_spec (Z.abs v) (2 ^ f)); try lia. cbn [andb].
    destruct (Z.ltb_spec (Z.abs u) (Z.abs v)), (Z.ltb_spec u 0), (Z.ltb_spec v 0); lia.
  - destruct (Z.ltb_spec (Z.abs u) (Z.abs v)); nia.
Qed.
(* division by zero gives the sign of the dividend *)
Theorem C59_div_zero x y a u m : encodes x a -> encodes y 0 -> signed_value k a u -> Z.abs u < 2 ^ (k - 2) -> idiv x y = Some m ->
  results_in m (fun z => z = if u <? 0 then -1 else 1).
Proof.
  intros X Y U UB M. unfold Idiv_model.idiv in M. assert (E : m = idiv_secret k pr fk others f iters x y) by (destruct x, y; congruence). subst m. apply RI.
  pose proof (pow2_pos (k - 3) ltac:(lia)) as PK. assert (4 <= 2 ^ (k - 1)) by lia. assert (V : signed_value k 0 0) by (split; [lia|now exists 0]).
  eapply wp_mono; [eapply (core x y a 0 u 0 X Y U V); try lia|]. cbv beta. intros r R. exists (if u <? 0 then -1 else 1). split; [|split; [|reflexivity]].
  - eapply hw_eq; [exact R|]. unfold answer, sgn1. destruct (Z.ltb_spec 0 (Z.abs 0)); [lia|]. cbn [andb]. change (0 <? 0) with false. destruct (Z.ltb_spec (Z.abs u) (Z.abs 0)), (Z.ltb_spec u 0); lia.
  - destruct (u <? 0); lia.
Qed.
(* the remainder has the sign of the dividend *)
Theorem C60_remainder x y a b u v m : encodes x a -> encodes y b -> signed_value k a u -> signed_value k b v -> 0 < Z.abs v < 2 ^ f -> accurate u v ->
  remainder x y = Some m -> results_in m (fun z => z = Z.rem u v).
Proof.
  intros X Y U V VR A M. unfold Idiv_model.remainder, Idiv_model.idiv in M.
  assert (E : Some (q <- idiv_secret k pr fk others f iters x y;; p <- hal_mul k pr q y;; hal_sub k pr x p) = Some m) by (destruct x, y; try exact M; discriminate).
  injection E as <-. apply RI. destruct (div_wp x y a b u v X Y U V VR A) as (H & _ & UB).
  eapply wp_mono; [eapply (remainder_ok k K1 n pr _ _ OKP WA others OT x y u v _ (Z.quot u v) (hw_of x a u X U) (hw_of y b v Y V)); exact H|].
  cbv beta. intros r R. exists (Z.rem u v). split; [|split; [|reflexivity]].
  - eapply hw_eq; [exact R|]. rewrite (Z.quot_rem' u v) at 1. ring.
  - assert (Z.abs (Z.rem u v) < Z.abs v) by (apply Z.rem_bound_abs; lia). assert (Z.abs v < 2 ^ (k - 1)); [|lia]. clear - VR U256 K4. nia.
Qed.
(* fixed point: the dividend less a whole multiple of the divisor, the multiple being the whole part of a quotient as close as C58
   says (one unit in the last place off at most) *)
Theorem C60_fxp_remainder_partial x y a b u v m : encodes x a -> encodes y b -> signed_value k a u -> signed_value k b v -> 0 < Z.abs v < 2 ^ (2 * f) ->
  5 * 2 ^ f * Z.abs u < 2 ^ (k - 1) -> (5 * Z.abs u + 2) * 2 ^ (2 * f) <= 2 ^ (k - 1) * Z.abs v -> f_remainder x y = Some m ->
  results_in m (fun r => exists z q, quotient_close steps f u v z /\ is_trunc f z q /\ Z.abs (r - (u - q * v)) <= 1).
Proof.
  intros X Y U V VR O1 O2 M. unfold Idiv_model.f_remainder, f_div in M.
  match type of M with match match x with _ => _ end with _ => _ end = _ => idtac end.
  assert (E : Some (q <- div k pr fk others f iters x y ;; p <- greater_equal k pr others q (const k pr 0) ;; lo <- f_floor k pr f q ;; hi <- f_ceil k pr f q ;; r <- hal_mux k pr p lo hi ;;
      t <- f_mul k pr fk f r y Unknown ;; hal_sub k pr x t) = Some m) by (destruct x, y; try exact M; discriminate).
  injection E as <-. apply RI. assert (PV : 2 ^ (2 * f) <= 2 ^ (k - 1)) by (apply Z.pow_le_mono_r; lia).
  eapply wp_mono; [eapply (f_rem_ok w k K1 n pr _ _ OKP WA others OT fk TR f F (proj2 F8) U256 iters NI x y _ u v (fun z => - 2 ^ (k - 1) <= z < 2 ^ (k - 1) /\ quotient_close (num_iters f iters) f u v z)
    (hw_of x a u X U) (hw_of y b v Y V))|].
  - eapply wp_mono; [eapply (w_divg w k eq_refl K1 n pr _ _ OKP WA others OT fk TR BR f F U256 KF iters x y u v Unknown Unknown ltac:(discriminate) I I NI B (hw_of x a u X U) (hw_of y b v Y V));
      [lia|intros _; rewrite <- P2; split; [exact O1|exact O2]]|].
    cbv beta. intros r (q & Q & RG & _ & C). exists q. split; [exact Q|]. split; [exact RG|]. apply C. exact VR.
  - intros z [ZR C]. pose proof (close_range w k K1 pr _ WA others OT f F U256 KF iters NI B u v z VR O1 C) as CR. destruct (trunc_quot k f ltac:(lia) z) as [[T1 _] _].
    assert (TB : Z.abs (Z.quot z (2 ^ f) * 2 ^ f) <= Z.abs z) by (rewrite Z.abs_mul, (Z.abs_eq (2 ^ f)) by lia; exact T1).
    rewrite Z.abs_mul in CR. assert (VZ : Z.abs (Z.quot z (2 ^ f) * 2 ^ f * v) <= Z.abs v * Z.abs z) by (rewrite Z.abs_mul, Z.mul_comm; apply Z.mul_le_mono_nonneg_l; [lia|exact TB]).
    split; [|rewrite K2 in CR; clear - CR VZ U256 P2; set (t := Z.abs v * Z.abs z) in *; clearbody t; lia].
    assert (Z.abs z <= Z.abs v * Z.abs z) by (clear - VR; nia). set (t := Z.abs v * Z.abs z) in *. clearbody t. clear - CR P2 U256 K4 H. nia.
  - cbv beta. intros r (z & d & [ZR C] & R & D). exists (u - Z.quot z (2 ^ f) * v + d). split; [exact R|]. split.
    + pose proof (close_range w k K1 pr _ WA others OT f F U256 KF iters NI B u v z VR O1 C) as CR. destruct (trunc_quot k f ltac:(lia) z) as [[T1 _] _]. rewrite Z.abs_mul in CR.
      assert (VZ : Z.abs (Z.quot z (2 ^ f) * v) * 2 ^ f <= Z.abs v * Z.abs z)
        by (rewrite Z.abs_mul, (Z.mul_comm _ (Z.abs v)), <- Z.mul_assoc; apply Z.mul_le_mono_nonneg_l; [lia|exact T1]).
      set (t := Z.abs v * Z.abs z) in *. clearbody t. clear - VZ CR O1 U256 D P2 K4.
      set (c := Z.quot z (2 ^ f) * v) in *. clearbody c. assert (A1 : 256 * Z.abs c <= Z.abs c * 2 ^ f) by (rewrite (Z.mul_comm 256); apply Z.mul_le_mono_nonneg_l; lia).
      assert (A2 : 256 * (5 * Z.abs u) <= 2 ^ f * (5 * Z.abs u)) by (apply Z.mul_le_mono_nonneg_r; lia). assert (A3 : 256 * 256 <= 2 ^ f * 2 ^ f) by (apply Z.mul_le_mono_nonneg; lia).
      set (UU := 2 ^ f) in *. set (HH := 2 ^ (k - 1)) in *. clearbody UU HH. replace (5 * UU * Z.abs u) with (UU * (5 * Z.abs u)) in O1 by ring. lia.
    + exists z, (Z.quot z (2 ^ f)). split; [exact C|]. split; [now apply (trunc_quot k f ltac:(lia))|]. replace (_ - _) with d by ring. exact D.
Qed.
End C59.
Print Assumptions C59_div.
Print Assumptions C59_div_default.
Print Assumptions C59_div_large.
Print Assumptions C59_div_zero.
Print Assumptions C60_remainder.
Print Assumptions C60_fxp_remainder_partial.

Lemma ex_signed_of v : - 2 ^ 31 <= v < 2 ^ 31 -> signed_value (2 ^ Z.of_nat 5) (v mod 2 ^ 32) v.
Proof. intros V. split; [exact V|]. exists (v / 2 ^ 32). pose proof (Z.div_mod v (2 ^ 32) ltac:(lia)). cbn -[Z.div Z.modulo] in *. lia. Qed.
(* FM32, 8 fraction bits: -100 / 7 = -14 and -100 rem 7 = -2, from arithmetic shares *)
Example C59_div_ex : exists m, idiv 32 ex_pr ex_fk ex_o 8 2 (ex_sh (-100)) (ex_sh 7) = Some m /\ results_in 32 3 ex_tapes m (fun z => z = -14).
Proof.
  eexists. split; [reflexivity|].
  eapply (C59_div_default 5 3 ltac:(lia) ltac:(lia) ex_tapes ex_tapes_good ex_tt ex_tt_good ex_o ltac:(intros; unfold ex_o; lia) 8 ltac:(lia) ltac:(cbn; lia) 2 ltac:(lia) ltac:(cbn; lia)
    (ex_sh (-100)) (ex_sh 7) _ _ (-100) 7 _ ltac:(left; repeat split; cbn; lia) (ex_sh_ok (-100)) (ex_sh_ok 7)).
  - apply ex_signed_of. lia.
  - apply ex_signed_of. lia.
  - cbn. lia.
  - reflexivity.
Qed.
Example C60_rem_ex : exists m, remainder 32 ex_pr ex_fk ex_o 8 2 (ex_sh (-100)) (ex_sh 7) = Some m /\ results_in 32 3 ex_tapes m (fun z => z = -2).
Proof.
  eexists. split; [reflexivity|].
  eapply (C60_remainder 5 3 ltac:(lia) ltac:(lia) ex_tapes ex_tapes_good ex_tt ex_tt_good ex_o ltac:(intros; unfold ex_o; lia) 8 ltac:(lia) ltac:(cbn; lia) 2 ltac:(lia) ltac:(cbn; lia)
    (ex_sh (-100)) (ex_sh 7) _ _ (-100) 7 _ (ex_sh_ok (-100)) (ex_sh_ok 7)).
  - apply ex_signed_of. lia.
  - apply ex_signed_of. lia.
  - cbn. lia.
  - vm_compute. split; discriminate.
  - reflexivity.
Qed.
(* 7.5 rem 2 = 1.5: the words are 1920, 512 and 384 *)
Example C60_fxp_rem_ex : exists m, f_remainder 32 ex_pr ex_fk ex_o 8 2 (ex_sh 1920) (ex_sh 512) = Some m /\
  results_in 32 3 ex_tapes m (fun r => exists z q, quotient_close 2 8 1920 512 z /\ is_trunc 8 z q /\ Z.abs (r - (1920 - q * 512)) <= 1).
Proof.
  eexists. split; [reflexivity|].
  eapply (C60_fxp_remainder_partial 5 3 ltac:(lia) ltac:(lia) ex_tapes ex_tapes_good ex_tt ex_tt_good ex_o ltac:(intros; unfold ex_o; lia) 8 ltac:(lia) ltac:(cbn; lia) 2 ltac:(lia) ltac:(cbn; lia)
    (ex_sh 1920) (ex_sh 512) _ _ 1920 512 _ (ex_sh_ok 1920) (ex_sh_ok 512)).
  - apply ex_signed_of. lia.
  - apply ex_signed_of. lia.
  - cbn. lia.
  - cbn. lia.
  - vm_compute. discriminate.
  - reflexivity.
Qed.

(* FM64, 18 fraction bits, both operands of a 32-bit integer type and held by one party: 20000000 / 1 is not 20000000 *)
Definition priv64 (v : Z) : val pr64 := VV 2%nat (fun _ => v).
Lemma priv64_ok v : 0 <= v < 2 ^ 64 -> encodes 64 3 ex_tapes (priv64 v) v.
Proof. intros V. split; [exact V|]. split; [lia|]. reflexivity. Qed.
Definition fk64 := semi_fxp 64 3 ex_tapes ex_tt.
Definition run64 (m : M (val pr64)) : option Z := match m 0%nat with Ok (r, _) => Some (sgn 64 (reveal 64 3 ex_tapes 2 r)) | _ => None end.
Theorem C59_div_inexact_refuted : exists u v m z, 0 < u < 2 ^ 31 /\ 0 < v < 2 ^ 31 /\ encodes 64 3 ex_tapes (priv64 u) u /\ encodes 64 3 ex_tapes (priv64 v) v /\
  idiv 64 pr64 fk64 ex_o 18 2 (priv64 u) (priv64 v) = Some m /\ run64 m = Some z /\ z <> Z.quot u v.
Proof.
  exists 20000000, 1. eexists. eexists. split; [lia|]. split; [lia|]. split; [apply priv64_ok; lia|]. split; [apply priv64_ok; lia|]. split; [reflexivity|]. split; [vm_compute; reflexivity|]. discriminate.
Qed.
Print Assumptions C59_div_inexact_refuted.
(* a divisor of 2^18 or more: 2^30 / 2^19 = 2048 is answered with 1 *)
Theorem C59_div_large_refuted : exists u v m, 0 < u < 2 ^ 31 /\ 0 < v < 2 ^ 31 /\ encodes 64 3 ex_tapes (priv64 u) u /\ encodes 64 3 ex_tapes (priv64 v) v /\ Z.quot u v = 2048 /\
  idiv 64 pr64 fk64 ex_o 18 2 (priv64 u) (priv64 v) = Some m /\ run64 m = Some 1.
Proof.
  exists (2 ^ 30), (2 ^ 19). eexists. split; [lia|]. split; [lia|]. split; [apply priv64_ok; lia|]. split; [apply priv64_ok; lia|]. split; [reflexivity|]. split; [reflexivity|]. vm_compute. reflexivity.
Qed.
Print Assumptions C59_div_large_refuted.
(* 31 fraction bits or more (the default of FM128 is 40): the conversion of the quotient to an integer shifts an int too far, so
   no run of the division ends with an answer *)
Theorem C59_div_wide_refuted k pr fk others f iters x y m t r : 31 <= f -> idiv k pr fk others f iters x y = Some m -> m t <> Ok r.
Proof.
  intros F HM. unfold idiv in HM. assert (E : m = idiv_secret k pr fk others f iters x y) by (destruct x, y; congruence). subst m.
  assert (L : forall A B (a : M A) (h : A -> M B), (forall c t' r', h c t' <> Ok r') -> forall t' r', bind a h t' <> Ok r').
  { intros A B a h H t' r'. unfold bind, rbind. destruct (a t') as [[c t1]| |]; [apply H|discriminate..]. }
  assert (L1 : forall A B (a : M A) (h : A -> M B), (forall t' r', a t' <> Ok r') -> forall t' r', bind a h t' <> Ok r').
  { intros A B a h H t' r'. unfold bind, rbind. specialize (H t'). destruct (a t') as [[c t1]| |]; [now destruct (H (c, t1))|discriminate..]. }
  unfold idiv_secret. revert t r. do 4 (apply L; intros ?). apply L1. unfold quotient. do 3 (apply L; intros ?). apply L1.
  unfold fxp2int. destruct (Z.leb_spec 31 f); [discriminate|lia].
Qed.
Print Assumptions C59_div_wide_refuted.
(* fixed point: 6 rem 3 comes out as 3 *)
Theorem C60_fxp_remainder_refuted : exists m, f_remainder 32 ex_pr ex_fk ex_o 8 2 (ex_sh (6 * 2 ^ 8)) (ex_sh (3 * 2 ^ 8)) = Some m /\ ex_signed m = 3 * 2 ^ 8.
Proof. eexists. split; [reflexivity|]. vm_compute. reflexivity. Qed.
Print Assumptions C60_fxp_remainder_refuted.
