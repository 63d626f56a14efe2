(* The semi2k truncation and bit reversal meet the requirements of the fixed-point layer. *)
From Verif Require Import Base Ring_model Ring_spec Ring_proof Share_spec Party Semi_model Semi_proof Trunc_proof.
From Verif Require Import Disp_model Disp_spec Disp_proof Disps_model Disps_spec Disps_proof Fxp_model Fxp_spec Fxp_proof Fxps_model Fxps_spec.
Open Scope Z_scope.
#[local] Existing Instance strict.

Section Inst.
Variable w : nat.
Hypothesis W5 : (5 <= w)%nat.
Hypothesis W7 : (w <= 7)%nat.
Variable n : nat.
Hypothesis N2 : (2 <= n)%nat.
Notation k := (2 ^ Z.of_nat w).
Variable T : tapes.
Variable TT : trunc_tapes.
Hypothesis G : good_trunc k n TT.

Lemma shA_some X : (forall i, (i < n)%nat -> word k (X i)) -> exists y, shA k n X y.
Proof using W5 W7. clear - W5 W7.
  intros H. pose proof (kpos w W5 W7). exists (wrap k (total n X)). apply shA_of; [lia|exact H|apply word_wrap; lia|]. symmetry. apply eqm_wrap.
Qed.
Lemma semi_trunc_ok : trunc_ok k (semi_proto k n T) (sA w n) (semi_trunc k n TT).
Proof using W5 W7 N2 G.
  pose proof (kpos w W5 W7) as KP. intros t a x vx d s SX D V. unfold semi_trunc.
  assert (W := shA_word k n a x SX). assert (SG : sgn k x = vx).
  { destruct V as [RV [q EV]]. rewrite <- (sgn_wrap k vx ltac:(lia) RV). f_equal. rewrite EV, eqm_mult. symmetry. now apply wrap_small. }
  assert (DEC : {- 2 ^ (k - 2) <= vx < 2 ^ (k - 2)} + {~ - 2 ^ (k - 2) <= vx < 2 ^ (k - 2)}).
  { destruct (Z_le_dec (- 2 ^ (k - 2)) vx), (Z_lt_dec vx (2 ^ (k - 2))); first [left; lia|right; lia]. }
  destruct (Nat.ltb_spec 2 n) as [L|L].
  - destruct (gt_pr _ _ _ G t d D) as (r & S1 & S2 & S3). apply outcome_ok. cbv beta. destruct DEC as [R|NR].
    + destruct (truncpr_ok k d n a _ _ _ x r ltac:(lia) ltac:(lia) ltac:(lia) SX S1 S2 S3) as (y & SY & TY); [now rewrite SG|].
      exists y. split; [exact SY|]. intros _ _. exact TY.
    + destruct (shA_some (truncpr_all k d n a (tt_r TT t d) (tt_rc TT t d) (tt_rb TT t d))) as [y SY].
      { intros i I. unfold truncpr_all, truncpr. destruct (_ =? _)%nat; [apply rsub_word|apply radd_word]; lia. }
      exists y. split; [exact SY|]. intros R. contradiction.
  - assert (N2' : n = 2%nat) by lia.
    assert (TF : exists w', trunc_field d = Ok w').
    { unfold trunc_field. destruct (d <=? 32); [eauto|]. destruct (d <=? 64); [eauto|]. destruct (Z.leb_spec d 128); [eauto|lia]. }
    destruct TF as [w' TF]. rewrite TF. cbn [rbind]. apply outcome_ok. cbv beta. destruct DEC as [R|NR].
    + destruct (gt_pr2 _ _ _ G t d w' TF) as (c & [_ [q1 E1]] & [_ [q2 E2]]). unfold sA in *. rewrite N2' in SX |- *.
      destruct (truncpr2_ok k d w' a (tt_va TT t d) (tt_vc TT t d) x ltac:(lia) ltac:(lia) TF SX) as (y & SY & TY); [|now rewrite SG|].
      { transitivity c; [rewrite E1; symmetry; apply eqm_mult|rewrite E2; apply eqm_mult]. }
      exists y. split; [exact SY|]. intros _ _. exact TY.
    + destruct (shA_some (truncpr2_all k d w' (tt_va TT t d) (tt_vc TT t d) a)) as [y SY].
      { intros i I. unfold truncpr2_all, truncpr2. apply radd_word. lia. }
      exists y. split; [exact SY|]. intros R. contradiction.
Qed.
Lemma reversed_lxor s e x x' y y' : reversed s e x y -> reversed s e x' y' -> reversed s e (Z.lxor x x') (Z.lxor y y').
Proof using. clear. intros R R' i I. specialize (R i I). specialize (R' i I). unfold bit in *. rewrite !Z.lxor_spec. now rewrite R, R'. Qed.
Lemma semi_bitrev_ok : bitrev_ok k (semi_proto k n T) (sB w n) (fun _ => semi_bitrev k).
Proof using W5 W7 N2.
  pose proof (kpos w W5 W7) as KP. intros t b x s e [[WX [Wx EX]] [NB L]] SE E.
  assert (BS : forall x, word k x -> ring_bitrev k s e x = Ok (bitrev_share k s e x) /\ word k (bitrev_share k s e x) /\ reversed s e x (bitrev_share k s e x)).
  { intros x0 W0. destruct (ring_bitrev_ok k s e x0 ltac:(lia) SE E W0) as (y & Y & WY & RY). unfold bitrev_share. rewrite Y. auto. }
  assert (RV : forall m, (m <= n)%nat -> reversed s e (xtotal m (snd b)) (xtotal m (fun i => bitrev_share k s e (snd b i))) /\ word k (xtotal m (fun i => bitrev_share k s e (snd b i)))).
  { induction m as [|m IH]; intros M; cbn [xtotal].
    - split; [intros i I; unfold bit; now rewrite !Z.bits_0|]. split; [lia|apply pow2_pos; lia].
    - destruct (IH ltac:(lia)) as [R W]. destruct (BS (snd b m) (WX m ltac:(lia))) as (_ & W' & R'). split; [now apply reversed_lxor|]. apply Party.word_lxor; [lia|exact W|exact W']. }
  destruct (RV n ltac:(lia)) as [R W]. rewrite EX in R. set (y := xtotal n (fun i => bitrev_share k s e (snd b i))) in *.
  unfold semi_bitrev. destruct (Z.leb_spec s e); [|lia]. destruct (Z.leb_spec e k); [|lia]. cbn [andb].
  rewrite (proj1 (BS (snd b 0%nat) (WX 0%nat ltac:(lia)))). cbn [rbind]. apply outcome_ok. exists y.
  split; [|exact R]. split; [|split; [cbn [fst]; lia|]].
  - split; [intros i I; cbn [snd]; apply (BS (snd b i) (WX i I))|]. split; [exact W|reflexivity].
  - cbn [fst]. destruct W as [Y0 _]. destruct (Z.eq_dec y 0) as [->|NZ]; [apply pow2_pos; lia|]. apply Z.log2_lt_pow2; [lia|].
    destruct (Z.lt_ge_cases (Z.log2 y) (Z.max (fst b) e)) as [|GE]; [assumption|exfalso]. pose proof (Z.bit_log2 y ltac:(lia)) as B.
    specialize (R (Z.log2 y) (Z.log2_nonneg y)). unfold bit in R. rewrite B in R. destruct (Z.ltb_spec (Z.log2 y) e); [lia|]. rewrite andb_false_r in R.
    symmetry in R. destruct (Z.eq_dec x 0) as [->|XN]; [now rewrite Z.bits_0 in R|]. rewrite Z.bits_above_log2 in R; [discriminate|apply Wx|].
    apply Z.lt_le_trans with (fst b); [|lia]. apply Z.log2_lt_pow2; [|exact L]. destruct Wx. lia.
Qed.
(* from a weakest precondition to the observable statement *)
Lemma results_in_wp (m : M (val (semi_proto k n T))) P :
  wp m (fun r => exists q, hw k n (semi_proto k n T) (sA w n) (sB w n) r q /\ - 2 ^ (k - 1) <= q < 2 ^ (k - 1) /\ P q) -> results_in k n T m P.
Proof using W5 W7 N2.
  intros H t. pose proof (kpos w W5 W7) as KP. destruct (wp_run _ _ H t) as (r & t' & E & q & HR & RG & PQ). exists r, t', (wrap k q), q. split; [exact E|].
  destruct (results_wp w W5 W7 n ltac:(lia) T (fun _ => Ok (r, t')) (wrap k q)) with (t := t) as (r' & t'' & E' & EN & RV).
  { intros t0. apply outcome_ok. exact HR. }
  injection E' as <- <-. split; [exact EN|]. split; [apply Hlo_proof.signed_of_range; lia|]. split; [exact PQ|exact RV].
Qed.
End Inst.
