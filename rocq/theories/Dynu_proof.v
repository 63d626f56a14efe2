(* Proofs about dynamic update slice. *)
From Verif Require Import Base Ring_model Ring_spec Ring_proof Share_spec Party Semi_model Semi_proof.
From Verif Require Import Perm_proof Disp_model Disp_spec Disp_proof Dispd_proof Hlo_model Hlo_spec Hlo_proof Hloc_proof Dyn_model Dyn_spec Dynw_proof Dyn_proof.
Open Scope Z_scope.

Lemma flat_shift : forall sh cs idx, length cs = length sh -> length idx = length sh -> flat sh (shift cs idx) = (flat sh cs + flat sh idx)%nat.
Proof.
  induction sh as [|D sh IH]; intros [|c cs] [|i idx] L1 L2; try discriminate; [reflexivity|]. cbn. change (zipWith Nat.add cs idx) with (shift cs idx).
  rewrite IH by (cbn in L1, L2; lia). nia.
Qed.
Lemma spots_offset sh sz cs : length sz = length sh -> length cs = length sh ->
  spots sh cs sz = map (fun o => (flat sh cs + Z.to_nat o)%nat) (positions sh (map (fun _ => 0) sh) sz 0).
Proof.
  intros L1 L2. assert (E0 : map (fun _ => 0) sh = map Z.of_nat (repeat O (length sh))) by (clear; induction sh; cbn; congruence).
  rewrite E0. apply nth_ext_error. intros p. destruct (Nat.lt_ge_cases p (numel sz)) as [P|P].
  - destruct (flat_surj sz p P) as (idx & I & <-). rewrite nth_spots by auto. rewrite nth_error_map, nth_positions by (auto; apply repeat_length).
    cbn [option_map]. f_equal. pose proof (F2_len _ _ _ I) as LI. rewrite !flat_shift by (rewrite ?repeat_length; lia).
    assert (Z0 : forall s, flat s (repeat O (length s)) = O) by (clear; induction s as [|d s IH]; cbn; auto). rewrite Z0. lia.
  - rewrite !(proj2 (nth_error_None _ _)); [reflexivity| |].
    + rewrite map_length, len_positions; auto. now rewrite map_length, repeat_length.
    + unfold spots. rewrite map_length, len_positions; auto. now rewrite map_length.
Qed.

Section Proof.
Context {md : Mode} {HS : Shifts}.
Variable k : Z.
Hypothesis K1 : 1 < k.
Variable n : nat.
Variable pr : proto.
Variable isA : ash pr -> Z -> Prop.
Variable isB : bsh pr -> Z -> Prop.
Hypothesis HO : proto_ok k n pr isA isB.
Hypothesis wordA : forall a x, isA a x -> word k x.
Variable others : nat -> Z.
Hypothesis OT : forall t, 0 <= others t <= k.
Notation val := (val pr).
Notation holds := (holds k n pr isA isB).
Notation sized := (sized k). Notation not_private := (not_private pr). Notation secret_start := (secret_start pr).

Lemma logical_not_ok x b : holds x b -> 0 <= b <= 1 -> wp (logical_not k pr others x) (fun r => holds r (1 - b)).
Proof.
  intros X B. pose proof (pow2_half k ltac:(lia)). pose proof (pow2_pos (k - 1) ltac:(lia)).
  assert (S0 : wp (hal_sub k pr (const k pr 1) x) (fun r => holds r (1 - b))).
  { eapply wp_mono; [eapply (hal_sub_ok k K1 n pr _ _ HO wordA); [apply (const1 k K1 n pr isA isB wordA others OT)|exact X]|]. cbv beta. intros r R. rewrite wrap_small in R by lia. exact R. }
  destruct x as [p|o f|sa|sb]; try exact S0. cbn [logical_not].
  eapply wp_mono; [eapply (hal_xor_ok k K1 n pr _ _ HO wordA others OT); [exact X|apply (const1 k K1 n pr isA isB wordA others OT)]|]. cbv beta. intros r [R _].
  replace (1 - b) with (Z.lxor b 1); [exact R|]. assert (b = 0 \/ b = 1) as [-> | ->] by lia; reflexivity.
Qed.
Lemma update_words u p : word k u -> forall xs s, Forall (word k) xs ->
  map (fun '(a, b) => wrap k (a + b)) (combine (map (fun '(x, m) => wrap k (x * m)) (combine xs (map (fun j => 1 - (if (p =? j)%nat then 1 else 0)) (seq s (length xs)))))
    (map (fun j => wrap k (u * (if (p =? j)%nat then 1 else 0))) (seq s (length xs)))) =
  if (s <=? p)%nat && (p <? s + length xs)%nat then put1 xs u (p - s) else xs.
Proof using K1. clear - K1.
  intros U xs. induction xs as [|x xs IH]; intros s F; [cbn [length]; replace ((s <=? p)%nat && (p <? s + 0)%nat) with false; [reflexivity|]; symmetry; apply andb_false_iff; destruct (Nat.leb_spec s p); [right; apply Nat.ltb_ge; lia|now left]|].
  inversion F as [|? ? X F']; subst. cbn [length seq map combine]. rewrite IH by exact F'. assert (Z0 : word k 0) by (split; [lia|apply pow2_pos; lia]).
  destruct (Nat.eqb_spec p s) as [->|NE].
  - rewrite Nat.leb_refl. replace (s <? s + S (length xs))%nat with true by (symmetry; apply Nat.ltb_lt; lia). cbn [andb].
    replace (S s <=? s)%nat with false by (symmetry; apply Nat.leb_gt; lia). cbn [andb]. rewrite Nat.sub_diag. unfold put1. cbn. f_equal.
    rewrite Z.mul_0_r, Z.mul_1_r, (wrap_small k 0 Z0), (wrap_small k u U), Z.add_0_l. now apply wrap_small.
  - rewrite Z.mul_0_r, Z.sub_0_r, Z.mul_1_r, (wrap_small k 0 Z0), (wrap_small k x X), Z.add_0_r, (wrap_small k x X).
    destruct (Nat.leb_spec (S s) p), (Nat.leb_spec s p); try lia; cbn [andb]; [|reflexivity].
    replace (p <? S s + length xs)%nat with (p <? s + S (length xs))%nat by (f_equal; lia). destruct (p <? s + S (length xs))%nat; [|reflexivity].
    replace (p - s)%nat with (S (p - S s)) by lia. reflexivity.
Qed.
Lemma update_linear_ok data xs up u lin p : Forall2 holds data xs -> holds up u -> holds lin (Z.of_nat p) -> (p < length xs)%nat -> Z.of_nat (length xs) <= 2 ^ k ->
  wp (update_linear k pr others data up lin) (fun r => Forall2 holds r (put1 xs u p)).
Proof.
  intros HD HU HL LP B. pose proof (F2_len _ _ _ HD) as LD. unfold update_linear.
  apply wp_bind. eapply wp_mono; [apply (mapM_seq _ (fun r b => holds r b) (fun j => if (p =? j)%nat then 1 else 0))|].
  { intros j LJ. eapply wp_mono; [eapply (hal_equal_ok k K1 n pr _ _ HO wordA others OT); [exact HL|apply (const_ok k K1 n pr isA isB)]|]. cbv beta. intros r R.
    rewrite small_word in R by lia. replace (Z.of_nat p =? Z.of_nat j) with (p =? j)%nat in R; [exact R|].
    destruct (Nat.eqb_spec p j), (Z.eqb_spec (Z.of_nat p) (Z.of_nat j)); try reflexivity; lia. }
  cbv beta. intros mask MK. rewrite LD in MK. apply wp_bind. eapply wp_mono; [apply (mapM_wp _ (fun m b => holds m b /\ 0 <= b <= 1) (fun r b => holds r (1 - b))) with (ws := map (fun j => if (p =? j)%nat then 1 else 0) (seq 0 (length xs)))|].
  { intros m b [M0 BB]. now apply logical_not_ok. }
  { assert (BB : Forall (fun b => 0 <= b <= 1) (map (fun j => if (p =? j)%nat then 1 else 0) (seq 0 (length xs)))) by (apply Forall_map, Forall_forall; intros j _; destruct (p =? j)%nat; lia).
    clear - MK BB. induction MK as [|a b l m H F IH]; [constructor|]. inversion BB; subst. constructor; [now split|auto]. }
  cbv beta. intros rv RV. apply F2_map in RV. rewrite map_map in RV.
  apply wp_bind. eapply wp_mono; [apply (mapM_wp _ (fun p q => holds (fst p) (fst q) /\ holds (snd p) (snd q)) (fun r '(x, m) => holds r (wrap k (x * m))))|].
  { intros [a b] [x m] [HA HB]. eapply wp_mono; [eapply (hal_mul_ok k K1 n pr _ _ HO wordA others OT); eassumption|]. cbv beta. intros r [R _]. exact R. }
  { apply combine_F2; [exact HD|exact RV]. }
  cbv beta. intros keep KP. apply wp_bind. eapply wp_mono; [apply (mapM_wp _ holds (fun r b => holds r (wrap k (u * b))) ) with (ws := map (fun j => if (p =? j)%nat then 1 else 0) (seq 0 (length xs)))|].
  { intros m b HM. eapply wp_mono; [eapply (hal_mul_ok k K1 n pr _ _ HO wordA others OT); eassumption|]. cbv beta. intros r [R _]. exact R. }
  { exact MK. }
  cbv beta. intros put PT. apply F2_map in PT. rewrite map_map in PT.
  set (kw := map (fun '(x, m) => wrap k (x * m)) (combine xs (map (fun j => 1 - (if (p =? j)%nat then 1 else 0)) (seq 0 (length xs))))).
  assert (KP' : Forall2 holds keep kw).
  { unfold kw. clear - KP. revert KP. match goal with |- _ -> Forall2 _ _ (map _ ?c) => generalize c end. intros l H. induction H as [|r [x m] rs l H F IH]; constructor; auto. }
  eapply wp_mono; [apply (mapM_wp _ (fun p q => holds (fst p) (fst q) /\ holds (snd p) (snd q)) (fun r '(x, m) => holds r (wrap k (x + m))))|].
  { intros [a b] [x m] [HA HB]. eapply wp_mono; [eapply (hal_add_ok k K1 n pr _ _ HO wordA); eassumption|]. cbv beta. intros r [R _]. exact R. }
  { apply combine_F2; [exact KP'|exact PT]. }
  cbv beta. intros r R. pose proof (update_words u p (proj1 HU) xs 0 (words' _ _ _ _ _ _ _ HD)) as E. cbn [Nat.leb andb Nat.add] in E.
  rewrite (proj2 (Nat.ltb_lt p (length xs)) LP), Nat.sub_0_r in E. rewrite <- E. unfold kw in R. clear - R. revert R.
  match goal with |- _ -> Forall2 _ _ (map _ ?c) => generalize c end. intros l H. induction H as [|r0 [x m] rs l H F IH]; constructor; auto.
Qed.
Lemma update_loop_ok : forall us uw, Forall2 (fun ul wp0 => holds (fst ul) (fst wp0) /\ holds (snd ul) (Z.of_nat (snd wp0))) us uw -> forall data xs, Forall2 holds data xs ->
  Forall (fun up => (snd up < length xs)%nat) uw -> Z.of_nat (length xs) <= 2 ^ k -> wp (update_loop k pr others data us) (fun r => Forall2 holds r (putw xs uw)).
Proof.
  intros us uw F. induction F as [|[u l] [w p] us uw [H1 H2] F IH]; intros data xs HD B LX; [now apply wp_ret|]. cbn [update_loop putw]. inversion B as [|? ? B0 B']; subst. cbn [fst snd] in *.
  apply wp_bind. eapply wp_mono; [eapply update_linear_ok; eassumption|]. cbv beta. intros d D. apply IH; auto; now rewrite put1_len.
Qed.
Lemma flatten_ok : forall sh cs xs, Forall2 (fun x c => holds x (Z.of_nat c)) xs cs -> length cs = length sh ->
  wp (flatten_starts k pr xs sh) (fun r => holds (fst r) (wrap k (Z.of_nat (flat sh cs))) /\ snd r = Z.of_nat (numel sh)).
Proof.
  induction sh as [|D sh IH]; intros [|c cs] xs F L; try discriminate; inversion F as [|x ? xs' ? HX F']; subst; cbn [flatten_starts].
  - apply wp_ret. split; [apply (const_ok k K1 n pr isA isB)|reflexivity].
  - apply wp_bind. eapply wp_mono; [apply (IH cs xs' F'); cbn in L; lia|]. cbv beta. intros [lin stride] [HL ES]. cbn [fst snd] in *. subst stride.
    apply wp_bind. eapply wp_mono; [eapply (hal_mul_ok k K1 n pr _ _ HO wordA others OT); [exact HX|apply (const_ok k K1 n pr isA isB)]|]. cbv beta. intros p [P _].
    apply wp_bind. eapply wp_mono; [eapply (hal_add_ok k K1 n pr _ _ HO wordA); [exact HL|exact P]|]. cbv beta. intros a [A _]. apply wp_ret. cbn [fst snd]. split.
    + cbn [flat]. match goal with _ : holds a ?u |- holds a ?v => replace v with u; [exact A|] end.
      match goal with |- wrap k ?u = wrap k ?v => change (eqm k u v) end. rewrite !eqm_wrap. apply eqm_of_eq. nia.
    + change (numel (D :: sh)) with (D * numel sh)%nat. nia.
Qed.
Lemma flatten_all_ok sh sz st ws vs : sized sh sz -> Forall2 holds st ws -> Forall2 (signed_value k) ws vs -> length vs = length sh -> Z.of_nat (numel sh) <= 2 ^ k ->
  wp (clamp_and_flatten k pr st sh sz) (fun r => Forall2 (fun x p => holds x (Z.of_nat p)) r (spots sh (clamps sh sz vs) sz)).
Proof.
  intros SZ ST SV L B. pose proof (clamps_fit _ _ _ _ SZ L) as FT. pose proof FT as (_ & L1 & L2). unfold clamp_and_flatten.
  apply wp_bind. eapply wp_mono; [eapply (clamp_all_ok k K1 n pr _ _ HO wordA others OT); eassumption|]. cbv beta. intros cs CS.
  apply wp_bind. eapply wp_mono; [eapply flatten_ok; [exact CS|exact L2]|]. cbv beta. intros [lin stride] [HL _]. cbn [fst snd] in *.
  assert (IB : forall p, In p (spots sh (clamps sh sz vs) sz) -> Z.of_nat p < 2 ^ k).
  { intros p P. apply in_spots in P; auto. destruct P as (idx & I & ->). pose proof (flat_lt _ _ (inside_shift _ _ _ FT _ I)). lia. }
  assert (NN : forall o, In o (positions sh (map (fun _ => 0) sh) sz 0) -> 0 <= o).
  { intros o O1. replace (map (fun _ => 0) sh) with (map Z.of_nat (repeat O (length sh))) in O1 by (clear; induction sh; cbn; congruence).
    apply in_positions in O1; [|exact L1|apply repeat_length]. destruct O1 as (? & _ & ->). lia. }
  rewrite spots_offset in * by auto. revert IB NN. generalize (positions sh (map (fun _ => 0) sh) sz 0). intros os IB NN.
  eapply wp_mono; [apply (mapM_wp _ (fun o q => o = q /\ 0 <= q /\ Z.of_nat (flat sh (clamps sh sz vs)) + q < 2 ^ k)
    (fun r o => holds r (Z.of_nat (flat sh (clamps sh sz vs) + Z.to_nat o)))) with (ws := os)|].
  - intros o q (<- & Q0 & Q1). eapply wp_mono; [eapply (hal_add_ok k K1 n pr _ _ HO wordA); [exact HL|apply (const_ok k K1 n pr isA isB)]|]. cbv beta. intros r [R _].
    rewrite wrap_add_l, wrap_add_r in R. rewrite wrap_small in R by lia. rewrite Nat2Z.inj_add, Z2Nat.id by exact Q0. exact R.
  - clear - IB NN. induction os as [|o os IH]; constructor.
    + split; [reflexivity|]. split; [apply NN; now left|]. specialize (IB _ (or_introl eq_refl)). specialize (NN _ (or_introl eq_refl)). lia.
    + apply IH; intros; [apply IB; now right|apply NN; now right].
  - cbv beta. intros r R. now apply F2_map.
Qed.
Lemma put_all_ok : forall us uw, Forall2 (fun ul wp0 => holds (fst ul) (fst wp0) /\ snd ul = Z.of_nat (snd wp0)) us uw -> forall data xs, Forall2 holds data xs ->
  Forall (fun up => (snd up < length xs)%nat) uw -> wp (put_all data us) (fun r => Forall2 holds r (putw xs uw)).
Proof.
  intros us uw F. induction F as [|[u l] [w p] us uw [H1 H2] F IH]; intros data xs HD B; [now apply wp_ret|]. cbn [put_all putw]. inversion B as [|? ? B0 B']; subst. cbn [fst snd] in *. subst l.
  pose proof (F2_len _ _ _ HD) as LD. destruct (Z.ltb_spec (Z.of_nat p) 0); [lia|]. destruct (Z.leb_spec (Z.of_nat (length data)) (Z.of_nat p)); [lia|]. cbn [orb]. rewrite Nat2Z.id.
  apply IH; [|now rewrite put1_len]. unfold put1. apply Forall2_app; [now apply F2_firstn|]. constructor; [exact H1|now apply F2_skipn].
Qed.
Variable reveal : val -> Z.
Hypothesis RV : forall x a, holds x a -> reveal x = a.
Lemma revealed_ok : forall sh sz st ws vs, sized sh sz -> Forall2 holds st ws -> Forall2 (signed_value k) ws vs -> length vs = length sh -> Forall not_private st ->
  wp (revealed_starts k pr reveal st sh sz) (fun r => r = map Z.of_nat (clamps sh sz vs)).
Proof.
  intros sh sz st ws vs SZ. revert st ws vs. induction SZ as [|D s sh sz [H B] SZ IH]; intros st ws vs ST SV L NP.
  - destruct vs; [|discriminate]. inversion SV; subst. inversion ST; subst. now apply wp_ret.
  - destruct vs as [|v vs]; [discriminate|]. inversion SV as [|w ? ws' ? V SV']; subst. inversion ST as [|x ? st' ? X ST']; subst. inversion NP as [|? ? NP0 NP']; subst.
    cbn [revealed_starts clamps map]. assert (EW : match x with VP p => p | _ => reveal x end = w) by (destruct x; try (now apply RV); now destruct X).
    assert (G : wp (bind (revealed_starts k pr reveal st' sh sz) (fun r => ret (Z.min (Z.max (sgn k (match x with VP p => p | _ => reveal x end)) 0) (Z.of_nat D - Z.of_nat s) :: r)))
      (fun r => r = Z.of_nat (clamped D s v) :: map Z.of_nat (clamps sh sz vs))).
    { apply wp_bind. eapply wp_mono; [eapply IH; [exact ST'|exact SV'|cbn in L; lia|exact NP']|]. cbv beta. intros r ->. apply wp_ret. f_equal. rewrite EW.
      rewrite (sgn_of k K1 w v (proj1 X) V). unfold clamped. lia. }
    destruct x; try exact G. now destruct NP0.
Qed.
Theorem dynamic_update_slice_ok sh sz st ws vs data xs upd us : sh <> [] -> sized sh sz -> Forall2 holds st ws -> Forall2 (signed_value k) ws vs -> length vs = length sh ->
  (match st with x :: _ => secret_start x | [] => False end \/ Forall not_private st) -> Forall2 holds data xs -> length xs = numel sh -> Z.of_nat (numel sh) <= 2 ^ k ->
  Forall2 holds upd us -> length us = numel sz ->
  wp (dynamic_update_slice k pr others reveal sh sz st data upd) (fun r => Forall2 holds r (putw xs (combine us (spots sh (clamps sh sz vs) sz)))).
Proof.
  intros NE SZ ST SV L VS HD LX BX HU LU. unfold dynamic_update_slice.
  assert (LS : length st = length sh) by (rewrite (F2_len _ _ _ ST), (F2_len _ _ _ SV); exact L). pose proof (F2_len _ _ _ SZ) as LZ.
  destruct st as [|x st0] eqn:EST; [destruct sh; [congruence|discriminate]|]. rewrite <- EST in *.
  replace (length st =? length sh)%nat with true by (symmetry; apply Nat.eqb_eq; lia). replace (length st =? length sz)%nat with true by (symmetry; apply Nat.eqb_eq; lia). cbn [negb orb].
  pose proof (clamps_fit _ _ _ _ SZ L) as FT. pose proof FT as (_ & L1 & L2).
  destruct (putw_update sh sz (clamps sh sz vs) xs us FT LX LU) as [_ B].
  assert (SEC : wp (bind (clamp_and_flatten k pr st sh sz) (fun lins => update_loop k pr others data (combine upd lins))) (fun r => Forall2 holds r (putw xs (combine us (spots sh (clamps sh sz vs) sz))))).
  { apply wp_bind. eapply wp_mono; [eapply flatten_all_ok; eassumption|]. cbv beta. intros lins LN. eapply update_loop_ok; [|exact HD|exact B|lia].
    apply (combine_F2 holds (fun x p => holds x (Z.of_nat p))); [exact HU|exact LN]. }
  assert (PUB : Forall not_private st -> wp (bind (revealed_starts k pr reveal st sh sz) (fun starts => put_all data (combine upd (positions sh starts sz 0)))) (fun r => Forall2 holds r (putw xs (combine us (spots sh (clamps sh sz vs) sz))))).
  { intros NP. apply wp_bind. eapply wp_mono; [eapply revealed_ok; eassumption|]. cbv beta. intros r ->. eapply put_all_ok; [|exact HD|exact B].
    apply (combine_F2 holds (fun z p => z = Z.of_nat p)); [exact HU|]. unfold spots.
    assert (NN : forall p, In p (positions sh (map Z.of_nat (clamps sh sz vs)) sz 0) -> 0 <= p).
    { intros p P. destruct (in_positions _ _ _ _ L1 L2 P) as (? & _ & ->). lia. }
    revert NN. generalize (positions sh (map Z.of_nat (clamps sh sz vs)) sz 0). clear. induction l as [|p l IH]; intros NN; constructor.
    - rewrite Z2Nat.id; [reflexivity|apply NN; now left].
    - apply IH. intros. apply NN. now right. }
  destruct x as [p|o f|sa|sb]; try exact SEC.
  - destruct VS as [[]|VS]. apply PUB. exact VS.
  - destruct VS as [[]|VS]. inversion VS as [|? ? H]; [congruence|]. rewrite EST in VS. inversion VS as [|? ? H' ?]. now destruct H'.
Qed.
End Proof.
