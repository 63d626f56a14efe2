From Coq Require Import Znumtheory Zpow_facts.
From Verif Require Import Base Ring_model Ring_spec Ring_proof Pock_proof Gfmp_model Gfmp_spec Gfmp_proof Gfmp_props Pexp_model.
Open Scope Z_scope.

Lemma field_facts w p : field_of w p -> mprime w = p /\ 32 <= w <= 128 /\ p = 2 * (p / 2) + 1 /\ 3 <= p /\ p < 2 ^ w /\ p < 2 ^ 127 + 1.
Proof. intros [[-> ->] | [[-> ->] | [-> ->]]]; (split; [reflexivity|]); (split; [lia|]); (split; [reflexivity|]); (split; [lia|]); split; reflexivity. Qed.

(* ---- products of private values ---- *)
Lemma mul_priv_ok w X AB C : 0 < w -> eqm w (C 0%nat + C 1%nat) (AB 0%nat * AB 1%nat) ->
  eqm w (mul_priv w X AB C 0%nat + mul_priv w X AB C 1%nat) (X 0%nat * X 1%nat).
Proof.
  intros W T. unfold mul_priv, priv_end, priv_msg. cbn [Nat.eqb Nat.sub]. unfold radd, rsub, rmul. rewrite !eqm_wrap.
  replace (C 0%nat + (AB 1%nat + X 1%nat) * X 0%nat + (C 1%nat - (AB 0%nat + X 0%nat) * AB 1%nat)) with (C 0%nat + C 1%nat + ((AB 1%nat + X 1%nat) * X 0%nat - (AB 0%nat + X 0%nat) * AB 1%nat)) by ring.
  rewrite T. match goal with |- eqm w ?x ?y => replace x with y by ring end. reflexivity.
Qed.
Lemma mul_priv_mp_ok w p X AB C : field_of w p -> (forall r, (r < 2)%nat -> canonical p (X r) /\ canonical p (AB r) /\ canonical p (C r)) ->
  (C 0%nat + C 1%nat) mod p = (AB 0%nat * AB 1%nat) mod p ->
  let z := mul_priv_mp w X AB C in canonical p (z 0%nat) /\ canonical p (z 1%nat) /\ (z 0%nat + z 1%nat) mod p = (X 0%nat * X 1%nat) mod p.
Proof.
  intros F H T. destruct (H 0%nat ltac:(lia)) as (X0 & A0 & C0). destruct (H 1%nat ltac:(lia)) as (X1 & A1 & C1). pose proof (field_facts w p F) as (_ & _ & _ & P3 & _).
  assert (CR : forall v, canonical p v -> representative p v) by (unfold canonical, representative; intros; lia).
  assert (CM : forall v, canonical p (v mod p)) by (intros v; apply Z.mod_pos_bound; lia).
  cbn zeta. unfold mul_priv_mp. cbn [Nat.eqb Nat.sub].
  destruct (C30_add w p _ _ F (CR _ A1) (CR _ X1)) as (_ & _ & M0). destruct (C30_add w p _ _ F (CR _ A0) (CR _ X0)) as (_ & _ & M1).
  rewrite M0, M1 by now left. rewrite !(C30_mul w p) by (try apply CR; auto).
  set (u := ((AB 1%nat + X 1%nat) mod p * X 0%nat) mod p). set (v := ((AB 0%nat + X 0%nat) mod p * AB 1%nat) mod p).
  assert (U : canonical p u) by apply CM. assert (V : canonical p v) by apply CM.
  destruct (C30_add w p _ _ F (CR _ C0) (CR _ U)) as (_ & _ & M2). rewrite M2 by now left. rewrite (C30_sub w p) by auto.
  split; [apply CM|]. split; [apply CM|]. rewrite <- Zplus_mod. unfold u, v. rewrite !Zmult_mod_idemp_l.
  replace (C 0%nat + ((AB 1%nat + X 1%nat) * X 0%nat) mod p + (C 1%nat - ((AB 0%nat + X 0%nat) * AB 1%nat) mod p))
    with (C 0%nat + C 1%nat + (((AB 1%nat + X 1%nat) * X 0%nat) mod p - ((AB 0%nat + X 0%nat) * AB 1%nat) mod p)) by ring.
  rewrite Zplus_mod, T, <- Zplus_mod. rewrite Zplus_mod, <- Zminus_mod, <- Zplus_mod. f_equal. ring.
Qed.

(* ---- from the prime field to the ring ---- *)
Lemma wrap_bit_ok w p H AB C h : field_of w p -> canonical p (H 0%nat) -> canonical p (H 1%nat) -> (H 0%nat + H 1%nat) mod p = h -> h < (p - 1) / 2 ->
  eqm w (C 0%nat + C 1%nat) (AB 0%nat * AB 1%nat) ->
  eqm w (wrap_bit w H AB C 0%nat + wrap_bit w H AB C 1%nat) ((H 0%nat + H 1%nat) / p) /\ H 0%nat + H 1%nat = h + p * ((H 0%nat + H 1%nat) / p).
Proof.
  intros F C0 C1 E L T. pose proof (field_facts w p F) as (MP & W & O & P3 & _). unfold canonical in *.
  pose proof (Z.div_mod (H 0%nat + H 1%nat) p ltac:(lia)) as D. split; [|lia].
  unfold wrap_bit. cbn [Nat.eqb]. rewrite !eqm_wrap. pose proof (mul_priv_ok w (fun q => below_half w (H q)) AB C ltac:(lia) T) as M.
  match goal with |- eqm w ?x _ => replace x with (1 - (mul_priv w (fun q => below_half w (H q)) AB C 0%nat + mul_priv w (fun q => below_half w (H q)) AB C 1%nat)) by ring end.
  rewrite M. match goal with |- eqm w ?x ?y => replace x with y; [reflexivity|] end. unfold below_half. rewrite MP, Z.shiftr_div_pow2 by lia. change (2 ^ 1) with 2.
  assert (HP : (p - 1) / 2 = p / 2) by (rewrite O at 1; replace (2 * (p / 2) + 1 - 1) with (p / 2 * 2) by ring; now rewrite Z.div_mul by lia).
  assert (Q : (H 0%nat + H 1%nat) / p = if p <=? H 0%nat + H 1%nat then 1 else 0).
  { destruct (Z.leb_spec p (H 0%nat + H 1%nat)); [symmetry; apply Z.div_unique with (H 0%nat + H 1%nat - p); lia|apply Z.div_small; lia]. }
  rewrite Q in *. destruct (Z.ltb_spec (H 0%nat) (p / 2)), (Z.ltb_spec (H 1%nat) (p / 2)), (Z.leb_spec p (H 0%nat + H 1%nat)); lia.
Qed.
Lemma conv_mp_ok w p t H AB C h : field_of w p -> 0 <= t < w -> canonical p (H 0%nat) -> canonical p (H 1%nat) -> (H 0%nat + H 1%nat) mod p = h -> h < (p - 1) / 2 ->
  eqm w (C 0%nat + C 1%nat) (AB 0%nat * AB 1%nat) ->
  exists r, eqm w (conv_mp w t H AB C 0%nat + conv_mp w t H AB C 1%nat) r /\ h - 2 * 2 ^ t < r * 2 ^ t < h + 2 ^ t /\ (t = 0 -> r = h).
Proof.
  intros F T0 C0 C1 E L T. destruct (wrap_bit_ok w p H AB C h F C0 C1 E L T) as [WB D]. pose proof (field_facts w p F) as (MP & W & O & P3 & _). unfold canonical in *.
  set (q := (H 0%nat + H 1%nat) / p) in *. exists (H 0%nat / 2 ^ t + H 1%nat / 2 ^ t - p / 2 ^ t * q). split; [|split].
  - unfold conv_mp. rewrite !eqm_wrap, MP, !Z.shiftr_div_pow2 by lia.
    match goal with |- eqm w ?x _ => replace x with (H 0%nat / 2 ^ t + H 1%nat / 2 ^ t - p / 2 ^ t * (wrap_bit w H AB C 0%nat + wrap_bit w H AB C 1%nat)) by ring end. rewrite WB. reflexivity.
  - assert (PT : 0 < 2 ^ t) by (apply Z.pow_pos_nonneg; lia). assert (Q : q = 0 \/ q = 1).
    { unfold q. assert (0 <= (H 0%nat + H 1%nat) / p) by (apply Z.div_pos; lia). assert ((H 0%nat + H 1%nat) / p < 2) by (apply Z.div_lt_upper_bound; lia). lia. }
    pose proof (Z.div_mod (H 0%nat) (2 ^ t) ltac:(lia)). pose proof (Z.mod_pos_bound (H 0%nat) (2 ^ t) PT). pose proof (Z.div_mod (H 1%nat) (2 ^ t) ltac:(lia)). pose proof (Z.mod_pos_bound (H 1%nat) (2 ^ t) PT).
    pose proof (Z.div_mod p (2 ^ t) ltac:(lia)). pose proof (Z.mod_pos_bound p (2 ^ t) PT). destruct Q as [-> | ->]; lia.
  - intros ->. change (2 ^ 0) with 1. rewrite !Z.div_1_r. lia.
Qed.

(* ---- the exponents ---- *)
Lemma pow2_cong w p a b : field_of w p -> 0 <= a -> 0 <= b -> a mod (p - 1) = b mod (p - 1) -> 2 ^ a mod p = 2 ^ b mod p.
Proof.
  intros F A B E. pose proof (field_facts w p F) as (_ & _ & O & P3 & PW & _).
  assert (FM : 2 ^ (p - 1) mod p = 1).
  { pose proof (C30_fermat w p 2 F ltac:(unfold canonical; lia) ltac:(lia)) as Q. rewrite (C30_exp w p 2 (p - 1) F) in Q by (unfold canonical; lia). now injection Q. }
  assert (R : forall c, 0 <= c -> 2 ^ c mod p = 2 ^ (c mod (p - 1)) mod p).
  { intros c C. pose proof (Z.div_mod c (p - 1) ltac:(lia)) as D. pose proof (Z.mod_pos_bound c (p - 1) ltac:(lia)). assert (Q0 : 0 <= c / (p - 1)) by (apply Z.div_pos; lia).
    set (q := c / (p - 1)) in *. set (m := c mod (p - 1)) in *. rewrite D. clearbody q m. rewrite Z.pow_add_r by (try apply Z.mul_nonneg_nonneg; lia). rewrite Z.pow_mul_r by lia.
    rewrite Zmult_mod. rewrite (Zpower_mod (2 ^ (p - 1)) q p) by lia. rewrite FM, Z.pow_1_l by lia. rewrite (Z.mod_small 1) by lia. rewrite Z.mul_1_l. now rewrite Z.mod_mod by lia. }
  now rewrite (R a A), (R b B), E.
Qed.
Lemma prob_conv_ok w p s x0 x1 e : field_of w p -> 0 <= s -> 2 ^ s <= p - 1 -> 0 <= x0 -> 0 <= x1 -> x0 mod 2 ^ s + x1 mod 2 ^ s = e + 2 ^ s ->
  0 <= prob_conv w s 0 x0 < p - 1 /\ 0 <= prob_conv w s 1 x1 < p - 1 /\ (prob_conv w s 0 x0 + prob_conv w s 1 x1) mod (p - 1) = e mod (p - 1).
Proof.
  intros F S SP X0 X1 E. pose proof (field_facts w p F) as (MP & _ & _ & P3 & _ & P128). unfold prob_conv. rewrite MP. cbn [Nat.eqb].
  assert (M : forall x, 0 <= x -> Z.land x (2 ^ s - 1) = x mod 2 ^ s) by (intros x X; rewrite <- Z.land_ones by lia; now rewrite Z.ones_equiv, <- Z.sub_1_r).
  rewrite !M by assumption. pose proof (Z.mod_pos_bound x1 (2 ^ s) ltac:(apply Z.pow_pos_nonneg; lia)) as B1.
  assert (TT : 2 ^ 128 = 2 * 2 ^ 127) by reflexivity.
  rewrite wrap_small by lia. split; [apply Z.mod_pos_bound; lia|]. split; [apply Z.mod_pos_bound; lia|].
  rewrite <- Zplus_mod. replace (x0 mod 2 ^ s + (x1 mod 2 ^ s + (p - 1) - 2 ^ s)) with (e + 1 * (p - 1)) by lia. now rewrite Z.mod_add by lia.
Qed.

(* ---- the whole exponential ---- *)
Lemma sgn_range w x : 0 < w -> 0 <= x < 2 ^ w -> - 2 ^ (w - 1) <= sgn w x < 2 ^ (w - 1).
Proof. intros W X. assert (2 ^ w = 2 * 2 ^ (w - 1)) by (rewrite <- Z.pow_succ_r by lia; f_equal; lia). unfold sgn. destruct (Z.ltb_spec x (2 ^ (w - 1))); lia. Qed.
Lemma int_mod w s tf x : 0 < w -> 0 <= x < 2 ^ w -> 0 <= tf < w -> 0 <= s <= w -> w <= s + tf ->
  rsar w tf x mod 2 ^ s = sgn w x / 2 ^ tf + (if sgn w x <? 0 then 2 ^ s else 0).
Proof.
  intros W X TF S ST. pose proof (sgn_range w x W X) as R. assert (PT : 0 < 2 ^ tf) by (apply Z.pow_pos_nonneg; lia). assert (PS : 0 < 2 ^ s) by (apply Z.pow_pos_nonneg; lia).
  assert (PW : 2 ^ w = 2 * 2 ^ (w - 1)) by (rewrite <- Z.pow_succ_r by lia; f_equal; lia).
  assert (LE : 2 ^ w <= 2 ^ s * 2 ^ tf) by (rewrite <- Z.pow_add_r by lia; apply Z.pow_le_mono_r; lia).
  assert (DV : (2 ^ s | 2 ^ w)) by (exists (2 ^ (w - s)); rewrite <- Z.pow_add_r by lia; f_equal; lia).
  unfold rsar, wrap. assert (MM : forall v, v mod 2 ^ w mod 2 ^ s = v mod 2 ^ s).
  { intros v. destruct DV as [q Q]. pose proof (Z.div_mod v (2 ^ w) ltac:(lia)) as D. replace (v mod 2 ^ w) with (v + (- (q * (v / 2 ^ w))) * 2 ^ s) by nia. apply Z.mod_add. lia. }
  rewrite MM. symmetry. pose proof (Z.div_mod (sgn w x) (2 ^ tf) ltac:(lia)) as D. pose proof (Z.mod_pos_bound (sgn w x) (2 ^ tf) PT) as B. set (d := sgn w x / 2 ^ tf) in *.
  destruct (Z.ltb_spec (sgn w x) 0) as [N|N].
  - apply Z.mod_unique with (- 1); [|ring]. left. assert (- 2 ^ s <= d < 0); [|lia]. split; [|apply Z.div_lt_upper_bound; lia]. apply Z.div_le_lower_bound; lia.
  - apply Z.mod_unique with 0; [|ring]. left. assert (0 <= d < 2 ^ s); [|lia]. split; [apply Z.div_pos; lia|]. apply Z.div_lt_upper_bound; lia.
Qed.
Lemma scaled_word w scale off tf r x : 0 <= w -> 0 <= scaled w scale off tf r x < 2 ^ w.
Proof. intros W. unfold scaled, rmul, radd. destruct (r =? 0)%nat; apply wrap_range; lia. Qed.
Lemma exp_ok w p fxp scale off tf fr X AB C AB' C' : field_of w p ->
  let y r := scaled w scale off tf r (X r) in let s r := sgn w (y r) in let f r := fr r (y r) in
  let e := s 0%nat / 2 ^ tf + s 1%nat / 2 ^ tf in let v := 2 ^ e * f 0%nat * f 1%nat in
  0 < fxp <= tf -> tf < w -> 0 <= off -> off + fxp < w -> 2 ^ (w - fxp) <= p - 1 ->
  (s 0%nat < 0 <= s 1%nat \/ s 1%nat < 0 <= s 0%nat) -> 0 <= e -> canonical p (f 0%nat) -> canonical p (f 1%nat) -> v < (p - 1) / 2 ->
  (forall r, (r < 2)%nat -> canonical p (AB r) /\ canonical p (C r)) -> (C 0%nat + C 1%nat) mod p = (AB 0%nat * AB 1%nat) mod p ->
  eqm w (C' 0%nat + C' 1%nat) (AB' 0%nat * AB' 1%nat) ->
  exists Z r, exp_a w fxp scale off tf fr X AB C AB' C' = Some Z /\ eqm w (Z 0%nat + Z 1%nat) r /\
    v - 2 * 2 ^ (off + fxp) < r * 2 ^ (off + fxp) < v + 2 ^ (off + fxp).
Proof.
  intros F y s f e v FX TF O OF SP SG E0 F0 F1 V CN T T'. pose proof (field_facts w p F) as (MP & W & _ & P3 & PW & _).
  assert (HP : (p - 1) / 2 < p) by (apply Z.div_lt_upper_bound; clear - P3; lia). assert (OT : 0 <= off + fxp < w) by (clear - O OF FX; lia).
  assert (WF : 0 <= w - fxp) by (clear - FX TF; lia).
  assert (Y : forall r, 0 <= y r < 2 ^ w) by (intros r; apply scaled_word; lia).
  assert (I : forall r, rsar w tf (y r) mod 2 ^ (w - fxp) = s r / 2 ^ tf + (if s r <? 0 then 2 ^ (w - fxp) else 0)) by (intros r; apply int_mod; [clear - W; lia|apply Y| | |]; clear - FX TF W; lia).
  assert (R0 : forall r, 0 <= rsar w tf (y r)) by (intros r; apply wrap_range; lia).
  destruct (prob_conv_ok w p (w - fxp) (rsar w tf (y 0%nat)) (rsar w tf (y 1%nat)) e F WF SP (R0 0%nat) (R0 1%nat)) as (I0 & I1 & IE).
  { rewrite (I 0%nat), (I 1%nat). unfold e. destruct (Z.ltb_spec (s 0%nat) 0), (Z.ltb_spec (s 1%nat) 0); lia. }
  unfold exp_a, exp_local. fold (y 0%nat) (y 1%nat). set (i0 := prob_conv w (w - fxp) 0 (rsar w tf (y 0%nat))) in *. set (i1 := prob_conv w (w - fxp) 1 (rsar w tf (y 1%nat))) in *.
  clearbody i0 i1. change (fr 0%nat (y 0%nat)) with (f 0%nat). change (fr 1%nat (y 1%nat)) with (f 1%nat). clear I R0. assert (VD : v = 2 ^ e * f 0%nat * f 1%nat) by reflexivity. clearbody v. clearbody e. clearbody f s. clearbody y.
  assert (C2 : canonical p 2) by (unfold canonical; lia). assert (Q0 : exp_mod w 2 i0 = Some (2 ^ i0 mod p)) by (apply (C30_exp w p 2 i0 F C2); clear - I0 PW; lia). assert (Q1 : exp_mod w 2 i1 = Some (2 ^ i1 mod p)) by (apply (C30_exp w p 2 i1 F C2); clear - I1 PW; lia).
  rewrite Q0, Q1.
  assert (CR : forall a, canonical p a -> representative p a) by (unfold canonical, representative; intros; lia).
  assert (CM : forall a, canonical p (a mod p)) by (intros a; apply Z.mod_pos_bound; lia).
  rewrite !(C30_mul w p) by (try apply CR; auto). rewrite !Zmult_mod_idemp_l.
  set (VV := fun q : nat => if (q =? 0)%nat then (2 ^ i0 * f 0%nat) mod p else (2 ^ i1 * f 1%nat) mod p).
  destruct (mul_priv_mp_ok w p VV AB C F) as (Z0 & Z1 & ZE); [|exact T|].
  { intros r R. destruct (CN r R). split; [unfold VV; destruct (r =? 0)%nat; apply CM|now split]. }
  cbv zeta in Z0, Z1, ZE. assert (VE : (VV 0%nat * VV 1%nat) mod p = v).
  { unfold VV. cbn [Nat.eqb]. rewrite <- Zmult_mod. replace (2 ^ i0 * f 0%nat * (2 ^ i1 * f 1%nat)) with (2 ^ (i0 + i1) * (f 0%nat * f 1%nat)) by (rewrite Z.pow_add_r by lia; ring).
    assert (PC : 2 ^ (i0 + i1) mod p = 2 ^ e mod p) by exact (pow2_cong w p (i0 + i1) e F (Z.add_nonneg_nonneg _ _ (proj1 I0) (proj1 I1)) E0 IE). generalize dependent (2 ^ (i0 + i1)). intros g PC. rewrite (Zmult_mod g), PC, <- Zmult_mod. rewrite Z.mul_assoc, <- VD. apply Z.mod_small. split.
    - rewrite VD. apply Z.mul_nonneg_nonneg; [apply Z.mul_nonneg_nonneg|]; [now apply Z.pow_nonneg|apply F0|apply F1].
    - exact (Z.lt_trans _ _ _ V HP). }
  destruct (conv_mp_ok w p (off + fxp) (mul_priv_mp w VV AB C) AB' C' v F OT Z0 Z1 (eq_trans ZE VE) V T') as (r & E & B & _).
  exists (conv_mp w (off + fxp) (mul_priv_mp w VV AB C) AB' C'), r. split; [reflexivity|]. now split.
Qed.

Lemma deal_ok w p AB D : field_of w p -> (forall r, (r < 2)%nat -> canonical p (AB r) /\ canonical p (D r)) ->
  (forall r, (r < 2)%nat -> canonical p (deal_c w AB D r)) /\ (deal_c w AB D 0%nat + deal_c w AB D 1%nat) mod p = (AB 0%nat * AB 1%nat) mod p.
Proof.
  intros F H. destruct (H 0%nat ltac:(lia)) as (A0 & D0). destruct (H 1%nat ltac:(lia)) as (A1 & D1). pose proof (field_facts w p F) as (_ & _ & _ & P3 & _).
  assert (CR : forall v, canonical p v -> representative p v) by (unfold canonical, representative; intros; lia).
  assert (CM : forall v, canonical p (v mod p)) by (intros v; apply Z.mod_pos_bound; lia).
  assert (DA : deal_adjust w AB D = (AB 0%nat * AB 1%nat - (D 0%nat + D 1%nat)) mod p).
  { unfold deal_adjust. destruct (C30_add w p _ _ F (CR _ D0) (CR _ D1)) as (_ & _ & M). rewrite M by now left. rewrite (C30_mul w p) by auto. rewrite (C30_sub w p) by auto. symmetry. apply Zminus_mod. }
  assert (C0 : deal_c w AB D 0%nat = (D 0%nat + deal_adjust w AB D) mod p).
  { unfold deal_c. cbn [Nat.eqb]. assert (U : canonical p (deal_adjust w AB D)) by (rewrite DA; apply CM). destruct (C30_add w p _ _ F (CR _ D0) (CR _ U)) as (_ & _ & M). apply M. now left. }
  split.
  - intros [|[|r]] R; [rewrite C0; apply CM|exact D1|lia].
  - rewrite C0, DA. change (deal_c w AB D 1%nat) with (D 1%nat). rewrite Zplus_mod_idemp_l. rewrite <- Z.add_assoc, (Z.add_comm (_ mod p)), Z.add_assoc, Zplus_mod_idemp_r. f_equal. ring.
Qed.
