From Verif Require Import Base Ring_model Ring_spec Ring_proof Gfmp_model Gfmp_spec Gfmp_proof Gfmp_props Pexp_model Pexp_proof.
Open Scope Z_scope.

(* C76: the product of one value of each of two parties, in the ring *)
Theorem C76_product w X AB C : 0 < w -> (exists q, C 0%nat + C 1%nat = AB 0%nat * AB 1%nat + q * 2 ^ w) ->
  exists q, mul_priv w X AB C 0%nat + mul_priv w X AB C 1%nat = X 0%nat * X 1%nat + q * 2 ^ w.
Proof.
  intros W [q E]. apply eqm_exists; [lia|]. apply mul_priv_ok; [exact W|]. rewrite E. apply eqm_mult.
Qed.
Print Assumptions C76_product.
(* and in the prime field *)
Theorem C76_product_field w p X AB C : field_of w p -> (forall r, (r < 2)%nat -> canonical p (X r) /\ canonical p (AB r) /\ canonical p (C r)) ->
  (C 0%nat + C 1%nat) mod p = (AB 0%nat * AB 1%nat) mod p ->
  let z := mul_priv_mp w X AB C in canonical p (z 0%nat) /\ canonical p (z 1%nat) /\ (z 0%nat + z 1%nat) mod p = (X 0%nat * X 1%nat) mod p.
Proof. exact (mul_priv_mp_ok w p X AB C). Qed.
Print Assumptions C76_product_field.
(* such a pair is what the dealer hands out, whatever the generators draw *)
Theorem C76_dealer w p AB D : field_of w p -> (forall r, (r < 2)%nat -> canonical p (AB r) /\ canonical p (D r)) ->
  (forall r, (r < 2)%nat -> canonical p (deal_c w AB D r)) /\ (deal_c w AB D 0%nat + deal_c w AB D 1%nat) mod p = (AB 0%nat * AB 1%nat) mod p.
Proof. exact (deal_ok w p AB D). Qed.
Print Assumptions C76_dealer.
(* shares of h modulo p, h below half of p, become ring shares of h / 2^t up to less than two units below and one above; exactly h for t = 0 *)
Theorem C76_to_ring w p t H AB C h : field_of w p -> 0 <= t < w -> canonical p (H 0%nat) -> canonical p (H 1%nat) -> (H 0%nat + H 1%nat) mod p = h -> h < (p - 1) / 2 ->
  (exists q, C 0%nat + C 1%nat = AB 0%nat * AB 1%nat + q * 2 ^ w) ->
  exists r, (exists q, conv_mp w t H AB C 0%nat + conv_mp w t H AB C 1%nat = r + q * 2 ^ w) /\ h - 2 * 2 ^ t < r * 2 ^ t < h + 2 ^ t /\ (t = 0 -> r = h).
Proof.
  intros F T C0 C1 E L Q. assert (W : 0 < w) by (pose proof (field_facts w p F); lia). destruct (conv_mp_ok w p t H AB C h F T C0 C1 E L) as (r & R & B); [destruct Q as [q ->]; apply eqm_mult|].
  exists r. split; [apply eqm_exists; [lia|exact R]|exact B].
Qed.
Print Assumptions C76_to_ring.
(* shares modulo 2^s whose sum passes 2^s become shares of the same number modulo p - 1 *)
Theorem C76_exponent w p s x0 x1 e : field_of w p -> 0 <= s -> 2 ^ s <= p - 1 -> 0 <= x0 -> 0 <= x1 -> x0 mod 2 ^ s + x1 mod 2 ^ s = e + 2 ^ s ->
  0 <= prob_conv w s 0 x0 < p - 1 /\ 0 <= prob_conv w s 1 x1 < p - 1 /\ (prob_conv w s 0 x0 + prob_conv w s 1 x1) mod (p - 1) = e mod (p - 1).
Proof. exact (prob_conv_ok w p s x0 x1 e). Qed.
Print Assumptions C76_exponent.
(* the scaled shares are shares of the scaled and shifted input *)
Theorem C76_scaled w scale off tf X : 0 < w -> 0 <= tf ->
  exists q, scaled w scale off tf 0 (X 0%nat) + scaled w scale off tf 1 (X 1%nat) = (X 0%nat + X 1%nat) * scale + off * 2 ^ tf + q * 2 ^ w.
Proof.
  intros W T. apply eqm_exists; [lia|]. unfold scaled, radd, rmul. cbn [Nat.eqb]. rewrite !eqm_wrap, Z.shiftl_mul_pow2 by lia.
  match goal with |- eqm w ?x ?y => replace x with y by ring end. reflexivity.
Qed.
Print Assumptions C76_scaled.
(* the whole kernel.  y r: party r's share after scaling, s r: the same as a signed number, f r: its rounded power of the fraction.
   With signed shares of opposite signs (so that their sum does not leave the word), the opened result times 2^(off + fxp) is
   2^e * f 0 * f 1, e the sum of the integer parts of the shares, up to less than two units below and one above *)
Theorem C76_exp_partial w p fxp scale off tf fr X AB C AB' C' : field_of w p ->
  let y r := scaled w scale off tf r (X r) in let s r := sgn w (y r) in let f r := fr r (y r) in
  let e := s 0%nat / 2 ^ tf + s 1%nat / 2 ^ tf in let v := 2 ^ e * f 0%nat * f 1%nat in
  0 < fxp <= tf -> tf < w -> 0 <= off -> off + fxp < w -> 2 ^ (w - fxp) <= p - 1 ->
  (s 0%nat < 0 <= s 1%nat \/ s 1%nat < 0 <= s 0%nat) -> 0 <= e -> canonical p (f 0%nat) -> canonical p (f 1%nat) -> v < (p - 1) / 2 ->
  (forall r, (r < 2)%nat -> canonical p (AB r) /\ canonical p (C r)) -> (C 0%nat + C 1%nat) mod p = (AB 0%nat * AB 1%nat) mod p ->
  eqm w (C' 0%nat + C' 1%nat) (AB' 0%nat * AB' 1%nat) ->
  exists Z r, exp_a w fxp scale off tf fr X AB C AB' C' = Some Z /\ eqm w (Z 0%nat + Z 1%nat) r /\
    v - 2 * 2 ^ (off + fxp) < r * 2 ^ (off + fxp) < v + 2 ^ (off + fxp).
Proof. exact (exp_ok w p fxp scale off tf fr X AB C AB' C'). Qed.
Print Assumptions C76_exp_partial.
(* for every exponent there are sharings for which the exponent is converted wrongly: those whose sum does not pass 2^s *)
Theorem C76_exponent_refuted w p s x0 x1 e : field_of w p -> 0 <= s -> 2 ^ s < p - 1 -> 0 <= x0 -> 0 <= x1 -> x0 mod 2 ^ s + x1 mod 2 ^ s = e ->
  (prob_conv w s 0 x0 + prob_conv w s 1 x1) mod (p - 1) <> e mod (p - 1).
Proof.
  intros F S L X0 X1 E Q. destruct (prob_conv_ok w p s x0 x1 (e - 2 ^ s) F S ltac:(lia) X0 X1 ltac:(lia)) as (_ & _ & R). rewrite R in Q.
  assert (P1 : 0 < p - 1) by (pose proof (Z.pow_nonneg 2 s); lia). assert (PS : 0 < 2 ^ s) by (apply Z.pow_pos_nonneg; lia).
  assert (D : (2 ^ s) mod (p - 1) = 0).
  { replace (2 ^ s) with (e - (e - 2 ^ s)) by ring. rewrite Zminus_mod, Q, Z.sub_diag. apply Z.mod_0_l. lia. }
  rewrite Z.mod_small in D by lia. lia.
Qed.
Print Assumptions C76_exponent_refuted.

(* 64-bit ring: 7 * 9 with the dealer's pair 3, 5; shares of 1000 modulo p cut by 3 bits; the exponent 5 *)
Definition pr (a b : Z) (r : nat) : Z := if (r =? 0)%nat then a else b.
Example C76_ex : field_of 64 (2 ^ 61 - 1) /\ wrap 64 (mul_priv 64 (pr 7 9) (pr 3 5) (pr 20 (-5)) 0 + mul_priv 64 (pr 7 9) (pr 3 5) (pr 20 (-5)) 1) = 63 /\
  (mul_priv_mp 64 (pr 7 9) (pr 3 5) (pr 11 4) 0 + mul_priv_mp 64 (pr 7 9) (pr 3 5) (pr 11 4) 1) mod (2 ^ 61 - 1) = 63 /\
  wrap 64 (conv_mp 64 3 (pr (2 ^ 60) (2 ^ 60 + 999)) (pr 3 5) (pr 20 (-5)) 0 + conv_mp 64 3 (pr (2 ^ 60) (2 ^ 60 + 999)) (pr 3 5) (pr 20 (-5)) 1) = 125 /\
  (prob_conv 64 46 0 (2 ^ 46 - 7) + prob_conv 64 46 1 12) mod (2 ^ 61 - 2) = 5 /\ (prob_conv 64 46 0 2 + prob_conv 64 46 1 3) mod (2 ^ 61 - 2) <> 5.
Proof. split; [right; left; split; reflexivity|]. repeat split; try reflexivity. intros H. vm_compute in H. discriminate H. Qed.
Example C76_ex_dealer : deal_c 64 (pr 3 5) (pr 100 4) 0 = 11 /\ deal_c 64 (pr 3 5) (pr 100 4) 1 = 4.
Proof. split; reflexivity. Qed.
(* exp 3 = 20.09 in 64 bits with 18 fraction bits and offset 13: the shares -2^40 and 2^40 + 3 * 2^18; 5267088 / 2^18 = 20.09 *)
Definition ex_fr (r : nat) (_ : Z) : Z := if (r =? 0)%nat then 262144 else 329193.
Example C76_ex_exp : let X := pr (2 ^ 64 - 2 ^ 40) (2 ^ 40 + 3 * 2 ^ 18) in
  let s r := sgn 64 (scaled 64 11818 13 31 r (X r)) in s 0%nat < 0 <= s 1%nat /\ s 0%nat / 2 ^ 31 + s 1%nat / 2 ^ 31 = 17 /\ 2 ^ 17 * 262144 * 329193 < (2 ^ 61 - 2) / 2 /\
  match exp_a 64 18 11818 13 31 ex_fr X (pr 3 5) (pr 11 4) (pr 3 5) (pr 20 (-5)) with Some z => wrap 64 (z 0%nat + z 1%nat) | None => 0 end = 5267088.
Proof. repeat split; vm_compute; congruence. Qed.
