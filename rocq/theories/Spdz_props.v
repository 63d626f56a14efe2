(* Properties C67 and C68: spdz2k, honest runs and deviations. *)
From Verif Require Import Base Ring_spec Share_spec Ring_model Party Semi_model Semi_proof Spdz_model Spdz_spec Spdz_proof Spdzc_proof Spdzh_proof.
Open Scope Z_scope.

Section Props.
Variables K k s : Z.
Variable n : nat.
Hypothesis Hk : 0 < k.
Hypothesis Hs : 0 <= s.
Hypothesis HK : k + s <= K.
Hypothesis Hn : (0 < n)%nat.

(* ---- C67: the dealer ---- *)
Theorem C67_key R w : words K n R -> shA K n (key_shares K s n R w) (new_key s w) /\ is_mod s w (new_key s w).
Proof. intros W. split; [now apply (key_ok K k s n)|exact (is_mod_wrap s w Hs)]. Qed.
Theorem C67_coin gk R M w : words K n R -> words K n M -> exists r, authentic K n gk (auth_coin K k n gk R M w) r.
Proof. apply (coin_H K k s); assumption. Qed.
Theorem C67_bit gk R M w : words K n R -> words K n M -> holds K k n gk (auth_bit K n gk R M w) (w mod 2).
Proof. apply (bit_H K k s); assumption. Qed.

(* ---- C67: values in ---- *)
Theorem C67_public KS gk R M x : shA K n KS gk -> word k x -> holds K k n gk (p2a K n KS R M x) x.
Proof. intros E. now apply (p2a_H K k s n KS gk). Qed.
Theorem C67_private gk o R M x cn r : (o < n)%nat -> word k x -> authentic K n gk cn r -> holds K k n gk (v2a_s K n gk o R M x cn) x.
Proof. apply (v2a_H K k s); assumption. Qed.
Theorem C67_input gk x rs cn r : word k x -> length rs = (n - 1)%nat -> Forall (word K) rs -> authentic K n gk cn r ->
  from_shares K k n (to_shares K x rs) = x /\ holds K k n gk (get_mac K n gk false (to_shares K x rs) cn) x.
Proof.
  intros W L F C. pose proof (to_shares_val K k s n Hk Hs HK Hn x rs W L F) as V.
  assert (M : is_mod k x x) by (split; [exact W|exists 0; lia]). split; [exact (from_shares_val K k s n Hk Hs HK Hn _ x x V M)|].
  exists x. split; [|exact M]. apply (get_mac_ok K n gk) with (r := r); auto; [lia|discriminate].
Qed.

(* ---- C67: operations ---- *)
Theorem C67_negate gk x p : holds K k n gk x p -> exists t, is_mod k (- p) t /\ holds K k n gk (neg_a K x) t.
Proof. apply (neg_H K k s); assumption. Qed.
Theorem C67_add gk x y p q : holds K k n gk x p -> holds K k n gk y q -> exists t, is_mod k (p + q) t /\ holds K k n gk (add_aa_s K x y) t.
Proof. apply (add_H K k s); assumption. Qed.
Theorem C67_add_public KS gk x p q : shA K n KS gk -> holds K k n gk x p -> word k q -> exists t, is_mod k (p + q) t /\ holds K k n gk (add_ap_s K KS x q) t.
Proof. intros E. now apply (add_ap_H K k s n KS gk). Qed.
Theorem C67_mul_public gk x p q : holds K k n gk x p -> word k q -> exists t, is_mod k (p * q) t /\ holds K k n gk (mul_ap_s K x q) t.
Proof. apply (mul_ap_H K k s); assumption. Qed.
Theorem C67_lshift gk b x p : holds K k n gk x p -> exists t, is_mod k (p * 2 ^ b) t /\ holds K k n gk (lshift_s K b x) t.
Proof. apply (lshift_H K k s); assumption. Qed.
Theorem C67_matmul_public gk Q x p P i j : (forall l, (l < Q)%nat -> holds K k n gk (x i l) (p i l) /\ word k (P l j)) ->
  exists t, is_mod k (dot Q (p i) (fun l => P l j)) t /\ holds K k n gk (matmul_ap_s K Q x P i j) t.
Proof. apply (matmul_ap_H K k s); assumption. Qed.
Theorem C67_mul KS gk N x y p q P B C MP MB MC coins1 coins2 : shA K n KS gk ->
  (forall j, (j < N)%nat -> holds K k n gk (x j) (p j) /\ holds K k n gk (y j) (q j) /\ words K n (P j) /\ words K n (B j) /\ words K n (C j) /\ words K n (MP j) /\ words K n (MB j) /\ words K n (MC j)) ->
  exists z, mul_aa_s K k s n KS N x y (fun j => auth_mul K n gk (P j) (B j) (C j) (MP j) (MB j) (MC j)) coins1 coins2 (fun _ => 0) (fun _ => 0) 0 0 = Ok z /\
    forall j, (j < N)%nat -> exists t, is_mod k (p j * q j) t /\ holds K k n gk (z j) t.
Proof.
  intros E X. assert (Z0 : 0 mod 2 ^ k = 0) by (apply Z.mod_0_l; pose proof (pow2_pos k ltac:(lia)); lia).
  destruct (mul_H K k s n KS gk Hk Hs HK Hn E N x y p q P B C MP MB MC coins1 coins2 (fun _ => 0) (fun _ => 0) 0 0 X (fun _ _ => conj Z0 Z0)) as [R S1].
  destruct (S1 (fun _ _ => conj eq_refl eq_refl) eq_refl eq_refl) as [z Ez]. exists z. split; [exact Ez|]. now apply R.
Qed.
Theorem C67_matmul KS gk Q x y p q P B C MP MB MC i j : shA K n KS gk ->
  (forall a, (a < n)%nat -> word K (C a i j) /\ word K (MC a i j) /\ forall l, (l < Q)%nat -> word K (P a i l) /\ word K (B a l j) /\ word K (MP a i l) /\ word K (MB a l j)) ->
  (forall l, (l < Q)%nat -> holds K k n gk (x i l) (p i l) /\ holds K k n gk (y l j) (q l j)) ->
  let t := auth_dot K n gk Q P B C MP MB MC in
  exists z, is_mod k (dot Q (p i) (fun l => q l j)) z /\ holds K k n gk (matmul_aa_s K n KS Q x y (fst (fst t)) (snd (fst t)) (snd t) (fun _ _ => 0) (fun _ _ => 0) i j) z.
Proof.
  intros E W X t. destruct (matmul_H K k s n KS gk Hk Hs HK Hn E Q x y p q P B C MP MB MC (fun _ _ => 0) (fun _ _ => 0) i j W X) as [z [Z1 Z2]].
  exists z. split; [|exact Z2]. replace (dot Q (p i) (fun l => q l j)) with (dot Q (fun l => p i l + 0) (fun l => q l j + 0)); [exact Z1|].
  clear. induction Q; cbn [dot]; [reflexivity|]. rewrite IHQ. f_equal. ring.
Qed.
Theorem C67_trunc KS gk d N x p R RB M MB cn coins : shA K n KS gk -> 0 <= d < k ->
  (forall j, (j < N)%nat -> holds K k n gk (x j) (p j) /\ words K n (R j) /\ words K n (RB j) /\ words K n (M j) /\ words K n (MB j) /\ (exists r, authentic K n gk (cn j) r) /\
     - 2 ^ (k - 1) <= sgn k (p j) - sgn k (total n (R j) mod 2 ^ k) < 2 ^ (k - 1)) ->
  exists z, trunc_s K k s n KS d N x (fun j => auth_trunc K k n gk d (R j) (RB j) (M j) (MB j)) cn coins (fun _ => 0) 0 = Ok z /\
    forall j, (j < N)%nat -> exists y, holds K k n gk (z j) y /\ truncated k d (p j) y (-1) 0.
Proof. intros E. now apply (trunc_H K k s n KS gk). Qed.

(* ---- C67: values out ---- *)
Theorem C67_reveal KS gk N x cn p coins : shA K n KS gk -> (forall j, (j < N)%nat -> holds K k n gk (x j) (p j)) -> (forall j, (j < N)%nat -> exists r, authentic K n gk (cn j) r) ->
  exists f, a2p_s K k s n KS N x cn coins (fun _ => 0) 0 = Ok f /\ forall j, (j < N)%nat -> f j = p j.
Proof. intros E. now apply (reveal_H K k s n KS gk). Qed.
Theorem C67_reveal_private KS gk rank N x cn cn' p R M rr coins : shA K n KS gk -> (rank < n)%nat -> (forall j, (j < N)%nat -> holds K k n gk (x j) (p j) /\ word K (rr j)) ->
  (forall j, (j < N)%nat -> exists r, authentic K n gk (cn j) r) -> (forall j, (j < N)%nat -> exists r, authentic K n gk (cn' j) r) ->
  exists f, a2v_s K k s n KS gk rank N x cn cn' R M rr coins (fun _ => 0) 0 = Ok f /\ forall j, (j < N)%nat -> f j = p j.
Proof. intros E. now apply (reveal_priv_H K k s n KS gk). Qed.
Theorem C67_output gk x p : holds K k n gk x p -> from_shares K k n x = p.
Proof. intros [v [[A _] P]]. exact (from_shares_val K k s n Hk Hs HK Hn x v p A P). Qed.
(* not so for an input that is revealed before any arithmetic: its MAC is zero and A2P does not call GetMacShare; the reveal throws
   except for few keys and coins *)
Theorem C67_reveal_input_fails N j0 KS v rs cn r coins : (j0 < N)%nat -> v j0 <> 0 ->
  (forall j, (j < N)%nat -> word k (v j) /\ length (rs j) = (n - 1)%nat /\ Forall (word K) (rs j)) ->
  (forall g, 0 <= g < 2 ^ s -> shA K n (KS g) g /\ forall j, (j < N)%nat -> authentic K n g (cn g j) (r g j)) ->
  4 * pairs s (fun c g => returns (a2p_s K k s n (KS g) N (fun j => to_shares K (v j) (rs j)) (cn g) (coin_at j0 c coins) (fun _ => 0) 0)) <= (s + 5) * 2 ^ s.
Proof.
  intros J V X H. apply (fresh_bound K k s n N j0 KS _ cn v r coins); auto.
  - destruct (X j0 J) as [W _]. change (wrap k (v j0) <> 0). now rewrite (wrap_small k _ W).
  - intros g Gg. destruct (H g Gg) as [HS HC]. split; [exact HS|]. intros j L. destruct (X j L) as (W & Lr & F). split; [now apply (to_shares_val K k s n)|]. split; [reflexivity|now apply HC].
Qed.

(* ---- C68: deviations ---- *)
(* a check passes exactly when the key times the combined error is what was added to the responses *)
Theorem C68_check KS gk N coins m w e resp : shA K n KS gk -> 0 < k + s -> (forall j, (j < N)%nat -> authentic K n gk (m j) (w j)) ->
  mac_check K k s n KS N coins (fun j => opening K n (av (m j)) (e j)) (fun j => am (m j)) resp = true <->
  exists q, dot N (fun j => coins j mod 2 ^ s) e * gk = resp + q * 2 ^ (k + s).
Proof.
  intros E P X. rewrite (check_opened K k s n KS gk ltac:(lia) Hn (shA_eqm K n KS gk ltac:(lia) E) N coins m w e resp P HK X). split.
  - apply eqm_exists. lia.
  - intros [q ->]. apply eqm_mult.
Qed.
Theorem C68_reveal N j0 KS x cn v r coins e resp : (j0 < N)%nat ->
  (forall g, 0 <= g < 2 ^ s -> shA K n (KS g) g /\ forall j, (j < N)%nat -> authentic K n g (x g j) (v j) /\ authentic K n g (cn g j) (r g j)) ->
  4 * pairs s (fun c g => wrong (a2p_s K k s n (KS g) N (x g) (cn g) (coin_at j0 c coins) e (resp c)) j0 (v j0 mod 2 ^ k)) <= (s + 5) * 2 ^ s.
Proof. now apply a2p_detects. Qed.
Theorem C68_reveal_private rank N j0 KS x cn cn' v r r' R M rr coins e resp : (rank < n)%nat -> (j0 < N)%nat -> (forall j, word K (rr j)) ->
  (forall g, 0 <= g < 2 ^ s -> shA K n (KS g) g /\ forall j, (j < N)%nat -> authentic K n g (x g j) (v j) /\ authentic K n g (cn g j) (r g j) /\ authentic K n g (cn' g j) (r' g j)) ->
  4 * pairs s (fun c g => wrong (a2v_s K k s n (KS g) g rank N (x g) (cn g) (cn' g) R M rr (coin_at j0 c coins) e (resp c)) j0 (v j0 mod 2 ^ k)) <= (s + 5) * 2 ^ s.
Proof. now apply a2v_detects. Qed.
Theorem C68_mul N j0 KS x y tr v w va vb vc coins1 coins2 e f resp1 resp2 : (j0 < N)%nat ->
  (forall g, 0 <= g < 2 ^ s -> shA K n (KS g) g /\ forall j, (j < N)%nat -> authentic K n g (x g j) (v j) /\ authentic K n g (y g j) (w j) /\
     authentic K n g (fst (fst (tr g j))) (va g j) /\ authentic K n g (snd (fst (tr g j))) (vb g j) /\ authentic K n g (snd (tr g j)) (vc g j) /\ is_mod K (va g j * vb g j) (vc g j)) ->
  (e j0 mod 2 ^ k <> 0 -> 4 * pairs s (fun c g => returns (mul_aa_s K k s n (KS g) N (x g) (y g) (tr g) (coin_at j0 c coins1) coins2 e f (resp1 c) (resp2 c))) <= (s + 5) * 2 ^ s) /\
  (f j0 mod 2 ^ k <> 0 -> 4 * pairs s (fun c g => returns (mul_aa_s K k s n (KS g) N (x g) (y g) (tr g) coins1 (coin_at j0 c coins2) e f (resp1 c) (resp2 c))) <= (s + 5) * 2 ^ s).
Proof. now apply mul_detects. Qed.
(* errors above the k low bits may pass, but change nothing *)
Theorem C68_mul_high_errors KS gk N x y p q P B C MP MB MC coins1 coins2 e f resp1 resp2 z : shA K n KS gk ->
  (forall j, (j < N)%nat -> holds K k n gk (x j) (p j) /\ holds K k n gk (y j) (q j) /\ words K n (P j) /\ words K n (B j) /\ words K n (C j) /\ words K n (MP j) /\ words K n (MB j) /\ words K n (MC j)) ->
  (forall j, (j < N)%nat -> e j mod 2 ^ k = 0 /\ f j mod 2 ^ k = 0) ->
  mul_aa_s K k s n KS N x y (fun j => auth_mul K n gk (P j) (B j) (C j) (MP j) (MB j) (MC j)) coins1 coins2 e f resp1 resp2 = Ok z ->
  forall j, (j < N)%nat -> exists t, is_mod k (p j * q j) t /\ holds K k n gk (z j) t.
Proof. intros E X EF Ez. exact (proj1 (mul_H K k s n KS gk Hk Hs HK Hn E N x y p q P B C MP MB MC coins1 coins2 e f resp1 resp2 X EF) z Ez). Qed.
Theorem C68_trunc d N j0 KS x tr cn v r cc coins e resp : 0 <= d < k -> (j0 < N)%nat -> e j0 mod 2 ^ k <> 0 ->
  (forall g, 0 <= g < 2 ^ s -> shA K n (KS g) g /\ forall j, (j < N)%nat -> authentic K n g (x g j) (v j) /\ word k (r g j) /\
     authentic K n g (fst (tr g j)) (r g j) /\ authentic K n g (snd (tr g j)) (wrap k (sgn k (r g j) / 2 ^ d)) /\ authentic K n g (cn g j) (cc g j)) ->
  4 * pairs s (fun c g => returns (trunc_s K k s n (KS g) d N (x g) (tr g) (cn g) (coin_at j0 c coins) e (resp c))) <= (s + 5) * 2 ^ s.
Proof. now apply trunc_detects. Qed.
(* not so for MatMulAA, which checks nothing: the tampered product carries a valid MAC *)
Theorem C68_matmul_shifted KS gk Q x y p q P B C MP MB MC e f i j : shA K n KS gk ->
  (forall a, (a < n)%nat -> word K (C a i j) /\ word K (MC a i j) /\ forall l, (l < Q)%nat -> word K (P a i l) /\ word K (B a l j) /\ word K (MP a i l) /\ word K (MB a l j)) ->
  (forall l, (l < Q)%nat -> holds K k n gk (x i l) (p i l) /\ holds K k n gk (y l j) (q l j)) ->
  let t := auth_dot K n gk Q P B C MP MB MC in
  exists z, is_mod k (dot Q (fun l => p i l + e i l) (fun l => q l j + f l j)) z /\ holds K k n gk (matmul_aa_s K n KS Q x y (fst (fst t)) (snd (fst t)) (snd t) e f i j) z.
Proof. intros E. now apply (matmul_H K k s n KS gk). Qed.
(* nor for a private input: a party m that shifts its share before AuthArrayRef shifts the owner's input *)
Theorem C68_input_shifted gk o m R M x d cn r : (o < n)%nat -> (m < n)%nat -> word k x -> authentic K n gk cn r ->
  let v := fun i => radd K (av (v2a_s K n gk o R M x cn) i) (if (i =? m)%nat then d else 0) in
  exists t, is_mod k (x + d) t /\ holds K k n gk (mkash v (auth_array K n gk v cn)) t.
Proof. apply (shifted_input K k s); assumption. Qed.
End Props.

(* RandA keeps two bits of the runtime ring free, not of the data ring *)
Theorem C67_rand_range_refuted : exists K k s n gk W cn r p, 0 < k /\ k + s <= K /\ words K n W /\ authentic K n gk cn r /\
  holds K k n gk (rand_a K n gk W cn) p /\ ~ - 2 ^ (k - 2) <= sgn k p < 2 ^ (k - 2).
Proof.
  exists 64, 32, 32, 2%nat, 5, (sh2 (2 ^ 33) 0), (coin0 64 32 2 5), 0, (2 ^ 31). split; [lia|]. split; [lia|].
  assert (W : words 64 2 (sh2 (2 ^ 33) 0)) by (apply words_sh2; split; lia). split; [exact W|].
  assert (C : authentic 64 2 5 (coin0 64 32 2 5) 0) by (apply coin0_ok; lia). split; [exact C|].
  split; [exact (rand_H 64 32 32 2 5 ltac:(lia) ltac:(lia) ltac:(lia) ltac:(lia) _ _ 0 W C)|]. intros [H _]. apply H. reflexivity.
Qed.
Theorem C67_reveal_input_refuted : exists K k s n KS gk x rs cn r coins, 0 < k /\ k + s <= K /\ shA K n KS gk /\ authentic K n gk (cn 0%nat) r /\ word k x /\
  length rs = (n - 1)%nat /\ Forall (word K) rs /\ a2p_s K k s n KS 1 (fun _ => to_shares K x rs) cn coins (fun _ => 0) 0 = Err.
Proof.
  exists 4, 2, 2, 2%nat, (sh2 1 2), 3, 1, [7], (fun _ => coin0 4 2 2 3), 0, (fun _ => 1).
  split; [lia|]. split; [lia|]. split; [apply shAb_ok; reflexivity|]. split; [apply coin0_ok; lia|]. split; [split; lia|]. split; [reflexivity|].
  split; [repeat constructor; lia|vm_compute; reflexivity].
Qed.
Theorem C68_matmul_refuted : exists K k s n KS gk x y a b c va vb vc e, 0 < k /\ k + s <= K /\ shA K n KS gk /\
  authentic K n gk (x 0%nat 0%nat) 1 /\ authentic K n gk (y 0%nat 0%nat) 1 /\ authentic K n gk (a 0%nat 0%nat) va /\ authentic K n gk (b 0%nat 0%nat) vb /\ authentic K n gk (c 0%nat 0%nat) vc /\ is_mod K (va * vb) vc /\
  forall cn coins, (exists r, authentic K n gk (cn 0%nat) r) ->
    exists f, a2p_s K k s n KS 1 (fun _ => matmul_aa_s K n KS 1 x y a b c e (fun _ _ => 0) 0 0) cn coins (fun _ => 0) 0 = Ok f /\ f 0%nat = 2.
Proof.
  set (one := fun _ _ : nat => mkash (sh2 1 0) (sh2 3 0)). set (zero := fun _ _ : nat => mkash (sh2 0 0) (sh2 0 0)).
  exists 4, 2, 2, 2%nat, (sh2 1 2), 3, one, one, zero, zero, zero, 0, 0, 0, (fun _ _ => 1).
  assert (KO : shA 4 2 (sh2 1 2) 3) by (apply shAb_ok; reflexivity).
  assert (O1 : authentic 4 2 3 (one 0%nat 0%nat) 1) by (apply authb_ok; [lia|reflexivity]). assert (Z1 : authentic 4 2 3 (zero 0%nat 0%nat) 0) by (apply authb_ok; [lia|reflexivity]).
  split; [lia|]. split; [lia|]. split; [exact KO|]. split; [exact O1|]. split; [exact O1|]. split; [exact Z1|]. split; [exact Z1|]. split; [exact Z1|]. split; [split; [split; lia|exists 0; lia]|].
  intros cn coins C. destruct (C67_reveal 4 2 2 2 ltac:(lia) ltac:(lia) ltac:(lia) ltac:(lia) (sh2 1 2) 3 1 (fun _ => matmul_aa_s 4 2 (sh2 1 2) 1 one one zero zero zero (fun _ _ => 1) (fun _ _ => 0) 0 0) cn (fun _ => 2) coins KO) as [f [E F]].
  - intros j J. exists 2. split; [apply authb_ok; [lia|vm_compute; reflexivity]|split; [split; lia|exists 0; lia]].
  - intros j J. now replace j with 0%nat by lia.
  - exists f. split; [exact E|apply F; lia].
Qed.

(* ---- concrete cases: 2-bit data in the 4-bit ring, two parties, key 3 shared as 1 + 2 ---- *)
Definition exKS := sh2 1 2.
Example C67_ex_hyp : shA 4 2 exKS 3 /\ holds 4 2 2 3 (mkash (sh2 9 5) (sh2 1 9)) 2 /\ exists r, authentic 4 2 3 (coin0 4 2 2 3) r.
Proof.
  split; [apply shAb_ok; reflexivity|]. split; [exists 14; split; [apply authb_ok; [lia|reflexivity]|split; [split; lia|exists (-3); lia]]|]. exists 0. apply coin0_ok; lia.
Qed.
Example C67_ex_reveal : exists f, a2p_s 4 2 2 2 exKS 1 (fun _ => mkash (sh2 9 5) (sh2 1 9)) (fun _ => coin0 4 2 2 3) (fun _ => 3) (fun _ => 0) 0 = Ok f /\ forall j, (j < 1)%nat -> f j = 2.
Proof.
  apply (C67_reveal 4 2 2 2 ltac:(lia) ltac:(lia) ltac:(lia) ltac:(lia) exKS 3 1 _ _ (fun _ => 2)); [apply C67_ex_hyp|intros; apply C67_ex_hyp|intros; apply C67_ex_hyp].
Qed.
Example C67_ex_mul : exists z, mul_aa_s 4 2 2 2 exKS 1 (fun _ => mkash (sh2 9 5) (sh2 1 9)) (fun _ => mkash (sh2 3 0) (sh2 9 0)) (fun _ => auth_mul 4 2 3 (sh2 7 1) (sh2 2 2) (sh2 0 5) (sh2 0 0) (sh2 1 0) (sh2 6 6)) (fun _ => 1) (fun _ => 2) (fun _ => 0) (fun _ => 0) 0 0 = Ok z /\
  from_shares 4 2 2 (z 0%nat) = 2.
Proof.
  destruct (C67_mul 4 2 2 2 ltac:(lia) ltac:(lia) ltac:(lia) ltac:(lia) exKS 3 1 (fun _ => mkash (sh2 9 5) (sh2 1 9)) (fun _ => mkash (sh2 3 0) (sh2 9 0)) (fun _ => 2) (fun _ => 3)
    (fun _ => sh2 7 1) (fun _ => sh2 2 2) (fun _ => sh2 0 5) (fun _ => sh2 0 0) (fun _ => sh2 1 0) (fun _ => sh2 6 6) (fun _ => 1) (fun _ => 2) (proj1 C67_ex_hyp)) as [z [E F]].
  - intros j J. split; [apply C67_ex_hyp|]. split; [exists 3; split; [apply authb_ok; [lia|reflexivity]|split; [split; lia|exists 0; lia]]|].
    do 5 (split; [apply words_sh2; split; lia|]). apply words_sh2; split; lia.
  - exists z. split; [exact E|]. destruct (F 0%nat ltac:(lia)) as [t [T H]]. rewrite (C67_output 4 2 2 2 ltac:(lia) ltac:(lia) ltac:(lia) ltac:(lia) 3 _ t H).
    rewrite (is_mod_eq 2 _ t ltac:(lia) T). reflexivity.
Qed.
Example C67_ex_trunc : exists z, trunc_s 4 2 2 2 exKS 1 1 (fun _ => mkash (sh2 9 5) (sh2 1 9)) (fun _ => auth_trunc 4 2 2 3 1 (sh2 7 0) (sh2 1 1) (sh2 0 0) (sh2 2 2)) (fun _ => coin0 4 2 2 3) (fun _ => 1) (fun _ => 0) 0 = Ok z /\
  forall j, (j < 1)%nat -> exists y, holds 4 2 2 3 (z j) y /\ truncated 2 1 2 y (-1) 0.
Proof.
  apply (C67_trunc 4 2 2 2 ltac:(lia) ltac:(lia) ltac:(lia) ltac:(lia) exKS 3 1 1 _ (fun _ => 2) (fun _ => sh2 7 0) (fun _ => sh2 1 1) (fun _ => sh2 0 0) (fun _ => sh2 2 2)); [apply C67_ex_hyp|lia|].
  intros j J. split; [apply C67_ex_hyp|]. split; [apply words_sh2; split; lia|]. split; [apply words_sh2; split; lia|]. split; [apply words_sh2; split; lia|]. split; [apply words_sh2; split; lia|].
  split; [apply C67_ex_hyp|vm_compute; split; [discriminate|reflexivity]].
Qed.
(* key g shared as g + 0, value 2 with MAC 2g *)
Definition exx (g : Z) (_ : nat) : ash := mkash (sh2 2 0) (sh2 ((2 * g) mod 16) 0).
Lemma upto_cases g : 0 <= g < 2 ^ 2 -> g = 0 \/ g = 1 \/ g = 2 \/ g = 3. Proof. change (2 ^ 2) with 4. lia. Qed.
Example C68_ex_hyp g : 0 <= g < 2 ^ 2 -> shA 4 2 (sh2 g 0) g /\ forall j, (j < 1)%nat -> authentic 4 2 g (exx g j) 2 /\ authentic 4 2 g (coin0 4 2 2 g) 0.
Proof.
  intros G0. split; [apply shAb_ok; destruct (upto_cases g G0) as [->|[->|[->| ->]]]; reflexivity|]. intros j J. split; [|apply coin0_ok; lia].
  apply authb_ok; [lia|]. destruct (upto_cases g G0) as [->|[->|[->| ->]]]; reflexivity.
Qed.
(* adding 1 to the opened value and 2c to the responses: of the 16 pairs (coin, key) these are let through, and the bound is 7 *)
Example C68_ex_reveal : pairs 2 (fun c g => wrong (a2p_s 4 2 2 2 (sh2 g 0) 1 (exx g) (fun _ => coin0 4 2 2 g) (coin_at 0 c (fun _ => 0)) (fun _ => 1) (2 * c)) 0 (2 mod 2 ^ 2)) = 7.
Proof. vm_compute. reflexivity. Qed.
Example C68_ex_reveal_bound : 4 * pairs 2 (fun c g => wrong (a2p_s 4 2 2 2 (sh2 g 0) 1 (exx g) (fun _ => coin0 4 2 2 g) (coin_at 0 c (fun _ => 0)) (fun _ => 1) (2 * c)) 0 (2 mod 2 ^ 2)) <= (2 + 5) * 2 ^ 2.
Proof.
  apply (C68_reveal 4 2 2 2 ltac:(lia) ltac:(lia) ltac:(lia) ltac:(lia) 1 0 (fun g => sh2 g 0) exx (fun g _ => coin0 4 2 2 g) (fun _ => 2) (fun _ _ => 0)); [lia|exact C68_ex_hyp].
Qed.
Print Assumptions C67_key. Print Assumptions C67_coin. Print Assumptions C67_bit. Print Assumptions C67_public. Print Assumptions C67_private. Print Assumptions C67_input.
Print Assumptions C67_negate. Print Assumptions C67_add. Print Assumptions C67_add_public. Print Assumptions C67_mul_public. Print Assumptions C67_lshift.
Print Assumptions C67_matmul_public. Print Assumptions C67_mul. Print Assumptions C67_matmul. Print Assumptions C67_trunc. Print Assumptions C67_reveal. Print Assumptions C67_reveal_private.
Print Assumptions C67_output. Print Assumptions C67_reveal_input_fails. Print Assumptions C67_rand_range_refuted. Print Assumptions C67_reveal_input_refuted.
Print Assumptions C68_check. Print Assumptions C68_reveal. Print Assumptions C68_reveal_private. Print Assumptions C68_mul. Print Assumptions C68_mul_high_errors. Print Assumptions C68_trunc.
Print Assumptions C68_matmul_shifted. Print Assumptions C68_input_shifted. Print Assumptions C68_matmul_refuted.
