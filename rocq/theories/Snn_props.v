(* C55: the SecureNN kernels.  C56: the SecureNN comparison.  In every theorem F gives what the generators of the parties produce, g is how much has
   been drawn from them, and [in_step g] says that neighbours have drawn the same amount, which every kernel preserves. *)
From Verif Require Import Base Ring_model Ring_spec Share_spec Party Semi_model Conv_model Conv_spec Conv_proof Snn_model Snn_spec Snn_proof Snc_proof Snw_proof.
From Coq Require Import Lia.
Open Scope Z_scope.

Section Props.
Variables (k : Z) (K : 0 < k) (F : nat -> list nat -> arr) (WF : generates k F).

(* into shares and out of them *)
Theorem C55_p2a : forall n g x, in_step g -> (forall i, (i < n)%nat -> word k (x i)) -> shares3 k n (fst (p2a3 k F n g x)) x /\ in_step (snd (p2a3 k F n g x)).
Proof. exact (p2a3_ok k K F WF). Qed.
Theorem C55_v2a : forall n owner g x, (owner < 3)%nat -> in_step g -> (forall i, (i < n)%nat -> word k (x i)) ->
  shares3 k n (fst (v2a3 k F n owner g x)) x /\ in_step (snd (v2a3 k F n owner g x)).
Proof. exact (v2a3_ok k K F WF). Qed.
Theorem C55_open : forall n X x i r, shares3 k n X x -> (i < n)%nat -> (r < 3)%nat -> a2p k 3 (fun p => X p i) r = x i /\ a2v k 3 (fun p => X p i) r r = x i.
Proof. exact (open3 k K). Qed.
Theorem C55_io : forall v x rs, word k x -> (exists r, rs = [r] /\ word k r) -> (match v with VPrivate o => (o < 3)%nat | _ => True end) ->
  from_shares k (match v with VPublic => KPublic | VPrivate o => KPrivate o | VSecret => KA end) (to_shares3 k v x rs) = Ok x.
Proof. exact (io3 k K). Qed.
Theorem C55_io_shares : forall n (x r : arr), (forall i, (i < n)%nat -> word k (x i) /\ word k (r i)) -> shares3 k n (fun p i => nthZ (to_shares3 k VSecret (x i) [r i]) p) x.
Proof. exact (io3_shares k K). Qed.

(* linear kernels *)
Theorem C55_add : forall n X Y x y, shares3 k n X x -> shares3 k n Y y -> shares3 k n (fun p i => add_aa k (X p i) (Y p i)) (fun i => (x i + y i) mod 2 ^ k).
Proof. exact (add_aa3 k K). Qed.
Theorem C55_add_public : forall n X x q, shares3 k n X x -> shares3 k n (fun p i => add_ap k p (X p i) (q i)) (fun i => (x i + q i) mod 2 ^ k).
Proof. exact (add_ap3 k K). Qed.
Theorem C55_negate : forall n X x, shares3 k n X x -> shares3 k n (fun p i => negate_a k (X p i)) (fun i => (- x i) mod 2 ^ k).
Proof. exact (negate3 k K). Qed.
Theorem C55_mul_public : forall n X x q, shares3 k n X x -> shares3 k n (fun p i => mul_ap k (X p i) (q i)) (fun i => (x i * q i) mod 2 ^ k).
Proof. exact (mul_ap3 k K). Qed.
Theorem C55_lshift : forall n X x s, 0 <= s -> shares3 k n X x -> shares3 k n (fun p i => lshift_a k s (X p i)) (fun i => (x i * 2 ^ s) mod 2 ^ k).
Proof. exact (lshift3 k K). Qed.
Theorem C55_matmul_public : forall M C N X x q, shares3 k (M * C) X x ->
  shares3 k (M * N) (fun p i => matmul_ap k C (fun r l => X p (r * C + l)%nat) (fun l c => q (l * N + c)%nat) (i / N) (i mod N)) (fun i => (dot C (fun l => x (i / N * C + l)%nat) (fun l => q (l * N + i mod N)%nat)) mod 2 ^ k).
Proof. exact (matmul_ap3 k K). Qed.

(* products with a dealt triple *)
Theorem C55_mul : forall n g X Y x y, in_step g -> shares3 k n X x -> shares3 k n Y y ->
  shares3 k n (fst (mulaa3 k F n g X Y)) (fun i => (x i * y i) mod 2 ^ k) /\ in_step (snd (mulaa3 k F n g X Y)).
Proof. exact (mulaa3_ok k K F WF). Qed.
Theorem C55_matmul : forall M C N g X Y x y, in_step g -> shares3 k (M * C) X x -> shares3 k (C * N) Y y ->
  let z := matmulaa3 k F M C N g X Y in in_step (snd z) /\ exists v, shares3 k (M * N) (fst z) v /\
    forall r c, (r < M)%nat -> (c < N)%nat -> v (r * N + c)%nat = dot C (fun l => x (r * C + l)%nat) (fun l => y (l * N + c)%nat) mod 2 ^ k.
Proof.
  intros M C N g X Y x y S SX SY. destruct (matmulaa3_ok k K F WF M C N g X Y x y S SX SY) as [A B]. split; [exact B|].
  exists (prod_at k C N x y). split; [exact A|intros r c _ HC; apply prod_at_rc; exact HC].
Qed.
(* MatMulAA_simple, the triple from P2's private randomness *)
Theorem C55_matmul_simple : forall M C N g a0 a1 b0 b1 c0 X Y x y, in_step g -> shares3 k (M * C) X x -> shares3 k (C * N) Y y ->
  let z := matmul_simple3 k F M C N g a0 a1 b0 b1 c0 X Y in in_step (snd z) /\ exists v, shares3 k (M * N) (fst z) v /\
    forall r c, (r < M)%nat -> (c < N)%nat -> v (r * N + c)%nat = dot C (fun l => x (r * C + l)%nat) (fun l => y (l * N + c)%nat) mod 2 ^ k.
Proof.
  intros M C N g a0 a1 b0 b1 c0 X Y x y S SX SY. destruct (matmul_simple3_ok k K F M C N g a0 a1 b0 b1 c0 X Y x y S SX SY) as [A B]. split; [exact B|].
  exists (prod_at k C N x y). split; [exact A|intros r c _ HC; apply prod_at_rc; exact HC].
Qed.
Theorem C55_truncate : forall d R RC RB X x vx, 1 < k -> 0 <= d <= k - 2 -> (forall p, (p < 3)%nat -> word k (R p) /\ word k (RC p) /\ word k (RB p)) ->
  shA k 3 X x -> signed_value k x vx -> - 2 ^ (k - 2) <= vx < 2 ^ (k - 2) ->
  let Z := truncapr3 k d R RC RB X in exists y, shA k 3 Z y /\ Z 2%nat = 0 /\ truncated k d x y 0 1.
Proof. exact (truncapr3_ok k K). Qed.
Theorem C55_and : forall w n g na nb X Y x y, k = 32 \/ k = 64 \/ k = 128 -> in_step g -> backtype (nb_and na nb) = Ok w ->
  (forall i, (i < n)%nat -> shBn k 3 na (fun p => X p i) (x i)) -> (forall i, (i < n)%nat -> shBn k 3 nb (fun p => Y p i) (y i)) ->
  in_step (snd (and_bb3 k F w n g X Y)) /\ forall i, (i < n)%nat -> shBn k 3 (nb_and na nb) (fun p => fst (and_bb3 k F w n g X Y) p i) (Z.land (x i) (y i)).
Proof. exact (and_bb3_ok k K F). Qed.

(* A random secret (RandA) has a share at P2, which the product ignores: it opens to (x0 + x1) y *)
Theorem C55_mul_random : forall n g (G Y : sharing) y, in_step g -> (forall p i, word k (G p i)) -> shares3 k n Y y ->
  shares3 k n (fst (mulaa3 k F n g (randa3 G) Y)) (fun i => ((rshr 2 (G 0%nat i) + rshr 2 (G 1%nat i)) * y i) mod 2 ^ k).
Proof. exact (randa_mul k K F WF). Qed.
End Props.
Print Assumptions C55_p2a.
Print Assumptions C55_v2a.
Print Assumptions C55_open.
Print Assumptions C55_io.
Print Assumptions C55_io_shares.
Print Assumptions C55_add.
Print Assumptions C55_add_public.
Print Assumptions C55_negate.
Print Assumptions C55_mul_public.
Print Assumptions C55_lshift.
Print Assumptions C55_matmul_public.
Print Assumptions C55_mul.
Print Assumptions C55_matmul.
Print Assumptions C55_matmul_simple.
Print Assumptions C55_truncate.
Print Assumptions C55_and.
Print Assumptions C55_mul_random.

Theorem C55_b2a : forall w, (5 <= w <= 7)%nat -> let k := 2 ^ Z.of_nat w in forall G rnd nb X x, brel k 3 nb X x ->
  (forall j p, (j < Z.to_nat nb)%nat -> (p < 3)%nat -> word k (G j p)) -> (forall j, (j < Z.to_nat nb)%nat -> exists b : bool, rnd j = Z.b2z b) ->
  exists A, b2a3 k G rnd X = Ok A /\ shA k 3 A x /\ A 2%nat = 0.
Proof. intros w [W5 W7]. exact (b2a3_ok w W5 W7). Qed.
Print Assumptions C55_b2a.
(* the kernels do not all compose: the product of a random secret 1 (P2's share) with a shared 1 opens to 0 *)
Theorem C55_mul_random_refuted : exists (G Y : sharing) x y, (forall p i, word 64 (G p i)) /\ shA 64 3 (fun p => randa3 G p 0%nat) x /\ shares3 64 1 Y (fun _ => y) /\ (x * y) mod 2 ^ 64 = 1 /\
  forall F g, generates 64 F -> in_step g -> shares3 64 1 (fst (mulaa3 64 F 1 g (randa3 G) Y)) (fun _ => 0).
Proof.
  assert (SY : shares3 64 1 (fun p _ => if (p =? 0)%nat then 1 else 0) (fun _ => 1)).
  { intros i _. split; [|reflexivity]. split; [intros p P; destruct p as [|[|[|p]]]; [| | |lia]; unfold word; cbn; lia|]. cbn; split; [unfold word; lia|exists 0; reflexivity]. }
  assert (WG : forall p i, word 64 ((fun p (_ : nat) => if (p =? 2)%nat then 4 else 0) p i)) by (intros p i; cbn; destruct (p =? 2)%nat; unfold word; lia).
  exists (fun p _ => if (p =? 2)%nat then 4 else 0), (fun p _ => if (p =? 0)%nat then 1 else 0), 1, 1. conj; [exact WG| |exact SY|reflexivity|].
  - split; [intros p P; destruct p as [|[|[|p]]]; [| | |lia]; unfold word; cbn; lia|]. cbn; split; [unfold word; lia|exists 0; reflexivity].
  - intros F g WF S. exact (C55_mul_random 64 ltac:(lia) F WF 1 g _ _ _ S WG SY).
Qed.
Print Assumptions C55_mul_random_refuted.

(* generators in step exist and the words they give can be anything *)
Definition F_ex : nat -> list nat -> arr := fun s h i => (Z.of_nat (17 * s + 1000 * length h + 37 * i) * 2654435761) mod 2 ^ 32.
Definition g_ex : gens := fun _ => ([2%nat], [2%nat]).
Example C55_gen_ex : generates 32 F_ex /\ in_step g_ex.
Proof. split; [intros s h i; unfold word, F_ex; apply Z.mod_pos_bound; lia|unfold in_step; cbn; auto]. Qed.
Definition X_ex : sharing := fst (p2a3 32 F_ex 2 g_ex (fun i => Z.of_nat i + 41)).
Definition Y_ex : sharing := fst (v2a3 32 F_ex 2 2 g_ex (fun i => 2 ^ 32 - 3 - Z.of_nat i)).
Example C55_ex : map (fun i => a2p 32 3 (fun p => X_ex p i) 1) [0; 1]%nat = [41; 42] /\ map (fun i => a2v 32 3 (fun p => Y_ex p i) 0 0) [0; 1]%nat = [2 ^ 32 - 3; 2 ^ 32 - 4] /\
  map (fun i => a2p 32 3 (fun p => fst (mulaa3 32 F_ex 2 g_ex X_ex Y_ex) p i) 0) [0; 1]%nat = [2 ^ 32 - 123; 2 ^ 32 - 168] /\
  map (fun i => a2p 32 3 (fun p => fst (matmulaa3 32 F_ex 1 2 1 g_ex X_ex Y_ex) p i) 2) [0]%nat = [2 ^ 32 - 291] /\
  map (fun i => map (fun p => fst (mulaa3 32 F_ex 2 g_ex X_ex Y_ex) p i) [0; 1; 2]%nat) [0]%nat <> [[2 ^ 32 - 123; 0; 0]].
Proof. vm_compute. repeat split; discriminate. Qed.
Example C55_trunc_ex : a2p 32 3 (truncapr3 32 4 (nthZ [77777; 123456789; 4000000000]) (nthZ [5; 6; 7]) (nthZ [8; 9; 10]) (nthZ [2 ^ 32 - 1000; 300; 200])) 0 = 2 ^ 32 - 31.
Proof. reflexivity. Qed.

(* ---- C56 ---- *)
Section Comparison.
Variables (k : Z) (K : 15 <= k) (K2 : k <= 128) (F : nat -> list nat -> arr) (WF : generates k F).
(* ShareConvert: shares modulo 2^k become shares modulo 2^k - 1 of the same value *)
Theorem C56_share_convert : forall R H a0 a1, conv_words k R -> conv_ranges k H -> word k a0 -> word k a1 -> conv_safe k (er R) (cr0 R) (cr1 R) (eta0 H) a0 ->
  let y := share_convert k R R H a0 a1 in word k (fst y) /\ word k (snd y) /\ cong1 k (fst y + snd y) ((a0 + a1) mod 2 ^ k).
Proof. intros R H a0 a1 WR RH W0 W1 [A B]. exact (share_convert_ok k K K2 R H a0 a1 WR RH W0 W1 A B). Qed.
(* Msb_a2b before its final A2B: shares of bit k - 2 of the secret *)
Theorem C56_msb : forall n g Hc Hm A v, let h := fst (g 1%nat) in in_step g ->
  (forall i, (i < n)%nat -> helper_ranges k (delta0 (Hc i)) (eta0 (Hc i)) (mx (Hm i)) (mx0 (Hm i)) (crz (Hc i)) (mrz (Hm i))) -> shares3 k n A v ->
  (forall i, (i < n)%nat -> conv_safe k (F 1%nat (h ++ [n]) i) (F 1%nat (h ++ [n; n]) i) (F 1%nat (h ++ [n; n; n]) i) (eta0 (Hc i)) ((2 * A 0%nat i) mod 2 ^ k)) ->
  (forall i, (i < n)%nat -> msb_safe k ((2 * v i) mod 2 ^ k) (mx (Hm i))) ->
  shares3 k n (fst (msb_arith k F n g Hc Hm A)) (fun i => Z.b2z (bit (v i) (k - 2))) /\ in_step (snd (msb_arith k F n g Hc Hm A)).
Proof. exact (msb_total k K K2 F WF). Qed.
(* which is the sign of values of a quarter of the field *)
Theorem C56_sign : forall s, - 2 ^ (k - 2) <= s < 2 ^ (k - 2) -> Z.b2z (bit (s mod 2 ^ k) (k - 2)) = if s <? 0 then 1 else 0.
Proof. exact (sign_bit k K). Qed.
(* for each value at most one of the helper's masks is not safe *)
Theorem C56_unsafe_rare : forall u x x', 0 <= x <= 2 ^ k - 2 -> 0 <= x' <= 2 ^ k - 2 -> ~ msb_safe k u x -> ~ msb_safe k u x' -> x = x'.
Proof. exact (unsafe_unique k K K2). Qed.
End Comparison.
Print Assumptions C56_share_convert.
Print Assumptions C56_msb.
Print Assumptions C56_sign.
Print Assumptions C56_unsafe_rare.

(* Msb_a2b with its final A2B (one element, the AND triples that C55_and says are dealt): a boolean sharing of the sign *)
Theorem C56_msb_a2b : forall w F n g Hc Hm A s TA TB TC tg RR, (5 <= w <= 7)%nat -> let k := 2 ^ Z.of_nat w in generates k F -> let h := fst (g 1%nat) in in_step g ->
  (forall i, (i < n)%nat -> helper_ranges k (delta0 (Hc i)) (eta0 (Hc i)) (mx (Hm i)) (mx0 (Hm i)) (crz (Hc i)) (mrz (Hm i))) ->
  shares3 k n A (fun i => s i mod 2 ^ k) -> (forall i, (i < n)%nat -> - 2 ^ (k - 2) <= s i < 2 ^ (k - 2)) ->
  (forall i, (i < n)%nat -> conv_safe k (F 1%nat (h ++ [n]) i) (F 1%nat (h ++ [n; n]) i) (F 1%nat (h ++ [n; n; n]) i) (eta0 (Hc i)) ((2 * A 0%nat i) mod 2 ^ k)) ->
  (forall i, (i < n)%nat -> msb_safe k ((2 * s i) mod 2 ^ k) (mx (Hm i))) ->
  good_triples 3 TA TB TC -> prss_words k 3 RR ->
  forall i, (i < n)%nat -> exists V, a2b k 3 TA TB TC tg RR (fun p => fst (msb_arith k F n g Hc Hm A) p i) = Ok V /\ brel k 3 k V (if s i <? 0 then 1 else 0).
Proof.
  intros w F n g Hc Hm A s TA TB TC tg RR [W5 W7] k WF h S RG SA SR CS MS GT PW i I.
  assert (K1 : 15 <= k) by (unfold k; pose proof (Z.pow_le_mono_r 2 5 (Z.of_nat w)); lia).
  assert (K2 : k <= 128) by (unfold k; pose proof (Z.pow_le_mono_r 2 (Z.of_nat w) 7); lia).
  destruct (C56_msb k K1 K2 F WF n g Hc Hm A _ S RG SA CS) as [H _].
  - intros j J. replace ((2 * (s j mod 2 ^ k)) mod 2 ^ k) with ((2 * s j) mod 2 ^ k) by (rewrite Zmult_mod_idemp_r; reflexivity). apply MS. exact J.
  - destruct (H i I) as [HA _]. rewrite (C56_sign k K1 (s i) (SR i I)) in HA.
    exact (a2b_ok w W5 W7 3 ltac:(lia) TA TB TC GT tg RR _ _ PW HA).
Qed.
Print Assumptions C56_msb_a2b.

(* ---- where the comparison is wrong ---- *)
(* outside a quarter of the field the result is not the sign: all of this goes through, yet 2^(k-2) is given the sign bit 1 *)
Theorem C56_range_refuted : forall k, 15 <= k -> exists s, - 2 ^ (k - 1) <= s < 2 ^ (k - 1) /\ Z.b2z (bit (s mod 2 ^ k) (k - 2)) <> (if s <? 0 then 1 else 0).
Proof.
  intros k K. exists (2 ^ (k - 2)). assert (P : 0 < 2 ^ (k - 2)) by lia. assert (P1 : 2 ^ (k - 1) = 2 * 2 ^ (k - 2)) by (replace (k - 1) with (1 + (k - 2)) by lia; rewrite Z.pow_add_r by lia; lia).
  split; [lia|]. destruct (Z.ltb_spec (2 ^ (k - 2)) 0); [lia|]. unfold bit. rewrite Z.mod_pow2_bits_low, Z.pow2_bits_true by lia. discriminate.
Qed.
Definition R_ex (e r0 r1 : Z) : conv_draw := {| zr := 9; er := e; cr0 := r0; cr1 := r1; cu := fun i => Z.of_nat i * 7 + 3; cs := fun i => Z.of_nat i * 5 + 1 |}.
Definition H_ex (eta : Z) : conv_help := {| delta0 := 3; eta0 := eta; crz := fun i => Z.of_nat i mod 131 |}.
Lemma R_ex_ok e r0 r1 : word 32 r0 -> word 32 r1 -> conv_words 32 (R_ex e r0 r1).
Proof. intros A B. unfold conv_words, R_ex. cbn. conj; [unfold word; lia|exact A|exact B|intros; lia]. Qed.
Lemma H_ex_ok eta : 0 <= eta <= 2 ^ 32 - 2 -> conv_ranges 32 (H_ex eta).
Proof. intros A. unfold conv_ranges, H_ex. cbn. conj; try lia; apply Z.mod_pos_bound; lia. Qed.
Lemma not_cong1 k a b : 1 < k -> a mod (2 ^ k - 1) <> b mod (2 ^ k - 1) -> ~ cong1 k a b.
Proof. intros K N [q Q]. apply N. rewrite Q. apply Z_mod_plus_full. Qed.
(* a safe run, as a check of the statement *)
Example C56_share_convert_ex : conv_safe 32 1 5 7 4 100 /\ let y := share_convert 32 (R_ex 1 5 7) (R_ex 1 5 7) (H_ex 4) 100 (2 ^ 32 - 20) in (fst y + snd y) mod (2 ^ 32 - 1) = 80.
Proof. split; [split; [discriminate|intros (_ & H & _); discriminate]|vm_compute; reflexivity]. Qed.
(* r0 + r1 = 0 modulo 2^k *)
Theorem C56_conv_zero_refuted : exists R H a0 a1, conv_words 32 R /\ conv_ranges 32 H /\ word 32 a0 /\ word 32 a1 /\
  let y := share_convert 32 R R H a0 a1 in ~ cong1 32 (fst y + snd y) ((a0 + a1) mod 2 ^ 32).
Proof.
  exists (R_ex 0 5 (2 ^ 32 - 5)), (H_ex 4), 100, 200. conj; [apply R_ex_ok; unfold word; lia|apply H_ex_ok; lia|unfold word; lia|unfold word; lia|]. apply not_cong1; [lia|]. vm_compute. discriminate.
Qed.
Print Assumptions C56_conv_zero_refuted.
(* P0's share of eta' is 1 when the comparison is inverted and a0 + r0 overflows *)
Theorem C56_conv_eta_refuted : exists R H a0 a1, conv_words 32 R /\ conv_ranges 32 H /\ word 32 a0 /\ word 32 a1 /\ (cr0 R + cr1 R) mod 2 ^ 32 <> 0 /\
  let y := share_convert 32 R R H a0 a1 in ~ cong1 32 (fst y + snd y) ((a0 + a1) mod 2 ^ 32).
Proof.
  exists (R_ex 1 5 7), (H_ex 1), (2 ^ 32 - 3), 200. conj; [apply R_ex_ok; unfold word; lia|apply H_ex_ok; lia|unfold word; lia|unfold word; lia|discriminate|]. apply not_cong1; [lia|]. vm_compute. discriminate.
Qed.
Print Assumptions C56_conv_eta_refuted.
Definition M_ex (b : Z) : msb_draw := {| bt := b; mu := fun i => Z.of_nat i * 7 + 3; ms := fun i => Z.of_nat i * 5 + 1; mz := 9; ma := 0; mb := 0; mc := 0 |}.
Definition N_ex (x : Z) : msb_help := {| mx := x; mx0 := 17; mrz := fun i => Z.of_nat i mod 131; ml := 5; mbs := 6 |}.
Lemma M_ex_ok b : same_draws 32 (M_ex b) (M_ex b).
Proof. unfold same_draws, M_ex. cbn. conj; try reflexivity; intros; lia. Qed.
Lemma N_ex_ok x : 0 <= x <= 2 ^ 32 - 2 -> msb_ranges 32 (N_ex x).
Proof. intros A. unfold msb_ranges, N_ex. cbn. conj; try lia; apply Z.mod_pos_bound; lia. Qed.
Example C56_msb_ex : (let y := msb3 32 (M_ex 1) (M_ex 1) (N_ex 23) (2 ^ 31) 200 in (fst y + snd y) mod 2 ^ 32) = 1 /\ (let y := msb3 32 (M_ex 0) (M_ex 0) (N_ex 23) 100 200 in (fst y + snd y) mod 2 ^ 32) = 0 /\ msb_safe 32 300 23.
Proof. vm_compute. conj; try reflexivity. discriminate. Qed.
(* the masked value is 2^k - 1: with an odd beta for any value, with an even beta for the value 0 *)
Theorem C56_msb_mask_refuted : exists b0 b1 H0 H1, Z.odd (bt b0) = false /\ Z.odd (bt b1) = true /\ same_draws 32 b0 b0 /\ same_draws 32 b1 b1 /\ msb_ranges 32 H0 /\ msb_ranges 32 H1 /\
  (let y := msb3 32 b1 b1 H1 100 200 in (fst y + snd y) mod 2 ^ 32 = 1) /\ (let y := msb3 32 b0 b0 H0 0 0 in (fst y + snd y) mod 2 ^ 32 = 1).
Proof.
  exists (M_ex 0), (M_ex 1), (N_ex 0), (N_ex (2 ^ 32 - 1 - 600)). conj; try reflexivity; try apply M_ex_ok; try (apply N_ex_ok; lia); vm_compute; reflexivity.
Qed.
Print Assumptions C56_msb_mask_refuted.

(* ---- threads ---- *)
(* one thread after the other: each element's words are those of the comparison *)
Theorem C56_threads_sequential : forall k rank e1 e2 wt, (0 < Z.to_nat k)%nat -> pc2 k rank e1 e2 (repeat true (Z.to_nat k) ++ repeat false (Z.to_nat k)) (Z.to_nat k) (Z.to_nat k) wt =
  (pc k rank (e_sel e1) (e_r e1) (e_t e1) (e_x e1) (e_u e1) (e_s e1) (Z.to_nat k) 0, pc k rank (e_sel e2) (e_r e2) (e_t e2) (e_x e2) (e_u e2) (e_s e2) (Z.to_nat k) 0).
Proof. exact pc2_seq. Qed.
Print Assumptions C56_threads_sequential.
(* when the threads alternate, the comparison of 300 with 100 no longer finds 300 > 100 *)
Definition rz_ex (i : nat) : Z := (Z.of_nat i * 3) mod 131.
Definition el_ex (r : Z) (x : nat -> Z) : elt := {| e_sel := 0; e_r := r; e_t := r + 1; e_x := x; e_u := fun _ => 5; e_s := Z.of_nat |}.
Theorem C56_threads_refuted : exists d0 e1 e2 s1 s2,
  d0 = pc 32 0 0 100 101 (dp0 rz_ex) (fun _ => 5) Z.of_nat 32 0 /\ e1 = el_ex 100 (dp1 32 300 rz_ex) /\ e2 = el_ex 7 (dp1 32 9 rz_ex) /\
  pc_zero 32 d0 (fst (pc2 32 1 e1 e2 s1 32 32 0)) = 1 /\ pc_zero 32 d0 (fst (pc2 32 1 e1 e2 s2 32 32 0)) = 0 /\
  s1 = repeat true 32 ++ repeat false 32 /\ s2 = flat_map (fun _ => [true; false]) (seq 0 32).
Proof.
  do 5 eexists. split; [reflexivity|]. split; [reflexivity|]. split; [reflexivity|]. split; [|split; [|split; reflexivity]]; vm_compute; reflexivity.
Qed.
Print Assumptions C56_threads_refuted.
(* a whole run: the conditions hold and the signs of -5 and 7 come out *)
Definition S_ex : sharing := fst (p2a3 32 F_ex 2 g_ex (fun i => if (i =? 0)%nat then 2 ^ 32 - 5 else 7)).
Example C56_run_ex : (let h := fst (push3 2 g_ex 1%nat) in forall i, (i < 2)%nat ->
    conv_safe 32 (F_ex 1%nat (h ++ [2%nat]) i) (F_ex 1%nat (h ++ [2; 2]%nat) i) (F_ex 1%nat (h ++ [2; 2; 2]%nat) i) 4 ((2 * S_ex 0%nat i) mod 2 ^ 32) /\
    msb_safe 32 ((2 * (if (i =? 0)%nat then 2 ^ 32 - 5 else 7)) mod 2 ^ 32) 23) /\
  let Z := fst (msb_arith 32 F_ex 2 (push3 2 g_ex) (fun _ => H_ex 4) (fun _ => N_ex 23) S_ex) in map (fun i => a2p 32 3 (fun p => Z p i) 0) [0; 1]%nat = [1; 0] /\ map (fun p => Z p 0%nat) [0; 1; 2]%nat <> [1; 0; 0].
Proof.
  split; [|vm_compute; split; [reflexivity|discriminate]]. intros h i I. unfold conv_safe. destruct i as [|[|i]]; [| |lia]; (split; [split; [vm_compute; discriminate|intros (_ & E & _); discriminate E]|vm_compute; discriminate]).
Qed.
