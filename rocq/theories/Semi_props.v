(* C09, C10, C11 (without the cache, see Beaver_props.v), C16, C17: semi2k kernels. *)
From Verif Require Import Base Ring_model Ring_spec Ring_proof Share_spec Party Semi_model Semi_proof Trunc_proof.
Open Scope Z_scope.

(* ---------------- C09 ---------------- *)
(* Sharing a value owned by any party, then opening, at every party. R is the correlated
   randomness: R i is what party i draws first and party i-1 draws second. *)
Theorem C09_private_to_arith k n o R x rank : 0 <= k -> (o < n)%nat -> (rank < n)%nat -> word k x ->
  shA k n (v2a_all k n o R x) x /\ a2p k n (v2a_all k n o R x) rank = x /\ a2v k n (v2a_all k n o R x) rank rank = x.
Proof.
  intros K O Rk W. assert (S := v2a_shares k n o R x K O W). split; [exact S|].
  split; [now apply a2p_opens|now apply a2v_opens].
Qed.
Print Assumptions C09_private_to_arith.
Example C09_private_ex : let R := fun i : nat => nth i [5; 4294967290; 77] 0 in
  map (v2a_all 32 3 1 R 4294967295) [0; 1; 2]%nat = [11; 4294967212; 72] /\ a2p 32 3 (v2a_all 32 3 1 R 4294967295) 2 = 4294967295.
Proof. split; reflexivity. Qed.

Theorem C09_public_to_arith k n R x rank : 0 <= k -> (0 < n)%nat -> (rank < n)%nat -> word k x ->
  shA k n (p2a_all k n R x) x /\ a2p k n (p2a_all k n R x) rank = x.
Proof. intros K N Rk W. destruct (C09_private_to_arith k n 0 R x rank K N Rk W) as [A [B _]]. split; assumption. Qed.
Print Assumptions C09_public_to_arith.
Example C09_public_ex : let R := fun i : nat => nth i [5; 9] 0 in a2p 64 2 (p2a_all 64 2 R 12) 1 = 12 /\ p2a_all 64 2 R 12 1%nat = 4.
Proof. split; reflexivity. Qed.

(* opening reconstructs the plaintext of ANY additive or boolean sharing, at every party *)
Theorem C09_open k n X x rank : 0 <= k -> (rank < n)%nat ->
  (shA k n X x -> a2p k n X rank = x /\ a2v k n X rank rank = x) /\ (shB k n X x -> b2p n X rank = x).
Proof.
  intros K R. split; [intros S; split; [now apply a2p_opens|now apply a2v_opens]|intros S; now apply (b2p_opens k)].
Qed.
Print Assumptions C09_open.
Example C09_open_ex : let X := fun i : nat => nth i [4294967295; 3; 4] 0 in shA 32 3 X 6 /\ shB 32 3 X 4294967288.
Proof. split; [apply shAb_ok|apply shBb_ok]; reflexivity. Qed.

Theorem C09_public_to_bool k n R x rank : 0 <= k -> (0 < n)%nat -> (rank < n)%nat -> word k x ->
  (forall i, (i < n)%nat -> word k (R i)) -> shB k n (p2b_all n R x) x /\ b2p n (p2b_all n R x) rank = x.
Proof.
  intros K N Rk W WR. assert (S := v2b_shares k n 0 R x K N W WR). split; [exact S|now apply (b2p_opens k)].
Qed.
Print Assumptions C09_public_to_bool.
Example C09_bool_ex : let R := fun i : nat => nth i [5; 9; 12] 0 in b2p 3 (p2b_all 3 R 100) 2 = 100 /\ p2b_all 3 R 100 0%nat = 104.
Proof. split; reflexivity. Qed.
(* the bit count stored with a public-to-boolean conversion covers every element *)
Theorem C09_bool_nbits k xs x : 0 <= k -> Forall (word k) xs -> In x xs -> 0 <= max_bitwidth k xs <= k /\ x < 2 ^ max_bitwidth k xs.
Proof. exact (max_bitwidth_ok k xs x). Qed.
Print Assumptions C09_bool_nbits.
Example C09_bool_nbits_ex : max_bitwidth 64 [0; 255; 256; 3] = 9 /\ max_bitwidth 64 [0; 0] = 0.
Proof. split; reflexivity. Qed.

(* I/O client: any visibility, recombination of the shares it hands out *)
Theorem C09_io_roundtrip k n v x rs : 0 <= k -> (0 < n)%nat -> word k x -> length rs = (n - 1)%nat -> Forall (word k) rs ->
  (forall o, v = VPrivate o -> (o < n)%nat) ->
  from_shares k (kind_of v) (to_shares k n v x rs) = Ok x /\ length (to_shares k n v x rs) = n.
Proof. exact (from_to_shares k n v x rs). Qed.
Print Assumptions C09_io_roundtrip.
Example C09_io_ex : to_shares 32 3 VSecret 7 [10; 4294967295] = [4294967294; 10; 4294967295] /\
  from_shares 32 KA [4294967294; 10; 4294967295] = Ok 7.
Proof. split; reflexivity. Qed.

(* I/O client: recombining the shares of any secret value, additive or boolean *)
Theorem C09_io_recombine k n X x : 0 <= k -> (0 < n)%nat ->
  (shA k n X x -> from_shares k KA (map X (seq 0 n)) = Ok x) /\ (shB k n X x -> from_shares k KB (map X (seq 0 n)) = Ok x).
Proof. exact (from_shares_any k n X x). Qed.
Print Assumptions C09_io_recombine.
Example C09_io_recombine_ex : let X := fun i : nat => nth i [4294967295; 3; 4] 0 in shA 32 3 X 6 /\ shB 32 3 X 4294967288 /\
  from_shares 32 KA [4294967295; 3; 4] = Ok 6 /\ from_shares 32 KB [4294967295; 3; 4] = Ok 4294967288.
Proof. conj; (apply shAb_ok || apply shBb_ok || idtac); reflexivity. Qed.

(* ---------------- C10 ---------------- *)
Theorem C10_add k n X Y x y p : 0 <= k -> (0 < n)%nat -> shA k n X x -> shA k n Y y -> word k p ->
  (exists s, is_mod k (x + y) s /\ shA k n (fun i => add_aa k (X i) (Y i)) s) /\
  (exists s, is_mod k (x + p) s /\ shA k n (fun i => add_ap k i (X i) p) s).
Proof.
  intros K N SX SY WP. split; eexists; (split; [apply wrap_is_mod; exact K|]); [now apply shA_add|now apply shA_add_ap].
Qed.
Print Assumptions C10_add.
Example C10_add_ex : let X := fun i : nat => nth i [4294967295; 3] 0 in let Y := fun i : nat => nth i [1; 4294967294] 0 in
  shA 32 2 X 2 /\ shA 32 2 Y 4294967295 /\ shA 32 2 (fun i => add_aa 32 (X i) (Y i)) 1 /\ shA 32 2 (fun i => add_ap 32 i (X i) 4294967295) 1.
Proof. conj; (apply shAb_ok || idtac); reflexivity. Qed.

Theorem C10_negate_mul_shift k n X x p s : 0 <= k -> shA k n X x ->
  (exists z, is_mod k (- x) z /\ shA k n (fun i => negate_a k (X i)) z) /\
  (exists z, is_mod k (x * p) z /\ shA k n (fun i => mul_ap k (X i) p) z) /\
  (exists z, is_mod k (x * 2 ^ s) z /\ shA k n (fun i => lshift_a k s (X i)) z).
Proof.
  intros K SX. split; [|split]; eexists; (split; [|(apply shA_neg || apply shA_mul_ap || apply shA_lshift); eassumption]).
  - rewrite rneg_wrap. now apply wrap_is_mod.
  - now apply wrap_is_mod.
  - now apply wrap_is_mod.
Qed.
Print Assumptions C10_negate_mul_shift.
Example C10_neg_ex : let X := fun i : nat => nth i [4294967295; 3; 5] 0 in
  shA 32 3 X 7 /\ shA 32 3 (fun i => negate_a 32 (X i)) 4294967289 /\ shA 32 3 (fun i => lshift_a 32 31 (X i)) 2147483648.
Proof. conj; (apply shAb_ok || idtac); reflexivity. Qed.

Theorem C10_matmul_public k n K X x P i j : 0 <= k -> (forall l, (l < K)%nat -> shA k n (fun p => X p i l) (x i l)) ->
  exists z, is_mod k (dot K (x i) (fun l => P l j)) z /\ shA k n (fun p => matmul_ap k K (X p) P i j) z.
Proof.
  intros K0 S. exists (ring_mmul k K x P i j). split; [|now apply shA_matmul_ap].
  unfold ring_mmul. now apply dot_loop_ok.
Qed.
Print Assumptions C10_matmul_public.
Example C10_matmul_ex : let X := fun (p r c : nat) => Z.of_nat (p * 100 + r * 10 + c) in
  shA 32 2 (fun p => matmul_ap 32 2 (X p) (fun l c => 4294967295 - Z.of_nat (l + c)) 1 1) 4294966690.
Proof. apply shAb_ok; reflexivity. Qed.

Theorem C10_bool k n na nb X Y x y p : (0 < n)%nat -> shBn k n na X x -> shBn k n nb Y y -> word k p -> p < 2 ^ nb ->
  shBn k n (nb_xor na nb) (fun i => xor_bb (X i) (Y i)) (Z.lxor x y) /\
  shBn k n (nb_xor na nb) (fun i => xor_bp i (X i) p) (Z.lxor x p) /\
  shBn k n (nb_and na nb) (fun i => and_bp (X i) p) (Z.land x p).
Proof.
  intros N SX SY WP HP. assert (NB : 0 <= nb <= k) by apply SY.
  split; [now apply shBn_xor|]. split; [now apply shBn_xor_bp|now apply shBn_and_bp].
Qed.
Print Assumptions C10_bool.
Example C10_bool_ex : let X := fun i : nat => nth i [200; 201; 12] 0 in shBn 8 3 4 X 13 /\ xtotal 3 (fun i => and_bp (X i) 7) = 5.
Proof. conj; [split; [apply shBb_ok; reflexivity|split; [lia|reflexivity]]|reflexivity]. Qed.

(* shifts of boolean shares; a shift list is applied per element, the bit count uses its extreme *)
Theorem C10_bool_shift k n nb smin smax s X x : 0 < k -> 0 <= smin <= s -> s <= smax -> shBn k n nb X x ->
  shBn k n (nb_lshift k nb smax) (fun i => lshift_b k s (X i)) (wrap k (x * 2 ^ s)) /\
  shBn k n (nb_rshift nb smin) (fun i => rshift_b s (X i)) (x / 2 ^ s) /\
  shBn k n k (fun i => arshift_b k s (X i)) (wrap k (sgn k x / 2 ^ s)).
Proof.
  intros K S1 S2 SX. split; [apply shBn_lshift; auto; lia|]. split; [apply shBn_rshift; auto; lia|apply (shBn_arshift k n nb); auto; lia].
Qed.
Print Assumptions C10_bool_shift.
Example C10_shift_ex : let X := fun i : nat => nth i [200; 201; 12] 0 in
  xtotal 3 (fun i => lshift_b 8 6 (X i)) = 64 /\ xtotal 3 (fun i => rshift_b 2 (X i)) = 3 /\ nb_lshift 8 4 6 = 8 /\ nb_rshift 4 2 = 2.
Proof. repeat split; reflexivity. Qed.

(* ---------------- C11 (triples given; the dealer and the cache are Beaver_props.v) ---------------- *)
Theorem C11_mul k n X Y A B C x y a b c : 0 <= k -> (0 < n)%nat -> shA k n X x -> shA k n Y y ->
  shA k n A a -> shA k n B b -> shA k n C c -> is_mod k (a * b) c ->
  exists z, is_mod k (x * y) z /\ shA k n (mul_aa_all k n X Y A B C) z.
Proof.
  intros K N SX SY SA SB SC T. exists (rmul k x y). split; [now apply wrap_is_mod|]. apply mul_aa_all_ok; auto.
  rewrite (shA_eqm k n A a K SA), (shA_eqm k n B b K SB), (shA_eqm k n C c K SC). unfold eqm. symmetry.
  destruct T as [W [q ->]]. apply eqm_mult.
Qed.
Print Assumptions C11_mul.
Example C11_mul_ex : let f l := fun i : nat => nth i l 0 in
  let X := f [4294967295; 3; 5] in let Y := f [7; 7; 7] in let A := f [1; 2; 3] in let B := f [4; 5; 4294967295] in let C := f [40; 10; 4294967294] in
  shA 32 3 X 7 /\ shA 32 3 Y 21 /\ shA 32 3 C 48 /\ shA 32 3 (mul_aa_all 32 3 X Y A B C) 147.
Proof. conj; (apply shAb_ok || idtac); reflexivity. Qed.

Theorem C11_square k n X A B x a b : 0 <= k -> (0 < n)%nat -> shA k n X x -> shA k n A a -> shA k n B b -> is_mod k (a * a) b ->
  exists z, is_mod k (x * x) z /\ shA k n (square_a_all k n X A B) z.
Proof.
  intros K N SX SA SB T. exists (rmul k x x). split; [now apply wrap_is_mod|]. apply square_all_ok; auto.
  rewrite (shA_eqm k n A a K SA), (shA_eqm k n B b K SB). unfold eqm. symmetry. destruct T as [W [q ->]]. apply eqm_mult.
Qed.
Print Assumptions C11_square.
Example C11_square_ex : let f l := fun i : nat => nth i l 0 in
  let X := f [4294967295; 3] in let A := f [1; 4] in let B := f [4294967295; 26] in
  shA 32 2 X 2 /\ shA 32 2 B 25 /\ shA 32 2 (square_a_all 32 2 X A B) 4.
Proof. conj; (apply shAb_ok || idtac); reflexivity. Qed.

Theorem C11_matmul k n K X Y A B C x y a b c i j : 0 <= k -> (0 < n)%nat ->
  (forall l, (l < K)%nat -> shA k n (fun p => X p i l) (x i l) /\ shA k n (fun p => A p i l) (a i l)) ->
  (forall l, (l < K)%nat -> shA k n (fun p => Y p l j) (y l j) /\ shA k n (fun p => B p l j) (b l j)) ->
  shA k n (fun p => C p i j) (c i j) -> is_mod k (dot K (a i) (fun l => b l j)) (c i j) ->
  exists z, is_mod k (dot K (x i) (fun l => y l j)) z /\ shA k n (fun p => matmul_aa_all k n K X Y A B C p i j) z.
Proof.
  intros K0 N SX SY SC T. exists (ring_mmul k K x y i j). split; [unfold ring_mmul; now apply dot_loop_ok|].
  apply matmul_all_ok; auto; [intros; now apply SX|intros; now apply SY|].
  transitivity (dot K (a i) (fun l => b l j)).
  - apply dot_eqm. intros l L. split; [apply (shA_eqm k n (fun p => A p i l)); auto; now apply SX|apply (shA_eqm k n (fun p => B p l j)); auto; now apply SY].
  - rewrite (shA_eqm k n (fun p => C p i j) (c i j) K0 SC). destruct T as [_ [q ->]]. symmetry. apply eqm_mult.
Qed.
Print Assumptions C11_matmul.
Example C11_matmul_ex :
  let X := fun (p r c : nat) => Z.of_nat (p + r + c) in let Y := fun (p r c : nat) => Z.of_nat (2 * p + r) in
  let A := fun (p r c : nat) => Z.of_nat (p + 3 * c) in let B := fun (p r c : nat) => Z.of_nat (r + 1) in
  let C := fun (p r c : nat) => if (p =? 0)%nat then 30 else 0 in
  shA 32 2 (fun p => matmul_aa_all 32 2 2 X Y A B C p 0%nat 0%nat) 14.
Proof. apply shAb_ok; reflexivity. Qed.

Theorem C11_mul_by_bit k X Y A B C x y a b c : 0 < k -> shA k 2 X x -> shB k 2 Y y ->
  shA k 2 A a -> shA k 2 B b -> shA k 2 C c -> is_mod k (a * b) c ->
  exists z, is_mod k (x * (if bit y 0 then 1 else 0)) z /\ shA k 2 (mul_a1b_all k X Y A B C) z.
Proof.
  intros K SX SY SA SB SC T. exists (rmul k x (y mod 2)). split.
  - replace (if bit y 0 then 1 else 0) with (y mod 2); [apply wrap_is_mod; lia|]. unfold bit. rewrite Z.bit0_odd, Zmod_odd. reflexivity.
  - apply a1b_ok; auto. rewrite (shA_eqm k 2 A a ltac:(lia) SA), (shA_eqm k 2 B b ltac:(lia) SB), (shA_eqm k 2 C c ltac:(lia) SC).
    unfold eqm. symmetry. destruct T as [W [q ->]]. apply eqm_mult.
Qed.
Print Assumptions C11_mul_by_bit.
Example C11_bit_ex : let f l := fun i : nat => nth i l 0 in
  let X := f [4294967295; 3] in let Y := f [1; 0] in let A := f [1; 4] in let B := f [2; 5] in let C := f [30; 5] in
  shA 32 2 X 2 /\ shB 32 2 Y 1 /\ shA 32 2 (mul_a1b_all 32 X Y A B C) 2.
Proof. split; [apply shAb_ok|split; [apply shBb_ok|apply shAb_ok]]; reflexivity. Qed.

Theorem C11_mul_private_private k A C V : 0 < k -> (exists q, C 0%nat + C 1%nat = A 0%nat * A 1%nat + q * 2 ^ k) ->
  exists z, is_mod k (V 0%nat * V 1%nat) z /\ shA k 2 (mulvvs_all k A C V) z.
Proof.
  intros K [q T]. exists (rmul k (V 0%nat) (V 1%nat)). split; [apply wrap_is_mod; lia|]. apply mulvvs_ok; auto. rewrite T. symmetry. apply eqm_mult.
Qed.
Print Assumptions C11_mul_private_private.
Example C11_vv_ex : let f l := fun i : nat => nth i l 0 in shA 32 2 (mulvvs_all 32 (f [3; 9]) (f [20; 7]) (f [11; 13])) 143.
Proof. apply shAb_ok; reflexivity. Qed.

(* boolean AND; w is the width of the chosen storage type *)
Theorem C11_and k n na nb w X Y A B C x y : 0 <= k -> (0 < n)%nat -> shBn k n na X x -> shBn k n nb Y y ->
  backtype (nb_and na nb) = Ok w -> (forall i, (i < n)%nat -> word w (A i) /\ word w (B i) /\ word w (C i)) ->
  Z.land (xtotal n A) (xtotal n B) = xtotal n C ->
  xtotal n (and_bb_all w n X Y A B C) = Z.land x y /\ (forall i, (i < n)%nat -> word w (and_bb_all w n X Y A B C i)) /\
  Z.land x y < 2 ^ nb_and na nb.
Proof. exact (and_bb_ok k w n na nb X Y A B C x y). Qed.
Print Assumptions C11_and.
Example C11_and_ex : let f l := fun i : nat => nth i l 0 in
  backtype (nb_and 9 3) = Ok 8 /\ xtotal 2 (and_bb_all 8 2 (f [300; 41]) (f [1000; 1006]) (f [3; 200]) (f [5; 7]) (f [2; 0])) = 4 /\
  Z.land (xtotal 2 (f [300; 41])) (xtotal 2 (f [1000; 1006])) = 4.
Proof. repeat split; reflexivity. Qed.

(* ---------------- C16 ---------------- *)
(* whenever the first share does not wrap, the error is 0 or 1 *)
Theorem C16_trunc k d X x v0 vx : 0 < k -> 0 <= d < k -> shA k 2 X x ->
  signed_value k (X 0%nat) v0 -> signed_value k x vx -> - 2 ^ (k - 1) <= v0 - vx < 2 ^ (k - 1) ->
  exists y, shA k 2 (fun i => trunc_a2 k d i (X i)) y /\ truncated k d x y 0 1.
Proof.
  intros K D SX [R0 E0] [Rx Ex] NW. apply trunc_a2_ok; auto. unfold no_wrap2.
  assert (U : forall a v, word k a -> - 2 ^ (k - 1) <= v < 2 ^ (k - 1) -> (exists q, v = a + q * 2 ^ k) -> sgn k a = v).
  { intros a v W R [q E]. rewrite <- (sgn_wrap k v K R). f_equal. rewrite E, eqm_mult. symmetry. now apply wrap_small. }
  rewrite (U _ v0), (U _ vx); auto; [now apply (shA_word k 2 X)|apply SX; lia].
Qed.
Print Assumptions C16_trunc.
Example C16_trunc_ex : let X := fun i : nat => nth i [123456789; 4171510553] 0 in
  shA 32 2 X 46 /\ signed_value 32 (X 0%nat) 123456789 /\ shA 32 2 (fun i => trunc_a2 32 3 i (X i)) 6.
Proof.
  split; [apply shAb_ok; reflexivity|]. split; [|apply shAb_ok; reflexivity]. split; [now vm_compute|]. exists 0. reflexivity.
Qed.
(* the number of first shares giving anything else is at most |x| *)
Theorem C16_trunc_failures k d x vx l : 0 < k -> 0 <= d < k -> word k x -> signed_value k x vx -> NoDup l ->
  (forall x0, In x0 l -> word k x0 /\ exists X, X 0%nat = x0 /\ shA k 2 X x /\
     forall y, shA k 2 (fun i => trunc_a2 k d i (X i)) y -> ~ truncated k d x y 0 1) ->
  Z.of_nat (length l) <= Z.abs vx.
Proof.
  intros K D W [Rx [q Ex]] ND B.
  assert (SG : sgn k x = vx). { rewrite <- (sgn_wrap k vx K Rx). f_equal. rewrite Ex, eqm_mult. symmetry. now apply wrap_small. }
  rewrite <- SG. apply (trunc_a2_count k d x l); auto. intros x0 I. destruct (B x0 I) as [W0 [X [X0 [SX F]]]]. split; [exact W0|].
  intros y SY. apply F.
  assert (E : forall i, (i < 2)%nat -> X i = split2 k x x0 i).
  { assert (W1 : word k (X 1%nat)) by (apply SX; lia). pose proof (shA_eqm k 2 X x ltac:(lia) SX) as T. cbn [total] in T.
    intros [|[|i]] I2; [exact X0| |lia]. unfold split2. cbn [Nat.eqb]. rewrite <- (wrap_small k (X 1%nat)) by exact W1.
    change (eqm k (X 1%nat) (x - x0)). rewrite <- T, X0. apply eqm_of_eq. ring. }
  destruct SY as [S1 S2]. split.
  - intros i I2. rewrite E by exact I2. now apply S1.
  - rewrite (total_ext 2 _ (fun i => trunc_a2 k d i (split2 k x x0 i))); [exact S2|]. intros i I2. now rewrite E.
Qed.
Print Assumptions C16_trunc_failures.
(* such first shares exist: 46 with first share -2^31 + 5 *)
Example C16_trunc_failures_ex : let X := fun i : nat => nth i [2147483653; 2147483689] 0 in
  shA 32 2 X 46 /\ shA 32 2 (fun i => trunc_a2 32 3 i (X i)) 3758096390.
Proof. split; apply shAb_ok; reflexivity. Qed.
(* three or more parties (truncation pair r, r >> d from the dealer) *)
Theorem C16_trunc_many k d n X R RB x r vx vr : 0 < k -> 0 <= d < k -> (0 < n)%nat -> shA k n X x -> shA k n R r ->
  signed_value k x vx -> signed_value k r vr -> shA k n RB (wrap k (vr / 2 ^ d)) -> - 2 ^ (k - 1) <= vx - vr < 2 ^ (k - 1) ->
  exists y, shA k n (trunc_an_all k d n X R RB) y /\ truncated k d x y (-1) 0.
Proof.
  intros K D N SX SR [Rx [qx Ex]] [Rr [qr Er]] SB NW.
  assert (U : forall a v q, word k a -> - 2 ^ (k - 1) <= v < 2 ^ (k - 1) -> v = a + q * 2 ^ k -> sgn k a = v).
  { intros a v q W R0 E. rewrite <- (sgn_wrap k v K R0). f_equal. rewrite E, eqm_mult. symmetry. now apply wrap_small. }
  assert (Ux : sgn k x = vx) by (apply (U x vx qx); auto; now apply (shA_word k n X)).
  assert (Ur : sgn k r = vr) by (apply (U r vr qr); auto; now apply (shA_word k n R)).
  apply (trunc_an_ok k d n X R RB x r); auto; unfold rsar; now rewrite ?Ux, Ur.
Qed.
Print Assumptions C16_trunc_many.
Example C16_trunc_many_ex : let f l := fun i : nat => nth i l 0 in
  let X := f [1000; 4294966396; 0] in let R := f [7; 8; 9] in let RB := f [1; 1; 1] in
  shA 32 3 X 100 /\ shA 32 3 R 24 /\ shA 32 3 RB (wrap 32 (24 / 2 ^ 3)) /\ shA 32 3 (trunc_an_all 32 3 3 X R RB) 12.
Proof. conj; (apply shAb_ok || idtac); reflexivity. Qed.
Theorem C16_trunc_many_failures k d n X x vx l : 0 < k -> 0 <= d < k -> (0 < n)%nat -> shA k n X x -> signed_value k x vx -> NoDup l ->
  (forall r, In r l -> word k r /\ exists R RB, shA k n R r /\ shA k n RB (rsar k d r) /\
     forall y, shA k n (trunc_an_all k d n X R RB) y -> ~ truncated k d x y (-1) 0) ->
  Z.of_nat (length l) <= Z.abs vx + 1.
Proof.
  intros K D N SX [Rx [q Ex]] ND B. assert (W := shA_word k n X x SX).
  assert (SG : sgn k x = vx). { rewrite <- (sgn_wrap k vx K Rx). f_equal. rewrite Ex, eqm_mult. symmetry. now apply wrap_small. }
  rewrite <- SG. now apply (trunc_an_count k d n X x l).
Qed.
Print Assumptions C16_trunc_many_failures.

(* ---------------- C17 ---------------- *)
(* for EVERY mask r; x within the documented range |x| <= 2^(k-2) *)
Theorem C17_truncpr k d n X R RC RB x r vx : 1 < k -> 0 <= d <= k - 2 -> (0 < n)%nat -> shA k n X x -> shA k n R r ->
  shA k n RC ((r mod 2 ^ (k - 1)) / 2 ^ d) -> shA k n RB (r / 2 ^ (k - 1)) ->
  signed_value k x vx -> - 2 ^ (k - 2) <= vx < 2 ^ (k - 2) ->
  exists y, shA k n (truncpr_all k d n X R RC RB) y /\ truncated k d x y 0 1.
Proof.
  intros K D N SX SR SC SB [Rx [q Ex]] RX. assert (W := shA_word k n X x SX). assert (K0 : 0 < k) by lia.
  assert (SG : sgn k x = vx). { rewrite <- (sgn_wrap k vx K0 Rx). f_equal. rewrite Ex, eqm_mult. symmetry. now apply wrap_small. }
  apply (truncpr_ok k d n X R RC RB x r); auto. lia.
Qed.
Print Assumptions C17_truncpr.
Example C17_truncpr_ex : let f l := fun i : nat => nth i l 0 in
  let X := f [1000; 4294966196; 0] in let R := f [4294967295; 2; 2] in let RC := f [0; 0; 0] in let RB := f [1; 1; 4294967294] in
  shA 32 3 X 4294967196 /\ signed_value 32 4294967196 (-100) /\ shA 32 3 R 3 /\ shA 32 3 RB 0 /\ shA 32 3 (truncpr_all 32 3 3 X R RC RB) 4294967283.
Proof. conj; [|split; [split; [discriminate|reflexivity]|exists (-1); reflexivity]| | |]; apply shAb_ok; vm_compute; reflexivity. Qed.
Theorem C17_truncpr2 k d w X A C x vx : 1 < k -> 1 <= d < k -> trunc_field d = Ok w -> shA k 2 X x ->
  (exists q, C 0%nat + C 1%nat = A 0%nat * A 1%nat + q * 2 ^ w) ->
  signed_value k x vx -> - 2 ^ (k - 2) <= vx < 2 ^ (k - 2) ->
  exists y, shA k 2 (truncpr2_all k d w A C X) y /\ truncated k d x y 0 1.
Proof.
  intros K D TF SX [q0 T] [Rx [q Ex]] RX. assert (W := shA_word k 2 X x SX). assert (K0 : 0 < k) by lia.
  assert (SG : sgn k x = vx). { rewrite <- (sgn_wrap k vx K0 Rx). f_equal. rewrite Ex, eqm_mult. symmetry. now apply wrap_small. }
  apply (truncpr2_ok k d w X A C x); auto; [|lia]. rewrite T. symmetry. apply eqm_mult.
Qed.
Print Assumptions C17_truncpr2.
Example C17_truncpr2_ex : let f l := fun i : nat => nth i l 0 in
  let X := f [4294967000; 196] in
  trunc_field 18 = Ok 32 /\ shA 32 2 X 4294967196 /\ shA 32 2 (truncpr2_all 32 3 32 (f [3; 9]) (f [20; 7]) X) 4294967284.
Proof. conj; (apply shAb_ok || idtac); reflexivity. Qed.
