From Verif Require Import Base Ring_model Ring_spec Ring_proof Share_spec Party Semi_model Semi_proof Lowmc_model Lowmc_spec Lowmc_proof.
Open Scope Z_scope.

(* C75: the matrix products of the cipher are products over the field with two elements *)
Theorem C75_product lg rows y : gf2_product (2 ^ lg) rows y (dot_gf2 lg rows y).
Proof. exact (dot_product lg rows y). Qed.
Print Assumptions C75_product.
(* the table lookup of the plaintext cipher is the substitution formula *)
Theorem C75_substitution lg nb x : word (2 ^ Z.of_nat lg) x -> 3 * Z.of_nat nb <= 2 ^ Z.of_nat lg -> substituted nb x (substitution lg nb sbox_tab x).
Proof. exact (subst_ok lg nb x). Qed.
Print Assumptions C75_substitution.
(* the cipher on shares gives a sharing of the plaintext cipher's block, under the exclusive or of the parties' keys *)
Theorem C75_shared lg nb n T keys kmat0 rs X x : (0 < n)%nat -> 3 * Z.of_nat nb <= 2 ^ Z.of_nat lg -> (forall i, good_triple8 n (T i)) ->
  Z.of_nat (length kmat0) = 2 ^ Z.of_nat lg -> Forall (good_rnd (2 ^ Z.of_nat lg)) rs -> shB (2 ^ Z.of_nat lg) n X x ->
  shB (2 ^ Z.of_nat lg) n (lowmc_b lg nb n T kmat0 rs keys X) (encrypt lg nb kmat0 rs (xtotal n keys) x).
Proof. exact (lowmc_b_ok lg nb n T keys kmat0 rs X x). Qed.
Print Assumptions C75_shared.
(* decryption undoes encryption when the kept matrices invert the linear layers *)
Theorem C75_decrypt lg nb inv kmat0 rs key x : 3 * Z.of_nat nb <= 2 ^ Z.of_nat lg -> Z.of_nat (length kmat0) = 2 ^ Z.of_nat lg -> Forall (good_rnd (2 ^ Z.of_nat lg)) rs ->
  Forall (fun r => forall v, word (2 ^ Z.of_nat lg) v -> dot_gf2 lg (inv r) (dot_gf2 lg (lin r) v) = v) rs -> word (2 ^ Z.of_nat lg) x ->
  decrypt lg nb inv kmat0 rs key (encrypt lg nb kmat0 rs key x) = x.
Proof. exact (decrypt_ok lg nb inv kmat0 rs key x). Qed.
Print Assumptions C75_decrypt.
(* then the opened results of two blocks are equal exactly when the blocks are, whatever the sharings and triples *)
Theorem C75_equality lg nb n inv T T' keys kmat0 rs X X' x x' : (0 < n)%nat -> 3 * Z.of_nat nb <= 2 ^ Z.of_nat lg -> (forall i, good_triple8 n (T i)) -> (forall i, good_triple8 n (T' i)) ->
  Z.of_nat (length kmat0) = 2 ^ Z.of_nat lg -> Forall (good_rnd (2 ^ Z.of_nat lg)) rs ->
  Forall (fun r => forall v, word (2 ^ Z.of_nat lg) v -> dot_gf2 lg (inv r) (dot_gf2 lg (lin r) v) = v) rs ->
  shB (2 ^ Z.of_nat lg) n X x -> shB (2 ^ Z.of_nat lg) n X' x' ->
  (xtotal n (lowmc_b lg nb n T kmat0 rs keys X) = xtotal n (lowmc_b lg nb n T' kmat0 rs keys X') <-> x = x').
Proof.
  intros N B G G' L F I V V'. destruct (lowmc_b_ok lg nb n T keys kmat0 rs X x N B G L F V) as [_ [_ ->]]. destruct (lowmc_b_ok lg nb n T' keys kmat0 rs X' x' N B G' L F V') as [_ [_ ->]].
  split; [|now intros ->]. intros E. destruct V as [_ [W _]], V' as [_ [W' _]].
  rewrite <- (decrypt_ok lg nb inv kmat0 rs (xtotal n keys) x B L F I W), <- (decrypt_ok lg nb inv kmat0 rs (xtotal n keys) x' B L F I W'). now rewrite E.
Qed.
Print Assumptions C75_equality.
(* Without inverses the "only if" fails: the kernels build the cipher without the rank check (LowMcB::encrypt leaves need_decrypt
   false, lowmc.h:35-36, so lowmc.cc:357 accepts any drawn matrix), and whenever the first linear layer sends a nonzero block to zero, two different blocks have equal results under every key *)
Theorem C75_equality_refuted lg nb kmat0 rs r key d : 3 * Z.of_nat nb <= 2 ^ Z.of_nat lg -> Z.of_nat (length kmat0) = 2 ^ Z.of_nat lg ->
  word (2 ^ Z.of_nat lg) d -> d <> 0 -> dot_gf2 lg (lin r) d = 0 ->
  exists x y, word (2 ^ Z.of_nat lg) x /\ word (2 ^ Z.of_nat lg) y /\ x <> y /\ encrypt lg nb kmat0 (r :: rs) key x = encrypt lg nb kmat0 (r :: rs) key y.
Proof. exact (collision lg nb kmat0 rs r key d). Qed.
Print Assumptions C75_equality_refuted.
(* several inputs side by side: a sharing of the concatenation, which determines the inputs *)
Theorem C75_concat k n w Xs xs : 0 < k -> Forall2 (shB k n) Xs xs -> k * Z.of_nat (length xs) <= w ->
  shB w n (fun p => concat_bits k 0 (map (fun X => X p) Xs) 0) (concat_bits k 0 xs 0) /\
  forall ys, Forall (word k) ys -> length ys = length xs -> concat_bits k 0 ys 0 = concat_bits k 0 xs 0 -> ys = xs.
Proof.
  intros K H L. split; [now apply concat_shared|]. intros ys F E Q. apply (concat_inj k); auto. apply (Forall2_words k n Xs xs H).
Qed.
Print Assumptions C75_concat.
(* more bits than fit: a sharing of the sum of the matrix products *)
Theorem C75_remap lg n k ms Xs xs : Forall2 (shB k n) Xs xs -> Forall (fun m => Z.of_nat (length m) = 128) ms ->
  shB 128 n (fun p => remap lg ms (map (fun X => X p) Xs) 0) (remap lg ms xs 0).
Proof.
  intros H F. apply (remap_shared lg 128 n k ltac:(lia) ms Xs xs (fun _ => 0) 0 H F). split; [intros; apply word_0; lia|]. split; [apply word_0; lia|apply xtotal_0].
Qed.
Print Assumptions C75_remap.

(* eight-bit blocks, two boxes, two parties, one round *)
Definition ex_rnd : rnd := mkRnd [1; 2; 4; 8; 16; 32; 64; 129] 77 [3; 5; 9; 17; 33; 65; 129; 6].
Definition ex_kmat : list Z := [1; 2; 4; 8; 16; 32; 64; 128].
Definition ex_T (t : nat) : (nat -> Z) * (nat -> Z) * (nat -> Z) :=
  (fun p => if (p =? 0)%nat then 3 else 6, fun p => if (p =? 0)%nat then 7 else 0, fun p => if (p =? 0)%nat then 4 else 1).
Example C75_ex_hyp : (forall i, good_triple8 2 (ex_T i)) /\ Forall (good_rnd (2 ^ Z.of_nat 3)) [ex_rnd] /\ shB (2 ^ Z.of_nat 3) 2 (fun p => if (p =? 0)%nat then 200 else 91) 147 /\
  Forall (fun r => forall v, word (2 ^ Z.of_nat 3) v -> dot_gf2 3 (lin r) (dot_gf2 3 (lin r) v) = v) [ex_rnd].
Proof.
  split; [|split; [|split]].
  - intros i. split; [|reflexivity]. intros p P. destruct p as [|[|p]]; [| |lia]; cbn; unfold word; lia.
  - constructor; [|constructor]. repeat split; cbn; lia.
  - split; [intros p P; destruct p as [|[|p]]; [| |lia]; cbn; unfold word; lia|]. split; [unfold word; cbn; lia|reflexivity].
  - constructor; [|constructor]. intros v W. change (2 ^ Z.of_nat 3) with 8 in W. unfold word in W. change (2 ^ 8) with 256 in W.
    assert (C : forallb (fun i => dot_gf2 3 (lin ex_rnd) (dot_gf2 3 (lin ex_rnd) (Z.of_nat i)) =? Z.of_nat i) (seq 0 256) = true) by (vm_compute; reflexivity).
    rewrite forallb_forall in C. specialize (C (Z.to_nat v) ltac:(apply in_seq; lia)). rewrite Z2Nat.id in C by lia. now apply Z.eqb_eq in C.
Qed.
Example C75_ex : let y := encrypt 3 2 ex_kmat [ex_rnd] 90 147 in
  xtotal 2 (lowmc_b 3 2 2 ex_T ex_kmat [ex_rnd] (fun p => if (p =? 0)%nat then 65 else 27) (fun p => if (p =? 0)%nat then 200 else 91)) = y /\
  decrypt 3 2 lin ex_kmat [ex_rnd] 90 y = 147 /\ substitution 3 2 sbox_tab 214 = 221.
Proof. repeat split; reflexivity. Qed.
(* a drawn matrix with two equal rows, and a collision under the key 90 *)
Example C75_ex_singular : let r := mkRnd [1; 2; 4; 8; 16; 32; 64; 64] 77 ex_kmat in
  dot_gf2 3 (lin r) 128 = 0 /\ encrypt 3 2 ex_kmat [r] 90 5 = encrypt 3 2 ex_kmat [r] 90 133.
Proof. split; reflexivity. Qed.
