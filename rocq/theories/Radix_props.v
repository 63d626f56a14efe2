(* C35: the radix sort of secret keys is a stable sort. *)
From Coq Require Import ZifyBool ZifyNat ZifyN.
From Verif Require Import Base Ring_model Ring_spec Perm_model Perm_spec Perm_proof Radix_model Radix_spec Radix_proof Radixs_proof Radixk_proof.
Open Scope nat_scope.

(* all operands are permuted by ONE order q of the rows, which sorts the keys lexicographically in the requested direction and keeps the order
   of rows with equal keys; for every shuffle, every number of keys and payloads, every direction, signed and unsigned keys *)
Theorem C35_radix_sort ord junk k n keys payload desc valid_bits rand shuffle :
  (forall m, Permutation (ord m) (seq 0 m)) -> (0 < k)%Z -> (Z.of_nat n < 2 ^ k)%Z ->
  keys <> [] -> Forall (key_ok k n valid_bits) keys -> Forall (fun x => length x = n) payload -> (forall t, is_perm n (rand t)) -> is_perm n shuffle ->
  exists q out, radix_sort ord junk k keys payload desc valid_bits rand shuffle = Ok out /\
    stable_order n desc (map (key_value k) keys) q /\ Forall2 (fun x y => gathered x q y) (map kwords keys ++ payload) out.
Proof. exact (fun O K N => radix_sort_ok ord junk O k n K N keys payload desc valid_bits rand shuffle). Qed.
Print Assumptions C35_radix_sort.
(* when the keys are arithmetic shares and no bit count is given, nothing is asked of their values *)
Theorem C35_full_width ord junk k n keys payload desc rand shuffle :
  (forall m, Permutation (ord m) (seq 0 m)) -> (0 < k)%Z -> (Z.of_nat n < 2 ^ k)%Z ->
  keys <> [] -> Forall (full_key k n) keys -> Forall (fun x => length x = n) payload -> (forall t, is_perm n (rand t)) -> is_perm n shuffle ->
  exists q out, radix_sort ord junk k keys payload desc None rand shuffle = Ok out /\
    stable_order n desc (map (key_value k) keys) q /\ Forall2 (fun x y => gathered x q y) (map kwords keys ++ payload) out.
Proof.
  intros O K N NE F FP R S. apply C35_radix_sort; auto. eapply Forall_impl; [|exact F]. intros key [W [B L]]. unfold key_ok, nbits_of. repeat split; auto; try lia.
  intros i I. assert (Wi : word k (nthZ (kwords key) i)) by (rewrite Forall_forall in W; apply W; now apply nth_In). unfold word in Wi. unfold key_value. rewrite B.
  assert (P : (2 ^ k = 2 * 2 ^ (k - 1))%Z) by (rewrite <- Z.pow_succ_r by lia; f_equal; lia).
  destruct (kuns key); [lia|]. split; [lia|]. destruct (Z.ltb_spec (nthZ (kwords key) i) (2 ^ (k - 1))); lia.
Qed.
Print Assumptions C35_full_width.
(* such an order is unique, so the result does not depend on the shuffles (nor on the order of parallel loops) *)
Theorem C35_shuffle_independent ord ord' junk junk' k n keys payload desc valid_bits rand shuffle rand' shuffle' :
  (forall m, Permutation (ord m) (seq 0 m)) -> (forall m, Permutation (ord' m) (seq 0 m)) -> (0 < k)%Z -> (Z.of_nat n < 2 ^ k)%Z ->
  keys <> [] -> Forall (key_ok k n valid_bits) keys -> Forall (fun x => length x = n) payload ->
  (forall t, is_perm n (rand t)) -> is_perm n shuffle -> (forall t, is_perm n (rand' t)) -> is_perm n shuffle' ->
  radix_sort ord junk k keys payload desc valid_bits rand shuffle = radix_sort ord' junk' k keys payload desc valid_bits rand' shuffle'.
Proof.
  intros O O' K N NE F FP R S R' S'.
  destruct (radix_sort_ok ord junk O k n K N keys payload desc valid_bits rand shuffle NE F FP R S) as [q [out [-> [Q G]]]].
  destruct (radix_sort_ok ord' junk' O' k n K N keys payload desc valid_bits rand' shuffle' NE F FP R' S') as [q' [out' [-> [Q' G']]]].
  f_equal. assert (q = q') as <- by (exact (stable_order_unique n desc _ q q' Q Q')). destruct Q as [P _].
  assert (FL : Forall (fun x => length x = n) (map kwords keys ++ payload)).
  { apply Forall_app. split; [|exact FP]. apply Forall_forall. intros x X. apply in_map_iff in X. destruct X as [key [<- X]]. rewrite Forall_forall in F. apply (F key X). }
  revert out' G'. induction G as [|x y xs ys Gx G IH]; intros out' G'; [inversion G'; reflexivity|]. inversion G' as [|? y' ? ys' Gx' G'']; subst. inversion FL as [|? ? Lx FL']; subst. f_equal; [|now apply IH].
  now apply (gathered_unique (length x) x q).
Qed.
Print Assumptions C35_shuffle_independent.
(* the permutation itself: position of every row in the stable order *)
Theorem C35_inverse_permutation ord junk k n keys desc valid_bits rand :
  (forall m, Permutation (ord m) (seq 0 m)) -> (0 < k)%Z -> (Z.of_nat n < 2 ^ k)%Z -> keys <> [] -> Forall (key_ok k n valid_bits) keys -> (forall t, is_perm n (rand t)) ->
  exists pn, gen_inv_perm_s ord junk k keys desc valid_bits rand = Ok (map Z.of_nat pn) /\ is_perm n pn /\
    forall i j, i < n -> j < n ->
      (nth i pn 0 < nth j pn 0 <-> row_before desc (map (key_value k) keys) i j \/ ((forall v, In v (map (key_value k) keys) -> v i = v j) /\ i < j)).
Proof. exact (fun O K N => gen_inv_perm_ok ord junk O k n K N keys desc valid_bits rand). Qed.
Print Assumptions C35_inverse_permutation.

(* two signed keys with negative entries and ties, a payload, 8-bit ring; different shuffles *)
Definition ex_keys := [mkKey [1; 255; 1; 0; 255]%Z 8 false; mkKey [7; 3; 7; 200; 2]%Z 8 true].
Example C35_ex : radix_sort (seq 0) 99 8 ex_keys [[10; 11; 12; 13; 14]%Z] false None (fun t => if Nat.even t then [4; 2; 0; 1; 3] else [1; 0; 3; 4; 2]) [3; 1; 4; 0; 2] =
    Ok [[255; 255; 0; 1; 1]; [2; 3; 200; 7; 7]; [14; 11; 13; 10; 12]]%Z /\
  radix_sort (fun m => rev (seq 0 m)) 5 8 ex_keys [[10; 11; 12; 13; 14]%Z] true None (fun t => [0; 1; 2; 3; 4]) [0; 2; 4; 1; 3] =
    Ok [[1; 1; 0; 255; 255]; [7; 7; 200; 3; 2]; [10; 12; 13; 11; 14]]%Z /\ Forall (key_ok 8 5 None) ex_keys.
Proof.
  split; [vm_compute; reflexivity|]. split; [vm_compute; reflexivity|]. unfold key_ok, key_fits. constructor; [|constructor; [|constructor]]; cbn [kwords kbits kuns nbits_of].
  all: split; [repeat constructor; cbn; lia|]; split; [cbn; lia|]; split; [lia|]; split; [reflexivity|]; intros i I; cbn [length] in I.
  all: destruct i as [|[|[|[|[|]]]]]; [..|lia]; cbv -[Z.le Z.lt lt]; lia.
Qed.
(* a requested number of bits *)
Example C35_valid_bits_ex : radix_sort (seq 0) 99 32 [mkKey [4294967295; 1; 0]%Z 32 false] [] false (Some 2) (fun _ => [2; 0; 1]) [1; 0; 2] = Ok [[4294967295; 0; 1]%Z].
Proof. vm_compute. reflexivity. Qed.

(* A signed key held as a boolean share of fewer bits than the ring (0 and 1 out of a comparison, cast to int32) is sorted as if its top
   bit were a sign bit: ascending order comes out descending. *)
Theorem C35_narrow_signed_key_refuted : exists key out, kuns key = false /\ Forall (word 32) (kwords key) /\ Forall (fun w => 0 <= w < 2 ^ Z.of_nat (kbits key))%Z (kwords key) /\
  radix_sort (seq 0) 0 32 [key] [] false None (fun _ => [0; 1; 2]) [0; 1; 2] = Ok out /\ out = [[1; 1; 0]%Z].
Proof. exists (mkKey [1; 0; 1]%Z 1 false), [[1; 1; 0]%Z]. split; [reflexivity|]. split; [repeat constructor; cbn; lia|]. split; [repeat constructor; cbn; lia|]. split; vm_compute; reflexivity. Qed.
Print Assumptions C35_narrow_signed_key_refuted.

(* _find_mergeable_keys is documented to group keys that are public or belong to one owner; two private keys of different owners in front of a
   secret key are grouped together (the owner is not recorded when the following key is secret), and merging them is then refused *)
Definition one_owner (g : list vis) : Prop := length g = 1 \/ exists o, Forall (fun v => v = Pub \/ v = Priv o) g.
Theorem C35_mergeable_keys_refuted : exists keys ends, find_mergeable_keys keys = Ok ends /\ ends = [2; 3] /\ ~ one_owner (firstn 2 keys).
Proof.
  exists [Priv 0; Priv 1; Sec], [2; 3]. split; [reflexivity|]. split; [reflexivity|]. intros [H|[o H]]; [discriminate|].
  inversion H as [|? ? [A|A] H']; subst; [discriminate|]. inversion H' as [|? ? [B|B] _]; subst; [discriminate|]. congruence.
Qed.
Print Assumptions C35_mergeable_keys_refuted.
Example C35_mergeable_ex : find_mergeable_keys [Pub; Priv 1; Priv 1; Priv 0; Priv 0; Sec; Sec] = Ok [3; 5; 6; 7].
Proof. reflexivity. Qed.
