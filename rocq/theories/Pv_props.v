(* C29, C35, C52: theorems about the sorting kernels on public and private data and the sort of keys of any visibility. *)
From Coq Require Import ZifyBool ZifyNat ZifyN.
From Verif Require Import Base Ring_model Ring_spec Ring_proof Party Perm_model Perm_spec Perm_proof Fold Scan_model Scan_proof Radix_model Radix_spec Radix_proof Radixs_proof Radixk_proof Pv_model Pv_spec Pv_proof Pvg_proof Pvm_proof Pvs_proof Pva_proof.
Open Scope nat_scope.
Notation wordsof x := (kwords (pkey x)).

(* C29: applied to any column, the generated inverse permutation moves the rows into the stable order of the signed keys *)
Theorem C29_sorting_permutation junk k x y asc :
  (0 < k)%Z -> (Z.of_nat (length x) < 2 ^ k)%Z -> length y = length x ->
  exists perm q out, gen_inv_perm_p junk k x asc = Ok perm /\ inv_perm_pp junk y perm = Ok out /\
    stable_order (length x) (negb asc) [sval k x] q /\ gathered y q out.
Proof.
  intros K N L. destruct (gen_inv_perm_p_ok junk k (length x) K N x asc eq_refl) as [pn [E P]]. destruct (inverse_exists (length x) pn (proj1 P)) as [q IQ].
  destruct (apply_inv_perm_ok (seq 0) (fun m => Permutation_refl _) junk (length x) y pn (proj1 P) L) as [out [E1 [_ G]]]. exists (map Z.of_nat pn), q, out. split; [exact E|]. split.
  - unfold inv_perm_pp. rewrite ring2pv_of_nat. exact E1.
  - split; [exact (order_of_places _ _ _ pn q P IQ)|exact (scattered_inverse _ y pn q out (proj1 P) IQ L G)].
Qed.
Print Assumptions C29_sorting_permutation.
(* C29: merging sorted key columns gives one column that orders and separates the rows exactly as all the columns do *)
Theorem C29_merge_keys k n cols asc :
  (0 < k)%Z -> 0 < n -> (Z.of_nat n <= 2 ^ (k - 1))%Z -> cols <> [] -> Forall (fun x => length x = n) cols -> Forall (Forall (word k)) cols ->
  (forall i j, i < j -> j < n -> row_before (negb asc) (map (sval k) cols) i j \/ (forall v, In v (map (sval k) cols) -> v i = v j)) ->
  exists m, merge_keys_p k cols asc = Ok m /\ length m = n /\ merged n (negb asc) (map (sval k) cols) (sval k m).
Proof. intros K N0 N NE L W S. destruct (merge_keys_merged k n K cols NE L W N0 asc N S) as [m [E [Lm [_ [_ M]]]]]. eauto. Qed.
Print Assumptions C29_merge_keys.
(* C29: marks: 1 exactly at the last row of each run of equal rows; 0 exactly at the first *)
Theorem C29_group_marks n cols :
  0 < n -> cols <> [] -> Forall (fun x => length x = n) cols ->
  (exists m, group_mark_p cols true = Ok m /\ length m = n /\ forall i, i < n -> (nthZ m i = 0 \/ nthZ m i = 1)%Z /\ (nthZ m i = 1%Z <-> last_of_run cols n i)) /\
  (exists m, group_mark_p cols false = Ok m /\ length m = n /\ forall i, i < n -> (nthZ m i = 0 \/ nthZ m i = 1)%Z /\ (nthZ m i = 0%Z <-> first_of_run cols i)).
Proof. intros N NE L. split; [exact (end_mark_ok n cols NE L N)|exact (start_mark_ok n cols NE L N)]. Qed.
Print Assumptions C29_group_marks.
(* the empty key column: the kernels index outside their output *)
Theorem C29_empty_refuted : merge_keys_p 64 [[]] true = Ub /\ group_mark_p [[]] true = Ub /\ group_mark_p [[]] false = Ub.
Proof. repeat split. Qed.
Print Assumptions C29_empty_refuted.
(* unsigned keys are ordered as signed numbers *)
Theorem C29_unsigned_refuted : exists x perm out, Forall (word 64) x /\ gen_inv_perm_p 0 64 x true = Ok perm /\ inv_perm_pp 0 x perm = Ok out /\ out = [2 ^ 63; 1]%Z.
Proof. exists [1; 2 ^ 63]%Z, [1; 0]%Z, [2 ^ 63; 1]%Z. split; [repeat constructor; cbn; lia|]. split; [vm_compute; reflexivity|]. split; vm_compute; reflexivity. Qed.
Print Assumptions C29_unsigned_refuted.
Example C29_sort_ex : gen_inv_perm_p 0 8 [3; 255; 3; 0; 255]%Z true = Ok [3; 0; 4; 2; 1]%Z /\ inv_perm_pp 0 [3; 255; 3; 0; 255]%Z [3; 0; 4; 2; 1]%Z = Ok [255; 255; 0; 3; 3]%Z /\
  gen_inv_perm_p 0 8 [3; 255; 3; 0; 255]%Z false = Ok [0; 3; 1; 2; 4]%Z.
Proof. split; [|split]; vm_compute; reflexivity. Qed.
Example C29_merge_ex : merge_keys_p 8 [[1; 1; 1; 2]; [5; 5; 7; 0]]%Z true = Ok [0; 0; 1; 2]%Z /\ merge_keys_p 8 [[2; 1; 1; 1]; [0; 7; 5; 5]]%Z false = Ok [0; 255; 254; 254]%Z /\
  group_mark_p [[1; 1; 1; 2]; [5; 5; 7; 0]]%Z true = Ok [0; 1; 1; 1]%Z /\ group_mark_p [[1; 1; 1; 2]; [5; 5; 7; 0]]%Z false = Ok [0; 1; 0; 0]%Z.
Proof. repeat split; vm_compute; reflexivity. Qed.

(* C35: keys of any visibility: the result of radix_sort is the stable lexicographic sort of all columns *)
Theorem C35_mixed_keys ord junk k n has_av keys payload asc vb MR R sh :
  (forall m, Permutation (ord m) (seq 0 m)) -> (0 < k)%Z -> 0 < n -> (Z.of_nat n < 2 ^ (k - 1))%Z ->
  keys <> [] -> owners_ok (map pvis keys) -> Exists (fun x => pvis x <> Pub) keys -> Forall (fun x => sort_key k n vb (pvis x) (pkey x)) keys ->
  Forall (fun x => length (wordsof x) = n) payload -> (forall i, good_m n (MR i)) -> good_rnds n R -> is_perm n sh ->
  exists q out, radix_sort_any ord junk k has_av keys payload asc vb MR R sh = Ok out /\
    stable_order n (negb asc) (map (fun x => key_value k (pkey x)) keys) q /\ Forall2 (fun x y => gathered (wordsof x) q (wordsof y)) (keys ++ payload) out.
Proof. exact (fun O K N0 N1 => radix_sort_any_ok ord junk O k n has_av K N0 N1 keys payload asc vb MR R sh). Qed.
Print Assumptions C35_mixed_keys.
(* C35: the permutation generated for keys of any visibility gives every row its place; public keys included *)
Theorem C35_mixed_permutation ord junk k n has_av keys asc vb MR R :
  (forall m, Permutation (ord m) (seq 0 m)) -> (0 < k)%Z -> 0 < n -> (Z.of_nat n < 2 ^ (k - 1))%Z ->
  keys <> [] -> owners_ok (map pvis keys) -> Forall (fun x => sort_key k n vb (pvis x) (pkey x)) keys -> (forall i, good_m n (MR i)) -> good_rnds n R ->
  exists p pn, gen_inv_perm ord junk k has_av keys asc vb MR R = Ok p /\ wordsof p = map Z.of_nat pn /\ places n (negb asc) (map (fun x => key_value k (pkey x)) keys) pn.
Proof.
  intros O K N0 N1 NE OK FK GM GR. destruct (gen_inv_perm_any_ok ord junk O k n has_av K N0 N1 keys asc vb MR R NE OK FK GM GR) as [p [pn [E [W [P _]]]]]. exists p, pn. auto.
Qed.
Print Assumptions C35_mixed_permutation.
(* C35: merging public and private keys of one owner keeps the lexicographic order, row by row *)
Theorem C35_merge_private_keys ord junk k n has_av o keys asc vb R :
  (forall m, Permutation (ord m) (seq 0 m)) -> (0 < k)%Z -> 0 < n -> (Z.of_nat n < 2 ^ (k - 1))%Z ->
  keys <> [] -> Forall (fun x => pvis x = Pub \/ pvis x = Priv o) keys -> Forall (fun x => sort_key k n vb (pvis x) (pkey x)) keys -> good_m n R ->
  exists m, merge_pub_pri_keys ord junk k has_av keys asc (m_loop R) (m_key R) (m_last R) = Ok m /\ length (wordsof m) = n /\ pvis m <> Sec /\
    merged n (negb asc) (map (fun x => key_value k (pkey x)) keys) (key_value k (pkey m)).
Proof.
  intros O K N0 N1 NE FO FK GR. destruct (merge_pub_pri_ok ord junk O k n has_av K N0 N1 vb o keys asc R NE FO FK GR) as [m [E [[_ [L [[V _] [_ [_ M]]]]] _]]]. exists m. auto.
Qed.
Print Assumptions C35_merge_private_keys.

Definition ex_rnds (p : list nat) : rnds := mkR (fun _ _ => p) (fun _ => p) (fun _ => p).
Definition ex_m (p : list nat) : mrnd := mkMR (ex_rnds p) (fun _ => p) p.
Definition ex_keys : list pval :=
  [mkV Pub (mkKey [1; 1; 0; 1] 8 false)%Z; mkV (Priv 1) (mkKey [255; 255; 7; 3] 8 false)%Z; mkV Sec (mkKey [9; 2; 5; 1] 8 true)%Z].
(* a public, a private and a secret key; for any shuffles the same result *)
Example C35_mixed_ex :
  radix_sort_any (seq 0) 0 8 true ex_keys [mkV Sec (mkKey [10; 20; 30; 40] 8 false)%Z] true None (fun _ => ex_m [2; 0; 3; 1]) (ex_rnds [1; 3; 0; 2]) [3; 2; 0; 1] =
    Ok [mkV Sec (mkKey [0; 1; 1; 1] 8 false)%Z; mkV Sec (mkKey [7; 255; 255; 3] 8 false)%Z; mkV Sec (mkKey [5; 2; 9; 1] 8 true)%Z; mkV Sec (mkKey [30; 20; 10; 40] 8 false)%Z] /\
  owners_ok (map pvis ex_keys) /\ Exists (fun x => pvis x <> Pub) ex_keys /\ Forall (fun x => sort_key 8 4 None (pvis x) (pkey x)) ex_keys.
Proof.
  split; [vm_compute; reflexivity|]. split; [|split].
  - intros a o m o' b H. cbn in H. destruct a as [|? [|? [|? a]]]; try discriminate; injection H as ?; subst.
    + destruct m as [|m]; cbn in *; [congruence|]. discriminate.
    + destruct a; discriminate.
  - apply Exists_cons_tl, Exists_cons_hd. discriminate.
  - repeat constructor; cbn; try lia; try discriminate.
    all: assert (i = 0 \/ i = 1 \/ i = 2 \/ i = 3) as [-> | [-> | [-> | ->]]] by (cbn in *; lia); cbn; lia.
Qed.
(* public keys alone are refused by apply_inv_perm (they are sorted elsewhere) *)
Example C35_public_ex : radix_sort_any (seq 0) 0 8 true [mkV Pub (mkKey [1; 0] 8 false)%Z] [] true None (fun _ => ex_m [0; 1]) (ex_rnds [0; 1]) [0; 1] = Err.
Proof. vm_compute. reflexivity. Qed.
(* private keys of two owners in front of a secret key: the sort is refused *)
Theorem C35_owners_refuted : exists keys, keys <> [] /\ Forall (fun x => sort_key 8 2 None (pvis x) (pkey x)) keys /\ Exists (fun x => pvis x <> Pub) keys /\
  radix_sort_any (seq 0) 0 8 true keys [] true None (fun _ => ex_m [0; 1]) (ex_rnds [0; 1]) [0; 1] = Err.
Proof.
  exists [mkV (Priv 0) (mkKey [1; 0] 8 false)%Z; mkV (Priv 1) (mkKey [1; 0] 8 false)%Z; mkV Sec (mkKey [1; 0] 8 false)%Z]. split; [discriminate|]. split.
  - repeat constructor; cbn; try lia; try discriminate.
    all: assert (i = 0 \/ i = 1) as [-> | ->] by (cbn in *; lia); cbn; lia.
  - split; [apply Exists_cons_hd; discriminate|vm_compute; reflexivity].
Qed.
Print Assumptions C35_owners_refuted.

(* C52: public and private truncation rounds to the nearest multiple, halves up *)
Theorem C52_truncation_rounds k bits x s : (0 < bits < k)%Z -> word k x -> signed_value k x s ->
  exists r, rounded_arshift k bits x = Ok (wrap k r) /\ nearest s bits r /\ (- 2 ^ (k - 1) <= r < 2 ^ (k - 1))%Z.
Proof. intros B W V. rewrite (signed_unique k x s (sgn k x) V (Ring_proof.signed_sgn k x ltac:(lia) W) ltac:(lia)). exact (rounded_arshift_ok k bits x B W). Qed.
Print Assumptions C52_truncation_rounds.
Example C52_trunc_ex : rounded_arshift 8 2 (wrap 8 (-6)) = Ok (wrap 8 (-1)) /\ rounded_arshift 8 2 6 = Ok 2%Z /\ rounded_arshift 8 2 (wrap 8 (-7)) = Ok (wrap 8 (-2)) /\ rounded_arshift 8 2 127 = Ok 32%Z.
Proof. repeat split; vm_compute; reflexivity. Qed.
(* truncation by 0 bits (fxp_fraction_bits = 0) shifts by 2^64 - 1 *)
Theorem C52_zero_bits_refuted : rounded_arshift 64 0 5 = Ub.
Proof. reflexivity. Qed.
Print Assumptions C52_zero_bits_refuted.
