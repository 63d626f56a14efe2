(* C38, C53: theorems about group-by aggregation. *)
From Coq Require Import ZifyBool ZifyNat ZifyN.
From Verif Require Import Base Ring_model Ring_spec Party Perm_model Perm_spec Scan_model Radix_model Radix_spec Pv_model Pv_spec Pvs_proof Pva_proof Pv_props Group_model Group_spec Group_proof Groups_proof.
Open Scope nat_scope.

(* C38: the first g output rows are the distinct key rows, in ascending order, each with the sum of its payload entries *)
Theorem C38_groupby_sum ord junk k n has_av keys payloads G v vp :
  (forall m, Permutation (ord m) (seq 0 m)) -> (0 < k)%Z -> 0 < n -> (Z.of_nat n < 2 ^ (k - 1))%Z ->
  keys <> [] -> payloads <> [] -> v <> Sec -> Forall (fun x => pvis x = v) keys -> Forall (fun x => sort_key k n None v (pkey x)) keys ->
  Forall (fun x => pvis x = vp /\ length (wordsof x) = n /\ Forall (word k) (wordsof x)) payloads -> good_g n G ->
  exists g out sums, groupby_sum ord junk k has_av keys payloads G = Ok (out ++ sums) /\ length out = length keys /\ Forall (fun y => length (wordsof y) = n) out /\
    distinct_rows k n (map (fun x => wordsof x) keys) (map (fun x => wordsof x) out) g /\
    Forall2 (fun x s => length (wordsof s) = n /\
      forall r, r < g -> nthZ (wordsof s) r = wrap k (sum_of_group (map (fun x => wordsof x) keys) (row_of (map (fun x => wordsof x) out) r) (wordsof x))) payloads sums.
Proof. exact (fun O K N0 N1 => groupby_sum_ok ord junk O k n has_av K N0 N1 keys payloads G v vp). Qed.
Print Assumptions C38_groupby_sum.

(* C53: the average divides the sum of each group by the encoded number of its rows; with drop_rest exactly the groups are returned *)
Theorem C53_groupby_avg ord junk k n has_av one quotient keys payloads drop G v vp :
  (forall m, Permutation (ord m) (seq 0 m)) -> (0 < k)%Z -> 0 < n -> (Z.of_nat n < 2 ^ (k - 1))%Z ->
  keys <> [] -> payloads <> [] -> v <> Sec -> Forall (fun x => pvis x = v) keys -> Forall (fun x => sort_key k n None v (pkey x)) keys -> word k one ->
  Forall (fun x => pvis x = vp /\ length (wordsof x) = n /\ Forall (word k) (wordsof x)) payloads -> good_g n G ->
  exists g out avgs, groupby_avg ord junk k has_av one quotient keys payloads drop G = Ok (out ++ avgs) /\ length out = length keys /\ length avgs = length payloads /\
    distinct_rows k n (map (fun x => wordsof x) keys) (map (fun x => wordsof x) out) g /\
    Forall (fun y => length (wordsof y) = if drop then g else n) (out ++ avgs) /\
    forall i r, i < length payloads -> r < g -> nthZ (wordsof (nth i avgs dummy)) r =
      quotient i (wrap k (sum_of_group (map (fun x => wordsof x) keys) (row_of (map (fun x => wordsof x) out) r) (wordsof (nth i payloads dummy))))
                 (wrap k (one * size_of_group (map (fun x => wordsof x) keys) (row_of (map (fun x => wordsof x) out) r) n)).
Proof. exact (fun O K N0 N1 => groupby_avg_ok ord junk O k n has_av K N0 N1 one quotient keys payloads drop G v vp). Qed.
Print Assumptions C53_groupby_avg.

(* two private key columns (negative keys included), two payloads of another owner; different shuffles *)
Definition ex_g (p p' : list nat) : grnd := mkG (fun _ => ex_m p) (ex_rnds p') (fun _ => ex_m p') (ex_rnds p) p p' p (fun _ => p').
Definition ex_gk : list pval := [mkV (Priv 0) (mkKey [3; 255; 3; 3; 255] 8 false)%Z; mkV (Priv 0) (mkKey [1; 0; 1; 0; 0] 8 false)%Z].
Definition ex_gp : list pval := [mkV (Priv 1) (mkKey [10; 20; 30; 40; 50] 8 false)%Z; mkV (Priv 1) (mkKey [200; 1; 100; 2; 3] 8 true)%Z].
Example C38_ex : exists out, groupby_sum (seq 0) 0 8 true ex_gk ex_gp (ex_g [2; 0; 3; 1; 4] [4; 1; 3; 0; 2]) = Ok out /\
  map (fun x => firstn 3 (wordsof x)) out = [[255; 3; 3]; [0; 0; 1]; [70; 40; 40]; [4; 2; 44]]%Z.
Proof. eexists. split; vm_compute; reflexivity. Qed.
Example C38_ex_hyps : Forall (fun x => pvis x = Priv 0) ex_gk /\ Forall (fun x => sort_key 8 5 None (Priv 0) (pkey x)) ex_gk /\
  Forall (fun x => pvis x = Priv 1 /\ length (wordsof x) = 5 /\ Forall (word 8) (wordsof x)) ex_gp /\ good_g 5 (ex_g [2; 0; 3; 1; 4] [4; 1; 3; 0; 2]).
Proof.
  split; [repeat constructor|]. split; [repeat constructor; cbn; try lia; discriminate|]. split; [repeat constructor; cbn; lia|].
  assert (A : is_perm 5 [2; 0; 3; 1; 4] /\ is_perm 5 [4; 1; 3; 0; 2]).
  { split; apply (NoDup_Permutation); try apply seq_NoDup; try (repeat constructor; cbn; lia); intros x; cbn; lia. }
  destruct A as [A B]. unfold good_g, good_m, good_rnds, ex_g, ex_m, ex_rnds. cbn. repeat split; intros; assumption.
Qed.
Example C53_ex : exists out, groupby_avg (seq 0) 0 16 true 256 (fun _ s c => s * 256 / c)%Z [mkV Pub (mkKey [7; 2; 7; 2; 2] 16 false)%Z] [mkV Sec (mkKey [10; 20; 30; 40; 60] 16 false)%Z] true (ex_g [2; 0; 3; 1; 4] [4; 1; 3; 0; 2]) = Ok out /\
  map (fun x => wordsof x) out = [[2; 7]; [40; 20]]%Z.
Proof. eexists. split; vm_compute; reflexivity. Qed.
