(* C73: oblivious reads of the three-party protocol (aby3).  The cipher, its keys, the root seeds and every random draw are
   universally quantified.  [repA k X x]: X is a replicated sharing of x modulo 2^k (Aby_spec.v). *)
From Verif Require Import Base Ring_model Ring_spec Semi_model Aby_model Aby_spec Aby_proof Oram_model Oram_spec Oram_proof Oramg_proof.
Open Scope Z_scope.

Definition toy (key b : Z) : Z := key * (b + 3) * (b + 5) + 7 * b.
Definition rnd (i : Z) : round := mkRound (i * 1000 + 5) (i * 77 + 90) 11 (i + 12) (fun j => Z.of_nat j * 91 + i) (fun j => Z.of_nat j * 17 + 4) (fun j => Z.of_nat j + 100) (fun j => i + 3 * Z.of_nat j).
Definition rs (a b c : Z) : shr := fun i => match i with O => (a, b) | 1%nat => (b, c) | _ => (c, a) end.
(* index 2, and the database 40, 50, 60 with one column *)
Definition ix : shr := rs 4294967290 7 1.
Definition db0 : nat -> nat -> shr := fun a _ => rs (Z.of_nat a) 30 (10 + 9 * Z.of_nat a).
Lemma ix_ok : repA 32 ix 2.
Proof. apply (repA_intro _ _ _ 4294967290 7 1); try reflexivity; try lia; (split; [discriminate|reflexivity]) || idtac. Qed.
Lemma db0_ok a c : (a < 3)%nat -> repA 32 (db0 a c) (40 + 10 * Z.of_nat a).
Proof. intros H. three a; [apply (repA_intro _ _ _ 0 30 10)|apply (repA_intro _ _ _ 1 30 19)|apply (repA_intro _ _ _ 2 30 28)]; try reflexivity; try lia; (split; [discriminate|reflexivity]) || idtac. Qed.

(* two parties, given shares of an index and a common key, end with additive shares of the vector that is one at the index
   (reduced to the bits the array needs) and zero elsewhere, for every seed and every draw *)
Theorem C73_point_function enc k s key xD xE R : 1 <= k ->
  exists oD oE b, onehot2 enc k s key key xD xE R = Ok (oD, oE) /\ index_bits s b /\
    forall i, (i < s)%nat -> two_shares k (nthZ oD i) (nthZ oE i) (unit_at (Z.to_nat (Z.lxor xD xE mod 2 ^ Z.of_nat b)) i).
Proof. exact (onehot2_bits enc k s key xD xE R). Qed.
Print Assumptions C73_point_function.
Example C73_ex_point : onehot2 toy 32 3 9 9 6 4 (rnd 1) = Ok ([3296362503; 3188258508; 4039971556], [998604793; 1106708788; 254995741])
  /\ 3296362503 + 998604793 = 2 ^ 32 /\ 3188258508 + 1106708788 = 2 ^ 32 /\ 4039971556 + 254995741 = 2 ^ 32 + 1.
Proof. repeat split. Qed.

(* OramOneHotAA: three such pairs of shares, one per pair of neighbours *)
Theorem C73_onehot enc k s T t S X x keys R : ringw k -> repA k X x ->
  exists O b, oram_onehot_aa enc k s T t S X keys R = Ok O /\ index_bits s b /\ shares_unit k s O (Z.to_nat (x mod 2 ^ Z.of_nat b)).
Proof. exact (onehot_bits_aa enc k s T t S X x keys R). Qed.
Print Assumptions C73_onehot.
Example C73_ex_onehot : index_bits 3 2 /\ exists O, oram_onehot_aa toy 32 3 (fun t i => Z.of_nat (7 * t + i)) 0 (fun i => Z.of_nat i) ix (fun i => Z.of_nat i) (fun i => rnd (Z.of_nat i)) = Ok O /\ shares_unit 32 3 O 2.
Proof.
  split; [exact (log2ceil_bits 3)|]. destruct (C73_onehot toy 32 3 (fun t i => Z.of_nat (7 * t + i)) 0 (fun i => Z.of_nat i) ix 2 (fun i => Z.of_nat i) (fun i => rnd (Z.of_nat i)) (or_introl eq_refl) ix_ok) as (O & b & E & Hb & HO).
  exists O. split; [exact E|]. rewrite (index_bits_unique 3 b 2 Hb (log2ceil_bits 3)) in HO. exact HO.
Qed.

(* one-hot followed by OramReadOA: a replicated sharing of the row [offset] places after the index, cyclically *)
Theorem C73_read enc k n T t S X x keys R db v P offset c : ringw k -> repA k X x -> x < Z.of_nat n -> (offset <= n)%nat ->
  (forall a, (a < n)%nat -> repA k (db a c) (v a)) ->
  exists O V, oram_onehot_aa enc k n T t S X keys R = Ok O /\ read_oa k n O db P offset c = Ok V /\ repA k V (v ((Z.to_nat x + offset) mod n)%nat).
Proof. exact (read_secret enc k n T t S X x keys R db v P offset c). Qed.
Print Assumptions C73_read.
Example C73_ex_read : exists O V, oram_onehot_aa toy 32 3 (fun t i => Z.of_nat (7 * t + i)) 0 (fun i => Z.of_nat i) ix (fun i => Z.of_nat i) (fun i => rnd (Z.of_nat i)) = Ok O /\
  read_oa 32 3 O db0 (fun i => 1000 * Z.of_nat i) 0 0 = Ok V /\ repA 32 V 60.
Proof. exact (C73_read toy 32 3 _ 0%nat _ ix 2 _ _ db0 (fun a => 40 + 10 * Z.of_nat a) _ 0%nat 0%nat (or_introl eq_refl) ix_ok ltac:(lia) ltac:(lia) (fun a H => db0_ok a 0%nat H)). Qed.

(* OramOneHotAP and OramReadOP: the same for a public database *)
Theorem C73_read_public enc k n T t S X x keys R db P offset c : ringw k -> repA k X x -> x < Z.of_nat n -> (offset <= n)%nat ->
  (forall a, (a < n)%nat -> word k (db a c)) ->
  exists O V, oram_onehot_ap enc k n T t S X keys R = Ok O /\ read_op k n O db P offset c = Ok V /\ repA k V (db ((Z.to_nat x + offset) mod n)%nat c).
Proof. exact (read_public enc k n T t S X x keys R db P offset c). Qed.
Print Assumptions C73_read_public.
Example C73_ex_public : exists O V, oram_onehot_ap toy 32 3 (fun t i => Z.of_nat (7 * t + i)) 0 (fun i => Z.of_nat i) ix (fun i => Z.of_nat i) (rnd 4) = Ok O /\
  read_op 32 3 O (fun a _ => 40 + 10 * Z.of_nat a) (fun i => 1000 * Z.of_nat i) 2 0 = Ok V /\ repA 32 V 50.
Proof. exact (C73_read_public toy 32 3 _ 0%nat _ ix 2 _ _ (fun a _ => 40 + 10 * Z.of_nat a) _ 2%nat 0%nat (or_introl eq_refl) ix_ok ltac:(lia) ltac:(lia) ltac:(intros a H; split; [lia|change (2 ^ 32) with 4294967296; lia])). Qed.

(* the slice of consecutive rows a dynamic slice reads with one one-hot vector *)
Theorem C73_slice enc k n size T t S X x keys R db v P c : ringw k -> repA k X x -> x + Z.of_nat size <= Z.of_nat n ->
  (forall a, (a < n)%nat -> repA k (db a c) (v a)) ->
  exists O, oram_onehot_aa enc k n T t S X keys R = Ok O /\ length (slice_rows k n size O db P c) = size /\
    forall idx, (idx < size)%nat -> exists V, nth_error (slice_rows k n size O db P c) idx = Some (Ok V) /\ repA k V (v (Z.to_nat x + idx)%nat).
Proof. exact (slice_ok enc k n size T t S X x keys R db v P c). Qed.
Print Assumptions C73_slice.
Example C73_ex_slice : repA 32 (rs 4294967290 6 1) 1 /\ exists O, oram_onehot_aa toy 32 3 (fun t i => Z.of_nat (7 * t + i)) 0 (fun i => Z.of_nat i) (rs 4294967290 6 1) (fun i => Z.of_nat i) (fun i => rnd (Z.of_nat i)) = Ok O /\
  exists V, nth_error (slice_rows 32 3 2 O db0 (fun _ _ i => Z.of_nat i) 0) 1 = Some (Ok V) /\ repA 32 V 60.
Proof.
  assert (H : repA 32 (rs 4294967290 6 1) 1) by (apply (repA_intro _ _ _ 4294967290 6 1); try reflexivity; try lia; (split; [discriminate|reflexivity]) || idtac). split; [exact H|].
  destruct (C73_slice toy 32 3 2 (fun t i => Z.of_nat (7 * t + i)) 0 (fun i => Z.of_nat i) _ 1 (fun i => Z.of_nat i) (fun i => rnd (Z.of_nat i)) db0 (fun a => 40 + 10 * Z.of_nat a) (fun _ _ i => Z.of_nat i) 0%nat
              (or_introl eq_refl) H ltac:(lia) (fun a Ha => db0_ok a 0%nat Ha)) as (O & E & _ & HV).
  exists O. split; [exact E|]. exact (HV 1%nat ltac:(lia)).
Qed.
