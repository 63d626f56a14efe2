From Verif Require Import Base Ring_model Ring_spec Ring_proof Share_spec Party Semi_model Beaver_spec Perm_model Perm_spec Perm_proof
  Aby_model Aby_spec Aby_proof Shuf_model Shuf_spec Shuf_proof.
Open Scope Z_scope.

(* C74: the parties obtain a replicated sharing of three permutations, one per stream *)
Theorem C74_rand_perm m gen : (forall s, (s < 3)%nat -> is_perm m (gen s)) -> permS m (rand_perm_m gen) gen.
Proof. intros H i I. split; [|now apply H]. unfold rand_perm_m. now rewrite nx_nxt. Qed.
Print Assumptions C74_rand_perm.
(* C74: the shuffle keeps a replicated sharing, of the vector read through the three permutations in turn *)
Theorem C74_shuffle ord k X PV A R P x : (forall m, Permutation (ord m) (seq 0 m)) -> 0 <= k -> repV k X x -> permS (length x) PV P ->
  exists Y y, shuf_am ord k X PV A R = Ok Y /\ gathered_by P [0; 1; 2]%nat x y /\ repV k Y y.
Proof. intros O K. now apply shuf_am_ok. Qed.
Print Assumptions C74_shuffle.
(* ... and the unshuffle of the vector written through them in the opposite order *)
Theorem C74_unshuffle ord k X PV A R P x : (forall m, Permutation (ord m) (seq 0 m)) -> 0 <= k -> repV k X x -> permS (length x) PV P ->
  exists Y y, unshuf_am ord k X PV A R = Ok Y /\ scattered_by P [2; 1; 0]%nat x y /\ repV k Y y.
Proof. intros O K. now apply unshuf_am_ok. Qed.
Print Assumptions C74_unshuffle.
(* both undo each other, whatever the draws *)
Theorem C74_roundtrip ord k X PV A R A' R' P x : (forall m, Permutation (ord m) (seq 0 m)) -> 0 <= k -> repV k X x -> permS (length x) PV P ->
  (exists Y, rbind (shuf_am ord k X PV A R) (fun Y => unshuf_am ord k Y PV A' R') = Ok Y /\ repV k Y x) /\
  (exists Y, rbind (unshuf_am ord k X PV A R) (fun Y => shuf_am ord k Y PV A' R') = Ok Y /\ repV k Y x).
Proof.
  intros O K V S. assert (HP : forall r, In r [2; 1; 0]%nat -> is_perm (length x) (P r)) by (intros r I; apply S; cbn in I; lia). split.
  - destruct (shuf_am_ok ord O k K X PV A R P x V S) as [Y [y [E [G VY]]]]. rewrite E. cbn [rbind].
    assert (Ly : length y = length x).
    { inversion G as [|? ? ? y1 ? G1 H1]; subst. inversion H1 as [|? ? ? y2 ? G2 H2]; subst. inversion H2 as [|? ? ? y3 ? G3 H3]; subst. inversion H3; subst.
      rewrite (proj1 G3). apply perm_length. apply HP. now left. }
    destruct (unshuf_am_ok ord O k K Y PV A' R' P y VY ltac:(now rewrite Ly)) as [Z [z [EZ [SZ VZ]]]]. exists Z. split; [exact EZ|].
    now rewrite <- (roundtrip_by' (length x) P [2; 1; 0]%nat HP x y z eq_refl G SZ).
  - destruct (unshuf_am_ok ord O k K X PV A R P x V S) as [Y [y [E [G VY]]]]. rewrite E. cbn [rbind].
    assert (Ly : length y = length x).
    { clear - G. remember [2; 1; 0]%nat as l. clear Heql. induction G as [|r rs x y z G1 G2 IH]; [reflexivity|]. rewrite IH. apply (proj1 G1). }
    destruct (shuf_am_ok ord O k K Y PV A' R' P y VY ltac:(now rewrite Ly)) as [Z [z [EZ [SZ VZ]]]]. exists Z. split; [exact EZ|].
    now rewrite <- (roundtrip_by (length x) P [2; 1; 0]%nat HP x y z eq_refl G SZ).
Qed.
Print Assumptions C74_roundtrip.
(* the shuffle applies one and the same permutation of the positions to every vector and for all draws, and the unshuffle
   its inverse: columns shuffled with the same shared permutation stay aligned *)
Theorem C74_aligned ord k m PV P : (forall m, Permutation (ord m) (seq 0 m)) -> 0 <= k -> permS m PV P ->
  exists pi, is_perm m pi /\ forall X x A R, length x = m -> repV k X x ->
    (exists Y y, shuf_am ord k X PV A R = Ok Y /\ scattered x pi y /\ repV k Y y) /\
    (exists Y y, unshuf_am ord k X PV A R = Ok Y /\ gathered x pi y /\ repV k Y y).
Proof.
  intros O K S. assert (HP : forall r, In r [2; 1; 0]%nat -> is_perm m (P r)) by (intros r I; apply S; cbn in I; lia).
  destruct (scattered_by_total m P [2; 1; 0]%nat HP) as [pi [PI G]]. exists pi. split; [exact PI|]. intros X x A R L V. subst m. split.
  - destruct (C74_roundtrip ord k X PV A R A R P x O K V S) as [[Z [EZ VZ]] _].
    destruct (shuf_am_ok ord O k K X PV A R P x V S) as [Y [y [E [GY VY]]]]. exists Y, y. split; [exact E|]. split; [|exact VY].
    assert (Ly : length y = length x).
    { inversion GY as [|? ? ? y1 ? G1 H1]; subst. inversion H1 as [|? ? ? y2 ? G2 H2]; subst. inversion H2 as [|? ? ? y3 ? G3 H3]; subst. inversion H3; subst.
      rewrite (proj1 G3). apply perm_length. apply HP. now left. }
    destruct (unshuf_am_ok ord O k K Y PV A R P y VY ltac:(now rewrite Ly)) as [W [w [EW [SW VW]]]].
    pose proof (roundtrip_by' (length x) P [2; 1; 0]%nat HP x y w eq_refl GY SW) as ->. apply (gathered_scattered (length x)); auto.
  - destruct (unshuf_am_ok ord O k K X PV A R P x V S) as [Y [y [E [GY VY]]]]. exists Y, y. split; [exact E|]. split; [|exact VY]. now apply G.
Qed.
Print Assumptions C74_aligned.
(* what a party receives is uniform over the masks it does not hold: rank 2 holds streams 2 and 0, rank 1 streams 1 and 2, rank 0 streams 0 and 1 *)
Theorem C74_hiding ord k X PV A R P x : (forall m, Permutation (ord m) (seq 0 m)) -> 0 <= k -> repV k X x -> permS (length x) PV P ->
  uniform_view k (length x) (fun a r => rbind (shuf_msgs ord k X PV (other 1 A a) (other 1 R r)) (fun M => Ok (fst M))) /\
  uniform_view k (length x) (fun a r => rbind (shuf_msgs ord k X PV (other 0 A a) (other 0 R r)) (fun M => Ok (snd M))) /\
  uniform_view k (length x) (fun a r => rbind (unshuf_msgs ord k X PV (other 1 A a) (other 1 R r)) (fun M => Ok (fst M))) /\
  uniform_view k (length x) (fun a r => rbind (unshuf_msgs ord k X PV (other 2 A a) (other 2 R r)) (fun M => Ok (snd M))).
Proof.
  intros O K [L _] S. pose proof (L 0%nat ltac:(lia)) as L0. pose proof (L 1%nat ltac:(lia)) as L1. pose proof (L 2%nat ltac:(lia)) as L2.
  destruct (shuf_hides ord O k K X PV A R P (length x) L0 L2 S) as [H1 H2]. destruct (unshuf_hides ord O k K X PV A R P (length x) L0 L1 L2 S) as [H3 H4]. auto.
Qed.
Print Assumptions C74_hiding.
(* a public permutation *)
Theorem C74_public ord junk k X x pv : (forall m, Permutation (ord m) (seq 0 m)) -> 0 <= k -> repV k X x -> is_perm (length x) pv ->
  (exists Y y, (forall i, (i < 3)%nat -> shuf_ap ord junk (X i) pv = Ok (Y i)) /\ gathered x pv y /\ repV k Y y) /\
  (exists Y y, (forall i, (i < 3)%nat -> unshuf_ap ord junk (X i) pv = Ok (Y i)) /\ scattered x pv y /\ repV k Y y).
Proof. intros O K. now apply shuf_public. Qed.
Print Assumptions C74_public.

(* three elements, three permutations *)
Definition ex_gen (s : nat) : list nat := match s with 0%nat => [1; 2; 0] | 1%nat => [0; 2; 1] | _ => [2; 1; 0] end%nat.
Definition ex_X : nat -> list (Z * Z) := fun i => match i with
  | 0%nat => [(1, 2); (250, 7); (0, 0)] | 1%nat => [(2, 7); (7, 19); (0, 30)] | _ => [(7, 1); (19, 250); (30, 0)] end.
Example C74_ex_hyp : repV 8 ex_X [10; 20; 30] /\ permS 3 (rand_perm_m ex_gen) ex_gen.
Proof.
  split.
  - split; [intros i I; three i; reflexivity|]. intros e E. cbn [length] in E. three e.
    + apply (repA_intro 8 _ _ 1 2 7); try reflexivity; try (unfold word; cbn; lia); try lia; unfold eqm; reflexivity.
    + apply (repA_intro 8 _ _ 250 7 19); try reflexivity; try (unfold word; cbn; lia); try lia; unfold eqm; reflexivity.
    + apply (repA_intro 8 _ _ 0 0 30); try reflexivity; try (unfold word; cbn; lia); try lia; unfold eqm; reflexivity.
  - apply C74_rand_perm. intros s I. apply perm_of; [three s; reflexivity|..].
    + intros i p E. three s; destruct i as [|[|[|i]]]; cbn in E; try (injection E as <-; lia); destruct i; discriminate.
    + intros i j p E F. three s; destruct i as [|[|[|i]]]; cbn in E; try (destruct i; discriminate); destruct j as [|[|[|j]]]; cbn in F; try (destruct j; discriminate); congruence.
Qed.
Example C74_ex : exists Y, shuf_am (seq 0) 8 ex_X (rand_perm_m ex_gen) (fun s e => 40 * Z.of_nat s + Z.of_nat e) (fun s e => 9 * Z.of_nat s + 100 * Z.of_nat e) = Ok Y /\
  map (a2p3 8 (fun i => nth 0 (Y i) (0, 0))) [0; 1; 2]%nat = [30; 30; 30] /\ a2p3 8 (fun i => nth 1 (Y i) (0, 0)) 1 = 10 /\ a2p3 8 (fun i => nth 2 (Y i) (0, 0)) 2 = 20.
Proof. eexists. split; [reflexivity|]. repeat split; reflexivity. Qed.
