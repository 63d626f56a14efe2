(* C24: the AS-Waksman network. *)
From Verif Require Import Base Ring_model Ring_spec Ring_proof Share_spec Party Prg_model Beaver_spec Perm_model Perm_spec Perm_proof Wak_model Wak_spec Wak_proof Wakn_proof Wake_proof.
Open Scope nat_scope.

(* the topology and the switch bits exist, and the packet at row i leaves at row pv[i] *)
Theorem C24_routing m pv : 2 <= m -> is_perm m pv -> exists g r, get_topology m = Ok g /\ get_routing pv = Ok r /\
  forall i p, nth_error pv i = Some p -> travels g r 0 (columns m) i p.
Proof.
  intros M H. destruct (get_net m pv M H) as (g & r & E1 & E2 & N). exists g, r. split; [exact E1|]. split; [exact E2|].
  intros i p E. pose proof (nth_error_Some_lt _ _ _ E) as I. rewrite (perm_length _ _ H) in I. rewrite <- (nth_of_error _ _ _ 0 E). exact (net_travels g r m _ M N i I).
Qed.
Print Assumptions C24_routing.
(* evaluated on shares of a vector with any correct multiplication, the network scatters the vector by pv *)
Theorem C24_evaluate k n mul t rank pv X x : (0 < k)%Z -> multiplies k n mul -> rank < n -> 2 <= length x -> is_perm (length x) pv -> shV k n X x ->
  exists Y y, secure_inv_perm k n mul t rank pv X = Ok Y /\ scattered x pv y /\ shV k n Y y.
Proof. intros K M R L H S. destruct (secure_inv_perm_ok k n ltac:(lia) mul M t rank pv X x R K L H S) as (Y & y & A & B & C). exists Y, y. auto. Qed.
Print Assumptions C24_evaluate.
Theorem C24_inv_perm_av k n mul owner pv X x : (0 < k)%Z -> multiplies k n mul -> owner < n -> 2 <= length x -> is_perm (length x) pv -> shV k n X x ->
  exists Y y, inv_perm_av k n mul owner pv X = Ok Y /\ scattered x pv y /\ shV k n Y y.
Proof. intros. now apply C24_evaluate. Qed.
Print Assumptions C24_inv_perm_av.
(* the shared permutation: every party's component in turn *)
Theorem C24_perm_am k n mul P X x : (0 < k)%Z -> multiplies k n mul -> 2 <= length x -> (forall r, r < n -> is_perm (length x) (P r)) -> shV k n X x ->
  exists Y y, perm_am k n mul (length x) P X = Ok Y /\ scattered_by P (seq 0 n) x y /\ shV k n Y y.
Proof.
  intros K M L H S. destruct (secure_loop_ok k n ltac:(lia) mul M (fun i => i * columns (length x)) P (seq 0 n) K X x L) as (Y & y & A & B & C); [intros r R; apply in_seq in R; split; [lia|apply H; lia]|exact S|].
  exists Y, y. auto.
Qed.
Print Assumptions C24_perm_am.
Theorem C24_inv_perm_am ord junk k n mul P X x : (forall m, Permutation (ord m) (seq 0 m)) -> (0 < k)%Z -> multiplies k n mul -> 2 <= length x -> (forall r, r < n -> is_perm (length x) (P r)) -> shV k n X x ->
  exists Y y, inv_perm_am k n mul ord junk (length x) P X = Ok Y /\ gathered_by P (rev (seq 0 n)) x y /\ shV k n Y y.
Proof.
  intros O K M L H S. unfold inv_perm_am. set (I := fun r => match gen_inverse_perm ord junk (P r) with Ok q => q | _ => [] end).
  assert (G : forall r, r < n -> gen_inverse_perm ord junk (P r) = Ok (I r) /\ inverse_of (length x) (P r) (I r)).
  { intros r R. destruct (gen_inverse_perm_ok ord O junk (length x) (P r) (H r R)) as [q [E Q]]. unfold I. rewrite E. auto. }
  assert (IN : forall r, In r (rev (seq 0 n)) -> r < n) by (intros r R; apply in_rev, in_seq in R; lia).
  destruct (secure_loop_ok k n ltac:(lia) mul M (fun i => i * columns (length x)) I (rev (seq 0 n)) K X x L) as (Y & y & A & B & C); [intros r R; split; [auto|]; now apply G, IN|exact S|].
  exists Y, y. split; [|split; [|exact B]].
  - rewrite <- A. clear A B C S. revert X IN. generalize (rev (seq 0 n)) as l. induction l as [|q l IH]; intros X0 IN; [reflexivity|].
    cbn [loop]. rewrite (proj1 (G q (IN q (or_introl eq_refl)))). cbn [rbind]. destruct (secure_inv_perm k n mul _ q (I q) X0); cbn [rbind]; [|reflexivity..]. apply IH. intros; apply IN. now right.
  - apply (scattered_by_inverse (length x) P I); auto. intros r R. split; [apply H|apply G]; auto.
Qed.
Print Assumptions C24_inv_perm_am.
(* permuting and then inversely permuting is the identity on plaintexts *)
Theorem C24_roundtrip ord junk k n mul mul' P X x : (forall m, Permutation (ord m) (seq 0 m)) -> (0 < k)%Z -> multiplies k n mul -> multiplies k n mul' -> 2 <= length x -> (forall r, r < n -> is_perm (length x) (P r)) -> shV k n X x ->
  exists Y, rbind (perm_am k n mul (length x) P X) (inv_perm_am k n mul' ord junk (length x) P) = Ok Y /\ shV k n Y x.
Proof.
  intros O K M M' L H S. destruct (C24_perm_am k n mul P X x K M L H S) as (Y & y & E & SB & SY). rewrite E. cbn [rbind].
  assert (LS : forall rs a b, scattered_by P rs a b -> length b = length a) by (induction 1 as [|? ? ? ? ? [L0 _] _ IH]; lia). pose proof (LS _ _ _ SB) as Ly.
  destruct (C24_inv_perm_am ord junk k n mul' P Y y O K M') as (Z0 & z & EZ & GB & SZ); [lia|now rewrite Ly|exact SY|]. rewrite Ly in EZ.
  exists Z0. split; [exact EZ|]. rewrite <- (roundtrip_by (length x) P (seq 0 n) ltac:(intros r R; apply in_seq in R; apply H; lia) x y z eq_refl SB GB). exact SZ.
Qed.
Print Assumptions C24_roundtrip.
(* vectors of one element, which every permutation leaves alone, are refused: the topology needs two rows; asked for the routing alone, the column count wraps around *)
Theorem C24_single_refuted : exists k n mul rank pv X x, (0 < k)%Z /\ multiplies k n mul /\ rank < n /\ is_perm (length x) pv /\ shV k n X x /\ x <> [] /\
  secure_inv_perm k n mul 0 rank pv X = Err /\ get_topology (length x) = Err /\ get_routing pv = Ub.
Proof.
  exists 8%Z, 1, (fun _ _ a b q => ((a 0%nat * b 0%nat) mod 2 ^ 8)%Z), 0, [0], (fun _ => [7%Z]), [7%Z].
  assert (S1 : forall a x, shA 8 1 a x -> a 0 = x).
  { intros a x S. assert (W := shA_word _ _ _ _ S). assert (W0 : word 8 (a 0)) by (apply (proj1 S); lia). pose proof (shA_eqm 8 1 a x ltac:(lia) S) as E. change (total 1 a) with (0 + a 0%nat)%Z in E. rewrite Z.add_0_l in E. unfold eqm, wrap in E. unfold word in W, W0. rewrite !Z.mod_small in E by lia. exact E. }
  assert (S2 : forall x, word 8 x -> shA 8 1 (fun _ => x) x).
  { intros x W. apply shA_of; [lia|intros; exact W|exact W|]. change (total 1 (fun _ => x)) with (0 + x)%Z. reflexivity. }
  split; [lia|]. split; [|split; [lia|]]. 2:{ split; [apply Permutation_refl|]. split; [|split; [discriminate|]; split; [reflexivity|]; split; reflexivity].
    split; [reflexivity|]. intros [|e] E; [|cbn in E; lia]. apply (S2 7%Z). split; lia. }
  intros t j a b x y A B. rewrite (S1 _ _ A), (S1 _ _ B). apply S2. pose proof (Z.mod_pos_bound (x * y) (2 ^ 8) ltac:(lia)). split; lia.
Qed.
Print Assumptions C24_single_refuted.
(* five packets, two parties, a multiplication that gives all to party 0 *)
Definition C24_mul (_ _ : nat) (a b : nat -> Z) (q : nat) : Z := (if (q =? 0)%nat then ((a 0%nat + a 1%nat) * (b 0%nat + b 1%nat)) mod 2 ^ 8 else 0)%Z.
Example C24_ex : multiplies 8 2 C24_mul /\ is_perm 5 [3; 0; 4; 1; 2] /\
  match secure_inv_perm 8 2 C24_mul 0 1 [3; 0; 4; 1; 2] (fun q => if q =? 0 then [200; 1; 2; 3; 4]%Z else [66; 10; 10; 10; 10]%Z) with
  | Ok Y => zipWith (fun a b => ((a + b) mod 256)%Z) (Y 0) (Y 1) | _ => [] end = [11; 13; 14; 10; 12]%Z.
Proof.
  split; [|split; [apply NoDup_Permutation_bis; [repeat constructor; cbn; lia|cbn; lia|]; intros x H; apply in_seq; cbn in H; lia|vm_compute; reflexivity]].
  intros t j a b x y A B. assert (E : forall c z, shA 8 2 c z -> eqm 8 (c 0%nat + c 1%nat)%Z z) by (intros c z C; rewrite <- (shA_eqm 8 2 c z ltac:(lia) C); cbn [total]; now rewrite Z.add_0_l).
  assert (W : forall z, word 8 (z mod 2 ^ 8)) by (intros z; pose proof (Z.mod_pos_bound z (2 ^ 8) ltac:(lia)); split; lia).
  apply shA_of; [lia|intros i _; unfold C24_mul; destruct (i =? 0); [apply W|split; lia]|apply W|].
  unfold C24_mul. cbn [total Nat.eqb]. rewrite Z.add_0_l, Z.add_0_r. change (eqm 8 (wrap 8 ((a 0%nat + a 1%nat) * (b 0%nat + b 1%nat))%Z) (wrap 8 (x * y))). rewrite !eqm_wrap, (E a x A), (E b y B). reflexivity.
Qed.
