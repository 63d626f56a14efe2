(* C22 and C23: permutations. *)
From Verif Require Import Base Ring_model Ring_spec Ring_proof Share_spec Party Semi_model Semi_proof Prg_model Beaver_spec Perm_model Perm_spec Perm_proof.
Open Scope Z_scope.

(* In all statements [ord] is the order in which the parallel loops run their iterations and [junk] the content of fresh memory. *)

(* C23: the two directions do what they say, on any schedule and whatever the memory contained *)
Theorem C23_apply ord junk m x pv : (forall m, Permutation (ord m) (seq 0 m)) -> is_perm m pv -> length x = m ->
  (exists y, apply_perm ord junk x pv = Ok y /\ apply_perm_span ord junk x pv = Ok y /\ gathered x pv y) /\
  (exists z, apply_inv_perm ord junk x pv = Ok z /\ apply_inv_perm_span ord junk x pv = Ok z /\ scattered x pv z).
Proof. intros O P L. split; [now apply (apply_perm_ok ord O junk m)|now apply (apply_inv_perm_ok ord O junk m)]. Qed.
Print Assumptions C23_apply.
(* one undoes the other *)
Theorem C23_roundtrip ord junk m x pv : (forall m, Permutation (ord m) (seq 0 m)) -> is_perm m pv -> length x = m ->
  rbind (apply_perm ord junk x pv) (fun y => apply_inv_perm ord junk y pv) = Ok x /\
  rbind (apply_inv_perm ord junk x pv) (fun y => apply_perm ord junk y pv) = Ok x.
Proof.
  intros O P L. pose proof (perm_length _ _ P) as LP.
  destruct (apply_perm_ok ord O junk m x pv P L) as [y [E1 [_ G]]]. destruct (apply_inv_perm_ok ord O junk m x pv P L) as [z [E2 [_ S]]]. rewrite E1, E2. cbn [rbind].
  assert (Ly : length y = m) by (destruct G; lia). assert (Lz : length z = m) by (destruct S; lia). split.
  - destruct (apply_inv_perm_ok ord O junk m y pv P Ly) as [w [E [_ S']]]. rewrite E. f_equal. apply (scattered_unique m y pv); auto. now apply (gathered_scattered m).
  - destruct (apply_perm_ok ord O junk m z pv P Lz) as [w [E [_ G']]]. rewrite E. f_equal. apply (gathered_unique m z pv); auto. now apply (scattered_gathered m).
Qed.
Print Assumptions C23_roundtrip.
(* genInversePerm: q[pv[i]] = i; it is a permutation, its inverse is pv, and applying by it is inversely applying by pv *)
Theorem C23_inverse ord junk m pv : (forall m, Permutation (ord m) (seq 0 m)) -> is_perm m pv -> exists q,
  gen_inverse_perm ord junk pv = Ok q /\ is_perm m q /\ (forall i p, nth_error pv i = Some p <-> nth_error q p = Some i) /\
  gen_inverse_perm ord junk q = Ok pv /\
  (forall x, length x = m -> apply_perm ord junk x q = apply_inv_perm ord junk x pv /\ apply_inv_perm ord junk x q = apply_perm ord junk x pv).
Proof.
  intros O P. destruct (gen_inverse_perm_ok ord O junk m pv P) as [q [E I]]. pose proof (proj1 I) as Pq. pose proof (inverse_sym m pv q P I) as I'. exists q. split; [exact E|]. split; [exact Pq|]. split; [apply I|]. split.
  - destruct (gen_inverse_perm_ok ord O junk m q Pq) as [r [Er Ir]]. rewrite Er. f_equal. exact (inverse_unique m q r pv Ir I').
  - intros x L. destruct (apply_perm_ok ord O junk m x pv P L) as [y [E1 [_ G]]]. destruct (apply_inv_perm_ok ord O junk m x pv P L) as [z [E2 [_ S]]].
    destruct (apply_perm_ok ord O junk m x q Pq L) as [y' [E3 [_ G']]]. destruct (apply_inv_perm_ok ord O junk m x q Pq L) as [z' [E4 [_ S']]]. rewrite E1, E2, E3, E4. split; f_equal.
    + apply (gathered_unique m x q); auto. now apply (scattered_inverse m x pv q).
    + apply (scattered_unique m x q); auto. now apply (gathered_inverse m x pv q).
Qed.
Print Assumptions C23_inverse.
(* genPermBySort is the stable ascending sort of the signed values, and the only one *)
Theorem C23_sort k x : 0 < k -> Forall (word k) x ->
  stable_ascending k x (gen_perm_by_sort k x) /\ forall pv, stable_ascending k x pv -> pv = gen_perm_by_sort k x.
Proof. intros K W. split; [now apply gen_perm_by_sort_ok|]. intros pv S. apply (stable_unique k x); auto. now apply gen_perm_by_sort_ok. Qed.
Print Assumptions C23_sort.
Example C23_ex : is_perm 4 [2; 0; 3; 1]%nat /\ apply_perm (fun m => rev (seq 0 m)) 77 [10; 11; 12; 13] [2; 0; 3; 1]%nat = Ok [12; 10; 13; 11] /\
  apply_inv_perm (seq 0) 77 [10; 11; 12; 13] [2; 0; 3; 1]%nat = Ok [11; 13; 10; 12] /\ gen_inverse_perm (seq 0) 77 [2; 0; 3; 1]%nat = Ok [1; 3; 0; 2]%nat /\
  gen_perm_by_sort 8 [5; 255; 5; 0; 128] = [4; 1; 3; 0; 2]%nat.
Proof.
  split; [|repeat split]. apply NoDup_Permutation_bis; [repeat constructor; cbn; lia|cbn; lia|]. intros x H. apply in_seq. cbn in H. lia.
Qed.
(* without the permutation hypothesis: elements of the result stay uninitialised, and an index vector shorter than x is read past its end *)
Theorem C23_not_a_permutation_refuted : (exists x pv, length x = length pv /\ apply_inv_perm (seq 0) 1 x pv <> apply_inv_perm (seq 0) 2 x pv) /\
  exists x pv, apply_perm_span (seq 0) 0 x pv = Ub.
Proof. split; [exists [5; 6], [0; 0]%nat; split; [reflexivity|]; cbv; discriminate|exists [5; 6], [1]%nat; reflexivity]. Qed.
Print Assumptions C23_not_a_permutation_refuted.

(* C22: permuting a shared vector.  P i is party i's component of the shared permutation; the plaintext is scattered by the components in rank order,
   whatever the correlated randomness *)
Theorem C22_perm_am ord junk k n Q P X x : (forall m, Permutation (ord m) (seq 0 m)) -> 0 <= k ->
  (forall r, (r < n)%nat -> is_perm (length x) (P r)) -> good_pairs k n Q (length x) 0 (seq 0 n) -> shV k n X x ->
  exists Y y, perm_am ord junk k n Q P X = Ok Y /\ scattered_by P (seq 0 n) x y /\ shV k n Y y.
Proof. intros O K H G S. unfold perm_am. apply secure_loop_ok; auto. intros r R. apply in_seq in R. split; [lia|]. apply H. lia. Qed.
Print Assumptions C22_perm_am.
(* ... so that the components stand for ONE permutation pi, by which every shared vector is permuted *)
Theorem C22_perm_am_total ord junk k n m P : (forall m, Permutation (ord m) (seq 0 m)) -> 0 <= k -> (forall r, (r < n)%nat -> is_perm m (P r)) ->
  exists pi, is_perm m pi /\ forall Q X x, length x = m -> good_pairs k n Q m 0 (seq 0 n) -> shV k n X x ->
    exists Y y, perm_am ord junk k n Q P X = Ok Y /\ gathered x pi y /\ shV k n Y y.
Proof.
  intros O K H. destruct (scattered_by_total m P (seq 0 n)) as [pi [PI G]]; [intros r R; apply in_seq in R; apply H; lia|].
  exists pi. split; [exact PI|]. intros Q X x L GP S. destruct (C22_perm_am ord junk k n Q P X x O K) as [Y [y [E [SB SY]]]]; auto; [rewrite L; exact H|now rewrite L|].
  exists Y, y. split; [exact E|]. split; [now apply G|exact SY].
Qed.
Print Assumptions C22_perm_am_total.
Theorem C22_inv_perm_am ord junk k n Q P X x : (forall m, Permutation (ord m) (seq 0 m)) -> 0 <= k ->
  (forall r, (r < n)%nat -> is_perm (length x) (P r)) -> good_pairs k n Q (length x) 0 (rev (seq 0 n)) -> shV k n X x ->
  exists Y y, inv_perm_am ord junk k n Q P X = Ok Y /\ gathered_by P (rev (seq 0 n)) x y /\ shV k n Y y.
Proof.
  intros O K H G S. unfold inv_perm_am. destruct (inverses_ok ord O junk n (length x) P H) as [I [E HI]]. rewrite E. cbn [rbind].
  assert (IN : forall r, In r (rev (seq 0 n)) -> (r < n)%nat) by (intros r R; apply in_rev, in_seq in R; lia).
  destruct (secure_loop_ok ord O junk k n K Q (fun i => nth i I []) (rev (seq 0 n)) 0 X x) as [Y [y [EY [SB SY]]]]; auto.
  - intros r R. split; [auto|]. apply HI. auto.
  - exists Y, y. split; [exact EY|]. split; [|exact SY]. apply (scattered_by_inverse (length x) P (fun i => nth i I [])); auto.
Qed.
Print Assumptions C22_inv_perm_am.
(* permuting and then inversely permuting is the identity on plaintexts, in both orders *)
Theorem C22_roundtrip ord junk k n Q Q' P X x : (forall m, Permutation (ord m) (seq 0 m)) -> 0 <= k ->
  (forall r, (r < n)%nat -> is_perm (length x) (P r)) -> good_pairs k n Q (length x) 0 (seq 0 n) -> good_pairs k n Q' (length x) 0 (rev (seq 0 n)) -> shV k n X x ->
  (exists Y, rbind (perm_am ord junk k n Q P X) (inv_perm_am ord junk k n Q' P) = Ok Y /\ shV k n Y x) /\
  (exists Y, rbind (inv_perm_am ord junk k n Q' P X) (perm_am ord junk k n Q P) = Ok Y /\ shV k n Y x).
Proof.
  intros O K H G G' S.
  assert (LS : forall rs a b, scattered_by P rs a b -> length b = length a) by (induction 1 as [|? ? ? ? ? [L _] _ IH]; lia).
  assert (LG : forall rs a b, (forall r, In r rs -> is_perm (length a) (P r)) -> gathered_by P rs a b -> length b = length a).
  { intros rs a b HP GB. induction GB as [|? ? ? ? ? [L _] _ IH]; [reflexivity|]. assert (E0 : length y = length x0) by (rewrite L; apply perm_length, HP; now left). rewrite IH; [exact E0|]. rewrite E0. intros; apply HP. now right. }
  assert (IN : forall r, In r (seq 0 n) -> is_perm (length x) (P r)) by (intros r R; apply in_seq in R; apply H; lia).
  split.
  - destruct (C22_perm_am ord junk k n Q P X x O K H G S) as [Y [y [E [SB SY]]]]. rewrite E. cbn [rbind]. pose proof (LS _ _ _ SB) as Ly.
    destruct (C22_inv_perm_am ord junk k n Q' P Y y O K) as [Z0 [z [EZ [GB SZ]]]]; [rewrite Ly; exact H|now rewrite Ly|exact SY|].
    exists Z0. split; [exact EZ|]. rewrite <- (roundtrip_by (length x) P (seq 0 n) IN x y z eq_refl SB GB). exact SZ.
  - destruct (C22_inv_perm_am ord junk k n Q' P X x O K H G' S) as [Y [y [E [GB SY]]]]. rewrite E. cbn [rbind].
    assert (Ly : length y = length x) by (apply (LG (rev (seq 0 n))); auto; intros r R; apply IN; now apply in_rev).
    destruct (C22_perm_am ord junk k n Q P Y y O K) as [Z0 [z [EZ [SB SZ]]]]; [rewrite Ly; exact H|now rewrite Ly|exact SY|].
    exists Z0. split; [exact EZ|]. rewrite <- (roundtrip_by' (length x) P (seq 0 n) IN x y z eq_refl GB SB). exact SZ.
Qed.
Print Assumptions C22_roundtrip.
(* a public permutation is applied locally; a private one costs one PermPair *)
Theorem C22_public ord junk k n pv X x : (forall m, Permutation (ord m) (seq 0 m)) -> 0 <= k -> is_perm (length x) pv -> shV k n X x ->
  (exists Y y, perm_ap ord junk n pv X = Ok Y /\ gathered x pv y /\ shV k n Y y) /\
  (exists Y y, inv_perm_ap ord junk n pv X = Ok Y /\ scattered x pv y /\ shV k n Y y).
Proof.
  intros O K P [LX SX]. pose proof (perm_length _ _ P) as LP. split.
  - destruct (gather_exists (length x) x pv P eq_refl) as [y G]. pose proof G as [Ly HG].
    set (g := fun r => match apply_perm ord junk (X r) pv with Ok w => w | _ => [] end).
    assert (HR : forall r, (r < n)%nat -> apply_perm ord junk (X r) pv = Ok (g r) /\ gathered (X r) pv (g r)).
    { intros r R. destruct (apply_perm_ok ord O junk (length x) (X r) pv P (LX r R)) as [w [E [_ S]]]. unfold g. rewrite E. auto. }
    destruct (all_ranks_ok n _ g (fun r R => proj1 (HR r R))) as [Y [EY HY]]. exists Y, y. split; [exact EY|]. split; [exact G|]. split.
    + intros i I. rewrite (HY i I). destruct (HR i I) as [_ [L _]]. lia.
    + intros e Q. destruct (nth_error_lt pv e ltac:(lia)) as [p Ep]. pose proof (perm_bound _ _ _ _ P Ep) as Bp. destruct (nth_error_lt x p Bp) as [v V].
      rewrite (nth_of_error y e v 0 (HG e p v Ep V)). rewrite <- (nth_of_error x p v 0 V). specialize (SX p Bp).
      assert (EQ : forall i, (i < n)%nat -> nth e (Y i) 0 = nth p (X i) 0).
      { intros i I. rewrite (HY i I). destruct (HR i I) as [_ [_ HGi]]. destruct (nth_error_lt (X i) p ltac:(rewrite LX; auto)) as [w W]. rewrite (nth_of_error (X i) p w 0 W). apply nth_of_error. eapply HGi; eauto. }
      destruct SX as [W M]. split; [intros i I; rewrite EQ by exact I; now apply W|]. now rewrite (total_ext n _ (fun i => nth p (X i) 0) EQ).
  - destruct (scatter_exists (length x) x pv P eq_refl) as [y G]. pose proof G as [Ly HG].
    set (g := fun r => match apply_inv_perm ord junk (X r) pv with Ok w => w | _ => [] end).
    assert (HR : forall r, (r < n)%nat -> apply_inv_perm ord junk (X r) pv = Ok (g r) /\ scattered (X r) pv (g r)).
    { intros r R. destruct (apply_inv_perm_ok ord O junk (length x) (X r) pv P (LX r R)) as [w [E [_ S]]]. unfold g. rewrite E. auto. }
    destruct (all_ranks_ok n _ g (fun r R => proj1 (HR r R))) as [Y [EY HY]]. exists Y, y. split; [exact EY|]. split; [exact G|]. split.
    + intros i I. rewrite (HY i I). destruct (HR i I) as [_ [L _]]. rewrite L, Ly. now apply LX.
    + intros p Q. rewrite Ly in Q. destruct (perm_surj _ _ _ P Q) as [e [E0 Ep]]. destruct (nth_error_lt x e E0) as [v V].
      rewrite (nth_of_error y p v 0 (HG e p v Ep V)). rewrite <- (nth_of_error x e v 0 V). specialize (SX e E0).
      assert (EQ : forall i, (i < n)%nat -> nth p (Y i) 0 = nth e (X i) 0).
      { intros i I. rewrite (HY i I). destruct (HR i I) as [_ [_ HGi]]. destruct (nth_error_lt (X i) e ltac:(rewrite LX; auto)) as [w W]. rewrite (nth_of_error (X i) e w 0 W). apply nth_of_error. eapply HGi; eauto. }
      destruct SX as [W M]. split; [intros i I; rewrite EQ by exact I; now apply W|]. now rewrite (total_ext n _ (fun i => nth e (X i) 0) EQ).
Qed.
Print Assumptions C22_public.
Theorem C22_private ord junk k n Q owner pv X x : (forall m, Permutation (ord m) (seq 0 m)) -> 0 <= k -> (owner < n)%nat -> is_perm (length x) pv ->
  good_pair k n (length x) owner (Q O) -> shV k n X x ->
  exists Y y, inv_perm_av ord junk k n Q owner pv X = Ok Y /\ scattered x pv y /\ shV k n Y y.
Proof. intros O K R P G S. unfold inv_perm_av. exact (secure_step_ok ord O junk k n K Q (fun _ => pv) 0 owner X x R P G S). Qed.
Print Assumptions C22_private.
(* a concrete case: two parties, three elements *)
Definition ex_P (r : nat) : list nat := if (r =? 0)%nat then [1; 2; 0]%nat else [0; 2; 1]%nat.
Definition ex_X (r : nat) : list Z := if (r =? 0)%nat then [3; 200; 7] else [7; 76; 250].
Definition ex_pr : list nat := [2; 1; 0]%nat.
Definition ex_A (p e : nat) : Z := match p, e with O, O => 17 | O, 1%nat => 99 | O, _ => 5 | _, O => 1 | _, 1%nat => 2 | _, _ => 3 end.
(* B shares A reversed *)
Definition ex_B (p e : nat) : Z := match p, e with O, O => 4 | O, 1%nat => 90 | O, _ => 10 | _, O => 4 | _, 1%nat => 11 | _, _ => 8 end.
Definition ex_Q : pairs := fun t => (ex_A, ex_B, fun p => if (p =? t)%nat then ex_pr else []).
Example C22_ex : (forall r, (r < 2)%nat -> is_perm 3 (ex_P r)) /\ good_pairs 8 2 ex_Q 3 0 (seq 0 2) /\ shV 8 2 ex_X [10; 20; 1] /\
  match perm_am (seq 0) 99 8 2 ex_Q ex_P ex_X with
  | Ok Y => map (fun e => (nth e (Y O) 0 + nth e (Y 1%nat) 0) mod 2 ^ 8) (seq 0 3)
  | _ => [] end = [1; 20; 10].
Proof.
  assert (P3 : forall a b c, NoDup [a; b; c] -> (a < 3)%nat -> (b < 3)%nat -> (c < 3)%nat -> is_perm 3 [a; b; c]).
  { intros a b c ND A B C. apply NoDup_Permutation_bis; [exact ND|cbn; lia|]. intros x [<-|[<-|[<-|[]]]]; apply in_seq; lia. }
  assert (GP : forall t r, r = t -> (t < 2)%nat -> good_pair 8 2 3 r (ex_Q t)).
  { intros t r -> T. split.
    - split; [|split].
      + cbn [ex_Q snd]. rewrite Nat.eqb_refl. apply P3; try lia. repeat constructor; cbn; lia.
      + intros p _ N. cbn [ex_Q snd]. destruct (Nat.eqb_spec p t); [lia|reflexivity].
      + intros j J. cbn [ex_Q snd fst]. rewrite Nat.eqb_refl. destruct j as [|[|[|j]]]; [| | |lia]; exists 0; reflexivity.
    - intros i e I E. cbn [ex_Q snd fst]. unfold word. destruct i as [|[|i]]; [| |lia]; destruct e as [|[|[|e]]]; try lia; cbn; lia. }
  split; [|split; [|split]].
  - intros r R. destruct r as [|[|r]]; [| |lia]; apply P3; try lia; repeat constructor; cbn; lia.
  - split; [apply GP; lia|]. split; [apply GP; lia|exact I].
  - split; [intros i I; destruct i as [|[|i]]; [reflexivity|reflexivity|lia]|]. intros e E. cbn [length] in E.
    destruct e as [|[|[|e]]]; [| | |lia]; (split; [intros i I; destruct i as [|[|i]]; [| |lia]; unfold word; cbn; lia|split; [unfold word; cbn; lia|]]); [exists 0|exists (-1)|exists (-1)]; reflexivity.
  - vm_compute. reflexivity.
Qed.
