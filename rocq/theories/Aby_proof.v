From Verif Require Import Base Ring_model Ring_spec Ring_proof Share_spec Party Semi_model Semi_proof Circ_model.
From Verif Require Import Aby_model Aby_spec.
Open Scope Z_scope.

Ltac three i := destruct i as [|[|[|i]]]; [ | | |lia].
Lemma nx_nxt i : (i < 3)%nat -> nx i = nxt i.
Proof. intros H. three i; reflexivity. Qed.
Lemma nx_lt i : (i < 3)%nat -> (nx i < 3)%nat.
Proof. intros H. three i; cbn; lia. Qed.

(* ---- introduction and elimination ---- *)
Lemma repA_word k X x : repA k X x -> word k x.
Proof. intros [_ [W _]]. exact W. Qed.
Lemma repA_eqm k X x : 0 <= k -> repA k X x -> eqm k (fst (X 0%nat) + fst (X 1%nat) + fst (X 2%nat)) x.
Proof. intros K [_ [_ [q ->]]]. symmetry. apply eqm_mult. Qed.
Lemma repA_of k X x : 0 <= k -> replicated k X -> word k x -> eqm k (fst (X 0%nat) + fst (X 1%nat) + fst (X 2%nat)) x -> repA k X x.
Proof.
  intros K R W E. split; [exact R|]. rewrite <- (wrap_small k x) by exact W. rewrite <- E. now apply wrap_is_mod.
Qed.
Lemma rot_replicated k z : (forall i, (i < 3)%nat -> word k (z i)) -> replicated k (rot z).
Proof. intros W i Hi. unfold rot. cbn [fst snd]. repeat split; try apply W; auto using nx_lt. now rewrite nx_nxt. Qed.
Lemma repA_rot k z x : 0 <= k -> (forall i, (i < 3)%nat -> word k (z i)) -> word k x -> eqm k (z 0%nat + z 1%nat + z 2%nat) x -> repA k (rot z) x.
Proof. intros K W Wx E. apply repA_of; auto. now apply rot_replicated. Qed.
Lemma repB_rot k z x : (forall i, (i < 3)%nat -> word k (z i)) -> word k x -> Z.lxor (Z.lxor (z 0%nat) (z 1%nat)) (z 2%nat) = x -> repB k (rot z) x.
Proof. intros W Wx E. split; [now apply rot_replicated|]. split; [exact Wx|exact E]. Qed.
(* the components of a replicated sharing *)
Lemma rep_shape v X : replicated v X -> exists a b c, word v a /\ word v b /\ word v c /\ X 0%nat = (a, b) /\ X 1%nat = (b, c) /\ X 2%nat = (c, a).
Proof.
  intros R. destruct (R 0%nat ltac:(lia)) as [W0 [_ E0]], (R 1%nat ltac:(lia)) as [W1 [_ E1]], (R 2%nat ltac:(lia)) as [W2 [_ E2]]. cbn [nxt] in *.
  exists (fst (X 0%nat)), (fst (X 1%nat)), (fst (X 2%nat)). rewrite (surjective_pairing (X 0%nat)), (surjective_pairing (X 1%nat)), (surjective_pairing (X 2%nat)), E0, E1, E2. cbn [fst snd]. auto 10.
Qed.
Lemma rep_intro v X a b c : word v a -> word v b -> word v c -> X 0%nat = (a, b) -> X 1%nat = (b, c) -> X 2%nat = (c, a) -> replicated v X.
Proof. intros A B C E0 E1 E2 i Hi. three i; cbn [nxt]; rewrite ?E0, ?E1, ?E2; cbn [fst snd]; auto. Qed.
Lemma repA_shape k X x : 0 <= k -> repA k X x -> exists a b c, word k a /\ word k b /\ word k c /\ X 0%nat = (a, b) /\ X 1%nat = (b, c) /\ X 2%nat = (c, a)
  /\ eqm k (a + b + c) x.
Proof.
  intros K H. pose proof (repA_eqm k X x K H) as E. destruct (rep_shape k X (proj1 H)) as [a [b [c [A [B [C [E0 [E1 E2]]]]]]]].
  exists a, b, c. rewrite E0, E1, E2 in E. cbn [fst] in E. auto 10.
Qed.
Lemma repA_intro k X x a b c : 0 <= k -> word k a -> word k b -> word k c -> word k x -> X 0%nat = (a, b) -> X 1%nat = (b, c) -> X 2%nat = (c, a) ->
  eqm k (a + b + c) x -> repA k X x.
Proof.
  intros K A B C W E0 E1 E2 E. apply repA_of; auto; [now apply (rep_intro k X a b c)|]. now rewrite E0, E1, E2.
Qed.
Lemma repB_shape v X x : repB v X x -> exists a b c, word v a /\ word v b /\ word v c /\ X 0%nat = (a, b) /\ X 1%nat = (b, c) /\ X 2%nat = (c, a)
  /\ Z.lxor (Z.lxor a b) c = x.
Proof.
  intros [R [W E]]. destruct (rep_shape v X R) as [a [b [c [A [B [C [E0 [E1 E2]]]]]]]].
  exists a, b, c. rewrite E0, E1, E2 in E. cbn [fst] in E. auto 10.
Qed.
Lemma repB_intro v X x a b c : 0 <= v -> word v a -> word v b -> word v c -> X 0%nat = (a, b) -> X 1%nat = (b, c) -> X 2%nat = (c, a) ->
  Z.lxor (Z.lxor a b) c = x -> repB v X x.
Proof.
  intros V A B C E0 E1 E2 E. split; [now apply (rep_intro v X a b c)|]. split; [|now rewrite E0, E1, E2].
  rewrite <- E. now repeat apply word_lxor.
Qed.
(* replicated sharings are three-party additive sharings of the first components *)
Lemma repA_shA k X x : repA k X x <-> replicated k X /\ shA k 3 (fun i => fst (X i)) x.
Proof.
  split.
  - intros [R M]. split; [exact R|]. split; [intros i Hi; now apply R|exact M].
  - intros [R [_ M]]. split; [exact R|exact M].
Qed.

Ltac words := repeat first [assumption | apply radd_word | apply rsub_word | apply rmul_word | apply rneg_word | apply word_wrap | apply word_0 | apply rshl_word | apply rsar_word | lia].
Ltac ev := rewrite ?eqm_radd, ?eqm_rsub, ?eqm_rmul, ?eqm_rneg, ?eqm_rshl, ?eqm_wrap.

(* ---- opening ---- *)
Lemma a2p3_ok k X x rank : 0 <= k -> (rank < 3)%nat -> repA k X x -> a2p3 k X rank = x.
Proof.
  intros K Hr H. destruct (repA_shape k X x K H) as [a [b [c [A [B [C [E0 [E1 [E2 E]]]]]]]]].
  rewrite <- (wrap_small k x) by exact (repA_word k X x H). unfold a2p3. unfold radd at 1. rewrite <- E.
  match goal with |- wrap k ?u = wrap k ?v => change (eqm k u v) end.
  three rank; cbn [nx nextrank Nat.eqb]; rewrite ?E0, ?E1, ?E2; cbn [fst snd]; ev; apply eqm_of_eq; ring.
Qed.
Lemma a2v3_ok k X x o : 0 <= k -> (o < 3)%nat -> repA k X x -> a2v3 k X o o = x.
Proof. intros K Ho H. unfold a2v3. rewrite Nat.eqb_refl. now apply a2p3_ok. Qed.
Lemma from_shares_a_ok k X x : 0 <= k -> repA k X x -> from_shares_a k X = x.
Proof.
  intros K H. destruct (repA_shape k X x K H) as [a [b [c [A [B [C [E0 [E1 [E2 E]]]]]]]]].
  rewrite <- (wrap_small k x) by exact (repA_word k X x H). unfold from_shares_a. unfold radd at 1. rewrite <- E.
  match goal with |- wrap k ?u = wrap k ?v => change (eqm k u v) end.
  rewrite E0, E1, E2. cbn [fst]. ev. apply eqm_of_eq; ring.
Qed.

(* ---- creating and transforming additive sharings ---- *)
Ltac start H K := destruct (repA_shape _ _ _ K H) as [a [b [c [A [B [C [E0 [E1 [E2 E]]]]]]]]].
Ltac build a b c := apply (repA_intro _ _ _ a b c); [lia | words .. ].
Lemma rand_a_ok k S : 2 <= k -> exists x, repA k (rand_a k S) x.
Proof.
  intros K. exists (wrap k (rshr 2 (wrap k (S 0%nat)) + rshr 2 (wrap k (S 1%nat)) + rshr 2 (wrap k (S 2%nat)))).
  assert (W : forall v, word k (rshr 2 (wrap k v))) by (intros; apply rshr_word; [lia|lia|apply word_wrap; lia]).
  apply (repA_intro k _ _ (rshr 2 (wrap k (S 0%nat))) (rshr 2 (wrap k (S 1%nat))) (rshr 2 (wrap k (S 2%nat)))); auto; try reflexivity; [lia|apply word_wrap; lia|].
  symmetry. apply eqm_wrap.
Qed.
Lemma p2a3_ok k x : 0 <= k -> word k x -> repA k (p2a3 x) x.
Proof. intros K W. apply (repA_intro k _ _ x 0 0); words; try reflexivity. apply eqm_of_eq; ring. Qed.
Lemma v2a3_ok k o x r : 0 <= k -> (o < 3)%nat -> word k x -> repA k (v2a3 k o x r) x.
Proof.
  intros K Ho W. unfold v2a3, additive_splits. cbn [fold_left nth]. set (s0 := rsub k x (wrap k r)). set (s1 := wrap k r).
  assert (W0 : word k s0) by (unfold s0; words). assert (W1 : word k s1) by (unfold s1; words). assert (Z0 : word k 0) by words.
  assert (E : eqm k (s0 + s1) x) by (unfold s0, s1; ev; apply eqm_of_eq; ring).
  three o.
  - apply (repA_intro k _ _ s0 s1 0); auto. rewrite <- E. apply eqm_of_eq; ring.
  - apply (repA_intro k _ _ 0 s0 s1); auto.
  - apply (repA_intro k _ _ s1 0 s0); auto. rewrite <- E. apply eqm_of_eq; ring.
Qed.
Lemma to_shares3_ok k x r1 r2 : 0 <= k -> word k x -> repA k (to_shares3 k x r1 r2) x.
Proof.
  intros K W. unfold to_shares3, additive_splits. cbn [fold_left].
  apply (repA_intro k _ _ (rsub k (rsub k x (wrap k r1)) (wrap k r2)) (wrap k r1) (wrap k r2)); words; try reflexivity.
  ev. apply eqm_of_eq; ring.
Qed.
Lemma negate_a3_ok k X x : 0 <= k -> repA k X x -> repA k (negate_a3 k X) (wrap k (- x)).
Proof.
  intros K H. start H K. apply (repA_intro k _ _ (wrap k (-a)) (wrap k (-b)) (wrap k (-c))); words;
    unfold negate_a3, both; rewrite ?E0, ?E1, ?E2; try reflexivity. ev. rewrite <- E. apply eqm_of_eq; ring.
Qed.
Lemma add_ap3_ok k X x p : 0 <= k -> repA k X x -> repA k (add_ap3 k X p) (wrap k (x + p)).
Proof.
  intros K H. start H K. apply (repA_intro k _ _ a (radd k b p) c); words;
    unfold add_ap3; rewrite ?E0, ?E1, ?E2; try reflexivity. ev. rewrite <- E. apply eqm_of_eq; ring.
Qed.
Lemma add_aa3_ok k X Y x y : 0 <= k -> repA k X x -> repA k Y y -> repA k (add_aa3 k X Y) (wrap k (x + y)).
Proof.
  intros K H H'. start H K. destruct (repA_shape _ _ _ K H') as [a' [b' [c' [A' [B' [C' [E0' [E1' [E2' E']]]]]]]]].
  apply (repA_intro k _ _ (radd k a a') (radd k b b') (radd k c c')); words;
    unfold add_aa3; rewrite ?E0, ?E1, ?E2, ?E0', ?E1', ?E2'; try reflexivity. ev. rewrite <- E, <- E'. apply eqm_of_eq; ring.
Qed.
Lemma mul_ap3_ok k X x p : 0 <= k -> repA k X x -> repA k (mul_ap3 k X p) (wrap k (x * p)).
Proof.
  intros K H. start H K. apply (repA_intro k _ _ (rmul k a p) (rmul k b p) (rmul k c p)); words;
    unfold mul_ap3, both; rewrite ?E0, ?E1, ?E2; try reflexivity. ev. rewrite <- E. apply eqm_of_eq; ring.
Qed.
Lemma lshift_a3_ok k X x s : repA k X x -> 0 <= s < k -> exists V, lshift_a3 k X s = Ok V /\ repA k V (wrap k (x * 2 ^ s)).
Proof.
  intros H S. assert (K : 0 <= k) by lia. start H K. unfold lshift_a3, in_shift.
  destruct (Z.leb_spec 0 s); [|lia]. destruct (Z.ltb_spec s k); [|lia]. eexists. split; [reflexivity|].
  apply (repA_intro k _ _ (rshl k s a) (rshl k s b) (rshl k s c)); words; unfold both; rewrite ?E0, ?E1, ?E2; try reflexivity.
  ev. rewrite <- E. apply eqm_of_eq; ring.
Qed.

(* ---- multiplication ---- *)
Lemma mul_aa3_ok k X Y x y S : 0 <= k -> repA k X x -> repA k Y y -> repA k (mul_aa3 k X Y S) (wrap k (x * y)).
Proof.
  intros K H H'. start H K. destruct (repA_shape _ _ _ K H') as [a' [b' [c' [A' [B' [C' [E0' [E1' [E2' E']]]]]]]]].
  unfold mul_aa3. apply repA_rot; words; [intros; words|].
  cbn [nx nextrank Nat.eqb]. rewrite ?E0, ?E1, ?E2, ?E0', ?E1', ?E2'. cbn [fst snd]. ev. rewrite <- E, <- E'. apply eqm_of_eq; ring.
Qed.
Lemma mmul_dot k K A B i j : 0 <= k -> eqm k (ring_mmul k K A B i j) (dot K (A i) (fun l => B l j)).
Proof. intros. now apply eqm_mmul. Qed.
Lemma matmul_ap3_ok k K X P x r c : 0 <= k -> (forall l, (l < K)%nat -> repA k (X r l) (x r l)) ->
  repA k (matmul_ap3 k K X P r c) (wrap k (dot K (x r) (fun l => P l c))).
Proof.
  intros Hk H. unfold matmul_ap3.
  assert (SN : forall i, (i < 3)%nat -> dot K (fun l => snd (X r l i)) (fun l => P l c) = dot K (fun l => fst (X r l (nxt i))) (fun l => P l c)).
  { intros i Hi. apply dot_ext. intros l Hl. split; [|reflexivity]. destruct (H l Hl) as [R _]. now destruct (R i Hi) as [_ [_ ->]]. }
  assert (MM : forall A, word k (ring_mmul k K A P r c)) by (intros; apply mmul_word; lia).
  assert (WW : forall A, ring_mmul k K A P r c = wrap k (dot K (A r) (fun l => P l c))).
  { intros A. rewrite <- (wrap_small k (ring_mmul k K A P r c)) by apply MM. now apply mmul_dot. }
  apply repA_of; words.
  - intros i Hi. cbn [fst snd]. split; [apply MM|]. split; [apply MM|]. rewrite !WW. now rewrite SN.
  - cbn [fst]. rewrite !WW. ev. apply eqm_trans with (dot K (fun l => fst (X r l 0%nat) + fst (X r l 1%nat) + fst (X r l 2%nat)) (fun l => P l c)).
    + apply eqm_of_eq. now rewrite !dot_add_l.
    + apply dot_eqm. intros l Hl. split; [|reflexivity]. apply repA_eqm; auto.
Qed.
Lemma matmul_aa3_ok k K X Y x y S r c : 0 <= k -> (forall l, (l < K)%nat -> repA k (X r l) (x r l)) -> (forall l, (l < K)%nat -> repA k (Y l c) (y l c)) ->
  repA k (matmul_aa3 k K X Y S r c) (wrap k (dot K (x r) (fun l => y l c))).
Proof.
  intros Hk HX HY. unfold matmul_aa3. cbv zeta. apply repA_rot; words; [intros; words|]. cbn [nx nextrank Nat.eqb].
  rewrite !eqm_radd. rewrite !eqm_rsub, !mmul_dot by lia. ev.
  apply eqm_trans with (dot K (fun l => fst (X r l 0%nat)) (fun l => fst (Y l c 0%nat) + snd (Y l c 0%nat)) + dot K (fun l => snd (X r l 0%nat)) (fun l => fst (Y l c 0%nat)) +
    (dot K (fun l => fst (X r l 1%nat)) (fun l => fst (Y l c 1%nat) + snd (Y l c 1%nat)) + dot K (fun l => snd (X r l 1%nat)) (fun l => fst (Y l c 1%nat))) +
    (dot K (fun l => fst (X r l 2%nat)) (fun l => fst (Y l c 2%nat) + snd (Y l c 2%nat)) + dot K (fun l => snd (X r l 2%nat)) (fun l => fst (Y l c 2%nat)))).
  - assert (D : forall p, eqm k (dot K (fun l => fst (X r l p)) (fun l => radd k (fst (Y l c p)) (snd (Y l c p))))
                                (dot K (fun l => fst (X r l p)) (fun l => fst (Y l c p) + snd (Y l c p)))).
    { intros p. apply dot_eqm. intros. split; [reflexivity|apply eqm_radd]. }
    rewrite !D. apply eqm_of_eq; ring.
  - apply eqm_trans with (dot K (fun l => fst (X r l 0%nat) + fst (X r l 1%nat) + fst (X r l 2%nat)) (fun l => fst (Y l c 0%nat) + fst (Y l c 1%nat) + fst (Y l c 2%nat))).
    + apply eqm_of_eq. induction K as [|K IH]; [reflexivity|]. cbn [dot].
      rewrite <- IH by (intros; first [apply HX; lia|apply HY; lia]).
      destruct (rep_shape k (X r K) (proj1 (HX K ltac:(lia)))) as [a [b [d [_ [_ [_ [E0 [E1 E2]]]]]]]].
      destruct (rep_shape k (Y K c) (proj1 (HY K ltac:(lia)))) as [a' [b' [d' [_ [_ [_ [E0' [E1' E2']]]]]]]].
      rewrite E0, E1, E2, E0', E1', E2'. cbn [fst snd]. ring.
    + apply dot_eqm. intros l Hl. split; apply repA_eqm; auto.
Qed.

(* what two parties hold determines the value; what one party holds is compatible with every value *)
Lemma two_parties k X Y x y i j : 0 <= k -> (i < 3)%nat -> (j < 3)%nat -> i <> j -> repA k X x -> repA k Y y -> X i = Y i -> X j = Y j -> x = y.
Proof.
  intros K Hi Hj N H H' Ei Ej. start H K. destruct (repA_shape _ _ _ K H') as [a' [b' [c' [A' [B' [C' [E0' [E1' [E2' E']]]]]]]]].
  assert (Q : a = a' /\ b = b' /\ c = c') by (three i; three j; try lia; rewrite ?E0, ?E1, ?E2, ?E0', ?E1', ?E2' in *; injection Ei; injection Ej; auto).
  destruct Q as [-> [-> ->]]. rewrite <- (wrap_small k x), <- (wrap_small k y) by (eapply repA_word; eauto). now rewrite <- E, <- E'.
Qed.
Lemma one_party k X x y i : 0 <= k -> (i < 3)%nat -> repA k X x -> word k y -> exists Y, repA k Y y /\ Y i = X i.
Proof.
  intros K Hi H Wy. start H K.
  set (Y := fun u v w : Z => fun i : nat => match i with O => (u, v) | 1%nat => (v, w) | _ => (w, u) end).
  three i.
  - exists (Y a b (wrap k (y - a - b))). split; [|now rewrite E0]. apply (repA_intro k _ _ a b (wrap k (y - a - b))); words; try reflexivity. ev. apply eqm_of_eq; ring.
  - exists (Y (wrap k (y - b - c)) b c). split; [|now rewrite E1]. apply (repA_intro k _ _ (wrap k (y - b - c)) b c); words; try reflexivity. ev. apply eqm_of_eq; ring.
  - exists (Y a (wrap k (y - a - c)) c). split; [|now rewrite E2]. apply (repA_intro k _ _ a (wrap k (y - a - c)) c); words; try reflexivity. ev. apply eqm_of_eq; ring.
Qed.
