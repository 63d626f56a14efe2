(* Sorting kernels on public and private data. *)
From Coq Require Import ZifyBool ZifyNat ZifyN.
From Verif Require Import Base Ring_model Ring_spec Party Perm_model Perm_spec Perm_proof Fold Scan_model Scan_proof Radix_model Radix_spec Radix_proof Radixs_proof Radixk_proof Pv_model Pv_spec.
Open Scope nat_scope.

Lemma insert_stable_ext f g a l : (forall x y, f x y = g x y) -> insert_stable f a l = insert_stable g a l.
Proof. intros H. induction l as [|b l IH]; [reflexivity|]. cbn. rewrite H, IH. reflexivity. Qed.
Lemma stable_sort_ext f g l : (forall x y, f x y = g x y) -> stable_sort f l = stable_sort g l.
Proof. intros H. induction l as [|b l IH]; [reflexivity|]. cbn. rewrite IH. now apply insert_stable_ext. Qed.

(* the inverse of a stable order gives the places *)
Lemma inverse_nth n q pn i : is_perm n q -> inverse_of n q pn -> i < n -> nth_error q (nth i pn 0) = Some i.
Proof. intros Q [P H] I. apply H. apply nth_error_nth'. rewrite (perm_length _ _ P). exact I. Qed.
Lemma places_of_order n desc keys q pn : stable_order n desc keys q -> inverse_of n q pn -> places n desc keys pn.
Proof.
  intros [Q S] IV. split; [apply IV|]. intros i j I J.
  pose proof (inverse_nth n q pn i Q IV I) as A. pose proof (inverse_nth n q pn j Q IV J) as B.
  split; [intros L; exact (S _ _ _ _ L A B)|]. intros H.
  destruct (Nat.lt_trichotomy (nth i pn 0) (nth j pn 0)) as [C|[C|C]]; [exact C|exfalso|exfalso].
  - rewrite C in A. rewrite A in B. injection B as ->. destruct H as [H|[_ H]]; [exact (before_irr _ _ _ H)|lia].
  - specialize (S _ _ _ _ C B A). destruct H as [H|[H H']], S as [S|[S S']].
    + exact (before_asym _ _ _ _ H S).
    + apply (before_neq desc keys i j); [intros; symmetry; auto|exact H].
    + apply (before_neq desc keys j i); [intros; symmetry; auto|exact S].
    + lia.
Qed.
Lemma order_of_places n desc keys pn q : places n desc keys pn -> inverse_of n pn q -> stable_order n desc keys q.
Proof.
  intros [P H] [Q I]. split; [exact Q|]. intros a b i j AB A B. apply I in A. apply I in B.
  pose proof (nth_error_Some_lt _ _ _ A) as LA. pose proof (nth_error_Some_lt _ _ _ B) as LB. rewrite (perm_length _ _ P) in LA, LB.
  apply (H i j LA LB). now rewrite (nth_of_error _ _ _ 0 A), (nth_of_error _ _ _ 0 B).
Qed.
Lemma map_of_nat_inv (y : list Z) : Forall (fun v => 0 <= v)%Z y -> y = map Z.of_nat (map Z.to_nat y).
Proof. intros F. rewrite map_map. symmetry. rewrite <- (map_id y) at 2. apply map_ext_in. intros v V. rewrite Forall_forall in F. specialize (F v V). lia. Qed.

Section Gen.
Variables (junk k : Z) (n : nat).
Hypothesis K : (0 < k)%Z.
Hypothesis N : (Z.of_nat n < 2 ^ k)%Z.

Lemma gen_inv_perm_p_ok x asc : length x = n -> exists pn, gen_inv_perm_p junk k x asc = Ok (map Z.of_nat pn) /\ places n (negb asc) [sval k x] pn.
Proof using All.
  intros L. unfold gen_inv_perm_p. rewrite L.
  set (key := fun a => if asc then sgn k (nth a x 0%Z) else (- sgn k (nth a x 0%Z))%Z).
  rewrite (stable_sort_ext _ (fun a b => key a <? key b)%Z).
  2: { intros a b. unfold key. cbv zeta. destruct asc; [reflexivity|]. destruct (Z.ltb_spec (sgn k (nth b x 0%Z)) (sgn k (nth a x 0%Z))), (Z.ltb_spec (- sgn k (nth a x 0%Z)) (- sgn k (nth b x 0%Z))); lia. }
  set (q := stable_sort (fun a b => key a <? key b)%Z (seq 0 n)).
  assert (Q : is_perm n q) by exact (sort_perm key (seq 0 n)).
  assert (S : stable_order n (negb asc) [sval k x] q).
  { split; [exact Q|]. intros a b i j AB A B. pose proof (sorted_nth key _ (sort_sorted key _ (seq_sorted key n 0)) a b i j AB A B) as H. unfold before, key in H. cbn [row_before In].
    change (sval k x i) with (sgn k (nth i x 0%Z)). change (sval k x j) with (sgn k (nth j x 0%Z)).
    destruct asc; cbn [negb]; destruct H as [H|[H1 H2]]; [left; left; lia|right; split; [intros v [<-|[]]; exact H1|exact H2]|left; left; lia|right; split; [intros v [<-|[]]; change (sgn k (nth i x 0%Z) = sgn k (nth j x 0%Z)); lia|exact H2]]. }
  destruct (loop_writes (fun idx y => rbind (read q idx) (fun p => write y p (wrap k (Z.of_nat idx)))) (fun i => nth i q 0) (fun i => Z.of_nat i) n (seq 0 n)) with (y := repeat junk n) as [y [E [Ly [H _]]]].
  - intros i y I Ly. apply in_seq in I. unfold read. rewrite (pv_at n q Q i) by lia. cbn [rbind]. unfold write. pose proof (pv_lt n q Q i ltac:(lia)).
    destruct (Nat.ltb_spec (nth i q 0) (length y)); [|lia]. rewrite wrap_small by lia. reflexivity.
  - intros i I. apply in_seq in I. apply (pv_lt n q Q). lia.
  - apply nodup_map_inj; [apply seq_NoDup|]. intros a b A B E. apply in_seq in A, B. apply (perm_inj n q a b (nth a q 0) Q); [apply (pv_at n q Q); lia|rewrite E; apply (pv_at n q Q); lia].
  - apply repeat_length.
  - rewrite E. exists (map Z.to_nat y).
    assert (F : Forall (fun v => 0 <= v)%Z y).
    { apply Forall_forall. intros v V. apply (In_nth _ _ 0%Z) in V. destruct V as [p [Hp <-]]. rewrite Ly in Hp. destruct (perm_onto n q p Q Hp) as [i [I <-]].
      rewrite (nth_of_error _ _ _ 0%Z (H i ltac:(apply in_seq; lia))). lia. }
    split; [f_equal; now apply map_of_nat_inv|]. apply (places_of_order n _ _ q); [exact S|].
    apply (scattered_seq_inverse n q); [exact Q|]. split; [now rewrite map_length, seq_length|]. intros i p v A B. pose proof (nth_error_Some_lt _ _ _ B) as I. rewrite seq_length in I. rewrite nth_error_seq in B by exact I. injection B as <-.
    rewrite nth_error_map. rewrite <- (nth_of_error _ _ _ 0 A). rewrite H by (apply in_seq; lia). cbn. f_equal. lia.
Qed.
End Gen.

(* ---- composition ---- *)
Lemma places_compose n desc vs v p1 hat p2 : places n desc vs p1 -> (forall i, i < n -> hat (nth i p1 0) = v i) -> places n desc [hat] p2 ->
  places n desc (v :: vs) (tab n (fun i => nth (nth i p1 0) p2 0)).
Proof.
  intros [P1 H1] HV [P2 H2]. split.
  - assert (E : tab n (fun i => nth (nth i p1 0) p2 0) = map (fun i => nth i p2 0) p1).
    { pose proof (tab_eta p1 0) as T. rewrite (perm_length _ _ P1) in T. transitivity (map (fun i => nth i p2 0) (tab n (fun i => nth i p1 0))); [unfold tab; now rewrite map_map|now rewrite <- T]. }
    rewrite E. now apply Perm_proof.compose_perm.
  - intros i j I J. rewrite !tab_nth by assumption. pose proof (pv_lt n p1 P1 i I) as LI. pose proof (pv_lt n p1 P1 j J) as LJ. rewrite (H2 _ _ LI LJ).
    cbn [row_before In]. rewrite !HV by assumption. rewrite (H1 i j I J). split.
    + intros [[A|[_ []]]|[A [B|[B1 B2]]]].
      * left. now left.
      * left. right. split; [|exact B]. specialize (A hat (or_introl eq_refl)). now rewrite !HV in A.
      * right. split; [|exact B2]. intros u [<-|U]; [|auto]. specialize (A hat (or_introl eq_refl)). now rewrite !HV in A.
    + intros [[A|[A B]]|[A B]].
      * left. now left.
      * right. split; [intros u [<-|[]]; now rewrite !HV|]. now left.
      * right. split; [intros u [<-|[]]; rewrite !HV by assumption; apply A; now left|]. right. split; [intros u U; apply A; now right|exact B].
Qed.
Lemma places_ext n desc vs vs' p : Forall2 (fun v v' => forall i, i < n -> v i = v' i) vs vs' -> places n desc vs p -> places n desc vs' p.
Proof.
  intros F [P H]. split; [exact P|]. intros i j I J. rewrite (H i j I J).
  assert (A : row_before desc vs i j <-> row_before desc vs' i j).
  { clear - F I J. induction F as [|v v' l l' E F IH]; [reflexivity|]. cbn. rewrite !E by assumption. rewrite IH. reflexivity. }
  assert (B : (forall v, In v vs -> v i = v j) <-> (forall v, In v vs' -> v i = v j)).
  { clear - F I J. induction F as [|v v' l l' E F IH]; [reflexivity|]. split; intros G u [<-|U].
    - rewrite <- !E by assumption. apply G. now left.
    - apply (proj1 IH); [intros w W; apply G; now right|exact U].
    - rewrite !E by assumption. apply G. now left.
    - apply (proj2 IH); [intros w W; apply G; now right|exact U]. }
  rewrite A, B. reflexivity.
Qed.
(* one merged key does as well as the keys it stands for *)
Lemma before_app desc a b i j : row_before desc (a ++ b) i j <-> row_before desc a i j \/ ((forall v, In v a -> v i = v j) /\ row_before desc b i j).
Proof.
  induction a as [|x a IH]; cbn [app row_before In]; [split; [intros H; right; split; [intros v []|exact H]|intros [[]|[_ H]]; exact H]|]. rewrite IH. split.
  - intros [H|[H [G|[G1 G2]]]]; [left; now left|left; right; auto|]. right. split; [|exact G2]. intros v [<-|V]; auto.
  - intros [[H|[H G]]|[H G]]; [now left|right; auto|]. right. split; [apply H; now left|]. right. split; [intros v V; apply H; now right|exact G].
Qed.
Lemma places_merged n desc m gs vs p : merged n desc gs m -> places n desc (m :: vs) p <-> places n desc (gs ++ vs) p.
Proof.
  intros M. unfold places. split; intros [P H]; (split; [exact P|]); intros i j I J; rewrite (H i j I J); destruct (M i j I J) as [M1 M2]; cbn [row_before] in M1;
  (assert (E1 : row_before desc (m :: vs) i j <-> row_before desc (gs ++ vs) i j) by (rewrite before_app, <- M1, <- M2; cbn [row_before]; tauto));
  (assert (E2 : (forall v, In v (m :: vs) -> v i = v j) <-> (forall v, In v (gs ++ vs) -> v i = v j)) by (split; intros A u U;
     [apply in_app_or in U; destruct U as [U|U]; [apply (proj1 M2); [apply A; now left|exact U]|apply A; now right]
     |destruct U as [<-|U]; [apply M2; intros w W; apply A, in_or_app; now left|apply A, in_or_app; now right]]));
  rewrite E1, E2; reflexivity.
Qed.
