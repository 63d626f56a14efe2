From Coq Require Import Sorting.Sorted.
From Verif Require Import Base Ring_model Ring_spec Ring_proof Share_spec Party Semi_model Semi_proof Prg_model Beaver_spec Perm_model Perm_spec.
Open Scope Z_scope.

(* ---- lists ---- *)
Lemma set_nth_length {A} (l : list A) : forall i x, length (set_nth l i x) = length l.
Proof. induction l; intros [|i] x; cbn; auto. Qed.
Lemma set_nth_at {A} (l : list A) : forall i x, (i < length l)%nat -> nth_error (set_nth l i x) i = Some x.
Proof. induction l; intros [|i] x H; cbn in *; try lia; auto. apply IHl. lia. Qed.
Lemma set_nth_ne {A} (l : list A) : forall i j x, i <> j -> nth_error (set_nth l i x) j = nth_error l j.
Proof. induction l; intros [|i] [|j] x H; cbn; auto; lia. Qed.
Lemma nth_error_ext_ {A} (a b : list A) : length a = length b -> (forall i, (i < length a)%nat -> nth_error a i = nth_error b i) -> a = b.
Proof.
  revert b. induction a as [|x a IH]; intros [|y b] L H; cbn in L; try lia; [reflexivity|]. pose proof (H O ltac:(cbn; lia)) as H0. cbn in H0. injection H0 as ->.
  f_equal. apply IH; [lia|]. intros i I. exact (H (S i) ltac:(cbn; lia)).
Qed.
Lemma nth_error_lt {A} (l : list A) i : (i < length l)%nat -> exists v, nth_error l i = Some v.
Proof. intros H. destruct (nth_error l i) eqn:E; [eauto|]. apply nth_error_None in E. lia. Qed.
Lemma nth_error_Some_lt {A} (l : list A) i v : nth_error l i = Some v -> (i < length l)%nat.
Proof. intros H. apply nth_error_Some. congruence. Qed.
Lemma nth_of_error {A} (l : list A) i v d : nth_error l i = Some v -> nth i l d = v.
Proof. intros H. now apply nth_error_nth. Qed.

(* ---- permutations as lists ---- *)
Lemma perm_length m pv : is_perm m pv -> length pv = m.
Proof. intros H. apply Permutation_length in H. now rewrite seq_length in H. Qed.
Lemma perm_bound m pv i p : is_perm m pv -> nth_error pv i = Some p -> (p < m)%nat.
Proof. intros H E. apply nth_error_In in E. apply (Permutation_in p H) in E. apply in_seq in E. lia. Qed.
Lemma perm_inj m pv i j p : is_perm m pv -> nth_error pv i = Some p -> nth_error pv j = Some p -> i = j.
Proof.
  intros H E1 E2. assert (ND : NoDup pv) by (apply (Permutation_NoDup (Permutation_sym H)), seq_NoDup).
  rewrite NoDup_nth_error in ND. apply ND; [eapply nth_error_Some_lt; eauto|congruence].
Qed.
Lemma perm_surj m pv p : is_perm m pv -> (p < m)%nat -> exists i, (i < m)%nat /\ nth_error pv i = Some p.
Proof.
  intros H L. assert (I : In p pv) by (apply (Permutation_in p (Permutation_sym H)), in_seq; lia).
  apply In_nth_error in I. destruct I as [i E]. exists i. split; [|exact E]. rewrite <- (perm_length m pv H). eapply nth_error_Some_lt; eauto.
Qed.
Lemma perm_seq m : is_perm m (seq 0 m). Proof. apply Permutation_refl. Qed.
Lemma nth_error_seq m i : (i < m)%nat -> nth_error (seq 0 m) i = Some i.
Proof. intros H. rewrite (nth_error_nth' _ O) by now rewrite seq_length. f_equal. now rewrite seq_nth. Qed.
Lemma perm_of m pv : length pv = m -> (forall i p, nth_error pv i = Some p -> (p < m)%nat) ->
  (forall i j p, nth_error pv i = Some p -> nth_error pv j = Some p -> i = j) -> is_perm m pv.
Proof.
  intros L B J. apply NoDup_Permutation_bis.
  - rewrite NoDup_nth_error. intros i j I E. destruct (nth_error_lt pv i I) as [v V]. apply (J i j v); [exact V|congruence].
  - rewrite seq_length. lia.
  - intros p I. apply In_nth_error in I. destruct I as [i E]. apply in_seq. specialize (B i p E). lia.
Qed.

(* ---- the loops ---- *)
Lemma loop_writes {A} (f : nat -> list A -> res (list A)) (tgt : nat -> nat) (val : nat -> A) m l :
  (forall i y, In i l -> length y = m -> f i y = Ok (set_nth y (tgt i) (val i))) -> (forall i, In i l -> (tgt i < m)%nat) ->
  NoDup (map tgt l) -> forall y, length y = m ->
  exists y', loop f l y = Ok y' /\ length y' = m /\ (forall i, In i l -> nth_error y' (tgt i) = Some (val i)) /\
    (forall q, ~ In q (map tgt l) -> nth_error y' q = nth_error y q).
Proof.
  induction l as [|i l IH]; intros F T ND y L; [exists y; split; [reflexivity|]; split; [exact L|]; split; [easy|reflexivity]|].
  inversion ND as [|? ? N1 N2]; subst. cbn [loop]. rewrite F by (auto; now left). cbn [rbind].
  destruct (IH (fun j z J => F j z (or_intror J)) (fun j J => T j (or_intror J)) N2 (set_nth y (tgt i) (val i)) ltac:(now rewrite set_nth_length)) as [y' [E [L' [H1 H2]]]].
  exists y'. split; [exact E|]. split; [exact L'|]. split.
  - intros j [<-|J]; [|now apply H1]. rewrite H2 by exact N1. apply set_nth_at. apply T. now left.
  - intros q Q. cbn [map In] in Q. rewrite H2 by tauto. apply set_nth_ne. tauto.
Qed.
Section Ord.
Variable ord : nat -> list nat.
Hypothesis ORD : forall m, Permutation (ord m) (seq 0 m).
Lemma ord_in m i : In i (ord m) <-> (i < m)%nat.
Proof. split; intros H; [apply (Permutation_in i (ORD m)) in H; apply in_seq in H; lia|apply (Permutation_in i (Permutation_sym (ORD m))), in_seq; lia]. Qed.
Lemma ord_nodup m : NoDup (ord m). Proof. apply (Permutation_NoDup (Permutation_sym (ORD m))), seq_NoDup. Qed.
Lemma nodup_map_inj {A B} (g : A -> B) l : NoDup l -> (forall a b, In a l -> In b l -> g a = g b -> a = b) -> NoDup (map g l).
Proof.
  induction l as [|a l IH]; intros ND J; cbn; [constructor|]. inversion ND; subst. constructor.
  - rewrite in_map_iff. intros [b [E I]]. assert (a = b) by (apply J; [now left|now right|now symmetry]). subst. contradiction.
  - apply IH; auto. intros. apply J; auto; now right.
Qed.
(* the scatter loop *)
Lemma scatter_loop {A} (x : list A) (pv : list nat) (y0 : list A) m : is_perm m pv -> length x = m -> length y0 = m ->
  exists y, loop (fun i y => rbind (read pv i) (fun p => rbind (read x i) (fun v => write y p v))) (ord m) y0 = Ok y /\ scattered x pv y.
Proof.
  intros P L L0. pose proof (perm_length _ _ P) as LP.
  destruct m as [|m'].
  { exists y0. destruct (ord O) as [|z l] eqn:E; [|exfalso; assert (H : In z (ord O)) by (rewrite E; now left); apply ord_in in H; lia].
    split; [reflexivity|]. split; [lia|]. intros i p v H. destruct pv; [destruct i; discriminate|discriminate LP]. }
  set (m := S m') in *. destruct x as [|d x']; [discriminate L|]. set (x := d :: x') in *.
  destruct (loop_writes (fun i y => rbind (read pv i) (fun p => rbind (read x i) (fun v => write y p v))) (fun i => nth i pv O) (fun i => nth i x d) m (ord m)) with (y := y0) as [y [E [Ly [H _]]]].
  - intros i y I Ly. apply ord_in in I. destruct (nth_error_lt pv i ltac:(lia)) as [p Hp]. destruct (nth_error_lt x i ltac:(lia)) as [v Hv].
    unfold read. rewrite Hp, Hv. cbn [rbind]. unfold write. rewrite (nth_of_error _ _ _ _ Hp), (nth_of_error _ _ _ _ Hv).
    destruct (Nat.ltb_spec p (length y)); [reflexivity|]. pose proof (perm_bound _ _ _ _ P Hp). lia.
  - intros i I. apply ord_in in I. destruct (nth_error_lt pv i ltac:(lia)) as [p Hp]. rewrite (nth_of_error _ _ _ _ Hp). eapply perm_bound; eauto.
  - apply nodup_map_inj; [apply ord_nodup|]. intros a b Ia Ib. apply ord_in in Ia, Ib.
    destruct (nth_error_lt pv a ltac:(lia)) as [p Hp]. destruct (nth_error_lt pv b ltac:(lia)) as [q Hq]. rewrite (nth_of_error _ _ _ _ Hp), (nth_of_error _ _ _ _ Hq). intros <-.
    eapply perm_inj; eauto.
  - exact L0.
  - exists y. split; [exact E|]. split; [lia|]. intros i p v Hp Hv.
    assert (I : In i (ord m)) by (apply ord_in; rewrite <- LP; eapply nth_error_Some_lt; eauto).
    specialize (H i I). now rewrite (nth_of_error _ _ _ _ Hp), (nth_of_error _ _ _ _ Hv) in H.
Qed.
Lemma gather_loop {A} (x : list A) (pv : list nat) (y0 : list A) m : is_perm m pv -> length x = m -> length y0 = m ->
  exists y, loop (fun i y => rbind (read pv i) (fun p => rbind (read x p) (fun v => write y i v))) (ord m) y0 = Ok y /\ gathered x pv y.
Proof.
  intros P L L0. pose proof (perm_length _ _ P) as LP.
  destruct m as [|m'].
  { exists y0. destruct (ord O) as [|z l] eqn:E; [|exfalso; assert (H : In z (ord O)) by (rewrite E; now left); apply ord_in in H; lia].
    split; [reflexivity|]. split; [lia|]. intros i p v H. destruct pv; [destruct i; discriminate|discriminate LP]. }
  set (m := S m') in *. destruct x as [|d x']; [discriminate L|]. set (x := d :: x') in *.
  destruct (loop_writes (fun i y => rbind (read pv i) (fun p => rbind (read x p) (fun v => write y i v))) (fun i => i) (fun i => nth (nth i pv O) x d) m (ord m)) with (y := y0) as [y [E [Ly [H _]]]].
  - intros i y I Ly. apply ord_in in I. destruct (nth_error_lt pv i ltac:(lia)) as [p Hp]. pose proof (perm_bound _ _ _ _ P Hp) as B. destruct (nth_error_lt x p ltac:(lia)) as [v Hv].
    unfold read. rewrite Hp. cbn [rbind]. rewrite Hv. cbn [rbind]. unfold write. rewrite (nth_of_error _ _ _ _ Hp), (nth_of_error _ _ _ _ Hv).
    destruct (Nat.ltb_spec i (length y)); [reflexivity|lia].
  - intros i I. now apply ord_in in I.
  - rewrite map_id. apply ord_nodup.
  - exact L0.
  - exists y. split; [exact E|]. split; [lia|]. intros i p v Hp Hv.
    assert (I : In i (ord m)) by (apply ord_in; rewrite <- LP; eapply nth_error_Some_lt; eauto).
    specialize (H i I). now rewrite (nth_of_error _ _ _ _ Hp), (nth_of_error _ _ _ _ Hv) in H.
Qed.
End Ord.
Lemma scattered_unique {A} m (x : list A) pv y y' : is_perm m pv -> length x = m -> scattered x pv y -> scattered x pv y' -> y = y'.
Proof.
  intros P L [L1 H1] [L2 H2]. apply nth_error_ext_; [lia|]. intros q Q. destruct (perm_surj m pv q P ltac:(lia)) as [i [I E]].
  destruct (nth_error_lt x i ltac:(lia)) as [v V]. rewrite (H1 i q v E V), (H2 i q v E V). reflexivity.
Qed.
Lemma gathered_unique {A} m (x : list A) pv y y' : is_perm m pv -> length x = m -> gathered x pv y -> gathered x pv y' -> y = y'.
Proof.
  intros P L [L1 H1] [L2 H2]. pose proof (perm_length _ _ P). apply nth_error_ext_; [lia|]. intros i Q. destruct (nth_error_lt pv i ltac:(lia)) as [p E].
  pose proof (perm_bound _ _ _ _ P E). destruct (nth_error_lt x p ltac:(lia)) as [v V]. rewrite (H1 i p v E V), (H2 i p v E V). reflexivity.
Qed.
(* y is x scattered iff x is y gathered *)
Lemma scattered_gathered {A} m (x : list A) pv y : is_perm m pv -> length x = m -> scattered x pv y -> gathered y pv x.
Proof.
  intros P L [L1 H1]. pose proof (perm_length _ _ P). split; [lia|]. intros i p v E V. destruct (nth_error_lt x i) as [w W].
  - pose proof (nth_error_Some_lt _ _ _ E). lia.
  - rewrite (H1 i p w E W) in V. injection V as ->. exact W.
Qed.
Lemma gathered_scattered {A} m (x : list A) pv y : is_perm m pv -> length x = m -> gathered x pv y -> scattered y pv x.
Proof.
  intros P L [L1 H1]. pose proof (perm_length _ _ P). split; [lia|]. intros i p v E V. pose proof (perm_bound _ _ _ _ P E). destruct (nth_error_lt x p ltac:(lia)) as [w W].
  rewrite (H1 i p w E W) in V. injection V as ->. exact W.
Qed.
Lemma scatter_exists {A} m (x : list A) pv : is_perm m pv -> length x = m -> exists y, scattered x pv y.
Proof. intros P L. destruct (scatter_loop (seq 0) (fun _ => Permutation_refl _) x pv x m P L L) as [y [_ H]]. eauto. Qed.
Lemma gather_exists {A} m (x : list A) pv : is_perm m pv -> length x = m -> exists y, gathered x pv y.
Proof. intros P L. destruct (gather_loop (seq 0) (fun _ => Permutation_refl _) x pv x m P L L) as [y [_ H]]. eauto. Qed.
(* the inverse permutation *)
Definition inverse_of (m : nat) (pv q : list nat) : Prop := is_perm m q /\ forall i p, nth_error pv i = Some p <-> nth_error q p = Some i.
Lemma scattered_seq_inverse m pv q : is_perm m pv -> scattered (seq 0 m) pv q -> inverse_of m pv q.
Proof.
  intros P [L H]. rewrite seq_length in L.
  assert (F : forall i p, nth_error pv i = Some p -> nth_error q p = Some i).
  { intros i p E. apply (H i p i E). apply nth_error_seq. rewrite <- (perm_length _ _ P). eapply nth_error_Some_lt; eauto. }
  assert (G : forall i p, nth_error q p = Some i -> nth_error pv i = Some p).
  { intros i p E. destruct (perm_surj m pv p P ltac:(rewrite <- L; eapply nth_error_Some_lt; eauto)) as [j [J Ej]]. rewrite (F j p Ej) in E. injection E as ->. exact Ej. }
  split; [|split; auto]. apply perm_of; [exact L| |].
  - intros p i E. apply G in E. rewrite <- (perm_length _ _ P). eapply nth_error_Some_lt; eauto.
  - intros a b i Ea Eb. apply G in Ea, Eb. congruence.
Qed.
Lemma inverse_unique m pv q q' : inverse_of m pv q -> inverse_of m pv q' -> q = q'.
Proof.
  intros [P H] [P' H']. pose proof (perm_length _ _ P). pose proof (perm_length _ _ P'). apply nth_error_ext_; [lia|]. intros p I.
  destruct (nth_error_lt q p I) as [i E]. rewrite E. symmetry. apply H', H, E.
Qed.
Lemma inverse_sym m pv q : is_perm m pv -> inverse_of m pv q -> inverse_of m q pv.
Proof. intros P [P' H]. split; [exact P|]. intros i p. symmetry. apply H. Qed.
Lemma scattered_inverse {A} m (x : list A) pv q y : is_perm m pv -> inverse_of m pv q -> length x = m -> scattered x pv y -> gathered x q y.
Proof.
  intros P [P' H] L [L1 S]. pose proof (perm_length _ _ P'). split; [lia|]. intros i p v E V. apply H in E. eapply S; eauto.
Qed.
Lemma gathered_inverse {A} m (x : list A) pv q y : is_perm m pv -> inverse_of m pv q -> length x = m -> gathered x pv y -> scattered x q y.
Proof.
  intros P [P' H] L [L1 S]. pose proof (perm_length _ _ P). split; [lia|]. intros i p v E V. apply H in E. eapply S; eauto.
Qed.
Lemma compose_perm m a b : is_perm m a -> is_perm m b -> is_perm m (map (fun i => nth i a O) b).
Proof.
  intros Pa Pb. pose proof (perm_length _ _ Pa). pose proof (perm_length _ _ Pb).
  assert (X : forall i p, nth_error (map (fun i => nth i a O) b) i = Some p -> exists j, nth_error b i = Some j /\ nth_error a j = Some p).
  { intros i p E. rewrite nth_error_map in E. destruct (nth_error b i) as [j|] eqn:Ej; [|discriminate]. cbn in E. injection E as <-. exists j. split; [reflexivity|].
    apply nth_error_nth'. pose proof (perm_bound _ _ _ _ Pb Ej). lia. }
  apply perm_of; [now rewrite map_length| |].
  - intros i p E. destruct (X i p E) as [j [_ Ea]]. exact (perm_bound _ _ _ _ Pa Ea).
  - intros i i' p E E'. destruct (X i p E) as [j [Eb Ea]]. destruct (X i' p E') as [j' [Eb' Ea']]. pose proof (perm_inj _ _ _ _ _ Pa Ea Ea'). subst j'. exact (perm_inj _ _ _ _ _ Pb Eb Eb').
Qed.
Lemma compose_gathered {A} m (x y z : list A) a b : is_perm m a -> is_perm m b -> length x = m -> gathered x a y -> gathered y b z -> gathered x (map (fun i => nth i a O) b) z.
Proof.
  intros Pa Pb L [L1 H1] [L2 H2]. split; [now rewrite map_length|]. intros i p v E V. rewrite nth_error_map in E. destruct (nth_error b i) as [j|] eqn:Ej; [|discriminate]. cbn in E. injection E as <-.
  apply (H2 i j v Ej). eapply H1; [|exact V]. apply nth_error_nth'. pose proof (perm_bound _ _ _ _ Pb Ej). rewrite (perm_length _ _ Pa). lia.
Qed.

(* ---- the utilities ---- *)
Section Util.
Variable ord : nat -> list nat.
Hypothesis ORD : forall m, Permutation (ord m) (seq 0 m).
Variable junk : Z.
Lemma apply_inv_perm_ok m x pv : is_perm m pv -> length x = m -> exists y, apply_inv_perm ord junk x pv = Ok y /\ apply_inv_perm_span ord junk x pv = Ok y /\ scattered x pv y.
Proof.
  intros P L. pose proof (perm_length _ _ P). destruct (scatter_loop ord ORD x pv (repeat junk m) m P L (repeat_length _ _)) as [y [E H']].
  exists y. unfold apply_inv_perm, apply_inv_perm_span. rewrite L. destruct (Nat.eqb_spec m (length pv)); [|lia]. auto.
Qed.
Lemma apply_perm_ok m x pv : is_perm m pv -> length x = m -> exists y, apply_perm ord junk x pv = Ok y /\ apply_perm_span ord junk x pv = Ok y /\ gathered x pv y.
Proof.
  intros P L. pose proof (perm_length _ _ P). destruct (gather_loop ord ORD x pv (repeat junk m) m P L (repeat_length _ _)) as [y [E H']].
  exists y. unfold apply_perm, apply_perm_span. rewrite L. destruct (Nat.eqb_spec m (length pv)); [|lia]. auto.
Qed.
Lemma apply_inv_perm_idx_ok m x pv : is_perm m pv -> length x = m -> exists y, apply_inv_perm_idx ord junk x pv = Ok y /\ scattered x pv y.
Proof.
  intros P L. pose proof (perm_length _ _ P). destruct (scatter_loop ord ORD x pv (repeat (Z.to_nat junk) m) m P L (repeat_length _ _)) as [y [E H']].
  exists y. unfold apply_inv_perm_idx. rewrite L. destruct (Nat.eqb_spec m (length pv)); [|lia]. auto.
Qed.
Lemma gen_inverse_perm_ok m pv : is_perm m pv -> exists q, gen_inverse_perm ord junk pv = Ok q /\ inverse_of m pv q.
Proof.
  intros P. pose proof (perm_length _ _ P) as LP. destruct (scatter_loop ord ORD (seq 0 m) pv (repeat (Z.to_nat junk) m) m P (seq_length _ _) (repeat_length _ _)) as [q [E H']].
  exists q. split; [|now apply scattered_seq_inverse]. unfold gen_inverse_perm. rewrite LP. rewrite <- E.
  assert (K : forall l y, (forall i, In i l -> (i < m)%nat) -> loop (fun i y => rbind (read pv i) (fun p => write y p i)) l y =
    loop (fun i y => rbind (read pv i) (fun p => rbind (read (seq 0 m) i) (fun v => write y p v))) l y).
  { induction l as [|i l IH]; intros y B; [reflexivity|]. cbn [loop]. unfold read at 1 3 4. rewrite nth_error_seq by (apply B; now left). cbn [rbind].
    destruct (nth_error pv i) as [p|]; cbn [rbind]; [|reflexivity]. destruct (write y p i); cbn [rbind]; auto. apply IH. intros. apply B. now right. }
  apply K. intros i I. now apply (ord_in ord ORD).
Qed.
End Util.

(* ---- stable sorting ---- *)
Section Sort.
Variable key : nat -> Z.
Let less a b := key a <? key b.
(* ordered by key, then by position in the input (positions increase along the input list) *)
Definition before (a b : nat) : Prop := key a < key b \/ (key a = key b /\ (a < b)%nat).
Lemma insert_perm a l : Permutation (insert_stable less a l) (a :: l).
Proof.
  induction l as [|b l IH]; cbn; [apply Permutation_refl|]. destruct (less b a); [|apply Permutation_refl].
  eapply Permutation_trans; [apply perm_skip, IH|]. apply perm_swap.
Qed.
Lemma sort_perm l : Permutation (stable_sort less l) l.
Proof. induction l as [|a l IH]; cbn; [constructor|]. eapply Permutation_trans; [apply insert_perm|]. now apply perm_skip. Qed.
Lemma insert_sorted a l : Forall (fun b => (a < b)%nat) l -> StronglySorted before l -> StronglySorted before (insert_stable less a l).
Proof.
  intros F S. induction S as [|b l S IH H]; cbn [insert_stable]; [repeat constructor|]. inversion F as [|? ? F1 F2]; subst. unfold less at 1.
  destruct (Z.ltb_spec (key b) (key a)) as [K|K].
  - constructor; [now apply IH|]. rewrite Forall_forall in *. intros c C. apply (Permutation_in c (insert_perm a l)) in C. destruct C as [<-|C]; [now left|now apply H].
  - assert (B : before a b) by (unfold before; lia). constructor; [now constructor|]. constructor; [exact B|].
    rewrite Forall_forall in *. intros c C. specialize (H c C). specialize (F2 c C). unfold before in *. lia.
Qed.
Lemma sort_sorted l : StronglySorted lt l -> StronglySorted before (stable_sort less l).
Proof.
  induction l as [|a l IH]; intros S; cbn [stable_sort]; [constructor|]. inversion S as [|? ? S1 F]; subst. apply insert_sorted; [|now apply IH].
  rewrite Forall_forall in *. intros b B. apply F. now apply (Permutation_in b (sort_perm l)).
Qed.
Lemma seq_sorted m : forall s, StronglySorted lt (seq s m).
Proof. induction m as [|m IH]; intros s; cbn; [constructor|]. constructor; [apply IH|]. apply Forall_forall. intros x H. apply in_seq in H. lia. Qed.
Lemma sorted_nth l : StronglySorted before l -> forall i j a b, (i < j)%nat -> nth_error l i = Some a -> nth_error l j = Some b -> before a b.
Proof.
  induction 1 as [|c l S IH H]; intros i j a b L Ea Eb; [destruct i; discriminate|].
  destruct j as [|j]; [lia|]. cbn in Eb. destruct i as [|i]; cbn in Ea.
  - injection Ea as <-. rewrite Forall_forall in H. apply H. eapply nth_error_In; eauto.
  - eapply IH; [|eauto|eauto]. lia.
Qed.
End Sort.
Lemma signed_unique k x v v' : signed_value k x v -> signed_value k x v' -> 0 < k -> v = v'.
Proof.
  unfold signed_value. intros [R1 [q1 E1]] [R2 [q2 E2]] K. pose proof (pow2_pos (k - 1) ltac:(lia)).
  assert (2 ^ k = 2 * 2 ^ (k - 1)) by (replace k with (Z.succ (k - 1)) at 1 by lia; apply Z.pow_succ_r; lia).
  destruct (Z.lt_trichotomy q1 q2) as [Q | [Q | Q]]; [exfalso|subst; lia|exfalso]; nia.
Qed.
Lemma gen_perm_by_sort_ok k x : 0 < k -> Forall (word k) x -> stable_ascending k x (gen_perm_by_sort k x).
Proof.
  intros K W. set (key := fun a => sgn k (nth a x 0)). split.
  - exact (sort_perm key (seq 0 (length x))).
  - intros i j a b va vb L Ea Eb Va Vb.
    pose proof (sorted_nth key _ (sort_sorted key _ (seq_sorted key (length x) 0)) i j a b L Ea Eb) as B.
    assert (Q : forall c v, In c (gen_perm_by_sort k x) -> signed_value k (nth c x 0) v -> v = key c).
    { intros c v I V. apply (Permutation_in c (sort_perm key (seq 0 (length x)))) in I. apply in_seq in I. apply (signed_unique k (nth c x 0)); auto.
      apply signed_sgn; auto. rewrite Forall_forall in W. apply W, nth_In. lia. }
    rewrite (Q a va (nth_error_In _ _ Ea) Va), (Q b vb (nth_error_In _ _ Eb) Vb). exact B.
Qed.
Lemma stable_unique k x p q : 0 < k -> Forall (word k) x -> stable_ascending k x p -> stable_ascending k x q -> p = q.
Proof.
  intros K W [P1 S1] [P2 S2]. set (key := fun a => sgn k (nth a x 0)).
  assert (SV : forall c, (c < length x)%nat -> signed_value k (nth c x 0) (key c)) by (intros c C; apply signed_sgn; auto; rewrite Forall_forall in W; apply W, nth_In; lia).
  assert (X : forall pv, is_perm (length x) pv -> (forall i j a b va vb, (i < j)%nat -> nth_error pv i = Some a -> nth_error pv j = Some b ->
    signed_value k (nth a x 0) va -> signed_value k (nth b x 0) vb -> va < vb \/ (va = vb /\ (a < b)%nat)) -> StronglySorted (before key) pv).
  { intros pv P S. assert (B : forall i a, nth_error pv i = Some a -> (a < length x)%nat) by (intros; eapply perm_bound; eauto).
    assert (S' : forall i j a b, (i < j)%nat -> nth_error pv i = Some a -> nth_error pv j = Some b -> before key a b) by (intros; eapply S; eauto).
    clear -S'. induction pv as [|c pv IH]; constructor.
    - apply IH. intros i j a b L Ea Eb. exact (S' (Datatypes.S i) (Datatypes.S j) a b ltac:(lia) Ea Eb).
    - apply Forall_forall. intros b I. apply In_nth_error in I. destruct I as [j E]. exact (S' O (Datatypes.S j) c b ltac:(lia) eq_refl E). }
  pose proof (X p P1 S1) as Sp. pose proof (X q P2 S2) as Sq. assert (PQ : Permutation p q) by (eapply Permutation_trans; [exact P1|apply Permutation_sym, P2]).
  clear -Sp Sq PQ. revert q Sq PQ. induction Sp as [|a p S IH F]; intros q Sq PQ; [apply Permutation_nil in PQ; now subst|].
  destruct Sq as [|b q Sq Fq]; [apply Permutation_sym, Permutation_nil in PQ; discriminate|].
  assert (a = b).
  { assert (Ia : In a (b :: q)) by (apply (Permutation_in a PQ); now left). assert (Ib : In b (a :: p)) by (apply (Permutation_in b (Permutation_sym PQ)); now left).
    destruct Ia as [->|Ia]; [reflexivity|]. destruct Ib as [->|Ib]; [reflexivity|]. rewrite Forall_forall in F, Fq. specialize (F b Ib). specialize (Fq a Ia). unfold before in *. lia. }
  subst b. f_equal. apply IH; [exact Sq|]. now apply Permutation_cons_inv in PQ.
Qed.

(* ---- the shared permutation ---- *)
Lemma all_ranks_ok n (f : nat -> res (list Z)) g : (forall r, (r < n)%nat -> f r = Ok (g r)) -> exists F, all_ranks n f = Ok F /\ forall r, (r < n)%nat -> F r = g r.
Proof.
  intros H. unfold all_ranks.
  assert (K : forall l, (forall r, In r l -> (r < n)%nat) -> fold_right (fun r acc => rbind (f r) (fun v => rbind acc (fun l => Ok (v :: l)))) (Ok []) l = Ok (map g l)).
  { induction l as [|a l IH]; intros B; [reflexivity|]. cbn [fold_right map]. rewrite IH by (intros; apply B; now right). rewrite H by (apply B; now left). reflexivity. }
  rewrite K by (intros r R; apply in_seq in R; lia). cbn [rbind]. eexists. split; [reflexivity|]. intros r R. cbv beta.
  rewrite (nth_indep _ [] (g O)) by (rewrite map_length, seq_length; lia). rewrite map_nth, seq_nth by lia. reflexivity.
Qed.
Lemma scattered_by_inv P r rs x z : scattered_by P (r :: rs) x z -> exists y, scattered x (P r) y /\ scattered_by P rs y z.
Proof. intros S. inversion S; subst. eauto. Qed.
Section Secure.
Variable ord : nat -> list nat.
Hypothesis ORD : forall m, Permutation (ord m) (seq 0 m).
Variable junk : Z.
Variables (k : Z) (n : nat).
Hypothesis K : 0 <= k.
Lemma a2v_diff X (A : nat -> Z) r : (forall i, (i < n)%nat -> word k (X i)) -> eqm k (a2v k n (fun j => rsub k (X j) (A j)) r r) (total n X - total n A).
Proof.
  intros W. rewrite (a2v_opens k n _ (wrap k (total n (fun j => rsub k (X j) (A j)))) r K).
  - rewrite eqm_wrap. rewrite <- total_sub. apply total_eqm. intros. apply eqm_rsub.
  - apply shA_of; [exact K|intros; now apply rsub_word|now apply wrap_range|symmetry; apply eqm_wrap].
Qed.
Lemma tot_total (F : nat -> nat -> Z) e : tot n F e = total n (fun i => F i e).
Proof. reflexivity. Qed.
Lemma secure_step_ok (Q : pairs) (P : nat -> list nat) t r X x : (r < n)%nat -> is_perm (length x) (P r) -> good_pair k n (length x) r (Q t) -> shV k n X x ->
  exists Y y, secure_step ord junk k n Q P t r X = Ok Y /\ scattered x (P r) y /\ shV k n Y y.
Proof.
  intros R PP GP [LX SX]. set (m := length x) in *. unfold secure_step. destruct (Q t) as [[A B] pr] eqn:EQ. destruct GP as [[PR [_ TOT]] WB]. cbn [fst snd] in *.
  fold (is_perm m (pr r)) in PR. set (pp := P r) in *. set (p := pr r) in *. pose proof (perm_length _ _ PP) as LPP. pose proof (perm_length _ _ PR) as LPR.
  destruct (apply_inv_perm_idx_ok ord ORD junk m pp p PR LPP) as [po [Epo Spo]].
  (* po is a permutation and po[p[i]] = pp[i] *)
  assert (Ppo : is_perm m po).
  { destruct Spo as [Lpo Hpo]. 
    assert (X0 : forall q v, nth_error po q = Some v -> exists i, nth_error p i = Some q /\ nth_error pp i = Some v).
    { intros q v E. destruct (perm_surj m p q PR ltac:(rewrite <- LPP, <- Lpo; eapply nth_error_Some_lt; eauto)) as [i [I Ei]].
      destruct (nth_error_lt pp i ltac:(lia)) as [w W]. pose proof (Hpo i q w Ei W) as E'. rewrite E in E'. injection E' as <-. eauto. }
    apply perm_of; [lia| |].
    - intros q v E. destruct (X0 q v E) as [i [_ E2]]. exact (perm_bound _ _ _ _ PP E2).
    - intros q q' v E E'. destruct (X0 q v E) as [i [E1 E2]]. destruct (X0 q' v E') as [i' [E1' E2']]. pose proof (perm_inj _ _ _ _ _ PP E2 E2'). subst. congruence. }
  set (xa := map (fun e => a2v k n (fun j => rsub k (nth e (X j) 0) (A j e)) r r) (seq 0 m)).
  destruct (apply_inv_perm_ok ord ORD junk m xa pp PP ltac:(unfold xa; now rewrite map_length, seq_length)) as [c [Ec [_ Sc]]].
  assert (HB : forall rank, exists b', apply_inv_perm ord junk (map (B rank) (seq 0 m)) po = Ok b' /\ scattered (map (B rank) (seq 0 m)) po b').
  { intros rank. destruct (apply_inv_perm_ok ord ORD junk m (map (B rank) (seq 0 m)) po Ppo ltac:(now rewrite map_length, seq_length)) as [b' [E [_ S]]]. eauto. }
  destruct (scatter_exists m x pp PP eq_refl) as [y Sy].
  (* the value at position pp[i] *)
  set (val := fun rank i => let b := B rank (nth i p O) in if (rank =? r)%nat then radd k b (nth i xa 0) else b).
  assert (HV : forall rank, (rank < n)%nat -> exists w, secure_inv_perm ord junk k n r pp p X A B rank = Ok w /\ length w = m /\
    forall i q, nth_error pp i = Some q -> nth q w 0 = val rank i).
  { intros rank RK. destruct (HB rank) as [b' [Eb Sb]].
    assert (Hb : length b' = m /\ forall i q, nth_error pp i = Some q -> nth_error b' q = Some (B rank (nth i p O))).
    { destruct Sb as [Lb Sb]. rewrite map_length, seq_length in Lb. split; [exact Lb|]. intros i q E. destruct Spo as [_ Hpo].
      assert (I : (i < m)%nat) by (rewrite <- LPP; eapply nth_error_Some_lt; eauto).
      destruct (nth_error_lt p i ltac:(lia)) as [j Ej]. pose proof (Hpo i j q Ej E) as Ep. apply (Sb j q _ Ep). rewrite (nth_of_error _ _ _ _ Ej).
      rewrite nth_error_map, nth_error_seq by exact (perm_bound _ _ _ _ PR Ej). reflexivity. }
    unfold secure_inv_perm. rewrite (LX rank RK). fold m. rewrite LPP, Nat.eqb_refl, andb_false_r, Epo. cbn [rbind]. fold xa. rewrite Eb. destruct Hb as [Lb Hb].
    destruct (Nat.eqb_spec rank r) as [->|N]; cbn [rbind].
    - rewrite Ec. cbn [rbind]. destruct Sc as [Lc Sc]. unfold xa in Lc. rewrite map_length, seq_length in Lc.
      eexists. split; [reflexivity|]. split; [rewrite zipWith_length; lia|]. intros i q E. assert (I : (i < m)%nat) by (rewrite <- LPP; eapply nth_error_Some_lt; eauto).
      assert (Q0 : (q < m)%nat) by exact (perm_bound _ _ _ _ PP E). rewrite nth_zipWith with (da := 0) (db := 0) by lia.
      unfold val. rewrite Nat.eqb_refl. rewrite (nth_of_error b' q _ 0 (Hb i q E)). f_equal.
      destruct (nth_error_lt xa i ltac:(unfold xa; rewrite map_length, seq_length; exact I)) as [v V]. rewrite (nth_of_error xa i v 0 V). apply nth_of_error. eapply Sc; eauto.
    - eexists. split; [reflexivity|]. split; [exact Lb|]. intros i q E. unfold val. destruct (Nat.eqb_spec rank r); [lia|]. apply nth_of_error. now apply Hb. }
  assert (HG : exists g, forall rank, (rank < n)%nat -> secure_inv_perm ord junk k n r pp p X A B rank = Ok (g rank) /\ length (g rank) = m /\
    forall i q, nth_error pp i = Some q -> nth q (g rank) 0 = val rank i).
  { exists (fun rank => match secure_inv_perm ord junk k n r pp p X A B rank with Ok w => w | _ => [] end). intros rank RK. destruct (HV rank RK) as [w [E H]]. rewrite E. auto. }
  destruct HG as [g HG]. destruct (all_ranks_ok n _ g (fun rk H => proj1 (HG rk H))) as [Y [EY HY]].
  exists Y, y. split; [exact EY|]. split; [exact Sy|]. destruct Sy as [Ly Sy]. fold m in Ly. split.
  - intros i I. rewrite (HY i I), Ly. apply HG. exact I.
  - intros q Q0. rewrite Ly in Q0. destruct (perm_surj m pp q PP Q0) as [i [I E]].
    destruct (nth_error_lt x i I) as [v V]. rewrite (nth_of_error y q v 0 (Sy i q v E V)).
    destruct (nth_error_lt p i ltac:(lia)) as [j Ej].
    assert (VAL : forall rank, (rank < n)%nat -> nth q (Y rank) 0 = val rank i) by (intros rank RK; rewrite (HY rank RK); now apply HG).
    apply shA_of; [exact K| | |].
    + intros rank RK. rewrite (VAL rank RK). unfold val. destruct (rank =? r)%nat; [now apply radd_word|]. apply WB; auto. rewrite (nth_of_error _ _ _ _ Ej). exact (perm_bound _ _ _ _ PR Ej).
    + specialize (SX i I). rewrite (nth_of_error x i v 0 V) in SX. destruct SX as [_ [W _]]. exact W.
    + rewrite (total_ext n _ (fun rank => val rank i)) by exact VAL. unfold val. cbv zeta.
      specialize (TOT i I). fold p in TOT. rewrite !tot_total in TOT.
      specialize (SX i I). rewrite (nth_of_error x i v 0 V) in SX.
      assert (EX : nth i xa 0 = a2v k n (fun j0 => rsub k (nth i (X j0) 0) (A j0 i)) r r).
      { unfold xa. rewrite (nth_indep _ 0 (a2v k n (fun j0 => rsub k (nth O (X j0) 0) (A j0 O)) r r)) by (rewrite map_length, seq_length; exact I).
        rewrite (map_nth (fun e => a2v k n (fun j0 => rsub k (nth e (X j0) 0) (A j0 e)) r r)). rewrite seq_nth by exact I. reflexivity. }
      rewrite (total_eqm k n _ (fun rank => B rank (nth i p O) + (if (rank =? r)%nat then nth i xa 0 else 0))).
      2:{ intros rank RK. destruct (rank =? r)%nat; [apply eqm_radd|]. rewrite Z.add_0_r. reflexivity. }
      rewrite total_add, total_delta by exact R. rewrite EX. rewrite a2v_diff by (intros z Z0; apply SX; exact Z0).
      rewrite (shA_eqm k n _ v K SX). destruct TOT as [z TOT]. rewrite TOT. unfold eqm.
      replace (_ + _ + _) with (v + z * 2 ^ k) by lia. apply Z.mod_add. pose proof (pow2_pos k K). lia.
Qed.
Lemma secure_loop_ok (Q : pairs) (P : nat -> list nat) rs : forall t X x, (forall r, In r rs -> (r < n)%nat /\ is_perm (length x) (P r)) -> good_pairs k n Q (length x) t rs -> shV k n X x ->
  exists Y y, secure_loop ord junk k n Q P t rs X = Ok Y /\ scattered_by P rs x y /\ shV k n Y y.
Proof.
  induction rs as [|r rs IH]; intros t X x H G S; cbn [secure_loop]; [exists X, x; split; [reflexivity|]; split; [constructor|exact S]|].
  destruct G as [G0 G]. destruct (H r (or_introl eq_refl)) as [R PR]. destruct (secure_step_ok Q P t r X x R PR G0 S) as [Y [y [E [Sc SY]]]]. rewrite E. cbn [rbind].
  assert (Ly : length y = length x) by apply Sc.
  destruct (IH (Datatypes.S t) Y y) as [Z0 [z [EZ [Sz SZ]]]]; [rewrite Ly; intros; apply H; now right|now rewrite Ly|exact SY|].
  exists Z0, z. split; [exact EZ|]. split; [econstructor; eauto|exact SZ].
Qed.
(* everybody's inverse *)
Lemma inverses_ok m (P : nat -> list nat) : (forall r, (r < n)%nat -> is_perm m (P r)) -> exists I,
  fold_right (fun r acc => rbind (gen_inverse_perm ord junk (P r)) (fun v => rbind acc (fun l => Ok (v :: l)))) (Ok []) (seq 0 n) = Ok I /\
  forall r, (r < n)%nat -> inverse_of m (P r) (nth r I []).
Proof.
  intros H. set (g := fun r => match gen_inverse_perm ord junk (P r) with Ok q => q | _ => [] end).
  assert (G : forall r, (r < n)%nat -> gen_inverse_perm ord junk (P r) = Ok (g r) /\ inverse_of m (P r) (g r)).
  { intros r R. destruct (gen_inverse_perm_ok ord ORD junk m (P r) (H r R)) as [q [E I]]. unfold g. rewrite E. auto. }
  exists (map g (seq 0 n)). split.
  - assert (B : forall r, In r (seq 0 n) -> (r < n)%nat) by (intros r R; apply in_seq in R; lia). revert B. generalize (seq 0 n) as l.
    induction l as [|a l IH]; intros B; [reflexivity|]. cbn [fold_right map]. rewrite IH by (intros; apply B; now right). rewrite (proj1 (G a (B a (or_introl eq_refl)))). reflexivity.
  - intros r R. rewrite (nth_indep _ [] (g O)) by (rewrite map_length, seq_length; lia). rewrite map_nth, seq_nth by lia. now apply G.
Qed.
End Secure.
Lemma scattered_by_inverse m (P I : nat -> list nat) rs : (forall r, In r rs -> is_perm m (P r) /\ inverse_of m (P r) (I r)) ->
  forall x y, length x = m -> scattered_by I rs x y -> gathered_by P rs x y.
Proof.
  intros H x y L S. revert L. induction S as [x|r rs x y z S1 S2 IH]; intros L; [constructor|].
  destruct (H r (or_introl eq_refl)) as [PR IR]. econstructor; [|apply IH; [intros; apply H; now right|destruct S1; lia]].
  apply (scattered_inverse m x (I r) (P r)); auto; [apply IR|now apply inverse_sym].
Qed.
Lemma roundtrip_by m (P : nat -> list nat) rs : (forall r, In r rs -> is_perm m (P r)) -> forall x y z, length x = m ->
  scattered_by P rs x y -> gathered_by P (rev rs) y z -> z = x.
Proof.
  intros H x y z L S. revert z L. induction S as [x|r rs x y w S1 S2 IH]; intros z L G; [now inversion G|].
  cbn [rev] in G.
  assert (SP : forall l a b, gathered_by P (l ++ [r]) a b -> exists c, gathered_by P l a c /\ gathered c (P r) b).
  { induction l as [|q l IHl]; intros a b Gl; cbn [app] in Gl; inversion Gl as [|? ? ? c ? G1 G2]; subst.
    - inversion G2; subst. exists a. split; [constructor|exact G1].
    - destruct (IHl _ _ G2) as [d [D1 D2]]. exists d. split; [econstructor; eauto|exact D2]. }
  destruct (SP _ _ _ G) as [c [G1 G2]]. assert (Ly : length y = m) by (destruct S1; lia).
  assert (c = y) by (apply IH; auto; intros; apply H; now right). subst c.
  apply (gathered_unique m y (P r)); auto; [apply H; now left|]. apply (scattered_gathered m); auto. apply H. now left.
Qed.
Lemma roundtrip_by' m (P : nat -> list nat) rs : (forall r, In r rs -> is_perm m (P r)) -> forall x y z, length x = m ->
  gathered_by P (rev rs) x y -> scattered_by P rs y z -> z = x.
Proof.
  intros H. induction rs as [|r rs IH]; intros x y z L G S; [inversion S; subst; now inversion G|].
  cbn [rev] in G.
  assert (SP : forall l a b, gathered_by P (l ++ [r]) a b -> exists c, gathered_by P l a c /\ gathered c (P r) b).
  { induction l as [|q l IHl]; intros a b Gl; cbn [app] in Gl; inversion Gl as [|? ? ? c ? G1 G2]; subst.
    - inversion G2; subst. exists a. split; [constructor|exact G1].
    - destruct (IHl _ _ G2) as [d [D1 D2]]. exists d. split; [econstructor; eauto|exact D2]. }
  destruct (SP _ _ _ G) as [c [G1 G2]]. destruct (scattered_by_inv _ _ _ _ _ S) as [w [S1 S2]].
  assert (LG : forall l a b, (forall q, In q l -> is_perm m (P q)) -> length a = m -> gathered_by P l a b -> length b = m).
  { intros l a b HL La Gl. induction Gl as [|? ? ? ? ? Ga Gl IHl]; auto. apply IHl; [intros; apply HL; now right|]. destruct Ga as [Lb _]. rewrite Lb. apply perm_length, HL. now left. }
  assert (Lc : length c = m) by (eapply (LG (rev rs)); eauto; intros q Hq; apply H; right; now apply in_rev).
  assert (Pr : is_perm m (P r)) by (apply H; now left).
  assert (w = c) by (apply (scattered_unique m y (P r)); auto; [destruct G2 as [Ly _]; rewrite Ly; now apply perm_length|now apply (gathered_scattered m)]). subst w.
  eapply (IH (fun q Hq => H q (or_intror Hq))); eauto.
Qed.
(* one permutation for all vectors *)
Lemma scattered_by_total m (P : nat -> list nat) rs : (forall r, In r rs -> is_perm m (P r)) -> exists pi, is_perm m pi /\
  forall x y, length x = m -> scattered_by P rs x y -> gathered x pi y.
Proof.
  induction rs as [|r rs IH]; intros H.
  - exists (seq 0 m). split; [apply perm_seq|]. intros x y L S. inversion S; subst. split; [now rewrite seq_length|]. intros i p v E V.
    assert (I : (i < length y)%nat) by (pose proof (nth_error_Some_lt _ _ _ E) as Q; now rewrite seq_length in Q). rewrite nth_error_seq in E by exact I. injection E as <-. exact V.
  - destruct (IH (fun q Hq => H q (or_intror Hq))) as [pi [PI G]]. assert (Pr : is_perm m (P r)) by (apply H; now left).
    destruct (scatter_exists m (seq 0 m) (P r) Pr (seq_length _ _)) as [q Sq]. pose proof (scattered_seq_inverse m (P r) q Pr Sq) as IQ.
    exists (map (fun i => nth i q O) pi). split; [apply compose_perm; [apply IQ|exact PI]|]. intros x z L S. destruct (scattered_by_inv _ _ _ _ _ S) as [y [S1 S2]].
    apply (compose_gathered m x y z q pi); auto; [apply IQ|now apply (scattered_inverse m x (P r))|]. apply G; auto. destruct S1; lia.
Qed.
