From Coq Require Import Setoid.
From Verif Require Import Base Ring_model Ring_spec Ring_proof Share_spec Party Semi_model Semi_proof Prg_model Beaver_spec Perm_model Perm_spec Perm_proof
  Aby_model Aby_spec Aby_proof Shuf_model Shuf_spec.
Open Scope Z_scope.

Definition at_ (pv : list nat) (i : nat) : nat := nth i pv O.
Lemma at_error m pv i : is_perm m pv -> (i < m)%nat -> nth_error pv i = Some (at_ pv i).
Proof. intros P I. apply nth_error_nth'. now rewrite (perm_length m pv P). Qed.
Lemma at_lt m pv i : is_perm m pv -> (i < m)%nat -> (at_ pv i < m)%nat.
Proof. intros P I. apply (perm_bound m pv i); auto. now apply (at_error m). Qed.
Lemma at_inj m pv i j : is_perm m pv -> (i < m)%nat -> (j < m)%nat -> at_ pv i = at_ pv j -> i = j.
Proof. intros P I J E. apply (perm_inj m pv i j (at_ pv i)); auto; [now apply (at_error m)|rewrite E; now apply (at_error m)]. Qed.
Lemma at_surj m pv p : is_perm m pv -> (p < m)%nat -> exists i, (i < m)%nat /\ p = at_ pv i.
Proof. intros P L. destruct (perm_surj m pv p P L) as [i [I E]]. exists i. split; [exact I|]. unfold at_. symmetry. now apply nth_of_error. Qed.
Lemma gathered_nth m (x y : list Z) pv : is_perm m pv -> length x = m -> length y = m -> (forall i, (i < m)%nat -> nth i y 0 = nth (at_ pv i) x 0) -> gathered x pv y.
Proof.
  intros P L L' H. split; [now rewrite (perm_length m pv P)|]. intros i p v E V. assert (I : (i < m)%nat) by (rewrite <- (perm_length m pv P); eapply nth_error_Some_lt; eauto).
  rewrite (nth_error_nth' y 0) by lia. f_equal. rewrite H by exact I. unfold at_. rewrite (nth_of_error _ _ _ _ E). now apply nth_of_error.
Qed.
Lemma nth_gathered m (x y : list Z) pv i : is_perm m pv -> length x = m -> (i < m)%nat -> gathered x pv y -> nth i y 0 = nth (at_ pv i) x 0.
Proof.
  intros P L I [_ H]. apply nth_of_error. apply (H i (at_ pv i)); [now apply (at_error m)|]. apply nth_error_nth'. rewrite L. now apply at_lt.
Qed.
Lemma nth_scattered m (x y : list Z) pv i : is_perm m pv -> length x = m -> (i < m)%nat -> scattered x pv y -> nth (at_ pv i) y 0 = nth i x 0.
Proof.
  intros P L I [_ H]. apply nth_of_error. apply (H i (at_ pv i)); [now apply (at_error m)|]. apply nth_error_nth'. now rewrite L.
Qed.
Lemma vec_length {T} m (f : nat -> T) : length (vec m f) = m. Proof. unfold vec. now rewrite map_length, seq_length. Qed.
Lemma vec_nth {T} m (f : nat -> T) d i : (i < m)%nat -> nth i (vec m f) d = f i.
Proof.
  intros I. unfold vec. rewrite (nth_indep _ d (f O)) by now rewrite map_length, seq_length. rewrite map_nth. now rewrite seq_nth.
Qed.
Lemma vec_word k m f : (forall i, (i < m)%nat -> word k (f i)) -> Forall (word k) (vec m f).
Proof. intros H. apply Forall_forall. intros v I. apply in_map_iff in I. destruct I as [i [<- I]]. apply in_seq in I. apply H. lia. Qed.

Section Shuf.
Variable ord : nat -> list nat.
Hypothesis ORD : forall m, Permutation (ord m) (seq 0 m).
Variable junk : Z.
Variable k : Z.
Hypothesis K : 0 <= k.

Lemma gloop_ok {T} m pv (x : list T) g d : is_perm m pv -> length x = m ->
  exists y, gloop ord m pv x g = Ok y /\ length y = m /\ forall i, (i < m)%nat -> nth i y 0 = g i (nth (at_ pv i) x d).
Proof.
  intros P L. unfold gloop, vloop.
  destruct (loop_writes (fun i y => rbind (Ok i) (fun p => rbind (rbind (read pv i) (fun p => rbind (read x p) (fun v => Ok (g i v)))) (fun v => write y p v)))
    (fun i => i) (fun i => g i (nth (at_ pv i) x d)) m (ord m)) with (y := repeat 0 m) as [y [E [LY [H _]]]].
  - intros i y I LY. apply (ord_in ord ORD) in I. cbn [rbind]. unfold read at 1. rewrite (at_error m pv i P I). cbn [rbind]. unfold read.
    rewrite (nth_error_nth' x d) by (rewrite L; now apply at_lt). cbn [rbind]. unfold write. rewrite (proj2 (Nat.ltb_lt i (length y))) by lia. reflexivity.
  - intros i I. now apply (ord_in ord ORD) in I.
  - rewrite map_id. apply (ord_nodup ord ORD).
  - apply repeat_length.
  - exists y. split; [exact E|]. split; [exact LY|]. intros i I. apply nth_of_error, H. now apply (ord_in ord ORD).
Qed.
Lemma sloop_ok {T} m pv (x : list T) g d : is_perm m pv -> length x = m ->
  exists y, sloop ord m pv x g = Ok y /\ length y = m /\ forall i, (i < m)%nat -> nth (at_ pv i) y 0 = g (at_ pv i) (nth i x d).
Proof.
  intros P L. unfold sloop, vloop.
  destruct (loop_writes (fun i y => rbind (read pv i) (fun p => rbind (rbind (read pv i) (fun p => rbind (read x i) (fun v => Ok (g p v)))) (fun v => write y p v)))
    (at_ pv) (fun i => g (at_ pv i) (nth i x d)) m (ord m)) with (y := repeat 0 m) as [y [E [LY [H _]]]].
  - intros i y I LY. apply (ord_in ord ORD) in I. unfold read at 1 2. rewrite (at_error m pv i P I). cbn [rbind]. unfold read.
    rewrite (nth_error_nth' x d) by (now rewrite L). cbn [rbind]. unfold write. rewrite (proj2 (Nat.ltb_lt (at_ pv i) (length y))) by (rewrite LY; now apply at_lt). reflexivity.
  - intros i I. apply (ord_in ord ORD) in I. now apply at_lt.
  - apply nodup_map_inj; [apply (ord_nodup ord ORD)|]. intros a b IA IB. apply (ord_in ord ORD) in IA, IB. now apply (at_inj m).
  - apply repeat_length.
  - exists y. split; [exact E|]. split; [exact LY|]. intros i I. apply nth_of_error, H. now apply (ord_in ord ORD).
Qed.

(* the three components of a shared vector *)
Lemma repV_shape X x e : repV k X x -> (e < length x)%nat -> exists a b c, word k a /\ word k b /\ word k c /\
  nth e (X 0%nat) (0, 0) = (a, b) /\ nth e (X 1%nat) (0, 0) = (b, c) /\ nth e (X 2%nat) (0, 0) = (c, a) /\ eqm k (a + b + c) (nth e x 0).
Proof. intros [_ H] E. exact (repA_shape k _ _ K (H e E)). Qed.
Lemma repV_word X x : repV k X x -> forall e, (e < length x)%nat -> word k (nth e x 0).
Proof. intros [_ H] e E. destruct (H e E) as [_ [W _]]. exact W. Qed.
Lemma diff_word a b : word k (rsub k a b). Proof. words. Qed.
Lemma sum_word a b : word k (radd k a b). Proof. words. Qed.

(* ---- the messages, element by element ---- *)
Lemma shuf_delta_ok X PV A m P : length (X 0%nat) = m -> permS m PV P ->
  exists d, shuf_delta ord k X PV A = Ok d /\ length d = m /\ forall i, (i < m)%nat -> nth i d 0 =
    rsub k (rsub k (radd k (fst (nth (at_ (P 0%nat) (at_ (P 1%nat) i)) (X 0%nat) (0, 0))) (snd (nth (at_ (P 0%nat) (at_ (P 1%nat) i)) (X 0%nat) (0, 0))))
      (wrap k (A 0%nat (at_ (P 1%nat) i)))) (wrap k (A 1%nat i)).
Proof.
  intros L S. destruct (S 0%nat ltac:(lia)) as [E0 P0]. destruct (S 1%nat ltac:(lia)) as [_ P1]. unfold shuf_delta, numel. rewrite L, E0. cbn [fst snd nxt].
  destruct (gloop_ok m (P 0%nat) (X 0%nat) (fun i v => rsub k (radd k (fst v) (snd v)) (drawA k A 0 i)) (0, 0) P0 L) as [t [T [LT HT]]]. rewrite T. cbn [rbind].
  destruct (gloop_ok m (P 1%nat) t (fun i v => rsub k v (drawA k A 1 i)) 0 P1 LT) as [d [D [LD HD]]]. exists d. split; [exact D|]. split; [exact LD|].
  intros i I. rewrite HD by exact I. rewrite HT by now apply at_lt. reflexivity.
Qed.
Lemma shuf_gama_ok X PV A m P : length (X 0%nat) = m -> length (X 2%nat) = m -> permS m PV P ->
  exists d, shuf_gama ord k X PV A = Ok d /\ length d = m /\ forall i, (i < m)%nat -> nth i d 0 =
    radd k (fst (nth (at_ (P 0%nat) i) (X 2%nat) (0, 0))) (wrap k (A 0%nat i)).
Proof.
  intros L L2 S. destruct (S 0%nat ltac:(lia)) as [_ P0]. destruct (S 2%nat ltac:(lia)) as [E2 P2]. unfold shuf_gama, numel. rewrite L, E2. cbn [fst snd nxt].
  destruct (gloop_ok m (P 0%nat) (X 2%nat) (fun i v => radd k (fst v) (drawA k A 0 i)) (0, 0) P0 L2) as [t [T [LT HT]]]. exists t. auto.
Qed.
Lemma shuf_beta1_ok X PV A m P g : length (X 0%nat) = m -> length g = m -> permS m PV P ->
  exists d, shuf_beta1 ord k X PV A g = Ok d /\ length d = m /\ forall i, (i < m)%nat -> nth i d 0 =
    radd k (nth (at_ (P 1%nat) (at_ (P 2%nat) i)) g 0) (wrap k (A 1%nat (at_ (P 2%nat) i))).
Proof.
  intros L LG S. destruct (S 1%nat ltac:(lia)) as [E1 P1]. destruct (S 2%nat ltac:(lia)) as [_ P2]. unfold shuf_beta1, numel. rewrite L, E1. cbn [fst snd nxt].
  destruct (gloop_ok m (P 1%nat) g (fun i v => radd k v (drawA k A 1 i)) 0 P1 LG) as [t [T [LT HT]]]. rewrite T. cbn [rbind].
  destruct (gloop_ok m (P 2%nat) t (fun _ v => v) 0 P2 LT) as [d [D [LD HD]]]. exists d. split; [exact D|]. split; [exact LD|].
  intros i I. rewrite HD by exact I. rewrite HT by now apply at_lt. reflexivity.
Qed.
Lemma shuf_beta2_ok X PV m P g : length (X 0%nat) = m -> length g = m -> permS m PV P ->
  exists d, shuf_beta2 ord X PV g = Ok d /\ length d = m /\ forall i, (i < m)%nat -> nth i d 0 = nth (at_ (P 2%nat) i) g 0.
Proof.
  intros L LG S. destruct (S 2%nat ltac:(lia)) as [E2 P2]. unfold shuf_beta2, numel. rewrite L, E2. cbn [fst snd nxt].
  destruct (gloop_ok m (P 2%nat) g (fun _ v => v) 0 P2 LG) as [t [T [LT HT]]]. exists t. auto.
Qed.
Lemma unshuf_delta_ok X PV A m P : length (X 0%nat) = m -> length (X 1%nat) = m -> permS m PV P ->
  exists d, unshuf_delta ord k X PV A = Ok d /\ length d = m /\ forall i, (i < m)%nat -> nth (at_ (P 1%nat) (at_ (P 2%nat) i)) d 0 =
    rsub k (rsub k (radd k (fst (nth i (X 1%nat) (0, 0))) (snd (nth i (X 1%nat) (0, 0))))
      (wrap k (A 2%nat (at_ (P 2%nat) i)))) (wrap k (A 1%nat (at_ (P 1%nat) (at_ (P 2%nat) i)))).
Proof.
  intros L L1 S. destruct (S 1%nat ltac:(lia)) as [E1 P1]. destruct (S 2%nat ltac:(lia)) as [_ P2]. unfold unshuf_delta, numel. rewrite L, E1. cbn [fst snd nxt].
  destruct (sloop_ok m (P 2%nat) (X 1%nat) (fun p v => rsub k (radd k (fst v) (snd v)) (drawA k A 2 p)) (0, 0) P2 L1) as [t [T [LT HT]]]. rewrite T. cbn [rbind].
  destruct (sloop_ok m (P 1%nat) t (fun p v => rsub k v (drawA k A 1 p)) 0 P1 LT) as [d [D [LD HD]]]. exists d. split; [exact D|]. split; [exact LD|].
  intros i I. rewrite HD by now apply at_lt. rewrite HT by exact I. reflexivity.
Qed.
Lemma unshuf_gama_ok X PV A m P : length (X 0%nat) = m -> length (X 2%nat) = m -> permS m PV P ->
  exists d, unshuf_gama ord k X PV A = Ok d /\ length d = m /\ forall i, (i < m)%nat -> nth (at_ (P 2%nat) i) d 0 =
    radd k (snd (nth i (X 2%nat) (0, 0))) (wrap k (A 2%nat (at_ (P 2%nat) i))).
Proof.
  intros L L2 S. destruct (S 2%nat ltac:(lia)) as [E2 P2]. unfold unshuf_gama, numel. rewrite L, E2. cbn [fst snd nxt].
  destruct (sloop_ok m (P 2%nat) (X 2%nat) (fun p v => radd k (snd v) (drawA k A 2 p)) (0, 0) P2 L2) as [t [T [LT HT]]]. exists t. auto.
Qed.
Lemma unshuf_beta0_ok X PV A m P g : length (X 0%nat) = m -> length g = m -> permS m PV P ->
  exists d, unshuf_beta0 ord k X PV A g = Ok d /\ length d = m /\ forall i, (i < m)%nat -> nth (at_ (P 0%nat) (at_ (P 1%nat) i)) d 0 =
    radd k (nth i g 0) (wrap k (A 1%nat (at_ (P 1%nat) i))).
Proof.
  intros L LG S. destruct (S 0%nat ltac:(lia)) as [E0 P0]. destruct (S 1%nat ltac:(lia)) as [_ P1]. unfold unshuf_beta0, numel. rewrite L, E0. cbn [fst snd nxt].
  destruct (sloop_ok m (P 1%nat) g (fun p v => radd k v (drawA k A 1 p)) 0 P1 LG) as [t [T [LT HT]]]. rewrite T. cbn [rbind].
  destruct (sloop_ok m (P 0%nat) t (fun _ v => v) 0 P0 LT) as [d [D [LD HD]]]. exists d. split; [exact D|]. split; [exact LD|].
  intros i I. rewrite HD by now apply at_lt. now rewrite HT by exact I.
Qed.
Lemma unshuf_beta2_ok X PV m P g : length (X 0%nat) = m -> length g = m -> permS m PV P ->
  exists d, unshuf_beta2 ord X PV g = Ok d /\ length d = m /\ forall i, (i < m)%nat -> nth (at_ (P 0%nat) i) d 0 = nth i g 0.
Proof.
  intros L LG S. destruct (S 0%nat ltac:(lia)) as [_ P0]. destruct (S 2%nat ltac:(lia)) as [E2 _]. unfold unshuf_beta2, numel. rewrite L, E2. cbn [fst snd nxt].
  destruct (sloop_ok m (P 0%nat) g (fun _ v => v) 0 P0 LG) as [t [T [LT HT]]]. exists t. auto.
Qed.

(* ---- the words ---- *)
Lemma shuf_word a b c s t r q v : word k a -> word k b -> word k c -> word k s -> word k t -> word k r -> word k q -> eqm k (a + b + c) v ->
  eqm k (r + q + radd k (rsub k (radd k (radd k c s) t) q) (rsub k (rsub k (rsub k (radd k a b) s) t) r)) v.
Proof.
  intros _ _ _ _ _ _ _ E. rewrite <- E. unfold radd, rsub.
  rewrite !eqm_wrap.
  match goal with |- eqm k ?x ?y => replace x with y by ring end. reflexivity.
Qed.
Lemma gathered_by_3 m P x : is_perm m (P 0%nat) -> is_perm m (P 1%nat) -> is_perm m (P 2%nat) -> length x = m ->
  gathered_by P [0; 1; 2]%nat x (vec m (fun i => nth (at_ (P 0%nat) (at_ (P 1%nat) (at_ (P 2%nat) i))) x 0)).
Proof.
  intros P0 P1 P2 L. apply (gb_cons P 0%nat _ x (vec m (fun i => nth (at_ (P 0%nat) i) x 0))).
  { apply (gathered_nth m); auto using vec_length. intros i I. now rewrite vec_nth. }
  apply (gb_cons P 1%nat _ _ (vec m (fun i => nth (at_ (P 0%nat) (at_ (P 1%nat) i)) x 0))).
  { apply (gathered_nth m); auto using vec_length. intros i I. rewrite !vec_nth; auto. now apply at_lt. }
  apply (gb_cons P 2%nat _ _ (vec m (fun i => nth (at_ (P 0%nat) (at_ (P 1%nat) (at_ (P 2%nat) i))) x 0))); [|constructor].
  apply (gathered_nth m); auto using vec_length. intros i I. rewrite !vec_nth; auto. now apply at_lt.
Qed.

(* a vector whose elements are shared one by one *)
Lemma repV_build Y y m : (forall i, (i < 3)%nat -> length (Y i) = m) -> length y = m -> (forall e, (e < m)%nat -> repA k (fun i => nth e (Y i) (0, 0)) (nth e y 0)) -> repV k Y y.
Proof. intros L Ly H. split; rewrite Ly; auto. Qed.

Lemma shuf_msgs_ok X PV A m P : length (X 0%nat) = m -> length (X 2%nat) = m -> permS m PV P -> exists d b1 g b2, 
  (forall R, shuf_msgs ord k X PV A R = Ok ((d, shuf_msg k X R b1 1), (g, shuf_msg k X R b2 0))) /\ length d = m /\ length g = m /\
  shuf_delta ord k X PV A = Ok d /\ shuf_gama ord k X PV A = Ok g /\ shuf_beta1 ord k X PV A g = Ok b1 /\ shuf_beta2 ord X PV d = Ok b2.
Proof.
  intros L0 L2 S. destruct (shuf_delta_ok X PV A m P L0 S) as [d [D [LD _]]]. destruct (shuf_gama_ok X PV A m P L0 L2 S) as [g [G [LG _]]].
  destruct (shuf_beta1_ok X PV A m P g L0 LG S) as [b1 [B1 _]]. destruct (shuf_beta2_ok X PV m P d L0 LD S) as [b2 [B2 _]].
  exists d, b1, g, b2. split; [|auto 10]. intros R. unfold shuf_msgs. rewrite D. cbn [rbind]. rewrite G. cbn [rbind]. rewrite B1. cbn [rbind]. rewrite B2. reflexivity.
Qed.
Lemma unshuf_msgs_ok X PV A m P : length (X 0%nat) = m -> length (X 1%nat) = m -> length (X 2%nat) = m -> permS m PV P -> exists d b1 g b2, 
  (forall R, unshuf_msgs ord k X PV A R = Ok ((d, shuf_msg k X R b1 1), (g, shuf_msg k X R b2 2))) /\ length d = m /\ length g = m /\
  unshuf_delta ord k X PV A = Ok d /\ unshuf_gama ord k X PV A = Ok g /\ unshuf_beta0 ord k X PV A g = Ok b1 /\ unshuf_beta2 ord X PV d = Ok b2.
Proof.
  intros L0 L1 L2 S. destruct (unshuf_delta_ok X PV A m P L0 L1 S) as [d [D [LD _]]]. destruct (unshuf_gama_ok X PV A m P L0 L2 S) as [g [G [LG _]]].
  destruct (unshuf_beta0_ok X PV A m P g L0 LG S) as [b1 [B1 _]]. destruct (unshuf_beta2_ok X PV m P d L0 LD S) as [b2 [B2 _]].
  exists d, b1, g, b2. split; [|auto 10]. intros R. unfold unshuf_msgs. rewrite D. cbn [rbind]. rewrite G. cbn [rbind]. rewrite B1. cbn [rbind]. rewrite B2. reflexivity.
Qed.
Lemma radd_comm_ a b : radd k a b = radd k b a. Proof. unfold radd. now rewrite Z.add_comm. Qed.

Theorem shuf_am_ok X PV A R P x : repV k X x -> permS (length x) PV P ->
  exists Y y, shuf_am ord k X PV A R = Ok Y /\ gathered_by P [0; 1; 2]%nat x y /\ repV k Y y.
Proof.
  intros V S. pose proof V as [LV _]. set (m := length x) in *. pose proof (LV 0%nat ltac:(lia)) as L0. pose proof (LV 2%nat ltac:(lia)) as L2.
  destruct (S 0%nat ltac:(lia)) as [_ P0]. destruct (S 1%nat ltac:(lia)) as [_ P1]. destruct (S 2%nat ltac:(lia)) as [_ P2].
  destruct (shuf_msgs_ok X PV A m P L0 L2 S) as [d [b1 [g [b2 [EM [LD [LG [ED [EG [EB1 EB2]]]]]]]]]].
  destruct (shuf_delta_ok X PV A m P L0 S) as [d' [D' [_ HD]]]. rewrite ED in D'. injection D' as <-.
  destruct (shuf_gama_ok X PV A m P L0 L2 S) as [g' [G' [_ HG]]]. rewrite EG in G'. injection G' as <-.
  destruct (shuf_beta1_ok X PV A m P g L0 LG S) as [b' [B' [_ HB1]]]. rewrite EB1 in B'. injection B' as <-.
  destruct (shuf_beta2_ok X PV m P d L0 LD S) as [b' [B' [_ HB2]]]. rewrite EB2 in B'. injection B' as <-.
  eexists. exists (vec m (fun i => nth (at_ (P 0%nat) (at_ (P 1%nat) (at_ (P 2%nat) i))) x 0)).
  split; [unfold shuf_am; rewrite EM; cbn [rbind fst snd]; reflexivity|]. split; [now apply gathered_by_3|].
  apply (repV_build _ _ m); [intros i I; rewrite vec_length; exact L0|apply vec_length|]. intros e I.
  rewrite vec_nth by exact I. set (j := at_ (P 0%nat) (at_ (P 1%nat) (at_ (P 2%nat) e))).
  assert (J : (j < m)%nat) by (unfold j; repeat apply at_lt; auto).
  destruct (repV_shape X x j V J) as [a [b [c [Wa [Wb [Wc [E0 [E1 [E2 E]]]]]]]]].
  set (r := wrap k (R 0%nat e)). set (q := wrap k (R 1%nat e)). set (s := wrap k (A 0%nat (at_ (P 1%nat) (at_ (P 2%nat) e)))). set (t := wrap k (A 1%nat (at_ (P 2%nat) e))).
  assert (WA : forall z, word k (wrap k z)) by (intros; now apply word_wrap).
  pose proof (WA (R 0%nat e) : word k r) as Wr. pose proof (WA (R 1%nat e) : word k q) as Wq.
  apply (repA_intro k _ _ r q (radd k (rsub k (radd k (radd k c s) t) q) (rsub k (rsub k (rsub k (radd k a b) s) t) r))); auto.
  - apply sum_word.
  - now apply (repV_word X x V).
  - unfold numel. rewrite L0. rewrite vec_nth by exact I. reflexivity.
  - unfold numel. rewrite L0. rewrite vec_nth by exact I. f_equal. unfold shuf_msg, numel. rewrite L0, !vec_nth by exact I. f_equal.
    + rewrite HB1 by exact I. rewrite HG by (now repeat apply at_lt). fold j. rewrite E2. reflexivity.
    + rewrite HB2 by exact I. rewrite HD by (now apply at_lt). fold j. rewrite E0. reflexivity.
  - unfold numel. rewrite L0. rewrite vec_nth by exact I. f_equal. rewrite radd_comm_. unfold shuf_msg, numel. rewrite L0, !vec_nth by exact I. f_equal.
    + rewrite HB1 by exact I. rewrite HG by (now repeat apply at_lt). fold j. rewrite E2. reflexivity.
    + rewrite HB2 by exact I. rewrite HD by (now apply at_lt). fold j. rewrite E0. reflexivity.
  - apply shuf_word; auto; apply WA.
Qed.

Lemma unshuf_word a b c s t r q v : eqm k (a + b + c) v ->
  eqm k (radd k (rsub k (radd k (radd k a s) t) r) (rsub k (rsub k (rsub k (radd k b c) s) t) q) + r + q) v.
Proof.
  intros E. rewrite <- E. unfold radd, rsub.
  rewrite !eqm_wrap.
  match goal with |- eqm k ?x ?y => replace x with y by ring end. reflexivity.
Qed.
Theorem unshuf_am_ok X PV A R P x : repV k X x -> permS (length x) PV P ->
  exists Y y, unshuf_am ord k X PV A R = Ok Y /\ scattered_by P [2; 1; 0]%nat x y /\ repV k Y y.
Proof.
  intros V S. pose proof V as [LV _]. remember (length x) as m eqn:Hm. pose proof (LV 0%nat ltac:(lia)) as L0. pose proof (LV 1%nat ltac:(lia)) as L1. pose proof (LV 2%nat ltac:(lia)) as L2.
  destruct (S 0%nat ltac:(lia)) as [_ P0]. destruct (S 1%nat ltac:(lia)) as [_ P1]. destruct (S 2%nat ltac:(lia)) as [_ P2].
  destruct (unshuf_msgs_ok X PV A m P L0 L1 L2 S) as [d [b0 [g [b2 [EM [LD [LG [ED [EG [EB0 EB2]]]]]]]]]].
  destruct (unshuf_delta_ok X PV A m P L0 L1 S) as [d' [D' [_ HD]]]. rewrite ED in D'. injection D' as <-.
  destruct (unshuf_gama_ok X PV A m P L0 L2 S) as [g' [G' [_ HG]]]. rewrite EG in G'. injection G' as <-.
  destruct (unshuf_beta0_ok X PV A m P g L0 LG S) as [b' [B' [_ HB0]]]. rewrite EB0 in B'. injection B' as <-.
  destruct (unshuf_beta2_ok X PV m P d L0 LD S) as [b' [B' [_ HB2]]]. rewrite EB2 in B'. injection B' as <-.
  destruct (scatter_exists m x (P 2%nat) P2 (eq_sym Hm)) as [y1 Y1]. assert (LY1 : length y1 = m) by (rewrite (proj1 Y1); auto).
  destruct (scatter_exists m y1 (P 1%nat) P1 LY1) as [y2 Y2]. assert (LY2 : length y2 = m) by (rewrite (proj1 Y2); auto).
  destruct (scatter_exists m y2 (P 0%nat) P0 LY2) as [y3 Y3]. assert (LY3 : length y3 = m) by (rewrite (proj1 Y3); auto).
  eexists. exists y3.
  split; [unfold unshuf_am; rewrite EM; cbn [rbind fst snd]; reflexivity|]. split; [econstructor; [exact Y1|]; econstructor; [exact Y2|]; econstructor; [exact Y3|constructor]|].
  apply (repV_build _ _ m); [intros i I; rewrite vec_length; exact L0|exact LY3|]. intros e I.
  destruct (at_surj m (P 0%nat) e P0 I) as [u [U ->]]. destruct (at_surj m (P 1%nat) u P1 U) as [w [W ->]]. destruct (at_surj m (P 2%nat) w P2 W) as [j [J ->]].
  rewrite (nth_scattered m y2 y3) by auto. rewrite (nth_scattered m y1 y2) by auto. rewrite (nth_scattered m x y1) by auto.
  destruct (repV_shape X x j V ltac:(lia)) as [a [b [c [Wa [Wb [Wc [E0 [E1 [E2 E]]]]]]]]].
  set (e := at_ (P 0%nat) (at_ (P 1%nat) (at_ (P 2%nat) j))) in *.
  set (r := wrap k (R 1%nat e)). set (q := wrap k (R 2%nat e)). set (s := wrap k (A 2%nat (at_ (P 2%nat) j))). set (t := wrap k (A 1%nat (at_ (P 1%nat) (at_ (P 2%nat) j)))).
  assert (WA : forall z, word k (wrap k z)) by (intros; now apply word_wrap).
  assert (Q0 : nth e b0 0 = radd k (radd k a s) t) by (unfold e; rewrite HB0 by exact W; rewrite HG by exact J; rewrite E2; reflexivity).
  assert (Q2 : nth e b2 0 = rsub k (rsub k (radd k b c) s) t) by (unfold e; rewrite HB2 by exact U; rewrite HD by exact J; rewrite E1; reflexivity).
  pose proof (WA (R 1%nat e) : word k r) as Wr. pose proof (WA (R 2%nat e) : word k q) as Wq.
  apply (repA_intro k _ _ (radd k (rsub k (radd k (radd k a s) t) r) (rsub k (rsub k (rsub k (radd k b c) s) t) q)) r q); auto.
  - apply sum_word.
  - apply (repV_word X x V). lia.
  - unfold numel. rewrite L0. rewrite vec_nth by exact I. f_equal. unfold shuf_msg, numel. rewrite L0, !vec_nth by exact I. now rewrite Q0, Q2.
  - unfold numel. rewrite L0. rewrite vec_nth by exact I. reflexivity.
  - unfold numel. rewrite L0. rewrite vec_nth by exact I. f_equal. rewrite radd_comm_. unfold shuf_msg, numel. rewrite L0, !vec_nth by exact I. now rewrite Q0, Q2.
  - now apply unshuf_word.
Qed.

(* ---- what the messages reveal ---- *)
Definition masks (f : Z -> Z -> Z) : Prop :=
  (forall c v, word k v -> exists w, word k w /\ f c w = v) /\ forall c w w', word k w -> word k w' -> f c w = f c w' -> w = w'.
Lemma word_eqm_eq a b : word k a -> word k b -> eqm k a b -> a = b.
Proof. intros A B E. unfold eqm in E. now rewrite !wrap_small in E. Qed.
Lemma masks_sub : masks (fun c w => rsub k c (wrap k w)).
Proof.
  split.
  - intros c v W. exists (rsub k c v). split; [apply diff_word|]. apply word_eqm_eq; [apply diff_word|exact W|]. unfold rsub. rewrite !eqm_wrap.
    replace (c - (c - v)) with v by ring. reflexivity.
  - intros c w w' W W' E. rewrite !wrap_small in E by assumption. apply word_eqm_eq; auto.
    assert (Q : eqm k (c - rsub k c w) (c - rsub k c w')) by now rewrite E. unfold rsub in Q. rewrite !eqm_wrap in Q.
    now replace (c - (c - w)) with w in Q by ring; replace (c - (c - w')) with w' in Q by ring.
Qed.
Lemma masks_add : masks (fun c w => radd k c (wrap k w)).
Proof.
  split.
  - intros c v W. exists (rsub k v c). split; [apply diff_word|]. apply word_eqm_eq; [apply sum_word|exact W|]. unfold radd, rsub. rewrite !eqm_wrap.
    replace (c + (v - c)) with v by ring. reflexivity.
  - intros c w w' W W' E. rewrite !wrap_small in E by assumption. apply word_eqm_eq; auto.
    assert (Q : eqm k (radd k c w - c) (radd k c w' - c)) by now rewrite E. unfold radd in Q. rewrite !eqm_wrap in Q.
    now replace (c + w - c) with w in Q by ring; replace (c + w' - c) with w' in Q by ring.
Qed.
Lemma pick (m : nat) (Q : nat -> Z -> Prop) : (forall i, (i < m)%nat -> exists w, word k w /\ Q i w) -> exists a, (forall i, word k (a i)) /\ forall i, (i < m)%nat -> Q i (a i).
Proof.
  induction m as [|m IH]; intros H.
  - exists (fun _ => 0). split; [intros; now apply word_0|lia].
  - destruct IH as [a [W HA]]; [intros; apply H; lia|]. destruct (H m ltac:(lia)) as [w [Ww Hw]].
    exists (fun i => if (i =? m)%nat then w else a i). split; [intros i; destruct (i =? m)%nat; auto|].
    intros i I. destruct (Nat.eqb_spec i m); [now subst|]. apply HA. lia.
Qed.
Lemma uniform_of m (view : (nat -> Z) -> (nat -> Z) -> res (list Z * list Z)) f C (Rel : (nat -> Z) -> list Z -> Prop) : masks f ->
  (forall a, exists d b, length d = m /\ (forall i, (i < m)%nat -> nth i d 0 = f (C i) (a i)) /\ Rel a b /\
     forall r, view a r = Ok (d, vec m (fun e => rsub k (nth e b 0) (wrap k (r e))))) ->
  (forall a a' b b', (forall e, (e < m)%nat -> a e = a' e) -> Rel a b -> Rel a' b' -> forall e, (e < m)%nat -> nth e b 0 = nth e b' 0) ->
  uniform_view k m view.
Proof.
  intros [F1 F2] H HR d b [Ld Wd] [Lb Wb]. rewrite Forall_forall in Wd, Wb.
  assert (NW : forall l i, length l = m -> (forall v, In v l -> word k v) -> (i < m)%nat -> word k (nth i l 0)) by (intros l i Ll Wl I; apply Wl, nth_In; lia).
  split.
  - destruct (pick m (fun i w => f (C i) w = nth i d 0)) as [a [Wa Ha]]; [intros i I; apply F1; auto|].
    destruct (H a) as [d' [B [Ld' [Hd' [_ HV]]]]].
    destruct (pick m (fun i w => rsub k (nth i B 0) (wrap k w) = nth i b 0)) as [r [Wr Hr]]; [intros i I; apply (proj1 masks_sub); auto|].
    exists a, r. split; [exact Wa|]. split; [exact Wr|]. rewrite HV. f_equal. f_equal.
    + apply (nth_ext _ _ 0 0); [lia|]. intros i I. rewrite Hd' by lia. apply Ha. lia.
    + apply (nth_ext _ _ 0 0); [now rewrite vec_length|]. intros i I. rewrite vec_length in I. rewrite vec_nth by exact I. now apply Hr.
  - intros a r a' r' Wa Wr Wa' Wr' V V'.
    destruct (H a) as [d1 [B [L1 [Hd1 [R1 HV]]]]]. destruct (H a') as [d2 [B' [L2 [Hd2 [R2 HV']]]]].
    rewrite HV in V. injection V as V1 V2. rewrite HV' in V'. injection V' as V1' V2'.
    assert (EA : forall e, (e < m)%nat -> a e = a' e).
    { intros e I. apply (F2 (C e)); auto. rewrite <- Hd1, <- Hd2 by exact I. congruence. }
    intros e I. split; [now apply EA|]. apply (proj2 masks_sub (nth e B 0)); auto.
    pose proof (f_equal (fun l => nth e l 0) V2) as Q. pose proof (f_equal (fun l => nth e l 0) V2') as Q'. cbn beta in Q, Q'. rewrite !vec_nth in Q by exact I. rewrite !vec_nth in Q' by exact I.
    rewrite Q. rewrite (HR a a' B B' EA R1 R2 e I). now rewrite Q'.
Qed.

Theorem shuf_hides X PV A R P m : length (X 0%nat) = m -> length (X 2%nat) = m -> permS m PV P ->
  uniform_view k m (fun a r => rbind (shuf_msgs ord k X PV (other 1 A a) (other 1 R r)) (fun M => Ok (fst M))) /\
  uniform_view k m (fun a r => rbind (shuf_msgs ord k X PV (other 0 A a) (other 0 R r)) (fun M => Ok (snd M))).
Proof.
  intros L0 L2 S. destruct (S 0%nat ltac:(lia)) as [_ P0]. destruct (S 1%nat ltac:(lia)) as [_ P1]. destruct (S 2%nat ltac:(lia)) as [_ P2]. split.
  - apply (uniform_of m _ _ (fun i => rsub k (radd k (fst (nth (at_ (P 0%nat) (at_ (P 1%nat) i)) (X 0%nat) (0, 0))) (snd (nth (at_ (P 0%nat) (at_ (P 1%nat) i)) (X 0%nat) (0, 0))))
      (wrap k (A 0%nat (at_ (P 1%nat) i)))) (fun a b => forall i, (i < m)%nat -> nth i b 0 =
        radd k (radd k (fst (nth (at_ (P 0%nat) (at_ (P 1%nat) (at_ (P 2%nat) i))) (X 2%nat) (0, 0))) (wrap k (A 0%nat (at_ (P 1%nat) (at_ (P 2%nat) i))))) (wrap k (a (at_ (P 2%nat) i)))) masks_sub).
    + intros a. destruct (shuf_msgs_ok X PV (other 1 A a) m P L0 L2 S) as [d [b1 [g [b2 [EM [LD [LG [ED [EG [EB1 EB2]]]]]]]]]].
      destruct (shuf_delta_ok X PV (other 1 A a) m P L0 S) as [d' [D' [_ HD]]]. rewrite ED in D'. injection D' as <-.
      destruct (shuf_gama_ok X PV (other 1 A a) m P L0 L2 S) as [g' [G' [_ HG]]]. rewrite EG in G'. injection G' as <-.
      destruct (shuf_beta1_ok X PV (other 1 A a) m P g L0 LG S) as [b' [B' [_ HB1]]]. rewrite EB1 in B'. injection B' as <-.
      exists d, b1. split; [exact LD|]. split; [exact HD|]. split; [intros i I; rewrite HB1 by exact I; rewrite HG by (now repeat apply at_lt); reflexivity|].
      intros r. rewrite EM. cbn [rbind fst]. unfold shuf_msg, numel. rewrite L0. reflexivity.
    + intros a a' b b' EA H H' e I. rewrite H, H' by exact I. rewrite EA by now apply at_lt. reflexivity.
  - apply (uniform_of m _ _ (fun i => fst (nth (at_ (P 0%nat) i) (X 2%nat) (0, 0))) (fun a b => forall i, (i < m)%nat -> nth i b 0 =
        rsub k (rsub k (radd k (fst (nth (at_ (P 0%nat) (at_ (P 1%nat) (at_ (P 2%nat) i))) (X 0%nat) (0, 0))) (snd (nth (at_ (P 0%nat) (at_ (P 1%nat) (at_ (P 2%nat) i))) (X 0%nat) (0, 0))))
      (wrap k (a (at_ (P 1%nat) (at_ (P 2%nat) i))))) (wrap k (A 1%nat (at_ (P 2%nat) i)))) masks_add).
    + intros a. destruct (shuf_msgs_ok X PV (other 0 A a) m P L0 L2 S) as [d [b1 [g [b2 [EM [LD [LG [ED [EG [EB1 EB2]]]]]]]]]].
      destruct (shuf_delta_ok X PV (other 0 A a) m P L0 S) as [d' [D' [_ HD]]]. rewrite ED in D'. injection D' as <-.
      destruct (shuf_gama_ok X PV (other 0 A a) m P L0 L2 S) as [g' [G' [_ HG]]]. rewrite EG in G'. injection G' as <-.
      destruct (shuf_beta2_ok X PV m P d L0 LD S) as [b' [B' [_ HB2]]]. rewrite EB2 in B'. injection B' as <-.
      exists g, b2. split; [exact LG|]. split; [exact HG|]. split; [intros i I; rewrite HB2 by exact I; rewrite HD by (now apply at_lt); reflexivity|].
      intros r. rewrite EM. cbn [rbind snd]. unfold shuf_msg, numel. rewrite L0. reflexivity.
    + intros a a' b b' EA H H' e I. rewrite H, H' by exact I. rewrite EA by now repeat apply at_lt. reflexivity.
Qed.

(* a function of the position before a permutation, read at the position after it *)
Lemma carry m pv (c : nat -> Z) : is_perm m pv -> exists C, forall j, (j < m)%nat -> C (at_ pv j) = c j.
Proof.
  intros P. destruct (sloop_ok m pv (vec m c) (fun _ v => v) 0 P (vec_length m c)) as [y [_ [_ H]]]. exists (fun e => nth e y 0). intros j J. rewrite H by exact J. now apply vec_nth.
Qed.
Theorem unshuf_hides X PV A R P m : length (X 0%nat) = m -> length (X 1%nat) = m -> length (X 2%nat) = m -> permS m PV P ->
  uniform_view k m (fun a r => rbind (unshuf_msgs ord k X PV (other 1 A a) (other 1 R r)) (fun M => Ok (fst M))) /\
  uniform_view k m (fun a r => rbind (unshuf_msgs ord k X PV (other 2 A a) (other 2 R r)) (fun M => Ok (snd M))).
Proof.
  intros L0 L1 L2 S. destruct (S 0%nat ltac:(lia)) as [_ P0]. destruct (S 1%nat ltac:(lia)) as [_ P1]. destruct (S 2%nat ltac:(lia)) as [_ P2]. split.
  - destruct (carry m (P 2%nat) (fun i => rsub k (radd k (fst (nth i (X 1%nat) (0, 0))) (snd (nth i (X 1%nat) (0, 0)))) (wrap k (A 2%nat (at_ (P 2%nat) i)))) P2) as [C1 HC1].
    destruct (carry m (P 1%nat) C1 P1) as [C2 HC2].
    apply (uniform_of m _ _ C2 (fun a b => forall i, (i < m)%nat -> nth (at_ (P 0%nat) (at_ (P 1%nat) (at_ (P 2%nat) i))) b 0 =
        radd k (radd k (snd (nth i (X 2%nat) (0, 0))) (wrap k (A 2%nat (at_ (P 2%nat) i)))) (wrap k (a (at_ (P 1%nat) (at_ (P 2%nat) i))))) masks_sub).
    + intros a. destruct (unshuf_msgs_ok X PV (other 1 A a) m P L0 L1 L2 S) as [d [b1 [g [b2 [EM [LD [LG [ED [EG [EB1 EB2]]]]]]]]]].
      destruct (unshuf_delta_ok X PV (other 1 A a) m P L0 L1 S) as [d' [D' [_ HD]]]. rewrite ED in D'. injection D' as <-.
      destruct (unshuf_gama_ok X PV (other 1 A a) m P L0 L2 S) as [g' [G' [_ HG]]]. rewrite EG in G'. injection G' as <-.
      destruct (unshuf_beta0_ok X PV (other 1 A a) m P g L0 LG S) as [b' [B' [_ HB1]]]. rewrite EB1 in B'. injection B' as <-.
      exists d, b1. split; [exact LD|]. split.
      { intros i I. destruct (at_surj m (P 1%nat) i P1 I) as [w [W ->]]. destruct (at_surj m (P 2%nat) w P2 W) as [j [J ->]].
        rewrite HC2 by exact W. rewrite HC1 by exact J. exact (HD j J). }
      split; [intros i I; rewrite HB1 by (now apply at_lt); rewrite HG by exact I; reflexivity|].
      intros r. rewrite EM. cbn [rbind fst]. unfold shuf_msg, numel. rewrite L0. reflexivity.
    + intros a a' b b' EA H H' e I. destruct (at_surj m (P 0%nat) e P0 I) as [u [U ->]]. destruct (at_surj m (P 1%nat) u P1 U) as [w [W ->]]. destruct (at_surj m (P 2%nat) w P2 W) as [j [J ->]].
      rewrite H, H' by exact J. rewrite EA by exact U. reflexivity.
  - destruct (carry m (P 2%nat) (fun i => snd (nth i (X 2%nat) (0, 0))) P2) as [C1 HC1].
    apply (uniform_of m _ _ C1 (fun a b => forall i, (i < m)%nat -> nth (at_ (P 0%nat) (at_ (P 1%nat) (at_ (P 2%nat) i))) b 0 =
        rsub k (rsub k (radd k (fst (nth i (X 1%nat) (0, 0))) (snd (nth i (X 1%nat) (0, 0)))) (wrap k (a (at_ (P 2%nat) i)))) (wrap k (A 1%nat (at_ (P 1%nat) (at_ (P 2%nat) i))))) masks_add).
    + intros a. destruct (unshuf_msgs_ok X PV (other 2 A a) m P L0 L1 L2 S) as [d [b1 [g [b2 [EM [LD [LG [ED [EG [EB1 EB2]]]]]]]]]].
      destruct (unshuf_delta_ok X PV (other 2 A a) m P L0 L1 S) as [d' [D' [_ HD]]]. rewrite ED in D'. injection D' as <-.
      destruct (unshuf_gama_ok X PV (other 2 A a) m P L0 L2 S) as [g' [G' [_ HG]]]. rewrite EG in G'. injection G' as <-.
      destruct (unshuf_beta2_ok X PV m P d L0 LD S) as [b' [B' [_ HB2]]]. rewrite EB2 in B'. injection B' as <-.
      exists g, b2. split; [exact LG|]. split.
      { intros i I. destruct (at_surj m (P 2%nat) i P2 I) as [j [J ->]]. rewrite HC1 by exact J. exact (HG j J). }
      split; [intros i I; rewrite HB2 by (now repeat apply at_lt); rewrite HD by exact I; reflexivity|].
      intros r. rewrite EM. cbn [rbind snd]. unfold shuf_msg, numel. rewrite L0. reflexivity.
    + intros a a' b b' EA H H' e I. destruct (at_surj m (P 0%nat) e P0 I) as [u [U ->]]. destruct (at_surj m (P 1%nat) u P1 U) as [w [W ->]]. destruct (at_surj m (P 2%nat) w P2 W) as [j [J ->]].
      rewrite H, H' by exact J. rewrite EA by exact W. reflexivity.
Qed.

(* ---- public permutations ---- *)
Lemma nth_map_pair (x : list (Z * Z)) e : nth e (map fst x) 0 = fst (nth e x (0, 0)) /\ nth e (map snd x) 0 = snd (nth e x (0, 0)).
Proof. split; [exact (map_nth fst x (0, 0) e)|exact (map_nth snd x (0, 0) e)]. Qed.
Lemma shuf_ap_ok x pv m : length x = m -> is_perm m pv ->
  (exists y, shuf_ap ord junk x pv = Ok y /\ length y = m /\ forall i, (i < m)%nat -> nth i y (0, 0) = nth (at_ pv i) x (0, 0)) /\
  (exists y, unshuf_ap ord junk x pv = Ok y /\ length y = m /\ forall i, (i < m)%nat -> nth (at_ pv i) y (0, 0) = nth i x (0, 0)).
Proof.
  intros L P. unfold shuf_ap, unshuf_ap, on_both. destruct (Nat.eqb_spec (length x) 0) as [Z0|NZ].
  { split; exists []; (split; [reflexivity|]); cbn; split; lia. }
  assert (L1 : length (map fst x) = m) by now rewrite map_length. assert (L2 : length (map snd x) = m) by now rewrite map_length. split.
  - destruct (apply_perm_ok ord ORD junk m (map fst x) pv P L1) as [u [U [_ GU]]]. destruct (apply_perm_ok ord ORD junk m (map snd x) pv P L2) as [w [W [_ GW]]].
    rewrite U. cbn [rbind]. rewrite W. cbn [rbind]. exists (combine u w). split; [reflexivity|].
    assert (LU : length u = m) by (rewrite (proj1 GU); now apply perm_length). assert (LW : length w = m) by (rewrite (proj1 GW); now apply perm_length).
    split; [rewrite combine_length; lia|]. intros i I. rewrite combine_nth by lia. rewrite (nth_gathered m _ u pv i P L1 I GU), (nth_gathered m _ w pv i P L2 I GW).
    rewrite (proj1 (nth_map_pair _ _)), (proj2 (nth_map_pair _ _)). now destruct (nth (at_ pv i) x (0, 0)).
  - destruct (apply_inv_perm_ok ord ORD junk m (map fst x) pv P L1) as [u [U [_ GU]]]. destruct (apply_inv_perm_ok ord ORD junk m (map snd x) pv P L2) as [w [W [_ GW]]].
    rewrite U. cbn [rbind]. rewrite W. cbn [rbind]. exists (combine u w). split; [reflexivity|].
    assert (LU : length u = m) by (rewrite (proj1 GU); exact L1). assert (LW : length w = m) by (rewrite (proj1 GW); exact L2).
    split; [rewrite combine_length; lia|]. intros i I. rewrite combine_nth by lia. rewrite (nth_scattered m _ u pv i P L1 I GU), (nth_scattered m _ w pv i P L2 I GW).
    rewrite (proj1 (nth_map_pair _ _)), (proj2 (nth_map_pair _ _)). now destruct (nth i x (0, 0)).
Qed.
Lemma repA_ext X Y x : (forall i, (i < 3)%nat -> X i = Y i) -> repA k X x -> repA k Y x.
Proof.
  intros H [R M]. split.
  - intros i I. rewrite <- !H by (auto; three i; cbn; lia). exact (R i I).
  - rewrite <- !H by lia. exact M.
Qed.
Theorem shuf_public X x pv : repV k X x -> is_perm (length x) pv ->
  (exists Y y, (forall i, (i < 3)%nat -> shuf_ap ord junk (X i) pv = Ok (Y i)) /\ gathered x pv y /\ repV k Y y) /\
  (exists Y y, (forall i, (i < 3)%nat -> unshuf_ap ord junk (X i) pv = Ok (Y i)) /\ scattered x pv y /\ repV k Y y).
Proof.
  intros V P. pose proof V as [LV HV]. remember (length x) as m eqn:Hm. symmetry in Hm.
  assert (Q : forall i, (i < 3)%nat -> _) by (intros i I; exact (shuf_ap_ok (X i) pv m (LV i I) P)). split.
  - set (Y := fun i => match shuf_ap ord junk (X i) pv with Ok y => y | _ => [] end).
    assert (HY : forall i, (i < 3)%nat -> shuf_ap ord junk (X i) pv = Ok (Y i) /\ length (Y i) = m /\ forall e, (e < m)%nat -> nth e (Y i) (0, 0) = nth (at_ pv e) (X i) (0, 0)).
    { intros i I. destruct (Q i I) as [[y [E H]] _]. unfold Y. rewrite E. auto. }
    destruct (gather_exists m x pv P Hm) as [y G]. exists Y, y. split; [intros i I; apply (HY i I)|]. split; [exact G|].
    apply (repV_build _ _ m); [intros i I; apply (HY i I)|rewrite (proj1 G); now apply perm_length|]. intros e I. rewrite (nth_gathered m x y pv) by auto.
    apply (repA_ext (fun i => nth (at_ pv e) (X i) (0, 0))); [intros i J; symmetry; now apply (HY i J)|]. apply HV. now apply at_lt.
  - set (Y := fun i => match unshuf_ap ord junk (X i) pv with Ok y => y | _ => [] end).
    assert (HY : forall i, (i < 3)%nat -> unshuf_ap ord junk (X i) pv = Ok (Y i) /\ length (Y i) = m /\ forall e, (e < m)%nat -> nth (at_ pv e) (Y i) (0, 0) = nth e (X i) (0, 0)).
    { intros i I. destruct (Q i I) as [_ [y [E H]]]. unfold Y. rewrite E. auto. }
    destruct (scatter_exists m x pv P Hm) as [y G]. exists Y, y. split; [intros i I; apply (HY i I)|]. split; [exact G|].
    apply (repV_build _ _ m); [intros i I; apply (HY i I)|rewrite (proj1 G); exact Hm|]. intros e I. destruct (at_surj m pv e P I) as [j [J ->]].
    rewrite (nth_scattered m x y pv) by auto.
    apply (repA_ext (fun i => nth j (X i) (0, 0))); [intros i J'; symmetry; now apply (HY i J')|]. now apply HV.
Qed.
End Shuf.
