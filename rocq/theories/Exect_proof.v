From Verif Require Import Base Exec_model Exec_spec Exec_proof Execs_proof.
Local Open Scope nat_scope.

(* ---- sums ---- *)
Fixpoint nsum (n : nat) (g : nat -> nat) : nat := match n with O => O | S m => (nsum m g + g m)%nat end.
Lemma nsum_ext n g h : (forall i, (i < n)%nat -> g i = h i) -> nsum n g = nsum n h.
Proof. induction n as [|n IH]; cbn; intros E; [reflexivity|]. rewrite IH by (intros; apply E; lia). rewrite E by lia. reflexivity. Qed.
Lemma nsum_le n g h : (forall i, (i < n)%nat -> (g i <= h i)%nat) -> (nsum n g <= nsum n h)%nat.
Proof. induction n as [|n IH]; cbn; intros E; [lia|]. specialize (IH ltac:(intros; apply E; lia)). specialize (E n ltac:(lia)). lia. Qed.
Lemma nsum_upd n g h t : (t < n)%nat -> (forall i, i <> t -> g i = h i) -> (nsum n g + h t = nsum n h + g t)%nat.
Proof.
  induction n as [|n IH]; intros L E; [lia|]. cbn. destruct (Nat.eq_dec t n) as [->|NE].
  - rewrite (nsum_ext n g h) by (intros; apply E; lia). lia.
  - specialize (IH ltac:(lia) E). rewrite (E n) by lia. lia.
Qed.
Lemma nsum_const n c : nsum n (fun _ => c) = (n * c)%nat.
Proof. induction n as [|n IH]; cbn; lia. Qed.
Lemma nsum_add n g h : nsum n (fun i => (g i + h i)%nat) = (nsum n g + nsum n h)%nat.
Proof. induction n as [|n IH]; cbn; lia. Qed.

Section Sys.
Context {V : Type} (n : nat) (ops : list (op V)) (e f : env V).

Definition rlen (i : nat) : nat := match nth_error ops i with Some o => length (ready_keys ops i o) | None => 0 end.
Definition dlen (i : nat) : nat := match nth_error ops i with Some o => length (o_reads o) | None => 0 end.
Definition wlen (i : nat) : nat := match nth_error ops i with Some o => length (o_res o) | None => 0 end.
Definition Rm : nat := nsum (length ops) rlen.
Definition W : nat := (Rm + 2)%nat.
Definition Sc (i : nat) : nat := (dlen i + 1 + wlen i + n * W + 3)%nat.
Definition cost (x : tst V) : nat :=
  match x with
  | TPop => 1
  | TLock i => Sc i + W
  | TCheck i ks => Sc i + 1 + length ks
  | TFail i => Sc i + 1
  | TSleep i => Sc i
  | TRead i ks _ => length ks + 1 + wlen i + n * W + 3
  | TWrite i kvs => length kvs + n * W + 3
  | TSignal i => n * W + 2
  | TDone => 0
  end.
Definition queued (nx : nat) : nat := nsum (length ops) (fun i => if (nx <=? i)%nat then Sc i + W else 0).
Definition M (s : state V) : nat := (queued (s_next s) + nsum n (fun t => cost (s_th s t)))%nat.

Lemma rlen_le i : (rlen i <= Rm)%nat.
Proof.
  destruct (Nat.lt_ge_cases i (length ops)) as [L|L].
  - unfold Rm. revert L. generalize (length ops). intros m. induction m as [|m IH]; intros L; [lia|]. cbn.
    destruct (Nat.eq_dec i m) as [->|]; [lia|]. specialize (IH ltac:(lia)). lia.
  - unfold rlen. apply nth_error_None in L. rewrite L. lia.
Qed.
Lemma queued_pop nx : (nx < length ops)%nat -> queued nx = (queued (S nx) + (Sc nx + W))%nat.
Proof.
  intros L. unfold queued.
  pose proof (nsum_upd (length ops) (fun i => if (nx <=? i)%nat then Sc i + W else 0)%nat
                (fun i => if (S nx <=? i)%nat then Sc i + W else 0)%nat nx L) as H.
  cbv beta in H. assert (H1 : (nx <=? nx)%nat = true) by (apply Nat.leb_le; lia).
  assert (H2 : (S nx <=? nx)%nat = false) by (apply Nat.leb_gt; lia). rewrite H1, H2 in H.
  rewrite <- H; [lia|]. intros i NE. destruct (Nat.leb_spec nx i), (Nat.leb_spec (S nx) i); try reflexivity; lia.
Qed.
Lemma sum_updt th t x : (t < n)%nat ->
  (nsum n (fun u => cost (updt th t x u)) + cost (th t) = nsum n (fun u => cost (th u)) + cost x)%nat.
Proof.
  intros L. pose proof (nsum_upd n (fun u => cost (updt th t x u)) (fun u => cost (th u)) t L) as H. cbv beta in H.
  rewrite updt_eq in H. apply H. intros i NE. rewrite updt_ne by exact NE. reflexivity.
Qed.
Lemma wake_cost x : (cost (wake x) <= cost x + W)%nat.
Proof. destruct x; cbn; lia. Qed.

Lemma step_cost s l s' : step n ops s l s' -> s_crash s' = false ->
  match l with LSpur => (M s' <= M s + W)%nat | _ => (M s' + 1 <= M s)%nat end.
Proof.
  intros H C. inversion H; subst; clear H; cbn [s_crash] in C; try discriminate;
    unfold M; cbn [s_next s_th].
  - pose proof (sum_updt (s_th s) t TDone H0) as Q. rewrite H2 in Q. cbn in Q. cbn. lia.
  - pose proof (sum_updt (s_th s) t (enter (s_next s) o) H0) as Q. rewrite H2 in Q.
    rewrite (queued_pop (s_next s)) by (apply nth_error_Some; congruence).
    unfold enter in *. destruct (o_in o) eqn:Z; cbn [cost] in Q; cbv beta iota.
    + assert (D : dlen (s_next s) = length (o_reads o)) by (unfold dlen; rewrite H3; reflexivity). unfold Sc. lia.
    + lia.
  - pose proof (sum_updt (s_th s) t (TCheck i (ready_keys ops i o)) H0) as Q. rewrite H2 in Q. cbn [cost] in Q.
    pose proof (rlen_le i) as R. unfold rlen in R. rewrite H3 in R. unfold W in *. lia.
  - pose proof (sum_updt (s_th s) t (TCheck i ks) H0) as Q. rewrite H2 in Q. cbn [cost length] in Q. lia.
  - pose proof (sum_updt (s_th s) t (TFail i) H0) as Q. rewrite H2 in Q. cbn [cost length] in Q. lia.
  - pose proof (sum_updt (s_th s) t (TSleep i) H0) as Q. rewrite H2 in Q. cbn [cost length] in Q. lia.
  - pose proof (sum_updt (s_th s) t (TLock i) H0) as Q. rewrite H2 in Q. cbn [cost length] in Q. lia.
  - pose proof (sum_updt (s_th s) t (TRead i (o_reads o) []) H0) as Q. rewrite H2 in Q. cbn [cost length] in Q.
    assert (D : dlen i = length (o_reads o)) by (unfold dlen; rewrite H3; reflexivity). unfold Sc in *. lia.
  - pose proof (sum_updt (s_th s) t (TRead i ks (vs ++ [v])) H0) as Q. rewrite H2 in Q. cbn [cost length] in Q. lia.
  - pose proof (sum_updt (s_th s) t (TWrite i []) H0) as Q. rewrite H2 in Q. cbn [cost length] in Q. lia.
  - pose proof (sum_updt (s_th s) t (TWrite i (combine (o_res o) rs)) H0) as Q. rewrite H2 in Q. cbn [cost length] in Q.
    rewrite combine_length in Q. assert (D : wlen i = length (o_res o)) by (unfold wlen; rewrite H3; reflexivity). lia.
  - pose proof (sum_updt (s_th s) t (TWrite i kvs) H0) as Q. rewrite H2 in Q. cbn [cost length] in Q. lia.
  - pose proof (sum_updt (s_th s) t (TSignal i) H0) as Q. rewrite H2 in Q. cbn [cost length] in Q. lia.
  - pose proof (sum_updt (fun u => wake (s_th s u)) t TPop H0) as Q. cbv beta in Q. rewrite H2 in Q. cbn [cost wake] in Q.
    assert (B : (nsum n (fun u => cost (wake (s_th s u))) <= nsum n (fun u => cost (s_th s u)) + n * W)%nat).
    { rewrite <- nsum_const, <- nsum_add. apply nsum_le. intros. apply wake_cost. }
    lia.
Qed.

Context (SSA : ssa ops e) (CAP : captures_with_operand ops) (KEEP : keep_ops ops e = Some f).
Lemma spurious_snoc L l : spurious (L ++ [l]) = (spurious L + match l with LSpur => 1 | _ => 0 end)%nat.
Proof. unfold spurious. rewrite filter_app, app_length. destruct l; reflexivity. Qed.
Lemma exec_cost L s : exec n ops e L s ->
  (length L + M s <= M (mkSt 0 e None (fun _ => TPop) false) + (W + 1) * spurious L)%nat.
Proof using SSA CAP KEEP.
  induction 1 as [|L s l s' X IH ST].
  - cbn [length spurious filter]. lia.
  - rewrite app_length, spurious_snoc. cbn [length].
    pose proof (step_cost _ _ _ ST (i_crash _ _ _ _ _ (exec_inv _ _ _ _ SSA CAP KEEP _ _ (exec_snoc _ _ _ _ _ _ _ X ST)))) as C.
    destruct l; nia.
Qed.

(* ---- progress ---- *)
Definition active (x : tst V) : bool :=
  match x with TPop | TCheck _ _ | TFail _ | TRead _ _ _ | TWrite _ _ => true | _ => false end.
Definition wants (x : tst V) : bool := match x with TLock _ | TSignal _ => true | _ => false end.
Definition asleep (x : tst V) : bool := match x with TSleep _ => true | _ => false end.
Lemma some_thread (p : tst V -> bool) th :
  (exists t, (t < n)%nat /\ p (th t) = true) \/ (forall t, (t < n)%nat -> p (th t) = false).
Proof.
  destruct (existsb (fun t => p (th t)) (seq 0 n)) eqn:E.
  - left. apply existsb_exists in E. destruct E as (t & I & P). apply in_seq in I. exists t. split; [lia|exact P].
  - right. intros t L. destruct (p (th t)) eqn:P; [|reflexivity]. rewrite <- E. symmetry.
    apply existsb_exists. exists t. split; [apply in_seq; lia|exact P].
Qed.
Lemma active_steps s t : inv n ops e f s -> (t < n)%nat -> active (s_th s t) = true ->
  exists l s', step n ops s l s' /\ l <> LSpur.
Proof.
  intros IV L A. destruct IV. pose proof (i_th _ L) as T. destruct (s_th s t) eqn:E; try discriminate.
  - destruct (nth_error ops (s_next s)) as [o|] eqn:O.
    + eexists _, _. split; [eapply s_pop; eauto|]. destruct (o_in o); discriminate.
    + eexists _, _. split; [eapply s_done; eauto|discriminate].
  - destruct T as (_ & o & dn & O & _). destruct ks as [|k ks].
    + eexists _, _. split; [eapply s_start; eauto|discriminate].
    + destruct (s_env s k) eqn:K.
      * eexists _, _. split; [eapply s_has; eauto; congruence|discriminate].
      * eexists _, _. split; [eapply s_hasnot; eauto; congruence|discriminate].
  - eexists _, _. split; [eapply s_sleep; eauto|discriminate].
  - destruct T as (_ & o & dn & O & _). destruct ks as [|k ks].
    + destruct (o_free o) eqn:F; [eexists _, _; split; [eapply s_free; eauto|discriminate]|].
      destruct (o_run o vs) as [rs|] eqn:R.
      * destruct (Nat.eq_dec (length rs) (length (o_res o))).
        -- eexists _, _. split; [eapply s_run; eauto|discriminate].
        -- eexists _, _. split; [eapply s_norun; eauto; intros; congruence|discriminate].
      * eexists _, _. split; [eapply s_norun; eauto; intros; congruence|discriminate].
    + destruct (s_env s k) eqn:K.
      * eexists _, _. split; [eapply s_read; eauto|discriminate].
      * eexists _, _. split; [eapply s_noread; eauto; congruence|discriminate].
  - destruct kvs as [|(k, v) kvs].
    + eexists _, _. split; [eapply s_wrote; eauto|discriminate].
    + eexists _, _. split; [eapply s_write; eauto|discriminate].
Qed.
Lemma side_in i k : In k (side_deps ops i) -> exists j p, (j < i)%nat /\ nth_error ops j = Some p /\ In k (o_res p).
Proof.
  unfold side_deps. rewrite in_flat_map. intros (p & I & K). apply filter_In in I. destruct I as (I & _).
  apply In_nth_error in I. destruct I as (j & J).
  assert (JL : (j < length (firstn i ops))%nat) by (apply nth_error_Some; congruence). rewrite firstn_length in JL.
  exists j, p. split; [lia|]. split; [|exact K].
  rewrite <- J. rewrite <- (firstn_skipn i ops) at 1. apply nth_error_app1. rewrite firstn_length. lia.
Qed.
Lemma ready_earlier i o k : nth_error ops i = Some o -> In k (ready_keys ops i o) ->
  e k <> None \/ exists j p, (j < i)%nat /\ nth_error ops j = Some p /\ In k (o_res p).
Proof using SSA.
  destruct SSA as (_ & _ & DOM & _).
  unfold ready_keys, extra_deps. rewrite !in_app_iff. intros O [I|[I|I]].
  - apply (DOM i o k O). rewrite in_app_iff. auto.
  - right. apply side_in, I.
  - apply filter_In in I. apply (DOM i o k O). rewrite in_app_iff. tauto.
Qed.
Lemma progress s : inv n ops e f s -> finished n s \/ exists l s', step n ops s l s' /\ l <> LSpur.
Proof using SSA.
  intros IV. destruct (some_thread active (s_th s)) as [(t & L & A)|NA]; [right; eapply active_steps; eauto|].
  pose proof IV as IV'. destruct IV'.
  assert (MU : s_mu s = None).
  { destruct (s_mu s) as [t|] eqn:E; [|reflexivity]. destruct (i_mu2 t eq_refl) as (L & H). specialize (NA t L).
    destruct (s_th s t); discriminate. }
  destruct (some_thread wants (s_th s)) as [(t & L & A)|NW].
  { right. pose proof (i_th _ L) as T. destruct (s_th s t) eqn:E; try discriminate.
    - cbn in T. destruct (nth_error ops i) as [o|] eqn:O; [|apply nth_error_None in O; lia].
      eexists _, _. split; [eapply s_lock; eauto|discriminate].
    - eexists _, _. split; [eapply s_signal; eauto|discriminate]. }
  assert (NP : ~ pending n (s_th s)).
  { intros (t & L & P). specialize (NA t L). specialize (NW t L). destruct (s_th s t); discriminate. }
  assert (SL : forall t i, (t < n)%nat -> op_of (s_th s t) = Some i -> s_th s t = TSleep i).
  { intros t i L O. specialize (NA t L). specialize (NW t L). destruct (s_th s t); try discriminate. cbn in O. congruence. }
  assert (ALL : forall i, (i < s_next s)%nat -> forall o, nth_error ops i = Some o -> present (s_env s) (o_res o)).
  { induction i as [i IH] using lt_wf_ind. intros I o O. destruct (i_comp i o I O) as [(t & L & T)|P]; [exfalso|exact P].
    pose proof (i_th _ L) as X. rewrite (SL _ _ L T) in X. cbn in X. destruct X as (_ & [(o' & k & O' & K & N)|P]); [|auto].
    rewrite O in O'. inversion O'; subst o'. destruct (ready_earlier _ _ _ O K) as [E|(j & p & J & P & R)].
    - apply (i_init k E N).
    - apply (IH j J ltac:(lia) p P k R N). }
  left. intros t L. specialize (NA t L). specialize (NW t L). pose proof (i_th _ L) as X.
  destruct (s_th s t) eqn:E; try discriminate; [exfalso|reflexivity].
  cbn in X. destruct X as (I & [(o & k & O & K & N)|P]); [|auto].
  destruct (ready_earlier _ _ _ O K) as [E1|(j & p & J & P & R)].
  - apply (i_init k E1 N).
  - apply (ALL j ltac:(lia) p P k R N).
Qed.

(* when all threads are done, everything is defined *)
Lemma finished_all s : inv n ops e f s -> (0 < n)%nat -> finished n s ->
  s_next s = length ops /\ forall k, f k <> None -> s_env s k <> None.
Proof using SSA KEEP.
  intros IV N F. destruct IV. pose proof (i_th 0%nat N) as T. rewrite (F 0%nat N) in T. cbn in T.
  apply nth_error_None in T. assert (E : s_next s = length ops) by lia. split; [exact E|].
  intros k K. destruct (in_dec Nat.eq_dec k (flat_map o_res ops)) as [I|NI].
  - apply in_flat_map in I. destruct I as (o & I & R). apply In_nth_error in I. destruct I as (i & O).
    assert (I : (i < length ops)%nat) by (apply nth_error_Some; congruence).
    destruct (i_comp i o ltac:(lia) O) as [(t & L & H)|P]; [|exact (P k R)].
    rewrite (F t L) in H. discriminate.
  - apply i_init. rewrite <- (keep_other _ _ _ k KEEP NI). exact K.
Qed.
Lemma finished_env s : inv n ops e f s -> (0 < n)%nat -> finished n s -> forall k, s_env s k = f k.
Proof using SSA KEEP.
  intros IV N F k. destruct (finished_all s IV N F) as (_ & A). pose proof (i_le _ _ _ _ _ IV k) as LE.
  destruct (s_env s k) as [v|] eqn:E; [rewrite (LE v eq_refl); reflexivity|].
  destruct (f k) as [v|] eqn:FK; [|reflexivity]. exfalso. apply (A k); congruence.
Qed.

(* ---- traces ---- *)
Definition pre (x : tst V) (i : nat) : Prop :=
  match x with TLock j | TCheck j _ | TFail j | TSleep j | TRead j _ _ => j = i | _ => False end.
Record tr (L : list label) (s : state V) : Prop := mkTr {
  t_new : forall i, (s_next s <= i)%nat -> count_run i L = 0%nat;
  t_pre : forall t i, (t < n)%nat -> pre (s_th s t) i -> count_run i L = 0%nat;
  t_post : forall i, (i < s_next s)%nat -> (forall t, (t < n)%nat -> ~ pre (s_th s t) i) -> count_run i L = 1%nat;
  t_vis : forall i o k, nth_error ops i = Some o -> In k (o_res o) -> s_env s k <> None -> count_run i L = 1%nat }.
Lemma count_snoc i L l : count_run i (L ++ [l]) = (count_run i L + match l with LRun j => if Nat.eqb j i then 1 else 0 | _ => 0 end)%nat.
Proof. unfold count_run. rewrite filter_app, app_length. destruct l; cbn; auto. destruct (i0 =? i)%nat; reflexivity. Qed.
Lemma count_in i L : count_run i L = 1%nat -> In (LRun i) L.
Proof.
  intros C. unfold count_run in C. destruct (filter _ L) as [|x r] eqn:F; [discriminate|].
  assert (I : In x (x :: r)) by (cbn; auto). rewrite <- F in I. apply filter_In in I. destruct I as (I & E).
  destruct x; try discriminate. apply Nat.eqb_eq in E. subst. exact I.
Qed.
Lemma pre_op (x : tst V) i : pre x i -> op_of x = Some i.
Proof. destruct x; cbn; intros; subst; auto; contradiction. Qed.

(* steps other than LRun, pop, write: the set of pre-run operations does not change *)
Lemma tr_same L s l nx th mu c : tr L s -> (forall i, count_run i (L ++ [l]) = count_run i L) -> nx = s_next s ->
  (forall t i, (t < n)%nat -> (pre (th t) i <-> pre (s_th s t) i)) -> tr (L ++ [l]) (mkSt nx (s_env s) mu th c).
Proof.
  intros T C -> P. destruct T. constructor; cbn [s_next s_th s_env]; intros; rewrite C; eauto.
  - eapply t_pre0; [eassumption|]. apply P; assumption.
  - apply t_post0; [assumption|]. intros u U Q. apply (H0 u U). apply P; assumption.
Qed.
Lemma pre_updt (th : nat -> tst V) t x : (forall i, pre x i <-> pre (th t) i) -> forall u i, (u < n)%nat -> (pre (updt th t x u) i <-> pre (th u) i).
Proof.
  intros H u i _. destruct (Nat.eq_dec u t) as [->|NE]; [rewrite updt_eq; apply H|rewrite updt_ne by exact NE; tauto].
Qed.
Lemma tr_run L s t i x mu : inv n ops e f s -> tr L s -> (t < n)%nat -> pre (s_th s t) i -> (forall j, ~ pre x j) ->
  tr (L ++ [LRun i]) (mkSt (s_next s) (s_env s) mu (updt (s_th s) t x) false).
Proof.
  intros IV T L0 P NP. pose proof (tinv_op _ _ _ _ _ _ _ (i_th _ _ _ _ _ IV _ L0) (pre_op _ _ P)) as IN.
  assert (UQ : forall u, (u < n)%nat -> pre (updt (s_th s) t x u) i -> False).
  { intros u U. destruct (Nat.eq_dec u t) as [->|NE]; [rewrite updt_eq; apply NP|]. rewrite updt_ne by exact NE.
    intros Q. apply NE. exact (i_uniq _ _ _ _ _ IV _ _ _ U L0 (pre_op _ _ Q) (pre_op _ _ P)). }
  destruct T. constructor; cbn [s_next s_th s_env].
  - intros j J. rewrite count_snoc, (t_new0 j J). destruct (Nat.eqb_spec i j); [lia|reflexivity].
  - intros u j U Q. rewrite count_snoc. destruct (Nat.eqb_spec i j) as [->|NE]; [destruct (UQ u U Q)|].
    destruct (Nat.eq_dec u t) as [->|NE']; [rewrite updt_eq in Q; destruct (NP _ Q)|]. rewrite updt_ne in Q by exact NE'.
    rewrite (t_pre0 u j U Q). reflexivity.
  - intros j J Q. rewrite count_snoc. destruct (Nat.eqb_spec i j) as [->|NE]; [rewrite (t_pre0 t j L0 P); reflexivity|].
    rewrite t_post0; [reflexivity|exact J|]. intros u U Q'. destruct (Nat.eq_dec u t) as [->|NE'].
    + apply NE. pose proof (pre_op _ _ P). pose proof (pre_op _ _ Q'). congruence.
    + apply (Q u U). rewrite updt_ne by exact NE'. exact Q'.
  - intros j o k O K E. rewrite count_snoc, (t_vis0 j o k O K E). destruct (Nat.eqb_spec i j) as [->|NE]; [|reflexivity].
    exfalso. pose proof (t_pre0 t j L0 P). rewrite (t_vis0 j o k O K E) in H. discriminate.
Qed.
Lemma pre_wake (x : tst V) i : pre (wake x) i <-> pre x i.
Proof. destruct x; cbn; tauto. Qed.
Lemma nth_flat_split i j (a b : op V) k : nth_error ops i = Some a -> nth_error ops j = Some b -> In k (o_res a) -> In k (o_res b) ->
  NoDup (flat_map o_res ops) -> i = j.
Proof.
  clear. intros A B IA IB ND. destruct (Nat.lt_trichotomy i j) as [L|[E|L]]; [exfalso|exact E|exfalso].
  - destruct (nth_error_split _ _ A) as (x & y & E & LX). rewrite E in B, ND.
    rewrite nth_error_app2 in B by lia. replace (j - length x)%nat with (S (j - length x - 1)) in B by lia. cbn in B.
    rewrite flat_map_app in ND. apply nodup_app_r in ND. cbn in ND.
    apply (nodup_app_disj _ _ _ ND IA). apply in_flat_map. exists b. split; [eapply nth_error_In; eauto|exact IB].
  - destruct (nth_error_split _ _ B) as (x & y & E & LX). rewrite E in A, ND.
    rewrite nth_error_app2 in A by lia. replace (i - length x)%nat with (S (i - length x - 1)) in A by lia. cbn in A.
    rewrite flat_map_app in ND. apply nodup_app_r in ND. cbn in ND.
    apply (nodup_app_disj _ _ _ ND IB). apply in_flat_map. exists a. split; [eapply nth_error_In; eauto|exact IA].
Qed.
Lemma tr_step L s l s' : inv n ops e f s -> tr L s -> step n ops s l s' -> s_crash s' = false -> tr (L ++ [l]) s'.
Proof using SSA.
  intros IV T H C. inversion H; subst; clear H; cbn [s_crash] in C; try discriminate;
    try (apply tr_same; [exact T|intros; rewrite count_snoc; apply Nat.add_0_r|reflexivity|apply pre_updt; intros; rewrite H2; cbn; tauto]).
  - (* pop *)
    pose proof (t_new _ _ T) as N. pose proof (t_pre _ _ T) as P. pose proof (t_post _ _ T) as Q. pose proof (t_vis _ _ T) as X.
    assert (E : forall i, count_run i (L ++ [match o_in o with [] => LStart (s_next s) | _ :: _ => LTau end]) = count_run i L).
    { intros. rewrite count_snoc. destruct (o_in o); lia. }
    assert (EN : forall i, pre (enter (s_next s) o) i <-> i = s_next s).
    { intros. unfold enter. destruct (o_in o); cbn; split; congruence. }
    constructor; cbn [s_next s_th s_env]; intros; rewrite E.
    + apply N. lia.
    + destruct (Nat.eq_dec t0 t) as [->|NE].
      * rewrite updt_eq in H4. apply EN in H4. subst. apply N. lia.
      * rewrite updt_ne in H4 by exact NE. eauto.
    + assert (NE : i <> s_next s).
      { intros ->. apply (H4 t H0). rewrite updt_eq. apply EN. reflexivity. }
      apply Q; [lia|]. intros u U PU. apply (H4 u U). destruct (Nat.eq_dec u t) as [->|NE'].
      * rewrite H2 in PU. destruct PU.
      * rewrite updt_ne by exact NE'. exact PU.
    + eauto.
  - (* free *) eapply tr_run; eauto. rewrite H2. reflexivity.
  - (* run *) eapply tr_run; eauto. rewrite H2. reflexivity.
  - (* write *)
    assert (PW : forall j, ~ pre (TWrite i kvs) j) by (intros j []).
    assert (PU : forall u j, (u < n)%nat -> (pre (updt (s_th s) t (TWrite i kvs) u) j <-> pre (s_th s u) j)).
    { apply pre_updt. intros. rewrite H2. cbn. tauto. }
    pose proof (i_th _ _ _ _ _ IV _ H0) as TI. rewrite H2 in TI. destruct TI as (IN & o & dn & O & R & _).
    constructor; cbn [s_next s_th s_env]; intros; rewrite count_snoc, Nat.add_0_r.
    + apply (t_new _ _ T). assumption.
    + eapply (t_pre _ _ T); [eassumption|]. apply PU; assumption.
    + apply (t_post _ _ T); [assumption|]. intros u U Q. apply (H3 u U). apply PU; assumption.
    + unfold set in H4. destruct (Nat.eqb_spec k0 k) as [->|NE]; [|eapply (t_vis _ _ T); eauto].
      assert (EQ : i0 = i).
      { destruct SSA as (ND & _). apply (nth_flat_split i0 i o0 o k); auto. rewrite R, in_app_iff. right. cbn. auto. }
      subst i0. apply (t_post _ _ T); [exact IN|]. intros u U Q.
      assert (u = t) by (apply (i_uniq _ _ _ _ _ IV u t i U H0 (pre_op _ _ Q)); rewrite H2; reflexivity).
      subst u. rewrite H2 in Q. destruct Q.
  - (* signal *)
    apply tr_same; [exact T|intros; rewrite count_snoc; apply Nat.add_0_r|reflexivity|].
    intros u i0 U. destruct (Nat.eq_dec u t) as [->|NE].
    + rewrite updt_eq, H2. cbn. tauto.
    + rewrite updt_ne by exact NE. apply pre_wake.
Qed.
Lemma exec_tr L s : exec n ops e L s -> tr L s.
Proof using SSA CAP KEEP.
  induction 1 as [|L s l s' X IH ST].
  - constructor; cbn; auto; try lia.
    intros i o k O K NE. exfalso. destruct SSA as (_ & NF & _). apply NE. apply NF. eapply res_in; eauto.
  - eapply tr_step; eauto.
    + eapply exec_inv; eauto.
    + eapply i_crash, exec_inv; eauto. econstructor; eauto.
Qed.
Lemma side_member i j o : (i < j)%nat -> nth_error ops i = Some o -> orders o = true -> incl (o_res o) (side_deps ops j).
Proof.
  intros L O S0 k K. unfold side_deps. apply in_flat_map. exists o. split; [|exact K]. apply filter_In. split; [|exact S0].
  apply (nth_error_In _ i). rewrite <- O. rewrite <- (firstn_skipn j ops) at 2.
  assert (IL : (i < length ops)%nat) by (apply nth_error_Some; congruence).
  symmetry. apply nth_error_app1. rewrite firstn_length. lia.
Qed.
Lemma exec_order L s i j o p : exec n ops e L s -> (i < j)%nat -> nth_error ops i = Some o -> nth_error ops j = Some p ->
  orders o = true -> o_res o <> [] -> o_in p <> [] -> before (LRun i) (LStart j) L.
Proof using SSA CAP KEEP.
  intros X IJ O P S0 R Z. induction X as [|L s l s' X IH ST]; intros L1 L2 E.
  - destruct L1; discriminate.
  - destruct (exists_last (l := LStart j :: L2)) as (L3 & y & EL); [discriminate|].
    rewrite EL, app_assoc in E. apply app_inj_tail in E. destruct E as (E & <-).
    destruct L3 as [|z L3].
    + rewrite app_nil_r in E. subst L1. cbn in EL. inversion EL; subst.
      apply count_in. destruct (o_res o) as [|k rs] eqn:RE; [congruence|].
      apply (t_vis _ _ (exec_tr _ _ X) i o k O); [rewrite RE; cbn; auto|].
      pose proof (exec_inv _ _ _ _ SSA CAP KEEP _ _ X) as IV.
      assert (KR : forall q, nth_error ops j = Some q -> In k (ready_keys ops j q)).
      { intros q _. unfold ready_keys, extra_deps. rewrite !in_app_iff. right. left.
        apply (side_member i j o IJ O S0). rewrite RE. cbn. auto. }
      inversion ST; subst.
      * match goal with H : match o_in ?q with [] => _ | _ :: _ => _ end = LStart j, O' : nth_error ops _ = Some ?q |- _ =>
          destruct (o_in q) eqn:Z'; [|discriminate]; inversion H; subst; rewrite O' in P; inversion P; subst end. congruence.
      * match goal with TL : (?t < n)%nat, TH : s_th s ?t = TCheck j [] |- _ =>
          pose proof (i_th _ _ _ _ _ IV _ TL) as T; rewrite TH in T end. cbn in T. destruct T as (_ & q & dn & Q & D & PR).
        rewrite app_nil_r in D. subst dn. apply PR, KR, Q.
    + cbn in EL. injection EL as EZ _. rewrite <- EZ in E. exact (IH L1 L3 E).
Qed.
End Sys.

Section Top.
Context {V : Type} (n : nat) (ops : list (op V)) (term : list key) (e : env V) (rs : list V).
Context (SSA : ssa ops e) (CAP : captures_with_operand ops) (SEQ : run_block ops term e = Some rs).
Lemma seq_keep : exists f, keep_ops ops e = Some f /\ lookups f term = Some rs.
Proof using SEQ.
  unfold run_block in SEQ. destruct (run_ops ops e) as [e'|] eqn:R; [|discriminate].
  destruct (keep_ops_ok ops e e e' (le_refl e) R) as (f & K & LE). exists f. split; [exact K|]. eapply lookups_le; eauto.
Qed.
Lemma seq_value_keep f k v : keep_ops ops e = Some f -> seq_value ops e k v -> f k = Some v.
Proof using SSA.
  intros K (i & o & e' & O & I & R & E). destruct (keep_ops_ok _ _ _ _ (le_refl e) R) as (f1 & K1 & LE).
  rewrite <- (firstn_skipn (S i) ops), keep_app, K1 in K. rewrite (keep_other _ _ _ k K); [apply LE, E|].
  destruct SSA as (ND & _). rewrite <- (firstn_skipn (S i) ops), flat_map_app in ND.
  intros J. refine (nodup_app_disj _ _ _ ND _ J). apply in_flat_map. exists o. split; [|exact I].
  apply (nth_error_In _ i). rewrite <- O at 1. rewrite <- (firstn_skipn (S i) ops) at 2.
  assert (IL : (i < length ops)%nat) by (apply nth_error_Some; congruence).
  symmetry. apply nth_error_app1. rewrite firstn_length. lia.
Qed.
Lemma parallel_ok L s : 0 < n -> exec n ops e L s ->
  s_crash s = false /\
  (finished n s -> par_results s term = Some rs /\ (forall k v, seq_value ops e k v -> s_env s k = Some v) /\
                   forall i, i < length ops -> count_run i L = 1).
Proof using SSA CAP SEQ.
  intros N X. destruct seq_keep as (f & K & LK). pose proof (exec_inv _ _ _ _ SSA CAP K _ _ X) as IV.
  split; [exact (i_crash _ _ _ _ _ IV)|]. intros F. pose proof (finished_env n ops e f SSA K s IV N F) as E.
  destruct (finished_all n ops e f SSA K s IV N F) as (NX & _). repeat split.
  - unfold par_results. eapply lookups_le; [|exact LK]. intros k v Q. rewrite E. exact Q.
  - intros k v Q. rewrite E. eapply seq_value_keep; eauto.
  - intros i I. apply (t_post _ _ _ _ (exec_tr n ops e f SSA CAP K L s X)); [lia|].
    intros t T Q. rewrite (F t T) in Q. exact Q.
Qed.
Lemma no_deadlock L s : exec n ops e L s -> finished n s \/ exists l s', step n ops s l s' /\ l <> LSpur.
Proof using SSA CAP SEQ.
  intros X. destruct seq_keep as (f & K & _). exact (progress n ops e f SSA s (exec_inv _ _ _ _ SSA CAP K _ _ X)).
Qed.
Lemma terminates : exists B C, forall L s, exec n ops e L s -> length L <= B + C * spurious L.
Proof using SSA CAP SEQ.
  destruct seq_keep as (f & K & _). eexists _, _. intros L s X.
  pose proof (exec_cost n ops e f SSA CAP K L s X) as H.
  eapply Nat.le_trans; [|exact H]. lia.
Qed.
Lemma once L s i : exec n ops e L s -> count_run i L <= 1.
Proof using SSA CAP SEQ.
  intros X. destruct seq_keep as (f & K & _). pose proof (exec_tr n ops e f SSA CAP K L s X) as T.
  destruct (Nat.lt_ge_cases i (s_next s)) as [I|I]; [|rewrite (t_new _ _ _ _ T i I); lia].
  assert (D : forall x : tst V, {pre x i} + {~ pre x i}).
  { intros x. destruct x; cbn; try (right; tauto); apply Nat.eq_dec. }
  destruct (some_thread n (fun x => if D x then true else false) (s_th s)) as [(t & TL & P)|A].
  - destruct (D (s_th s t)) as [P'|]; [|discriminate]. rewrite (t_pre _ _ _ _ T t i TL P'). lia.
  - rewrite (t_post _ _ _ _ T i I); [lia|]. intros t TL Q. specialize (A t TL). cbv beta in A.
    destruct (D (s_th s t)); [discriminate|contradiction].
Qed.
Lemma side_effect_order L s i j o p : exec n ops e L s -> i < j -> nth_error ops i = Some o -> nth_error ops j = Some p ->
  orders o = true -> o_res o <> [] -> o_in p <> [] -> before (LRun i) (LStart j) L.
Proof using SSA CAP SEQ.
  destruct seq_keep as (f & K & _). apply (exec_order n ops e f SSA CAP K).
Qed.
End Top.

Section Finish.
Context {V : Type} (n : nat) (ops : list (op V)) (term : list key) (e : env V) (rs : list V).
Context (SSA : ssa ops e) (CAP : captures_with_operand ops) (SEQ : run_block ops term e = Some rs).
Lemma can_finish L s : exec n ops e L s -> exists L' s', exec n ops e (L ++ L') s' /\ finished n s' /\ spurious L' = 0.
Proof using SSA CAP SEQ.
  destruct (seq_keep ops term e rs SEQ) as (f & K & _). remember (M n ops s) as m eqn:E. revert L s E.
  induction m as [m IH] using lt_wf_ind. intros L s E X.
  destruct (no_deadlock n ops term e rs SSA CAP SEQ L s X) as [F|(l & s' & ST & NS)].
  - exists [], s. rewrite app_nil_r. auto.
  - pose proof (exec_snoc _ _ _ _ _ _ _ X ST) as X'.
    pose proof (step_cost n ops _ _ _ ST (i_crash _ _ _ _ _ (exec_inv _ _ _ _ SSA CAP K _ _ X'))) as C.
    destruct (IH (M n ops s')) with (L := L ++ [l]) (s := s') as (L2 & s2 & X2 & F & SP); auto.
    + subst m. destruct l; try lia. congruence.
    + exists (l :: L2), s2. rewrite <- app_assoc in X2. split; [exact X2|]. split; [exact F|].
      unfold spurious in *. cbn. destruct l; auto. congruence.
Qed.
End Finish.
