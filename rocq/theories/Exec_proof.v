From Verif Require Import Base Exec_model Exec_spec.

Section Env.
Context {V : Type}.
Implicit Types (e f : env V) (o : op V) (ops : list (op V)).

Definition le_env e f := forall k v, e k = Some v -> f k = Some v.
Lemma le_refl e : le_env e e. Proof. intros k v H; exact H. Qed.
Lemma le_trans e f g : le_env e f -> le_env f g -> le_env e g. Proof. intros A B k v H; auto. Qed.
Lemma lookups_le e f ks vs : le_env e f -> lookups e ks = Some vs -> lookups f ks = Some vs.
Proof.
  intros LE. revert vs; induction ks as [|k r IH]; intros vs; cbn; [auto|].
  destruct (e k) as [v|] eqn:E; [|discriminate]. rewrite (LE _ _ E).
  destruct (lookups e r) as [ws|] eqn:L; [|discriminate]. rewrite (IH _ eq_refl). auto.
Qed.
Lemma lookups_total e ks : (forall k, In k ks -> e k <> None) -> exists vs, lookups e ks = Some vs.
Proof.
  induction ks as [|k r IH]; intros A; cbn; [eauto|].
  destruct (e k) as [v|] eqn:E; [|exfalso; apply (A k); cbn; auto].
  destruct IH as [vs ->]; [intros; apply A; cbn; auto|eauto].
Qed.
Lemma lookups_some e ks vs k : lookups e ks = Some vs -> In k ks -> e k <> None.
Proof.
  revert vs; induction ks as [|k' r IH]; intros vs; cbn; [contradiction|].
  destruct (e k') as [v|] eqn:E; [|discriminate]. destruct (lookups e r) as [ws|] eqn:L; [|discriminate].
  intros _ [->|I]; [congruence|eauto].
Qed.
Lemma lookups_snoc e ks vs k v : lookups e ks = Some vs -> e k = Some v -> lookups e (ks ++ [k]) = Some (vs ++ [v]).
Proof.
  revert vs; induction ks as [|k' r IH]; intros vs; cbn.
  - intros H K; inversion H; subst. rewrite K. reflexivity.
  - destruct (e k') as [w|] eqn:E; [|discriminate]. destruct (lookups e r) as [ws|] eqn:L; [|discriminate].
    intros H K; inversion H; subst. rewrite (IH _ eq_refl K). reflexivity.
Qed.
Lemma sets_other e ks vs k : ~ In k ks -> sets e ks vs k = e k.
Proof.
  revert e vs; induction ks as [|k' r IH]; intros e [|v vs] N; cbn; auto.
  rewrite IH by (cbn in N; tauto). unfold set.
  destruct (Nat.eqb_spec k k'); [subst; cbn in N; tauto|reflexivity].
Qed.
Lemma sets_combine e ks vs k v : NoDup ks -> In (k, v) (combine ks vs) -> sets e ks vs k = Some v.
Proof.
  revert e vs; induction ks as [|k' r IH]; intros e [|w vs] ND I; cbn in *; try contradiction.
  inversion ND; subst. destruct I as [I|I].
  - inversion I; subst. rewrite sets_other by assumption. unfold set. rewrite Nat.eqb_refl. reflexivity.
  - apply IH; assumption.
Qed.
Lemma sets_mono e f ks vs : le_env e f -> le_env (sets e ks vs) (sets f ks vs).
Proof.
  revert e f vs; induction ks as [|k r IH]; intros e f [|v vs] LE; cbn; try exact LE.
  apply IH. intros x y. unfold set. destruct (x =? k)%nat; auto.
Qed.

(* the same execution, never freeing *)
Definition keep_op o e : option (env V) := if o_free o then Some e else run_op o e.
Fixpoint keep_ops ops e : option (env V) :=
  match ops with [] => Some e | o :: r => match keep_op o e with None => None | Some e' => keep_ops r e' end end.

Lemma del_le ks e : le_env (fold_left del ks e) e.
Proof.
  revert e; induction ks as [|k r IH]; intros e; cbn; [apply le_refl|].
  eapply le_trans; [apply IH|]. intros x v. unfold del. destruct (x =? k)%nat; [discriminate|auto].
Qed.
Lemma keep_op_ok o e f e' : le_env e f -> run_op o e = Some e' -> exists f', keep_op o f = Some f' /\ le_env e' f'.
Proof.
  unfold keep_op, run_op. intros LE. destruct (o_free o).
  - intros H; inversion H; subst. exists f. split; [reflexivity|]. eapply le_trans; [apply del_le|exact LE].
  - destruct (lookups e (o_reads o)) as [vs|] eqn:L; [|discriminate]. rewrite (lookups_le _ _ _ _ LE L).
    destruct (o_run o vs) as [rs|]; [|discriminate]. destruct (length rs =? length (o_res o))%nat; [|discriminate].
    intros H; inversion H; subst. eexists; split; [reflexivity|]. apply sets_mono, LE.
Qed.
Lemma keep_ops_ok ops e f e' : le_env e f -> run_ops ops e = Some e' -> exists f', keep_ops ops f = Some f' /\ le_env e' f'.
Proof.
  revert e f; induction ops as [|o r IH]; intros e f LE; cbn.
  - intros H; inversion H; subst. eauto.
  - destruct (run_op o e) as [e1|] eqn:E; [|discriminate]. intros H.
    destruct (keep_op_ok _ _ _ _ LE E) as (f1 & -> & LE1). eauto.
Qed.
Lemma keep_app a b e : keep_ops (a ++ b) e = match keep_ops a e with None => None | Some e' => keep_ops b e' end.
Proof. revert e; induction a as [|o r IH]; intros e; cbn; [reflexivity|]. destruct (keep_op o e); auto. Qed.
Lemma run_app a b e : run_ops (a ++ b) e = match run_ops a e with None => None | Some e' => run_ops b e' end.
Proof. revert e; induction a as [|o r IH]; intros e; cbn; [reflexivity|]. destruct (run_op o e); auto. Qed.
Lemma keep_other ops e f k : keep_ops ops e = Some f -> ~ In k (flat_map o_res ops) -> f k = e k.
Proof.
  revert e; induction ops as [|o r IH]; intros e; cbn; [congruence|].
  intros H N. destruct (keep_op o e) as [e1|] eqn:E; [|discriminate]. rewrite in_app_iff in N.
  rewrite (IH _ H) by tauto. unfold keep_op, run_op in E. destruct (o_free o); [congruence|].
  destruct (lookups e (o_reads o)) as [vs|]; [|discriminate]. destruct (o_run o vs) as [rs|]; [|discriminate].
  destruct (length rs =? length (o_res o))%nat; [|discriminate]. inversion E; subst. apply sets_other. tauto.
Qed.
Lemma nodup_app_l {A} (a b : list A) : NoDup (a ++ b) -> NoDup a.
Proof. induction a as [|x r IH]; cbn; intros H; [constructor|]. inversion H; subst. constructor; [rewrite in_app_iff in *; tauto|auto]. Qed.
Lemma nodup_app_r {A} (a b : list A) : NoDup (a ++ b) -> NoDup b.
Proof. induction a as [|x r IH]; cbn; intros H; [exact H|]. inversion H; auto. Qed.
Lemma nodup_app_disj {A} (a b : list A) x : NoDup (a ++ b) -> In x a -> ~ In x b.
Proof.
  induction a as [|y r IH]; cbn; intros H I J; [contradiction|]. inversion H as [|? ? N D]; subst. destruct I as [->|I].
  - apply N. rewrite in_app_iff. auto.
  - exact (IH D I J).
Qed.
(* in the final environment, the results of every operation are those of its kernel on final values *)
Lemma keep_final ops e f i o : keep_ops ops e = Some f -> NoDup (flat_map o_res ops) ->
  (forall k, In k (flat_map o_res ops) -> e k = None) -> nth_error ops i = Some o -> o_free o = false ->
  exists vs rs, lookups f (o_reads o) = Some vs /\ o_run o vs = Some rs /\ length rs = length (o_res o) /\
    forall k v, In (k, v) (combine (o_res o) rs) -> f k = Some v.
Proof.
  intros K ND FR E NF. destruct (nth_error_split _ _ E) as (a & b & -> & La).
  rewrite keep_app in K. destruct (keep_ops a e) as [e1|] eqn:K1; [|discriminate]. cbn [keep_ops] in K.
  destruct (keep_op o e1) as [e2|] eqn:K2; [|discriminate].
  rewrite flat_map_app in ND, FR. cbn [flat_map] in ND, FR.
  assert (F1 : forall k, In k (o_res o ++ flat_map o_res b) -> e1 k = None).
  { intros k I. rewrite (keep_other _ _ _ k K1); [apply FR; rewrite in_app_iff; auto|].
    intros J. exact (nodup_app_disj _ _ _ ND J I). }
  apply nodup_app_r in ND.
  assert (LE2 : le_env e2 f).
  { intros k v H. destruct (in_dec Nat.eq_dec k (flat_map o_res b)) as [I|N].
    - exfalso. assert (C : e1 k = None) by (apply F1; rewrite in_app_iff; auto).
      unfold keep_op, run_op in K2. rewrite NF in K2.
      destruct (lookups e1 (o_reads o)) as [vs|]; [|discriminate]. destruct (o_run o vs) as [rs|]; [|discriminate].
      destruct (length rs =? length (o_res o))%nat; [|discriminate]. inversion K2; subst.
      rewrite sets_other in H; [congruence|]. intros J. exact (nodup_app_disj _ _ _ ND J I).
    - rewrite (keep_other _ _ _ k K N). exact H. }
  unfold keep_op, run_op in K2. rewrite NF in K2.
  destruct (lookups e1 (o_reads o)) as [vs|] eqn:LK; [|discriminate]. destruct (o_run o vs) as [rs|] eqn:R; [|discriminate].
  destruct (Nat.eqb_spec (length rs) (length (o_res o))) as [LR|]; [|discriminate]. inversion K2; subst.
  exists vs, rs. split; [|split; [exact R|split; [exact LR|]]].
  - apply (lookups_le e1); [|exact LK]. intros k v H. apply LE2. rewrite sets_other; [exact H|].
    intros I. rewrite F1 in H by (rewrite in_app_iff; auto). discriminate.
  - intros k v I. apply LE2. apply sets_combine; [exact (nodup_app_l _ _ ND)|exact I].
Qed.
Lemma keep_init ops e f : keep_ops ops e = Some f -> (forall k, In k (flat_map o_res ops) -> e k = None) -> le_env e f.
Proof.
  intros K FR k v H. rewrite (keep_other _ _ _ k K); [exact H|]. intros I. rewrite FR in H by exact I. discriminate.
Qed.
End Env.
