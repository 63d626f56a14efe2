From Verif Require Import Base Exec_model Exec_spec Exec_proof.

Section Sys.
Context {V : Type} (n : nat) (ops : list (op V)) (e f : env V).
Context (SSA : ssa ops e) (CAP : captures_with_operand ops) (KEEP : keep_ops ops e = Some f).

Definition pend (x : tst V) : bool := match x with TWrite _ _ | TSignal _ => true | _ => false end.
Definition holds (x : tst V) : bool := match x with TCheck _ _ | TFail _ => true | _ => false end.
Definition op_of (x : tst V) : option nat :=
  match x with
  | TPop | TDone => None
  | TLock i | TCheck i _ | TFail i | TSleep i | TRead i _ _ | TWrite i _ | TSignal i => Some i
  end.
Definition pending (th : nat -> tst V) : Prop := exists t, (t < n)%nat /\ pend (th t) = true.
Definition present (E : env V) (ks : list key) : Prop := forall k, In k ks -> E k <> None.
Definition tinv (nx : nat) (E : env V) (P : Prop) (x : tst V) : Prop :=
  match x with
  | TPop => True
  | TDone => nth_error ops nx = None
  | TLock i => (i < nx)%nat
  | TCheck i ks => (i < nx)%nat /\ exists o dn, nth_error ops i = Some o /\ ready_keys ops i o = dn ++ ks /\ present E dn
  | TFail i | TSleep i =>
      (i < nx)%nat /\ ((exists o k, nth_error ops i = Some o /\ In k (ready_keys ops i o) /\ E k = None) \/ P)
  | TRead i ks vs => (i < nx)%nat /\ exists o dn, nth_error ops i = Some o /\ present E (o_reads o) /\
      o_reads o = dn ++ ks /\ lookups f dn = Some vs
  | TWrite i kvs => (i < nx)%nat /\ exists o dn, nth_error ops i = Some o /\ o_res o = dn ++ map fst kvs /\ present E dn /\
      forall k v, In (k, v) kvs -> f k = Some v
  | TSignal i => (i < nx)%nat /\ exists o, nth_error ops i = Some o /\ present E (o_res o)
  end.
Record inv (s : state V) : Prop := mkInv {
  i_crash : s_crash s = false;
  i_le : le_env (s_env s) f;
  i_init : forall k, e k <> None -> s_env s k <> None;
  i_th : forall t, (t < n)%nat -> tinv (s_next s) (s_env s) (pending (s_th s)) (s_th s t);
  i_mu1 : forall t, (t < n)%nat -> holds (s_th s t) = true -> s_mu s = Some t;
  i_mu2 : forall t, s_mu s = Some t -> (t < n)%nat /\ holds (s_th s t) = true;
  i_uniq : forall t t' i, (t < n)%nat -> (t' < n)%nat -> op_of (s_th s t) = Some i -> op_of (s_th s t') = Some i -> t = t';
  i_comp : forall i o, (i < s_next s)%nat -> nth_error ops i = Some o ->
      (exists t, (t < n)%nat /\ op_of (s_th s t) = Some i) \/ present (s_env s) (o_res o);
  i_next : (s_next s <= length ops)%nat }.

Lemma updt_eq (th : nat -> tst V) t x : updt th t x t = x.
Proof. unfold updt. rewrite Nat.eqb_refl. reflexivity. Qed.
Lemma updt_ne (th : nat -> tst V) t x t' : t' <> t -> updt th t x t' = th t'.
Proof. intros N. unfold updt. destruct (Nat.eqb_spec t' t); [contradiction|reflexivity]. Qed.
Lemma tinv_op nx E P x i : tinv nx E P x -> op_of x = Some i -> (i < nx)%nat.
Proof. destruct x; cbn; intros H O; inversion O; subst; tauto. Qed.
Lemma tinv_mono nx E (P : Prop) nx' E' (P' : Prop) x : tinv nx E P x -> (nx <= nx')%nat -> (nx' <= length ops)%nat ->
  (forall k, E k <> None -> E' k <> None) -> (P -> P') -> ((forall k, E' k <> None -> E k <> None) \/ P') -> tinv nx' E' P' x.
Proof.
  intros T N1 N2 M PP C. destruct x; cbn in *; try exact I; try lia.
  - destruct T as (I1 & o & dn & A & B & D). split; [lia|]. exists o, dn. repeat split; auto. intros k K. auto.
  - destruct T as (I1 & T). split; [lia|]. destruct T as [(o & k & A & B & D)|T]; [|right; auto].
    destruct C as [C|C]; [|right; exact C]. left. exists o, k. repeat split; auto.
    destruct (E' k) eqn:EK; [|reflexivity]. exfalso. apply (C k); congruence.
  - destruct T as (I1 & T). split; [lia|]. destruct T as [(o & k & A & B & D)|T]; [|right; auto].
    destruct C as [C|C]; [|right; exact C]. left. exists o, k. repeat split; auto.
    destruct (E' k) eqn:EK; [|reflexivity]. exfalso. apply (C k); congruence.
  - destruct T as (I1 & o & dn & A & B & D). split; [lia|]. exists o, dn. repeat split; try tauto. intros k' K. apply M, B, K.
  - destruct T as (I1 & o & dn & A & B & D & F). split; [lia|]. exists o, dn. repeat split; auto. intros k' K. auto.
  - destruct T as (I1 & o & A & B). split; [lia|]. exists o. split; [exact A|]. intros k' K. apply M, B, K.
  - apply nth_error_None. apply nth_error_None in T. lia.
Qed.

Lemma inv_upd s t x nx' E' mu' :
  inv s -> (t < n)%nat -> (s_next s <= nx')%nat -> (nx' <= length ops)%nat -> le_env E' f ->
  (forall k, s_env s k <> None -> E' k <> None) ->
  (pend (s_th s t) = true -> pend x = true) ->
  ((forall k, E' k <> None -> s_env s k <> None) \/ pend x = true) ->
  (mu' = s_mu s /\ holds x = holds (s_th s t) \/ s_mu s = None /\ mu' = Some t /\ holds x = true \/
   mu' = None /\ holds (s_th s t) = true /\ holds x = false) ->
  (nx' = s_next s /\ op_of x = op_of (s_th s t) \/
   nx' = S (s_next s) /\ op_of (s_th s t) = None /\ op_of x = Some (s_next s)) ->
  tinv nx' E' (pending (updt (s_th s) t x)) x ->
  inv (mkSt nx' E' mu' (updt (s_th s) t x) false).
Proof.
  intros IV T N1 N2 LE M PD C MU OP TX. destruct IV.
  assert (PP : pending (s_th s) -> pending (updt (s_th s) t x)).
  { intros (t' & L & D). destruct (Nat.eq_dec t' t) as [->|NE].
    - exists t. rewrite updt_eq. auto.
    - exists t'. rewrite updt_ne by exact NE. auto. }
  assert (C' : (forall k, E' k <> None -> s_env s k <> None) \/ pending (updt (s_th s) t x)).
  { destruct C as [C|C]; [left; exact C|right]. exists t. rewrite updt_eq. auto. }
  constructor; cbn [s_next s_env s_mu s_th s_crash]; auto.
  - intros t' L. destruct (Nat.eq_dec t' t) as [->|NE]; [rewrite updt_eq; exact TX|].
    rewrite updt_ne by exact NE. eapply tinv_mono; eauto.
  - intros t' L. destruct (Nat.eq_dec t' t) as [->|NE].
    + rewrite updt_eq. intros H. destruct MU as [(-> & E)|[(A & -> & _)|(A & B & D)]]; [apply i_mu3; congruence|reflexivity|congruence].
    + rewrite updt_ne by exact NE. intros H. pose proof (i_mu3 _ L H) as Q.
      destruct MU as [(-> & E)|[(A & -> & _)|(A & B & D)]]; [exact Q|congruence|].
      pose proof (i_mu3 _ T B). congruence.
  - intros t' E. destruct MU as [(-> & E0)|[(A & -> & B)|(A & B & D)]].
    + destruct (i_mu4 _ E) as (L & H). split; [exact L|]. destruct (Nat.eq_dec t' t) as [->|NE].
      * rewrite updt_eq. congruence.
      * rewrite updt_ne; auto.
    + inversion E; subst. rewrite updt_eq. auto.
    + congruence.
  - intros t1 t2 i L1 L2. 
    assert (W : forall t' i, (t' < n)%nat -> t' <> t -> op_of x = Some i -> op_of (s_th s t') = Some i -> False).
    { intros t' j L NE X Y. destruct OP as [(A & B)|(A & B & D)].
      - rewrite B in X. apply NE. exact (i_uniq0 _ _ _ L T Y X).
      - rewrite D in X. inversion X; subst. pose proof (tinv_op _ _ _ _ _ (i_th0 _ L) Y). lia. }
    destruct (Nat.eq_dec t1 t) as [->|N1']; destruct (Nat.eq_dec t2 t) as [->|N2']; auto.
    + rewrite updt_eq, updt_ne by exact N2'. intros A B. destruct (W t2 i L2 N2' A B).
    + rewrite updt_eq, updt_ne by exact N1'. intros A B. destruct (W t1 i L1 N1' B A).
    + rewrite !updt_ne by assumption. eauto.
  - intros i o I O. assert (W : (i < s_next s)%nat \/ op_of x = Some i).
    { destruct OP as [(A & B)|(A & B & D)]; [lia|]. destruct (Nat.eq_dec i (s_next s)); [right; congruence|lia]. }
    destruct W as [W|W]; [|left; exists t; rewrite updt_eq; auto].
    destruct (i_comp0 _ _ W O) as [(t' & L & H)|H]; [left|right; intros k K; apply M, H, K].
    destruct (Nat.eq_dec t' t) as [->|NE].
    + exists t. rewrite updt_eq. split; [exact T|]. destruct OP as [(A & B)|(A & B & D)]; congruence.
    + exists t'. rewrite updt_ne; auto.
Qed.

Lemma ready_in i o k : In k (o_in o) -> In k (ready_keys ops i o).
Proof. unfold ready_keys. rewrite in_app_iff. auto. Qed.
Lemma memk_in k ks : memk k ks = true <-> In k ks.
Proof.
  unfold memk. rewrite existsb_exists. split.
  - intros (x & I & E). apply Nat.eqb_eq in E. subst. exact I.
  - intros I. exists k. split; [exact I|apply Nat.eqb_refl].
Qed.
Lemma res_in j p k : nth_error ops j = Some p -> In k (o_res p) -> In k (flat_map o_res ops).
Proof. intros E I. apply in_flat_map. exists p. split; [eapply nth_error_In; eauto|exact I]. Qed.
(* a key of an operation is in the initial scope, or awaited *)
Lemma reads_covered i o k : nth_error ops i = Some o -> o_in o <> [] -> In k (o_reads o) ->
  e k <> None \/ In k (ready_keys ops i o).
Proof.
  intros O NE. unfold o_reads. destruct (o_free o); [contradiction|]. rewrite in_app_iff. intros [I|I].
  - right. apply ready_in, I.
  - destruct SSA as (_ & _ & DOM & _). destruct (DOM i o k O) as [A|(j & p & J & P & K)]; [rewrite in_app_iff; auto|auto|].
    right. unfold ready_keys, extra_deps. rewrite !in_app_iff. right. right. apply filter_In. split; [exact I|].
    apply memk_in. eapply res_in; eauto.
Qed.
Lemma reads_no_operand i o k : nth_error ops i = Some o -> o_in o = [] -> In k (o_reads o) -> e k <> None.
Proof.
  intros O Z. unfold o_reads. destruct (o_free o); [contradiction|]. rewrite Z. cbn. intros I.
  destruct SSA as (_ & _ & DOM & _). destruct (DOM i o k O) as [A|(j & p & J & P & K)]; [rewrite in_app_iff; auto|auto|].
  exfalso. apply (CAP _ _ _ O Z I). eapply res_in; eauto.
Qed.

Lemma wake_op (x : tst V) : op_of (wake x) = op_of x. Proof. destruct x; reflexivity. Qed.
Lemma wake_holds (x : tst V) : holds (wake x) = holds x. Proof. destruct x; reflexivity. Qed.
Lemma updt_op_wake (th : nat -> tst V) t x t' i : op_of x = None -> op_of (updt (fun u => wake (th u)) t x t') = Some i ->
  t' <> t /\ op_of (th t') = Some i.
Proof.
  intros X. destruct (Nat.eq_dec t' t) as [->|NE]; [rewrite updt_eq; congruence|].
  rewrite updt_ne by exact NE. rewrite wake_op. auto.
Qed.

Lemma inv_signal s t i : inv s -> (t < n)%nat -> s_th s t = TSignal i -> s_mu s = None ->
  inv (mkSt (s_next s) (s_env s) None (updt (fun u => wake (s_th s u)) t TPop) false).
Proof.
  intros IV T E MU. destruct IV. constructor; cbn [s_next s_env s_mu s_th s_crash]; auto.
  - intros t' L. destruct (Nat.eq_dec t' t) as [->|NE]; [rewrite updt_eq; exact I|]. rewrite updt_ne by exact NE.
    pose proof (i_th0 _ L) as H. pose proof (i_mu3 _ L) as Q.
    destruct (s_th s t') eqn:X; cbn in *; try exact H; try tauto.
    exfalso. specialize (Q eq_refl). congruence.
  - intros t' L. destruct (Nat.eq_dec t' t) as [->|NE]; [rewrite updt_eq; discriminate|]. rewrite updt_ne by exact NE.
    rewrite wake_holds. intros H. pose proof (i_mu3 _ L H). congruence.
  - discriminate.
  - intros t1 t2 j L1 L2 A B. apply updt_op_wake in A; [|reflexivity]. apply updt_op_wake in B; [|reflexivity].
    destruct A, B. eauto.
  - intros j o J O. destruct (i_comp0 _ _ J O) as [(t' & L & H)|H]; [|right; exact H].
    destruct (Nat.eq_dec t' t) as [->|NE].
    + right. pose proof (i_th0 _ T) as Q. rewrite E in *. cbn in *. destruct Q as (_ & o' & O' & P). inversion H; subst.
      rewrite O in O'. inversion O'; subst. exact P.
    + left. exists t'. rewrite updt_ne, wake_op; auto.
Qed.

Lemma inv_step s l s' : inv s -> step n ops s l s' -> inv s'.
Proof using SSA CAP KEEP.
  intros IV H. pose proof IV as IV'. destruct IV'. inversion H; subst; clear H.
  - (* done *)
    apply inv_upd; auto; try rewrite H2; cbn; auto.
  - (* pop *)
    apply inv_upd; auto; try rewrite H2; cbn; auto; try lia.
    + apply Nat.le_succ_l. apply nth_error_Some. congruence.
    + left. split; [reflexivity|]. unfold enter. destruct (o_in o); reflexivity.
    + right. repeat split. unfold enter. destruct (o_in o); reflexivity.
    + unfold enter. destruct (o_in o) eqn:Z; cbn; [|lia]. split; [lia|]. exists o, []. repeat split; auto.
      intros k K. apply i_init0. eapply reads_no_operand; eauto.
  - (* lock *)
    pose proof (i_th0 _ H0) as T. rewrite H2 in T. cbn in T.
    apply inv_upd; auto; try rewrite H2; cbn; auto.
    split; [exact T|]. exists o, []. repeat split; auto. intros k [].
  - (* has *)
    pose proof (i_th0 _ H0) as T. rewrite H2 in T. cbn in T.
    apply inv_upd; auto; try rewrite H2; cbn; auto.
    destruct T as (T & o & dn & A & B & D). split; [exact T|]. exists o, (dn ++ [k]). split; [exact A|]. split.
    + rewrite <- app_assoc. exact B.
    + intros k'. rewrite in_app_iff. intros [K|[->|[]]]; auto.
  - (* has not *)
    pose proof (i_th0 _ H0) as T. rewrite H2 in T. cbn in T.
    apply inv_upd; auto; try rewrite H2; cbn; auto.
    destruct T as (T & o & dn & A & B & D). split; [exact T|]. left. exists o, k. repeat split; auto.
    rewrite B, in_app_iff. cbn. auto.
  - (* sleep *)
    pose proof (i_th0 _ H0) as T. rewrite H2 in T. cbn in T.
    apply inv_upd; auto; try rewrite H2; cbn; auto.
    destruct T as (T & [T'|(t' & L & D)]); (split; [exact T|]); [left; exact T'|right].
    exists t'. split; [exact L|]. rewrite updt_ne; [exact D|]. intros ->. rewrite H2 in D. discriminate.
  - (* spurious *)
    pose proof (i_th0 _ H0) as T. rewrite H2 in T. cbn in T.
    apply inv_upd; auto; try rewrite H2; cbn; auto; tauto.
  - (* start *)
    pose proof (i_th0 _ H0) as T. rewrite H2 in T. cbn in T.
    apply inv_upd; auto; try rewrite H2; cbn; auto.
    destruct T as (T & o' & dn & A & B & D). split; [exact T|]. exists o, []. repeat split; auto.
    rewrite A in H3. inversion H3; subst. rewrite app_nil_r in B. subst dn.
    intros k K. destruct (o_in o) as [|x r] eqn:Z.
    + apply i_init0. eapply reads_no_operand; eauto.
    + destruct (reads_covered i o k A) as [Q|Q]; auto. congruence.
  - (* read *)
    pose proof (i_th0 _ H0) as T. rewrite H2 in T. cbn in T.
    apply inv_upd; auto; try rewrite H2; cbn; auto.
    destruct T as (T & o & dn & A & B & D & F). split; [exact T|]. exists o, (dn ++ [k]). repeat split; auto.
    + rewrite <- app_assoc. exact D.
    + apply lookups_snoc; auto.
  - (* missing *)
    exfalso. pose proof (i_th0 _ H0) as T. rewrite H2 in T. cbn in T.
    destruct T as (T & o & dn & A & B & D & F). apply (B k); [|assumption]. rewrite D, in_app_iff. cbn. auto.
  - (* free *)
    pose proof (i_th0 _ H0) as T. rewrite H2 in T. cbn in T.
    apply inv_upd; auto; try rewrite H2; cbn; auto.
    destruct T as (T & _). split; [exact T|]. exists o, []. destruct SSA as (_ & _ & _ & FR).
    repeat split; auto; try (intros k []); try (intros k v []). cbn. eapply FR; eauto.
  - (* run *)
    pose proof (i_th0 _ H0) as T. rewrite H2 in T. cbn in T.
    apply inv_upd; auto; try rewrite H2; cbn; auto.
    destruct T as (T & o' & dn & A & B & D & F). split; [exact T|]. rewrite A in H3. inversion H3; subst.
    rewrite app_nil_r in D. subst dn. exists o, []. repeat split; auto; try (intros k []).
    + cbn. clear - H6. revert rs H6. induction (o_res o) as [|k r IH]; intros [|v rs] L; cbn in *; try discriminate; auto.
      f_equal. apply IH. lia.
    + destruct SSA as (ND & NF & _ & _). destruct (keep_final _ _ _ _ _ KEEP ND NF A H4) as (ws & qs & L & R & LQ & G).
      rewrite F in L. inversion L; subst. rewrite H5 in R. inversion R; subst. exact G.
  - (* kernel fails *)
    exfalso. pose proof (i_th0 _ H0) as T. rewrite H2 in T. cbn in T.
    destruct T as (T & o' & dn & A & B & D & F). rewrite A in H3. inversion H3; subst. rewrite app_nil_r in D. subst dn.
    destruct SSA as (ND & NF & _ & _). destruct (keep_final _ _ _ _ _ KEEP ND NF A H4) as (ws & qs & L & R & LQ & G).
    rewrite F in L. inversion L; subst. eapply H5; eauto.
  - (* write *)
    pose proof (i_th0 _ H0) as T. rewrite H2 in T. cbn in T.
    destruct T as (T & o & dn & A & B & D & F).
    assert (M : forall k0, s_env s k0 <> None -> set (s_env s) k v k0 <> None).
    { intros k0. unfold set. destruct (k0 =? k)%nat; congruence. }
    apply inv_upd; auto; try rewrite H2; cbn; auto.
    + intros k0 w. unfold set. destruct (Nat.eqb_spec k0 k) as [->|]; [|apply i_le0].
      intros Q; inversion Q; subst. apply F. cbn. auto.
    + split; [exact T|]. exists o, (dn ++ [k]). split; [exact A|]. split; [rewrite <- app_assoc; exact B|]. split.
      * intros k0. rewrite in_app_iff. intros [K|[->|[]]]; [apply M, D, K|]. unfold set. rewrite Nat.eqb_refl. discriminate.
      * intros. apply F. cbn. auto.
  - (* wrote *)
    pose proof (i_th0 _ H0) as T. rewrite H2 in T. cbn in T.
    apply inv_upd; auto; try rewrite H2; cbn; auto.
    destruct T as (T & o & dn & A & B & D & F). split; [exact T|]. exists o. cbn in B. rewrite app_nil_r in B. subst dn. auto.
  - eapply inv_signal; eauto.
Qed.
Lemma inv_start : inv (mkSt 0 e None (fun _ => TPop) false).
Proof using SSA KEEP.
  constructor; cbn; auto; try discriminate; try lia. destruct SSA as (_ & NF & _). exact (keep_init _ _ _ KEEP NF).
Qed.
Lemma exec_inv L s : exec n ops e L s -> inv s.
Proof using SSA CAP KEEP. induction 1; [apply inv_start|eapply inv_step; eauto]. Qed.
End Sys.
