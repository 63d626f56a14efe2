From Verif Require Import Base Ring_model Semi_model Prg_model Comm_model Comm_spec Share_spec Party Semi_proof.
Open Scope Z_scope.

(* ---- events of an execution and schedule independence ---- *)
Inductive ev := ESend (d : nat) (v : payload) | ERecv (s : nat) (v : payload).
Definition proj (i : nat) (G : list (nat * ev)) : list ev :=
  flat_map (fun '(j, e) => if (j =? i)%nat then [e] else []) G.
Definition send_to (d : nat) (t : list ev) : list payload :=
  flat_map (fun e => match e with ESend d' v => if (d' =? d)%nat then [v] else [] | _ => [] end) t.
Definition recv_from (s : nat) (t : list ev) : nat :=
  length (filter (fun e => match e with ERecv s' _ => (s' =? s)%nat | _ => false end) t).
Inductive follows {R} : prog R -> list ev -> prog R -> Prop :=
| fo_nil p : follows p [] p
| fo_send d v k t q : follows k t q -> follows (Send d v k) (ESend d v :: t) q
| fo_recv s k v t q : follows (k v) t q -> follows (Recv s k) (ERecv s v :: t) q.
Lemma follows_app {R} (p : prog R) t q u r : follows p t q -> follows q u r -> follows p (t ++ u) r.
Proof. intros H. revert u r. induction H; intros u r' H'; cbn [app]; [exact H'|constructor; auto|constructor; auto]. Qed.
Lemma follows_split {R} (p : prog R) t : forall q u r, follows p t q -> follows p (t ++ u) r -> follows q u r.
Proof.
  revert p. induction t as [|e t IH]; intros p q u r H H'; cbn [app] in *.
  - inversion H; subst. exact H'.
  - inversion H; subst; inversion H'; subst; eapply IH; eauto.
Qed.
Lemma proj_app i G H : proj i (G ++ H) = proj i G ++ proj i H.
Proof. unfold proj. apply flat_map_app. Qed.
Lemma send_to_app d t u : send_to d (t ++ u) = send_to d t ++ send_to d u.
Proof. apply flat_map_app. Qed.
Lemma recv_from_app s t u : recv_from s (t ++ u) = (recv_from s t + recv_from s u)%nat.
Proof. unfold recv_from. now rewrite filter_app, app_length. Qed.
(* the split of a global trace at an event of party i *)
Lemma proj_split i G : forall a e b, proj i G = a ++ e :: b -> exists G1 G2, G = G1 ++ (i, e) :: G2 /\ proj i G1 = a /\ proj i G2 = b.
Proof.
  induction G as [|[j f] G IH]; intros a e b H; [destruct a; discriminate|]. cbn [proj flat_map] in H.
  destruct (Nat.eqb_spec j i) as [->|N].
  - destruct a as [|g a]; cbn in H; injection H as E H.
    + subst f. exists [], G. auto.
    + destruct (IH _ _ _ H) as [G1 [G2 [E1 [E2 E3]]]]. exists ((i, f) :: G1), G2. subst. split; [reflexivity|]. split; [|reflexivity].
      cbn [proj flat_map]. rewrite Nat.eqb_refl. cbn. reflexivity.
  - destruct (IH _ _ _ H) as [G1 [G2 [E1 [E2 E3]]]]. exists ((j, f) :: G1), G2. subst. split; [reflexivity|]. split; [|reflexivity].
    cbn [proj flat_map]. destruct (Nat.eqb_spec j i); [lia|]. reflexivity.
Qed.
Lemma set_nth_map {A B} (f : A -> B) l : forall c x y, nth_error l c = Some x -> f x = f y -> map f (set_nth l c y) = map f l.
Proof.
  induction l as [|z l IH]; intros [|c] x y H E; cbn in *; try discriminate; [injection H as ->; now rewrite E|]. f_equal. eapply IH; eauto.
Qed.

Lemma NoDup_app_ {A} (l l' : list A) : NoDup l -> NoDup l' -> (forall x, In x l -> ~ In x l') -> NoDup (l ++ l').
Proof.
  induction l as [|a l IH]; intros H1 H2 H3; cbn [app]; [exact H2|]. inversion H1 as [|? ? H4 H5]; subst. constructor.
  - rewrite in_app_iff. intros [H|H]; [contradiction|]. exact (H3 a (or_introl eq_refl) H).
  - apply IH; auto. intros x Hx. apply H3. now right.
Qed.
Section Kahn.
Context {R : Type}.
Variable n : nat.
Variable P : nat -> prog R.
(* G is the event trace of an execution reaching st *)
Definition traced (st : net R) (G : list (nat * ev)) : Prop :=
  (forall i, follows (P i) (proj i G) (np st i)) /\
  (forall s d, map fst (nch st s d) = send_to d (proj s G)) /\
  (forall s d, nrc st s d = recv_from s (proj d G)) /\
  (forall G1 i s v G2, G = G1 ++ (i, ERecv s v) :: G2 -> nth_error (send_to i (proj s G1)) (recv_from s (proj i G1)) = Some v).
Lemma app_snoc_split {A} (G : list A) x G1 y G2 : G ++ [x] = G1 ++ y :: G2 ->
  (exists G2', G2 = G2' ++ [x] /\ G = G1 ++ y :: G2') \/ (G2 = [] /\ y = x /\ G = G1).
Proof.
  intros H. destruct G2 as [|g G2] using rev_ind.
  - right. apply app_inj_tail in H. destruct H. auto.
  - left. clear IHG2. rewrite app_comm_cons, app_assoc in H. apply app_inj_tail in H. destruct H as [H1 H2]. subst. eauto.
Qed.
Definition isev (l : label) : bool := match l with LDeliver _ _ _ => false | _ => true end.
Lemma step_traced st G l st' : traced st G -> step n st l st' -> exists G', traced st' G' /\
  ((G' = G /\ isev l = false) \/ exists i e, (i < n)%nat /\ G' = G ++ [(i, e)] /\ isev l = true).
Proof.
  intros [F [C [RC V]]] S. inversion S as [st0 i d v k I E|st0 s d c v E|st0 i s k v I E E2]; subst.
  - exists (G ++ [(i, ESend d v)]). split; [|right; eexists; eexists; split; [exact I|]; split; reflexivity]. split; [|split; [|split]]; cbn [np nch nrc].
    + intros j. rewrite proj_app. cbn [proj flat_map]. unfold upd. rewrite (Nat.eqb_sym i j). destruct (Nat.eqb_spec j i) as [->|N]; cbn [app].
      * apply (follows_app _ _ _ _ _ (F i)). rewrite E. do 2 constructor.
      * rewrite !app_nil_r. apply F.
    + intros s d'. rewrite proj_app. cbn [proj flat_map]. unfold upd2. rewrite app_nil_r.
      destruct (Nat.eqb_spec i s) as [<-|N].
      * rewrite Nat.eqb_refl, send_to_app. cbn [send_to flat_map andb app]. rewrite app_nil_r, (Nat.eqb_sym d d'). destruct (Nat.eqb_spec d' d) as [->|N2].
        -- rewrite map_app, C. reflexivity.
        -- now rewrite app_nil_r.
      * destruct (Nat.eqb_spec s i); [lia|]. cbn [andb]. now rewrite app_nil_r.
    + intros s d'. rewrite RC, proj_app, recv_from_app. cbn [proj flat_map]. destruct (i =? d')%nat; cbn; lia.
    + intros G1 i' s v' G2 EG. apply app_snoc_split in EG. destruct EG as [[G2' [-> EG]] | [_ [EG _]]]; [exact (V _ _ _ _ _ EG)|discriminate].
  - exists G. split; [|left; split; reflexivity]. split; [exact F|split; [|split; [exact RC|exact V]]]. cbn [nch]. intros s' d'. unfold upd2.
    destruct (Nat.eqb_spec s' s) as [->|N]; cbn [andb]; [|apply C]. destruct (Nat.eqb_spec d' d) as [->|N]; cbn [andb]; [|apply C].
    rewrite <- C. eapply set_nth_map; [exact E|reflexivity].
  - exists (G ++ [(i, ERecv s v)]). split; [|right; eexists; eexists; split; [exact I|]; split; reflexivity]. split; [|split; [|split]]; cbn [np nch nrc].
    + intros j. rewrite proj_app. cbn [proj flat_map]. unfold upd. rewrite (Nat.eqb_sym i j). destruct (Nat.eqb_spec j i) as [->|N]; cbn [app].
      * apply (follows_app _ _ _ _ _ (F i)). rewrite E. do 2 constructor.
      * rewrite !app_nil_r. apply F.
    + intros s' d'. rewrite C, proj_app, send_to_app. cbn [proj flat_map]. destruct (i =? s')%nat; cbn [send_to flat_map app]; now rewrite app_nil_r.
    + intros s' d'. rewrite proj_app, recv_from_app. cbn [proj flat_map]. rewrite app_nil_r. unfold upd2.
      destruct (Nat.eqb_spec i d') as [<-|N].
      * rewrite Nat.eqb_refl, andb_true_r. unfold recv_from at 2. cbn [filter]. rewrite (Nat.eqb_sym s s'). destruct (Nat.eqb_spec s' s) as [->|N]; cbn [length]; rewrite RC; lia.
      * destruct (Nat.eqb_spec d' i); [lia|]. rewrite andb_false_r. rewrite RC. cbn. lia.
    + intros G1 i' s' v' G2 EG. apply app_snoc_split in EG. destruct EG as [[G2' [-> EG]] | [_ [EG ->]]]; [exact (V _ _ _ _ _ EG)|].
      injection EG as -> -> ->. rewrite <- C, <- RC. rewrite nth_error_map, E2. reflexivity.
Qed.
Lemma start_traced : traced (start P) [].
Proof.
  split; [intros; constructor|split; [reflexivity|split; [reflexivity|]]]. intros G1 i s v G2 E. destruct G1; discriminate.
Qed.
Lemma exec_traced L st : exec n (start P) L st -> exists G, traced st G.
Proof.
  intros H. remember (start P) as st0. induction H as [|st L st1 l st2 H IH S]; subst; [exists []; apply start_traced|].
  destruct (IH eq_refl) as [G T]. destruct (step_traced _ _ _ _ T S) as [G' [T' _]]. eauto.
Qed.

(* one finished execution *)
Variable stF : net R.
Variable GF : list (nat * ev).
Variable r : nat -> R.
Hypothesis TF : traced stF GF.
Hypothesis DF : done n stF r.
Hypothesis IDLE : forall i, (n <= i)%nat -> proj i GF = [].
Definition prefix {A} (a b : list A) : Prop := exists c, b = a ++ c.
Lemma prefix_nth {A} (a b : list A) c x : prefix a b -> nth_error a c = Some x -> nth_error b c = Some x.
Proof. intros [d ->] H. rewrite nth_error_app1; [exact H|]. apply nth_error_Some. congruence. Qed.
Lemma prefix_send d t u : prefix t u -> prefix (send_to d t) (send_to d u).
Proof. intros [c ->]. rewrite send_to_app. now eexists. Qed.

(* every other execution stays on the same per-party traces *)
Definition along (G : list (nat * ev)) : Prop := forall i, prefix (proj i G) (proj i GF).
Lemma next_event st G i : traced st G -> along G -> (i < n)%nat ->
  exists u, proj i GF = proj i G ++ u /\ follows (np st i) u (Ret (r i)).
Proof.
  intros [F _] A I. destruct (A i) as [u U]. exists u. split; [exact U|].
  destruct TF as [FF _]. specialize (FF i). rewrite (DF i I) in FF. rewrite U in FF. eapply follows_split; [apply F|exact FF].
Qed.
Lemma step_along st G l st' : traced st G -> along G -> step n st l st' -> exists G', traced st' G' /\ along G' /\ length G' = (length G + (if isev l then 1 else 0))%nat /\
  (Forall (fun e => (fst e < n)%nat) G -> Forall (fun e => (fst e < n)%nat) G').
Proof.
  intros T A S. destruct (step_traced _ _ _ _ T S) as [G' [T' H]]. exists G'. split; [exact T'|].
  destruct H as [[-> EL] | [i [e [I [-> EL]]]]]; rewrite EL; [split; [exact A|split; [lia|auto]]|]. split; [|split; [rewrite app_length; reflexivity|intros HF; apply Forall_app; split; [exact HF|constructor; [exact I|constructor]]]].
  intros j. rewrite proj_app. cbn [proj flat_map]. destruct (Nat.eqb_spec i j) as [<-|N]; [|rewrite app_nil_r; apply A]. rewrite app_nil_r.
  destruct (next_event st G i T A I) as [u [U FU]].
  (* the program at i and the event *)
  pose proof T as [F [C [RC V]]]. pose proof T' as [F' [_ [_ V']]].
  specialize (F i). specialize (F' i). rewrite proj_app in F'. cbn [proj flat_map] in F'. rewrite Nat.eqb_refl in F'. cbn [app] in F'.
  pose proof (follows_split _ _ _ _ _ F F') as FE.
  destruct e as [d v|s v].
  - inversion FE as [|? ? k0 ? ? FE'|]; subst. rewrite <- H in FU. inversion FU; subst. rewrite U. eexists. rewrite <- app_assoc. reflexivity.
  - inversion FE as [| |? k0 ? ? ? FE']; subst. rewrite <- H in FU. inversion FU as [| |? ? v' t ? FU']; subst.
    assert (v = v').
    { pose proof (V' G i s v [] eq_refl) as N1.
      destruct (proj_split i GF (proj i G) (ERecv s v') t U) as [G1 [G2 [EG [E1 E2]]]].
      destruct TF as [_ [_ [_ VF]]]. pose proof (VF G1 i s v' G2 EG) as N2. rewrite E1 in N2.
      assert (PA : prefix (send_to i (proj s G)) (send_to i (proj s GF))) by apply prefix_send, A.
      assert (PB : prefix (send_to i (proj s G1)) (send_to i (proj s GF))) by (apply prefix_send; rewrite EG, proj_app; now eexists).
      apply (prefix_nth _ _ _ _ PA) in N1. apply (prefix_nth _ _ _ _ PB) in N2. congruence. }
    subst v'. rewrite U. eexists. rewrite <- app_assoc. reflexivity.
Qed.
Lemma exec_along L st : exec n (start P) L st -> exists G, traced st G /\ along G.
Proof.
  intros H. remember (start P) as st0. induction H as [|st L st1 l st2 H IH S]; subst.
  - exists []. split; [apply start_traced|]. intros i. now eexists.
  - destruct (IH eq_refl) as [G [T A]]. destruct (step_along _ _ _ _ T A S) as [G' [T' [A' _]]]. eauto.
Qed.
Lemma prefix_le_eq {A} (a b : list A) : prefix a b -> (length b <= length a)%nat -> a = b.
Proof. intros [c ->] H. rewrite app_length in H. destruct c; [now rewrite app_nil_r|cbn in H; lia]. Qed.
(* no deadlock *)
Lemma progress st G : traced st G -> along G -> done n st r \/ exists l st', step n st l st'.
Proof.
  intros T A. pose proof T as [F [C [RC V]]].
  (* G1 ++ G2 = GF with every projection of G1 executed; the longest such *)
  assert (K : forall G2 G1, G1 ++ G2 = GF -> (forall j, (length (proj j G1) <= length (proj j G))%nat) ->
     (forall j, (length (proj j GF) <= length (proj j G))%nat) \/
     exists G1 i e G2, G1 ++ (i, e) :: G2 = GF /\ (forall j, (length (proj j G1) <= length (proj j G))%nat) /\ length (proj i G1) = length (proj i G)).
  { induction G2 as [|[i e] G2 IH]; intros G1 E H; [left; rewrite app_nil_r in E; now subst|].
    destruct (Nat.eq_dec (length (proj i G1)) (length (proj i G))) as [Q|Q]; [right; exists G1, i, e, G2; auto|].
    apply (IH (G1 ++ [(i, e)])); [now rewrite <- app_assoc|]. intros j. rewrite proj_app, app_length. cbn [proj flat_map].
    destruct (Nat.eqb_spec i j) as [<-|]; cbn [length app]; [specialize (H i); lia|specialize (H j); lia]. }
  destruct (K GF [] eq_refl ltac:(cbn; lia)) as [ALL|[G1 [i [e [G2 [E [H Q]]]]]]].
  - left. intros i I. destruct (next_event st G i T A I) as [u [U FU]]. specialize (ALL i). rewrite U, app_length in ALL. destruct u; [inversion FU; congruence|cbn in ALL; lia].
  - right. assert (IN : (i < n)%nat).
    { destruct (Nat.ltb_spec i n) as [L|L]; [exact L|]. exfalso. pose proof (IDLE i L) as Z0. rewrite <- E, proj_app in Z0. cbn [proj flat_map] in Z0.
      rewrite Nat.eqb_refl in Z0. destruct (proj i G1); discriminate. }
    destruct (next_event st G i T A IN) as [u [U FU]].
    assert (EQ : proj i G = proj i G1 /\ exists u', u = e :: u').
    { rewrite <- E, proj_app in U. cbn [proj flat_map] in U. rewrite Nat.eqb_refl in U. cbn [app] in U.
      assert (LL : forall (a b x y : list ev), length a = length b -> a ++ x = b ++ y -> a = b /\ x = y).
      { induction a; destruct b; intros x y L0 E0; try discriminate; [auto|]. injection E0 as -> E0. destruct (IHa b x y ltac:(cbn in L0; lia) E0). subst. auto. }
      destruct (LL _ _ _ _ Q U) as [E1 E2]. split; [now symmetry|]. rewrite <- E2. eauto. }
    destruct EQ as [EP [u' ->]]. destruct e as [d v|s v].
    + inversion FU as [|? ? k ? ? FK EK|]; subst. eexists. eexists. eapply step_send; [exact IN|]. symmetry. eassumption.
    + inversion FU as [| |? k ? ? ? FK EK]; subst.
      destruct TF as [_ [_ [_ VF]]]. pose proof (VF G1 i s v G2 (eq_sym E)) as N1. rewrite <- EP, <- RC in N1.
      assert (PS : prefix (send_to i (proj s G1)) (send_to i (proj s G))).
      { apply prefix_send. destruct (A s) as [c EC]. rewrite <- E, proj_app in EC. specialize (H s).
        assert (LL : forall (a b x y : list ev), (length a <= length b)%nat -> a ++ x = b ++ y -> prefix a b).
        { induction a; intros b x y L0 E0; [now eexists|]. destruct b; [cbn in L0; lia|]. injection E0 as -> E0. destruct (IHa b x y ltac:(cbn in L0; lia) E0) as [z ->]. now exists z. }
        eapply LL; eauto. }
      apply (prefix_nth _ _ _ _ PS) in N1. rewrite <- C, nth_error_map in N1. destruct (nth_error (nch st s i) (nrc st s i)) as [[v0 b]|] eqn:EN; [|discriminate].
      cbn in N1. injection N1 as ->. destruct b.
      * eexists. eexists. eapply step_recv; [exact IN|symmetry; eassumption|exact EN].
      * eexists. eexists. eapply step_deliver. exact EN.
Qed.
(* a bound on the length of executions *)
Definition dl (l : label) : list (nat * nat * nat) := match l with LDeliver s d c => [(s, d, c)] | _ => [] end.
Definition sl (l : label) : list (nat * nat * nat) := match l with LSend s d c => [(s, d, c)] | _ => [] end.
Lemma nth_error_set_same {A} (l : list A) : forall c x y, nth_error l c = Some x -> nth_error (set_nth l c y) c = Some y.
Proof. induction l; intros [|c] x y H; cbn in *; try discriminate; eauto. Qed.
Lemma nth_error_set_other {A} (l : list A) : forall c c' y, c <> c' -> nth_error (set_nth l c y) c' = nth_error l c'.
Proof. induction l; intros [|c] [|c'] y H; cbn; auto; lia. Qed.

Lemma step_labels (st : net R) l st' : step n st l st' -> forall L,
  NoDup (flat_map dl L) ->
  (forall s d c, In (s, d, c) (flat_map dl L) -> exists v, nth_error (nch st s d) c = Some (v, true)) ->
  (forall s d c x, nth_error (nch st s d) c = Some x -> In (s, d, c) (flat_map sl L)) ->
  NoDup (flat_map dl (L ++ [l])) /\
  (forall s d c, In (s, d, c) (flat_map dl (L ++ [l])) -> exists v, nth_error (nch st' s d) c = Some (v, true)) /\
  (forall s d c x, nth_error (nch st' s d) c = Some x -> In (s, d, c) (flat_map sl (L ++ [l]))).
Proof.
  intros S L ND DT SN. rewrite !flat_map_app. inversion S as [st0 i d v k I E|st0 s d c v E|st0 i s k v I E E2]; subst; cbn [dl sl flat_map nch]; rewrite !app_nil_r.
  - split; [exact ND|]. split.
    + intros s d' c H. destruct (DT _ _ _ H) as [v' HV]. exists v'. unfold upd2. destruct (Nat.eqb_spec s i) as [->|]; cbn [andb]; [|exact HV].
      destruct (Nat.eqb_spec d' d) as [->|]; [|exact HV]. rewrite nth_error_app1; [exact HV|]. apply nth_error_Some. congruence.
    + intros s d' c x H. apply in_or_app. unfold upd2 in H. destruct (Nat.eqb_spec s i) as [->|]; cbn [andb] in H; [|left; eauto].
      destruct (Nat.eqb_spec d' d) as [->|]; [|left; eauto].
      destruct (Nat.lt_trichotomy c (length (nch st i d))) as [L0 | [-> | L0]].
      * rewrite nth_error_app1 in H by lia. left. eauto.
      * right. now left.
      * exfalso. assert (HH : nth_error (nch st i d ++ [(v, false)]) c <> None) by congruence. apply nth_error_Some in HH. rewrite app_length in HH. cbn in HH. lia.
  - assert (NI : ~ In (s, d, c) (flat_map dl L)) by (intros H; destruct (DT _ _ _ H) as [v' HV]; congruence).
    split; [|split].
    + apply NoDup_app_; [exact ND|constructor; [easy|constructor]|]. intros y Hy [<- | []]. contradiction.
    + intros s' d' c' H. apply in_app_or in H. unfold upd2. destruct H as [H|[H|[]]].
      * destruct (DT _ _ _ H) as [v' HV]. exists v'. destruct (Nat.eqb_spec s' s) as [->|]; cbn [andb]; [|exact HV].
        destruct (Nat.eqb_spec d' d) as [->|]; [|exact HV]. rewrite nth_error_set_other; [exact HV|]. intros ->. contradiction.
      * injection H as -> -> ->. exists v. rewrite !Nat.eqb_refl. cbn [andb]. eapply nth_error_set_same. exact E.
    + intros s' d' c' x H. unfold upd2 in H. destruct (Nat.eqb_spec s' s) as [->|]; cbn [andb] in H; [|eauto].
      destruct (Nat.eqb_spec d' d) as [->|]; [|eauto]. destruct (Nat.eq_dec c c') as [->|N]; [eauto|]. rewrite nth_error_set_other in H by exact N. eauto.
  - split; [exact ND|]. split; [exact DT|exact SN].
Qed.
Lemma exec_counts L st : exec n (start P) L st -> exists G, traced st G /\ along G /\ length (filter isev L) = length G /\
  Forall (fun e => (fst e < n)%nat) G /\
  NoDup (flat_map dl L) /\
  (forall s d c, In (s, d, c) (flat_map dl L) -> exists v, nth_error (nch st s d) c = Some (v, true)) /\
  (forall s d c x, nth_error (nch st s d) c = Some x -> In (s, d, c) (flat_map sl L)).
Proof.
  intros H. remember (start P) as st0. induction H as [|st L st1 l st2 H IH S]; subst.
  - exists []. split; [apply start_traced|]. split; [intros i; now eexists|]. split; [reflexivity|]. split; [constructor|]. split; [constructor|]. split; [easy|]. intros s d c x Hn. destruct c; discriminate.
  - destruct (IH eq_refl) as [G [T [A [LE [FA [ND [DT SN]]]]]]]. destruct (step_along _ _ _ _ T A S) as [G' [T' [A' [LG FA']]]].
    exists G'. split; [exact T'|]. split; [exact A'|]. split.
    { rewrite filter_app, app_length, LE, LG. cbn [filter]. destruct (isev l); reflexivity. }
    split; [auto|]. exact (step_labels _ _ _ S L ND DT SN).
Qed.
Lemma length_proj : forall m G, Forall (fun e => (fst e < m)%nat) G -> length G = list_sum (map (fun i => length (proj i G)) (seq 0 m)).
Proof.
  intros m. induction G as [|[j e] G IH]; intros H.
  - cbn. induction (seq 0 m); cbn; auto.
  - inversion H as [|? ? HJ HG]; subst. cbn [length]. rewrite (IH HG). clear IH. cbn [fst] in HJ.
    assert (K : forall l, NoDup l -> list_sum (map (fun i => length (proj i ((j, e) :: G))) l) = (list_sum (map (fun i => length (proj i G)) l) + (if existsb (Nat.eqb j) l then 1 else 0))%nat).
    { induction l as [|a l IHl]; intros NDl; [reflexivity|]. inversion NDl; subst. specialize (IHl H3). cbn [map list_sum fold_right existsb] in *.
      fold (list_sum (map (fun i => length (proj i ((j, e) :: G))) l)). fold (list_sum (map (fun i => length (proj i G)) l)). rewrite IHl.
      cbn [proj flat_map]. destruct (Nat.eqb_spec j a) as [->|N]; cbn [orb app length].
      - assert (existsb (Nat.eqb a) l = false) as ->; [|fold (proj a G); lia].
        destruct (existsb (Nat.eqb a) l) eqn:EX; [|reflexivity]. apply existsb_exists in EX. destruct EX as [y [Y1 Y2]]. apply Nat.eqb_eq in Y2. subst. contradiction.
      - fold (proj a G). lia. }
    rewrite K by apply seq_NoDup. assert (existsb (Nat.eqb j) (seq 0 m) = true) as ->; [|lia].
    apply existsb_exists. exists j. split; [apply in_seq; lia|apply Nat.eqb_refl].
Qed.
Lemma idle_forall : Forall (fun e => (fst e < n)%nat) GF.
Proof.
  apply Forall_forall. intros [j e] H. cbn [fst]. destruct (Nat.ltb_spec j n) as [L|L]; [exact L|]. exfalso.
  pose proof (IDLE j L) as Z0. apply in_split in H. destruct H as [l1 [l2 E]]. rewrite E, proj_app in Z0. cbn [proj flat_map] in Z0. rewrite Nat.eqb_refl in Z0.
  destruct (proj j l1); discriminate.
Qed.
Lemma exec_bound L st : exec n (start P) L st -> (length L <= 2 * length GF)%nat.
Proof.
  intros H. destruct (exec_counts L st H) as [G [T [A [LE [FA [ND [DT SN]]]]]]].
  assert (B1 : (length G <= length GF)%nat).
  { rewrite (length_proj n G FA), (length_proj n GF idle_forall). clear -A. induction (seq 0 n) as [|a l IH]; cbn; [lia|].
    destruct (A a) as [c E]. rewrite E, app_length. cbn [list_sum] in IH. fold (list_sum (map (fun i => length (proj i G)) l)). fold (list_sum (map (fun i => length (proj i GF)) l)). lia. }
  assert (B2 : (length (flat_map dl L) <= length (flat_map sl L))%nat).
  { apply NoDup_incl_length; [exact ND|]. intros [[s d] c] HI. destruct (DT _ _ _ HI) as [v HV]. eauto. }
  assert (B3 : (length (flat_map sl L) <= length (filter isev L))%nat).
  { clear. induction L as [|[| |] L IH]; cbn in *; lia. }
  assert (B4 : (length L = length (filter isev L) + length (flat_map dl L))%nat).
  { clear. induction L as [|[| |] L IH]; cbn in *; lia. }
  lia.
Qed.
Lemma exec_done L st r' : exec n (start P) L st -> done n st r' -> forall i, (i < n)%nat -> r' i = r i.
Proof.
  intros H D i I. destruct (exec_along L st H) as [G [T A]]. destruct (next_event st G i T A I) as [u [U FU]]. rewrite (D i I) in FU. inversion FU. reflexivity.
Qed.
End Kahn.

(* ---- valid traces ---- *)
Definition balanced (G : list (nat * ev)) : Prop := forall s d, recv_from s (proj d G) = length (send_to d (proj s G)).
Definition causal (G : list (nat * ev)) : Prop :=
  forall G1 i s v G2, G = G1 ++ (i, ERecv s v) :: G2 -> nth_error (send_to i (proj s G1)) (recv_from s (proj i G1)) = Some v.
Definition valid {R} (n : nat) (P : nat -> prog R) (G : list (nat * ev)) (r : nat -> R) : Prop :=
  (forall i, (i < n)%nat -> follows (P i) (proj i G) (Ret (r i))) /\ (forall i, (n <= i)%nat -> proj i G = []) /\ causal G /\ balanced G.
Theorem valid_runs {R} n (P : nat -> prog R) G r : valid n P G r -> runs_to n P r.
Proof.
  intros [F [I [C B]]].
  set (st := mkNet (fun i => if (i <? n)%nat then Ret (r i) else P i) (fun s d => map (fun v => (v, true)) (send_to d (proj s G))) (fun s d => recv_from s (proj d G))).
  assert (T : traced P st G).
  { split; [|split; [|split; [reflexivity|exact C]]].
    - intros i. cbn [np st]. destruct (Nat.ltb_spec i n) as [L|L]; [now apply F|]. rewrite I by exact L. constructor.
    - intros s d. cbn. rewrite map_map. cbn. apply map_id. }
  assert (D : done n st r) by (intros i L; cbn [np st]; destruct (Nat.ltb_spec i n); [reflexivity|lia]).
  split; [|split].
  - exists (2 * length G)%nat. intros L st' H. eapply exec_bound; eauto.
  - intros L st' H. destruct (exec_along n P st G r T D I L st' H) as [G2 [T2 A2]]. exact (progress n P st G r T D I st' G2 T2 A2).
  - intros L st' r' H D'. eapply exec_done; eauto.
Qed.
(* a bounded system without stuck states has a finished execution *)
Lemma runs_finish {R} n (P : nat -> prog R) r : runs_to n P r -> forall L st, exec n (start P) L st -> exists L' st', exec n (start P) (L ++ L') st' /\ done n st' r.
Proof.
  intros [[b HB] [HP _]].
  assert (K : forall m L st, (b - length L <= m)%nat -> exec n (start P) L st -> exists L' st', exec n (start P) (L ++ L') st' /\ done n st' r).
  { induction m as [|m IH]; intros L st HM H.
    - destruct (HP L st H) as [D|[l [st' S]]]; [exists [], st; rewrite app_nil_r; auto|].
      pose proof (HB _ _ (exec_snoc _ _ _ _ _ _ H S)) as HL. rewrite app_length in HL. cbn in HL. lia.
    - destruct (HP L st H) as [D|[l [st' S]]]; [exists [], st; rewrite app_nil_r; auto|].
      pose proof (exec_snoc _ _ _ _ _ _ H S) as H'. destruct (IH (L ++ [l]) st') as [L' [st2 [H2 D2]]]; [rewrite app_length; cbn; lia|exact H'|].
      exists (l :: L'), st2. rewrite <- app_assoc in H2. auto. }
  intros L st H. exact (K _ L st (le_n _) H).
Qed.

(* ---- sequential composition ---- *)
Lemma follows_bind {A B} (p : prog A) t q (f : A -> prog B) : follows p t q -> follows (bind p f) t (bind q f).
Proof. induction 1; cbn [bind]; [constructor|now constructor|]. constructor. exact IHfollows. Qed.
Lemma causal_app G G' : causal G -> balanced G -> causal G' -> causal (G ++ G').
Proof.
  intros C B C' G1 i s v G2 E.
  assert (K : (exists G2', G = G1 ++ (i, ERecv s v) :: G2') \/ (exists G1', G1 = G ++ G1' /\ G' = G1' ++ (i, ERecv s v) :: G2)).
  { clear -E. revert G1 E. induction G as [|g G IH]; intros G1 E; cbn [app] in *; [right; exists G1; auto|].
    destruct G1 as [|h G1]; cbn [app] in *; injection E as -> E; [left; eexists; reflexivity|].
    destruct (IH G1 E) as [[G2' ->] | [G1' [-> H]]]; [left; eexists; reflexivity|right; exists G1'; auto]. }
  destruct K as [[G2' K] | [G1' [-> K]]]; [exact (C _ _ _ _ _ K)|].
  rewrite !proj_app, send_to_app, recv_from_app, B. rewrite nth_error_app2 by lia.
  replace (_ + _ - _)%nat with (recv_from s (proj i G1')) by lia. exact (C' _ _ _ _ _ K).
Qed.
Lemma valid_bind {A B} n (P : nat -> prog A) G r (f : nat -> A -> prog B) G' r' :
  valid n P G r -> valid n (fun i => f i (r i)) G' r' -> valid n (fun i => bind (P i) (f i)) (G ++ G') r'.
Proof.
  intros [F [I [C Bl]]] [F' [I' [C' Bl']]]. split; [|split; [|split]].
  - intros i L. rewrite proj_app. apply (follows_app _ _ (f i (r i))); [|now apply F']. exact (follows_bind _ _ _ (f i) (F i L)).
  - intros i L. rewrite proj_app, I, I' by exact L. reflexivity.
  - now apply causal_app.
  - intros s d. rewrite !proj_app, send_to_app, recv_from_app, app_length, Bl, Bl'. reflexivity.
Qed.
Lemma valid_ret {A} n (r : nat -> A) : valid n (fun i => Ret (r i)) [] r.
Proof. split; [intros; constructor|]. split; [reflexivity|]. split; [|intros s d; reflexivity]. intros G1 i s v G2 E. destruct G1; discriminate. Qed.
Lemma valid_ext {A} n (P Q : nat -> prog A) G r r' : (forall i, (i < n)%nat -> P i = Q i) -> (forall i, (i < n)%nat -> r i = r' i) -> valid n P G r -> valid n Q G r'.
Proof. intros H H' [F X]. split; [|exact X]. intros i L. rewrite <- H, <- H' by exact L. now apply F. Qed.

(* ---- one round: everybody sends, then everybody receives ---- *)
Definition sends (l : list (nat * payload)) : list ev := map (fun p => ESend (fst p) (snd p)) l.
Definition recvs (l : list (nat * payload)) : list ev := map (fun p => ERecv (fst p) (snd p)) l.
Definition spread (n : nat) (t : nat -> list ev) : list (nat * ev) := flat_map (fun i => map (fun e => (i, e)) (t i)) (seq 0 n).
Definition vals (j : nat) (l : list (nat * payload)) : list payload := map snd (filter (fun p => (fst p =? j)%nat) l).
Lemma proj_one i j t : proj i (map (fun e : ev => (j, e)) t) = if (j =? i)%nat then t else [].
Proof.
  induction t as [|e t IH]; cbn [map proj flat_map]; [now destruct (j =? i)%nat|]. unfold proj in IH. rewrite IH. destruct (j =? i)%nat; reflexivity.
Qed.
Lemma proj_spread n t i : proj i (spread n t) = if (i <? n)%nat then t i else [].
Proof.
  unfold spread. induction n as [|n IH]; [now destruct i|]. rewrite seq_S, flat_map_app, proj_app, IH. cbn [flat_map plus]. rewrite app_nil_r, proj_one.
  destruct (Nat.ltb_spec i n), (Nat.ltb_spec i (S n)), (Nat.eqb_spec n i); subst; try lia; rewrite ?app_nil_r; reflexivity.
Qed.
Lemma send_to_sends d l : send_to d (sends l) = vals d l.
Proof. unfold vals. induction l as [|[a v] l IH]; [reflexivity|]. cbn [sends map send_to flat_map filter fst snd]. unfold sends, send_to in IH. rewrite IH. now destruct (a =? d)%nat. Qed.
Lemma send_to_recvs d l : send_to d (recvs l) = [].
Proof. induction l as [|[a v] l IH]; [reflexivity|]. exact IH. Qed.
Lemma recv_from_sends d l : recv_from d (sends l) = O.
Proof. induction l as [|[a v] l IH]; [reflexivity|]. exact IH. Qed.
Lemma recv_from_recvs s l : recv_from s (recvs l) = length (vals s l).
Proof. unfold vals, recv_from. induction l as [|[a v] l IH]; [reflexivity|]. cbn [recvs map filter fst snd]. unfold recvs in IH. destruct (a =? s)%nat; cbn [map length]; rewrite <- IH; reflexivity. Qed.
Lemma vals_app s a b : vals s (a ++ b) = vals s a ++ vals s b.
Proof. unfold vals. now rewrite filter_app, map_app. Qed.
Lemma recvs_split l : forall a s v b, recvs l = a ++ ERecv s v :: b -> exists l1 l2, l = l1 ++ (s, v) :: l2 /\ a = recvs l1.
Proof.
  induction l as [|[c w] l IH]; intros a s v b E; [destruct a; discriminate|]. destruct a as [|x a]; cbn in E.
  - injection E as -> -> E2. exists [], l. auto.
  - injection E as E1 E2. destruct (IH _ _ _ _ E2) as [l1 [l2 [-> ->]]]. exists ((c, w) :: l1), l2. subst x. auto.
Qed.
Lemma spread_in n t j e : In (j, e) (spread n t) -> In e (t j).
Proof. unfold spread. rewrite in_flat_map. intros [i [_ H]]. apply in_map_iff in H. destruct H as [e' [E H]]. injection E as -> ->. exact H. Qed.
Lemma round_valid {R} n (P : nat -> prog R) r (S Q : nat -> list (nat * payload)) :
  (forall i, (i < n)%nat -> follows (P i) (sends (S i) ++ recvs (Q i)) (Ret (r i))) ->
  (forall i s, (i < n)%nat -> (s < n)%nat -> vals s (Q i) = vals i (S s)) ->
  (forall i s, (i < n)%nat -> (n <= s)%nat -> vals s (Q i) = [] /\ vals s (S i) = []) ->
  valid n P (spread n (fun i => sends (S i)) ++ spread n (fun i => recvs (Q i))) r.
Proof.
  intros F M O. split; [|split; [|split]].
  - intros i L. rewrite proj_app, !proj_spread. destruct (Nat.ltb_spec i n); [|lia]. now apply F.
  - intros i L. rewrite proj_app, !proj_spread. destruct (Nat.ltb_spec i n); [lia|]. reflexivity.
  - intros G1 i s v G2 E. set (A := spread n (fun i => sends (S i))) in *. set (B := spread n (fun i => recvs (Q i))) in *.
    assert (K : exists B1, G1 = A ++ B1 /\ B = B1 ++ (i, ERecv s v) :: G2).
    { assert (NA : forall j w x, ~ In (x, ERecv j w) A).
      { intros j w x H. apply spread_in in H. unfold sends in H. apply in_map_iff in H. destruct H as [p [H _]]. discriminate. }
      clearbody A. clear -E NA. revert G1 E. induction A as [|a A IH]; intros G1 E; cbn [app] in *; [exists G1; auto|].
      destruct G1 as [|g G1]; cbn [app] in E; injection E as E1 E2; [subst; exfalso; eapply NA; left; reflexivity|].
      destruct (IH (fun j w x H => NA j w x (or_intror H)) G1 E2) as [B1 [-> H]]. exists B1. subst. auto. }
    destruct K as [B1 [-> EB]].
    assert (PB : proj i B = proj i B1 ++ ERecv s v :: proj i G2) by (rewrite EB, proj_app; cbn [proj flat_map]; now rewrite Nat.eqb_refl).
    unfold B in PB. rewrite proj_spread in PB. destruct (Nat.ltb_spec i n) as [I|I]; [|destruct (proj i B1); discriminate].
    destruct (recvs_split _ _ _ _ _ PB) as [l1 [l2 [EQ E1]]].
    assert (SN : (s < n)%nat).
    { destruct (Nat.ltb_spec s n) as [L|L]; [exact L|]. destruct (O i s I L) as [Z0 _]. rewrite EQ, vals_app in Z0. unfold vals at 2 in Z0. cbn [filter fst] in Z0.
      rewrite Nat.eqb_refl in Z0. cbn in Z0. destruct (vals s l1); discriminate. }
    rewrite !proj_app, send_to_app, recv_from_app, E1, recv_from_recvs. unfold A at 1 2. rewrite !proj_spread.
    destruct (Nat.ltb_spec i n); [|lia]. destruct (Nat.ltb_spec s n); [|lia]. rewrite send_to_sends, recv_from_sends, <- M by auto.
    rewrite nth_error_app1.
    + rewrite EQ, vals_app. cbn [plus]. rewrite nth_error_app2, Nat.sub_diag by lia. unfold vals. cbn [filter fst]. rewrite Nat.eqb_refl. reflexivity.
    + rewrite EQ, vals_app, app_length. unfold vals at 3. cbn [filter fst]. rewrite Nat.eqb_refl. cbn. lia.
  - intros s d. rewrite !proj_app, !proj_spread, send_to_app, recv_from_app, app_length.
    destruct (Nat.ltb_spec s n) as [L1|L1], (Nat.ltb_spec d n) as [L2|L2]; rewrite ?send_to_sends, ?send_to_recvs, ?recv_from_sends, ?recv_from_recvs; cbn [length plus].
    + rewrite M by auto. lia.
    + destruct (O s d L1 L2) as [_ ->]. reflexivity.
    + destruct (O d s L2 L1) as [-> _]. reflexivity.
    + reflexivity.
Qed.
Lemma follows_send_all {R} ds v (k : prog R) : follows (send_all ds v k) (sends (map (fun d => (d, v)) ds)) k.
Proof. induction ds; cbn; [constructor|]. constructor. exact IHds. Qed.
Lemma follows_recv_all {R} ss (x : nat -> payload) : forall (k : list payload -> prog R), follows (recv_all ss k) (recvs (map (fun s => (s, x s)) ss)) (k (map x ss)).
Proof. induction ss as [|s ss IH]; intros k; cbn; [constructor|]. constructor. exact (IH (fun vs => k (x s :: vs))). Qed.
Lemma vals_map j (f : nat -> payload) l : NoDup l -> vals j (map (fun d => (d, f d)) l) = if existsb (Nat.eqb j) l then [f j] else [].
Proof.
  unfold vals. induction l as [|a l IH]; intros ND; [reflexivity|]. inversion ND as [|? ? H1 H2]; subst. cbn [map filter fst existsb]. rewrite (Nat.eqb_sym j a).
  destruct (Nat.eqb_spec a j) as [->|N]; cbn [orb map snd]; rewrite (IH H2); [|reflexivity].
  destruct (existsb (Nat.eqb j) l) eqn:E; [|reflexivity]. apply existsb_exists in E. destruct E as [y [Y1 Y2]]. apply Nat.eqb_eq in Y2. subst. contradiction.
Qed.
Lemma others_nodup n i : NoDup (others n i). Proof. apply NoDup_filter, seq_NoDup. Qed.
Lemma others_in n i j : existsb (Nat.eqb j) (others n i) = ((j <? n)%nat && negb (j =? i)%nat).
Proof.
  apply eq_true_iff_eq. rewrite existsb_exists, andb_true_iff. unfold others. split.
  - intros [y [H E]]. apply Nat.eqb_eq in E. subst y. apply filter_In in H. rewrite in_seq in H. destruct H as [H1 H2]. split; [apply Nat.ltb_lt; lia|exact H2].
  - intros [H1 H2]. exists j. rewrite Nat.eqb_refl, filter_In, in_seq. apply Nat.ltb_lt in H1. repeat split; auto; lia.
Qed.
Lemma filter_all {A} (f : A -> bool) l : (forall x, In x l -> f x = true) -> filter f l = l.
Proof. induction l as [|a l IH]; intros H; [reflexivity|]. cbn. rewrite H by now left. f_equal. apply IH. intros. apply H. now right. Qed.
Lemma others_split n i : (i < n)%nat -> others n i = seq 0 i ++ seq (S i) (n - S i).
Proof.
  intros L. unfold others. replace n with (i + S (n - S i))%nat at 1 by lia. rewrite seq_app, filter_app. cbn [seq filter plus]. rewrite Nat.eqb_refl. cbn [negb].
  f_equal; apply filter_all; intros x H; apply in_seq in H; destruct (Nat.eqb_spec x i); auto; lia.
Qed.
Lemma insert_own_all (x : nat -> payload) n i : (i < n)%nat -> insert_own i (x i) (map x (others n i)) = map x (seq 0 n).
Proof.
  intros L. rewrite others_split, map_app by exact L. unfold insert_own.
  assert (E : length (map x (seq 0 i)) = i) by now rewrite map_length, seq_length.
  rewrite firstn_app, skipn_app, E, Nat.sub_diag. rewrite firstn_all2, skipn_all2 by lia. cbn [firstn skipn app]. rewrite app_nil_r.
  replace n with (i + S (n - S i))%nat at 2 by lia. rewrite seq_app, map_app. reflexivity.
Qed.

(* ---- the collectives ---- *)
Ltac solve_vals := rewrite !vals_map, !others_in by apply others_nodup.
Definition all_gather_trace n (x : nat -> payload) :=
  spread n (fun i => sends (map (fun d => (d, x i)) (others n i))) ++ spread n (fun i => recvs (map (fun s => (s, x s)) (others n i))).
Lemma all_gather_valid n (x : nat -> payload) : valid n (fun i => all_gather n i (x i)) (all_gather_trace n x) (fun i => map x (seq 0 n)).
Proof.
  apply round_valid.
  - intros i L. unfold all_gather. eapply follows_app; [apply follows_send_all|]. rewrite <- (insert_own_all x n i L).
    apply (follows_recv_all (others n i) x (fun vs => Ret (insert_own i (x i) vs))).
  - intros i s L1 L2. rewrite (vals_map i (fun _ => x s)), (vals_map s x), !others_in by apply others_nodup.
    rewrite (Nat.eqb_sym i s). destruct (Nat.ltb_spec i n), (Nat.ltb_spec s n); try lia. reflexivity.
  - intros i s L1 L2. rewrite (vals_map s (fun _ => x i)), (vals_map s x), !others_in by apply others_nodup. destruct (Nat.ltb_spec s n); [lia|]. auto.
Qed.
Definition gather_trace n root (x : nat -> payload) :=
  spread n (fun i => sends (if (i =? root)%nat then [] else [(root, x i)])) ++
  spread n (fun i => recvs (if (i =? root)%nat then map (fun s => (s, x s)) (others n i) else [])).
Lemma gather_valid n root (x : nat -> payload) : (root < n)%nat ->
  valid n (fun i => gather_ n root i (x i)) (gather_trace n root x) (fun i => if (i =? root)%nat then map x (seq 0 n) else []).
Proof.
  intros HR. apply round_valid.
  - intros i L. unfold gather_. destruct (Nat.eqb_spec i root) as [->|N]; cbn [sends map app].
    + rewrite <- (insert_own_all x n root L). apply (follows_recv_all (others n root) x (fun vs => Ret (insert_own root (x root) vs))).
    + do 2 constructor.
  - intros i s L1 L2. destruct (Nat.eqb_spec i root) as [->|N].
    + rewrite vals_map, others_in by apply others_nodup. destruct (Nat.ltb_spec s n); [|lia]. destruct (Nat.eqb_spec s root) as [->|N]; [reflexivity|].
      unfold vals. cbn [filter fst]. now rewrite Nat.eqb_refl.
    + destruct (Nat.eqb_spec s root); [reflexivity|]. unfold vals. cbn [filter fst]. destruct (Nat.eqb_spec root i); [lia|reflexivity].
  - intros i s L1 L2. destruct (Nat.eqb_spec i root) as [->|N].
    + rewrite vals_map, others_in by apply others_nodup. destruct (Nat.ltb_spec s n); [lia|]. split; reflexivity.
    + split; [reflexivity|]. unfold vals. cbn [filter fst]. destruct (Nat.eqb_spec root s); [lia|reflexivity].
Qed.
Definition broadcast_trace n root (x : nat -> payload) :=
  spread n (fun i => sends (if (i =? root)%nat then map (fun d => (d, x i)) (others n i) else [])) ++
  spread n (fun i => recvs (if (i =? root)%nat then [] else [(root, x root)])).
Lemma broadcast_valid n root (x : nat -> payload) : (root < n)%nat ->
  valid n (fun i => broadcast_ n root i (x i)) (broadcast_trace n root x) (fun i => x root).
Proof.
  intros HR. apply round_valid.
  - intros i L. unfold broadcast_. destruct (Nat.eqb_spec i root) as [->|N].
    + cbn [recvs map]. rewrite app_nil_r. apply follows_send_all.
    + cbn [sends map app]. do 2 constructor.
  - intros i s L1 L2. destruct (Nat.eqb_spec s root) as [->|N].
    + rewrite (vals_map i (fun _ => x root)), others_in by apply others_nodup. destruct (Nat.ltb_spec i n); [|lia]. destruct (Nat.eqb_spec i root) as [->|N]; [reflexivity|].
      unfold vals. cbn [filter fst]. now rewrite Nat.eqb_refl.
    + destruct (Nat.eqb_spec i root); [reflexivity|]. unfold vals. cbn [filter fst]. destruct (Nat.eqb_spec root s); [lia|reflexivity].
  - intros i s L1 L2. destruct (Nat.eqb_spec i root) as [->|N].
    + rewrite (vals_map s (fun _ => x root)), others_in by apply others_nodup. destruct (Nat.ltb_spec s n); [lia|]. split; reflexivity.
    + split; [|reflexivity]. unfold vals. cbn [filter fst]. destruct (Nat.eqb_spec root s); [lia|reflexivity].
Qed.
Definition rotate_trace n (x : nat -> payload) :=
  spread n (fun i => sends [(prevrank n i, x i)]) ++ spread n (fun i => recvs [(nextrank n i, x (nextrank n i))]).
Lemma rotate_valid n (x : nat -> payload) : valid n (fun i => comm_rotate n i (x i)) (rotate_trace n x) (fun i => x (nextrank n i)).
Proof.
  apply round_valid.
  - intros i L. cbn. do 3 constructor.
  - intros i s L1 L2. unfold vals. cbn [filter fst]. unfold prevrank, nextrank.
    destruct (Nat.eqb_spec (S i) n), (Nat.eqb_spec s 0); subst; cbn [map snd];
      repeat match goal with |- context [(?a =? ?b)%nat] => destruct (Nat.eqb_spec a b) end; cbn [map snd]; subst; try lia; try reflexivity; f_equal; f_equal; lia.
  - intros i s L1 L2. unfold vals. cbn [filter fst]. unfold prevrank, nextrank.
    repeat match goal with |- context [(?a =? ?b)%nat] => destruct (Nat.eqb_spec a b) end; cbn [map snd]; subst; try lia; auto.
Qed.
(* ---- folding ---- *)
Lemma combine_array op m f g : combine_ op (array m f) (array m g) = Ok (array m (fun e => op (f e) (g e))).
Proof.
  unfold combine_, array. rewrite !map_length, !seq_length, Nat.leb_refl, firstn_all2 by now rewrite map_length, seq_length.
  apply (f_equal (@Ok payload)). induction (seq 0 m) as [|a l IH]; cbn [map zipWith]; [reflexivity|]. now rewrite IH.
Qed.
Lemma array_elem x m : length x = m -> array m (fun e => elem e x) = x.
Proof.
  intros <-. unfold array, elem. induction x as [|a x IH]; [reflexivity|]. cbn [length seq map nth]. f_equal. rewrite <- seq_shift, map_map. exact IH.
Qed.
Lemma fold_arrays op m (x : nat -> payload) l : (forall i, In i l -> length (x i) = m) -> forall f,
  fold_res (fun acc i => combine_ op acc (x i)) l (array m f) = Ok (array m (fun e => fold_left op (map (fun i => elem e (x i)) l) (f e))).
Proof.
  induction l as [|i l IH]; intros H f; [reflexivity|]. cbn [fold_res map fold_left].
  rewrite <- (array_elem (x i) m) at 1 by (apply H; now left). rewrite combine_array. cbn [rbind]. rewrite IH by (intros; apply H; now right). reflexivity.
Qed.
Lemma fold_res_ext {A B} (f g : A -> B -> res A) l : (forall a b, In b l -> f a b = g a b) -> forall a, fold_res f l a = fold_res g l a.
Proof. induction l as [|b l IH]; intros H a; [reflexivity|]. cbn. rewrite H by now left. destruct (g a b); cbn; auto. apply IH. intros. apply H. now right. Qed.
Lemma fold_res_map {A B C} (f : A -> B -> res A) (g : C -> B) l : forall a, fold_res f (map g l) a = fold_res (fun a c => f a (g c)) l a.
Proof. induction l as [|b l IH]; intros a; [reflexivity|]. cbn. destruct (f a (g b)); cbn; auto. Qed.
Lemma fold_bufs op n m (x : nat -> payload) i : (i < n)%nat -> (forall j, (j < n)%nat -> length (x j) = m) ->
  fold_res (fun acc idx => combine_ op acc (nth idx (map x (seq 0 n)) [])) (others n i) (x i) = Ok (array m (fun e => allreduce op n (fun j => elem e (x j)) i)).
Proof.
  intros I H. rewrite (fold_res_ext _ (fun acc idx => combine_ op acc (x idx))).
  - rewrite <- (array_elem (x i) m) at 1 by now apply H. rewrite fold_arrays; [reflexivity|]. intros j J. apply filter_In in J. destruct J as [J _]. apply in_seq in J. apply H. lia.
  - intros a j J. apply filter_In in J. destruct J as [J _]. apply in_seq in J. f_equal.
    rewrite (nth_indep _ [] (x O)) by (rewrite map_length, seq_length; lia). rewrite map_nth, seq_nth by lia. reflexivity.
Qed.
Lemma allreduce_valid op n m (x : nat -> payload) : (forall j, (j < n)%nat -> length (x j) = m) ->
  exists G, valid n (fun i => comm_allreduce op n i (x i)) G (fun i => Ok (array m (fun e => allreduce op n (fun j => elem e (x j)) i))).
Proof.
  intros H. eexists. unfold comm_allreduce. eapply valid_bind; [apply all_gather_valid|].
  eapply (valid_ext n _ _ _ _ _ (fun i _ => eq_refl)); [|apply valid_ret]. intros i L. cbv beta. now apply fold_bufs.
Qed.
Lemma allreduce_t_valid op n m (x : nat -> payload) : (forall j, (j < n)%nat -> length (x j) = m) ->
  exists G, valid n (fun i => comm_allreduce_t op n i (x i)) G (fun i => Ok (array m (fun e => allreduce0 op n (fun j => elem e (x j))))).
Proof.
  intros H. eexists. unfold comm_allreduce_t. eapply valid_bind; [apply all_gather_valid|].
  eapply (valid_ext n _ _ _ _ _ (fun i _ => eq_refl)); [|apply valid_ret]. intros i L. cbv beta. rewrite fold_res_map, H by exact L.
  replace (repeat 0 m) with (array m (fun _ => 0)); [rewrite fold_arrays; [reflexivity|]; intros j J; apply in_seq in J; apply H; lia|].
  unfold array. clear. generalize O. induction m; intros a; cbn; [reflexivity|]. now rewrite IHm.
Qed.
Lemma reduce_valid op n root m (x : nat -> payload) : (root < n)%nat -> (forall j, (j < n)%nat -> length (x j) = m) ->
  exists G, valid n (fun i => comm_reduce op n root i (x i)) G
    (fun i => if (i =? root)%nat then Ok (array m (fun e => allreduce op n (fun j => elem e (x j)) root)) else Ok (x i)).
Proof.
  intros HR H. eexists. unfold comm_reduce. destruct (Nat.ltb_spec root n); [|lia]. eapply valid_bind; [apply (gather_valid n root x HR)|].
  eapply (valid_ext n _ _ _ _ _ (fun i _ => eq_refl)); [|apply valid_ret]. intros i L. cbv beta. destruct (Nat.eqb_spec i root) as [->|]; [|reflexivity]. now apply fold_bufs.
Qed.
Lemma comm_gather_valid n root (x : nat -> payload) : (root < n)%nat ->
  exists G, valid n (fun i => comm_gather n root i (x i)) G (fun i => if (i =? root)%nat then map x (seq 0 n) else repeat [] n).
Proof.
  intros HR. eexists. unfold comm_gather. eapply valid_bind; [apply (gather_valid n root x HR)|].
  eapply (valid_ext n _ _ _ _ _ (fun i _ => eq_refl)); [|apply valid_ret]. intros i L. cbv beta. destruct (Nat.eqb_spec i root); reflexivity.
Qed.
Lemma comm_broadcast_valid n root (x : nat -> payload) numel : (root < n)%nat ->
  exists G, valid n (fun i => comm_broadcast n root i numel (x i)) G
    (fun i => if (i =? root)%nat then Ok (x root) else if (length (x root) =? numel)%nat then Ok (x root) else Err).
Proof.
  intros HR. eexists. unfold comm_broadcast. eapply valid_bind; [apply (broadcast_valid n root x HR)|]. apply valid_ret.
Qed.
Lemma rounds_valid {S} n msg next t : forall (s : nat -> S), exists G, valid n (fun i => rounds n msg next t i (s i)) G (sync n msg next t s).
Proof.
  induction t as [|t IH]; intros s; cbn [rounds sync]; [exists []; apply valid_ret|].
  destruct (IH (fun i => next i (s i) (map (fun j => msg j (s j)) (seq 0 n)))) as [G HG].
  eexists. exact (valid_bind n _ _ _ (fun i bufs => rounds n msg next t i (next i (s i) bufs)) G _ (all_gather_valid n (fun i => msg i (s i))) HG).
Qed.
Lemma runs_ext {R} n (P : nat -> prog R) r r' : (forall i, (i < n)%nat -> r i = r' i) -> runs_to n P r -> runs_to n P r'.
Proof.
  intros H [B [N F]]. split; [exact B|]. split.
  - intros L st E. destruct (N L st E) as [D|S]; [left|right; exact S]. intros i I. rewrite <- H by exact I. now apply D.
  - intros L st q E D i I. rewrite <- H by exact I. now apply (F L st q E D).
Qed.
