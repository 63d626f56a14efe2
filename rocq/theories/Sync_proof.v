(* Synchronisation: every party ends with the same names and its own share of every variable. *)
From Coq Require Import Permutation.
From Verif Require Import Ty_model Ty_proof Base Nd_model Nd_spec Val_model Val_spec Val_proof Sync_model Sync_spec.
Open Scope list_scope.
Open Scope Z_scope.

(* ---- maps ---- *)
Lemma look_in {A} (m : smap A) s a : look m s = Some a -> In (s, a) m.
Proof. induction m as [|[q b] m IH]; [discriminate|]. cbn. destruct (String.eqb_spec q s) as [->|]; [intros [= ->]; now left|]. intros H. right. now apply IH. Qed.
Lemma look_none {A} (m : smap A) s : look m s = None <-> ~ In s (map fst m).
Proof.
  induction m as [|[q b] m IH]; cbn; [tauto|]. destruct (String.eqb_spec q s) as [->|NE]; [split; [discriminate|intros H; exfalso; apply H; now left]|]. rewrite IH. tauto.
Qed.
Lemma look_once {A} (m : smap A) s a : keys_once m -> In (s, a) m -> look m s = Some a.
Proof.
  induction m as [|[q b] m IH]; intros K I; [contradiction|]. inversion K; subst. cbn. destruct I as [E|I]; [injection E as -> ->; now rewrite String.eqb_refl|].
  destruct (String.eqb_spec q s) as [->|]; [exfalso; apply H1; now apply (in_map fst) in I|]. now apply IH.
Qed.
Lemma look_put {A} (m : smap A) s a q : look (put m s a) q = if String.eqb s q then Some a else look m q.
Proof.
  induction m as [|[u b] m IH]; cbn; [reflexivity|]. destruct (String.eqb_spec u s) as [->|NE]; cbn.
  - now destruct (String.eqb_spec s q).
  - rewrite IH. destruct (String.eqb_spec u q) as [->|]; [|reflexivity]. destruct (String.eqb_spec s q); [congruence|reflexivity].
Qed.
Lemma insert_fresh {A} (m : smap A) s a : ~ In s (map fst m) -> insert_new m s a = m ++ [(s, a)].
Proof. intros H. unfold insert_new. now rewrite (proj2 (look_none m s) H). Qed.

(* ---- lists of results ---- *)
Lemma mapR_ok {A B} (f : A -> res B) (R : A -> B -> Prop) l : (forall a, In a l -> exists b, f a = Ok b /\ R a b) -> exists r, mapR f l = Ok r /\ Forall2 R l r.
Proof.
  induction l as [|a l IH]; intros H; [exists []; split; [reflexivity|constructor]|]. destruct (H a (or_introl eq_refl)) as (b & E & HB).
  destruct (IH (fun x I => H x (or_intror I))) as (r & E2 & F). exists (b :: r). cbn. rewrite E. cbn. rewrite E2. split; [reflexivity|now constructor].
Qed.
Lemma F2_nth {A B} (R : A -> B -> Prop) l r i a d : Forall2 R l r -> nth_error l i = Some a -> exists b, nth_error r i = Some b /\ nth i r d = b /\ R a b.
Proof. intros F. revert i. induction F; intros [|i] E; try discriminate; cbn in *; [injection E as ->; eauto|now apply IHF]. Qed.
Lemma F2_length {A B} (R : A -> B -> Prop) l r : Forall2 R l r -> length l = length r.
Proof. intros F. induction F; cbn; congruence. Qed.

(* ---- values in transit ---- *)
Section Sync.
Variable V : Type.
Variable n : nat.
Variable make : nat -> string -> V -> res (list value).
Variable send_order set_order : nat -> nat -> smap pvalue -> smap pvalue.
Hypothesis SO : any_order send_order.
Hypothesis TO : any_order set_order.
Variable ps : list proto.
Variable junk : Z.
Definition carries (pr : pvalue) (v : value) : Prop := exists v', from_proto ps junk pr = Ok v' /\ same_value v v'.
Lemma to_proto_ok v : portable ps v -> exists pr, to_proto max_chunk v = Ok pr /\ carries pr v.
Proof.
  intros (mk & z & A1 & A2 & A3 & A4 & A5 & A6 & A7 & A8 & A9 & A10 & A11 & A12).
  destruct (value_round_trip ps junk mk v z max_chunk A1 A2 A3 A4 A5 A6 A7 A8 A9 A10 A11) as (re & im & E & _ & _ & D); [reflexivity|unfold max_chunk; lia|].
  exists (to_meta v, re ++ im). split; [exact E|]. destruct (D re im (Permutation_refl _) (Permutation_refl _)) as (v' & E' & S0). exists v'. split; [exact E'|exact S0].
Qed.

(* the row of party j: the variables in order, each carrying the share of j *)
Definition entry (i j : nat) (sv : string * V) (sp : string * pvalue) : Prop :=
  fst sp = fst sv /\ exists vs x, make i (fst sv) (snd sv) = Ok vs /\ nth_error vs j = Some x /\ carries (snd sp) x.
Definition rows_ok (i : nat) (vars : smap V) (rows : list (smap pvalue)) : Prop :=
  length rows = n /\ forall j, (j < n)%nat -> Forall2 (entry i j) vars (nth j rows []).
Lemma entry_keys i j vars row : Forall2 (entry i j) vars row -> map fst row = map fst vars.
Proof. intros F. induction F as [|a b l l' [E _] F IH]; cbn; [reflexivity|]. now rewrite E, IH. Qed.
Lemma add_all_ok s protos : forall rows, length protos = length rows -> (forall j, (j < length rows)%nat -> ~ In s (map fst (nth j rows []))) ->
  length (add_all rows s protos) = length rows /\ forall j p, nth_error protos j = Some p -> (j < length rows)%nat -> nth j (add_all rows s protos) [] = nth j rows [] ++ [(s, p)].
Proof.
  induction protos as [|p protos IH]; intros [|r rows] L F; try discriminate; cbn [add_all]; [split; [reflexivity|intros; cbn in *; lia]|].
  destruct (IH rows ltac:(now injection L) (fun j J => F (S j) ltac:(cbn; lia))) as [L2 C2]. split; [cbn; now rewrite L2|].
  intros [|j] p' E J; cbn in E, J |- *; [injection E as <-; apply insert_fresh, (F 0%nat); cbn; lia|]. apply C2; [exact E|lia].
Qed.
Lemma make_rows_ok i vars : keys_once vars -> (forall s v, In (s, v) vars -> exists vs, make i s v = Ok vs /\ length vs = n /\ Forall (portable ps) vs) ->
  exists rows, make_rows V n make i vars = Ok rows /\ rows_ok i vars rows.
Proof.
  intros K H. unfold make_rows. set (f := fun acc sv => _).
  assert (G : forall post pre rows, keys_once (pre ++ post) -> (forall s v, In (s, v) post -> exists vs, make i s v = Ok vs /\ length vs = n /\ Forall (portable ps) vs) -> rows_ok i pre rows ->
    exists rows', fold_left f post (Ok rows) = Ok rows' /\ rows_ok i (pre ++ post) rows').
  { induction post as [|[s v] post IH]; intros pre rows KP HP R; [exists rows; rewrite app_nil_r; now split|].
    destruct (HP s v (or_introl eq_refl)) as (vs & E & L & P). destruct R as [LR R].
    destruct (mapR_ok (to_proto max_chunk) (fun x pr => carries pr x) vs) as (protos & E2 & F2).
    { intros x I. rewrite Forall_forall in P. destruct (to_proto_ok x (P x I)) as (pr & A & B). eauto. }
    assert (NI : ~ In s (map fst pre)).
    { unfold keys_once in KP. rewrite map_app in KP. cbn in KP. apply NoDup_remove_2 in KP. rewrite in_app_iff in KP. tauto. }
    assert (FR : forall j, (j < length rows)%nat -> ~ In s (map fst (nth j rows []))).
    { intros j J. rewrite (entry_keys _ _ _ _ (R j (eq_ind _ (fun u => (j < u)%nat) J _ LR))). exact NI. }
    assert (LP : length protos = length rows) by (rewrite <- (F2_length _ _ _ F2), L; exact (eq_sym LR)).
    destruct (add_all_ok s protos rows LP FR) as [LA CA].
    destruct (IH (pre ++ [(s, v)]) (add_all rows s protos)) as (rows' & E3 & R3).
    - now rewrite <- app_assoc.
    - intros; apply HP; now right.
    - split; [exact (eq_trans LA LR)|]. intros j J. destruct (nth_error vs j) as [x|] eqn:EX; [|apply nth_error_None in EX; rewrite L in EX; lia].
      destruct (F2_nth _ _ _ j x (to_meta x, []) F2 EX) as (pr & EP & _ & CP). rewrite (CA j pr EP (eq_ind_r (fun u => (j < u)%nat) J LR)). apply Forall2_app; [now apply R|].
      constructor; [|constructor]. split; [reflexivity|]. exists vs, x. now repeat split.
    - exists rows'. rewrite <- app_assoc in R3. split; [|exact R3]. cbn [fold_left]. unfold f at 2. cbn [rbind]. rewrite E. cbn [rbind]. rewrite L, Nat.eqb_refl. cbn [negb].
      rewrite E2. cbn [rbind]. exact E3. }
  apply (G vars [] (repeat [] n) K H). split; [apply repeat_length|]. intros j J. assert (Z0 : forall m j, nth j (repeat ([] : smap pvalue) m) [] = []) by (induction m as [|m IH]; intros [|u]; cbn; auto).
  rewrite Z0. constructor.
Qed.
(* ---- messages ---- *)
Lemma recv_chunks_ok cs q : recv_chunks (length cs) (map MChunk cs ++ q) = Ok (cs, q).
Proof. induction cs as [|c cs IH]; [reflexivity|]. cbn. now rewrite IH. Qed.
Lemma recv_vars_ok l q : forall table, keys_once (table ++ l) ->
  recv_vars (length l) table (flat_map (fun '(s, (m, cs)) => MKey s :: MMeta m :: MCount (length cs) :: map MChunk cs) l ++ q) = Ok (table ++ l, q).
Proof.
  induction l as [|[s [m cs]] l IH]; intros table K; [now rewrite app_nil_r|]. cbn [length flat_map app recv_vars]. rewrite <- app_assoc.
  rewrite recv_chunks_ok. cbn [rbind]. rewrite insert_fresh.
  - rewrite IH by (now rewrite <- app_assoc). now rewrite <- app_assoc.
  - unfold keys_once in K. rewrite map_app in K. cbn in K. apply NoDup_remove_2 in K. rewrite in_app_iff in K. tauto.
Qed.
Lemma perm_keys {A} (l l' : smap A) : Permutation l l' -> keys_once l -> keys_once l'.
Proof. intros P K. unfold keys_once in *. eapply Permutation_NoDup; [apply Permutation_map; exact P|exact K]. Qed.

Variable st : nat -> pstate V.
Notation vars i := (unsynced V (st i)).
Hypothesis KO : forall i, (i < n)%nat -> keys_once (vars i).
Hypothesis SH : shareable n make ps st.

Section Party.
Variable p : nat.
Hypothesis Pn : (p < n)%nat.
Definition cols_ok (m : nat) (cols : list (smap pvalue)) : Prop :=
  length cols = m /\ forall i, (i < m)%nat -> exists row, Forall2 (entry i p) (vars i) row /\ Permutation row (nth i cols []).
Lemma all2all_ok rows : Forall2 (fun i r => rows_ok i (vars i) r) (seq 0 n) rows -> exists cols, all2all n send_order p rows = Ok (cols, []) /\ cols_ok n cols.
Proof.
  intros F. unfold all2all. set (f := fun acc i => _).
  assert (G : forall m, (m <= n)%nat -> exists cols, fold_left f (seq 0 m) (Ok ([], [])) = Ok (cols, []) /\ cols_ok m cols).
  { induction m as [|m IH]; intros M; [exists []; split; [reflexivity|split; [reflexivity|intros; lia]]|].
    destruct (IH ltac:(lia)) as (cols & E & [L C]). rewrite seq_S, fold_left_app, E. cbn [fold_left Nat.add].
    destruct (F2_nth _ _ _ m m [] F) as (rm & _ & ER & [LR RR]); [rewrite (nth_error_nth' _ O) by (rewrite seq_length; lia); now rewrite seq_nth|].
    assert (EXT : forall t row, Forall2 (entry m p) (vars m) row -> Permutation row t -> cols_ok (S m) (cols ++ [t])).
    { intros t row FR PR. split; [rewrite app_length; cbn; lia|]. intros i I. destruct (Nat.eq_dec i m) as [->|NE].
      - exists row. split; [exact FR|]. rewrite app_nth2 by lia. replace (m - length cols)%nat with 0%nat by lia. exact PR.
      - destruct (C i ltac:(lia)) as (row' & A & B). exists row'. split; [exact A|]. rewrite app_nth1 by lia. exact B. }
    pose proof (RR p Pn) as RP. unfold f at 1. cbn [rbind]. rewrite ER. destruct (Nat.eqb_spec m p) as [->|NE].
    - eexists. split; [reflexivity|]. eapply EXT; [exact RP|apply Permutation_refl].
    - unfold messages. set (row := nth p rm []) in *. set (sent := send_order m p row). assert (PS : Permutation row sent) by apply SO.
      replace (length (nth 0 rm [])) with (length sent).
      2: { rewrite <- (Permutation_length PS). rewrite <- (F2_length _ _ _ RP). rewrite <- (F2_length _ _ _ (RR 0%nat ltac:(lia))). reflexivity. }
      assert (KS : keys_once sent). { apply (perm_keys _ _ PS). unfold keys_once. rewrite (entry_keys _ _ _ _ RP). apply KO. lia. }
      pose proof (recv_vars_ok sent [] [] KS) as RV. rewrite app_nil_r in RV. rewrite RV. cbn [rbind app]. eexists. split; [reflexivity|]. eapply EXT; [exact RP|exact PS]. }
  apply G. lia.
Qed.
Lemma check_ok names : forall seen, NoDup (seen ++ names) -> check_names seen names = Ok tt.
Proof.
  induction names as [|s names IH]; intros seen ND; [reflexivity|]. cbn. destruct (existsb (String.eqb s) seen) eqn:E.
  - apply existsb_exists in E. destruct E as (u & I & Q). apply String.eqb_eq in Q. subst u. apply NoDup_remove_2 in ND. exfalso. apply ND. rewrite in_app_iff. now left.
  - apply IH. now rewrite <- app_assoc.
Qed.
Lemma check_dup names : forall seen, NoDup seen -> ~ NoDup (seen ++ names) -> check_names seen names = Err.
Proof.
  induction names as [|s names IH]; intros seen NS ND; [rewrite app_nil_r in ND; contradiction|]. cbn. destruct (existsb (String.eqb s) seen) eqn:E; [reflexivity|].
  apply IH; [|now rewrite <- app_assoc]. apply (Permutation_NoDup (l := s :: seen)); [apply Permutation_cons_append|]. constructor; [|exact NS].
  intros I. assert (existsb (String.eqb s) seen = true) by (apply existsb_exists; exists s; split; [exact I|apply String.eqb_refl]). congruence.
Qed.
Lemma set_all_ok l : forall sym, keys_once l -> (forall s pr, In (s, pr) l -> exists v, from_proto ps junk pr = Ok v) ->
  exists sym', set_all ps junk sym l = Ok sym' /\ (forall s, ~ In s (map fst l) -> look sym' s = look sym s) /\
    forall s pr v, In (s, pr) l -> from_proto ps junk pr = Ok v -> look sym' s = Some v.
Proof.
  unfold set_all. induction l as [|[s pr] l IH]; intros sym K H; [exists sym; split; [reflexivity|]; split; [auto|intros ? ? ? []]|].
  inversion K; subst. destruct (H s pr (or_introl eq_refl)) as (v & E). cbn [fold_left rbind]. rewrite E. cbn [rbind].
  destruct (IH (put sym s v) H3 (fun s' pr' I => H s' pr' (or_intror I))) as (sym' & E' & A & B). exists sym'. split; [exact E'|]. split.
  - intros s' NI. cbn in NI. rewrite A by tauto. rewrite look_put. destruct (String.eqb_spec s s'); [tauto|reflexivity].
  - intros s' pr' v' [EQ|I] E2; [|now apply B with pr']. injection EQ as -> ->. rewrite A by exact H2. rewrite look_put, String.eqb_refl. congruence.
Qed.
Definition all_of (cols : list (smap pvalue)) : smap pvalue := concat (map (fun i => set_order p i (nth i cols [])) (seq 0 n)).
Lemma in_all cols s pr : cols_ok n cols -> In (s, pr) (all_of cols) <-> exists i row, (i < n)%nat /\ Forall2 (entry i p) (vars i) row /\ Permutation row (nth i cols []) /\ In (s, pr) row.
Proof.
  intros [L C]. unfold all_of. rewrite in_concat. split.
  - intros (x & I & J). apply in_map_iff in I. destruct I as (i & <- & I). apply in_seq in I. destruct (C i ltac:(lia)) as (row & A & B). exists i, row.
    split; [lia|]. split; [exact A|]. split; [exact B|]. apply (Permutation_in _ (Permutation_sym B)). now apply (Permutation_in _ (Permutation_sym (TO p i _))).
  - intros (i & row & I & A & B & J). exists (set_order p i (nth i cols [])). split; [apply in_map_iff; exists i; split; [reflexivity|apply in_seq; lia]|].
    apply (Permutation_in _ (TO p i _)). now apply (Permutation_in _ B).
Qed.
Lemma all_names cols : cols_ok n cols -> Permutation (map fst (all_of cols)) (concat (map (fun i => map fst (vars i)) (seq 0 n))).
Proof.
  intros [L C]. unfold all_of. assert (G : forall m s, (s + m <= n)%nat -> Permutation (map fst (concat (map (fun i => set_order p i (nth i cols [])) (seq s m)))) (concat (map (fun i => map fst (vars i)) (seq s m)))).
  { induction m as [|m IH]; intros s M; [constructor|]. cbn [seq map concat]. rewrite map_app. apply Permutation_app; [|apply IH; lia].
    destruct (C s ltac:(lia)) as (row & A & B). rewrite <- (entry_keys _ _ _ _ A). apply Permutation_map. symmetry. transitivity (nth s cols []); [exact B|apply TO]. }
  apply G. lia.
Qed.
Lemma rows_all : exists rows, mapR (fun i => make_rows V n make i (vars i)) (seq 0 n) = Ok rows /\ Forall2 (fun i r => rows_ok i (vars i) r) (seq 0 n) rows.
Proof.
  apply mapR_ok. intros i I. apply in_seq in I. apply make_rows_ok; [apply KO; lia|]. intros s v IN. apply (SH i s v); [lia|exact IN].
Qed.
Notation sync := (sync V n make send_order set_order ps junk st).
Lemma sync_ok : disjoint n st -> exists sym, sync p = Ok (mkP V sym [], []) /\
  (forall s, (forall i, (i < n)%nat -> ~ In s (map fst (vars i))) -> look sym s = look (symbols V (st p)) s) /\
  forall i s v vs, (i < n)%nat -> In (s, v) (vars i) -> make i s v = Ok vs -> exists x v', nth_error vs p = Some x /\ look sym s = Some v' /\ same_value x v'.
Proof.
  intros DJ. destruct rows_all as (rows & ER & FR). destruct (all2all_ok rows FR) as (cols & EC & CO). unfold sync. rewrite ER. cbn [rbind]. rewrite EC. cbn [rbind].
  fold (all_of cols). assert (ND : keys_once (all_of cols)).
  { unfold keys_once. eapply Permutation_NoDup; [apply Permutation_sym, all_names; exact CO|].
    assert (G : forall m s, (s + m <= n)%nat -> NoDup (concat (map (fun i => map fst (vars i)) (seq s m))) /\ forall u, In u (concat (map (fun i => map fst (vars i)) (seq s m))) -> exists i, (s <= i < s + m)%nat /\ In u (map fst (vars i))).
    { induction m as [|m IH]; intros s M; cbn [seq map concat]; [split; [constructor|intros ? []]|]. destruct (IH (S s) ltac:(lia)) as [N1 I1]. split.
      - assert (DD : forall u, In u (map fst (vars s)) -> ~ In u (concat (map (fun i => map fst (vars i)) (seq (S s) m)))).
        { intros u A B. destruct (I1 u B) as (i & I & B'). pose proof (DJ s i u ltac:(lia) ltac:(lia) A B'). lia. }
        pose proof (KO s ltac:(lia)) as KS. unfold keys_once in KS. revert KS DD. generalize (map fst (vars s)). induction l as [|u l IHl]; intros KS DD; [exact N1|].
        cbn. inversion KS; subst. constructor; [|apply IHl; [assumption|intros; apply DD; now right]]. rewrite in_app_iff. intros [A|A]; [contradiction|]. now apply (DD u (or_introl eq_refl)).
      - intros u I. apply in_app_iff in I. destruct I as [I|I]; [exists s; split; [lia|exact I]|]. destruct (I1 u I) as (i & A & B). exists i. split; [lia|exact B]. }
    apply (proj1 (G n 0%nat ltac:(lia))). }
  rewrite check_ok by exact ND. cbn [rbind].
  assert (EN : forall i row, Forall2 (entry i p) (vars i) row -> forall s pr, In (s, pr) row -> exists v vs x, In (s, v) (vars i) /\ make i s v = Ok vs /\ nth_error vs p = Some x /\ carries pr x).
  { intros i row F. induction F as [|[s v] [s' pr] l l' (E & vs & x & A & B & D) F IH]; intros s0 pr0 I; [contradiction|]. cbn in E, A, D. subst s'.
    destruct I as [I|I]; [injection I as <- <-; exists v, vs, x; repeat split; try assumption; now left|]. destruct (IH _ _ I) as (v' & vs' & x' & A' & B'). exists v', vs', x'. split; [now right|exact B']. }
  destruct (set_all_ok (all_of cols) (symbols V (st p)) ND) as (sym & ES & S1 & S2).
  { intros s pr I. apply in_all in I; [|exact CO]. destruct I as (i & row & _ & F & _ & I). destruct (EN i row F s pr I) as (v & vs & x & _ & _ & _ & v' & E & _). now exists v'. }
  rewrite ES. cbn [rbind]. exists sym. split; [reflexivity|]. split.
  - intros s NI. apply S1. intros I. apply in_map_iff in I. destruct I as ([s' pr] & <- & I). apply in_all in I; [|exact CO]. destruct I as (i & row & Ii & F & _ & I).
    destruct (EN i row F s' pr I) as (v & _ & _ & IV & _). apply (NI i Ii). now apply (in_map fst) in IV.
  - intros i s v vs Ii IV EM. pose proof CO as [_ C]. destruct (C i Ii) as (row & F & PR).
    assert (exists pr x, In (s, pr) row /\ nth_error vs p = Some x /\ carries pr x) as (pr & x & IR & EX & v' & EF & SV).
    { clear PR. revert IV F. generalize (vars i). intros l IV F. induction F as [|[s0 v0] [s' pr] l l' (E & vs' & x & A & B & D) F IH]; [contradiction|]. cbn in E, A, D. subst s'.
      destruct IV as [IV|IV]; [injection IV as -> ->; exists pr, x; split; [now left|]; split; [congruence|exact D]|]. destruct (IH IV) as (pr' & x' & A' & B'). exists pr', x'. split; [now right|exact B']. }
    exists x, v'. split; [exact EX|]. split; [|exact SV]. apply (S2 s pr v'); [|exact EF]. apply in_all; [exact CO|]. now exists i, row.
Qed.
Lemma sync_dup i j s : (i < n)%nat -> (j < n)%nat -> i <> j -> In s (map fst (vars i)) -> In s (map fst (vars j)) -> sync p = Err.
Proof.
  intros Hi Hj NE IA IB. destruct rows_all as (rows & ER & FR). destruct (all2all_ok rows FR) as (cols & EC & CO). unfold sync. rewrite ER. cbn [rbind]. rewrite EC. cbn [rbind].
  fold (all_of cols). rewrite check_dup; [reflexivity|constructor|]. cbn [app]. intros ND. apply (Permutation_NoDup (all_names cols CO)) in ND.
  assert (G : forall i j, (i < j)%nat -> (j < n)%nat -> In s (map fst (vars i)) -> In s (map fst (vars j)) -> False).
  { clear - ND. intros i j IJ J A B. assert (S0 : seq 0 n = seq 0 i ++ i :: seq (S i) (n - S i)) by (replace (seq 0 n) with (seq 0 (i + S (n - S i))) by (f_equal; lia); now rewrite seq_app).
    rewrite S0, map_app, concat_app in ND. cbn [map concat] in ND. apply in_split in A. destruct A as (l1 & l2 & A). rewrite A in ND.
    assert (IT : In s (concat (map (fun i => map fst (vars i)) (seq (S i) (n - S i))))).
    { apply in_concat. exists (map fst (vars j)). split; [|exact B]. apply in_map_iff. exists j. split; [reflexivity|apply in_seq; lia]. }
    rewrite <- app_assoc in ND. cbn [app] in ND. rewrite app_assoc in ND. apply NoDup_remove_2 in ND. apply ND. rewrite in_app_iff. right. rewrite in_app_iff. now right. }
  destruct (Nat.lt_ge_cases i j); [now apply (G i j)|]. apply (G j i); auto. lia.
Qed.
End Party.
End Sync.
