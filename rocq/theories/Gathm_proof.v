(* The two loops of Gather write every element of the result. *)
From Coq Require Import ZifyNat ZifyBool.
From Verif Require Import Base Ring_model Perm_model Scan_model Fold Dyn_spec Dynw_proof Mm_model Mm_spec Mm_proof Mmt_proof Redn_model Redn_spec Redn_proof Gath_model Gath_spec Gath_proof.
Open Scope nat_scope.

Section Main.
Context {A : Type}.
Variable cfg : gather_config.
Notation ivd := (index_vector_dim cfg).
Notation od := (offset_dims cfg).
Notation cd := (collapsed_dims cfg).
Notation sim := (start_index_map cfg).
Notation sizes := (slice_sizes cfg).
Notation off := (binary_search (offset_dims cfg)).
Notation coll := (binary_search (collapsed_dims cfg)).
Variables (sh ssh rs : list nat) (a u : nat -> A) (si : nat -> Z).
Hypothesis FIT : gather_fits sh ssh rs sizes ivd od cd sim.
Hypothesis RP : 0 < numel rs.
Notation rank := (length sh).
Let ssh' := if ivd =? length ssh then ssh ++ [1] else ssh.

Let Iod : increasing od. Proof. apply FIT. Qed.
Let Icd : increasing cd. Proof. apply FIT. Qed.
Let Rod : Forall (fun i => i < length rs) od. Proof. apply FIT. Qed.
Let Rcd : Forall (fun i => i < rank) cd. Proof. apply FIT. Qed.
Let Nsim : NoDup sim. Proof. apply FIT. Qed.
Let Lsz : length sizes = rank. Proof. apply FIT. Qed.
Let Csz : forall i, In i cd -> nth i sizes 0 = 1. Proof. apply FIT. Qed.
Let Epick : pick od rs = drop_at cd sizes. Proof. apply FIT. Qed.
Let Livd : ivd <= length (drop_at od rs). Proof. apply FIT. Qed.
Let Essh : ssh' = insert_at ivd (length sim) (drop_at od rs). Proof. apply FIT. Qed.
Lemma sizes_le i : nth i sizes 0 <= nth i sh 0.
Proof.
  assert (F : Forall2 le sizes sh) by apply FIT. clear -F. revert i. induction F as [|x y l m H F IH]; intros i; [destruct i; cbn; lia|]. destruct i; cbn; [exact H|apply IH].
Qed.
Lemma off_in i : off i = if in_dec Nat.eq_dec i od then true else false. Proof. apply binary_search_ok, Iod. Qed.
Lemma coll_in i : coll i = if in_dec Nat.eq_dec i cd then true else false. Proof. apply binary_search_ok, Icd. Qed.

Definition kept : list nat := filter (fun i => negb (coll i)) (seq 0 rank).
Lemma kept_drop l : length l = rank -> drop_at cd l = map (fun i => nth i l 0) kept.
Proof. intros L. unfold drop_at, kept. rewrite L. f_equal. apply filter_ext_in'. intros i _. rewrite coll_in. now destruct (in_dec Nat.eq_dec i cd). Qed.
Lemma w2o_od : window_to_output cfg rs = od.
Proof.
  unfold window_to_output. rewrite <- (filter_members od 0 (length rs) Iod) at 2. { apply filter_ext_in'. intros i _. apply off_in. }
  apply Forall_forall. intros i Hi. rewrite Forall_forall in Rod. specialize (Rod i Hi). lia.
Qed.
Lemma kept_len : length kept = length od.
Proof. pose proof (f_equal (@length nat) Epick) as E. rewrite kept_drop in E by exact Lsz. unfold pick in E. rewrite !map_length in E. now symmetry. Qed.
Lemma kept_sizes i o : In (i, o) (combine kept od) -> nth i sizes 0 = nth o rs 0.
Proof.
  pose proof Epick as E. rewrite kept_drop in E by exact Lsz. unfold pick in E. clear -E. revert E. generalize kept. generalize od.
  induction l as [|x l IH]; intros [|y m] E Hin; cbn in *; try discriminate; try contradiction. injection E as E0 E. destruct Hin as [H|H]; [injection H as -> ->; now symmetry|now apply (IH m)].
Qed.

(* the dimensions of the operand in the result *)
Variable m2o : list (option nat).
Hypothesis M2 : dim_to_output cfg (window_to_output cfg rs) (seq 0 rank) 0 = Ok m2o.
Lemma m2o_ok : length m2o = rank /\ (forall i, i < rank -> nth i m2o None = None -> In i cd) /\
  (forall i o, (i < rank /\ nth i m2o None = Some o) <-> In (i, o) (combine kept od)).
Proof.
  destruct (dim_to_output_ok cfg (window_to_output cfg rs) (seq 0 rank) 0) as (m & E & L & N & P). { rewrite w2o_od. fold kept. rewrite kept_len. lia. }
  rewrite M2 in E. injection E as <-. rewrite seq_length in L. split; [exact L|]. rewrite <- L in N, P. split.
  - intros i Hi Q. assert (C : coll i = true) by (apply N; rewrite (in_combine_seq None); split; [lia|exact Q]). rewrite coll_in in C. destruct (in_dec Nat.eq_dec i cd); [assumption|discriminate].
  - intros i o. rewrite <- (w2o_od). specialize (P i o). rewrite (in_combine_seq None), L in P. exact P.
Qed.
Lemma m2o_coll i : i < rank -> In i cd -> nth i m2o None = None.
Proof.
  intros L I. destruct (nth i m2o None) as [o|] eqn:E; [|reflexivity]. destruct m2o_ok as (_ & _ & P). pose proof (proj1 (P i o) (conj L E)) as H. apply in_combine_l in H.
  unfold kept in H. apply filter_In in H. destruct H as [_ H]. rewrite coll_in in H. destruct (in_dec Nat.eq_dec i cd); [discriminate|contradiction].
Qed.
Lemma m2o_od i o : nth i m2o None = Some o -> In o od /\ o < length rs /\ i < rank /\ nth o rs 0 = nth i sizes 0.
Proof.
  intros E. destruct m2o_ok as (L & _ & P). assert (Hi : i < rank). { destruct (Nat.lt_ge_cases i rank); [assumption|]. rewrite nth_overflow in E by lia. discriminate. }
  pose proof (proj1 (P i o) (conj Hi E)) as H. pose proof (in_combine_r _ _ _ _ H) as I. split; [exact I|]. rewrite Forall_forall in Rod. split; [now apply Rod|]. split; [exact Hi|]. symmetry. now apply kept_sizes.
Qed.

(* the parts of a result index *)
Definition mb (r : list nat) : list nat := map (fun i => if off i then 0 else nth i r 0) (seq 0 (length rs)).
Definition mo (r : list nat) : list nat := map (fun i => if off i then nth i r 0 else 0) (seq 0 (length rs)).
Notation bc := (batch_count cfg rs).
Definition oc : list nat := map (fun i => if off i then nth i rs 0 else 1) (seq 0 (length rs)).
Lemma oc_ok : offset_count cfg (seq 0 (length rs)) 0 = Ok oc.
Proof.
  apply offset_count_ok; [exact Icd|]. fold (window_to_output cfg rs). rewrite w2o_od. rewrite Nat.sub_0_r, Lsz. fold kept. rewrite <- kept_drop by exact Lsz. exact Epick.
Qed.
Lemma rs_pos i : i < length rs -> 0 < nth i rs 0. Proof. apply numel_pos, RP. Qed.
Lemma bc_pos : 0 < numel bc.
Proof. apply numel_pos. unfold batch_count. rewrite map_length, seq_length. intros i L. rewrite nth_map_seq by exact L. destruct (off i); [lia|now apply rs_pos]. Qed.
Lemma oc_pos : 0 < numel oc.
Proof. apply numel_pos. unfold oc. rewrite map_length, seq_length. intros i L. rewrite nth_map_seq by exact L. destruct (off i); [now apply rs_pos|lia]. Qed.
Lemma parts og ow : inside bc og -> inside oc ow -> let r := zipWith Nat.add og ow in inside rs r /\ mb r = og /\ mo r = ow.
Proof.
  intros B O r. pose proof (inside_len _ _ B) as LB. pose proof (inside_len _ _ O) as LO. unfold batch_count, oc in LB, LO. rewrite map_length, seq_length in LB, LO.
  assert (EB : forall i, i < length rs -> nth i og 0 < if off i then 1 else nth i rs 0).
  { intros i L. pose proof (inside_elim _ _ B i) as H. unfold batch_count in H. rewrite map_length, seq_length, nth_map_seq in H by exact L. now apply H. }
  assert (EO : forall i, i < length rs -> nth i ow 0 < if off i then nth i rs 0 else 1).
  { intros i L. pose proof (inside_elim _ _ O i) as H. unfold oc in H. rewrite map_length, seq_length, nth_map_seq in H by exact L. now apply H. }
  assert (LR : length r = length rs) by (unfold r; rewrite zip_add_len; lia). assert (ER : forall i, nth i r 0 = nth i og 0 + nth i ow 0) by (intros i; apply zip_add_nth; lia).
  split; [|split].
  - apply inside_nth; [exact LR|]. intros i L. rewrite ER. specialize (EB i L). specialize (EO i L). destruct (off i); lia.
  - apply (nth_ext _ _ 0 0); unfold mb; rewrite map_length, seq_length; [now symmetry|]. intros i L. rewrite nth_map_seq, ER by exact L. specialize (EB i L). specialize (EO i L). destruct (off i); lia.
  - apply (nth_ext _ _ 0 0); unfold mo; rewrite map_length, seq_length; [now symmetry|]. intros i L. rewrite nth_map_seq, ER by exact L. specialize (EB i L). specialize (EO i L). destruct (off i); lia.
Qed.
Lemma whole r : inside rs r -> inside bc (mb r) /\ inside oc (mo r) /\ zipWith Nat.add (mb r) (mo r) = r.
Proof.
  intros I. pose proof (inside_len _ _ I) as L. pose proof (inside_elim _ _ I) as E. split; [|split].
  - apply inside_nth; unfold mb, batch_count; rewrite ?map_length, ?seq_length; [reflexivity|]. intros i Hi. rewrite !nth_map_seq by exact Hi. specialize (E i Hi). destruct (off i); lia.
  - apply inside_nth; unfold mo, oc; rewrite ?map_length, ?seq_length; [reflexivity|]. intros i Hi. rewrite !nth_map_seq by exact Hi. specialize (E i Hi). destruct (off i); lia.
  - unfold mb, mo. rewrite zip_map. apply (nth_ext _ _ 0 0); rewrite map_length, seq_length; [now symmetry|]. intros i Hi. rewrite nth_map_seq by exact Hi. destruct (off i); lia.
Qed.

(* what one step computes *)
Definition vec_at (og : list nat) (j : nat) : Z := si (flat ssh' (insert_at ivd j (drop_at od og))).
Definition gidx (og : list nat) : list Z := map (fun i => match find_in sim i with Some j => vec_at og j | None => 0%Z end) (seq 0 rank).
Definition fidx (ow : list nat) : list nat := map (fun i => match nth i m2o None with Some o => nth o ow 0 | None => 0 end) (seq 0 rank).
Definition sidx (og : list nat) : list nat := map (fun i => Z.to_nat (Z.min (Z.of_nat (nth i sh 0 - nth i sizes 0)) (Z.max 0 (nth i (gidx og) 0%Z)))) (seq 0 rank).
Definition value (r : list nat) : A := a (flat sh (zipWith Nat.add (sidx (mb r)) (fidx (mo r)))).

Lemma idx_inside og ow : inside oc ow -> inside sh (zipWith Nat.add (sidx og) (fidx ow)).
Proof.
  intros O. apply inside_nth; unfold sidx, fidx; rewrite zip_map; [now rewrite map_length, seq_length|]. intros i Hi. rewrite nth_map_seq by exact Hi.
  set (s := Z.to_nat _). assert (S : s <= nth i sh 0 - nth i sizes 0) by (unfold s; lia). clearbody s. pose proof (sizes_le i) as Z.
  destruct (nth i m2o None) as [o|] eqn:E.
  - destruct (m2o_od i o E) as (OD & OL & _ & EQ). pose proof (inside_elim _ _ O o) as H. unfold oc in H. rewrite map_length, seq_length, nth_map_seq, off_in in H by exact OL. specialize (H OL).
    destruct (in_dec Nat.eq_dec o od); [|contradiction]. lia.
  - destruct m2o_ok as (_ & N & _). pose proof (Csz i (N i Hi E)) as C. lia.
Qed.
Lemma clamp_sidx og : clamp_dims rs sh m2o (gidx og) = map Z.of_nat (sidx og).
Proof.
  unfold clamp_dims, sidx. rewrite map_map. destruct m2o_ok as (L & N & _).
    apply (nth_ext _ _ 0%Z 0%Z). { rewrite !map_length, !combine_length. unfold gidx. rewrite map_length, !seq_length. lia. }
    intros i Hi. rewrite map_length, !combine_length in Hi. unfold gidx in Hi. rewrite map_length, seq_length in Hi. assert (Hr : i < rank) by lia. rewrite nth_map_seq by exact Hr.
    rewrite (nth_indep _ 0%Z (clamp_dim rs (None, (0, 0%Z)))) by (rewrite map_length, !combine_length; unfold gidx; rewrite map_length, seq_length; lia).
    rewrite map_nth. rewrite !combine_nth by (rewrite ?combine_length; unfold gidx; rewrite ?map_length, ?seq_length; lia). unfold clamp_dim.
    set (x := nth i (gidx og) 0%Z). clearbody x. pose proof (sizes_le i) as Z. rewrite Z2Nat.id by lia. rewrite Nat2Z.inj_sub by exact Z.
    destruct (nth i m2o None) as [o|] eqn:E; [destruct (m2o_od i o E) as (_ & _ & _ & ->); reflexivity|]. rewrite (Csz i (N i Hr E)). reflexivity.
Qed.
Lemma zip_of_nat : forall s f, zipWith Z.add (map Z.of_nat s) (map Z.of_nat f) = map Z.of_nat (zipWith Nat.add s f).
Proof. induction s as [|x s IH]; intros [|y f]; cbn; try reflexivity. rewrite IH. f_equal. lia. Qed.
Lemma in_shape_of s idx : inside s idx -> in_shape s (map Z.of_nat idx) = true.
Proof.
  intros I. unfold in_shape. rewrite map_length, (inside_len _ _ I), Nat.eqb_refl. cbn [andb]. induction I as [|d x s idx H I IH]; [reflexivity|]. cbn. rewrite IH. lia.
Qed.
Lemma to_of_nat l : map Z.to_nat (map Z.of_nat l) = l.
Proof. rewrite map_map. rewrite <- (map_id l) at 2. apply map_ext. intros x. apply Nat2Z.id. Qed.
Lemma mb_off og : inside bc og -> drop_at od (mb og) = drop_at od og.
Proof.
  intros B. pose proof (inside_len _ _ B) as L. unfold batch_count in L. rewrite map_length, seq_length in L. apply drop_at_ext; unfold mb; rewrite map_length, seq_length; [now symmetry|].
  intros i Hi N. rewrite nth_map_seq, off_in by exact Hi. destruct (in_dec Nat.eq_dec i od); [contradiction|reflexivity].
Qed.
Definition win_ok (win : list nat) : Prop := length win = rank /\ forall i, nth i m2o None = None -> nth i win 0 = 0.
Lemma fidx_ok ow : win_ok (fidx ow).
Proof.
  unfold win_ok, fidx. rewrite map_length, seq_length. split; [reflexivity|]. intros i E. destruct (Nat.lt_ge_cases i rank) as [H|H]; [rewrite nth_map_seq by exact H; now rewrite E|].
  apply nth_overflow. now rewrite map_length, seq_length.
Qed.
Lemma inner_step og ow win z : inside bc og -> inside oc ow -> win_ok win ->
  inner_body (sh, a) rs m2o (gidx og) og ow (win, z) = Ok (fidx ow, fun p => if p =? flat rs (zipWith Nat.add og ow) then value (zipWith Nat.add og ow) else z p).
Proof.
  intros B O [WL W0]. destruct m2o_ok as (LM & _ & _). destruct (parts og ow B O) as (IR & EB & EO). unfold inner_body. rewrite (set_from_ok 0).
  2:{ lia. } 2:{ intros i o E. destruct (m2o_od i o E) as (_ & H & _). rewrite (inside_len _ _ O). unfold oc. now rewrite map_length, seq_length. }
  assert (E : map (fun i => match nth i m2o None with Some j => nth j ow 0 | None => nth i win 0 end) (seq 0 (length m2o)) = fidx ow).
  { unfold fidx. rewrite LM. apply map_ext. intros i. destruct (nth i m2o None) eqn:Q; [reflexivity|]. now apply W0. }
  rewrite E. cbn [rbind fst]. rewrite clamp_sidx, zip_of_nat. unfold read_at. cbn [fst snd]. rewrite in_shape_of by now apply idx_inside. cbn [rbind]. unfold write_at. rewrite in_shape_of by exact IR. cbn [rbind].
  rewrite to_of_nat, !position_flat. unfold value. now rewrite EB, EO.
Qed.
Definition hit_inner (og ow : list nat) (p : nat) : bool := p =? flat rs (zipWith Nat.add og ow).
Lemma inner_loop og wz : inside bc og -> win_ok (fst wz) -> exists wz', loop (inner_body (sh, a) rs m2o (gidx og) og) (for_each oc) wz = Ok wz' /\ win_ok (fst wz') /\
  forall p, snd wz' p = if existsb (fun ow => hit_inner og ow p) (indices oc) then value (index_of rs p) else snd wz p.
Proof.
  intros B W. rewrite for_each_ok by exact oc_pos.
  apply (loop_writes _ (fun st => win_ok (fst st)) snd (fun ow p => hit_inner og ow p) (fun p => value (index_of rs p))); [|exact W].
  intros ow [win z] I Wn. apply in_indices in I. eexists. split; [apply inner_step; [exact B|exact I|exact Wn]|]. cbn [fst snd]. split; [apply fidx_ok|]. intros p. unfold hit_inner.
  destruct (Nat.eqb_spec p (flat rs (zipWith Nat.add og ow))) as [->|]; [|reflexivity]. rewrite index_of_flat; [reflexivity|]. now apply parts.
Qed.
Lemma bc_len : length bc = length rs. Proof. unfold batch_count. now rewrite map_length, seq_length. Qed.
Lemma ssh_inside og j : inside bc og -> j < length sim -> inside ssh' (insert_at ivd j (drop_at od og)).
Proof.
  intros B J. rewrite Essh. apply insert_inside; [exact Livd|exact J|]. replace (drop_at od rs) with (drop_at od bc); [now apply drop_at_inside|].
  apply drop_at_ext; [exact bc_len|]. rewrite bc_len. intros i Hi N. unfold batch_count. rewrite nth_map_seq, off_in by exact Hi. destruct (in_dec Nat.eq_dec i od); [contradiction|reflexivity].
Qed.
Definition hit_outer (og : list nat) (p : nat) : bool := existsb (fun ow => hit_inner og ow p) (indices oc).
Definition outer_ok (st : list nat * list Z * list Z * (list nat * (nat -> A))) : Prop :=
  let '(buf, vec, inp, wz) := st in length buf = length ssh' /\ length vec = length sim /\ length inp = rank /\ (forall i, find_in sim i = None -> nth i inp 0%Z = 0%Z) /\ win_ok (fst wz).
Lemma gidx_none og i : find_in sim i = None -> nth i (gidx og) 0%Z = 0%Z.
Proof.
  intros E. unfold gidx. destruct (Nat.lt_ge_cases i rank) as [H|H]; [rewrite nth_map_seq by exact H; now rewrite E|]. apply nth_overflow. now rewrite map_length, seq_length.
Qed.
Lemma outer_step og st : inside bc og -> outer_ok st -> exists st', outer_body cfg (sh, a) (ssh', si) (length sim) rs oc (dim_to_vector cfg rank) m2o og st = Ok st' /\ outer_ok st' /\
  forall p, snd (snd st') p = if hit_outer og p then value (index_of rs p) else snd (snd st) p.
Proof.
  intros B. destruct st as [[[buf vec] inp] wz]. intros (LB & LV & LI & I0 & W). unfold outer_body.
  pose proof (inside_len _ _ B) as LO. rewrite bc_len in LO. assert (BD : batch_of cfg (seq 0 (length rs)) og = drop_at od og) by (rewrite <- LO; apply batch_of_drop, Iod).
  assert (LD : length (drop_at od og) = length (drop_at od rs)) by (unfold drop_at; rewrite !map_length, LO; reflexivity).
  assert (LS : length ssh' = S (length (drop_at od rs))) by (rewrite Essh; now apply insert_len).
  destruct (set_batch_insert cfg (seq 0 (length rs)) og buf) as (b1 & E1 & L1 & P1); [now rewrite seq_length|rewrite BD; lia|lia|]. rewrite E1. cbn [rbind].
  destruct (fetch_ok cfg (ssh', si) (length sim) (drop_at od og)) with (js := seq 0 (length sim)) (buf := b1) (vec := vec) as (b2 & v2 & E2 & L2 & L2' & P2).
  { intros j J. cbn [fst]. now apply ssh_inside. } { intros j J. apply in_seq in J. lia. } { exact LV. } { rewrite <- BD. exact P1. }
  rewrite E2. cbn [rbind]. cbn [fst snd] in P2.
  rewrite (set_from_ok 0%Z); [|unfold dim_to_vector; rewrite map_length, seq_length; exact LI|].
  2:{ intros i j E. unfold dim_to_vector in E. destruct (Nat.lt_ge_cases i rank) as [H|H]; [|rewrite nth_overflow in E by (rewrite map_length, seq_length; exact H); discriminate].
      rewrite nth_map_seq in E by exact H. apply find_in_some in E. rewrite L2'. apply nth_error_Some. congruence. }
  assert (G : map (fun i => match nth i (dim_to_vector cfg rank) None with Some j => nth j v2 0%Z | None => nth i inp 0%Z end) (seq 0 (length (dim_to_vector cfg rank))) = gidx og).
  { unfold gidx, dim_to_vector. rewrite map_length, seq_length. apply map_ext_in. intros i Hi. apply in_seq in Hi. rewrite nth_map_seq by lia. destruct (find_in sim i) as [j|] eqn:E; [|now apply I0].
    apply find_in_some in E. assert (j < length sim) by (apply nth_error_Some; congruence). rewrite P2. destruct (in_dec Nat.eq_dec j (seq 0 (length sim))) as [|N]; [reflexivity|]. exfalso. apply N, in_seq. lia. }
  rewrite G. cbn [rbind]. destruct (inner_loop og wz B W) as (wz' & E3 & W' & P3). rewrite E3. cbn [rbind]. eexists. split; [reflexivity|]. split; [|exact P3].
  split; [lia|]. split; [exact L2'|]. split; [unfold gidx; now rewrite map_length, seq_length|]. split; [|exact W']. intros i E. now apply gidx_none.
Qed.
Lemma loops_ok : exists st, loop (outer_body cfg (sh, a) (ssh', si) (length sim) rs oc (dim_to_vector cfg rank) m2o) (for_each bc)
    (map (fun _ => 0) ssh', repeat 0%Z (length sim), repeat 0%Z rank, (repeat 0 rank, u)) = Ok st /\
  forall r, inside rs r -> snd (snd st) (flat rs r) = value r.
Proof.
  rewrite for_each_ok by exact bc_pos.
  destruct (loop_writes (outer_body cfg (sh, a) (ssh', si) (length sim) rs oc (dim_to_vector cfg rank) m2o) outer_ok (fun st => snd (snd st)) hit_outer (fun p => value (index_of rs p)) (indices bc))
    with (st := (map (fun _ : nat => 0) ssh', repeat 0%Z (length sim), repeat 0%Z rank, (repeat 0 rank, u))) as (st & E & _ & P).
  - intros og st I O. apply in_indices in I. now apply outer_step.
  - unfold outer_ok, win_ok. rewrite map_length, !repeat_length. cbn [fst]. rewrite repeat_length. repeat (split; [reflexivity|]). split; [intros i _; apply nth_repeat|]. split; [reflexivity|]. intros i _. apply nth_repeat.
  - exists st. split; [exact E|]. intros r I. rewrite P. destruct (whole r I) as (B & O & Z). replace (existsb (fun og => hit_outer og (flat rs r)) (indices bc)) with true; [now rewrite index_of_flat|].
    symmetry. apply existsb_exists. exists (mb r). split; [now apply in_indices|]. unfold hit_outer. apply existsb_exists. exists (mo r). split; [now apply in_indices|]. unfold hit_inner. rewrite Z. apply Nat.eqb_refl.
Qed.
Lemma fidx_spec r : inside rs r -> drop_at cd (fidx (mo r)) = pick od r.
Proof.
  intros I. rewrite kept_drop by (unfold fidx; now rewrite map_length, seq_length). unfold pick.
  assert (H : forall i o, In (i, o) (combine kept od) -> nth i (fidx (mo r)) 0 = nth o r 0).
  { intros i o Hio. destruct m2o_ok as (_ & _ & P). destruct (proj2 (P i o) Hio) as [Hi E]. unfold fidx. rewrite nth_map_seq, E by exact Hi. destruct (m2o_od i o E) as (OD & OL & _).
    unfold mo. rewrite nth_map_seq, off_in by exact OL. destruct (in_dec Nat.eq_dec o od); [reflexivity|contradiction]. }
  pose proof kept_len as L. revert H L. generalize kept. generalize od. induction l as [|x l IH]; intros [|y m] H L; cbn in *; try lia; [reflexivity|]. f_equal; [apply H; now left|]. apply IH; [|lia]. intros i o Hio. apply H. now right.
Qed.
Lemma value_spec r : inside rs r -> exists s f : list nat, length s = rank /\ length f = rank /\
  (forall j d, nth_error sim j = Some d ->
     let x := si (flat ssh (if ivd =? length ssh then drop_at od r else insert_at ivd j (drop_at od r))) in
     Z.of_nat (nth d s 0) = Z.min (Z.of_nat (nth d sh 0 - nth d sizes 0)) (Z.max 0 x)) /\
  (forall d, ~ In d sim -> nth d s 0 = 0) /\ drop_at cd f = pick od r /\ (forall d, In d cd -> nth d f 0 = 0) /\
  inside sh (zipWith Nat.add s f) /\ value r = a (flat sh (zipWith Nat.add s f)).
Proof.
  intros I. destruct (whole r I) as (B & O & Z). exists (sidx (mb r)), (fidx (mo r)). split; [unfold sidx; now rewrite map_length, seq_length|]. split; [unfold fidx; now rewrite map_length, seq_length|].
  assert (DR : drop_at od (mb r) = drop_at od r).
  { pose proof (inside_len _ _ I) as L. apply drop_at_ext; unfold mb; rewrite map_length, seq_length; [now symmetry|]. intros i Hi N. rewrite nth_map_seq, off_in by exact Hi. destruct (in_dec Nat.eq_dec i od); [contradiction|reflexivity]. }
  split; [|split; [|split; [|split; [|split]]]].
  - intros j d E x. assert (Rd : d < rank). { assert (F : Forall (fun i => i < rank) sim) by apply FIT. rewrite Forall_forall in F. apply F. eapply nth_error_In. exact E. }
    assert (Jl : j < length sim) by (apply nth_error_Some; congruence).
    unfold sidx. rewrite nth_map_seq by exact Rd. unfold gidx. rewrite nth_map_seq by exact Rd. rewrite (find_in_nth sim d j Nsim E). unfold vec_at. rewrite DR.
    assert (X : flat ssh' (insert_at ivd j (drop_at od r)) = flat ssh (if ivd =? length ssh then drop_at od r else insert_at ivd j (drop_at od r))).
    { pose proof Essh as ES. unfold ssh' in ES |- *. destruct (Nat.eqb_spec ivd (length ssh)) as [EI|]; [|reflexivity].
      assert (LB : length (drop_at od rs) = length ssh) by (pose proof (f_equal (@length nat) ES) as K; rewrite app_length, insert_len in K by exact Livd; cbn in K; lia).
      assert (LR : length (drop_at od r) = length ssh) by (rewrite <- LB; unfold drop_at; now rewrite !map_length, (inside_len _ _ I)).
      unfold insert_at in ES. rewrite firstn_all2, skipn_all2 in ES by lia. apply app_inj_tail in ES. destruct ES as [ES E1].
      unfold insert_at. rewrite firstn_all2, skipn_all2 by lia. rewrite flat_app; [|rewrite ES; now apply drop_at_inside]. replace j with 0 by lia. cbn. lia. }
    rewrite X. fold x. lia.
  - intros d N. destruct (Nat.lt_ge_cases d rank) as [H|H]; [|apply nth_overflow; unfold sidx; now rewrite map_length, seq_length]. unfold sidx. rewrite nth_map_seq by exact H. rewrite gidx_none; [lia|].
    destruct (find_in sim d) eqn:E; [|reflexivity]. exfalso. apply N. apply find_in_some in E. eapply nth_error_In. exact E.
  - now apply fidx_spec.
  - intros d Hd. rewrite Forall_forall in Rcd. pose proof (Rcd d Hd) as L. unfold fidx. rewrite nth_map_seq by exact L. now rewrite m2o_coll.
  - now apply idx_inside.
  - reflexivity.
Qed.
End Main.

Theorem gather_ok {A} cfg sh ssh rs (a u : nat -> A) si :
  gather_fits sh ssh rs (slice_sizes cfg) (index_vector_dim cfg) (offset_dims cfg) (collapsed_dims cfg) (start_index_map cfg) -> 0 < numel sh -> 0 < numel rs ->
  exists z, gather cfg u (sh, a) (ssh, si) rs = Ok (rs, z) /\
  is_gathered sh ssh rs (slice_sizes cfg) (index_vector_dim cfg) (offset_dims cfg) (collapsed_dims cfg) (start_index_map cfg) a si z.
Proof.
  intros F PS PR. unfold gather. cbn [fst]. change (total_size sh) with (numel sh). destruct (Nat.eqb_spec (numel sh) 0); [lia|].
  set (ssh' := if index_vector_dim cfg =? length ssh then ssh ++ [1] else ssh).
  assert (RI : reshaped_indices cfg (ssh, si) = Ok (ssh', si)).
  { unfold reshaped_indices, ssh'. cbn [fst]. rewrite Nat.eqb_sym. destruct (index_vector_dim cfg =? length ssh); [|reflexivity]. unfold reshaped. cbn [fst snd].
    replace (total_size (ssh ++ [1])) with (total_size ssh); [now rewrite Nat.eqb_refl|]. clear. unfold total_size. induction ssh as [|d l IH]; cbn in *; [reflexivity|]. now rewrite IH. }
  rewrite RI. cbn [rbind fst].
  assert (E : ssh' = insert_at (index_vector_dim cfg) (length (start_index_map cfg)) (drop_at (offset_dims cfg) rs)) by apply F.
  assert (L : index_vector_dim cfg <= length (drop_at (offset_dims cfg) rs)) by apply F.
  assert (NE : nth_error ssh' (index_vector_dim cfg) = Some (length (start_index_map cfg))).
  { rewrite (nth_error_nth' _ 0) by (rewrite E, insert_len; lia). f_equal. rewrite E, insert_nth by exact L. rewrite Nat.ltb_irrefl, Nat.eqb_refl. reflexivity. }
  rewrite NE. rewrite (oc_ok cfg sh ssh rs a u si F PR). cbn [rbind].
  destruct (dim_to_output_ok cfg (window_to_output cfg rs) (seq 0 (length sh)) 0) as (m & Em & _). { rewrite (w2o_od cfg sh ssh rs a u si F PR). fold (kept cfg sh). rewrite (kept_len cfg sh ssh rs F). lia. }
  rewrite Em. cbn [rbind]. destruct (loops_ok cfg sh ssh rs a u si F PR m Em) as (st & Es & P). fold ssh' in Es. rewrite Es. cbn [rbind]. eexists. split; [reflexivity|].
  intros r I. rewrite (P r I). now apply (value_spec cfg sh ssh rs a u si F PR m Em).
Qed.

(* a result without elements is never returned for an operand with elements: the loops run once all the same *)
Lemma inside_numel sh idx : inside sh idx -> 0 < numel sh.
Proof. intros I. pose proof (flat_lt _ _ I). lia. Qed.
Lemma in_shape_inside sh idx : in_shape sh (map Z.of_nat idx) = true -> inside sh idx.
Proof.
  unfold in_shape. rewrite map_length. intros H. apply andb_true_iff in H. destruct H as [L H]. apply Nat.eqb_eq in L. revert sh L H. induction idx as [|x idx IH]; intros [|d sh] L H; cbn in L, H; try lia; [constructor|].
  apply andb_true_iff in H. destruct H as [H0 H]. constructor; [lia|]. apply IH; [lia|exact H].
Qed.
Lemma inner_never {A} (v : @arr A) rs m2o g og ow st st' : numel rs = 0 -> inner_body v rs m2o g og ow st = Ok st' -> False.
Proof.
  intros N. unfold inner_body. destruct st as [win z]. destruct (set_from m2o ow win) as [w| |]; cbn [rbind]; try discriminate. destruct (read_at v _) as [x| |]; cbn [rbind]; try discriminate.
  unfold write_at. destruct (in_shape rs _) eqn:E; cbn [rbind]; [|discriminate]. apply in_shape_inside, inside_numel in E. lia.
Qed.
Theorem gather_empty_never {A} cfg u (v : @arr A) si rs z : 0 < numel (fst v) -> numel rs = 0 -> gather cfg u v si rs <> Ok z.
Proof.
  intros P N. unfold gather. change (total_size (fst v)) with (numel (fst v)). destruct (Nat.eqb_spec (numel (fst v)) 0); [lia|].
  destruct (reshaped_indices cfg si) as [si'| |]; cbn [rbind]; try discriminate. destruct (nth_error (fst si') (index_vector_dim cfg)) as [k|]; [|discriminate].
  destruct (offset_count cfg _ 0) as [oc| |]; cbn [rbind]; try discriminate. destruct (dim_to_output cfg _ _ 0) as [m| |]; cbn [rbind]; try discriminate.
  unfold for_each at 1. cbn [visit loop]. set (st := (_, _, _, _)). destruct (outer_body cfg v si' k rs oc _ m _ st) as [st'| |] eqn:E; cbn [rbind]; try discriminate. exfalso.
  unfold outer_body, st in E. destruct (set_batch cfg _ _ 0 _) as [b| |]; cbn [rbind] in E; try discriminate. destruct (fetch_vector cfg si' _ b _) as [[b' v']| |]; cbn [rbind] in E; try discriminate.
  destruct (set_from _ v' _) as [g| |]; cbn [rbind] in E; try discriminate. unfold for_each in E. cbn [visit loop] in E.
  destruct (inner_body v rs m g _ _ _) as [w| |] eqn:E'; cbn [rbind] in E; try discriminate. exact (inner_never _ _ _ _ _ _ _ _ N E').
Qed.
Lemma gather_no_elements {A} cfg u (v : @arr A) si rs : numel (fst v) = 0 -> gather cfg u v si rs = Ok v.
Proof. intros H. unfold gather. change (total_size (fst v)) with (numel (fst v)). now rewrite H. Qed.

(* ---- vectors ---- *)
Lemma linear_get_ok {A} (v : list A) : forall ix, Forall (fun i => (0 <= i < Z.of_nat (length v))%Z) ix ->
  exists r, linear_get v ix = Ok r /\ length r = length ix /\ forall j, j < length ix -> nth_error r j = nth_error v (Z.to_nat (nth j ix 0%Z)).
Proof.
  induction ix as [|i ix IH]; intros F; [exists []; split; [reflexivity|]; split; [reflexivity|]; intros j H; cbn in H; lia|]. inversion F as [|? ? H F']; subst. destruct (IH F') as (r & E & L & P). cbn [linear_get].
  destruct (Z.leb_spec 0 i); [|lia]. destruct (nth_error v (Z.to_nat i)) as [x|] eqn:X; [|apply nth_error_None in X; lia]. rewrite E. exists (x :: r). cbn [rbind length]. split; [reflexivity|]. split; [lia|].
  intros [|j] J; cbn [nth_error nth]; [now rewrite X|]. apply P. lia.
Qed.
Lemma linear_get_bad {A} (v : list A) ix : ~ Forall (fun i => (0 <= i < Z.of_nat (length v))%Z) ix -> linear_get v ix = Ub.
Proof.
  induction ix as [|i ix IH]; intros F; [exfalso; apply F; constructor|]. cbn [linear_get]. destruct (Z.leb_spec 0 i); [|reflexivity]. destruct (nth_error v (Z.to_nat i)) as [x|] eqn:X; [|reflexivity].
  rewrite IH; [reflexivity|]. intros C. apply F. constructor; [|exact C]. assert (Z.to_nat i < length v) by (apply nth_error_Some; congruence). lia.
Qed.
Lemma linear_put_ok {A} (w : list A) : forall ix v, length ix <= length w -> Forall (fun i => (0 <= i < Z.of_nat (length v))%Z) ix ->
  exists r, linear_put v ix w = Ok r /\ length r = length v /\
  (forall p, ~ In (Z.of_nat p) ix -> nth_error r p = nth_error v p) /\
  (forall j, j < length ix -> (forall l, j < l < length ix -> nth l ix 0%Z <> nth j ix 0%Z) -> nth_error r (Z.to_nat (nth j ix 0%Z)) = nth_error w j).
Proof.
  assert (SA : forall (l : list A) n x p, n < length l -> nth_error (set_at l n x) p = if p =? n then Some x else nth_error l p).
  { induction l as [|y l IH]; intros [|n] x [|p] H; cbn in *; try lia; auto. apply IH. lia. }
  revert w. intros w ix. revert w. induction ix as [|i ix IH]; intros w v L F.
  - exists v. cbn [linear_put]. split; [reflexivity|]. split; [reflexivity|]. split; [reflexivity|]. intros j H. cbn in H. lia.
  - destruct w as [|x w]; cbn [length] in L; [lia|]. inversion F as [|? ? H F']; subst. cbn [linear_put]. destruct ((0 <=? i) && (i <? Z.of_nat (length v)))%Z eqn:B; [|lia].
    destruct (IH w (set_at v (Z.to_nat i) x)) as (r & E & RL & R1 & R2); [lia|now rewrite set_at_len|]. exists r. split; [exact E|]. split; [now rewrite RL, set_at_len|]. split.
    + intros p N. rewrite R1 by (intros C; apply N; now right). rewrite SA by lia. destruct (Nat.eqb_spec p (Z.to_nat i)) as [->|]; [|reflexivity]. exfalso. apply N. left. lia.
    + intros [|j] J U; cbn [nth nth_error].
      * assert (NI : ~ In (Z.of_nat (Z.to_nat i)) ix).
        { rewrite Z2Nat.id by lia. intros C. apply (In_nth _ _ 0%Z) in C. destruct C as (l & Ll & C). exact (U (S l) ltac:(cbn; lia) C). }
        rewrite (R1 _ NI), SA, Nat.eqb_refl by lia. reflexivity.
      * apply R2; [cbn in J; lia|]. intros l Hl. apply (U (S l)). cbn. lia.
Qed.
Lemma filter_by_mask_ok {A} (v : list A) mask : length mask = length v -> filter_by_mask v mask = Ok (selected v mask).
Proof.
  intros L. unfold filter_by_mask. rewrite L, Nat.eqb_refl.
  enough (G : forall pre, linear_get (pre ++ v) (mask_positions mask (Z.of_nat (length pre))) = Ok (selected v mask)) by exact (G []).
  revert mask L. induction v as [|x v IH]; intros [|m mask] L pre; cbn in L; try lia; [reflexivity|]. cbn [mask_positions].
  assert (Q : (Z.of_nat (length pre) + 1 = Z.of_nat (length (pre ++ [x])))%Z) by (rewrite app_length; cbn; lia). rewrite Q. replace (pre ++ x :: v) with ((pre ++ [x]) ++ v) by now rewrite <- app_assoc.
  unfold selected. cbn [combine filter fst]. destruct (Z.eqb_spec m 0); cbn [negb map snd]; [apply IH; lia|]. cbn [linear_get]. destruct (Z.leb_spec 0 (Z.of_nat (length pre))); [|lia].
  rewrite Nat2Z.id. rewrite <- app_assoc. cbn [app]. rewrite nth_error_app2, Nat.sub_diag by lia. cbn [nth_error]. change (x :: v) with ([x] ++ v). rewrite app_assoc. rewrite IH by lia. reflexivity.
Qed.
