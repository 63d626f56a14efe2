From Verif Require Import Base Ring_model Ring_spec Semi_model Share_spec Party Semi_proof Prg_model Prg_spec.
Open Scope Z_scope.

(* a single stream as a machine: live streams (seed, position) *)
Section Stream.
Variable fill : Z -> Z -> nat -> list Z * Z.
Variable shuffle : Z -> Z -> nat -> list nat * Z.
Definition sstep (F : list (Z * Z)) (d : draw) : res (list (Z * Z) * list value) :=
  match d with
  | DBytes i b => match nth_error F i with Some s => let '(v, c) := fill (fst s) (snd s) b in Ok (set_nth F i (fst s, c), [VBytes v]) | None => Ub end
  | DPerm i m => match nth_error F i with Some s => let '(v, c) := shuffle (fst s) (snd s) m in Ok (set_nth F i (fst s, c), [VPerm v]) | None => Ub end
  | DFork i => match nth_error F i with Some s => let '(v, c) := fill (fst s) (snd s) 16 in Ok (set_nth F i (fst s, c) ++ [(le_word v, 0)], []) | None => Ub end
  end.
Fixpoint srun (F : list (Z * Z)) (h : list draw) : res (list (Z * Z) * list value) :=
  match h with
  | [] => Ok (F, [])
  | d :: r => rbind (sstep F d) (fun '(F1, v) => rbind (srun F1 r) (fun '(F2, vs) => Ok (F2, v ++ vs)))
  end.
Lemma srun_app h1 : forall F h2, srun F (h1 ++ h2) = rbind (srun F h1) (fun '(F1, v1) => rbind (srun F1 h2) (fun '(F2, v2) => Ok (F2, v1 ++ v2))).
Proof.
  induction h1 as [|d h1 IH]; intros F h2; cbn [app srun].
  - cbn [rbind]. destruct (srun F h2) as [[F2 v2]| |]; reflexivity.
  - destruct (sstep F d) as [[F1 v]| |]; cbn [rbind]; [|reflexivity|reflexivity]. rewrite IH.
    destruct (srun F1 h1) as [[F2 v2]| |]; cbn [rbind]; [|reflexivity|reflexivity].
    destruct (srun F2 h2) as [[F3 v3]| |]; cbn [rbind]; [|reflexivity|reflexivity]. now rewrite app_assoc.
Qed.
Definition s0 (s : prg) : Z * Z := (self_seed s, r0_ctr s).
Definition s1 (s : prg) : Z * Z := (next_seed s, r1_ctr s).
Lemma map_set_nth {A B} (f : A -> B) l : forall i x, map f (set_nth l i x) = set_nth (map f l) i (f x).
Proof. induction l as [|y l IH]; intros [|i] x; cbn [set_nth map]; auto. now rewrite IH. Qed.
Lemma set_nth_same {A} (l : list A) : forall i x, nth_error l i = Some x -> set_nth l i x = l.
Proof. induction l as [|y l IH]; intros [|i] x; cbn; intros H; try discriminate; [now injection H as ->|]. now rewrite IH. Qed.

Lemma step_first fresh F o F' r : prg_step fill shuffle fresh F o = Ok (F', r) ->
  srun (map s0 F) (first_draw o) = Ok (map s0 F', first_value r).
Proof.
  unfold prg_step. destruct (nth_error F (op_id o)) as [s|] eqn:E; [|discriminate].
  assert (E0 : nth_error (map s0 F) (op_id o) = Some (s0 s)) by (rewrite nth_error_map, E; reflexivity).
  assert (SAME : forall s', s0 s' = s0 s -> map s0 (set_nth F (op_id o) s') = map s0 F).
  { intros s' H. rewrite map_set_nth, H. now apply set_nth_same. }
  destruct o as [i b c|i m|i b|i b|i m|i]; cbn [op_id] in *.
  - unfold fill_prss. destruct (fill (self_seed s) (r0_ctr s) b) as [b0 c0] eqn:F0. destruct (fill (next_seed s) (r1_ctr s) b) as [b1 c1].
    destruct c; intros H; injection H as <- <-; cbn [first_draw first_value srun sstep]; rewrite ?E0; cbn [s0 fst snd]; rewrite ?F0; cbn [rbind app];
      rewrite ?map_set_nth; try reflexivity. unfold s0 at 2. cbn [self_seed r0_ctr]. fold (s0 s). now rewrite set_nth_same.
  - destruct (shuffle (self_seed s) (r0_ctr s) m) as [p0 c0] eqn:F0. destruct (shuffle (next_seed s) (r1_ctr s) m) as [p1 c1].
    intros H; injection H as <- <-. cbn [first_draw first_value srun sstep]. rewrite E0. cbn [s0 fst snd]. rewrite F0. cbn [rbind app]. now rewrite map_set_nth.
  - unfold fill_publ. destruct (fill (pub_seed s) _ b) as [b0 c0]. intros H; injection H as <- <-. cbn [first_draw first_value srun]. now rewrite SAME.
  - destruct (fill (priv_seed s) _ b) as [b0 c0]. intros H; injection H as <- <-. cbn [first_draw first_value srun]. now rewrite SAME.
  - destruct (shuffle (priv_seed s) _ m) as [b0 c0]. intros H; injection H as <- <-. cbn [first_draw first_value srun]. now rewrite SAME.
  - unfold fork, fill_publ, fill_prss. destruct (fill (pub_seed s) _ 16) as [pb pc]. cbn [self_seed r0_ctr next_seed r1_ctr].
    destruct (fill (self_seed s) (r0_ctr s) 16) as [b0 c0] eqn:F0. destruct (fill (next_seed s) (r1_ctr s) 16) as [b1 c1].
    intros H; injection H as <- <-. cbn [first_draw first_value srun sstep]. rewrite E0. cbn [s0 fst snd]. rewrite F0. cbn [rbind app]. now rewrite map_app, map_set_nth.
Qed.
Lemma step_second fresh F o F' r : prg_step fill shuffle fresh F o = Ok (F', r) ->
  srun (map s1 F) (second_draw o) = Ok (map s1 F', second_value r).
Proof.
  unfold prg_step. destruct (nth_error F (op_id o)) as [s|] eqn:E; [|discriminate].
  assert (E0 : nth_error (map s1 F) (op_id o) = Some (s1 s)) by (rewrite nth_error_map, E; reflexivity).
  assert (SAME : forall s', s1 s' = s1 s -> map s1 (set_nth F (op_id o) s') = map s1 F).
  { intros s' H. rewrite map_set_nth, H. now apply set_nth_same. }
  destruct o as [i b c|i m|i b|i b|i m|i]; cbn [op_id] in *.
  - unfold fill_prss. destruct (fill (self_seed s) (r0_ctr s) b) as [b0 c0]. destruct (fill (next_seed s) (r1_ctr s) b) as [b1 c1] eqn:F0.
    destruct c; intros H; injection H as <- <-; cbn [second_draw second_value srun sstep]; rewrite ?E0; cbn [s1 fst snd]; rewrite ?F0; cbn [rbind app];
      rewrite ?map_set_nth; try reflexivity. unfold s1 at 2. cbn [next_seed r1_ctr]. fold (s1 s). now rewrite set_nth_same.
  - destruct (shuffle (self_seed s) (r0_ctr s) m) as [p0 c0]. destruct (shuffle (next_seed s) (r1_ctr s) m) as [p1 c1] eqn:F0.
    intros H; injection H as <- <-. cbn [second_draw second_value srun sstep]. rewrite E0. cbn [s1 fst snd]. rewrite F0. cbn [rbind app]. now rewrite map_set_nth.
  - unfold fill_publ. destruct (fill (pub_seed s) _ b) as [b0 c0]. intros H; injection H as <- <-. cbn [second_draw second_value srun]. now rewrite SAME.
  - destruct (fill (priv_seed s) _ b) as [b0 c0]. intros H; injection H as <- <-. cbn [second_draw second_value srun]. now rewrite SAME.
  - destruct (shuffle (priv_seed s) _ m) as [b0 c0]. intros H; injection H as <- <-. cbn [second_draw second_value srun]. now rewrite SAME.
  - unfold fork, fill_publ, fill_prss. destruct (fill (pub_seed s) _ 16) as [pb pc]. cbn [self_seed r0_ctr next_seed r1_ctr].
    destruct (fill (self_seed s) (r0_ctr s) 16) as [b0 c0]. destruct (fill (next_seed s) (r1_ctr s) 16) as [b1 c1] eqn:F0.
    intros H; injection H as <- <-. cbn [second_draw second_value srun sstep]. rewrite E0. cbn [s1 fst snd]. rewrite F0. cbn [rbind app]. now rewrite map_app, map_set_nth.
Qed.
Lemma run_streams fresh h : forall F F' outs, prg_run fill shuffle fresh F h = Ok (F', outs) ->
  srun (map s0 F) (flat_map first_draw h) = Ok (map s0 F', flat_map first_value outs) /\
  srun (map s1 F) (flat_map second_draw h) = Ok (map s1 F', flat_map second_value outs).
Proof.
  induction h as [|o h IH]; intros F F' outs; cbn [prg_run].
  - intros H. injection H as <- <-. now split.
  - destruct (prg_step fill shuffle fresh F o) as [[F1 r]| |] eqn:E; cbn [rbind]; try discriminate.
    destruct (prg_run fill shuffle fresh F1 h) as [[F2 rs]| |] eqn:E2; cbn [rbind]; try discriminate.
    intros H. injection H as <- <-. destruct (IH _ _ _ E2) as [A B]. cbn [flat_map]. rewrite !srun_app.
    rewrite (step_first _ _ _ _ _ E), (step_second _ _ _ _ _ E). cbn [rbind]. rewrite A, B. now split.
Qed.
End Stream.

Lemma prev_next n i : (i < n)%nat -> prevrank n (nextrank n i) = i.
Proof.
  intros I. unfold prevrank, nextrank. destruct (Nat.eqb_spec (S i) n) as [E|E]; [cbn; lia|]. cbn [Nat.eqb]. lia.
Qed.
Lemma init_ok n pk priv self rank : (rank < n)%nat ->
  prg_init n pk priv self rank = Ok (mkPrg (wrap 128 (total n pk)) 0 (priv rank) 0 (self rank) (self (nextrank n rank)) 0 0).
Proof.
  intros R. unfold prg_init, prss_sent. rewrite prev_next, Nat.eqb_refl by exact R. do 2 f_equal.
  assert (G : forall m, fold_left (fun s i => wrap 128 (s + pk i)) (seq 0 m) 0 = wrap 128 (total m pk)).
  { induction m as [|m IH]; [reflexivity|]. rewrite seq_S, fold_left_app, IH. cbn [fold_left total Nat.add]. unfold wrap. now rewrite Z.add_mod_idemp_l. }
  apply G.
Qed.
Section Pub.
Variable fill : Z -> Z -> nat -> list Z * Z.
Variable shuffle : Z -> Z -> nat -> list nat * Z.
Definition sp (s : prg) : Z * Z := (pub_seed s, pub_ctr s).
Lemma step_pub fresh F o F' r : prg_step fill shuffle fresh F o = Ok (F', r) ->
  srun fill shuffle (map sp F) (pub_draw o) = Ok (map sp F', pub_value (o, r)).
Proof.
  unfold prg_step. destruct (nth_error F (op_id o)) as [s|] eqn:E; [|discriminate].
  assert (E0 : nth_error (map sp F) (op_id o) = Some (sp s)) by (rewrite nth_error_map, E; reflexivity).
  assert (SAME : forall s', sp s' = sp s -> map sp (set_nth F (op_id o) s') = map sp F).
  { intros s' H. rewrite map_set_nth, H. now apply set_nth_same. }
  destruct o as [i b c|i m|i b|i b|i m|i]; cbn [op_id] in *.
  - unfold fill_prss. destruct (fill (self_seed s) (r0_ctr s) b) as [b0 c0]. destruct (fill (next_seed s) (r1_ctr s) b) as [b1 c1].
    destruct c; intros H; injection H as <- <-; cbn [pub_draw pub_value srun]; now rewrite SAME.
  - destruct (shuffle (self_seed s) (r0_ctr s) m) as [p0 c0]. destruct (shuffle (next_seed s) (r1_ctr s) m) as [p1 c1].
    intros H; injection H as <- <-. cbn [pub_draw pub_value srun]. now rewrite SAME.
  - unfold fill_publ. destruct (fill (pub_seed s) _ b) as [b0 c0] eqn:F0. intros H; injection H as <- <-. cbn [pub_draw pub_value srun sstep].
    rewrite E0. cbn [sp fst snd]. rewrite F0. cbn [rbind app]. now rewrite map_set_nth.
  - destruct (fill (priv_seed s) _ b) as [b0 c0]. intros H; injection H as <- <-. cbn [pub_draw pub_value srun]. now rewrite SAME.
  - destruct (shuffle (priv_seed s) _ m) as [b0 c0]. intros H; injection H as <- <-. cbn [pub_draw pub_value srun]. now rewrite SAME.
  - unfold fork, fill_publ, fill_prss. destruct (fill (pub_seed s) _ 16) as [pb pc] eqn:F0. cbn [self_seed r0_ctr next_seed r1_ctr].
    destruct (fill (self_seed s) (r0_ctr s) 16) as [b0 c0]. destruct (fill (next_seed s) (r1_ctr s) 16) as [b1 c1].
    intros H; injection H as <- <-. cbn [pub_draw pub_value srun sstep]. rewrite E0. cbn [sp fst snd]. rewrite F0. cbn [rbind app]. now rewrite map_app, map_set_nth.
Qed.
Lemma run_pub fresh h : forall F F' outs, prg_run fill shuffle fresh F h = Ok (F', outs) ->
  srun fill shuffle (map sp F) (flat_map pub_draw h) = Ok (map sp F', flat_map pub_value (combine h outs)).
Proof.
  induction h as [|o h IH]; intros F F' outs; cbn [prg_run].
  - intros H. injection H as <- <-. reflexivity.
  - destruct (prg_step fill shuffle fresh F o) as [[F1 r]| |] eqn:E; cbn [rbind]; try discriminate.
    destruct (prg_run fill shuffle fresh F1 h) as [[F2 rs]| |] eqn:E2; cbn [rbind]; try discriminate.
    intros H. injection H as <- <-. cbn [flat_map combine]. rewrite srun_app, (step_pub _ _ _ _ _ E). cbn [rbind]. now rewrite (IH _ _ _ E2).
Qed.
Lemma run_length fresh h : forall F F' outs, prg_run fill shuffle fresh F h = Ok (F', outs) -> length outs = length h.
Proof.
  induction h as [|o h IH]; intros F F' outs; cbn [prg_run]; [intros H; now injection H as <- <-|].
  destruct (prg_step fill shuffle fresh F o) as [[F1 r]| |]; cbn [rbind]; try discriminate.
  destruct (prg_run fill shuffle fresh F1 h) as [[F2 rs]| |] eqn:E2; cbn [rbind]; try discriminate.
  intros H. injection H as <- <-. cbn [length]. now rewrite (IH _ _ _ E2).
Qed.
Lemma set_nth_length {A} (l : list A) : forall i x, length (set_nth l i x) = length l.
Proof. induction l as [|y l IH]; intros [|i] x; cbn; auto. Qed.
Lemma run_live fresh h : forall F, live (length F) h -> exists F' outs, prg_run fill shuffle fresh F h = Ok (F', outs).
Proof.
  induction h as [|o h IH]; intros F L; [now exists F, []|]. cbn [prg_run live] in *. destruct L as [L1 L2].
  assert (S : exists F1 r, prg_step fill shuffle fresh F o = Ok (F1, r) /\ length F1 = match o with OFork _ => S (length F) | _ => length F end).
  { unfold prg_step. destruct (nth_error F (op_id o)) as [s|] eqn:E; [|apply nth_error_None in E; lia].
    destruct o as [i b c|i m|i b|i b|i m|i]; cbn [op_id] in *.
    - destruct (fill_prss fill s b c) as [[s' x] y]. do 2 eexists. split; [reflexivity|apply set_nth_length].
    - destruct (shuffle (self_seed s) _ m), (shuffle (next_seed s) _ m). do 2 eexists. split; [reflexivity|apply set_nth_length].
    - destruct (fill_publ fill s b). do 2 eexists. split; [reflexivity|apply set_nth_length].
    - destruct (fill (priv_seed s) _ b). do 2 eexists. split; [reflexivity|apply set_nth_length].
    - destruct (shuffle (priv_seed s) _ m). do 2 eexists. split; [reflexivity|apply set_nth_length].
    - destruct (fork fill _ s). do 2 eexists. split; [reflexivity|]. rewrite app_length, set_nth_length. cbn. lia. }
  destruct S as [F1 [r [E LE]]]. rewrite E. cbn [rbind]. rewrite <- LE in L2. destruct (IH F1 L2) as [F2 [rs E2]]. rewrite E2. cbn [rbind]. eauto.
Qed.
End Pub.
Lemma le_word_range bs : (forall b, In b bs -> 0 <= b < 256) -> 0 <= le_word bs < 2 ^ (8 * Z.of_nat (length bs)).
Proof.
  induction bs as [|b bs IH]; intros H; [cbn; lia|]. cbn [le_word length]. specialize (IH ltac:(intros; apply H; now right)).
  assert (B : 0 <= b < 256) by (apply H; now left). replace (8 * Z.of_nat (S (length bs))) with (8 + 8 * Z.of_nat (length bs)) by lia.
  rewrite Z.pow_add_r by lia. change (2 ^ 8) with 256. lia.
Qed.
Lemma word_at_word sz bs idx : (forall b, In b bs -> 0 <= b < 256) -> word (8 * Z.of_nat sz) (word_at sz bs idx).
Proof.
  intros H. unfold word_at. assert (R : 0 <= le_word (firstn sz (skipn (idx * sz) bs)) < 2 ^ (8 * Z.of_nat (length (firstn sz (skipn (idx * sz) bs))))).
  { apply le_word_range. intros b B. apply H.
    assert (I : In b (skipn (idx * sz) bs)) by (rewrite <- (firstn_skipn sz); apply in_or_app; now left).
    rewrite <- (firstn_skipn (idx * sz)). apply in_or_app. now right. }
  assert (L : (length (firstn sz (skipn (idx * sz) bs)) <= sz)%nat) by (rewrite firstn_length; lia).
  split; [lia|]. eapply Z.lt_le_trans; [apply R|]. apply Z.pow_le_mono_r; lia.
Qed.
