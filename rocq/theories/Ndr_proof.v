From Coq Require Import ZifyBool ZifyNat.
From Verif Require Import Base Nd_model Nd_spec Nd_proof Ndv_proof.

Lemma chunk_strides_spec nch s :
  fst (chunk_strides nch s) = map (fun x => s * x) (fst (raw_strides nch)) /\
  snd (chunk_strides nch s) = s * size nch.
Proof.
  induction nch as [|d nch [IH1 IH2]]; cbn [chunk_strides raw_strides size]; [split; [reflexivity|cbn; lia]|].
  pose proof (raw_strides_size nch) as RS.
  destruct (chunk_strides nch s) as [st nxt]. destruct (raw_strides nch) as [rst rn].
  cbn [fst snd map] in *. subst. split; [reflexivity|lia].
Qed.

Lemma contiguous_spec o : contiguous o = true ->
  map snd o = map (fun x => snd (last o (0, 0)) * x) (fst (raw_strides (map fst o))).
Proof.
  induction o as [|[d0 s0] o IH]; intros H; [reflexivity|].
  destruct o as [|[d1 s1] o'].
  - cbn. f_equal. lia.
  - cbn [contiguous] in H. apply andb_true_iff in H as [H1 H2]. specialize (IH H2).
    change (last ((d0, s0) :: (d1, s1) :: o') (0, 0)) with (last ((d1, s1) :: o') (0, 0)).
    set (lst := snd (last ((d1, s1) :: o') (0, 0))) in *.
    cbn [map fst snd raw_strides] in *. pose proof (raw_strides_size (map fst o')) as RS.
    destruct (raw_strides (map fst o')) as [st nxt]. cbn [fst snd map] in *.
    injection IH as E1 E2. apply Z.eqb_eq in H1. f_equal; [|f_equal; auto]. rewrite H1, E1. lia.
Qed.

Lemma dot_contig p dims st s : pos dims -> st = map (fun x => s * x) (fst (raw_strides dims)) ->
  dot (unf p dims) st = s * (p mod size dims).
Proof.
  intros P ->. rewrite dot_scale, dot_raw by apply unf_length. now rewrite rowmajor_unf.
Qed.

Lemma grab_spec : forall fuel np op nacc nrest oacc orest nch nr' och or',
  np = size (rev nacc) -> op = size (map fst (rev oacc)) ->
  grab fuel np op nacc nrest oacc orest = Some (nch, nr', och, or') ->
  nch ++ nr' = rev nacc ++ nrest /\ och ++ or' = rev oacc ++ orest /\ size nch = size (map fst och) /\
  (length nr' <= length nrest)%nat.
Proof.
  induction fuel as [|fuel IH]; intros np op nacc nrest oacc orest nch nr' och or' Hn Ho H; cbn [grab] in H;
    destruct (Z.eqb_spec np op) as [E|E].
  1,3: injection H as <- <- <- <-; repeat split; auto; congruence.
  - discriminate.
  - destruct (np <? op).
    + destruct nrest as [|d nr]; [discriminate|]. apply IH in H.
      * destruct H as (A & B & C & D). cbn [rev] in A. rewrite <- app_assoc in A. cbn [length].
        repeat split; auto; lia.
      * cbn [rev]. rewrite size_app. cbn [size]. lia.
      * exact Ho.
    + destruct orest as [|[d s] orr]; [discriminate|]. apply IH in H.
      * destruct H as (A & B & C & D). cbn [rev] in B. rewrite <- app_assoc in B.
        repeat split; auto.
      * exact Hn.
      * cbn [rev]. rewrite map_app, size_app. cbn [map fst size]. lia.
Qed.

Lemma grab_some : forall fuel np op nacc nrest oacc orest,
  0 < np -> 0 < op -> pos nrest -> pos (map fst orest) ->
  np * size nrest = op * size (map fst orest) ->
  (length nrest + length orest <= fuel)%nat ->
  exists r, grab fuel np op nacc nrest oacc orest = Some r.
Proof.
  induction fuel as [|fuel IH]; intros np op nacc nrest oacc orest Hn Ho Pn Po E F; cbn [grab];
    destruct (Z.eqb_spec np op) as [Eq|Eq]; eauto.
  - destruct nrest, orest; cbn [length] in F; try lia. cbn in E. lia.
  - destruct (Z.ltb_spec np op) as [H|H].
    + destruct nrest as [|d nr].
      * exfalso. cbn [size] in E. pose proof (size_pos _ Po). nia.
      * inversion Pn; subst. cbn [size length] in *. apply IH; auto; try lia; nia.
    + destruct orest as [|[d s] orr].
      * exfalso. cbn [map size] in E. pose proof (size_pos _ Pn). nia.
      * cbn [map fst] in Po. inversion Po; subst. cbn [map fst size length] in *. apply IH; auto; try lia; nia.
Qed.

Lemma nocopy_loop_spec : forall fuel newdims old,
  pos newdims -> Forall (fun d => 2 <= d) (map fst old) -> size newdims = size (map fst old) ->
  (length newdims <= fuel)%nat ->
  exists r, nocopy_loop fuel newdims old = Ok r /\
  forall ns, r = Some ns -> length ns = length newdims /\
    forall p, dot (unf p newdims) ns = dot (unf p (map fst old)) (map snd old).
Proof.
  induction fuel as [|fuel IH]; intros newdims old Pn Po E F.
  - destruct newdims; cbn [length] in F; [|lia]. cbn [nocopy_loop]. eexists; split; [reflexivity|].
    intros ns [= <-]. split; [reflexivity|]. intros p. destruct old as [|[d s] old]; [reflexivity|].
    exfalso. cbn [map fst size] in *. inversion Po; subst.
    assert (0 < size (map fst old)). { apply size_pos. eapply Forall_impl; [|eassumption]. cbn; lia. } nia.
  - destruct newdims as [|nd0 nr].
    + eexists; split; [reflexivity|].
      intros ns [= <-]. split; [reflexivity|]. intros p. destruct old as [|[d s] old]; [reflexivity|].
      exfalso. cbn [map fst size] in *. inversion Po; subst.
      assert (0 < size (map fst old)). { apply size_pos. eapply Forall_impl; [|eassumption]. cbn; lia. } nia.
    + destruct old as [|[od os] orr].
      * cbn [nocopy_loop]. eexists; split; [reflexivity|]. intros ns [= <-].
        split; [cbn [map length]; now rewrite map_length|]. intros p. cbn [map].
        replace (0 :: map (fun _ : Z => 0) nr) with (repeat 0 (length (nd0 :: nr))).
        2:{ cbn [length repeat]. f_equal. clear. induction nr; cbn; congruence. }
        rewrite dot_repeat0. reflexivity.
      * cbn [nocopy_loop]. cbn [map fst] in Po, E.
        inversion Pn as [|? ? Pn0 Pnr]; subst. inversion Po as [|? ? Po0 Por]; subst.
        cbn [length] in F.
        assert (Por' : pos (map fst orr)). { eapply Forall_impl; [|exact Por]. cbn; lia. }
        destruct (grab_some (length nr + length orr) nd0 od [nd0] nr [(od, os)] orr) as [[[[nch nr'] och] or'] G];
          auto; try lia; try (cbn [size] in E; lia).
        rewrite G.
        apply grab_spec in G; [|cbn; lia|cbn; lia].
        destruct G as (A & B & C & D). cbn [rev app] in A, B.
        assert (Bf : map fst och ++ map fst or' = od :: map fst orr) by (rewrite <- map_app, B; reflexivity).
        assert (Bs : map snd och ++ map snd or' = os :: map snd orr) by (rewrite <- map_app, B; reflexivity).
        assert (P1 : pos nch /\ pos nr').
        { split; apply Forall_forall; intros x Hx; apply (proj1 (Forall_forall _ _) Pn); rewrite <- A; apply in_or_app; auto. }
        assert (P2 : Forall (fun d => 2 <= d) (map fst och) /\ Forall (fun d => 2 <= d) (map fst or')).
        { split; apply Forall_forall; intros x Hx; apply (proj1 (Forall_forall _ _) Po); rewrite <- Bf; apply in_or_app; auto. }
        destruct P1 as [P1 P1']. destruct P2 as [P2 P2'].
        assert (P2o : pos (map fst och)). { eapply Forall_impl; [|exact P2]. cbn; lia. }
        assert (P2o' : pos (map fst or')). { eapply Forall_impl; [|exact P2']. cbn; lia. }
        assert (ES : size nr' = size (map fst or')).
        { pose proof (size_pos _ P1). pose proof (size_app nch nr') as X. pose proof (size_app (map fst och) (map fst or')) as Y.
          rewrite A in X. rewrite Bf in Y. rewrite C in *. nia. }
        destruct (contiguous och) eqn:K.
        2:{ eexists; split; [reflexivity|]. discriminate. }
        destruct (IH nr' or') as [r [R1 R2]]; auto; [lia|].
        rewrite R1. destruct r as [st|]; [|eexists; split; [reflexivity|discriminate]].
        destruct (R2 st eq_refl) as [L1 D1].
        eexists; split; [reflexivity|]. intros ns [= <-].
        destruct (chunk_strides_spec nch (snd (last och (0, 0)))) as [CS _].
        assert (LC : length (fst (chunk_strides nch (snd (last och (0, 0))))) = length nch).
        { rewrite CS, map_length. apply raw_strides_length. }
        split.
        { rewrite app_length, LC, L1, <- app_length, A. reflexivity. }
        intros p. rewrite <- A. cbn [map fst snd]. rewrite <- Bf, <- Bs.
        rewrite !unf_app by auto.
        rewrite !dot_app.
        2:{ rewrite unf_length, !map_length. reflexivity. }
        2:{ rewrite unf_length. auto. }
        rewrite D1. f_equal. rewrite ES.
        rewrite (dot_contig _ nch _ _ P1 CS).
        rewrite (dot_contig _ (map fst och) _ _ P2o (contiguous_spec _ K)).
        now rewrite C.
Qed.

Lemma combine_fst {A B} (a : list A) (b : list B) : length a = length b -> map fst (combine a b) = a.
Proof. revert b; induction a; destruct b; cbn [length combine map fst]; intros; try lia; auto. f_equal. apply IHa. lia. Qed.
Lemma combine_snd {A B} (a : list A) (b : list B) : length a = length b -> map snd (combine a b) = b.
Proof. revert b; induction a; destruct b; cbn [length combine map snd]; intros; try lia; auto. f_equal. apply IHa. lia. Qed.

Lemma nocopy_spec s st t :
  pos s -> pos t -> length st = length s -> size s = size t ->
  exists r, attempt_nocopy_reshape s st t = Ok r /\
  forall ns, r = Some ns -> length ns = length t /\
    Forall2 (fun d x => d = 1 -> x = 0) t ns /\
    forall p, dot (unf p t) ns = dot (unf p s) st.
Proof.
  intros Ps Pt L E. unfold attempt_nocopy_reshape.
  assert (LS : length (strip_units s s) = length (strip_units s st)) by (symmetry; now apply strip_length').
  destruct (nocopy_loop_spec (length t) t (combine (strip_units s s) (strip_units s st))) as [r [R1 R2]]; auto.
  - rewrite combine_fst by exact LS. now apply strip_ge2.
  - rewrite combine_fst by exact LS. now rewrite strip_size.
  - rewrite R1. destruct r as [ns|]; [|eexists; split; [reflexivity|discriminate]].
    destruct (R2 ns eq_refl) as [L1 D]. eexists; split; [reflexivity|]. intros ns' [= <-].
    split; [now apply zero_units_length|]. split.
    { clear -L1. revert ns L1. unfold zero_units. induction t as [|d t IH]; destruct ns as [|x ns]; cbn [length]; intros; try lia;
        cbn [zipWith]; constructor; [|apply IH; lia]. intros ->. now rewrite Z.eqb_refl. }
    intros p. rewrite dot_zero_units by (auto using unf_valid).
    rewrite D, combine_fst, combine_snd by exact LS. symmetry. now apply dot_strip.
Qed.

(* ---- buffers and clone ---- *)
Lemma bufget_ok b p v : bufget b p = Ok v -> 0 <= p < Z.of_nat (length b) /\ v = nthZ b (Z.to_nat p).
Proof.
  unfold bufget. destruct (Z.leb_spec 0 p), (Z.ltb_spec p (Z.of_nat (length b))); cbn [andb]; intros H'; try discriminate.
  injection H' as <-. split; [lia|reflexivity].
Qed.
Lemma bufget_in b p : 0 <= p < Z.of_nat (length b) -> bufget b p = Ok (nthZ b (Z.to_nat p)).
Proof.
  intros H. unfold bufget. destruct (Z.leb_spec 0 p), (Z.ltb_spec p (Z.of_nat (length b))); cbn [andb]; auto; lia.
Qed.

Lemma rmap_total {A B} (f : A -> res B) l :
  (forall x, In x l -> exists y, f x = Ok y) -> exists r, rmap f l = Ok r.
Proof.
  induction l as [|x l IH]; intros H; cbn [rmap]; [eauto|].
  destruct (H x (or_introl eq_refl)) as [y Hy]. rewrite Hy. cbn [rbind].
  destruct IH as [r Hr]; [intros; apply H; now right|]. rewrite Hr. cbn [rbind]. eauto.
Qed.
Lemma rmap_nth {A B} (f : A -> res B) l r da db i :
  rmap f l = Ok r -> (i < length l)%nat -> f (nth i l da) = Ok (nth i r db).
Proof.
  revert r i; induction l as [|x l IH]; intros r i H Hi; cbn [length] in Hi; [lia|]. cbn [rmap] in H.
  destruct (f x) as [y| |] eqn:E; cbn [rbind] in H; try discriminate.
  destruct (rmap f l) as [r'| |] eqn:E2; cbn [rbind] in H; try discriminate. injection H as <-.
  destruct i; cbn [nth]; [exact E|]. apply IH; auto. lia.
Qed.
Lemma rmap_length {A B} (f : A -> res B) l r : rmap f l = Ok r -> length r = length l.
Proof.
  revert r; induction l as [|x l IH]; intros r H; cbn [rmap] in H; [injection H as <-; reflexivity|].
  destruct (f x) as [y| |] eqn:E; cbn [rbind] in H; try discriminate.
  destruct (rmap f l) as [r'| |] eqn:E2; cbn [rbind] in H; try discriminate. injection H as <-.
  cbn [length]. now rewrite IH.
Qed.

Lemma get_compact d s idx : valid idx s -> Z.of_nat (length d) = size s ->
  get (compact d s) idx = Ok (nthZ d (Z.to_nat (rowmajor idx s))).
Proof.
  intros V L. unfold get, addr, compact. cbn [buf off str]. rewrite dot_compact by exact V.
  pose proof (rowmajor_range _ _ V). rewrite bufget_in by lia. reflexivity.
Qed.

Lemma compact_wf d s : shape_ok s -> wf (compact d s).
Proof. intros H. split; cbn [shp str compact]; [exact H|apply compact_length]. Qed.

Lemma clone_spec a : wf a -> safe a ->
  exists c, clone a = Ok c /\ shp c = shp a /\ c = compact (buf c) (shp a) /\
  Z.of_nat (length (buf c)) = size (shp a) /\
  forall idx, valid idx (shp a) -> get c idx = get a idx.
Proof.
  intros WF S. pose proof WF as [W L]. unfold clone. rewrite iterate_spec by exact WF. rewrite numel_size.
  set (n := Z.to_nat (size (shp a))).
  rewrite map_length, seq_length. rewrite Nat.ltb_irrefl.
  rewrite firstn_all2 by now rewrite map_length, seq_length.
  pose proof (size_nonneg _ W) as SN.
  set (ads := map _ (seq 0 n)).
  destruct (rmap_total (bufget (buf a)) ads) as [r Hr].
  { intros x Hx. unfold ads in Hx. apply in_map_iff in Hx as [i [<- Hi]]. apply in_seq in Hi.
    apply (S (unf (Z.of_nat i) (shp a))). apply unf_valid. apply pos_of_size; auto. lia. }
  rewrite Hr. cbn [rbind]. eexists. split; [reflexivity|]. cbn [shp compact buf].
  pose proof (rmap_length _ _ _ Hr) as LR. unfold ads in LR. rewrite map_length, seq_length in LR.
  repeat split; [lia|].
  intros idx V. change (mkNd r (shp a) (makeCompactStrides (shp a)) 0) with (compact r (shp a)).
  rewrite get_compact by (auto; lia).
  pose proof (rowmajor_range _ _ V) as R.
  set (i := Z.to_nat (rowmajor idx (shp a))).
  assert (Hi : (i < n)%nat) by lia.
  pose proof (rmap_nth _ _ _ 0 0 i Hr) as Q. unfold ads in Q. rewrite map_length, seq_length in Q.
  specialize (Q Hi). rewrite nth_map_lt with (da := 0%nat) in Q by now rewrite seq_length.
  rewrite seq_nth in Q by exact Hi. cbn [Nat.add] in Q.
  replace (Z.of_nat i) with (rowmajor idx (shp a)) in Q by lia. rewrite unf_rowmajor in Q by exact V.
  unfold get. rewrite Q. reflexivity.
Qed.

Lemma reshape_spec a t :
  wf a -> safe a -> shape_ok t -> size (shp a) = size t ->
  exists b, reshape a t = Ok b /\ wf b /\ shp b = t /\
  forall i j, valid i (shp a) -> valid j t -> rowmajor i (shp a) = rowmajor j t ->
    get b j = get a i.
Proof.
  intros WF S T E. pose proof WF as [W L]. unfold reshape.
  destruct (list_Z_eqb (shp a) t) eqn:Eq.
  - apply list_Z_eqb_eq in Eq. subst t. exists a. repeat split; auto.
    intros i j Vi Vj R. rewrite <- (unf_rowmajor i (shp a)), <- (unf_rowmajor j (shp a)), R by assumption. reflexivity.
  - rewrite !numel_size, E, Z.eqb_refl. cbn [negb].
    destruct (Z.eqb_spec (size t) 0) as [E0|E0].
    + eexists. split; [reflexivity|]. cbn [shp]. repeat split; auto; cbn [shp str]; [apply compact_length|].
      intros i j _ Vj. pose proof (size_pos _ (valid_pos _ _ Vj)). lia.
    + pose proof (size_nonneg _ T).
      assert (Ps : pos (shp a)) by (apply pos_of_size; auto; lia).
      assert (Pt : pos t) by (apply pos_of_size; auto; lia).
      destruct (nocopy_spec (shp a) (str a) t) as [r [-> R]]; auto.
      destruct r as [ns|].
      * destruct (R ns eq_refl) as (L1 & U & D). eexists. split; [reflexivity|]. cbn [shp].
        repeat split; auto. intros i j Vi Vj Q. unfold get, addr. cbn [buf off str].
        rewrite <- (unf_rowmajor j t), D, <- Q, unf_rowmajor by assumption. reflexivity.
      * destruct (clone_spec a WF S) as (c & -> & SC & EC & LB & G). cbn [rbind].
        eexists. split; [reflexivity|]. split; [now apply compact_wf|]. split; [reflexivity|].
        intros i j Vi Vj Q. rewrite get_compact by (auto; lia). rewrite <- Q.
        rewrite <- G by exact Vi. rewrite EC at 2. now rewrite get_compact by (auto; lia).
Qed.

Lemma reshape_reject a t : size (shp a) <> size t -> reshape a t = Err.
Proof.
  intros H. unfold reshape. destruct (list_Z_eqb (shp a) t) eqn:Eq.
  - apply list_Z_eqb_eq in Eq. subst. contradiction.
  - rewrite !numel_size. destruct (Z.eqb_spec (size (shp a)) (size t)); [contradiction|]. reflexivity.
Qed.

(* ---- unit dimensions keep stride 0 ---- *)
Lemma Forall2_nth_iff {A B} (P : A -> B -> Prop) l m da db :
  Forall2 P l m <-> length l = length m /\ forall j, (j < length l)%nat -> P (nth j l da) (nth j m db).
Proof.
  split.
  - intros H. split; [induction H; cbn [length]; congruence|]. induction H; cbn [length]; intros j Hj; [lia|].
    destruct j; cbn [nth]; auto. apply IHForall2. lia.
  - intros [L H]. revert m L H. induction l as [|x l IH]; destruct m as [|y m]; cbn [length]; intros L H; try lia; constructor.
    + apply (H 0%nat). lia.
    + apply IH; [lia|]. intros j Hj. apply (H (S j)). lia.
Qed.

Lemma uz_compact d s : unit_zero (compact d s).
Proof.
  unfold unit_zero. cbn [shp str compact]. unfold makeCompactStrides.
  pose proof (raw_strides_length s) as L. revert L. generalize (fst (raw_strides s)) as st.
  unfold zero_units. induction s as [|x s IH]; destruct st as [|y st]; cbn [length]; intros; try lia; cbn [zipWith]; constructor.
  - intros ->. reflexivity.
  - apply IH. lia.
Qed.

Lemma uz_transpose a perm b : wf a -> unit_zero a -> transpose a perm = Ok b -> unit_zero b.
Proof.
  intros WF U H. destruct (transpose_spec a perm b WF H) as (_ & _ & P & _).
  unfold transpose in H. destruct (_ && _); [|discriminate]. destruct (forallb _ _); [|discriminate].
  injection H as <-. unfold unit_zero in *. cbn [shp str].
  apply (Forall2_nth_iff _ _ _ 0 0) in U as [LU U]. 
  assert (In_ok : forall p, In p perm -> (Z.to_nat p < length (shp a))%nat).
  { intros p Hp. apply (in_map Z.to_nat) in Hp. apply (Permutation_in _ P) in Hp. apply in_seq in Hp. lia. }
  clear P. induction perm as [|p perm IH]; cbn [map]; constructor.
  - apply U. apply In_ok. now left.
  - apply IH. intros q Hq. apply In_ok. now right.
Qed.

Lemma uz_reverse a dims b : wf a -> NoDup dims -> unit_zero a -> reverse a dims = Ok b -> unit_zero b.
Proof.
  intros WF ND U H. destruct (reverse_spec a dims b WF ND H) as ([_ Lb] & Sb & _ & Zr & _).
  unfold unit_zero in *. apply (Forall2_nth_iff _ _ _ 0 0) in U as [LU U].
  apply (Forall2_nth_iff _ _ _ 0 0). split; [now rewrite Lb|]. intros j Hj. rewrite Sb in *.
  intros E. apply (Zr j). now apply U.
Qed.

Lemma uz_reshape a t b : wf a -> safe a -> shape_ok t -> unit_zero a -> reshape a t = Ok b -> unit_zero b.
Proof.
  intros WF S T U H. pose proof WF as [W L]. unfold reshape in H.
  destruct (list_Z_eqb (shp a) t); [injection H as <-; exact U|].
  rewrite !numel_size in H. destruct (Z.eqb_spec (size (shp a)) (size t)) as [E|]; [cbn [negb] in H|discriminate].
  destruct (Z.eqb_spec (size t) 0) as [E0|E0].
  - injection H as <-. apply (uz_compact (buf a) t).
  - pose proof (size_nonneg _ T).
    assert (Ps : pos (shp a)) by (apply pos_of_size; auto; lia).
    assert (Pt : pos t) by (apply pos_of_size; auto; lia).
    destruct (nocopy_spec (shp a) (str a) t) as [r [R1 R]]; auto. rewrite R1 in H.
    destruct r as [ns|].
    + injection H as <-. now apply R.
    + destruct (clone_spec a WF S) as (c & C & _). rewrite C in H. cbn [rbind] in H. injection H as <-. apply uz_compact.
Qed.

Lemma uz_slice_dims : forall shape st s e ss r,
  Forall (fun x => step_of x = 1) ss -> slice_dims shape st s e ss = Ok r ->
  Forall2 (fun d x => d = 1 -> x = 0) (map fst r) (map snd r).
Proof.
  induction shape as [|d shape IH]; intros st s e ss r F H.
  - destruct st, s, e, ss; cbn in H; try discriminate. injection H as <-. constructor.
  - destruct st as [|t st], s as [|s0 s], e as [|e0 e], ss as [|x ss]; cbn [slice_dims] in H; try discriminate.
    inversion F; subst.
    destruct (slice_dim d t s0 e0 x) as [[n t']| |] eqn:E1; cbn [rbind] in H; try discriminate.
    destruct (slice_dims shape st s e ss) as [r'| |] eqn:E2; cbn [rbind] in H; try discriminate.
    injection H as <-. cbn [map fst snd]. constructor; [|eapply IH; eauto].
    unfold slice_dim in E1. destruct (d <? e0); [discriminate|].
    destruct (Z.eqb_spec (Z.max (e0 - s0) 0) 1) as [K|K]; [injection E1 as <- <-; auto|].
    destruct x as [x|]; cbn [step_of] in *; subst.
    + injection E1 as <- <-. rewrite Z.quot_1_r, Z.rem_1_r. cbn. lia.
    + injection E1 as <- <-. intros C. contradiction.
Qed.
Lemma uz_slice a s e sst b : Forall (fun x => x = 1) (ssteps a sst) -> slice a s e sst = Ok b -> unit_zero b.
Proof.
  intros F H. unfold slice in H.
  set (ss := match sst with None => _ | Some l => _ end) in *.
  destruct (slice_dims (shp a) (str a) s e ss) as [r| |] eqn:E; cbn [rbind] in H; try discriminate.
  injection H as <-. unfold unit_zero. cbn [shp str]. eapply uz_slice_dims; [|exact E].
  assert (Es : map step_of ss = ssteps a sst).
  { unfold ss, ssteps. destruct sst; [apply map_step_some|apply map_step_none]. }
  apply Forall_forall. intros x Hx. rewrite Forall_forall in F. apply F. rewrite <- Es. now apply in_map.
Qed.

(* the iterator's fast path: flattening a fast-indexed view never copies and yields the
   1-D view with the fast stride (this justifies the fast branch of iterate_addrs) *)
Lemma fast_reshape_nocopy s st fs :
  pos s -> length st = length s -> fast_indexing s st = Some fs ->
  exists x, attempt_nocopy_reshape s st [size s] = Ok (Some [x]) /\ (2 <= size s -> x = fs).
Proof.
  intros P L H. pose proof (size_pos _ P) as SP.
  assert (LS : length (strip_units s s) = length (strip_units s st)) by (symmetry; now apply strip_length').
  unfold attempt_nocopy_reshape.
  unfold fast_indexing in H. pose proof (strip_size s) as SS. pose proof (strip_ge2 s P) as G2.
  destruct (strip_units s s) as [|d0 s0] eqn:E.
  - destruct (strip_units s st); cbn [length] in LS; [|lia]. cbn [combine length nocopy_loop map zero_units zipWith].
    cbn [size] in SS. rewrite <- SS. cbn. eexists. split; [reflexivity|]. lia.
  - destruct (list_Z_eqb _ _) eqn:Eq; [|discriminate]. injection H as <-.
    apply list_Z_eqb_eq in Eq.
    destruct (strip_units s st) as [|t0 st0] eqn:Est; cbn [length] in LS; [lia|].
    set (lin := last (t0 :: st0) 0) in *.
    (* no unit dims: compact = raw *)
    assert (CR : forall l, Forall (fun d => 2 <= d) l -> makeCompactStrides l = fst (raw_strides l)).
    { intros l Hl. unfold makeCompactStrides. pose proof (raw_strides_length l) as LL. revert LL.
      generalize (fst (raw_strides l)) as r. unfold zero_units. induction Hl as [|x l Hx Hl IH]; destruct r; cbn [length]; intros; try lia; auto.
      cbn [zipWith]. destruct (Z.eqb_spec x 1); [lia|]. f_equal. apply IH. lia. }
    rewrite CR in Eq by exact G2.
    cbn [length].
    (* one grab takes all old dims *)
    assert (GR : forall orr oacc np op, Forall (fun d => 2 <= d) (map fst orr) -> 0 < op ->
               np = op * size (map fst orr) -> forall f nacc, (length orr <= f)%nat ->
               grab f np op nacc [] oacc orr = Some (rev nacc, [], rev oacc ++ orr, [])).
    { induction orr as [|[d s1] orr IH]; intros oacc np op F Hop Hnp f nacc Hf.
      - cbn [map size] in Hnp. destruct f; cbn [grab]; (destruct (Z.eqb_spec np op); [now rewrite app_nil_r|lia]).
      - cbn [length] in Hf. destruct f; [lia|]. cbn [grab map fst size] in *. inversion F as [|? ? Hd2 HF2]; subst. cbv beta in Hd2.
        assert (0 < size (map fst orr)). { apply size_pos. eapply Forall_impl; [|eassumption]. cbn; lia. }
        assert (2 <= d * size (map fst orr)) by nia.
        destruct (Z.eqb_spec (op * (d * size (map fst orr))) op); [nia|].
        destruct (Z.ltb_spec (op * (d * size (map fst orr))) op); [nia|].
        rewrite IH; [cbn [rev]; now rewrite <- app_assoc| exact HF2 | apply Z.mul_pos_pos; lia | ring | lia]. }
    cbn [combine nocopy_loop].
    assert (Lc : length s0 = length st0) by lia.
    inversion G2 as [|? ? Gd0 Gs0]; subst.
    rewrite (GR (combine s0 st0) [(d0, t0)] (size s) d0).
    2:{ rewrite combine_fst by exact Lc. exact Gs0. }
    2:{ lia. }
    2:{ rewrite combine_fst by exact Lc. rewrite <- SS. reflexivity. }
    2:{ cbn [length]. lia. }
    cbn [rev app].
    assert (K : contiguous ((d0, t0) :: combine s0 st0) = true).
    { clear -Eq Lc. revert d0 t0 st0 Lc lin Eq. induction s0 as [|d1 s0 IH]; intros d0 t0 st0 Lc lin Eq.
      - reflexivity.
      - destruct st0 as [|t1 st0]; cbn [length] in Lc; [lia|].
        change (combine (d1 :: s0) (t1 :: st0)) with ((d1, t1) :: combine s0 st0).
        change (contiguous ((d0, t0) :: (d1, t1) :: combine s0 st0)) with
          ((t0 =? d1 * t1) && contiguous ((d1, t1) :: combine s0 st0)).
        apply andb_true_iff. 
        assert (Eq' : map (fun c => lin * c) (fst (raw_strides (d1 :: s0))) = t1 :: st0 /\
                      t0 = d1 * t1).
        { cbn [raw_strides] in *. destruct (raw_strides s0) as [rs rn]. cbn [fst map] in *.
          injection Eq as E0 E1 E2. split; [now f_equal|]. rewrite <- E0, <- E1. lia. }
        destruct Eq' as [EqA EqB]. split; [apply Z.eqb_eq; exact EqB|].
        apply (IH d1 t1 st0); [lia|]. exact EqA. }
    rewrite K.
    assert (LL : snd (last ((d0, t0) :: combine s0 st0) (0, 0)) = lin).
    { unfold lin. clear -Lc. revert d0 t0 st0 Lc. induction s0 as [|d1 s0 IH]; intros d0 t0 st0 Lc; destruct st0 as [|t1 st0]; cbn [length] in Lc; try lia.
      - reflexivity.
      - cbn [combine]. change (last ((d0, t0) :: (d1, t1) :: combine s0 st0) (0, 0)) with (last ((d1, t1) :: combine s0 st0) (0, 0)).
        change (last (t0 :: t1 :: st0) 0) with (last (t1 :: st0) 0). apply IH. lia. }
    rewrite LL. cbn [chunk_strides fst app zero_units zipWith].
    eexists. split; [reflexivity|]. intros H2. destruct (Z.eqb_spec (size s) 1); [lia|reflexivity].
Qed.
