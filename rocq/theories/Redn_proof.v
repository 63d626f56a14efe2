(* Reduce and ReduceWindow combine exactly the elements the specification names. *)
From Coq Require Import ZifyNat ZifyBool Permutation.
From Verif Require Import Base Ring_model Perm_model Scan_model Scan_proof Fold Dyn_spec Dynw_proof Mm_model Mm_spec Mm_proof Mmt_proof Redn_model Redn_spec.
Open Scope nat_scope.

(* ---- indices ---- *)
Lemma seq_shift_add n : forall u v, map (fun l => u + l) (seq v n) = seq (u + v) n.
Proof. induction n as [|n IH]; intros u v; [reflexivity|]. cbn. f_equal. rewrite IH. f_equal. lia. Qed.
Lemma seq_blocks {B} (F : nat -> B) N : forall d, map F (seq 0 (d * N)) = flat_map (fun i => map (fun l => F (i * N + l)) (seq 0 N)) (seq 0 d).
Proof.
  induction d as [|d IH]; [reflexivity|]. replace (S d * N) with (d * N + N) by lia. rewrite seq_app, seq_S, map_app, IH. rewrite flat_map_app. f_equal.
  cbn [flat_map Nat.add]. rewrite app_nil_r. rewrite <- (map_map (fun l => d * N + l) F). rewrite seq_shift_add. now rewrite Nat.add_0_r.
Qed.
Lemma indices_index sh : indices sh = map (index_of sh) (seq 0 (numel sh)).
Proof.
  induction sh as [|d sh IH]; [reflexivity|]. cbn [indices]. change (numel (d :: sh)) with (d * numel sh). rewrite seq_blocks.
  rewrite !flat_map_concat_map. f_equal. apply map_ext_in. intros i I. rewrite IH, map_map. apply map_ext_in. intros l L. apply in_seq in L.
  cbn [index_of]. change (total_size sh) with (numel sh). now rewrite pos_div, pos_mod by lia.
Qed.
Lemma in_indices sh idx : In idx (indices sh) <-> inside sh idx.
Proof.
  rewrite indices_index, in_map_iff. split.
  - intros (p & <- & P). apply in_seq in P. apply inside_index. lia.
  - intros I. exists (flat sh idx). split; [now apply index_of_flat|]. apply in_seq. pose proof (flat_lt sh idx I). lia.
Qed.
Lemma nodup_map_inj {X Y} (g : X -> Y) l : (forall x y, In x l -> In y l -> g x = g y -> x = y) -> NoDup l -> NoDup (map g l).
Proof.
  intros I N. induction N as [|x l NI N IH]; [constructor|]. cbn. constructor.
  - rewrite in_map_iff. intros (y & E & YY). apply NI. rewrite (I x y); [exact YY|now left|now right|now symmetry].
  - apply IH. intros a b A B. apply I; now right.
Qed.
Lemma nodup_indices sh : NoDup (indices sh).
Proof.
  rewrite indices_index. apply nodup_map_inj; [|apply seq_NoDup]. intros p q P Q E. apply in_seq in P, Q.
  destruct (inside_index sh p ltac:(lia)) as [_ <-]. destruct (inside_index sh q ltac:(lia)) as [_ <-]. now rewrite E.
Qed.
Lemma indices_len sh : length (indices sh) = numel sh.
Proof. now rewrite indices_index, map_length, seq_length. Qed.
Lemma nth_indices sh idx dft : inside sh idx -> nth (flat sh idx) (indices sh) dft = idx.
Proof.
  intros I. rewrite indices_index. rewrite (nth_indep _ dft (index_of sh 0)) by (rewrite map_length, seq_length; now apply flat_lt).
  rewrite map_nth, seq_nth by now apply flat_lt. cbn [Nat.add]. now apply index_of_flat.
Qed.

(* ---- bumpIndices enumerates the indices ---- *)
Lemma index_of_0 sh : index_of sh 0 = map (fun _ => 0) sh.
Proof. induction sh as [|d sh IH]; [reflexivity|]. cbn [index_of map]. destruct (Nat.eq_dec (total_size sh) 0) as [->|N]; [cbn; now rewrite IH|]. rewrite Nat.div_0_l, Nat.mod_0_l by exact N. now rewrite IH. Qed.
Lemma index_of_len sh : forall p, length (index_of sh p) = length sh.
Proof. induction sh as [|d sh IH]; intros p; cbn; [reflexivity|]. now rewrite IH. Qed.
Lemma map_const_len {X Y} (l : list X) (m : list Y) : length l = length m -> map (fun _ => 0) l = map (fun _ => 0) m.
Proof. revert m. induction l as [|x l IH]; intros [|y m] E; cbn in E |- *; try lia; [reflexivity|]. f_equal. apply IH. lia. Qed.
Lemma bump_next sh : forall p, p < numel sh ->
  bump sh (index_of sh p) = if p + 1 <? numel sh then Some (index_of sh (p + 1)) else None.
Proof.
  induction sh as [|d sh IH]; intros p P; [unfold numel in P; cbn in P; replace p with 0 by lia; reflexivity|].
  change (numel (d :: sh)) with (d * numel sh) in *. cbn [index_of bump]. change (total_size sh) with (numel sh).
  set (n := numel sh) in *. assert (n <> 0) by nia. set (i := p / n). set (q := p mod n).
  assert (Q : q < n) by (apply Nat.mod_upper_bound; assumption). assert (PE : p = i * n + q) by (subst i q; pose proof (Nat.div_mod p n ltac:(assumption)); lia).
  clearbody i q. subst p. assert (i < d) by nia. rewrite IH by exact Q. destruct (Nat.ltb_spec (q + 1) n) as [L|L].
  - destruct (Nat.ltb_spec (i * n + q + 1) (d * n)) as [L'|L']; [|nia]. replace (i * n + q + 1) with (i * n + (q + 1)) by lia. now rewrite pos_div, pos_mod by exact L.
  - assert (q + 1 = n) by lia. replace (i * n + q + 1) with ((i + 1) * n + 0) by lia. rewrite pos_div, pos_mod by lia. rewrite index_of_0.
    destruct (Nat.ltb_spec (i + 1) d), (Nat.ltb_spec ((i + 1) * n + 0) (d * n)); try nia; [|reflexivity]. do 2 f_equal. apply map_const_len. now rewrite index_of_len.
Qed.
Lemma visit_from sh : forall fuel p, p < numel sh -> numel sh - p <= fuel -> visit fuel sh (index_of sh p) = map (index_of sh) (seq p (numel sh - p)).
Proof.
  induction fuel as [|fuel IH]; intros p P F; [lia|]. cbn [visit]. rewrite bump_next by exact P. destruct (Nat.ltb_spec (p + 1) (numel sh)) as [L|L].
  - rewrite IH by lia. replace (numel sh - p) with (S (numel sh - (p + 1))) by lia. cbn [seq map]. now rewrite Nat.add_1_r.
  - replace (numel sh - p) with 1 by lia. reflexivity.
Qed.
Lemma visited_ok sh : 0 < numel sh -> visited sh = indices sh.
Proof.
  intros P. unfold visited. rewrite <- index_of_0, visit_from; [|lia|change (total_size sh) with (numel sh); lia]. rewrite Nat.sub_0_r. symmetry. apply indices_index.
Qed.

(* ---- fold1 and permutations ---- *)
Section Rows.
Context {A : Type}.
Variable f : A -> A -> A.
Hypothesis assoc : forall a b c, f a (f b c) = f (f a b) c.
Hypothesis comm : forall a b, f a b = f b a.
Lemma fold1_perm l l' : Permutation l l' -> fold1 f l = fold1 f l'.
Proof. intros P. rewrite !fold1_msum by exact assoc. now apply msum_perm. Qed.
Definition with_init (ign : bool) (init : A) (l : list A) : list A := (if ign then [] else [init]) ++ l.
Lemma row_ok ign init l : l <> [] -> exists v, reduce_row f ign init l = Ok v /\ fold1 f (with_init ign init l) = Some v.
Proof. intros N. destruct (reduce_row_ok f assoc comm ign init l N) as (v & E & F). exists v. split; [exact E|]. unfold with_init. destruct ign; exact F. Qed.
Lemma rows_ok ign init R N at_ : 0 < N -> exists l, reduce_rows f ign init R N at_ = Ok l /\ length l = R /\
  forall r d, r < R -> fold1 f (with_init ign init (map (fun j => at_ (r * N + j)) (seq 0 N))) = Some (nth r l d).
Proof.
  intros P. unfold reduce_rows. set (g := fun r => match reduce_row f ign init (map (fun j => at_ (r * N + j)) (seq 0 N)) with Ok v => v | _ => init end).
  assert (G : forall r, reduce_row f ign init (map (fun j => at_ (r * N + j)) (seq 0 N)) = Ok (g r) /\
                        fold1 f (with_init ign init (map (fun j => at_ (r * N + j)) (seq 0 N))) = Some (g r)).
  { intros r. destruct (row_ok ign init (map (fun j => at_ (r * N + j)) (seq 0 N))) as (v & E & F); [destruct N; [lia|discriminate]|].
    unfold g. rewrite E. split; [reflexivity|exact F]. }
  exists (map g (seq 0 R)). split; [|split].
  - apply rmap_ok. intros r _. apply G.
  - now rewrite map_length, seq_length.
  - intros r d L. rewrite (nth_indep _ d (g 0)) by (now rewrite map_length, seq_length). rewrite map_nth, seq_nth by exact L. apply G.
Qed.
End Rows.

(* ---- Reduce ---- *)
Lemma nth_map_in {X Y} (g : X -> Y) l j dx dy : j < length l -> nth j (map g l) dy = g (nth j l dx).
Proof. intros L. rewrite (nth_indep _ dy (g dx)) by (now rewrite map_length). apply map_nth. Qed.
Lemma dims_seq o : dims o (seq 0 (length o)) = o.
Proof.
  apply (nth_ext _ _ 0 0); [unfold dims; now rewrite map_length, seq_length|]. unfold dims. rewrite map_length, seq_length. intros j J.
  rewrite (nth_map_in _ _ j 0) by (now rewrite seq_length). now rewrite seq_nth.
Qed.
Lemma fold_left_mul sh : forall l acc, fold_left (fun n a => n * nth a sh 0) l acc = acc * numel (dims sh l).
Proof. induction l as [|a l IH]; intros acc; cbn [fold_left dims map]; [unfold numel; cbn; lia|]. rewrite IH. unfold dims. cbn [map]. change (numel (nth a sh 0 :: map (fun d => nth d sh 0) l)) with (nth a sh 0 * numel (map (fun d => nth d sh 0) l)). lia. Qed.
Lemma flat_ones (found : nat -> bool) (g c : nat -> nat) : forall l, (forall a, In a l -> found a = true -> c a = 0) ->
  let w := map (fun a => if found a then 1 else g a) l in let k := filter (fun a => negb (found a)) l in
  flat w (map c l) = flat (map g k) (map c k) /\ numel w = numel (map g k).
Proof.
  induction l as [|a l IH]; intros Z; [split; reflexivity|]. cbn zeta. destruct (IH ltac:(intros; apply Z; [now right|assumption])) as [IH1 IH2]. cbn zeta in IH1, IH2.
  cbn [map filter]. destruct (found a) eqn:E; cbn [negb].
  - cbn [flat]. rewrite (Z a (or_introl eq_refl) E), IH1. split; [lia|]. rewrite <- IH2. unfold numel. cbn. lia.
  - cbn [map flat]. rewrite IH1, IH2. split; [reflexivity|]. unfold numel. cbn [fold_right]. unfold numel in IH2. now rewrite IH2.
Qed.

Section Reduce.
Context {A : Type}.
Variable f : A -> A -> A.
Variables (sh ix : list nat).
Hypothesis IX : Forall (fun d => d < length sh) ix.
Let nd := length sh.
Let found a := existsb (Nat.eqb a) ix.
Let kept := filter (fun a => negb (found a)) (seq 0 nd).
Let gone := filter found (seq 0 nd).
Let perm := kept ++ gone.
Lemma found_in a : found a = true <-> In a ix.
Proof. unfold found. rewrite existsb_exists. split; [intros (b & B & E); apply Nat.eqb_eq in E; now subst|]. intros I. exists a. split; [exact I|apply Nat.eqb_refl]. Qed.
Lemma in_kept a : In a kept <-> a < nd /\ found a = false.
Proof. unfold kept. rewrite filter_In, in_seq. rewrite negb_true_iff. intuition lia. Qed.
Lemma in_gone a : In a gone <-> a < nd /\ found a = true.
Proof. unfold gone. rewrite filter_In, in_seq. intuition lia. Qed.
Lemma perm_nodup : NoDup perm.
Proof. apply nodup_app; [apply NoDup_filter, seq_NoDup|apply NoDup_filter, seq_NoDup|]. intros d K G. apply in_kept in K. apply in_gone in G. destruct K, G. congruence. Qed.
Lemma perm_seq : Permutation perm (seq 0 nd).
Proof.
  apply NoDup_Permutation; [apply perm_nodup|apply seq_NoDup|]. intros d. unfold perm. rewrite in_app_iff, in_kept, in_gone, in_seq.
  destruct (found d); intuition; try lia; try discriminate.
Qed.
Lemma perm_len : length perm = nd.
Proof. pose proof (Permutation_length perm_seq) as L. now rewrite seq_length in L. Qed.
Lemma perm_bd : Forall (fun d => d < length perm) perm.
Proof. rewrite Forall_forall. intros d D. rewrite perm_len. apply (Permutation_in _ perm_seq) in D. apply in_seq in D. lia. Qed.
Lemma source_dims idx : length idx = nd -> source_index perm (dims idx perm) = idx.
Proof.
  intros L. apply (nth_ext _ _ 0 0); [rewrite source_len, perm_len; now symmetry|]. rewrite source_len. intros a B.
  destruct (perm_all perm perm_nodup perm_bd a B) as (j & J & <-). rewrite (source_nth perm perm_nodup perm_bd) by (try exact J; unfold dims; now rewrite map_length).
  now apply dims_nth.
Qed.
Let rs := reduced_shape sh ix.
Lemma rs_eq : rs = map (fun a => if found a then 1 else nth a sh 0) (seq 0 nd).
Proof.
  unfold rs, reduced_shape. apply map_ext. intros a. destruct (in_dec Nat.eq_dec a ix) as [I|I].
  - apply found_in in I. now rewrite I.
  - destruct (found a) eqn:E; [|reflexivity]. now apply found_in in E.
Qed.
Lemma rs_len : length rs = nd. Proof. rewrite rs_eq. now rewrite map_length, seq_length. Qed.
Lemma rs_nth a : a < nd -> nth a rs 0 = if found a then 1 else nth a sh 0.
Proof. intros L. rewrite rs_eq. rewrite (nth_map_in _ _ a 0) by (now rewrite seq_length). now rewrite seq_nth. Qed.
Lemma out_flat o : inside rs o -> flat rs o = flat (dims sh kept) (dims o kept).
Proof.
  intros I. pose proof (inside_len _ _ I) as L. rewrite rs_len in L. rewrite <- (dims_seq o) at 1. rewrite L, rs_eq. unfold dims.
  apply (flat_ones found (fun a => nth a sh 0) (fun a => nth a o 0)). intros a AA F. apply in_seq in AA.
  pose proof (nth_inside rs o a I ltac:(rewrite rs_len; lia)) as P. rewrite rs_nth, F in P by lia. lia.
Qed.
Lemma out_numel : numel rs = numel (dims sh kept).
Proof. rewrite rs_eq. apply (flat_ones found (fun a => nth a sh 0) (fun _ => 0)). reflexivity. Qed.
Lemma out_inside o : inside rs o -> inside (dims sh kept) (dims o kept).
Proof.
  intros I. apply inside_nth; [unfold dims; now rewrite !map_length|]. unfold dims at 1. rewrite map_length. intros j J. rewrite !dims_nth by exact J.
  assert (K : In (nth j kept 0) kept) by now apply nth_In. apply in_kept in K. destruct K as [K1 K2].
  pose proof (nth_inside rs o _ I ltac:(rewrite rs_len; exact K1)) as P. now rewrite rs_nth, K2 in P by exact K1.
Qed.
Lemma dims_perm s : dims s perm = dims s kept ++ dims s gone. Proof. apply dims_app. Qed.
(* the row of an output element lists the elements that agree with it *)
Lemma row_perm o : inside rs o ->
  Permutation (map (fun j => source_index perm (dims o kept ++ index_of (dims sh gone) j)) (seq 0 (numel (dims sh gone)))) (filter (agree ix o) (indices sh)).
Proof.
  intros I. pose proof (out_inside o I) as IK. pose proof (inside_len _ _ I) as LO. rewrite rs_len in LO.
  assert (LG : forall j, length (dims o kept ++ index_of (dims sh gone) j) = length perm).
  { intros j. rewrite app_length, index_of_len. unfold dims. rewrite !map_length. unfold perm. now rewrite app_length. }
  apply NoDup_Permutation.
  - apply nodup_map_inj; [|apply seq_NoDup]. intros p q P Q E. apply in_seq in P, Q.
    apply (f_equal (fun s => dims s perm)) in E. rewrite !(dims_source perm perm_nodup perm_bd) in E by apply LG. apply app_inv_head in E.
    destruct (inside_index (dims sh gone) p ltac:(lia)) as [_ <-]. destruct (inside_index (dims sh gone) q ltac:(lia)) as [_ <-]. now rewrite E.
  - apply NoDup_filter, nodup_indices.
  - intros idx. rewrite filter_In, in_indices, in_map_iff. split.
    + intros (j & <- & J). apply in_seq in J. split.
      * apply (source_inside perm perm_nodup perm_bd); [now rewrite perm_len|]. rewrite dims_perm. apply inside_app; [exact IK|]. apply inside_index. lia.
      * unfold agree. apply forallb_forall. intros a D. apply in_seq in D. destruct (in_dec Nat.eq_dec a ix) as [X|X]; [reflexivity|]. apply Nat.eqb_eq.
        assert (K : In a kept) by (apply in_kept; split; [lia|]; destruct (found a) eqn:E; [now apply found_in in E|reflexivity]).
        destruct (In_nth kept a 0 K) as (q & Q & EQ). assert (EP : nth q perm 0 = a) by (unfold perm; now rewrite app_nth1).
        assert (QL : q < length perm) by (unfold perm; rewrite app_length; lia).
        rewrite <- EP at 2. rewrite (source_nth perm perm_nodup perm_bd) by (try exact QL; apply LG). rewrite app_nth1 by (unfold dims; now rewrite map_length). rewrite dims_nth by exact Q. now rewrite EQ.
    + intros [IN AG]. pose proof (inside_len _ _ IN) as LI.
      assert (IG : inside (dims sh gone) (dims idx gone)).
      { apply inside_nth; [unfold dims; now rewrite !map_length|]. unfold dims at 1. rewrite map_length. intros j J. rewrite !dims_nth by exact J. apply nth_inside; [exact IN|].
        assert (K : In (nth j gone 0) gone) by now apply nth_In. apply in_gone in K. apply K. }
      exists (flat (dims sh gone) (dims idx gone)). split; [|apply in_seq; pose proof (flat_lt _ _ IG); lia]. rewrite index_of_flat by exact IG.
      replace (dims o kept) with (dims idx kept); [rewrite <- dims_perm; now apply source_dims|].
      unfold dims. apply map_ext_in. intros a K. apply in_kept in K. destruct K as [K1 K2]. unfold agree in AG. rewrite forallb_forall in AG. specialize (AG a ltac:(apply in_seq; lia)).
      destruct (in_dec Nat.eq_dec a ix) as [X|X]; [apply found_in in X; congruence|]. apply Nat.eqb_eq in AG. now symmetry.
Qed.
Lemma gone_pos : (forall a, In a ix -> 0 < nth a sh 0) -> 0 < numel (dims sh gone).
Proof.
  intros P. assert (H : forall l, (forall a, In a l -> In a ix) -> 0 < numel (dims sh l)).
  { induction l as [|a l IH]; intros L; [unfold numel; cbn; lia|]. cbn [dims map]. change (0 < nth a sh 0 * numel (dims sh l)).
    specialize (P a (L a (or_introl eq_refl))). specialize (IH ltac:(intros; apply L; now right)). nia. }
  apply H. intros a G. apply in_gone in G. now apply found_in.
Qed.
(* an empty reduced axis: refused, unless the result is empty as well *)
Theorem reduce_empty ign init (a : nat -> A) d : In d ix -> nth d sh 0 = 0 -> 0 < numel rs -> reduce f ign init ix (sh, a) = Err.
Proof.
  intros D Z R. assert (GZ : numel (dims sh gone) = 0).
  { assert (G : In d gone) by (apply in_gone; rewrite Forall_forall in IX; split; [now apply IX|now apply found_in]).
    clear - G Z. induction gone as [|b l IH]; [destruct G|]. cbn [dims map]. change (nth b sh 0 * numel (dims sh l) = 0). destruct G as [->|G]; [lia|]. rewrite IH by exact G. lia. }
  unfold reduce. cbn [fst snd]. fold nd. change (fun a0 => existsb (Nat.eqb a0) ix) with found.
  change (filter (fun a0 => negb (existsb (Nat.eqb a0) ix)) (seq 0 nd)) with kept. change (filter found (seq 0 nd)) with gone. change (kept ++ gone) with perm.
  unfold transposed. cbn [fst snd]. rewrite perm_len. fold nd. rewrite Nat.eqb_refl, (distinct_ok perm perm_nodup). cbn [andb].
  replace (forallb (fun a0 => a0 <? nd) perm) with true.
  2: { symmetry. apply forallb_forall. intros e D'. apply Nat.ltb_lt. pose proof perm_bd as B. rewrite Forall_forall in B. rewrite <- perm_len. now apply B. }
  cbn [negb rbind]. rewrite fold_left_mul, Nat.mul_1_l. change (map (fun a0 => nth a0 sh 0) perm) with (dims sh perm). change (map (fun a0 => nth a0 sh 0) kept) with (dims sh kept).
  rewrite GZ. unfold reshaped at 1. cbn [fst snd]. replace (total_size (dims sh kept ++ [0]) =? total_size (dims sh perm)) with true.
  2: { symmetry. apply Nat.eqb_eq. change (numel (dims sh kept ++ [0]) = numel (dims sh perm)). rewrite dims_perm, !numel_app, GZ. unfold numel at 2. cbn. lia. }
  cbn [rbind snd]. replace (forallb (fun a0 => a0 <? nd) ix) with true.
  2: { symmetry. apply forallb_forall. intros e D'. apply Nat.ltb_lt. rewrite Forall_forall in IX. now apply IX. }
  cbn [negb]. change (total_size (dims sh kept)) with (numel (dims sh kept)). rewrite <- out_numel. unfold reduce_rows. destruct (numel rs); [lia|]. reflexivity.
Qed.
Hypothesis assoc : forall a b c, f a (f b c) = f (f a b) c.
Hypothesis comm : forall a b, f a b = f b a.
Theorem reduce_ok ign init (a : nat -> A) : (forall d, In d ix -> 0 < nth d sh 0) ->
  exists z, reduce f ign init ix (sh, a) = Ok (rs, z) /\ is_reduced f ign init sh ix a z.
Proof.
  intros P. pose proof (gone_pos P) as GP. unfold reduce. cbn [fst snd]. fold nd. change (fun a0 => existsb (Nat.eqb a0) ix) with found.
  change (filter (fun a0 => negb (existsb (Nat.eqb a0) ix)) (seq 0 nd)) with kept. change (filter found (seq 0 nd)) with gone. change (kept ++ gone) with perm.
  unfold transposed. cbn [fst snd]. rewrite perm_len. fold nd. rewrite Nat.eqb_refl, (distinct_ok perm perm_nodup). cbn [andb].
  replace (forallb (fun a0 => a0 <? nd) perm) with true.
  2: { symmetry. apply forallb_forall. intros d D. apply Nat.ltb_lt. pose proof perm_bd as B. rewrite Forall_forall in B. rewrite <- perm_len. now apply B. }
  cbn [negb rbind]. rewrite fold_left_mul, Nat.mul_1_l. change (map (fun a0 => nth a0 sh 0) perm) with (dims sh perm). change (map (fun a0 => nth a0 sh 0) kept) with (dims sh kept).
  set (N := numel (dims sh gone)) in *. unfold reshaped at 1. cbn [fst snd].
  replace (total_size (dims sh kept ++ [N]) =? total_size (dims sh perm)) with true.
  2: { symmetry. apply Nat.eqb_eq. change (numel (dims sh kept ++ [N]) = numel (dims sh perm)). rewrite dims_perm, !numel_app. fold N. unfold numel at 2. cbn. lia. }
  cbn [rbind snd]. replace (forallb (fun a0 => a0 <? nd) ix) with true.
  2: { symmetry. apply forallb_forall. intros d D. apply Nat.ltb_lt. rewrite Forall_forall in IX. now apply IX. }
  cbn [negb]. set (at_ := fun p => a _).
  destruct (rows_ok f assoc comm ign init (total_size (dims sh kept)) N at_ GP) as (l & E & LL & F). rewrite E. cbn [rbind]. unfold reshaped, from_list. cbn [fst snd].
  change (map (fun a0 => if existsb (Nat.eqb a0) ix then 1 else nth a0 sh 0) (seq 0 nd)) with (map (fun a0 => if found a0 then 1 else nth a0 sh 0) (seq 0 nd)).
  rewrite <- rs_eq. replace (total_size rs =? total_size (dims sh kept ++ [1])) with true.
  2: { symmetry. apply Nat.eqb_eq. change (numel rs = numel (dims sh kept ++ [1])). rewrite numel_app, out_numel. unfold numel at 3. cbn. lia. }
  eexists. split; [reflexivity|]. intros o I. fold rs in I. fold rs. cbv beta.
  pose proof (out_inside o I) as IK. specialize (F (flat rs o) init). rewrite <- F.
  2: { change (total_size (dims sh kept)) with (numel (dims sh kept)). rewrite <- out_numel. now apply flat_lt. }
  unfold with_init. apply fold1_perm; [exact assoc|exact comm|]. apply Permutation_app_head.
  eapply perm_trans; [apply Permutation_map, Permutation_sym, (row_perm o I)|]. rewrite map_map. fold N.
  apply Permutation_refl'. apply map_ext_in. intros j J. apply in_seq in J. unfold at_. rewrite (position_flat sh (source_index perm (index_of (dims sh perm) (flat rs o * N + j)))). apply f_equal, f_equal, f_equal.
  rewrite out_flat by exact I. symmetry. destruct (inside_index (dims sh gone) j ltac:(fold N; lia)) as [IJ FJ].
  rewrite <- FJ at 1. unfold N. rewrite <- flat_app by exact IK. rewrite dims_perm. apply index_of_flat. now apply inside_app.
Qed.
End Reduce.
