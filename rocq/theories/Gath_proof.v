(* Gather computes the gather operation of StableHLO. *)
From Coq Require Import ZifyNat ZifyBool.
From Verif Require Import Base Ring_model Perm_model Scan_model Fold Dyn_spec Dynw_proof Mm_model Mm_spec Mm_proof Mmt_proof Redn_model Redn_spec Redn_proof Gath_model Gath_spec.
Open Scope nat_scope.

(* ---- binary search ---- *)
Lemma lower_bound_ok l x : increasing l -> forall fuel first len, len <= fuel -> first + len <= length l ->
  (forall i, i < first -> nth i l 0 < x) -> (forall i, first + len <= i < length l -> x <= nth i l 0) ->
  let p := lower_bound fuel l x first len in p <= length l /\ (forall i, i < p -> nth i l 0 < x) /\ (forall i, p <= i < length l -> x <= nth i l 0).
Proof.
  intros I. induction fuel as [|fuel IH]; intros first len F L A B; cbn [lower_bound].
  - split; [lia|]. split; [exact A|]. intros i H. apply B. lia.
  - destruct (Nat.eqb_spec len 0) as [->|N]. { split; [lia|]. split; [exact A|]. intros i H. apply B. lia. }
    pose proof (Nat.div_lt len 2 ltac:(lia) ltac:(lia)) as D. set (half := len / 2) in *. clearbody half. cbv zeta.
    destruct (Nat.ltb_spec (nth (first + half) l 0) x) as [C|C].
    + apply IH; try lia.
      * intros i H. destruct (Nat.eq_dec i (first + half)) as [->|]; [exact C|]. pose proof (I i (first + half) ltac:(lia)). lia.
      * intros i H. apply B. lia.
    + apply IH; try lia; [exact A|]. intros i H. destruct (Nat.eq_dec i (first + half)) as [->|]; [exact C|]. pose proof (I (first + half) i ltac:(lia)). lia.
Qed.
Lemma binary_search_ok l x : increasing l -> binary_search l x = if in_dec Nat.eq_dec x l then true else false.
Proof.
  intros I. unfold binary_search. destruct (lower_bound_ok l x I (length l) 0 (length l)) as (P & A & B); try lia. set (p := lower_bound _ _ _ _ _) in *. clearbody p.
  destruct (in_dec Nat.eq_dec x l) as [H|H].
  - apply (In_nth _ _ 0) in H. destruct H as (i & L & <-). assert (p <= i) by (destruct (Nat.le_gt_cases p i); [assumption|]; specialize (A i ltac:(lia)); lia).
    destruct (Nat.ltb_spec p (length l)); [|lia]. cbn [andb]. destruct (Nat.ltb_spec (nth i l 0) (nth p l 0)) as [C|C]; [|reflexivity].
    destruct (Nat.eq_dec p i) as [->|]; [lia|]. pose proof (I p i ltac:(lia)). lia.
  - destruct (Nat.ltb_spec p (length l)) as [L|L]; [|reflexivity]. cbn [andb]. destruct (Nat.ltb_spec x (nth p l 0)) as [C|C]; [reflexivity|].
    exfalso. apply H. specialize (B p ltac:(lia)). replace x with (nth p l 0) by lia. apply nth_In. exact L.
Qed.
Lemma increasing_tail x l : increasing (x :: l) -> increasing l /\ Forall (fun y => x < y) l.
Proof.
  intros I. split. { intros i j H. exact (I (S i) (S j) ltac:(cbn; lia)). }
  apply Forall_forall. intros y Y. apply (In_nth _ _ 0) in Y. destruct Y as (i & L & <-). exact (I 0 (S i) ltac:(cbn; lia)).
Qed.
Lemma increasing_nodup l : increasing l -> NoDup l.
Proof.
  induction l as [|x l IH]; intros I; [constructor|]. apply increasing_tail in I. destruct I as [I F]. constructor; [|now apply IH].
  intros H. rewrite Forall_forall in F. specialize (F x H). lia.
Qed.
Lemma filter_none {X} (f : X -> bool) l : (forall x, In x l -> f x = false) -> filter f l = [].
Proof. induction l as [|x l IH]; intros H; cbn; [reflexivity|]. rewrite (H x) by now left. apply IH. intros y Y. apply H. now right. Qed.
Lemma filter_ext_in' {X} (f g : X -> bool) l : (forall x, In x l -> f x = g x) -> filter f l = filter g l.
Proof. induction l as [|x l IH]; intros H; cbn; [reflexivity|]. rewrite (H x) by now left. rewrite IH; [reflexivity|]. intros y Y. apply H. now right. Qed.
(* the members of an increasing list, taken from a range *)
Lemma filter_members l : forall a n, increasing l -> Forall (fun i => a <= i < a + n) l -> filter (fun i => if in_dec Nat.eq_dec i l then true else false) (seq a n) = l.
Proof.
  intros a n. revert a l. induction n as [|n IH]; intros a l I F.
  - destruct l as [|x l]; [reflexivity|]. inversion F; subst. lia.
  - cbn [seq filter]. destruct l as [|x l].
    + cbn. apply filter_none. intros y _. reflexivity.
    + destruct (increasing_tail _ _ I) as [I' F']. inversion F as [|? ? X F2]; subst. rewrite Forall_forall in F', F2.
      destruct (in_dec Nat.eq_dec a (x :: l)) as [H|H].
      * assert (x = a) as ->. { destruct H as [H|H]; [exact H|]. specialize (F' a H). lia. }
        f_equal. transitivity (filter (fun i => if in_dec Nat.eq_dec i l then true else false) (seq (S a) n)).
        2:{ apply IH; [exact I'|]. apply Forall_forall. intros y Y. specialize (F' y Y). specialize (F2 y Y). lia. }
        apply filter_ext_in'. intros y Y. apply in_seq in Y. destruct (in_dec Nat.eq_dec y (a :: l)) as [[J|J]|J], (in_dec Nat.eq_dec y l) as [K|K]; try reflexivity; try lia; try contradiction. exfalso. apply J. now right.
      * apply IH; [exact I|]. apply Forall_forall. intros y Y. rewrite Forall_forall in F. specialize (F y Y). assert (y <> a) by (intros ->; contradiction). lia.
Qed.

(* ---- buffers ---- *)
Lemma set_at_len {B} (l : list B) : forall n v, length (set_at l n v) = length l.
Proof. induction l as [|x l IH]; intros [|n] v; cbn; auto. Qed.
Lemma set_at_nth {B} (l : list B) : forall n v i d, n < length l -> nth i (set_at l n v) d = if i =? n then v else nth i l d.
Proof. induction l as [|x l IH]; intros [|n] v [|i] d H; cbn in *; try lia; auto. apply IH. lia. Qed.
Lemma insert_len n x l : n <= length l -> length (insert_at n x l) = S (length l).
Proof. intros H. unfold insert_at. rewrite app_length. cbn. rewrite firstn_length, skipn_length. lia. Qed.
Lemma insert_nth n x l i : n <= length l -> nth i (insert_at n x l) 0 = if i <? n then nth i l 0 else if i =? n then x else nth (i - 1) l 0.
Proof.
  intros H. unfold insert_at. destruct (Nat.ltb_spec i n) as [L|L].
  - rewrite app_nth1 by (rewrite firstn_length; lia). rewrite <- (firstn_skipn n l) at 2. rewrite app_nth1 by (rewrite firstn_length; lia). reflexivity.
  - rewrite app_nth2 by (rewrite firstn_length; lia). rewrite firstn_length, Nat.min_l by exact H. destruct (Nat.eqb_spec i n) as [->|N]; [now rewrite Nat.sub_diag|].
    destruct (i - n) as [|q] eqn:E; [lia|]. cbn [nth]. replace (i - 1) with (n + q) by lia. rewrite <- (firstn_skipn n l) at 2.
    rewrite app_nth2 by (rewrite firstn_length; lia). rewrite firstn_length, Nat.min_l by exact H. f_equal. lia.
Qed.
Lemma set_at_twice {B} (l : list B) : forall n x y, set_at (set_at l n x) n y = set_at l n y.
Proof. induction l as [|z l IH]; intros [|n] x y; cbn; [reflexivity..|]. now rewrite IH. Qed.
Lemma combine_seq {X} (d : X) l : forall a, combine (seq a (length l)) l = map (fun i => (i, nth (i - a) l d)) (seq a (length l)).
Proof.
  induction l as [|x l IH]; intros a; [reflexivity|]. cbn [length seq combine map]. rewrite Nat.sub_diag. cbn [nth]. f_equal. rewrite IH. apply map_ext_in.
  intros i I. apply in_seq in I. do 2 f_equal. destruct (i - a) as [|q] eqn:E; [lia|]. cbn [nth]. f_equal. lia.
Qed.
Lemma combine_seq0 {X} (d : X) l : combine (seq 0 (length l)) l = map (fun i => (i, nth i l d)) (seq 0 (length l)).
Proof. rewrite (combine_seq d). apply map_ext. intros i. now rewrite Nat.sub_0_r. Qed.
Lemma in_combine_seq {X} (d : X) l i x : In (i, x) (combine (seq 0 (length l)) l) <-> i < length l /\ nth i l d = x.
Proof.
  rewrite (combine_seq0 d), in_map_iff. split.
  - intros (j & E & J). injection E as -> <-. apply in_seq in J. split; [lia|reflexivity].
  - intros [L E]. exists i. split; [now rewrite E|]. apply in_seq. lia.
Qed.
Lemma filter_map_swap {X Y} (g : X -> Y) (f : Y -> bool) l : filter f (map g l) = map g (filter (fun x => f (g x)) l).
Proof. induction l as [|x l IH]; [reflexivity|]. cbn. destruct (f (g x)); cbn; now rewrite IH. Qed.

Section Proof.
Variable cfg : gather_config.
Notation ivd := (index_vector_dim cfg).
Notation off := (binary_search (offset_dims cfg)).
Notation coll := (binary_search (collapsed_dims cfg)).

Definition batch_of (dims out : list nat) : list nat := map snd (filter (fun p => negb (off (fst p))) (combine dims out)).
Definition place (t : nat) : nat := if t <? ivd then t else S t.
Definition count_at (t : nat) : nat := if t <=? ivd then t else S t.
Lemma set_batch_ok : forall dims out t buf, length out = length dims -> t + length (batch_of dims out) < length buf -> ivd < length buf ->
  exists r, set_batch cfg dims out (count_at t) buf = Ok r /\ length r = length buf /\
    (forall i, i < length (batch_of dims out) -> nth (place (t + i)) r 0 = nth i (batch_of dims out) 0) /\
    (forall q, (forall i, i < length (batch_of dims out) -> q <> place (t + i)) -> nth q r 0 = nth q buf 0).
Proof.
  induction dims as [|d dims IH]; intros [|o out] t buf L B I; cbn [length] in L; try lia.
  - exists buf. cbn [set_batch]. split; [reflexivity|]. split; [reflexivity|]. split; [intros i H; cbn in H; lia|reflexivity].
  - cbn [set_batch]. unfold batch_of in *. cbn [combine filter fst] in *. destruct (off d) eqn:E; cbn [negb] in *; [apply IH; try lia|].
    cbn [map snd length] in *.
    assert (K : (if count_at t =? ivd then S (count_at t) else count_at t) = place t).
    { unfold count_at, place. destruct (Nat.leb_spec t ivd), (Nat.ltb_spec t ivd); try lia; [destruct (Nat.eqb_spec t ivd); lia|destruct (Nat.eqb_spec t ivd); lia|destruct (Nat.eqb_spec (S t) ivd); lia]. }
    rewrite K. assert (P : place t < length buf) by (unfold place; destruct (t <? ivd); lia). destruct (Nat.ltb_spec (place t) (length buf)); [|lia].
    assert (N : S (place t) = count_at (S t)) by (unfold count_at, place; destruct (Nat.ltb_spec t ivd), (Nat.leb_spec (S t) ivd); lia). rewrite N.
    destruct (IH out (S t) (set_at buf (place t) o)) as (r & R & RL & R1 & R2); rewrite ?set_at_len; try lia.
    exists r. split; [exact R|]. split; [now rewrite RL, set_at_len|]. split.
    + intros [|i] H'; cbn [nth].
      * rewrite Nat.add_0_r, R2, set_at_nth by (try exact P; intros i _; unfold place; destruct (Nat.ltb_spec t ivd), (Nat.ltb_spec (S t + i) ivd); lia). now rewrite Nat.eqb_refl.
      * rewrite <- (R1 i) by lia. do 2 f_equal. lia.
    + intros q Q. rewrite R2. { rewrite set_at_nth by exact P. destruct (Nat.eqb_spec q (place t)) as [->|]; [|reflexivity]. exfalso. apply (Q 0); [lia|]. now rewrite Nat.add_0_r. }
      intros i H'. specialize (Q (S i) ltac:(lia)). now replace (S t + i) with (t + S i) by lia.
Qed.
Lemma set_batch_insert dims out buf : length out = length dims -> length buf = S (length (batch_of dims out)) -> ivd < length buf ->
  exists r, set_batch cfg dims out 0 buf = Ok r /\ length r = length buf /\ forall j, set_at r ivd j = insert_at ivd j (batch_of dims out).
Proof.
  intros L B I. destruct (set_batch_ok dims out 0 buf L ltac:(lia) I) as (r & R & RL & R1 & _). change (count_at 0) with 0 in R. exists r. split; [exact R|]. split; [exact RL|].
  intros j. apply (nth_ext _ _ 0 0). { rewrite set_at_len, insert_len; lia. } rewrite set_at_len. intros i Hi. rewrite set_at_nth, insert_nth by lia.
  destruct (Nat.eqb_spec i ivd) as [->|N]; [destruct (Nat.ltb_spec ivd ivd); [lia|reflexivity]|]. destruct (Nat.ltb_spec i ivd) as [H|H].
  - rewrite <- (R1 i) by lia. unfold place. cbn [Nat.add]. destruct (Nat.ltb_spec i ivd); [reflexivity|lia].
  - rewrite <- (R1 (i - 1)) by lia. unfold place. cbn [Nat.add]. destruct (Nat.ltb_spec (i - 1) ivd); [lia|]. f_equal. lia.
Qed.
Lemma batch_of_drop out : increasing (offset_dims cfg) -> batch_of (seq 0 (length out)) out = drop_at (offset_dims cfg) out.
Proof.
  intros I. unfold batch_of, drop_at. rewrite (combine_seq0 0), filter_map_swap, map_map. cbn [snd fst]. f_equal. apply filter_ext_in'. intros i _. rewrite binary_search_ok by exact I.
  now destruct (in_dec Nat.eq_dec i (offset_dims cfg)).
Qed.
Lemma fetch_ok (si : @arr Z) n b : (forall j, j < n -> inside (fst si) (insert_at ivd j b)) -> forall js buf vec, (forall j, In j js -> j < n) -> length vec = n ->
  (forall j, set_at buf ivd j = insert_at ivd j b) ->
  exists buf' vec', fetch_vector cfg si js buf vec = Ok (buf', vec') /\ length buf' = length buf /\ length vec' = n /\
  forall j, nth j vec' 0%Z = if in_dec Nat.eq_dec j js then snd si (flat (fst si) (insert_at ivd j b)) else nth j vec 0%Z.
Proof.
  intros F. induction js as [|x js IH]; intros buf vec J V B; cbn [fetch_vector].
  - exists buf, vec. split; [reflexivity|]. split; [reflexivity|]. split; [exact V|]. intros j. destruct (in_dec Nat.eq_dec j []) as [[]|]. reflexivity.
  - rewrite B, position_flat. pose proof (flat_lt _ _ (F x (J x (or_introl eq_refl)))) as L. change (total_size (fst si)) with (numel (fst si)). destruct (Nat.ltb_spec (flat (fst si) (insert_at ivd x b)) (numel (fst si))); [|lia].
    destruct (IH (insert_at ivd x b) (set_at vec x (snd si (flat (fst si) (insert_at ivd x b))))) as (buf' & vec' & E & L1 & L2 & N).
    + intros j Hj. apply J. now right. + now rewrite set_at_len. + intros j. rewrite <- (B x), set_at_twice. apply B.
    + exists buf', vec'. split; [exact E|]. split; [rewrite L1, <- (B x); apply set_at_len|]. split; [exact L2|]. intros j. rewrite N.
      destruct (in_dec Nat.eq_dec j js) as [H'|H'], (in_dec Nat.eq_dec j (x :: js)) as [K|K]; try reflexivity.
      * exfalso. apply K. now right.
      * destruct K as [->|K]; [|contradiction]. rewrite set_at_nth, Nat.eqb_refl; [reflexivity|]. rewrite V. apply J. now left.
      * rewrite set_at_nth; [|rewrite V; apply J; now left]. destruct (Nat.eqb_spec j x) as [->|]; [|reflexivity]. exfalso. apply K. now left.
Qed.
Lemma set_from_ok {B} (d : B) src : forall m buf, length buf = length m -> (forall i j, nth i m None = Some j -> j < length src) ->
  set_from m src buf = Ok (map (fun i => match nth i m None with Some j => nth j src d | None => nth i buf d end) (seq 0 (length m))).
Proof.
  induction m as [|x m IH]; intros [|b buf] L S; cbn [length] in L; try lia; [reflexivity|]. cbn [set_from length seq map nth].
  rewrite (IH buf) by (try lia; intros i j E; exact (S (Datatypes.S i) j E)). rewrite <- seq_shift, map_map. cbn [nth]. destruct x as [j|]; [|reflexivity].
  destruct (nth_error src j) as [v|] eqn:E. { cbn. now rewrite (nth_error_nth _ _ d E). }
  apply nth_error_None in E. specialize (S 0 j eq_refl). lia.
Qed.
Lemma find_in_some l x : forall j, find_in l x = Some j -> nth_error l j = Some x.
Proof.
  induction l as [|y l IH]; intros j H; cbn in H; [discriminate|]. destruct (Nat.eqb_spec y x) as [->|].
  - injection H as <-. reflexivity.
  - destruct (find_in l x) as [i|]; [|discriminate]. injection H as <-. cbn. now apply IH.
Qed.
Lemma find_in_none l x : find_in l x = None -> ~ In x l.
Proof.
  induction l as [|y l IH]; intros H; cbn in *; [tauto|]. destruct (Nat.eqb_spec y x) as [->|N]; [discriminate|]. destruct (find_in l x); [discriminate|]. intros [C|C]; [contradiction|]. now apply IH.
Qed.
Lemma find_in_nth l x j : NoDup l -> nth_error l j = Some x -> find_in l x = Some j.
Proof.
  intros N E. destruct (find_in l x) as [i|] eqn:F.
  - f_equal. apply find_in_some in F. apply (proj1 (NoDup_nth_error l) N); [apply nth_error_Some; congruence|congruence].
  - exfalso. apply (find_in_none _ _ F). eapply nth_error_In. exact E.
Qed.
Lemma dim_to_output_ok w2o : forall dims k, length (filter (fun i => negb (coll i)) dims) + k <= length w2o ->
  exists m, dim_to_output cfg w2o dims k = Ok m /\ length m = length dims /\
  (forall i, In (i, None) (combine dims m) -> coll i = true) /\
  (forall i o, In (i, Some o) (combine dims m) <-> In (i, o) (combine (filter (fun i => negb (coll i)) dims) (skipn k w2o))).
Proof.
  induction dims as [|d dims IH]; intros k L.
  - exists []. cbn. split; [reflexivity|]. split; [reflexivity|]. split; [intros i []|]. intros i o. split; intros [].
  - cbn [dim_to_output]. cbn [filter] in *. destruct (coll d) eqn:E; cbn [negb] in *.
    + destruct (IH k L) as (m & Em & Lm & M1 & M2). exists (None :: m). rewrite Em. cbn [rbind length combine In]. split; [reflexivity|]. split; [lia|]. split.
      * intros i [H|H]; [now injection H as <-|now apply M1].
      * intros i o. rewrite M2. split; [intros [H|H]; [discriminate|exact H]|now right].
    + cbn [length] in L. destruct (nth_error w2o k) as [o|] eqn:K; [|apply nth_error_None in K; lia].
      destruct (IH (S k) ltac:(lia)) as (m & Em & Lm & M1 & M2). exists (Some o :: m). rewrite Em. cbn [rbind length combine]. split; [reflexivity|]. split; [lia|].
      assert (SK : skipn k w2o = o :: skipn (S k) w2o). { clear -K. revert k K. induction w2o as [|w w2o IH]; intros [|k] K; cbn in *; try discriminate; [now injection K as ->|now apply IH]. }
      split. * intros i [H|H]; [discriminate|now apply M1].
      * intros i o'. rewrite SK. cbn [combine In]. rewrite M2. split; (intros [H|H]; [left; congruence|now right]).
Qed.
End Proof.

Lemma filter_le_shrink l : forall k, length (filter (fun i => S k <=? i) l) <= length (filter (fun i => k <=? i) l) /\ (In k l -> length (filter (fun i => S k <=? i) l) < length (filter (fun i => k <=? i) l)).
Proof.
  induction l as [|x l IH]; intros k; [cbn; split; [lia|tauto]|]. destruct (IH k) as [A B]. unfold filter; fold (filter (fun i => S k <=? i)) (filter (fun i => k <=? i)).
  destruct (Nat.leb_spec (S k) x), (Nat.leb_spec k x); cbn [length]; try lia; (split; [lia|]); intros [->|H']; try lia; specialize (B H'); lia.
Qed.
Lemma skip_ok cfg : increasing (collapsed_dims cfg) -> forall fuel k, length (filter (fun i => k <=? i) (collapsed_dims cfg)) <= fuel ->
  let k' := skip_collapsed cfg fuel k in k <= k' /\ binary_search (collapsed_dims cfg) k' = false /\ forall i, k <= i < k' -> binary_search (collapsed_dims cfg) i = true.
Proof.
  intros I. induction fuel as [|fuel IH]; intros k L; cbn [skip_collapsed].
  - split; [lia|]. split; [|intros i H; lia]. rewrite binary_search_ok by exact I. destruct (in_dec Nat.eq_dec k (collapsed_dims cfg)) as [H|]; [|reflexivity].
    destruct (filter_le_shrink (collapsed_dims cfg) k) as [_ B]. specialize (B H). lia.
  - destruct (binary_search (collapsed_dims cfg) k) eqn:E; cbv zeta.
    + assert (In k (collapsed_dims cfg)) as H. { rewrite binary_search_ok in E by exact I. destruct (in_dec Nat.eq_dec k (collapsed_dims cfg)); [assumption|discriminate]. }
      destruct (filter_le_shrink (collapsed_dims cfg) k) as [_ B]. specialize (B H). destruct (IH (S k) ltac:(lia)) as (A & C & D). split; [lia|]. split; [exact C|].
      intros i Hi. destruct (Nat.eq_dec i k) as [->|]; [exact E|]. apply D. lia.
    + split; [lia|]. split; [exact E|]. intros i H. lia.
Qed.
Lemma filter_len_le {X} (f : X -> bool) l : length (filter f l) <= length l.
Proof. induction l as [|x l IH]; [cbn; lia|]. cbn. destruct (f x); cbn; lia. Qed.
Lemma offset_count_ok cfg rs : increasing (collapsed_dims cfg) -> forall dims k,
  map (fun i => nth i rs 0) (filter (binary_search (offset_dims cfg)) dims) =
  map (fun i => nth i (slice_sizes cfg) 0) (filter (fun i => negb (binary_search (collapsed_dims cfg) i)) (seq k (length (slice_sizes cfg) - k))) ->
  offset_count cfg dims k = Ok (map (fun i => if binary_search (offset_dims cfg) i then nth i rs 0 else 1) dims).
Proof.
  intros I. induction dims as [|d dims IH]; intros k H; [reflexivity|]. cbn [offset_count map filter] in *. destruct (binary_search (offset_dims cfg) d) eqn:E.
  2:{ rewrite (IH k H). reflexivity. }
  destruct (skip_ok cfg I (length (collapsed_dims cfg)) k (filter_len_le _ _)) as (A & B & C). set (k' := skip_collapsed cfg _ k) in *. clearbody k'.
  set (N := length (slice_sizes cfg)) in *. destruct (Nat.lt_ge_cases k' N) as [L|L].
  - assert (SQ : filter (fun i => negb (binary_search (collapsed_dims cfg) i)) (seq k (N - k)) = k' :: filter (fun i => negb (binary_search (collapsed_dims cfg) i)) (seq (S k') (N - S k'))).
    { replace (N - k) with ((k' - k) + S (N - S k')) by lia. rewrite seq_app, filter_app. replace (k + (k' - k)) with k' by lia. rewrite (filter_none _ (seq k (k' - k))).
      - cbn [seq filter app]. now rewrite B.
      - intros i Hi. apply in_seq in Hi. rewrite C by lia. reflexivity. }
    rewrite SQ in H. cbn [map] in H. injection H as H0 H1. destruct (nth_error (slice_sizes cfg) k') as [n|] eqn:Q; [|apply nth_error_None in Q; fold N in Q; lia].
    rewrite (IH (S k') H1). cbn [rbind]. rewrite H0. now rewrite (nth_error_nth _ _ 0 Q).
  - rewrite (filter_none _ (seq k (N - k))) in H by (intros i Hi; apply in_seq in Hi; rewrite C by lia; reflexivity). cbn in H. discriminate.
Qed.
Lemma numel_pos sh : 0 < numel sh <-> forall i, i < length sh -> 0 < nth i sh 0.
Proof.
  induction sh as [|d sh IH]; [cbn; split; [intros _ i H; lia|lia]|]. change (numel (d :: sh)) with (d * numel sh). split.
  - intros H [|i] L; cbn in *; [nia|]. apply IH; [nia|lia].
  - intros H. pose proof (H 0 ltac:(cbn; lia)) as H0. cbn in H0. assert (0 < numel sh) by (apply IH; intros i L; exact (H (S i) ltac:(cbn; lia))). nia.
Qed.
Lemma for_each_ok c : 0 < numel c -> for_each c = indices c.
Proof.
  intros P. rewrite <- (visited_ok c P). unfold for_each, visited. do 3 f_equal. rewrite <- (map_id c) at 2. apply map_ext_in. intros d D. apply (In_nth _ _ 0) in D. destruct D as (i & L & <-).
  pose proof (proj1 (numel_pos c) P i L). lia.
Qed.
Lemma inside_elim sh idx : inside sh idx -> forall i, i < length sh -> nth i idx 0 < nth i sh 0.
Proof. intros I. induction I as [|d x sh idx H I IH]; intros i L; cbn in *; [lia|]. destruct i as [|i]; [exact H|]. apply IH. lia. Qed.
Lemma loop_writes {A S T} (body : T -> S -> res S) (inv : S -> Prop) (zof : S -> nat -> A) (w : T -> nat -> bool) (val : nat -> A) : forall l,
  (forall x st, In x l -> inv st -> exists st', body x st = Ok st' /\ inv st' /\ forall p, zof st' p = if w x p then val p else zof st p) ->
  forall st, inv st -> exists st', loop body l st = Ok st' /\ inv st' /\ forall p, zof st' p = if existsb (fun x => w x p) l then val p else zof st p.
Proof.
  induction l as [|x l IH]; intros H st I; [exists st; now split|]. cbn [loop existsb]. destruct (H x st (or_introl eq_refl) I) as (s1 & E1 & I1 & W1). rewrite E1. cbn [rbind].
  destruct (IH (fun y s Y => H y s (or_intror Y)) s1 I1) as (s2 & E2 & I2 & W2). exists s2. split; [exact E2|]. split; [exact I2|]. intros p. rewrite W2, W1. now destruct (w x p), (existsb _ l).
Qed.
Lemma nth_map_seq {X} (g : nat -> X) n i d : i < n -> nth i (map g (seq 0 n)) d = g i.
Proof. intros L. rewrite (nth_indep _ d (g 0)) by (rewrite map_length, seq_length; exact L). rewrite map_nth, seq_nth by exact L. reflexivity. Qed.
Lemma zip_add_nth : forall a b i, length a = length b -> nth i (zipWith Nat.add a b) 0 = nth i a 0 + nth i b 0.
Proof. induction a as [|x a IH]; intros [|y b] i L; cbn in L; try lia; [now destruct i|]. destruct i; cbn; [reflexivity|]. apply IH. lia. Qed.
Lemma zip_add_len : forall a b, length a = length b -> length (zipWith Nat.add a b) = length a.
Proof. induction a as [|x a IH]; intros [|y b] L; cbn in L; try lia; [reflexivity|]. cbn. rewrite IH; lia. Qed.
Lemma zip_map {X Y W V} (f : Y -> W -> V) (g : X -> Y) (h : X -> W) l : zipWith f (map g l) (map h l) = map (fun x => f (g x) (h x)) l.
Proof. induction l as [|x l IH]; [reflexivity|]. cbn. now rewrite IH. Qed.
Lemma drop_at_ext ds a b : length a = length b -> (forall i, i < length a -> ~ In i ds -> nth i a 0 = nth i b 0) -> drop_at ds a = drop_at ds b.
Proof.
  intros L H. unfold drop_at. rewrite <- L. apply map_ext_in. intros i I. apply filter_In in I. destruct I as [I J]. apply in_seq in I. destruct (in_dec Nat.eq_dec i ds) as [|N]; [discriminate|]. apply H; [lia|exact N].
Qed.
Lemma drop_at_inside ds rs r : inside rs r -> inside (drop_at ds rs) (drop_at ds r).
Proof.
  intros I. pose proof (inside_len _ _ I) as L. unfold drop_at. rewrite L. set (l := filter _ _). assert (H : forall i, In i l -> i < length rs) by (intros i Hi; apply filter_In in Hi; destruct Hi as [Hi _]; apply in_seq in Hi; lia).
  clearbody l. induction l as [|x l IH]; [constructor|]. cbn. constructor; [apply (inside_elim _ _ I), H; now left|]. apply IH. intros i Hi. apply H. now right.
Qed.
Lemma insert_inside n x j sh idx : n <= length sh -> j < x -> inside sh idx -> inside (insert_at n x sh) (insert_at n j idx).
Proof.
  intros L J I. pose proof (inside_len _ _ I) as LL. apply inside_nth; [rewrite !insert_len; lia|]. rewrite insert_len by exact L. intros a A. rewrite !insert_nth by lia.
  destruct (Nat.ltb_spec a n); [apply (inside_elim _ _ I); lia|]. destruct (Nat.eqb_spec a n); [exact J|]. apply (inside_elim _ _ I). lia.
Qed.
