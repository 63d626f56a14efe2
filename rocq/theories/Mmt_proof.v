(* Tensordot: transposes and reshapes around a matrix product contract the axes asked for. *)
From Coq Require Import ZifyNat ZifyBool Permutation.
From Verif Require Import Base Ring_model Ring_spec Ring_proof Share_spec Disp_model Disp_spec Disp_proof Dyn_spec Dynw_proof Mm_model Mm_spec Mm_proof Mmm_proof.
Open Scope nat_scope.
#[local] Existing Instance strict.

Lemma position_flat sh : forall idx, position sh idx = flat sh idx.
Proof. induction sh as [|d sh IH]; intros [|i idx]; cbn; rewrite ?IH; reflexivity. Qed.
Lemma index_of_flat sh : forall idx, inside sh idx -> index_of sh (flat sh idx) = idx.
Proof.
  induction sh as [|d sh IH]; intros idx I; inversion I; subst; [reflexivity|]. cbn [index_of flat]. change (total_size sh) with (numel sh).
  match goal with H : Forall2 _ sh ?l |- _ => pose proof (flat_lt sh l H) as L; rewrite pos_div, pos_mod by exact L; now rewrite (IH l H) end.
Qed.
Lemma inside_index sh : forall p, p < numel sh -> inside sh (index_of sh p) /\ flat sh (index_of sh p) = p.
Proof. intros p P. destruct (flat_surj sh p P) as (idx & I & <-). now rewrite index_of_flat. Qed.
Lemma numel_app a b : numel (a ++ b) = numel a * numel b.
Proof. induction a as [|d a IH]; cbn [app]; [unfold numel; cbn; lia|]. change (numel (d :: a ++ b)) with (d * numel (a ++ b)). change (numel (d :: a)) with (d * numel a). rewrite IH. lia. Qed.
Lemma flat_app a b : forall i j, inside a i -> flat (a ++ b) (i ++ j) = flat a i * numel b + flat b j.
Proof.
  induction a as [|d a IH]; intros i j I; inversion I; subst; [reflexivity|]. cbn [app flat]. rewrite IH by assumption. rewrite numel_app. lia.
Qed.
Lemma inside_app a b i j : inside a i -> inside b j -> inside (a ++ b) (i ++ j).
Proof. intros. now apply Forall2_app. Qed.
Lemma inside_len sh idx : inside sh idx -> length idx = length sh.
Proof. intros I. induction I; cbn; lia. Qed.
Lemma inside_nth sh idx : length idx = length sh -> (forall a, a < length sh -> nth a idx 0 < nth a sh 0) -> inside sh idx.
Proof.
  revert idx. induction sh as [|d sh IH]; intros [|i idx] L H; try discriminate; constructor.
  - exact (H 0 ltac:(cbn; lia)).
  - apply IH; [now injection L|]. intros a A. exact (H (S a) ltac:(cbn; lia)).
Qed.
Lemma nth_inside sh idx a : inside sh idx -> a < length sh -> nth a idx 0 < nth a sh 0.
Proof. intros I. revert a. induction I; intros a A; cbn in A; [lia|]. destruct a; cbn; [assumption|]. apply IHI. lia. Qed.

Section Perm.
Variable perm : list nat.
Hypothesis ND : NoDup perm.
Hypothesis BD : Forall (fun d => d < length perm) perm.
Lemma perm_all a : a < length perm -> exists j, j < length perm /\ nth j perm 0 = a.
Proof.
  intros A. assert (I : In a perm).
  { apply (@NoDup_length_incl nat perm (seq 0 (length perm))); [exact ND|rewrite seq_length; lia| |apply in_seq; lia].
    intros d D. apply in_seq. rewrite Forall_forall in BD. specialize (BD d D). lia. }
  destruct (In_nth perm a 0 I) as (j & J & E). eauto.
Qed.
Lemma find_at : forall (p idx : list nat) j, NoDup p -> length idx = length p -> j < length p ->
  find (fun '(q, _) => q =? nth j p 0) (combine p idx) = Some (nth j p 0, nth j idx 0).
Proof.
  induction p as [|q p IH]; intros [|i idx] j N L J; cbn in L, J; try lia. inversion N; subst. cbn [combine find]. destruct j as [|j].
  - cbn [nth]. now rewrite Nat.eqb_refl.
  - cbn [nth]. destruct (Nat.eqb_spec q (nth j p 0)) as [->|]; [exfalso; apply H1; apply nth_In; lia|]. apply IH; [assumption|lia|lia].
Qed.
Lemma source_len idx : length (source_index perm idx) = length perm.
Proof. unfold source_index. now rewrite map_length, seq_length. Qed.
Lemma source_nth idx j : length idx = length perm -> j < length perm -> nth (nth j perm 0) (source_index perm idx) 0 = nth j idx 0.
Proof.
  intros L J. assert (A : nth j perm 0 < length perm) by (rewrite Forall_forall in BD; apply BD, nth_In; exact J).
  unfold source_index. set (f := fun a => _). rewrite (nth_indep _ 0 (f 0)) by (now rewrite map_length, seq_length).
  rewrite map_nth, seq_nth by exact A. cbn [Nat.add]. unfold f. now rewrite find_at.
Qed.
Lemma dims_source idx : length idx = length perm -> dims (source_index perm idx) perm = idx.
Proof.
  intros L. apply (nth_ext _ _ 0 0); [unfold dims; now rewrite map_length|]. unfold dims. rewrite map_length. intros j J.
  rewrite (nth_indep _ 0 ((fun d => nth d (source_index perm idx) 0) 0)) by (now rewrite map_length).
  rewrite (map_nth (fun d => nth d (source_index perm idx) 0)). now apply source_nth.
Qed.
Lemma dims_nth sh l j : j < length l -> nth j (dims sh l) 0 = nth (nth j l 0) sh 0.
Proof.
  clear. intros J. unfold dims. rewrite (nth_indep _ 0 ((fun d => nth d sh 0) 0)) by (now rewrite map_length). now rewrite (map_nth (fun d => nth d sh 0)).
Qed.
Lemma source_inside sh idx : length sh = length perm -> inside (dims sh perm) idx -> inside sh (source_index perm idx).
Proof.
  intros L I. pose proof (inside_len _ _ I) as LI. unfold dims in LI. rewrite map_length in LI. apply inside_nth; [rewrite source_len; lia|]. intros a A.
  destruct (perm_all a ltac:(lia)) as (j & J & <-). rewrite source_nth by lia. rewrite <- dims_nth by exact J. apply nth_inside; [exact I|]. unfold dims. now rewrite map_length.
Qed.
Lemma distinct_ok : distinct perm = true.
Proof.
  clear BD. induction ND as [|a l NI N IH]; [reflexivity|]. cbn. rewrite (IH ltac:(assumption)), andb_true_r. apply negb_true_iff.
  destruct (existsb (Nat.eqb a) l) eqn:E; [|reflexivity]. apply existsb_exists in E. destruct E as (b & B & Q). apply Nat.eqb_eq in Q. now subst b.
Qed.
Lemma transpose_ok k n sh e a : length sh = length perm -> stands k n (numel sh) e a ->
  wp (transpose (sh, e) perm) (fun v => fst v = dims sh perm /\
    stands k n (numel (dims sh perm)) (snd v) (fun p => a (flat sh (source_index perm (index_of (dims sh perm) p))))).
Proof.
  intros L ST. unfold transpose. cbn [fst snd]. rewrite L, Nat.eqb_refl, distinct_ok. cbn [andb].
  replace (forallb (fun a0 => a0 <? length perm) perm) with true.
  2: { symmetry. apply forallb_forall. intros d D. rewrite Forall_forall in BD. apply Nat.ltb_lt. now apply BD. }
  cbn [negb]. apply wp_ret. cbn [fst snd]. split; [reflexivity|].
  eapply stands_ext; [apply (stands_renumber k n (numel sh) _ _ _ _ ST)|].
  - intros p P. rewrite position_flat. apply flat_lt. apply source_inside; [exact L|]. now apply (inside_index (dims sh perm)).
  - intros p P. cbv beta. now rewrite position_flat.
Qed.
End Perm.

(* ---- axes ---- *)
Lemma nodup_app {A} (l l' : list A) : NoDup l -> NoDup l' -> (forall d, In d l -> In d l' -> False) -> NoDup (l ++ l').
Proof.
  intros N N' D. induction N as [|a l NI N IH]; [exact N'|]. cbn. constructor; [|apply IH; intros d I; apply D; now right].
  rewrite in_app_iff. intros [I|I]; [now apply NI|]. apply (D a); [now left|exact I].
Qed.
Lemma full_free ix nd : full_index ix nd = ix ++ free_axes ix nd.
Proof.
  unfold full_index, free_axes. f_equal. apply filter_ext. intros d. destruct (in_dec Nat.eq_dec d ix) as [I|I].
  - apply negb_false_iff. apply existsb_exists. exists d. split; [exact I|apply Nat.eqb_refl].
  - apply negb_true_iff. destruct (existsb (Nat.eqb d) ix) eqn:E; [|reflexivity]. apply existsb_exists in E. destruct E as (b & B & Q). apply Nat.eqb_eq in Q. now subst b.
Qed.
Lemma in_free ix nd d : In d (free_axes ix nd) <-> d < nd /\ ~ In d ix.
Proof.
  unfold free_axes. rewrite filter_In, in_seq. destruct (in_dec Nat.eq_dec d ix); intuition; discriminate.
Qed.
Lemma axes_perm ix nd : axes_ok ix nd -> NoDup (ix ++ free_axes ix nd) /\ Permutation (ix ++ free_axes ix nd) (seq 0 nd).
Proof.
  intros [N B]. assert (ND : NoDup (ix ++ free_axes ix nd)).
  { apply nodup_app; [exact N|apply NoDup_filter, seq_NoDup|]. intros d D F. apply in_free in F. now apply F. }
  split; [exact ND|]. apply NoDup_Permutation; [exact ND|apply seq_NoDup|]. intros d. rewrite in_app_iff, in_free, in_seq. rewrite Forall_forall in B.
  split; [intros [I|I]; [specialize (B d I); lia|lia]|]. intros D. destruct (in_dec Nat.eq_dec d ix); [now left|right; split; [lia|assumption]].
Qed.

(* ---- sums ---- *)
Lemma dot_sum K a b : dot K a b = sumZ (map (fun l => a l * b l)%Z (seq 0 K)).
Proof. induction K as [|K IH]; [reflexivity|]. rewrite seq_S, map_app, sumZ_app, <- IH. cbn. lia. Qed.
Lemma sum_blocks (F : nat -> Z) N d : sumZ (map F (seq 0 (d * N))) = sumZ (map (fun i => sumZ (map (fun l => F (i * N + l)) (seq 0 N))) (seq 0 d)).
Proof.
  induction d as [|d IH]; [reflexivity|]. replace (S d * N) with (d * N + N) by lia. rewrite seq_app, seq_S, !map_app, !sumZ_app, IH. cbn [map Nat.add].
  f_equal. cbn [sumZ]. rewrite Z.add_0_r. f_equal.
  replace (seq (d * N) N) with (map (fun l => d * N + l) (seq 0 N)); [now rewrite map_map|].
  clear. assert (H : forall u v, map (fun l => u + l) (seq v N) = seq (u + v) N).
  { induction N as [|N IH]; intros u v; [reflexivity|]. cbn. f_equal. rewrite IH. now rewrite Nat.add_succ_r. }
  now rewrite H, Nat.add_0_r.
Qed.
Lemma sum_ext (f g : nat -> Z) l : (forall i, In i l -> f i = g i) -> sumZ (map f l) = sumZ (map g l).
Proof. intros H. f_equal. now apply map_ext_in. Qed.
Lemma sum_over_flat sh : forall F, sum_over sh F = sumZ (map (fun l => F (index_of sh l)) (seq 0 (numel sh))).
Proof.
  induction sh as [|d sh IH]; intros F; [cbn; lia|]. cbn [sum_over]. change (numel (d :: sh)) with (d * numel sh). rewrite sum_blocks.
  apply sum_ext. intros i I. rewrite IH. apply sum_ext. intros l L. apply in_seq in L. cbn [index_of]. change (total_size sh) with (numel sh).
  now rewrite pos_div, pos_mod by lia.
Qed.
Lemma sum_over_ext sh : forall F F', (forall c, inside sh c -> F c = F' c) -> sum_over sh F = sum_over sh F'.
Proof.
  induction sh as [|d sh IH]; intros F F' E; cbn [sum_over]; [apply E; constructor|]. apply sum_ext. intros i I. apply in_seq in I.
  apply IH. intros c C. apply E. constructor; [lia|exact C].
Qed.
Lemma int_product_mod l : int_product l = sgn 32 (wrap 32 (Z.of_nat (numel l))).
Proof.
  unfold int_product. assert (H : forall l acc v, acc = sgn 32 (wrap 32 v) -> fold_left (fun acc d => sgn 32 (wrap 32 (acc * Z.of_nat d)))%Z l acc = sgn 32 (wrap 32 (v * Z.of_nat (numel l)))).
  { clear. induction l as [|d l IH]; intros acc v E; cbn [fold_left]; [rewrite E; f_equal; f_equal; unfold numel; cbn; lia|].
    rewrite (IH _ (v * Z.of_nat d)%Z); [f_equal; f_equal; change (numel (d :: l)) with (d * numel l); rewrite Nat2Z.inj_mul; ring|].
    f_equal. change (eqm 32 (acc * Z.of_nat d) (v * Z.of_nat d)). rewrite E. apply eqm_mul; [|reflexivity].
    unfold sgn. destruct (_ <? _)%Z; [apply eqm_wrap|]. transitivity (wrap 32 v + (-1) * 2 ^ 32)%Z; [apply eqm_of_eq; ring|]. rewrite eqm_mult. apply eqm_wrap. }
  rewrite (H l 1%Z 1%Z eq_refl). now rewrite Z.mul_1_l.
Qed.
Lemma int_product_small l : (Z.of_nat (numel l) < 2 ^ 31)%Z -> int_product l = Z.of_nat (numel l).
Proof.
  intros H. rewrite int_product_mod. rewrite wrap_small by lia. unfold sgn. destruct (Z.ltb_spec (Z.of_nat (numel l)) (2 ^ (32 - 1)))%Z; [reflexivity|]. exfalso. lia.
Qed.
Lemma dims_app sh l l' : dims sh (l ++ l') = dims sh l ++ dims sh l'. Proof. apply map_app. Qed.
Lemma dims_len sh l : length (dims sh l) = length l. Proof. apply map_length. Qed.
Lemma skipn_exact {A} (l l' : list A) n : n = length l -> skipn n (l ++ l') = l'.
Proof. intros ->. rewrite skipn_app, skipn_all, Nat.sub_diag. reflexivity. Qed.
Lemma firstn_exact {A} (l l' : list A) n : n = length l -> firstn n (l ++ l') = l.
Proof. intros ->. rewrite firstn_app, firstn_all, Nat.sub_diag. cbn. apply app_nil_r. Qed.

Section Axes.
Variable ix : list nat.
Variable sh : list nat.
Hypothesis AX : axes_ok ix (length sh).
Let fr := free_axes ix (length sh).
Lemma axes_len : length ix + length fr = length sh.
Proof. destruct (axes_perm _ _ AX) as [_ P]. apply Permutation_length in P. now rewrite app_length, seq_length in P. Qed.
(* both orders of the axes are permutations *)
Lemma perm_good l : Permutation l (ix ++ fr) -> NoDup l /\ Forall (fun d => d < length l) l /\ length sh = length l.
Proof.
  intros P. destruct (axes_perm _ _ AX) as [N Q]. fold fr in N, Q. split; [now apply (Permutation_NoDup (Permutation_sym P))|].
  pose proof (Permutation_length P) as LP. pose proof axes_len as AL. rewrite app_length in LP. split; [|lia].
  apply Forall_forall. intros d D. apply (Permutation_in _ P) in D. apply (Permutation_in _ Q) in D. apply in_seq in D. lia.
Qed.
Lemma coords_x c i : length c = length ix -> length i = length fr -> has_coords ix (length sh) c i (source_index (fr ++ ix) (i ++ c)).
Proof.
  intros LC LI. destruct (perm_good (fr ++ ix) ltac:(apply Permutation_app_comm)) as (N & B & L). split; [rewrite source_len; lia|].
  pose proof (dims_source _ N B (i ++ c) ltac:(rewrite !app_length; lia)) as D. rewrite dims_app in D. fold fr.
  assert (H : dims (source_index (fr ++ ix) (i ++ c)) fr = i /\ dims (source_index (fr ++ ix) (i ++ c)) ix = c); [|split; apply H].
  split; [apply (f_equal (firstn (length fr))) in D|apply (f_equal (skipn (length fr))) in D];
    [rewrite !firstn_exact in D by (rewrite ?dims_len; lia)|rewrite !skipn_exact in D by (rewrite ?dims_len; lia)]; exact D.
Qed.
Lemma coords_y c j : length c = length ix -> length j = length fr -> has_coords ix (length sh) c j (source_index (ix ++ fr) (c ++ j)).
Proof.
  intros LC LI. destruct (perm_good (ix ++ fr) ltac:(apply Permutation_refl)) as (N & B & L). split; [rewrite source_len; lia|].
  pose proof (dims_source _ N B (c ++ j) ltac:(rewrite !app_length; lia)) as D. rewrite dims_app in D. fold fr.
  split; [apply (f_equal (firstn (length ix))) in D|apply (f_equal (skipn (length ix))) in D];
    [rewrite !firstn_exact in D by (rewrite ?dims_len; lia)|rewrite !skipn_exact in D by (rewrite ?dims_len; lia)]; exact D.
Qed.
(* an index is determined by its coordinates *)
Lemma coords_unique c i idx idx' : has_coords ix (length sh) c i idx -> has_coords ix (length sh) c i idx' -> idx = idx'.
Proof.
  intros (L & C & F) (L' & C' & F'). apply (nth_ext _ _ 0 0); [congruence|]. intros a A. rewrite L in A.
  destruct (perm_good (ix ++ fr) ltac:(apply Permutation_refl)) as (N & B & LL). destruct (perm_all _ N B a ltac:(lia)) as (j & J & <-).
  rewrite <- !dims_nth by exact J. rewrite !dims_app. unfold fr. now rewrite C, C', F, F'.
Qed.
Lemma coords_inside c i idx : inside (dims sh ix) c -> inside (dims sh fr) i -> has_coords ix (length sh) c i idx -> inside sh idx.
Proof.
  intros IC II H. pose proof (inside_len _ _ IC) as LC. pose proof (inside_len _ _ II) as LI. rewrite dims_len in LC, LI.
  rewrite (coords_unique _ _ _ _ H (coords_y c i LC LI)). destruct (perm_good (ix ++ fr) ltac:(apply Permutation_refl)) as (N & B & L).
  apply source_inside; auto. rewrite dims_app. now apply inside_app.
Qed.
End Axes.

Section Td.
Variable w : nat.
Hypothesis W5 : (5 <= w)%nat.
Hypothesis W7 : (w <= 7)%nat.
Notation k := (2 ^ Z.of_nat w)%Z.
Variable n : nat.
Hypothesis N0 : (0 < n)%nat.
Variable T : mtapes.
Hypothesis G : good_mtapes k n T.
Variable compact : nat -> nat -> bool.
Variable junk : Z.
Variables shx shy ix iy : list nat.
Hypothesis AX : axes_ok ix (length shx).
Hypothesis AY : axes_ok iy (length shy).
Hypothesis MATCH : dims shx ix = dims shy iy.
Let fx := free_axes ix (length shx).
Let fy := free_axes iy (length shy).
Let M := numel (dims shx fx).
Let K := numel (dims shx ix).
Let C := numel (dims shy fy).
Hypothesis SM : (Z.of_nat M < 2 ^ 31)%Z.
Hypothesis SK : (Z.of_nat K < 2 ^ 31)%Z.
Hypothesis SC : (Z.of_nat C < 2 ^ 31)%Z.
Definition ax (a : nat -> Z) (p : nat) : Z := a (flat shx (source_index (fx ++ ix) (index_of (dims shx (fx ++ ix)) p))).
Definition by_ (b : nat -> Z) (p : nat) : Z := b (flat shy (source_index (iy ++ fy) (index_of (dims shy (iy ++ fy)) p))).

Lemma tensordot_ok split small ks0 ms0 ex ey a b : stands k n (numel shx) ex a -> stands k n (numel shy) ey b ->
  wp (tensordot k n T compact junk split small ks0 ms0 (shx, ex) (shy, ey) ix iy)
     (fun v => fst v = dims shx fx ++ dims shy fy /\ stands k n (numel (dims shx fx ++ dims shy fy)) (snd v) (prodm k K C (ax a) (by_ b))).
Proof.
  intros X Y. unfold tensordot. cbn [fst]. assert (LE : length ix = length iy) by (rewrite <- (dims_len shx ix), <- (dims_len shy iy); now rewrite MATCH).
  rewrite LE, Nat.eqb_refl. cbn [negb]. rewrite !full_free. fold fx. fold fy. unfold rotate. rewrite skipn_exact, firstn_exact by lia.
  destruct (perm_good ix shx AX (fx ++ ix) ltac:(apply Permutation_app_comm)) as (NX & BX & LX).
  destruct (perm_good iy shy AY (iy ++ fy) ltac:(apply Permutation_refl)) as (NY & BY & LY).
  apply wp_bind. eapply wp_mono; [exact (transpose_ok _ NX BX k n shx ex a LX X)|]. intros [s1 e1] [E1 S1]. cbn [fst snd] in *. subst s1. cbv beta zeta. cbn [fst].
  rewrite dims_app. replace (length (dims shx fx ++ dims shx ix) - length iy) with (length (dims shx fx)) by (rewrite app_length, !dims_len; lia).
  rewrite firstn_exact, skipn_exact by reflexivity. rewrite !int_product_small by assumption. fold M. fold K.
  destruct (Z.ltb_spec (Z.of_nat M) 0); [lia|]. destruct (Z.ltb_spec (Z.of_nat K) 0); [lia|]. cbn [orb]. rewrite !Nat2Z.id.
  unfold reshape at 1. cbn [fst snd]. change total_size with numel. rewrite numel2, numel_app. fold M. fold K. rewrite Nat.eqb_refl. apply wp_bind, wp_ret.
  apply wp_bind. eapply wp_mono; [exact (transpose_ok _ NY BY k n shy ey b LY Y)|]. intros [s2 e2] [E2 S2]. cbn [fst snd] in *. subst s2. cbv beta zeta. cbn [fst].
  rewrite dims_app. rewrite firstn_exact, skipn_exact by (now rewrite dims_len). rewrite <- MATCH.
  rewrite !int_product_small by assumption. fold K. fold C. destruct (Z.ltb_spec (Z.of_nat K) 0); [lia|]. destruct (Z.ltb_spec (Z.of_nat C) 0); [lia|]. cbn [orb]. rewrite !Nat2Z.id.
  unfold reshape at 1. cbn [fst snd]. change total_size with numel. rewrite numel2, numel_app. fold K. fold C. rewrite Nat.eqb_refl. apply wp_bind, wp_ret.
  apply wp_bind. eapply wp_mono.
  - apply (mmul_ok w W5 W7 n N0 T G compact junk split small ks0 ms0 [M; K] [K; C] M K C e1 e2 (ax a) (by_ b)); [constructor|constructor| |].
    + rewrite numel2. replace (M * K) with (numel (dims shx (fx ++ ix))) by (rewrite dims_app, numel_app; reflexivity). exact S1.
    + rewrite numel2. replace (K * C) with (numel (dims shy (iy ++ fy))) by (rewrite dims_app, numel_app, <- MATCH; reflexivity). exact S2.
  - intros [sz ez] [E3 S3]. cbn [fst snd] in *. subst sz. unfold reshape. cbn [fst snd]. change total_size with numel. rewrite numel2, !numel_app. fold M. fold C. rewrite Nat.eqb_refl.
    apply wp_ret. cbn [fst snd]. now split.
Qed.
Lemma contraction a b : is_contraction k shx shy ix iy a b (prodm k K C (ax a) (by_ b)).
Proof.
  unfold is_contraction. fold fx. fold fy. intros i j I J A B HA HB. assert (K0 : (32 <= k)%Z) by (apply k0; assumption).
  pose proof (inside_len _ _ I) as LI. pose proof (inside_len _ _ J) as LJ. rewrite dims_len in LI, LJ.
  rewrite flat_app by exact I. fold C. pose proof (flat_lt _ _ I) as FI. pose proof (flat_lt _ _ J) as FJ. fold C in FJ. fold M in FI.
  unfold prodm. rewrite pos_div, pos_mod by exact FJ.
  replace (sum_over (dims shx ix) (fun c => A c * B c)%Z) with (dot K (fun l => ax a (flat (dims shx fx) i * K + l)) (fun l => by_ b (l * C + flat (dims shy fy) j))); [apply wrap_is_mod; lia|].
  rewrite dot_sum, sum_over_flat. fold K. apply sum_ext. intros l L. apply in_seq in L. destruct (inside_index (dims shx ix) l ltac:(fold K; lia)) as [IC FC].
  set (c := index_of (dims shx ix) l) in *. clearbody c. pose proof (inside_len _ _ IC) as LC. rewrite dims_len in LC.
  assert (LE : length ix = length iy) by (rewrite <- (dims_len shx ix), <- (dims_len shy iy); now rewrite MATCH).
  rewrite (HA c _ IC (coords_x ix shx AX c i LC LI)). rewrite (HB c _ IC (coords_y iy shy AY c j ltac:(lia) LJ)). f_equal.
  - unfold ax. fold fx. do 2 f_equal. rewrite <- FC. unfold K. rewrite dims_app. rewrite <- (flat_app (dims shx fx) (dims shx ix) i c I). rewrite index_of_flat by (now apply inside_app). reflexivity.
  - unfold by_. fold fy. do 2 f_equal. rewrite <- FC. rewrite dims_app, MATCH. rewrite MATCH in IC. unfold C. rewrite <- (flat_app (dims shy iy) (dims shy fy) c j IC). rewrite index_of_flat by (now apply inside_app). reflexivity.
Qed.
End Td.

Lemma int_product_le l : (int_product l <= Z.of_nat (numel l))%Z /\ (2 ^ 31 <= Z.of_nat (numel l) -> int_product l < Z.of_nat (numel l))%Z.
Proof.
  rewrite int_product_mod. assert (W : (0 <= wrap 32 (Z.of_nat (numel l)) <= Z.of_nat (numel l))%Z).
  { split; [apply wrap_range; lia|]. unfold wrap. apply Z.mod_le; lia. }
  assert (R : (wrap 32 (Z.of_nat (numel l)) < 2 ^ 32)%Z) by (apply wrap_range; lia).
  unfold sgn. destruct (Z.ltb_spec (wrap 32 (Z.of_nat (numel l))) (2 ^ (32 - 1)))%Z as [L|L]; [|lia]. split; [lia|]. intros H. change (2 ^ (32 - 1))%Z with (2 ^ 31)%Z in L. lia.
Qed.
(* more than 2^31 rows: the code cannot even form the matrix *)
Lemma tensordot_huge k n T compact junk split small ks0 ms0 shx shy ix iy ex ey t : axes_ok ix (length shx) -> length ix = length iy -> 0 < numel shx ->
  (2 ^ 31 <= Z.of_nat (numel (dims shx (free_axes ix (length shx)))))%Z ->
  tensordot k n T compact junk split small ks0 ms0 (shx, ex) (shy, ey) ix iy t = Err.
Proof.
  intros AX LE NP HM. unfold tensordot. cbn [fst]. rewrite <- LE, Nat.eqb_refl. cbn [negb]. rewrite !full_free. unfold rotate. rewrite skipn_exact, firstn_exact by reflexivity.
  set (fx := free_axes ix (length shx)) in *.
  destruct (perm_good ix shx AX (fx ++ ix) ltac:(apply Permutation_app_comm)) as (NX & BX & LX).
  unfold bind at 1. unfold transpose at 1. cbn [fst snd]. rewrite LX, Nat.eqb_refl, (distinct_ok _ NX). cbn [andb].
  replace (forallb (fun a0 => a0 <? length (fx ++ ix)) (fx ++ ix)) with true.
  2: { symmetry. apply forallb_forall. intros d D. rewrite Forall_forall in BX. apply Nat.ltb_lt. now apply BX. }
  cbn [negb ret rbind fst snd]. change (map (fun a => nth a shx 0) (fx ++ ix)) with (dims shx (fx ++ ix)). rewrite dims_app.
  replace (length (dims shx fx ++ dims shx ix) - length ix) with (length (dims shx fx)) by (rewrite app_length, !dims_len; lia).
  rewrite firstn_exact, skipn_exact by reflexivity.
  destruct (int_product_le (dims shx fx)) as [_ LM]. specialize (LM HM). destruct (int_product_le (dims shx ix)) as [LK _].
  destruct (Z.ltb_spec (int_product (dims shx fx)) 0) as [|P1]; [reflexivity|]. destruct (Z.ltb_spec (int_product (dims shx ix)) 0) as [|P2]; [reflexivity|]. cbn [orb].
  unfold bind at 1, reshape at 1. cbn [fst snd]. change total_size with numel. rewrite numel2, numel_app.
  assert (KP : 0 < numel (dims shx ix)).
  { destruct (perm_good ix shx AX (fx ++ ix) ltac:(apply Permutation_app_comm)) as (_ & _ & _).
    destruct (inside_index shx 0 NP) as [I0 _]. set (idx := index_of shx 0) in *. assert (I1 : inside (dims shx ix) (dims idx ix)).
    { apply inside_nth; [now rewrite !dims_len|]. rewrite dims_len. intros j J. rewrite !dims_nth by exact J. apply nth_inside; [exact I0|].
      destruct AX as [_ B]. rewrite Forall_forall in B. apply B. apply nth_In. exact J. }
    pose proof (flat_lt _ _ I1). lia. }
  match goal with |- context [?u =? ?v] => destruct (Nat.eqb_spec u v) as [E|_] end; [|reflexivity]. exfalso.
  apply (f_equal Z.of_nat) in E. rewrite !Nat2Z.inj_mul, !Z2Nat.id in E by assumption. nia.
Qed.
