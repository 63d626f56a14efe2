From Verif Require Import Base Nd_model Nd_spec Nd_proof Ndv_proof Ndr_proof Tile_model Tile_spec.
From Coq Require Import ZifyBool ZifyNat.
Open Scope Z_scope.

Lemma size_rev s : size (rev s) = size s.
Proof. induction s as [|d s IH]; cbn [rev]; [reflexivity|]. rewrite size_app, IH. cbn [size]. lia. Qed.
Lemma pos_rev s : pos s -> pos (rev s).
Proof. unfold pos. intros P. now apply Forall_rev. Qed.

Lemma find_dim_spec blk : forall rs acc, pos rs -> 0 < acc <= blk -> blk < acc * size rs ->
  exists is d os, rs = is ++ d :: os /\ find_dim blk rs acc = Some (length os, acc * size is) /\ acc * size is <= blk < acc * size is * d.
Proof.
  induction rs as [|d rs IH]; intros acc P A L; [cbn [size] in L; lia|].
  inversion P as [|? ? D P']; subst. cbn [find_dim]. destruct (Z.ltb_spec blk (acc * d)) as [H|H].
  - exists [], d, rs. cbn [size app]. rewrite Z.mul_1_r. split; [reflexivity|]. split; [|lia].
    rewrite Z.quot_mul by lia. reflexivity.
  - destruct (IH (acc * d)) as (is_ & d' & os & E & F & B); auto; [nia|cbn [size] in L; nia|].
    exists (d :: is_), d', os. cbn [size app]. rewrite E at 1. split; [reflexivity|].
    replace (acc * (d * size is_)) with (acc * d * size is_) by ring. split; [exact F|exact B].
Qed.

Lemma carry_spec : forall O o, pos O -> 0 <= o ->
  carry (rev O) (rev (unf o O)) (rev (map (fun v => v + 1) (unf o O))) = (rev (unf (o + 1) O), rev (map (fun v => v + 1) (unf (o + 1) O))).
Proof.
  induction O as [|d O IH] using rev_ind; intros o P Ho; [reflexivity|].
  apply Forall_app in P as [PO Pd]. inversion Pd as [|? ? D _]; subst.
  assert (U : forall p, unf p (O ++ [d]) = unf (p / d) O ++ [p mod d]).
  { intros p. rewrite unf_app by assumption. cbn [size unf]. now rewrite Z.mul_1_r, Z.div_1_r. }
  rewrite !U, !map_app, !rev_app_distr. cbn [map rev app carry].
  pose proof (Z.mod_pos_bound o d D) as M. pose proof (Z.div_mod o d ltac:(lia)) as DM.
  rewrite !Z.rem_mod_nonneg by lia.
  destruct (Z.eq_dec (o mod d + 1) d) as [E|E].
  - assert (Q : (o + 1) / d = o / d + 1) by (symmetry; apply (Z.div_unique_pos _ _ _ 0); lia).
    assert (Rm : (o + 1) mod d = 0) by (symmetry; apply (Z.mod_unique_pos _ _ (o / d + 1)); lia).
    rewrite E, Z_mod_same_full. cbn [Z.eqb Z.add Pos.eqb]. rewrite IH by (auto; apply Z.div_pos; lia).
    rewrite Q, Rm. reflexivity.
  - assert (Q : (o + 1) / d = o / d) by (symmetry; apply (Z.div_unique_pos _ _ _ (o mod d + 1)); lia).
    assert (Rm : (o + 1) mod d = o mod d + 1) by (symmetry; apply (Z.mod_unique_pos _ _ (o / d)); lia).
    rewrite (Z.mod_small (o mod d + 1)) by lia. destruct (Z.eqb_spec (o mod d + 1 + 1) 1); [lia|].
    rewrite Q, Rm. reflexivity.
Qed.

Lemma nth_mid (a b : list Z) v n : length a = n -> nthZ (a ++ v :: b) n = v.
Proof. intros <-. unfold nthZ. rewrite app_nth2 by lia. now rewrite Nat.sub_diag. Qed.
Lemma upd_mid (a b : list Z) v w n : length a = n -> upd (a ++ v :: b) n w = a ++ w :: b.
Proof. intros <-. induction a as [|x a IH]; cbn; [reflexivity|now rewrite IH]. Qed.
Lemma skip_mid (a b : list Z) v n : length a = n -> skipn (S n) (a ++ v :: b) = b.
Proof. intros <-. induction a as [|x a IH]; [reflexivity|exact IH]. Qed.
Lemma first_mid (a b : list Z) v n : length a = n -> firstn n (a ++ v :: b) = a.
Proof. intros <-. induction a as [|x a IH]; cbn; [reflexivity|now rewrite IH]. Qed.

Lemma size_ones n s : size (repeat 1 n ++ s) = size s.
Proof. induction n; cbn [repeat app size]; lia. Qed.
Lemma unf_ones p n : unf p (repeat 1 n) = repeat 0 n.
Proof. induction n; cbn [repeat unf]; [reflexivity|]. now rewrite IHn, Z.mod_1_r. Qed.
Section Plan.
Context (O I : list Z) (D stride : Z).
Hypothesis (PO : pos O) (PI : pos I) (ST : 0 < stride) (SD : stride < D).
Let sh := O ++ D :: I.
Let nd_ := Z.quot D stride + (if Z.rem D stride =? 0 then 0 else 1).
Definition cnt (q : Z) : Z := Z.min ((q + 1) * stride) D - q * stride.
Definition st (i : Z) : list Z * list Z :=
  (unf (i / nd_) O ++ (i mod nd_) * stride :: map (fun _ => 0) I,
   map (fun v => v + 1) (unf (i / nd_) O) ++ Z.min ((i mod nd_ + 1) * stride) D :: I).

Lemma nd_spec : 2 <= nd_ /\ (nd_ - 1) * stride < D <= nd_ * stride.
Proof.
  unfold nd_. rewrite Z.quot_div_nonneg, Z.rem_mod_nonneg by lia.
  pose proof (Z.mod_pos_bound D stride ST) as M. pose proof (Z.div_mod D stride ltac:(lia)) as DM.
  assert (1 <= D / stride) by (apply Z.div_le_lower_bound; lia).
  destruct (Z.eqb_spec (D mod stride) 0).
  - split; [|nia]. assert (D / stride <> 1) by nia. lia.
  - nia.
Qed.
Lemma advance_st i : 0 <= i -> advance sh (length O) stride (st i) = st (i + 1).
Proof.
  intros Hi. destruct nd_spec as [N2 [N3 N4]]. unfold advance, st, sh. set (n := nd_) in *. clearbody n.
  pose proof (Z.mod_pos_bound i n ltac:(lia)) as M. pose proof (Z.div_mod i n ltac:(lia)) as DM.
  assert (Ho : 0 <= i / n) by (apply Z.div_pos; lia).
  assert (LO : length (unf (i / n) O) = length O) by now rewrite unf_length.
  assert (LO' : length (map (fun v => v + 1) (unf (i / n) O)) = length O) by (rewrite map_length; exact LO).
  rewrite (nth_mid _ _ _ _ LO'), (nth_mid O _ _ _ eq_refl).
  destruct (Z.eq_dec (i mod n) (n - 1)) as [E|E].
  - assert (Q : (i + 1) / n = i / n + 1) by (symmetry; apply (Z.div_unique_pos _ _ _ 0); lia).
    assert (Rm : (i + 1) mod n = 0) by (symmetry; apply (Z.mod_unique_pos _ _ (i / n + 1)); lia).
    replace (Z.min ((i mod n + 1) * stride) D) with D by (rewrite E; lia). rewrite Z.eqb_refl.
    rewrite (first_mid O _ _ _ eq_refl), (first_mid _ _ _ _ LO), (first_mid _ _ _ _ LO').
    rewrite carry_spec by assumption. rewrite !rev_involutive.
    rewrite (skip_mid _ _ _ _ LO), (skip_mid _ _ _ _ LO').
    rewrite Q, Rm. f_equal; f_equal; f_equal; lia.
  - assert (Q : (i + 1) / n = i / n) by (symmetry; apply (Z.div_unique_pos _ _ _ (i mod n + 1)); lia).
    assert (Rm : (i + 1) mod n = i mod n + 1) by (symmetry; apply (Z.mod_unique_pos _ _ (i / n)); lia).
    assert (LT : (i mod n + 1) * stride < D) by nia.
    replace (Z.min ((i mod n + 1) * stride) D) with ((i mod n + 1) * stride) by lia.
    destruct (Z.eqb_spec ((i mod n + 1) * stride) D); [lia|].
    rewrite (nth_mid _ _ _ _ LO), (upd_mid _ _ _ _ _ LO), (upd_mid _ _ _ _ _ LO').
    rewrite Q, Rm. f_equal; f_equal; f_equal; [lia|].
    destruct (Z.ltb_spec D ((i mod n + 1) * stride + stride)); lia.
Qed.
Lemma first_st : first_slice sh (length O) stride = st 0.
Proof.
  destruct nd_spec as [N2 [N3 N4]]. unfold first_slice, st, sh. set (n := nd_) in *. clearbody n.
  rewrite Z.div_0_l, Z.mod_0_l, <- zero_unf by (auto; lia). rewrite map_app, (skip_mid O _ _ _ eq_refl). cbn [map].
  f_equal; f_equal; [|f_equal; lia]. rewrite map_map. clear. induction O as [|x l IH]; cbn in *; congruence.
Qed.
Lemma slices_st n : forall i, 0 <= i -> slices n sh (length O) stride (st i) = map (fun j => st (i + Z.of_nat j)) (seq 0 n).
Proof.
  induction n as [|n IH]; intros i Hi; [reflexivity|]. cbn [slices seq map]. rewrite Z.add_0_r. f_equal.
  rewrite advance_st, IH by lia. rewrite <- seq_shift, map_map. apply map_ext. intros j. f_equal. lia.
Qed.
(* where slice i starts in row-major order, and how many elements it has *)
Definition base (i : Z) : Z := ((i / nd_) * D + (i mod nd_) * stride) * size I.
Definition len (i : Z) : Z := cnt (i mod nd_) * size I.
Lemma cnt_pos q : 0 <= q < nd_ -> 0 < cnt q.
Proof. destruct nd_spec as [N2 [N3 N4]]. intros Q. unfold cnt. assert (q * stride <= (nd_ - 1) * stride) by nia. nia. Qed.
Lemma base_next i : 0 <= i -> base (i + 1) = base i + len i.
Proof.
  destruct nd_spec as [N2 [N3 N4]]. intros Hi. unfold base, len, cnt. set (n := nd_) in *. clearbody n.
  pose proof (Z.mod_pos_bound i n ltac:(lia)) as M. pose proof (Z.div_mod i n ltac:(lia)) as DM.
  destruct (Z.eq_dec (i mod n) (n - 1)) as [E|E].
  - assert (Q : (i + 1) / n = i / n + 1) by (symmetry; apply (Z.div_unique_pos _ _ _ 0); lia).
    assert (Rm : (i + 1) mod n = 0) by (symmetry; apply (Z.mod_unique_pos _ _ (i / n + 1)); lia).
    rewrite Q, Rm, E. replace (Z.min ((n - 1 + 1) * stride) D) with D by lia. ring.
  - assert (Q : (i + 1) / n = i / n) by (symmetry; apply (Z.div_unique_pos _ _ _ (i mod n + 1)); lia).
    assert (Rm : (i + 1) mod n = i mod n + 1) by (symmetry; apply (Z.mod_unique_pos _ _ (i / n)); lia).
    assert (LT : (i mod n + 1) * stride < D) by nia.
    rewrite Q, Rm. replace (Z.min ((i mod n + 1) * stride) D) with ((i mod n + 1) * stride) by lia. ring.
Qed.
Lemma base_sum n : sumZ (map (fun j => len (Z.of_nat j)) (seq 0 n)) = base (Z.of_nat n).
Proof.
  induction n as [|n IH].
  - destruct nd_spec as [N2 [N3 N4]]. unfold base. cbn [seq map sumZ Z.of_nat]. rewrite Z.div_0_l, Z.mod_0_l by lia. lia.
  - rewrite seq_S, map_app, sumZ_app, IH. cbn [map sumZ Nat.add].
    rewrite Nat2Z.inj_succ. unfold Z.succ. rewrite base_next by lia. lia.
Qed.
Lemma base_all : base (nd_ * size O) = size sh.
Proof.
  destruct nd_spec as [N2 [N3 N4]]. unfold base, sh. rewrite size_app. cbn [size].
  rewrite (Z.mul_comm nd_), Z.div_mul, Z.mod_mul by lia. ring.
Qed.
(* every position lies in one slice *)
Lemma locate p : 0 <= p < size sh -> exists i j, 0 <= i < nd_ * size O /\ 0 <= j < len i /\ p = base i + j.
Proof.
  destruct nd_spec as [N2 [N3 N4]]. unfold sh. rewrite size_app. cbn [size]. intros P.
  pose proof (size_pos I PI) as SI. pose proof (size_pos O PO) as SO. set (s := size I) in *. set (so := size O) in *.
  assert (R1 : 0 <= p mod s < s) by (apply Z.mod_pos_bound; lia).
  pose proof (Z.div_mod p s ltac:(lia)) as E1. set (a := p / s) in *. set (c := p mod s) in *.
  assert (A : 0 <= a < so * D) by nia.
  pose proof (Z.div_mod a D ltac:(lia)) as E2. assert (R2 : 0 <= a mod D < D) by (apply Z.mod_pos_bound; lia).
  set (o := a / D) in *. set (d := a mod D) in *.
  assert (OO : 0 <= o < so) by nia.
  pose proof (Z.div_mod d stride ltac:(lia)) as E3. assert (R3 : 0 <= d mod stride < stride) by (apply Z.mod_pos_bound; lia).
  set (q := d / stride) in *. set (r := d mod stride) in *.
  assert (Q : 0 <= q < nd_) by nia.
  exists (o * nd_ + q), (r * s + c). unfold base, len.
  assert (X : (o * nd_ + q) / nd_ = o) by (symmetry; apply (Z.div_unique_pos _ _ _ q); lia).
  assert (Y : (o * nd_ + q) mod nd_ = q) by (symmetry; apply (Z.mod_unique_pos _ _ o); lia).
  fold s. rewrite X, Y. clearbody nd_ s so a c o d q r. clear X Y. split; [nia|].
  assert (r + 1 <= cnt q) by (unfold cnt; lia). split; [nia|]. nia.
Qed.
Definition sl_shape (i : Z) : list Z := repeat 1 (length O) ++ cnt (i mod nd_) :: I.
Lemma size_sl i : size (sl_shape i) = len i.
Proof. unfold sl_shape, len. rewrite size_ones. reflexivity. Qed.
Lemma pos_ones n : pos (repeat 1 n).
Proof. apply Forall_forall. intros x H. apply repeat_spec in H. lia. Qed.
Lemma pos_sl i : 0 <= i -> pos (sl_shape i).
Proof.
  intros Hi. destruct nd_spec as [N2 _]. apply Forall_app. split; [apply pos_ones|]. constructor; [|exact PI].
  apply cnt_pos. apply Z.mod_pos_bound. lia.
Qed.
Lemma src_app s1 s2 x1 x2 i1 i2 : length s1 = length x1 -> length x1 = length i1 ->
  slice_src (s1 ++ s2) (x1 ++ x2) (i1 ++ i2) = slice_src s1 x1 i1 ++ slice_src s2 x2 i2.
Proof.
  revert x1 i1; induction s1 as [|a s1 IH]; intros [|b x1] [|c i1] L1 L2; cbn [length] in *; try lia; [reflexivity|].
  cbn [app slice_src]. rewrite IH by lia. reflexivity.
Qed.
Lemma src_zero_idx s n : length s = n -> slice_src s (repeat 1 n) (repeat 0 n) = s.
Proof. intros <-. induction s; cbn; [reflexivity|]. rewrite IHs. f_equal. lia. Qed.
Lemma src_zero_start (l idx : list Z) : length idx = length l -> slice_src (map (fun _ => 0) l) (map (fun _ => 1) l) idx = idx.
Proof. revert idx; induction l; intros [|x idx] L; cbn in *; try lia; [reflexivity|]. rewrite IHl by lia. f_equal. lia. Qed.
Lemma map_one n : map (fun _ : Z => 1) (repeat 1 n) = repeat 1 n.
Proof. induction n; cbn; congruence. Qed.
(* element j of slice i is element base i + j of the array *)
Lemma slice_src_base i j : 0 <= i < nd_ * size O -> 0 <= j < len i ->
  slice_src (fst (st i)) (map (fun _ => 1) sh) (unf j (sl_shape i)) = unf (base i + j) sh.
Proof.
  destruct nd_spec as [N2 [N3 N4]]. intros Hi Hj. pose proof (size_pos I PI) as SI. pose proof (size_pos O PO) as SO.
  assert (M : 0 <= i mod nd_ < nd_) by (apply Z.mod_pos_bound; lia).
  pose proof (cnt_pos _ M) as CP.
  unfold sl_shape, sh, st, base. cbn [fst]. set (o := i / nd_). set (q := i mod nd_) in *.
  assert (Ho : 0 <= o < size O) by (unfold o; split; [apply Z.div_pos|apply Z.div_lt_upper_bound]; nia).
  assert (PC : pos (cnt q :: I)) by (constructor; assumption). assert (PD : pos (D :: I)) by (constructor; [lia|assumption]).
  rewrite !unf_app by (auto using pos_ones). rewrite unf_ones, map_app. cbn [map unf size].
  rewrite src_app by (rewrite ?map_length, ?unf_length, ?repeat_length; reflexivity).
  replace (map (fun _ : Z => 1) O) with (repeat 1 (length O)) by (clear; induction O; cbn; congruence).
  rewrite src_zero_idx by apply unf_length. cbn [slice_src]. rewrite src_zero_start by apply unf_length.
  unfold len in Hj. fold q in Hj. set (s := size I) in *.
  pose proof (Z.div_mod j s ltac:(lia)) as E. pose proof (Z.mod_pos_bound j s SI) as R.
  assert (J : 0 <= j / s < cnt q) by (split; [apply Z.div_pos; lia|apply Z.div_lt_upper_bound; nia]).
  assert (CQ : q * stride + cnt q <= D) by (unfold cnt; lia).
  assert (J2 : 0 <= q * stride + j / s < D) by nia.
  f_equal; [|f_equal].
  - f_equal. apply (Z.div_unique_pos _ _ _ ((q * stride) * s + j)); [|ring]. nia.
  - rewrite (Z.mod_small (j / s)) by lia.
    replace ((o * D + q * stride) * s + j) with (j + (o * D + q * stride) * s) by ring. rewrite Z.div_add by lia.
    replace (j / s + (o * D + q * stride)) with (q * stride + j / s + o * D) by ring. rewrite Z.mod_add by lia.
    rewrite Z.mod_small by lia. lia.
  - replace ((o * D + q * stride) * s + j) with (j + (o * D + q * stride) * s) by ring. symmetry. now apply unf_mod.
Qed.
Lemma slice_dims_shape : forall shape st_ s e r, slice_dims shape st_ s e (map (fun _ => None) shape) = Ok r ->
  map fst r = zipWith (fun a b => Z.max (a - b) 0) e s.
Proof.
  induction shape as [|d shape IH]; intros st_ s e r E; destruct st_ as [|t st_], s as [|s0 s], e as [|e0 e]; cbn [map slice_dims] in E;
    try discriminate; [injection E as <-; reflexivity|].
  unfold slice_dim in E. destruct (d <? e0); [discriminate|].
  destruct (Z.eqb_spec (Z.max (e0 - s0) 0) 1) as [H|H]; cbn [rbind] in E;
    (destruct (slice_dims shape st_ s e _) as [r'| |] eqn:E'; cbn [rbind] in E; try discriminate; injection E as <-;
     cbn [map fst zipWith]; rewrite (IH _ _ _ _ E'); congruence).
Qed.
Lemma zip_app {A B C} (f : A -> B -> C) a b a' b' : length a = length b -> zipWith f (a ++ a') (b ++ b') = zipWith f a b ++ zipWith f a' b'.
Proof. revert b; induction a; intros [|y b] L; cbn in *; try lia; [reflexivity|]. now rewrite IHa by lia. Qed.
Lemma zero_start_shape (l : list Z) : pos l -> zipWith (fun a b => Z.max (a - b) 0) l (map (fun _ => 0) l) = l.
Proof. clear. induction 1 as [|x l H _ IH]; cbn [map zipWith]; [reflexivity|]. rewrite IH. f_equal. lia. Qed.
Lemma st_shape i : 0 <= i -> zipWith (fun a b => Z.max (a - b) 0) (snd (st i)) (fst (st i)) = sl_shape i.
Proof.
  intros Hi. destruct nd_spec as [N2 _]. assert (M : 0 <= i mod nd_ < nd_) by (apply Z.mod_pos_bound; lia).
  unfold st, sl_shape. cbn [fst snd]. rewrite zip_app by apply map_length. cbn [zipWith]. f_equal.
  - rewrite <- (unf_length (i / nd_) O). induction (unf (i / nd_) O) as [|x l IH]; cbn [map zipWith length repeat]; [reflexivity|].
    rewrite IH. f_equal. lia.
  - pose proof (cnt_pos _ M) as C. f_equal; [unfold cnt in *; lia|].
    apply zero_start_shape. exact PI.
Qed.
Lemma succ_le (x l : list Z) : valid x l -> Forall2 Z.le (map (fun v => v + 1) x) l.
Proof. clear. induction 1; cbn [map]; constructor; [lia|assumption]. Qed.
Lemma slice_st a i : wf a -> safe a -> shp a = sh -> 0 <= i < nd_ * size O ->
  exists b, slice a (fst (st i)) (snd (st i)) None = Ok b /\ shp b = sl_shape i /\ wf b /\ safe b /\
    forall j, 0 <= j < len i -> get b (unf j (sl_shape i)) = get a (unf (base i + j) sh).
Proof.
  intros W SF E Hi. destruct nd_spec as [N2 [N3 N4]]. pose proof (size_pos O PO) as SO. pose proof (size_pos I PI) as SI.
  assert (M : 0 <= i mod nd_ < nd_) by (apply Z.mod_pos_bound; lia).
  assert (SS : ssteps a None = map (fun _ => 1) sh) by (unfold ssteps; now rewrite E).
  assert (PS : Forall (fun x => 0 < x) (ssteps a None)).
  { rewrite SS. apply Forall_forall. intros x H. apply in_map_iff in H as (? & <- & _). lia. }
  assert (PSH : pos sh) by (apply Forall_app; split; [exact PO|constructor; [lia|exact PI]]).
  destruct (slice_ok a (fst (st i)) (snd (st i)) None) as (b & B & WB); auto.
  { rewrite E. unfold st, sh. cbn [fst]. rewrite !app_length, unf_length. cbn [length]. now rewrite map_length. }
  { rewrite SS, E. apply map_length. }
  { rewrite E. unfold st, sh. cbn [snd]. apply Forall2_app; [|constructor; [lia|]].
    - apply succ_le. now apply unf_valid.
    - clear. induction I; constructor; [lia|assumption]. }
  exists b. split; [exact B|].
  assert (SHB : shp b = sl_shape i).
  { unfold slice in B. rewrite E in B. destruct (slice_dims sh _ _ _ _) as [r| |] eqn:X; cbn [rbind] in B; try discriminate.
    injection B as <-. cbn [shp]. rewrite (slice_dims_shape _ _ _ _ _ X). apply st_shape. lia. }
  split; [exact SHB|]. split; [exact WB|].
  destruct (slice_spec a _ _ None b PS B) as (_ & _ & _ & _ & G).
  assert (GJ : forall j, 0 <= j < len i -> get b (unf j (sl_shape i)) = get a (unf (base i + j) sh)).
  { intros j Hj. rewrite G by (rewrite SHB; apply unf_valid, pos_sl; lia). rewrite SS. f_equal. now apply slice_src_base. }
  split; [|exact GJ].
  intros idx V. rewrite SHB in V. pose proof (rowmajor_range _ _ V) as R. rewrite size_sl in R.
  rewrite <- (unf_rowmajor _ _ V), GJ by exact R. apply SF. rewrite E. now apply unf_valid.
Qed.
End Plan.

(* ---- assembling ---- *)
Lemma run_tasks_perm task ord n : (forall i, (i < n)%nat -> In i ord) ->
  forall i, (i < n)%nat -> run_tasks ord task i = Some (task i).
Proof.
  intros A i Hi. specialize (A i Hi). unfold run_tasks. generalize (fun _ : nat => @None (res (Z * nd))).
  revert A. induction ord as [|a ord IH]; intros A f; [destruct A|]. cbn [fold_left].
  destruct (in_dec Nat.eq_dec i ord) as [H|H]; [now apply IH|]. destruct A as [->|A]; [|contradiction].
  clear IH. set (g := fun j => if (j =? i)%nat then _ else _).
  assert (G : g i = Some (task i)) by (unfold g; now rewrite Nat.eqb_refl). clearbody g. revert g G.
  induction ord as [|b ord IH]; intros g G; cbn [fold_left]; [exact G|].
  apply IH; [intros X; apply H; now right|]. cbn beta. destruct (Nat.eqb_spec i b) as [->|_]; [elim H; now left|exact G].
Qed.
Lemma raw_dense a : shape_ok (shp a) -> dense a -> safe a ->
  exists d, raw a = Ok d /\ Z.of_nat (length d) = size (shp a) /\ forall j, 0 <= j < size (shp a) -> get a (unf j (shp a)) = Ok (nthZ d (Z.to_nat j)).
Proof.
  intros W DN SF. unfold raw. rewrite numel_size.
  assert (AD : forall j, 0 <= j < size (shp a) -> bufget (buf a) (off a + j) = get a (unf j (shp a))).
  { intros j Hj. assert (P : pos (shp a)) by (apply pos_of_size; auto; lia).
    unfold get. rewrite (DN _ (unf_valid j _ P)), rowmajor_unf, Z.mod_small by (auto; lia). reflexivity. }
  destruct (rmap_total (fun i => bufget (buf a) (off a + Z.of_nat i)) (seq 0 (Z.to_nat (size (shp a))))) as [d E].
  { intros i H. apply in_seq in H. rewrite AD by lia. apply SF. apply unf_valid, pos_of_size; auto; lia. }
  exists d. split; [exact E|]. pose proof (size_nonneg _ W).
  pose proof (rmap_length _ _ _ E) as L. rewrite seq_length in L. split; [lia|].
  intros j Hj. pose proof (rmap_nth _ _ _ 0%nat 0 (Z.to_nat j) E) as N. rewrite seq_length in N. specialize (N ltac:(lia)).
  cbv beta in N. rewrite seq_nth in N by lia. cbn [Nat.add] in N. rewrite Z2Nat.id in N by lia. now rewrite <- AD.
Qed.
Lemma nth_concat (ds : list (list Z)) : forall i j d, (i < length ds)%nat -> (j < length (nth i ds []))%nat ->
  nth (Z.to_nat (sumZ (map (fun l => Z.of_nat (length l)) (firstn i ds))) + j) (concat ds) d = nth j (nth i ds []) d.
Proof.
  induction ds as [|l ds IH]; intros i j d L1 L2; cbn [length] in L1; [lia|]. destruct i as [|i]; cbn [nth firstn map sumZ concat] in *.
  - now rewrite app_nth1.
  - assert (P : forall x : list (list Z), 0 <= sumZ (map (fun l => Z.of_nat (length l)) x)) by (induction x; cbn [map sumZ]; lia).
    specialize (P (firstn i ds)). rewrite app_nth2 by lia.
    replace (_ + j - length l)%nat with (Z.to_nat (sumZ (map (fun l => Z.of_nat (length l)) (firstn i ds))) + j)%nat by lia.
    apply IH; lia.
Qed.
Lemma copy_out_ok elsize junk t : forall outs ds room,
  Forall2 (fun o d => fst o = t /\ raw (snd o) = Ok d /\ Z.of_nat (length d) = numel (shp (snd o))) outs ds ->
  room = sumZ (map (fun d => Z.of_nat (length d)) ds) -> copy_out elsize junk t outs room = Ok (concat ds).
Proof.
  induction outs as [|[t' o] outs IH]; intros ds room F E; inversion F as [|? d ? ds' (A & B & C) F']; subst.
  - reflexivity.
  - cbn [fst snd map sumZ copy_out concat] in *. rewrite Z.eqb_refl. cbn [negb]. rewrite orb_false_r.
    assert (P : forall x : list (list Z), 0 <= sumZ (map (fun l => Z.of_nat (length l)) x)) by (induction x; cbn [map sumZ]; lia).
    specialize (P ds'). destruct (Z.ltb_spec (Z.of_nat (length d) + sumZ (map (fun d => Z.of_nat (length d)) ds')) (numel (shp o))); [lia|].
    rewrite B. cbn [rbind]. rewrite (IH ds' _ F') by lia. reflexivity.
Qed.


Lemma slices_of_ok {A} (f : A -> res nd) (P : A -> nd -> Prop) xs : Forall (fun a => exists b, f a = Ok b /\ P a b) xs ->
  exists bs, rmap f xs = Ok bs /\ Forall2 P xs bs.
Proof.
  induction 1 as [|a xs (b & E & H) _ (bs & E' & H')]; cbn [rmap]; [eauto|]. rewrite E, E'. cbn [rbind]. eauto.
Qed.
Lemma plan_ok blk sh : 0 < blk -> pos sh -> blk < size sh ->
  exists O D I stride, sh = O ++ D :: I /\ pos O /\ pos I /\ 0 < stride /\ stride < D /\
    plan blk sh = Ok (Some (length O, stride, Z.to_nat ((Z.quot D stride + (if Z.rem D stride =? 0 then 0 else 1)) * size O))).
Proof.
  intros B P L. destruct (find_dim_spec blk (rev sh) 1) as (is_ & D & os & E & F & R); [now apply pos_rev|lia|rewrite size_rev; lia|].
  rewrite Z.mul_1_l in *. assert (E' : sh = rev os ++ D :: rev is_).
  { rewrite <- (rev_involutive sh), E, rev_app_distr. cbn [rev]. now rewrite <- app_assoc. }
  assert (P2 : pos (rev os) /\ 0 < D /\ pos (rev is_)).
  { rewrite E' in P. apply Forall_app in P as [P1 P2]. inversion P2; subst. auto. }
  destruct P2 as (PO & PD & PI). pose proof (size_pos _ PI) as SI. rewrite size_rev in SI.
  exists (rev os), D, (rev is_), (blk / size is_). split; [exact E'|]. split; [exact PO|]. split; [exact PI|].
  assert (S1 : 0 < blk / size is_) by (apply Z.div_str_pos; lia).
  assert (S2 : blk / size is_ < D) by (apply Z.div_lt_upper_bound; lia).
  split; [exact S1|]. split; [exact S2|]. unfold plan. rewrite F.
  destruct (Z.eqb_spec (size is_) 0); [lia|]. rewrite Z.quot_div_nonneg by lia.
  destruct (Z.eqb_spec (blk / size is_) 0); [lia|]. rewrite E', numel_size.
  rewrite nth_mid by apply rev_length. rewrite first_mid by apply rev_length. now rewrite rev_length.
Qed.

Theorem tiled_ok blk fn elsize junk R n m t on ord sh xs :
  0 < blk -> (0 < m)%nat -> elementwise R n m t fn -> operands n m sh xs -> 0 < size sh ->
  (forall sd stride N, plan blk sh = Ok (Some (sd, stride, N)) -> Permutation ord (seq 0 N)) ->
  exists out, (forall p, (p < n)%nat -> tiled blk fn elsize junk on ord xs p = Ok (t, out p) /\ shp (out p) = sh /\ dense (out p)) /\
    pointwise R n sh xs out.
Proof.
  intros B HM EW OP SZ OR.
  assert (HD : forall p, (p < n)%nat -> exists x rest, xs p = x :: rest /\ shp x = sh /\ forallb (fun y => list_Z_eqb (shp x) (shp y)) rest = true).
  { intros p Hp. destruct (OP p Hp) as [L F]. destruct (xs p) as [|x rest] eqn:E; cbn [length] in L; [lia|].
    exists x, rest. inversion F as [|? ? (A & _) F']; subst. split; [reflexivity|]. split; [reflexivity|].
    apply forallb_forall. intros y Hy. rewrite Forall_forall in F'. destruct (F' y Hy) as (Q & _). rewrite Q. now apply list_Z_eqb_eq. }
  assert (DIRECT : exists out, (forall p, (p < n)%nat -> fn None (fun q => Ok (xs q)) p = Ok (t, out p) /\ shp (out p) = sh /\ dense (out p)) /\
    pointwise R n sh xs out) by (apply (EW None sh xs); auto).
  destruct (negb on || (size sh <=? blk)) eqn:C.
  { destruct DIRECT as (out & A & PW). exists out. split; [|exact PW]. intros p Hp. destruct (HD p Hp) as (x & rest & E & S & F).
    destruct (A p Hp) as (A1 & A2 & A3). split; [|now split]. unfold tiled. rewrite E, F. cbn [negb]. rewrite S, numel_size, C. exact A1. }
  destruct (orb_false_elim _ _ C) as [C1 C2]. apply Z.leb_gt in C2. clear DIRECT.
  destruct (Nat.eq_dec n 0) as [->|N0].
  { exists (fun _ => compact [] []). split; [intros; lia|]. intros idx V.
    destruct (EW None sh xs (fun q => Ok (xs q)) OP SZ) as (out & _ & PW); [auto|]. destruct (PW idx V) as (vs & v & _ & Q).
    exists vs, v. split; [intros; lia|exact Q]. }
  assert (PS : pos sh).
  { destruct (HD 0%nat ltac:(lia)) as (x & rest & E & S & F). destruct (OP 0%nat ltac:(lia)) as [_ F0]. rewrite E in F0.
    inversion F0 as [|? ? (_ & (W & _) & _) _]; subst. now apply pos_of_size. }
  destruct (plan_ok blk sh B PS C2) as (O & D & I & stride & E & PO & PI & S1 & S2 & PL).
  set (nd_ := Z.quot D stride + (if Z.rem D stride =? 0 then 0 else 1)) in *.
  pose proof (nd_spec D stride S1 S2) as ND. cbv zeta in ND. fold nd_ in ND.
  pose proof (size_pos O PO) as SO. pose proof (size_pos I PI) as SI.
  set (N := Z.to_nat (nd_ * size O)) in *.
  assert (ORD : forall i, (i < N)%nat -> In i ord).
  { intros i Hi. apply (Permutation_in i (Permutation_sym (OR _ _ _ PL))). apply in_seq. lia. }
  set (ses := slices N sh (length O) stride (first_slice sh (length O) stride)).
  assert (SES : forall i, (i < N)%nat -> nth_error ses i = Some (st O I D stride (Z.of_nat i))).
  { intros i Hi. unfold ses. rewrite E. rewrite first_st by assumption. rewrite slices_st by (assumption || lia).
    rewrite nth_error_map. rewrite (nth_error_nth' _ 0%nat) by (rewrite seq_length; exact Hi). rewrite seq_nth by exact Hi. reflexivity. }
  set (ys := fun i q => match nth_error ses i with Some se => slices_of (xs q) se | None => Ub end).
  set (out := fun i p => match fn (Some i) (ys i) p with Ok (_, o) => o | _ => compact [] [] end).
  (* what each task gets and returns *)
  assert (TASK : forall i, (i < N)%nat ->
     (forall p, (p < n)%nat -> fn (Some i) (ys i) p = Ok (t, out i p) /\ shp (out i p) = sl_shape O I D stride (Z.of_nat i) /\ dense (out i p)) /\
     (forall j, 0 <= j < len I D stride (Z.of_nat i) -> exists vs v,
       (forall q, (q < n)%nat -> at_index (xs q) (unf (base I D stride (Z.of_nat i) + j) sh) (vs q) /\
          get (out i q) (unf j (sl_shape O I D stride (Z.of_nat i))) = Ok (v q)) /\ R vs v)).
  { intros i Hi.
    assert (Hi' : 0 <= Z.of_nat i < nd_ * size O) by (unfold N in Hi; lia).
    assert (BS : forall q, (q < n)%nat -> exists bs, ys i q = Ok bs /\ Forall2 (fun a b =>
      shp b = sl_shape O I D stride (Z.of_nat i) /\ wf b /\ safe b /\
      forall j, 0 <= j < len I D stride (Z.of_nat i) -> get b (unf j (sl_shape O I D stride (Z.of_nat i))) = get a (unf (base I D stride (Z.of_nat i) + j) sh)) (xs q) bs).
    { intros q Hq. unfold ys. rewrite SES by exact Hi. unfold slices_of. apply slices_of_ok.
      destruct (OP q Hq) as [_ F]. revert F. apply Forall_impl. intros a (A1 & A2 & A3).
      rewrite E in A1 |- *. exact (slice_st O I D stride PO PI S1 S2 a (Z.of_nat i) A2 A3 A1 Hi'). }
    set (zs := fun q => match ys i q with Ok bs => bs | _ => [] end).
    assert (ZS : forall q, (q < n)%nat -> ys i q = Ok (zs q)) by (intros q Hq; unfold zs; destruct (BS q Hq) as (bs & -> & _); reflexivity).
    assert (PSL : pos (sl_shape O I D stride (Z.of_nat i))) by (apply pos_sl; auto; lia).
    assert (OPZ : operands n m (sl_shape O I D stride (Z.of_nat i)) zs).
    { intros q Hq. destruct (BS q Hq) as (bs & E1 & F). assert (BZ : bs = zs q) by (rewrite (ZS q Hq) in E1; congruence). subst bs. clearbody zs.
      destruct (OP q Hq) as [L _]. split.
      - rewrite <- L. clear - F. induction F; cbn [length]; congruence.
      - clear - F. induction F as [|a b l l' (A & B & C & _) F' IH]; constructor; auto. }
    destruct (EW (Some i) _ zs (ys i) OPZ (size_pos _ PSL) ZS) as (o & A & PW).
    assert (OE : forall p, (p < n)%nat -> out i p = o p) by (intros p Hp; unfold out; destruct (A p Hp) as [-> _]; reflexivity).
    split; [intros p Hp; rewrite (OE p Hp); exact (A p Hp)|].
    intros j Hj. destruct (PW (unf j (sl_shape O I D stride (Z.of_nat i))) (unf_valid _ _ PSL)) as (vs & v & V & Q).
    exists vs, v. split; [|exact Q]. intros q Hq. destruct (V q Hq) as [V1 V2]. split; [|rewrite (OE q Hq); exact V2].
    destruct (BS q Hq) as (bs & E1 & F). assert (BZ : bs = zs q) by (rewrite (ZS q Hq) in E1; congruence). subst bs. clearbody zs.
    clear - F V1 Hj. unfold at_index in *. revert V1. generalize (vs q). induction F as [|a b l l' (_ & _ & _ & G) F' IH]; intros w V; inversion V; subst; constructor; auto.
    now rewrite <- G. }
  assert (RAW : forall i p, (i < N)%nat -> (p < n)%nat -> exists d, raw (out i p) = Ok d /\ Z.of_nat (length d) = len I D stride (Z.of_nat i) /\
     forall j, 0 <= j < len I D stride (Z.of_nat i) -> get (out i p) (unf j (sl_shape O I D stride (Z.of_nat i))) = Ok (nthZ d (Z.to_nat j))).
  { intros i p Hi Hp. destruct (TASK i Hi) as [A PW]. destruct (A p Hp) as (_ & A2 & A3).
    assert (PSL : pos (sl_shape O I D stride (Z.of_nat i))) by (apply pos_sl; auto; lia).
    rewrite <- (size_sl O I D stride), <- A2. apply raw_dense; [rewrite A2; now apply pos_ok|exact A3|].
    intros idx V. rewrite A2 in V. pose proof (rowmajor_range _ _ V) as RR. rewrite size_sl in RR.
    destruct (PW _ RR) as (vs & v & G & _). rewrite unf_rowmajor in G by exact V. destruct (G p Hp) as [_ G2]. exists (v p). exact G2. }
  set (dat := fun p i => match raw (out i p) with Ok d => d | _ => [] end).
  assert (DAT : forall i p, (i < N)%nat -> (p < n)%nat -> raw (out i p) = Ok (dat p i) /\ Z.of_nat (length (dat p i)) = len I D stride (Z.of_nat i) /\
     forall j, 0 <= j < len I D stride (Z.of_nat i) -> get (out i p) (unf j (sl_shape O I D stride (Z.of_nat i))) = Ok (nthZ (dat p i) (Z.to_nat j))).
  { intros i p Hi Hp. destruct (RAW i p Hi Hp) as (d & A & A'). unfold dat. rewrite A. auto. }
  assert (LEN : forall p c, (p < n)%nat -> (c <= N)%nat -> sumZ (map (fun d => Z.of_nat (length d)) (map (dat p) (seq 0 c))) = base I D stride (Z.of_nat c)).
  { intros p c Hp Hc. rewrite <- (base_sum I D stride S1 S2), map_map. f_equal. apply map_ext_in. intros i Hi. apply in_seq in Hi.
    apply DAT; [lia|exact Hp]. }
  assert (NZ : Z.of_nat N = nd_ * size O) by (unfold N; nia).
  assert (BA : base I D stride (Z.of_nat N) = size sh) by (rewrite NZ, E; now apply base_all).
  set (res_ := fun p => compact (concat (map (dat p) (seq 0 N))) sh).
  assert (CL : forall p, (p < n)%nat -> Z.of_nat (length (concat (map (dat p) (seq 0 N)))) = size sh).
  { intros p Hp. rewrite <- BA, <- (LEN p N Hp (le_n N)). generalize (map (dat p) (seq 0 N)). clear.
    induction l as [|x l IH]; cbn [concat map sumZ length]; [reflexivity|]. rewrite app_length. lia. }
  exists res_. split.
  - intros p Hp. split; [|split; [reflexivity|]].
    2:{ intros idx V. unfold addr, res_. cbn [off str compact shp]. now rewrite dot_compact. }
    destruct (HD p Hp) as (x & rest & EX & SX & FX). unfold tiled. rewrite EX, FX. cbn [negb]. rewrite SX, numel_size, C, PL.
    cbn [rbind]. fold N. fold ses.
    set (task := fun i => fn (Some i) _ p).
    assert (RT : forall i, (i < N)%nat -> run_tasks ord task i = Some (Ok (t, out i p))).
    { intros i Hi. rewrite (run_tasks_perm task ord N) by auto. f_equal.
      unfold task. destruct (TASK i Hi) as [A _]. apply A. exact Hp. }
    assert (RM : rmap (fun i => match run_tasks ord task i with Some r => r | None => Err end) (seq 0 N) = Ok (map (fun i => (t, out i p)) (seq 0 N))).
    { assert (G : forall l, (forall i, In i l -> (i < N)%nat) -> rmap (fun i => match run_tasks ord task i with Some r => r | None => Err end) l = Ok (map (fun i => (t, out i p)) l)).
      { induction l as [|i l IH]; intros Hl; [reflexivity|]. cbn [rmap map]. rewrite RT by (apply Hl; now left). cbn [rbind].
        rewrite IH by (intros; apply Hl; now right). reflexivity. }
      apply G. intros i Hi. apply in_seq in Hi. lia. }
    rewrite RM. cbn [rbind]. assert (NP : (0 < N)%nat) by (unfold N; nia).
    destruct (map (fun i => (t, out i p)) (seq 0 N)) as [|[t0 o0] os] eqn:EM; [apply (f_equal (@length _)) in EM; rewrite map_length, seq_length in EM; cbn [length] in EM; lia|].
    assert (t0 = t) as ->.
    { destruct N; [lia|]. cbn [seq map] in EM. congruence. }
    rewrite <- EM. rewrite (copy_out_ok elsize junk t _ (map (dat p) (seq 0 N))); [reflexivity| |].
    + assert (G : forall l, (forall i, In i l -> (i < N)%nat) -> Forall2 (fun (o : Z * nd) d => fst o = t /\ raw (snd o) = Ok d /\ Z.of_nat (length d) = numel (shp (snd o))) (map (fun i => (t, out i p)) l) (map (dat p) l)).
      { induction l as [|i l IH]; intros Hl; constructor; [|apply IH; intros; apply Hl; now right]. cbn [fst snd].
        assert (Hi : (i < N)%nat) by (apply Hl; now left). destruct (DAT i p Hi Hp) as (D1 & D2 & _). split; [reflexivity|]. split; [exact D1|].
        rewrite D2, numel_size. destruct (TASK i Hi) as [A _]. destruct (A p Hp) as (_ & -> & _). symmetry. apply size_sl. }
      apply G. intros i Hi. apply in_seq in Hi. lia.
    + rewrite (LEN p N Hp (le_n N)). now symmetry.
  - intros idx V. pose proof (rowmajor_range _ _ V) as RR. rewrite E in RR.
    destruct (locate O I D stride PO PI S1 S2 _ RR) as (i & j & Hi & Hj & EP). rewrite <- E in EP. fold nd_ in Hi.
    assert (Hi' : (Z.to_nat i < N)%nat) by (unfold N; lia).
    destruct (TASK _ Hi') as [_ PW]. rewrite Z2Nat.id in PW by lia. destruct (PW j Hj) as (vs & v & G & Q).
    exists vs, v. split; [|exact Q]. intros q Hq. destruct (G q Hq) as [G1 G2]. rewrite <- EP, unf_rowmajor in G1 by exact V.
    split; [exact G1|]. unfold res_. rewrite get_compact by (auto; now apply CL). rewrite <- G2.
    destruct (DAT _ q Hi' Hq) as (_ & D2 & D3). rewrite Z2Nat.id in D2, D3 by lia. rewrite D3 by exact Hj. f_equal. unfold nthZ.
    rewrite EP. pose proof (LEN q (Z.to_nat i) Hq ltac:(lia)) as LL. rewrite Z2Nat.id in LL by lia.
    assert (BP : 0 <= base I D stride i).
    { unfold base. pose proof (Z.mod_pos_bound i nd_ ltac:(lia)). pose proof (Z.div_pos i nd_ ltac:(lia) ltac:(lia)). fold nd_. apply Z.mul_nonneg_nonneg; nia. }
    rewrite Z2Nat.inj_add by lia. rewrite <- LL.
    assert (FN : map (dat q) (seq 0 (Z.to_nat i)) = firstn (Z.to_nat i) (map (dat q) (seq 0 N))).
    { rewrite firstn_map. f_equal. replace N with (Z.to_nat i + (N - Z.to_nat i))%nat by lia. rewrite seq_app, firstn_app, seq_length, Nat.sub_diag.
      cbn [firstn]. rewrite app_nil_r. rewrite firstn_all2 by (rewrite seq_length; lia). reflexivity. }
    rewrite FN. rewrite nth_concat; rewrite ?map_length, ?seq_length; try lia.
    + rewrite nth_map_lt with (da := 0%nat) by (now rewrite seq_length). rewrite seq_nth by exact Hi'. reflexivity.
    + rewrite nth_map_lt with (da := 0%nat) by (now rewrite seq_length). rewrite seq_nth by exact Hi'. cbn [Nat.add]. lia.
Qed.

Lemma rmap_ext_in {A B} (f g : A -> res B) l : (forall x, In x l -> f x = g x) -> rmap f l = rmap g l.
Proof. induction l as [|x l IH]; intros H; [reflexivity|]. cbn [rmap]. rewrite (H x) by now left. rewrite IH by (intros; apply H; now right). reflexivity. Qed.
Lemma tiled_order blk fn elsize junk on ord ord' xs p :
  (forall x rest sd stride N, xs p = x :: rest -> plan blk (shp x) = Ok (Some (sd, stride, N)) -> Permutation ord (seq 0 N) /\ Permutation ord' (seq 0 N)) ->
  tiled blk fn elsize junk on ord xs p = tiled blk fn elsize junk on ord' xs p.
Proof.
  intros H. unfold tiled. destruct (xs p) as [|x rest] eqn:E; [reflexivity|].
  destruct (negb (forallb _ rest)); [reflexivity|]. destruct (negb on || _); [reflexivity|].
  destruct (plan blk (shp x)) as [[[[sd stride] N]|]| |] eqn:PL; cbn [rbind]; try reflexivity.
  destruct (H x rest sd stride N eq_refl PL) as [P1 P2].
  match goal with |- rbind ?a _ = rbind ?b _ => assert (EQ : a = b); [|now rewrite EQ] end.
  apply rmap_ext_in. intros i Hi. apply in_seq in Hi.
  assert (G : forall o, Permutation o (seq 0 N) -> forall i, (i < N)%nat -> In i o).
  { intros o P k Hk. apply (Permutation_in k (Permutation_sym P)). apply in_seq. lia. }
  rewrite (run_tasks_perm _ ord N) by (auto; lia). now rewrite (run_tasks_perm _ ord' N) by (auto; lia).
Qed.
