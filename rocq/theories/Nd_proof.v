From Coq Require Import ZifyBool ZifyNat.
From Verif Require Import Base Nd_model Nd_spec.

(* closed form of unflattenIndex on non-negative positions *)
Fixpoint unf (p : Z) (shape : list Z) : list Z :=
  match shape with [] => [] | d :: ds => (p / size ds) mod d :: unf p ds end.

Definition pos (shape : list Z) : Prop := Forall (fun d => 0 < d) shape.

Lemma fold_mul s a : fold_left Z.mul s a = a * size s.
Proof.
  revert a; induction s as [|d s IH]; intros a; cbn [fold_left size]; [lia|].
  rewrite IH. lia.
Qed.
Lemma numel_size s : numel s = size s.
Proof. unfold numel. rewrite fold_mul. lia. Qed.

Lemma size_app a b : size (a ++ b) = size a * size b.
Proof. induction a; cbn [app size]; [lia|]. rewrite IHa. lia. Qed.

Lemma size_pos s : pos s -> 0 < size s.
Proof. induction 1; cbn [size]; nia. Qed.
Lemma size_nonneg s : shape_ok s -> 0 <= size s.
Proof. induction 1; cbn [size]; nia. Qed.
Lemma pos_of_size s : shape_ok s -> 0 < size s -> pos s.
Proof.
  induction 1 as [|d s Hd Hs IH]; cbn [size]; intros H; constructor.
  - pose proof (size_nonneg s Hs). nia.
  - apply IH. pose proof (size_nonneg s Hs). nia.
Qed.
Lemma pos_ok s : pos s -> shape_ok s.
Proof. induction 1; constructor; auto; lia. Qed.

Lemma valid_length idx s : valid idx s -> length idx = length s.
Proof. induction 1; cbn [length]; lia. Qed.
Lemma valid_pos idx s : valid idx s -> pos s.
Proof. induction 1; constructor; auto; lia. Qed.

Lemma inBounds_valid idx s : inBounds idx s = true <-> valid idx s.
Proof.
  split.
  - revert s; induction idx as [|i idx IH]; destruct s as [|d s]; cbn [inBounds]; intros H;
      try discriminate; constructor.
    + destruct (Z.ltb_spec i 0); destruct (Z.leb_spec d i); cbn in H; try discriminate; lia.
    + apply IH. apply andb_true_iff in H. tauto.
  - induction 1 as [|i d idx s Hi V IH]; cbn [inBounds]; [reflexivity|].
    rewrite IH. destruct (Z.ltb_spec i 0); destruct (Z.leb_spec d i); cbn; lia.
Qed.

Lemma rowmajor_range idx s : valid idx s -> 0 <= rowmajor idx s < size s.
Proof.
  induction 1 as [|i d idx s Hi V IH]; cbn [rowmajor size]; [lia|]. nia.
Qed.

Lemma unf_valid p s : pos s -> valid (unf p s) s.
Proof.
  induction 1; cbn [unf]; constructor; auto. apply Z.mod_pos_bound; lia.
Qed.

Lemma unf_length p s : length (unf p s) = length s.
Proof. induction s; cbn [unf length]; auto. Qed.

Lemma rowmajor_unf p s : pos s -> rowmajor (unf p s) s = p mod size s.
Proof.
  induction 1 as [|d s Hd Hs IH]; cbn [unf rowmajor size].
  - now rewrite Z.mod_1_r.
  - rewrite IH. pose proof (size_pos s Hs).
    rewrite (Z.mul_comm d), Z.rem_mul_r by lia. lia.
Qed.

Lemma unf_rowmajor idx s : valid idx s -> unf (rowmajor idx s) s = idx.
Proof.
  intros V. assert (G : forall q, unf (q * size s + rowmajor idx s) s = idx).
  { induction V as [|i d idx s Hi V IH]; intros q; cbn [unf rowmajor size]; [reflexivity|].
    pose proof (rowmajor_range idx s V) as R. pose proof (size_pos s (valid_pos _ _ V)) as P.
    f_equal.
    - replace (q * (d * size s) + (i * size s + rowmajor idx s))
        with (rowmajor idx s + (q * d + i) * size s) by lia.
      rewrite Z.div_add by lia. rewrite Z.div_small by lia.
      replace (0 + (q * d + i)) with (i + q * d) by lia. rewrite Z.mod_add by lia.
      apply Z.mod_small; lia.
    - replace (q * (d * size s) + (i * size s + rowmajor idx s))
        with ((q * d + i) * size s + rowmajor idx s) by lia. apply IH. }
  exact (G 0).
Qed.


Lemma unf_app p a b : pos a -> pos b -> unf p (a ++ b) = unf (p / size b) a ++ unf p b.
Proof.
  intros Ha Hb. pose proof (size_pos b Hb).
  induction Ha as [|d a Hd Ha IH]; cbn [app unf]; [reflexivity|].
  rewrite IH. f_equal. f_equal. rewrite size_app.
  pose proof (size_pos a Ha). rewrite Z.mul_comm, Zdiv_Zdiv by lia. reflexivity.
Qed.

Lemma unf_mod p s q : pos s -> unf (p + q * size s) s = unf p s.
Proof.
  intros H. revert q. induction H as [|d s Hd Hs IH]; intros q; cbn [unf size]; [reflexivity|].
  pose proof (size_pos s Hs). f_equal.
  - replace (p + q * (d * size s)) with (p + (q * d) * size s) by lia.
    rewrite Z.div_add by lia. rewrite Z.mod_add by lia. reflexivity.
  - replace (q * (d * size s)) with ((q * d) * size s) by lia. apply IH.
Qed.

Lemma unflatten_ok p s : 0 <= p -> pos s -> unflatten_loop s p = Ok (p / size s, unf p s).
Proof.
  intros Hp H. induction H as [|d s Hd Hs IH]; cbn [unflatten_loop size unf].
  - now rewrite Z.div_1_r.
  - rewrite IH. cbn [rbind]. destruct (Z.eqb_spec d 0); [lia|].
    pose proof (size_pos s Hs).
    assert (0 <= p / size s) by (apply Z.div_pos; lia).
    rewrite Z.quot_div_nonneg, Z.rem_mod_nonneg by lia.
    rewrite Zdiv_Zdiv by lia. now rewrite (Z.mul_comm (size s)).
Qed.

Lemma unflattenIndex_ok p s : 0 <= p -> pos s -> unflattenIndex p s = Ok (unf p s).
Proof. intros. unfold unflattenIndex. now rewrite unflatten_ok. Qed.

Lemma flatten_loop_spec idx s :
  length idx = length s -> flatten_loop idx s = (rowmajor idx s, size s).
Proof.
  revert s; induction idx as [|i idx IH]; destruct s as [|d s]; cbn [length]; intros H; try lia.
  - reflexivity.
  - unfold flatten_loop in *. cbn [combine fold_right]. rewrite IH by lia.
    cbn [rowmajor size fst snd]. f_equal; lia.
Qed.

Lemma flattenIndex_ok idx s : valid idx s -> flattenIndex idx s = Ok (rowmajor idx s).
Proof.
  intros V. pose proof (valid_length _ _ V) as L. unfold flattenIndex.
  rewrite L, Nat.eqb_refl, flatten_loop_spec by exact L. reflexivity.
Qed.

(* ---- bumpIndices ---- *)
Lemma map_zero_valid s (idx : list Z) : length idx = length s -> pos s -> valid (map (fun _ => 0) idx) s.
Proof.
  revert s; induction idx as [|i idx IH]; destruct s as [|d s]; cbn [length map]; intros L P; try lia; constructor.
  - inversion P; lia.
  - apply IH; [lia|now inversion P].
Qed.
Lemma rowmajor_zero s (idx : list Z) : rowmajor (map (fun _ => 0) idx) s = 0.
Proof.
  revert s; induction idx as [|i idx IH]; destruct s as [|d s]; cbn [map rowmajor]; auto. now rewrite IH.
Qed.

Lemma bump_spec s idx : valid idx s ->
  bumpIndices s idx =
  if rowmajor idx s + 1 <? size s then Some (unf (rowmajor idx s + 1) s) else None.
Proof.
  induction 1 as [|i d idx s Hi V IH].
  - reflexivity.
  - cbn [bumpIndices]. rewrite IH. cbn [rowmajor size].
    pose proof (rowmajor_range idx s V) as R. pose proof (valid_pos _ _ V) as P.
    pose proof (size_pos s P) as SP. pose proof (valid_length _ _ V) as L.
    destruct (Z.ltb_spec (rowmajor idx s + 1) (size s)) as [H|H].
    + destruct (Z.ltb_spec (i * size s + rowmajor idx s + 1) (d * size s)); [|nia].
      f_equal. cbn [unf]. f_equal.
      * replace (i * size s + rowmajor idx s + 1) with (rowmajor idx s + 1 + i * size s) by lia.
        rewrite Z.div_add, Z.div_small, Z.mod_small by lia. lia.
      * replace (i * size s + rowmajor idx s + 1) with (rowmajor idx s + 1 + i * size s) by lia.
        now rewrite unf_mod.
    + destruct (Z.ltb_spec (i + 1) d) as [H1|H1].
      * destruct (Z.ltb_spec (i * size s + rowmajor idx s + 1) (d * size s)); [|nia].
        f_equal.
        replace (i * size s + rowmajor idx s + 1) with ((i + 1) * size s + 0) by lia.
        rewrite <- (unf_rowmajor (i + 1 :: map (fun _ => 0) idx) (d :: s)).
        -- cbn [rowmajor]. now rewrite rowmajor_zero.
        -- constructor; [lia|]. now apply map_zero_valid.
      * destruct (Z.ltb_spec (i * size s + rowmajor idx s + 1) (d * size s)); [nia|reflexivity].
Qed.

(* all_indices in closed form *)
Lemma flat_map_seq_nth {A} (f : nat -> list A) n m d :
  (forall i, length (f i) = m) ->
  length (flat_map f (seq 0 n)) = (n * m)%nat /\
  forall a b, (a < n)%nat -> (b < m)%nat -> nth (a * m + b) (flat_map f (seq 0 n)) d = nth b (f a) d.
Proof.
  intros Hf.
  assert (G : forall s, length (flat_map f (seq s n)) = (n * m)%nat /\
     forall a b, (a < n)%nat -> (b < m)%nat -> nth (a * m + b) (flat_map f (seq s n)) d = nth b (f (s + a)%nat) d).
  { induction n as [|n IH]; intros s; cbn [seq flat_map]; split; try (intros; lia); try reflexivity.
    - rewrite app_length, Hf. destruct (IH (S s)) as [E _]. rewrite E. lia.
    - intros a b Ha Hb. destruct a as [|a].
      + rewrite app_nth1 by (rewrite Hf; lia). now rewrite Nat.add_0_r.
      + rewrite app_nth2 by (rewrite Hf; nia). rewrite Hf.
        replace (S a * m + b - m)%nat with (a * m + b)%nat by nia.
        destruct (IH (S s)) as [_ E]. rewrite E by lia. f_equal. f_equal. lia. }
  specialize (G 0%nat). exact G.
Qed.

Lemma all_indices_spec s : shape_ok s ->
  length (all_indices s) = Z.to_nat (size s) /\
  forall p, 0 <= p < size s -> nth (Z.to_nat p) (all_indices s) [] = unf p s.
Proof.
  induction 1 as [|d s Hd Hs [IL IN]].
  - split; [reflexivity|]. cbn [size]. intros p Hp. replace p with 0 by lia. reflexivity.
  - cbn [all_indices size]. pose proof (size_nonneg s Hs) as SN.
    destruct (flat_map_seq_nth (fun i => map (cons (Z.of_nat i)) (all_indices s)) (Z.to_nat d)
                (Z.to_nat (size s)) []) as [A B].
    { intros i. now rewrite map_length. }
    split; [rewrite A; nia|].
    intros p Hp. assert (SP : 0 < size s) by nia.
    assert (Hq : 0 <= p / size s < d).
    { split; [apply Z.div_pos; lia|]. apply Z.div_lt_upper_bound; nia. }
    assert (Hr : 0 <= p mod size s < size s) by (apply Z.mod_pos_bound; lia).
    replace (Z.to_nat p) with (Z.to_nat (p / size s) * Z.to_nat (size s) + Z.to_nat (p mod size s))%nat.
    2:{ rewrite <- Z2Nat.inj_mul, <- Z2Nat.inj_add by nia. f_equal. pose proof (Z.div_mod p (size s)). lia. }
    rewrite B by lia.
    rewrite nth_map_lt with (da := []) by lia.
    rewrite IN by lia. cbn [unf]. f_equal.
    + rewrite Z2Nat.id by lia. rewrite Z.mod_small by lia. reflexivity.
    + assert (E : p = p mod size s + (p / size s) * size s) by (pose proof (Z.div_mod p (size s)); lia).
      rewrite E at 2. rewrite unf_mod; [reflexivity|]. now apply pos_of_size.
Qed.

(* visiting with bumpIndices: do { visit } while (bump) *)
Fixpoint bump_visit (shape idx : list Z) (fuel : nat) : list (list Z) :=
  match fuel with
  | O => []
  | S f => idx :: match bumpIndices shape idx with
                  | Some idx' => bump_visit shape idx' f
                  | None => []
                  end
  end.

Lemma bump_visit_spec s n r :
  pos s -> 0 <= r < size s ->
  bump_visit s (unf r s) n =
  map (fun i => unf (r + Z.of_nat i) s) (seq 0 (Nat.min n (Z.to_nat (size s - r)))).
Proof.
  intros P. revert r. induction n as [|n IH]; intros r Hr; [reflexivity|].
  cbn [bump_visit]. rewrite bump_spec by now apply unf_valid.
  rewrite rowmajor_unf, Z.mod_small by (auto; lia).
  destruct (Z.ltb_spec (r + 1) (size s)) as [H|H].
  - rewrite IH by lia.
    replace (Nat.min (S n) (Z.to_nat (size s - r))) with (S (Nat.min n (Z.to_nat (size s - (r + 1))))) by lia.
    cbn [seq map]. f_equal; [f_equal; lia|].
    rewrite <- seq_shift, map_map. apply map_ext. intros i. f_equal. lia.
  - replace (Nat.min (S n) (Z.to_nat (size s - r))) with 1%nat by lia.
    cbn [seq map]. f_equal. f_equal; lia.
Qed.

Lemma zero_unf s : pos s -> map (fun _ => 0) s = unf 0 s.
Proof.
  induction 1 as [|d s Hd Hs IH]; cbn [map unf]; [reflexivity|].
  pose proof (size_pos s Hs). rewrite Zdiv_0_l, Zmod_0_l. now rewrite IH.
Qed.

Lemma bump_all s n : pos s -> (Z.to_nat (size s) <= n)%nat ->
  bump_visit s (map (fun _ => 0) s) n = all_indices s.
Proof.
  intros P Hn. pose proof (size_pos s P) as SP.
  rewrite zero_unf by exact P. rewrite bump_visit_spec by (auto; lia).
  rewrite Nat.min_r by lia. rewrite Z.sub_0_r.
  destruct (all_indices_spec s (pos_ok _ P)) as [L N].
  apply list_eq_nth with []; rewrite map_length, seq_length; [lia|].
  intros i Hi. rewrite nth_map_lt with (da := 0%nat) by now rewrite seq_length.
  rewrite seq_nth by lia. rewrite <- N by lia. f_equal. lia.
Qed.

(* ---- strides ---- *)
Lemma dot_app a b x y : length a = length x -> dot (a ++ b) (x ++ y) = dot a x + dot b y.
Proof.
  revert x; induction a as [|i a IH]; destruct x as [|s x]; cbn [length app dot]; intros H; try lia.
  rewrite IH by lia. lia.
Qed.

Lemma raw_strides_size s : snd (raw_strides s) = size s.
Proof.
  induction s as [|d s IH]; cbn [raw_strides size]; [reflexivity|].
  destruct (raw_strides s) as [st nxt]. cbn [snd] in *. lia.
Qed.
Lemma raw_strides_length s : length (fst (raw_strides s)) = length s.
Proof.
  induction s as [|d s IH]; cbn [raw_strides length]; [reflexivity|].
  destruct (raw_strides s) as [st nxt]. cbn [fst length] in *. lia.
Qed.
Lemma dot_raw idx s : length idx = length s -> dot idx (fst (raw_strides s)) = rowmajor idx s.
Proof.
  revert idx; induction s as [|d s IH]; destruct idx as [|i idx]; cbn [length]; intros H; try lia; [reflexivity|].
  cbn [raw_strides rowmajor]. pose proof (raw_strides_size s) as E.
  destruct (raw_strides s) as [st nxt] eqn:R. cbn [fst snd dot] in *.
  rewrite IH by lia. subst nxt. reflexivity.
Qed.

Lemma zero_units_length s st : length st = length s -> length (zero_units s st) = length s.
Proof. intros H. unfold zero_units. rewrite zipWith_length. lia. Qed.

Lemma dot_zero_units idx s st : valid idx s -> length st = length s ->
  dot idx (zero_units s st) = dot idx st.
Proof.
  intros V. revert st. induction V as [|i d idx s Hi V IH]; intros st L; [reflexivity|].
  destruct st as [|t st]; cbn [length] in L; [lia|].
  unfold zero_units in *. cbn [zipWith dot]. rewrite IH by lia.
  destruct (Z.eqb_spec d 1); [|reflexivity]. assert (i = 0) by lia. subst i. lia.
Qed.

Lemma dot_compact idx s : valid idx s -> dot idx (makeCompactStrides s) = rowmajor idx s.
Proof.
  intros V. unfold makeCompactStrides. pose proof (valid_length _ _ V).
  rewrite dot_zero_units by (auto using raw_strides_length). now apply dot_raw.
Qed.

Lemma compact_length s : length (makeCompactStrides s) = length s.
Proof. unfold makeCompactStrides. apply zero_units_length, raw_strides_length. Qed.

(* ---- iterator ---- *)
Lemma iter_inc_spec s st idx : valid idx s -> length st = length s ->
  iter_inc s st idx =
  (rowmajor idx s + 1 =? size s,
   unf (rowmajor idx s + 1) s,
   dot (unf (rowmajor idx s + 1) s) st - dot idx st).
Proof.
  intros V. revert st. induction V as [|i d idx s Hi V IH]; intros st L.
  - destruct st; [reflexivity|cbn [length] in L; lia].
  - destruct st as [|t st]; cbn [length] in L; [lia|].
    cbn [iter_inc]. rewrite IH by lia.
    pose proof (rowmajor_range idx s V) as R. pose proof (valid_pos _ _ V) as P.
    pose proof (size_pos s P) as SP.
    cbn [rowmajor size unf dot].
    assert (Em : unf (i * size s + rowmajor idx s + 1) s = unf (rowmajor idx s + 1) s).
    { replace (i * size s + rowmajor idx s + 1) with (rowmajor idx s + 1 + i * size s) by lia.
      now rewrite unf_mod. }
    rewrite Em.
    destruct (Z.eqb_spec (rowmajor idx s + 1) (size s)) as [E|E].
    + assert (Q : (i * size s + rowmajor idx s + 1) / size s = i + 1).
      { replace (i * size s + rowmajor idx s + 1) with (0 + (i + 1) * size s) by lia.
        rewrite Z.div_add by lia. rewrite Z.div_0_l by lia. lia. }
      rewrite Q.
      destruct (Z.eqb_spec (i + 1) d) as [E1|E1].
      * destruct (Z.eqb_spec (i * size s + rowmajor idx s + 1) (d * size s)); [|nia].
        rewrite E1, Z.mod_same by lia. f_equal. replace i with (d - 1) by lia. lia.
      * destruct (Z.eqb_spec (i * size s + rowmajor idx s + 1) (d * size s)); [nia|].
        rewrite (Z.mod_small (i + 1)) by lia. f_equal. lia.
    + assert (Q : (i * size s + rowmajor idx s + 1) / size s = i).
      { replace (i * size s + rowmajor idx s + 1) with (rowmajor idx s + 1 + i * size s) by lia.
        rewrite Z.div_add, Z.div_small by lia. lia. }
      rewrite Q, (Z.mod_small i) by lia.
      destruct (Z.eqb_spec (i * size s + rowmajor idx s + 1) (d * size s)); [nia|].
      f_equal. lia.
Qed.

Lemma iter_run_spec s st n r base :
  pos s -> length st = length s -> 0 <= r < size s ->
  iter_run s st (unf r s) (base + dot (unf r s) st) n =
  map (fun i => base + dot (unf (r + Z.of_nat i) s) st)
      (seq 0 (Nat.min n (Z.to_nat (size s - r)))).
Proof.
  intros P L. revert r. induction n as [|n IH]; intros r Hr; [reflexivity|].
  cbn [iter_run]. rewrite iter_inc_spec by (auto using unf_valid).
  rewrite rowmajor_unf, Z.mod_small by (auto; lia).
  destruct (Z.eqb_spec (r + 1) (size s)) as [H|H].
  - replace (Nat.min (S n) (Z.to_nat (size s - r))) with 1%nat by lia.
    cbn [seq map]. now rewrite Z.add_0_r.
  - replace (base + dot (unf r s) st + (dot (unf (r + 1) s) st - dot (unf r s) st))
      with (base + dot (unf (r + 1) s) st) by lia.
    rewrite IH by lia.
    replace (Nat.min (S n) (Z.to_nat (size s - r))) with (S (Nat.min n (Z.to_nat (size s - (r + 1))))) by lia.
    cbn [seq map]. f_equal; [now rewrite Z.add_0_r|].
    rewrite <- seq_shift, map_map. apply map_ext. intros i. do 2 f_equal. f_equal. lia.
Qed.

(* ---- stripping unit dimensions ---- *)
Lemma strip_cons {B} d s (x : B) xs :
  strip_units (d :: s) (x :: xs) = if d =? 1 then strip_units s xs else x :: strip_units s xs.
Proof. unfold strip_units. cbn [combine filter fst]. destruct (d =? 1); reflexivity. Qed.

Lemma strip_size s : size (strip_units s s) = size s.
Proof.
  induction s as [|d s IH]; [reflexivity|]. rewrite strip_cons. cbn [size].
  destruct (Z.eqb_spec d 1); cbn [size]; lia.
Qed.

Lemma strip_length {B} s (x y : list B) : length x = length s -> length y = length s ->
  length (strip_units s x) = length (strip_units s y).
Proof.
  revert x y; induction s as [|d s IH]; destruct x, y; cbn [length]; intros; try lia; auto.
  rewrite !strip_cons. destruct (d =? 1); cbn [length]; rewrite (IH x y) by lia; lia.
Qed.

Lemma strip_length' (s x : list Z) : length x = length s ->
  length (strip_units s x) = length (strip_units s s).
Proof. intros. apply strip_length; auto. Qed.

Lemma strip_pos s : pos s -> pos (strip_units s s).
Proof.
  induction 1; [constructor|]. rewrite strip_cons. destruct (x =? 1); [assumption|]. constructor; assumption.
Qed.
Lemma strip_ge2 s : pos s -> Forall (fun d => 2 <= d) (strip_units s s).
Proof.
  induction 1; [constructor|]. rewrite strip_cons. destruct (Z.eqb_spec x 1); [assumption|].
  constructor; [lia|assumption].
Qed.

Lemma dot_strip p s st : length st = length s ->
  dot (unf p s) st = dot (unf p (strip_units s s)) (strip_units s st).
Proof.
  revert st; induction s as [|d s IH]; intros st L.
  - destruct st; [reflexivity|cbn [length] in L; lia].
  - destruct st as [|t st]; cbn [length] in L; [lia|].
    rewrite !strip_cons. cbn [unf dot]. rewrite IH by lia.
    destruct (Z.eqb_spec d 1) as [->|E].
    + rewrite Z.mod_1_r. lia.
    + cbn [unf dot]. now rewrite strip_size.
Qed.

Lemma list_Z_eqb_eq a b : list_Z_eqb a b = true <-> a = b.
Proof.
  revert b; induction a as [|x a IH]; destruct b as [|y b]; cbn [list_Z_eqb]; split; intros H;
    try discriminate; auto.
  - apply andb_true_iff in H as [H1 H2]. apply Z.eqb_eq in H1. apply IH in H2. now subst.
  - injection H as -> ->. rewrite Z.eqb_refl. now apply IH.
Qed.

Lemma dot_scale c idx st : dot idx (map (fun x => c * x) st) = c * dot idx st.
Proof.
  revert st; induction idx as [|i idx IH]; destruct st as [|s st]; cbn [map dot]; try rewrite IH; lia.
Qed.

Lemma fast_indexing_sound s st fs p :
  pos s -> length st = length s -> fast_indexing s st = Some fs -> 0 <= p < size s ->
  dot (unf p s) st = p * fs.
Proof.
  intros P L H Hp. rewrite dot_strip by exact L.
  unfold fast_indexing in H.
  pose proof (strip_size s) as SS.
  pose proof (strip_pos s P) as SP.
  destruct (strip_units s s) as [|d0 s0] eqn:E.
  - injection H as <-. cbn. lia.
  - set (ss := d0 :: s0) in *.
    destruct (list_Z_eqb _ _) eqn:Eq; [|discriminate]. injection H as <-.
    apply list_Z_eqb_eq in Eq. rewrite <- Eq at 1.
    rewrite dot_scale, dot_compact by now apply unf_valid.
    rewrite rowmajor_unf by exact SP. rewrite SS, Z.mod_small by exact Hp. lia.
Qed.

Lemma addr_flat_spec a p :
  wf a -> 0 <= p < size (shp a) -> addr_flat a p = Ok (addr a (unf p (shp a))).
Proof.
  intros [W L] Hp. assert (P : pos (shp a)) by (apply pos_of_size; auto; lia).
  unfold addr_flat. destruct (fast_indexing (shp a) (str a)) as [fs|] eqn:E.
  - unfold addr. rewrite (fast_indexing_sound _ _ fs p) by auto. reflexivity.
  - rewrite unflattenIndex_ok by (auto; lia). reflexivity.
Qed.

Lemma iterate_spec a : wf a ->
  iterate_addrs a = map (fun i => addr a (unf (Z.of_nat i) (shp a))) (seq 0 (Z.to_nat (size (shp a)))).
Proof.
  intros [W L]. unfold iterate_addrs. rewrite numel_size.
  destruct (inBounds (map (fun _ => 0) (shp a)) (shp a)) eqn:IB.
  - apply inBounds_valid in IB. pose proof (valid_pos _ _ IB) as P.
    pose proof (size_pos _ P) as SP.
    assert (Z0 : map (fun _ : Z => 0) (shp a) = unf 0 (shp a)) by now apply zero_unf.
    rewrite Z0.
    destruct (fast_indexing (shp a) (str a)) as [fs|] eqn:E.
    + set (N := size (shp a)) in *.
      assert (A0 : addr a (unf 0 (shp a)) = off a).
      { unfold addr. rewrite (fast_indexing_sound _ _ fs 0) by (auto; lia). lia. }
      rewrite A0.
      set (fs' := if N =? 1 then 0 else fs).
      replace (off a) with (off a + dot (unf 0 [N]) [fs']) at 1.
      2:{ cbn [unf size dot]. rewrite Z.div_0_l, Zmod_0_l by lia. lia. }
      change [0] with (unf 0 [N]) at 1 || (replace [0] with (unf 0 [N]) at 1 by (cbn [unf size]; rewrite Z.div_0_l, Zmod_0_l by lia; reflexivity)).
      rewrite iter_run_spec; [|constructor; [lia|constructor]|reflexivity|cbn [size]; lia].
      cbn [size]. replace (N * 1 - 0) with N by lia. rewrite Nat.min_id.
      apply map_ext_in. intros i Hi. apply in_seq in Hi.
      unfold addr. f_equal. cbn [unf size dot]. rewrite Z.div_1_r, Z.add_0_l, Z.mod_small by lia.
      rewrite (fast_indexing_sound _ _ fs) by (auto; lia).
      unfold fs'. destruct (Z.eqb_spec N 1); [|lia]. assert (Z.of_nat i = 0) by lia. lia.
    + unfold addr. rewrite iter_run_spec by (auto; lia).
      rewrite Z.sub_0_r, Nat.min_id. apply map_ext. intros i. now rewrite Z.add_0_l.
  - assert (size (shp a) <= 0).
    { apply Z.le_ngt. intros H. pose proof (pos_of_size _ W H) as P.
      assert (V : valid (map (fun _ => 0) (shp a)) (shp a)) by now apply map_zero_valid.
      apply inBounds_valid in V. congruence. }
    replace (Z.to_nat (size (shp a))) with 0%nat by lia. reflexivity.
Qed.
