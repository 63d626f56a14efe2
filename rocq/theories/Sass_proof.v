(* The selection of a best position in every window, and SelectAndScatter as a whole. *)
From Coq Require Import ZifyNat ZifyBool Permutation.
From Verif Require Import Base Ring_model Perm_model Scan_model Scan_proof Fold Dyn_spec Dynw_proof Mm_model Mm_spec Mm_proof Mmt_proof Redn_model Redn_spec Redn_proof Rednw_proof Sas_model Sas_spec Sas_proof Sasw_proof.
Open Scope nat_scope.

Section Select.
Context {A : Type}.
Variable sel : A -> A -> bool.
Hypothesis good_trans : forall a b c, as_good sel a b -> as_good sel b c -> as_good sel a c.

Lemma good_refl a : as_good sel a a.
Proof. unfold as_good. destruct (sel a a); auto. Qed.
Definition best (x : A * nat) (l : list (A * nat)) : Prop := In x l /\ forall y, In y l -> as_good sel (fst x) (fst y).
Lemma best_keep x y a b : best x a -> best y b -> best (keep_better sel x y) (a ++ b).
Proof using good_trans.
  intros [I H] [J K]. unfold keep_better. destruct (sel (fst x) (fst y)) eqn:E; (split; [apply in_or_app; auto|]); intros z Z; apply in_app_or in Z; destruct Z as [Z|Z]; auto.
  - apply (good_trans _ (fst y)); [left; exact E|now apply K].
  - apply (good_trans _ (fst x)); [right; exact E|now apply H].
Qed.
Lemma select_row_ok nw tiled n : 0 < nw -> exists w, select_row sel nw tiled n = Ok w /\ w < nw /\ forall v, v < nw -> as_good sel (tiled (n * nw + w)) (tiled (n * nw + v)).
Proof using good_trans.
  intros P. unfold select_row. destruct (tree_reduce_rel (keep_better sel) best) with (l := map (fun w => (tiled (n * nw + w), w)) (seq 0 nw)) as ([x w] & E & I & H).
  - intros y. split; [now left|]. intros z [<-|[]]. apply good_refl.
  - intros. now apply best_keep.
  - intros x a b PM [I H]. split; [now apply (Permutation_in _ PM)|]. intros y Y. apply H. apply (Permutation_in _ (Permutation_sym PM)). exact Y.
  - destruct nw; [lia|discriminate].
  - rewrite E. cbn [rbind snd]. exists w. apply in_map_iff in I. destruct I as (w' & Q & I). injection Q as <- <-. apply in_seq in I. split; [reflexivity|]. split; [lia|].
    intros v V. apply (H (tiled (n * nw + v), v)). apply in_map_iff. exists v. split; [reflexivity|apply in_seq; lia].
Qed.

Variables (f : A -> A -> A) (e : A).
Hypothesis assoc : forall a b c, f a (f b c) = f (f a b) c.
Hypothesis comm : forall a b, f a b = f b a.
Hypothesis unit : forall a, f e a = a.

Lemma no_padding (pads : list (nat * nat)) : Forall (eq (0, 0)) pads -> existsb (fun '(l, h) => negb (l =? 0) || negb (h =? 0)) pads = false.
Proof. intros H. induction H as [|x l E H IH]; [reflexivity|]. subst. cbn. exact IH. Qed.

Theorem select_and_scatter_ok B N W S (base src : nat -> A) pads : tiles B N W S -> length pads = length B -> Forall (eq (0, 0)) pads ->
  exists pos z, select_and_scatter e sel f (B, base) (N, src) e W S pads = Ok (B, z) /\
    (forall n, inside N n -> inside W (pos n) /\ forall w, inside W w -> as_good sel (base (flat B (cell S n (pos n)))) (base (flat B (cell S n w)))) /\
    is_scattered f e B N W S src (fun n w => same w (pos n)) z.
Proof using good_trans assoc comm unit.
  intros T LP Z. pose proof T as (LN & LW & LS & T'). unfold select_and_scatter. cbn [fst]. rewrite LW, LS, Nat.eqb_refl. cbn [negb orb].
  unfold expand_padded. cbn [fst]. rewrite LP, Nat.eqb_refl. cbn [negb]. rewrite no_padding by exact Z.
  set (b := fun idx => base (flat B idx)).
  destruct (expand_ok f assoc comm e (B, base) B b W S N) as (t & E & HT); [split; [reflexivity|intros; reflexivity]|lia|lia|lia| |].
  { intros a Ha. destruct (T' a Ha) as (N0 & W0 & S0 & ->). split; [exact W0|]. split; [exact S0|]. split; [exact N0|]. intros i. rewrite <- Nat.add_le_mono_r, <- Nat.mul_le_mono_pos_r by exact S0. lia. }
  rewrite E. cbn [rbind fst snd]. assert (F1 : firstn (length B) (N ++ W) = N) by (rewrite <- LN; rewrite firstn_app, Nat.sub_diag, firstn_all; cbn [firstn]; apply app_nil_r).
  assert (F2 : skipn (length B) (N ++ W) = W) by (rewrite <- LN; rewrite skipn_app, Nat.sub_diag, skipn_all; reflexivity).
  rewrite F1, F2, app_length, LN, LW. rewrite !same_shape_refl.
  replace (length B + length B =? 2 * length B) with true by (symmetry; apply Nat.eqb_eq; lia). cbn [negb orb].
  change (total_size W) with (numel W). change (total_size N) with (numel N).
  assert (WP : 0 < numel W) by (apply nth_numel; intros a Ha; apply (T' a); lia).
  assert (G : forall l0, exists ps, rmap (select_row sel (numel W) t) l0 = Ok ps /\ length ps = length l0 /\
    forall j, j < length l0 -> nth j ps 0 < numel W /\ forall v, v < numel W -> as_good sel (t (nth j l0 0 * numel W + nth j ps 0)) (t (nth j l0 0 * numel W + v))).
  { induction l0 as [|n l0 (ps & E1 & L1 & H1)]; [exists []; split; [reflexivity|]; split; [reflexivity|]; cbn [length]; intros; lia|]. destruct (select_row_ok (numel W) t n WP) as (w & EW & LTW & HW). exists (w :: ps). cbn [rmap]. rewrite EW, E1. cbn [rbind].
    split; [reflexivity|]. split; [cbn; lia|]. intros [|j] J; cbn [nth]; [split; [exact LTW|exact HW]|]. apply H1. cbn in J. lia. }
  destruct (G (seq 0 (numel N))) as (ps & EP & LPS & HP). rewrite seq_length in HP. rewrite EP. cbn [rbind].
  destruct (scatter_window_ok f e assoc comm unit B N W S src (fun p => nth (p / numel W) ps 0 =? p mod numel W) T) as (z & ES & SC). rewrite ES.
  exists (fun n => index_of W (nth (flat N n) ps 0)), z. split; [reflexivity|]. split.
  - intros n In0. pose proof (flat_lt N n In0) as FN. specialize (HP (flat N n) FN). rewrite seq_nth in HP by exact FN. destruct HP as [LTP HG]. cbn [Nat.add] in HG.
    destruct (inside_index W (nth (flat N n) ps 0) LTP) as [IP FP]. split; [exact IP|]. intros w Iw. specialize (HG (flat W w) (flat_lt W w Iw)). rewrite <- FP in HG at 1. rewrite !HT in HG by assumption.
    assert (CE : forall v, inside W v -> along (zipWith Nat.mul n S) (map (fun _ => 1) B) v = cell S n v).
    { intros v Iv. pose proof (inside_len _ _ Iv) as Lv. pose proof (inside_len _ _ In0) as Ln. unfold along, cell. f_equal. apply (nth_ext _ _ 0 0); [rewrite zip_len; rewrite ?map_length; lia|].
      intros a Ha. rewrite zip_len in Ha by (rewrite map_length; lia). rewrite zip_nth by (rewrite ?map_length; lia). rewrite (nth_map_in (fun _ => 1) B a 0) by lia. lia. }
    rewrite !CE in HG by assumption. exact HG.
  - intros c Ic. rewrite (SC c Ic). f_equal. f_equal. apply filter_ext_in. intros [n w] I. apply in_prod_iff in I. destruct I as [I1 I2]. apply in_indices in I1, I2. cbn [fst snd]. f_equal.
    pose proof (flat_lt W w I2) as FW. rewrite pos_div, pos_mod by exact FW. specialize (HP (flat N n) (flat_lt N n I1)). destruct HP as [LTP _]. destruct (inside_index W (nth (flat N n) ps 0) LTP) as [IP FP].
    destruct (Nat.eqb_spec (nth (flat N n) ps 0) (flat W w)) as [Q|Q].
    + symmetry. apply same_true. rewrite Q. symmetry. now apply index_of_flat.
    + destruct (same w _) eqn:SM; [|reflexivity]. apply same_true in SM. exfalso. apply Q. rewrite SM. now rewrite FP.
Qed.
End Select.

Theorem accepts_only_tiled {A} (zero : A) sel f B N W S (base src : nat -> A) init pads z : (forall a, a < length W -> 0 < nth a N 0 /\ 0 < nth a W 0 /\ 0 < nth a S 0) ->
  select_and_scatter zero sel f (B, base) (N, src) init W S pads = Ok z -> tiles B N W S.
Proof.
  intros P E. unfold select_and_scatter in E. cbn [fst] in E. destruct (_ || _); [discriminate E|]. destruct (expand_padded _ _ _ _ _); cbn [rbind] in E; try discriminate E.
  destruct (_ || _); [discriminate E|]. destruct (rmap _ _); cbn [rbind] in E; try discriminate E. revert E. now apply scatter_window_shape.
Qed.
Theorem max_pool_scatter_ok {A} (add : A -> A -> A) (zero : A) (assoc : forall a b c, add a (add b c) = add (add a b) c) (comm : forall a b, add a b = add b a) (unit : forall a, add zero a = a)
  B N W S (src : nat -> A) hot pads : tiles B N W S -> Forall (eq (0, 0)) pads ->
  exists z, max_pool_scatter zero add (N ++ [numel W]) hot (N, src) W B S pads = Ok (B, z) /\
    is_scattered add zero B N W S src (fun n w => hot (flat N n * numel W + flat W w)) z.
Proof. intros T Z. unfold max_pool_scatter. rewrite no_padding by exact Z. now apply scatter_window_ok. Qed.
