(* ReduceWindow: padding, window enumeration, and the reduction of each window. *)
From Coq Require Import ZifyNat ZifyBool Permutation.
From Verif Require Import Base Ring_model Perm_model Scan_model Scan_proof Fold Dyn_spec Dynw_proof Mm_model Mm_spec Mm_proof Mmt_proof Redn_model Redn_spec Redn_proof.
Open Scope nat_scope.

Lemma zip_len {X Y Z} (g : X -> Y -> Z) : forall l m, length l = length m -> length (zipWith g l m) = length l.
Proof. induction l as [|x l IH]; intros [|y m] E; cbn in E |- *; try lia. rewrite IH; lia. Qed.
Lemma zip_nth (g : nat -> nat -> nat) : forall l m a, length l = length m -> a < length l -> nth a (zipWith g l m) 0 = g (nth a l 0) (nth a m 0).
Proof. induction l as [|x l IH]; intros [|y m] a E L; cbn in E, L |- *; try lia. destruct a; [reflexivity|]. apply IH; lia. Qed.
Lemma along_len s g i : length i = length s -> length g = length s -> length (along s g i) = length s.
Proof. intros. unfold along. rewrite !zip_len; rewrite ?zip_len; lia. Qed.
Lemma along_nth s g i a : length i = length s -> length g = length s -> a < length s -> nth a (along s g i) 0 = nth a s 0 + nth a i 0 * nth a g 0.
Proof. intros. unfold along. rewrite zip_nth; rewrite ?zip_len; try lia. now rewrite zip_nth by lia. Qed.
Lemma all_ones l : forallb (Nat.eqb 1) l = true -> l = map (fun _ => 1) l.
Proof. induction l as [|x l IH]; [reflexivity|]. cbn [forallb map]. intros E. apply andb_prop in E. destruct E as [E F]. apply Nat.eqb_eq in E. rewrite <- (IH F). now subst x. Qed.

(* ---- padding ---- *)
Lemma pad_source_ok sh : forall lo inn idx, length lo = length sh -> length inn = length sh -> length idx = length sh ->
  match pad_source sh lo inn idx with
  | Some j => inside sh j /\ along lo (map (fun n => n + 1) inn) j = idx
  | None => forall j, inside sh j -> along lo (map (fun n => n + 1) inn) j <> idx
  end.
Proof.
  induction sh as [|d sh IH]; intros [|l lo] [|n inn] [|i idx] L1 L2 L3; cbn [length] in *; try lia; [split; [constructor|reflexivity]|].
  cbn [pad_source]. specialize (IH lo inn idx ltac:(lia) ltac:(lia) ltac:(lia)).
  destruct (Nat.leb_spec l i) as [LE|LE]; cbn [andb].
  2: { intros j J. inversion J; subst. cbn. intros E. injection E. intros. nia. }
  pose proof (Nat.div_mod (i - l) (n + 1) ltac:(lia)) as DM. destruct (Nat.eqb_spec ((i - l) mod (n + 1)) 0) as [M|M]; cbn [andb].
  2: { intros j J. inversion J; subst. cbn. intros E. injection E. intros _ E1. apply M. replace (i - l) with (y * (n + 1)) by lia. apply Nat.mod_mul. lia. }
  destruct (Nat.ltb_spec ((i - l) / (n + 1)) d) as [LT|LT].
  2: { intros j J. inversion J; subst. cbn. intros E. injection E. intros _ E1. replace (i - l) with (y * (n + 1)) in LT by lia. rewrite Nat.div_mul in LT by lia. lia. }
  destruct (pad_source sh lo inn idx) as [js|].
  - destruct IH as [I E]. split; [now constructor|]. cbn. unfold along in E. rewrite E. f_equal. nia.
  - intros j J. inversion J; subst. cbn. intros E. injection E. intros E2 _. eapply IH; [|exact E2]. assumption.
Qed.
Lemma pad_dims_ok sh : forall lo hi inn, length lo = length sh -> length hi = length sh -> length inn = length sh ->
  exists P, pad_dims sh lo hi inn = Ok P /\ length P = length sh /\
  forall a, a < length sh -> nth a P 0 = nth a lo 0 + nth a hi 0 + nth a inn 0 * (nth a sh 0 - 1) + nth a sh 0.
Proof.
  induction sh as [|d sh IH]; intros [|l lo] [|h hi] [|n inn] L1 L2 L3; cbn [length] in *; try lia; [exists []; repeat split; intros; lia|].
  destruct (IH lo hi inn) as (P & E & L & H); try lia. exists (l + h + n * (d - 1) + d :: P). cbn [pad_dims]. rewrite E. repeat split; [cbn; lia|].
  intros [|a] B; cbn [nth]; [lia|]. apply H. lia.
Qed.
(* an array whose elements at the indices of shape P are b *)
Definition reads {A} (v : arr A) (P : list nat) (b : list nat -> A) : Prop := fst v = P /\ forall idx, inside P idx -> snd v (flat P idx) = b idx.
Lemma padded_ok {A} sh (a : nat -> A) c lo hi inn b : length lo = length sh -> length hi = length sh -> length inn = length sh ->
  is_padding sh lo (map (fun n => n + 1) inn) a c b ->
  exists v P, padded (sh, a) c lo hi inn = Ok v /\ reads v P b /\ length P = length sh /\
  forall x, x < length sh -> nth x P 0 = nth x lo 0 + nth x hi 0 + nth x inn 0 * (nth x sh 0 - 1) + nth x sh 0.
Proof.
  intros L1 L2 L3 [B1 B2]. unfold padded. cbn [fst snd]. destruct (pad_dims_ok sh lo hi inn L1 L2 L3) as (P & E & L & H). rewrite E. cbn [rbind].
  eexists _, P. split; [reflexivity|]. split; [|split; [exact L|exact H]]. split; [reflexivity|]. cbn [snd]. intros idx I. rewrite index_of_flat by exact I.
  pose proof (pad_source_ok sh lo inn idx L1 L3 ltac:(rewrite (inside_len _ _ I); exact L)) as S. destruct (pad_source sh lo inn idx) as [j|].
  - destruct S as [J <-]. rewrite position_flat. symmetry. apply (B1 j J).
  - symmetry. apply B2. exact S.
Qed.

(* ---- slices ---- *)
Lemma peel (P : nat -> Prop) n : (forall a, a < S n -> P a) -> P 0 /\ forall a, a < n -> P (S a).
Proof. intros H. split; [apply H; lia|]. intros a L. apply H. lia. Qed.
Lemma slice_dim_ok st w g : 0 < w -> 0 < g -> slice_dim st (st + ((w - 1) * g + 1)) g = Ok w.
Proof.
  intros W G. unfold slice_dim. cbv zeta. assert (HN : forall n, st + n - st = n) by (intros; lia). rewrite !HN. clear HN.
  destruct (Nat.eqb_spec ((w - 1) * g + 1) 1) as [E|E]; [f_equal; destruct (Nat.eq_dec w 1); [lia|]; exfalso; assert (0 < (w - 1) * g) by (apply Nat.mul_pos_pos; lia); generalize dependent ((w - 1) * g); intros; lia|]. destruct (Nat.eqb_spec g 0); [lia|]. f_equal.
  destruct (Nat.eq_dec g 1) as [->|N1].
  - rewrite Nat.div_1_r, Nat.mod_1_r, Nat.eqb_refl. lia.
  - rewrite pos_div, pos_mod by lia. cbn. lia.
Qed.
Lemma slice_dims_ok : forall P st stop g W, length st = length P -> length stop = length P -> length g = length P -> length W = length P ->
  (forall a, a < length P -> nth a stop 0 = nth a st 0 + ((nth a W 0 - 1) * nth a g 0 + 1) /\ nth a stop 0 <= nth a P 0 /\ 0 < nth a W 0 /\ 0 < nth a g 0) ->
  slice_dims P st stop g = Ok W.
Proof.
  induction P as [|p P IH]; intros [|s st] [|e stop] [|g gs] [|w W] L1 L2 L3 L4 H; cbn [length] in *; try lia; [reflexivity|].
  apply peel in H. destruct H as [H0 H]. cbn [nth] in H0. destruct H0 as (E & LE & WP & GP). cbn [slice_dims].
  destruct (Nat.leb_spec e p); [|lia]. rewrite E, slice_dim_ok by assumption. cbn [rbind]. rewrite (IH st stop gs W); try lia; [reflexivity|]. exact H.
Qed.
Lemma sliced_ok {A} (v : arr A) P b st stop g W : reads v P b -> length st = length P -> length stop = length P -> length g = length P -> length W = length P ->
  (forall a, a < length P -> nth a stop 0 = nth a st 0 + ((nth a W 0 - 1) * nth a g 0 + 1) /\ nth a stop 0 <= nth a P 0 /\ 0 < nth a W 0 /\ 0 < nth a g 0) ->
  exists w, sliced v st stop g = Ok w /\ reads w W (fun i => b (along st g i)).
Proof.
  intros [F R] L1 L2 L3 L4 H. unfold sliced. rewrite F, (slice_dims_ok P st stop g W L1 L2 L3 L4 H). cbn [rbind]. eexists. split; [reflexivity|]. split; [reflexivity|].
  cbn [snd]. intros i I. rewrite index_of_flat, position_flat by exact I. apply R. pose proof (inside_len _ _ I) as LI.
  apply inside_nth; [rewrite along_len; lia|]. intros a B. rewrite along_nth by lia. destruct (H a B) as (E & LE & WP & GP).
  pose proof (nth_inside W i a I ltac:(lia)). enough (nth a i 0 * nth a g 0 <= (nth a W 0 - 1) * nth a g 0) by lia. apply Nat.mul_le_mono_r. lia.
Qed.

(* ---- counting windows ---- *)
Lemma count_ok p w s r : 0 < w -> 0 < s -> 0 < r -> (forall i, i < r <-> i * s + w <= p) ->
  Z.to_nat (Z.quot (Z.of_nat p - Z.of_nat w) (Z.of_nat s) + 1) = r.
Proof.
  intros W S R H. pose proof (proj1 (H 0) R) as H0. pose proof (proj1 (H (r - 1)) ltac:(lia)) as H1.
  assert (H2 : ~ (r * s + w <= p)) by (intros C; apply H in C; lia).
  rewrite Z.quot_div_nonneg by lia. assert (E : ((Z.of_nat p - Z.of_nat w) / Z.of_nat s = Z.of_nat r - 1)%Z); [|lia].
  symmetry. apply (Z.div_unique_pos _ _ _ (Z.of_nat p - Z.of_nat w - Z.of_nat s * (Z.of_nat r - 1))); nia.
Qed.
Lemma window_counts_ok : forall P W St N, length W = length P -> length St = length P -> length N = length P ->
  (forall a, a < length P -> 0 < nth a W 0 /\ 0 < nth a St 0 /\ 0 < nth a N 0 /\ forall i, i < nth a N 0 <-> i * nth a St 0 + nth a W 0 <= nth a P 0) ->
  window_counts P W St = Ok N.
Proof.
  induction P as [|p P IH]; intros [|w W] [|s St] [|r N] L1 L2 L3 H; cbn [length] in *; try lia; [reflexivity|].
  apply peel in H. destruct H as [(A1 & A2 & A3 & A4) H]. cbn [nth] in A1, A2, A3, A4. cbn [window_counts]. destruct (Nat.eqb_spec s 0); [lia|].
  rewrite (IH W St N); try lia; [|exact H]. cbn [rbind]. do 2 f_equal. now apply count_ok.
Qed.
Lemma numel_nth sh : 0 < numel sh -> forall a, a < length sh -> 0 < nth a sh 0.
Proof.
  induction sh as [|d sh IH]; cbn [length]; intros P a L; [lia|]. change (0 < d * numel sh) in P. destruct a; cbn [nth]; [nia|]. apply IH; [nia|lia].
Qed.
Lemma nth_numel sh : (forall a, a < length sh -> 0 < nth a sh 0) -> 0 < numel sh.
Proof.
  induction sh as [|d sh IH]; intros H; [unfold numel; cbn; lia|]. cbn [length] in H. apply peel in H. destruct H as [H0 H]. cbn in H0. change (0 < d * numel sh). specialize (IH H). nia.
Qed.

Lemma rmap_parts {X A} (g : X -> res (arr A)) (Q : X -> arr A -> Prop) l : (forall x, In x l -> exists w, g x = Ok w /\ Q x w) ->
  exists ws, rmap g l = Ok ws /\ length ws = length l /\ forall j dx dw, j < length l -> Q (nth j l dx) (nth j ws dw).
Proof.
  induction l as [|x l IH]; intros H; [exists []; repeat split; cbn; intros; lia|].
  destruct (H x (or_introl eq_refl)) as (w & E & QW). destruct IH as (ws & E' & L & QS); [intros; apply H; now right|].
  exists (w :: ws). cbn [rmap]. rewrite E, E'. repeat split; [cbn; lia|]. intros [|j] dx dw J; cbn [nth]; [exact QW|]. apply QS. cbn in J. lia.
Qed.

Section Window.
Context {A : Type}.
Variable f : A -> A -> A.
Hypothesis assoc : forall a b c, f a (f b c) = f (f a b) c.
Hypothesis comm : forall a b, f a b = f b a.

Lemma expand_ok c (v : arr A) P b W St N : reads v P b -> length W = length P -> length St = length P -> length N = length P ->
  (forall a, a < length P -> 0 < nth a W 0 /\ 0 < nth a St 0 /\ 0 < nth a N 0 /\ forall i, i < nth a N 0 <-> i * nth a St 0 + nth a W 0 <= nth a P 0) ->
  exists e, expand_window c v W St = Ok (N ++ W, e) /\
    forall o w, inside N o -> inside W w -> e (flat N o * numel W + flat W w) = b (along (zipWith Nat.mul o St) (map (fun _ => 1) P) w).
Proof.
  intros R L1 L2 L3 H. pose proof R as [F _]. unfold expand_window. rewrite F, L1, L2, !Nat.eqb_refl. cbn [negb orb].
  rewrite (window_counts_ok P W St N L1 L2 L3 H). cbn [rbind].
  assert (NP : 0 < numel N) by (apply nth_numel; intros a B; destruct (H a ltac:(lia)) as (_ & _ & N0 & _); exact N0). rewrite visited_ok by exact NP.
  destruct (rmap_parts (fun idx => sliced v (zipWith Nat.mul idx St) (zipWith Nat.add (zipWith Nat.mul idx St) W) (map (fun _ => 1) P))
             (fun idx w => reads w W (fun i => b (along (zipWith Nat.mul idx St) (map (fun _ => 1) P) i))) (indices N)) as (ws & E & L & Q).
  { intros idx I. apply in_indices in I. pose proof (inside_len _ _ I) as LI.
    assert (LS : length (zipWith Nat.mul idx St) = length P) by (rewrite zip_len; lia).
    apply (sliced_ok v P b); [exact R|exact LS|rewrite zip_len; lia|now rewrite map_length|exact L1|].
    intros a B. rewrite zip_nth by lia. rewrite (nth_map_in (fun _ => 1) P a 0) by exact B. destruct (H a B) as (W0 & S0 & N0 & HN).
    rewrite zip_nth by lia. pose proof (nth_inside N idx a I ltac:(lia)) as LT. apply HN in LT. lia. }
  rewrite E. cbn [rbind]. rewrite L, indices_len. change (total_size N) with (numel N). rewrite Nat.eqb_refl. cbn [negb].
  unfold reshaped, stacked. cbn [fst snd]. rewrite L, indices_len. change (total_size (numel N :: W)) with (numel N * numel W). change (total_size (N ++ W)) with (numel (N ++ W)).
  rewrite numel_app, Nat.eqb_refl. eexists. split; [reflexivity|]. intros o w IO IW. cbv beta. change (total_size W) with (numel W).
  pose proof (flat_lt W w IW). rewrite pos_div, pos_mod by assumption.
  specialize (Q (flat N o) [] (W, fun _ => c) ltac:(rewrite indices_len; now apply flat_lt)). rewrite nth_indices in Q by exact IO. destruct Q as [_ Q]. now apply Q.
Qed.

Lemma axis_plain d lo hi w s r : axis_fits d lo hi 1 w s 1 r -> forall i, i < r <-> i * s + w <= lo + hi + d.
Proof. intros (D & _ & W & S & _ & H) i. rewrite H. lia. Qed.

Lemma plain_ok ign init sh (a : nat -> A) pads E W St D ret b :
  forallb (Nat.eqb 1) D = true -> forallb (Nat.eqb 1) E = true ->
  window_fits sh pads E W St D ret -> 0 < numel ret -> (Z.of_nat (numel W) < 2 ^ 31)%Z ->
  is_padding sh (map fst pads) E a init b ->
  exists z, reduce_window_plain f ign init (sh, a) W St pads ret = Ok (ret, z) /\ is_window_reduced f ign init ret W St D b z.
Proof.
  intros D1 E1 (LP & LE & LW & LS & LD & LR & FIT) RP WB PAD.
  apply all_ones in D1, E1.
  assert (EN : forall x, x < length sh -> nth x E 0 = 1) by (intros x X; rewrite E1; apply (nth_map_in (fun _ => 1) E x 0 0); lia).
  assert (DN : forall x, x < length sh -> nth x D 0 = 1) by (intros x X; rewrite D1; apply (nth_map_in (fun _ => 1) D x 0 0); lia).
  assert (PN : forall x, x < length sh -> nth x (map fst pads) 0 = fst (nth x pads (0, 0))) by (intros x X; apply nth_map_in; lia).
  assert (HN : forall x, x < length sh -> nth x (map snd pads) 0 = snd (nth x pads (0, 0))) by (intros x X; apply nth_map_in; lia).
  assert (G : exists v P, (if existsb (fun '(l, h) => negb (l =? 0) || negb (h =? 0)) pads then padded (sh, a) init (map fst pads) (map snd pads) (map (fun _ => 0) sh) else Ok (sh, a)) = Ok v /\
     reads v P b /\ length P = length sh /\ forall x, x < length sh -> nth x P 0 = fst (nth x pads (0, 0)) + snd (nth x pads (0, 0)) + nth x sh 0).
  { destruct (existsb _ pads) eqn:X.
    - destruct (padded_ok sh a init (map fst pads) (map snd pads) (map (fun _ => 0) sh) b) as (v & P & EV & RV & LV & HV); try (rewrite map_length; assumption); [now rewrite map_length| |].
      + replace (map (fun n => n + 1) (map (fun _ => 0) sh)) with E; [exact PAD|]. rewrite map_map. rewrite E1. cbn [Nat.add]. clear - LE. revert E LE. induction sh as [|d sh IH]; intros [|e E] L; cbn in L |- *; try lia; [reflexivity|]. f_equal. apply IH. lia.
      + exists v, P. split; [exact EV|]. split; [exact RV|]. split; [exact LV|]. intros x B. rewrite (HV x B), PN, HN by exact B. rewrite (nth_map_in (fun _ => 0) sh x 0 0 B). lia.
    - assert (Z : forall x, x < length pads -> nth x pads (0, 0) = (0, 0)).
      { intros x B. pose proof (nth_In pads (0, 0) B) as IN. destruct (nth x pads (0, 0)) as [l h] eqn:Q. destruct l as [|l], h as [|h]; [reflexivity| | |];
          exfalso; (assert (Y : existsb (fun '(l, h) => negb (l =? 0) || negb (h =? 0)) pads = true) by (apply existsb_exists; eexists; split; [exact IN|reflexivity])); congruence. }
      exists (sh, a), sh. split; [reflexivity|]. split; [|split; [reflexivity|intros x B; rewrite Z by lia; cbn; lia]]. split; [reflexivity|]. cbn [snd]. intros idx I.
      destruct PAD as [B1 _]. rewrite <- (B1 idx I). apply f_equal. pose proof (inside_len _ _ I) as LI.
      assert (LA : length (along (map fst pads) E idx) = length sh) by (rewrite along_len; rewrite ?map_length; lia).
      apply (nth_ext _ _ 0 0); [exact (eq_trans LA (eq_sym LI))|]. intros x B. change (zipWith Nat.add (map fst pads) (zipWith Nat.mul idx E)) with (along (map fst pads) E idx) in *. rewrite LA in B.
      rewrite along_nth by (rewrite ?map_length; lia). rewrite PN, EN, Z by lia. cbn. lia. }
  destruct G as (v & P & EV & RV & LV & HV).
  assert (CNT : forall x, x < length P -> 0 < nth x W 0 /\ 0 < nth x St 0 /\ 0 < nth x ret 0 /\ forall i, i < nth x ret 0 <-> i * nth x St 0 + nth x W 0 <= nth x P 0).
  { intros x B. rewrite LV in B. specialize (FIT x B). rewrite EN, DN in FIT by exact B. pose proof (axis_plain _ _ _ _ _ _ FIT) as AP. destruct FIT as (_ & _ & W0 & S0 & _ & _).
    split; [exact W0|]. split; [exact S0|]. split; [apply numel_nth; [exact RP|lia]|]. intros i. rewrite AP, (HV x B). reflexivity. }
  destruct (expand_ok init v P b W St ret RV ltac:(lia) ltac:(lia) ltac:(lia) CNT) as (e & EE & HE).
  unfold reduce_window_plain, expand_padded. cbn [fst]. rewrite LP, Nat.eqb_refl. cbn [negb].
  replace (if existsb (fun '(l, h) => negb (l =? 0) || negb (h =? 0)) pads then _ else _) with (expand_window init v W St).
  2: { destruct (existsb _ pads); [rewrite EV; reflexivity|]. injection EV as <-. reflexivity. }
  rewrite EE. cbn [rbind]. rewrite int_product_small by exact WB. destruct (Z.ltb_spec (Z.of_nat (numel W)) 0); [lia|]. rewrite Nat2Z.id.
  unfold reshaped. cbn [fst snd]. change (total_size (ret ++ [numel W])) with (numel (ret ++ [numel W])). change (total_size (ret ++ W)) with (numel (ret ++ W)).
  replace (numel (ret ++ [numel W]) =? numel (ret ++ W)) with true by (symmetry; apply Nat.eqb_eq; rewrite !numel_app; unfold numel at 2; cbn; lia). cbn [rbind snd].
  assert (WP : 0 < numel W) by (apply nth_numel; intros x B; destruct (CNT x ltac:(lia)) as (W0 & _); exact W0).
  destruct (rows_ok f assoc comm ign init (total_size ret) (numel W) e WP) as (l & EL & LL & F). rewrite EL. cbn [rbind]. eexists. split; [reflexivity|].
  intros o I. cbv beta. rewrite <- (F (flat ret o) init) by (apply flat_lt; exact I). unfold with_init. do 2 f_equal. rewrite indices_index, map_map. apply map_ext_in. intros j J. apply in_seq in J.
  destruct (inside_index W j ltac:(lia)) as [IW FW]. rewrite <- FW at 2. rewrite HE by assumption. unfold along.
  apply f_equal. f_equal. f_equal. rewrite D1. clear - LD LV. assert (L : length D = length P) by lia. clear LD LV. revert P L. induction D as [|d D IH]; intros [|p P] L; cbn in L |- *; try lia; [reflexivity|]. f_equal. apply IH. lia.
Qed.

Lemma agree_all nd o idx : length o = nd -> agree (seq 0 nd) o idx = true.
Proof. intros <-. apply forallb_forall. intros a I. destruct (in_dec Nat.eq_dec a (seq 0 (length o))); [reflexivity|contradiction]. Qed.
Lemma filter_all {X} (g : X -> bool) l : (forall x, In x l -> g x = true) -> filter g l = l.
Proof. induction l as [|x l IH]; intros H; [reflexivity|]. cbn. rewrite (H x (or_introl eq_refl)). f_equal. apply IH. intros; apply H; now right. Qed.
Lemma reduced_all (sh : list nat) : reduced_shape sh (seq 0 (length sh)) = map (fun _ => 1) sh.
Proof.
  unfold reduced_shape. rewrite (map_ext_in _ (fun _ => 1)); [|intros a I; destruct (in_dec Nat.eq_dec a (seq 0 (length sh))); [reflexivity|contradiction]].
  assert (H : forall n, map (fun _ => 1) (seq n (length sh)) = map (fun _ => 1) sh); [|apply H]. induction sh as [|d sh IH]; intros n; [reflexivity|]. cbn. f_equal. apply IH.
Qed.
Lemma numel_ones {X} (l : list X) : numel (map (fun _ => 1) l) = 1.
Proof. induction l as [|x l IH]; [reflexivity|]. change (1 * numel (map (fun _ => 1) l) = 1). lia. Qed.
Lemma inside_zeros {X} (l : list X) : inside (map (fun _ => 1) l) (map (fun _ => 0) l).
Proof. induction l as [|x l IH]; cbn; constructor; [lia|exact IH]. Qed.
Lemma flat_zeros {X} (l : list X) : flat (map (fun _ => 1) l) (map (fun _ => 0) l) = 0.
Proof. induction l as [|x l IH]; [reflexivity|]. cbn. exact IH. Qed.
(* Reduce over every axis *)
Lemma reduce_all_ok init (w : arr A) W b : reads w W b -> (forall x, x < length W -> 0 < nth x W 0) ->
  exists z, reduce f false init (seq 0 (length W)) w = Ok (map (fun _ => 1) W, z) /\ fold1 f (init :: map b (indices W)) = Some (z 0).
Proof.
  intros [F R] P. destruct w as [sh at_]. cbn in F. subst sh. cbn [snd] in R.
  destruct (reduce_ok f W (seq 0 (length W)) ltac:(rewrite Forall_forall; intros d D; apply in_seq in D; lia) assoc comm false init at_) as (z & E & H).
  { intros d D. apply in_seq in D. apply P. lia. }
  rewrite reduced_all in E. exists z. split; [exact E|]. specialize (H (map (fun _ => 0) W)). rewrite reduced_all in H. rewrite flat_zeros in H. rewrite <- (H (inside_zeros W)).
  rewrite filter_all by (intros; apply agree_all; now rewrite map_length). cbn [app]. do 2 f_equal. apply map_ext_in. intros i I. apply in_indices in I. symmetry. now apply R.
Qed.

Lemma dilated_ok ign init sh (a : nat -> A) pads E W St D ret b :
  forallb (Nat.eqb 1) D && forallb (Nat.eqb 1) E = false ->
  window_fits sh pads E W St D ret -> 0 < numel ret ->
  is_padding sh (map fst pads) E a init b ->
  exists z, reduce_window f ign init (sh, a) W St D E pads ret = Ok (ret, z) /\ is_window_reduced f false init ret W St D b z.
Proof.
  intros DIL (LP & LE & LW & LS & LD & LR & FIT) RP PAD. unfold reduce_window. rewrite DIL. cbn [fst]. rewrite LP, LE, LW, LS, LD, LR, !Nat.eqb_refl. cbn [negb orb].
  assert (EN : map (fun n => n + 1) (map (fun e => e - 1) E) = E).
  { rewrite map_map. rewrite <- (map_id E) at 2. apply map_ext_in. intros e IE. destruct (In_nth E e 0 IE) as (x & X & <-). destruct (FIT x ltac:(lia)) as (_ & E0 & _). lia. }
  destruct (padded_ok sh a init (map fst pads) (map snd pads) (map (fun e => e - 1) E) b) as (v & P & EV & RV & LV & HV); try (rewrite map_length; assumption); [now rewrite EN|].
  rewrite EV. cbn [rbind]. rewrite visited_ok by exact RP.
  set (stop := fun idx => zipWith Nat.add (zipWith Nat.mul idx St) (zipWith Nat.add W (zipWith Nat.mul (map (fun w => w - 1) W) (map (fun d => d - 1) D)))).
  destruct (rmap_parts (fun idx => rbind (sliced v (zipWith Nat.mul idx St) (stop idx) D) (fun w => reduce f false init (seq 0 (length sh)) w))
             (fun idx r => fst r = map (fun _ => 1) ret /\ fold1 f (init :: map (fun w => b (along (zipWith Nat.mul idx St) D w)) (indices W)) = Some (snd r 0)) (indices ret)) as (rs & ER & LRS & Q).
  { intros idx I. apply in_indices in I. pose proof (inside_len _ _ I) as LI.
    assert (LST : length (zipWith Nat.mul idx St) = length P) by (rewrite zip_len; lia).
    assert (LX : length (zipWith Nat.mul (map (fun w => w - 1) W) (map (fun d => d - 1) D)) = length P) by (rewrite zip_len; rewrite ?map_length; lia).
    assert (LY : length (zipWith Nat.add W (zipWith Nat.mul (map (fun w => w - 1) W) (map (fun d => d - 1) D))) = length P) by (rewrite zip_len; lia).
    destruct (sliced_ok v P b (zipWith Nat.mul idx St) (stop idx) D W RV) as (w & EW & RW); [exact LST|unfold stop; rewrite zip_len; lia|lia|lia| |].
    - intros x B. pose proof B as B'. rewrite LV in B'. unfold stop. rewrite zip_nth by lia. rewrite (zip_nth Nat.add W) by lia. rewrite (zip_nth Nat.mul (map _ W)) by (rewrite !map_length; lia).
      rewrite (nth_map_in _ W x 0) by lia. rewrite (nth_map_in _ D x 0) by lia. rewrite zip_nth by lia.
      destruct (FIT x B') as (D0 & E0 & W0 & S0 & G0 & H). pose proof (nth_inside ret idx x I ltac:(lia)) as LT. apply H in LT. rewrite (HV x B').
      rewrite (nth_map_in _ E x 0) by lia. rewrite (nth_map_in fst pads x (0, 0)) by lia. rewrite (nth_map_in snd pads x (0, 0)) by lia.
      set (w0 := nth x W 0) in *. set (g := nth x D 0) in *. set (e := nth x E 0) in *. set (d := nth x sh 0) in *. set (i := nth x idx 0) in *. set (s := nth x St 0) in *.
      assert (A1 : w0 + (w0 - 1) * (g - 1) = (w0 - 1) * g + 1) by nia. rewrite A1. assert (A2 : (e - 1) * (d - 1) + d = (d - 1) * e + 1) by nia. lia.
    - rewrite EW. cbn [rbind]. rewrite <- LW. destruct (reduce_all_ok init w W _ RW) as (z & EZ & HZ); [intros x B; apply (FIT x); lia|].
      exists (map (fun _ => 1) W, z). split; [exact EZ|]. cbn [fst snd]. split; [|exact HZ]. clear - LW LR. assert (L : length W = length ret) by lia. clear LW LR. revert ret L. induction W as [|x W IH]; intros [|y r] L; cbn in L |- *; try lia; [reflexivity|]. f_equal. apply IH. lia. }
  change (rmap _ (indices ret)) with (rmap (fun idx => rbind (sliced v (zipWith Nat.mul idx St) (stop idx) D) (fun w => reduce f false init (seq 0 (length sh)) w)) (indices ret)).
  rewrite ER. cbn [rbind]. rewrite LRS, indices_len. change (total_size ret) with (numel ret). rewrite Nat.eqb_refl. cbn [negb]. unfold reshaped, stacked. cbn [fst snd].
  rewrite LRS, indices_len. change (total_size (map (fun _ : nat => 1) ret)) with (numel (map (fun _ : nat => 1) ret)). change (total_size (numel ret :: map (fun _ => 1) ret)) with (numel ret * numel (map (fun _ : nat => 1) ret)).
  rewrite numel_ones, Nat.mul_1_r. change (total_size ret) with (numel ret). rewrite Nat.eqb_refl. eexists. split; [reflexivity|]. intros o I. cbv beta. rewrite Nat.div_1_r, Nat.mod_1_r.
  specialize (Q (flat ret o) [] (map (fun _ => 1) ret, fun _ => init) ltac:(rewrite indices_len; now apply flat_lt)). rewrite nth_indices in Q by exact I. apply Q.
Qed.

Theorem reduce_window_ok ign init sh (a : nat -> A) pads E W St D ret b :
  window_fits sh pads E W St D ret -> 0 < numel ret -> (Z.of_nat (numel W) < 2 ^ 31)%Z ->
  is_padding sh (map fst pads) E a init b ->
  exists z, reduce_window f ign init (sh, a) W St D E pads ret = Ok (ret, z) /\
    is_window_reduced f (ign && (forallb (Nat.eqb 1) D && forallb (Nat.eqb 1) E)) init ret W St D b z.
Proof.
  intros FIT RP WB PAD. destruct (forallb (Nat.eqb 1) D && forallb (Nat.eqb 1) E) eqn:DIL.
  - rewrite andb_true_r. unfold reduce_window. rewrite DIL. apply andb_prop in DIL. destruct DIL as [D1 E1]. now apply plain_ok with E.
  - rewrite andb_false_r. now apply dilated_ok.
Qed.
End Window.

(* every array has a padding *)
Lemma padding_exists {A} sh lo E (a : nat -> A) c : length lo = length sh -> length E = length sh -> Forall (fun e => 0 < e) E -> exists b, is_padding sh lo E a c b.
Proof.
  intros L1 L2 P. assert (EN : map (fun n => n + 1) (map (fun e => e - 1) E) = E).
  { rewrite map_map. rewrite <- (map_id E) at 2. apply map_ext_in. intros e IE. rewrite Forall_forall in P. specialize (P e IE). lia. }
  exists (fun idx => if length idx =? length sh then match pad_source sh lo (map (fun e => e - 1) E) idx with Some j => a (flat sh j) | None => c end else c). split.
  - intros j J. pose proof (inside_len _ _ J) as LJ. change (zipWith Nat.add lo (zipWith Nat.mul j E)) with (along lo E j).
    assert (LA : length (along lo E j) = length sh) by (rewrite along_len; lia). rewrite LA, Nat.eqb_refl.
    pose proof (pad_source_ok sh lo (map (fun e => e - 1) E) (along lo E j) L1 ltac:(now rewrite map_length) LA) as S. rewrite EN in S.
    destruct (pad_source sh lo _ (along lo E j)) as [j'|]; [|exfalso; exact (S j J eq_refl)]. destruct S as [J' EJ]. do 2 f_equal. pose proof (inside_len _ _ J') as LJ'.
    apply (nth_ext _ _ 0 0); [lia|]. intros x B. apply (f_equal (fun l => nth x l 0)) in EJ. rewrite !along_nth in EJ by lia.
    assert (0 < nth x E 0) by (rewrite Forall_forall in P; apply P, nth_In; lia). nia.
  - intros idx H. destruct (Nat.eqb_spec (length idx) (length sh)) as [LI|]; [|reflexivity].
    pose proof (pad_source_ok sh lo (map (fun e => e - 1) E) idx L1 ltac:(now rewrite map_length) LI) as S. rewrite EN in S.
    destruct (pad_source sh lo _ idx) as [j|]; [|reflexivity]. destruct S as [J EJ]. exfalso. exact (H j J EJ).
Qed.

(* a result without elements is never returned *)
Lemma rmap_length {X Y} (g : X -> res Y) : forall l ys, rmap g l = Ok ys -> length ys = length l.
Proof.
  induction l as [|x l IH]; intros ys E; cbn [rmap] in E; [now injection E as <-|]. destruct (g x); cbn [rbind] in E; try discriminate. destruct (rmap g l) eqn:R; cbn [rbind] in E; try discriminate.
  injection E as <-. cbn. f_equal. now apply IH.
Qed.
Lemma visited_pos sh : 0 < length (visited sh).
Proof. unfold visited. cbn [visit]. cbn. lia. Qed.
Lemma reshaped_inv {A} (v : arr A) sh w : reshaped v sh = Ok w -> w = (sh, snd v) /\ total_size sh = total_size (fst v).
Proof. unfold reshaped. destruct (Nat.eqb_spec (total_size sh) (total_size (fst v))); [|discriminate]. intros E. injection E as <-. now split. Qed.
Lemma expand_pos {A} c (v : arr A) W St e : 0 < numel W -> expand_window c v W St = Ok e -> 0 < total_size (fst e).
Proof.
  intros WP. unfold expand_window. destruct (_ || _); [discriminate|]. destruct (window_counts _ _ _) as [N| |]; cbn [rbind]; try discriminate.
  destruct (rmap _ (visited N)) as [ws| |] eqn:R; cbn [rbind]; try discriminate. apply rmap_length in R. pose proof (visited_pos N). destruct (Nat.eqb_spec (length ws) (total_size N)) as [L|]; cbn [negb]; [|discriminate].
  intros E. apply reshaped_inv in E. destruct E as [-> _]. cbn [fst]. change (0 < numel (N ++ W)). rewrite numel_app. change (length ws = numel N) in L. nia.
Qed.
Theorem empty_result {A} f ign (init : A) v W St D E pads ret : numel ret = 0 -> 0 < numel W -> (Z.of_nat (numel W) < 2 ^ 31)%Z ->
  forall w, reduce_window f ign init v W St D E pads ret <> Ok w.
Proof.
  intros R WP WB w. unfold reduce_window. destruct (_ && _).
  - unfold reduce_window_plain, expand_padded. destruct (negb _); [discriminate|].
    assert (H : forall p, (rbind (expand_window init p W St) (fun e => if (int_product W <? 0)%Z then Err else
       rbind (reshaped e (ret ++ [Z.to_nat (int_product W)])) (fun t => rbind (reduce_rows f ign init (total_size ret) (Z.to_nat (int_product W)) (snd t)) (fun l => Ok (from_list init ret l))))) <> Ok w).
    { intros p. destruct (expand_window init p W St) as [e| |] eqn:X; cbn [rbind]; try discriminate. apply expand_pos in X; [|exact WP].
      destruct (_ <? 0)%Z; [discriminate|]. destruct (reshaped e _) as [t| |] eqn:T; cbn [rbind]; try discriminate. apply reshaped_inv in T. destruct T as [_ T].
      change (numel (ret ++ [Z.to_nat (int_product W)]) = total_size (fst e)) in T. rewrite numel_app, R in T. lia. }
    destruct (existsb _ pads); [|apply H]. destruct (padded _ _ _ _ _); cbn [rbind]; try discriminate. apply H.
  - destruct (_ || _); [discriminate|]. destruct (_ || _); [discriminate|]. destruct (negb _); [discriminate|]. destruct (padded _ _ _ _ _); cbn [rbind]; try discriminate.
    destruct (rmap _ (visited ret)) as [rs| |] eqn:X; cbn [rbind]; try discriminate. apply rmap_length in X. pose proof (visited_pos ret). change (total_size ret) with (numel ret). rewrite R. rewrite X.
    destruct (Nat.eqb_spec (length (visited ret)) 0); [lia|discriminate].
Qed.
