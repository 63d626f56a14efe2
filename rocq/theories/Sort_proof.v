(* The sorting network sorts. *)
From Coq Require Import ZifyBool ZifyNat ZifyN.
From Verif Require Import Base Ring_model Party Ring_spec Prg_model Perm_model Perm_proof Sort_model Sort_spec.
Open Scope nat_scope.

(* ---- the comparisons of one layer ---- *)
Lemma pairs_i_in n gap step j cnt : forall i l r, In (l, r) (pairs_i n gap step j cnt i) <->
  exists i', i <= i' < i + cnt /\ l = i' + j /\ r = l + step /\ r < n /\ l / (gap + gap) = r / (gap + gap).
Proof.
  induction cnt as [|c IH]; intros i l r; cbn [pairs_i].
  - split; [easy|]. intros [i' [H _]]. lia.
  - destruct (Nat.leb_spec n (i + j + step)) as [G|G].
    + split; [easy|]. intros [i' [H1 [H2 [H3 [H4 _]]]]]. lia.
    + rewrite in_app_iff, IH. split.
      * intros [H|[i' [H1 H2]]].
        -- destruct (Nat.eqb_spec ((i + j) / (gap + gap)) ((i + j + step) / (gap + gap))) as [E|E]; [|easy].
           destruct H as [H|[]]. injection H as <- <-. exists i. repeat split; try lia.
        -- exists i'. split; [lia|exact H2].
      * intros [i' [H1 [H2 [H3 [H4 H5]]]]]. destruct (Nat.eq_dec i' i) as [->|N].
        -- left. subst l r. apply Nat.eqb_eq in H5. rewrite H5. now left.
        -- right. exists i'. repeat split; try exact H5; lia.
Qed.
Lemma pairs_j_in n gap step : 0 < step -> forall fuel j l r, n <= fuel + j -> In (l, r) (pairs_j fuel n gap step j) <->
  exists i c, i < step /\ l = i + j + c * (2 * step) /\ r = l + step /\ r < n /\ l / (gap + gap) = r / (gap + gap).
Proof.
  intros SP. induction fuel as [|f IH]; intros j l r F; cbn [pairs_j].
  - split; [easy|]. intros [i [c H]]. lia.
  - destruct (Nat.ltb_spec (j + step) n) as [G|G].
    + rewrite in_app_iff, pairs_i_in, IH by lia. split.
      * intros [[i [H1 [H2 H3]]]|[i [c [H1 [H2 H3]]]]].
        -- exists i, 0. split; [lia|]. split; [lia|exact H3].
        -- exists i, (S c). split; [lia|]. split; [lia|exact H3].
      * intros [i [[|c] [H1 [H2 H3]]]].
        -- left. exists i. split; [lia|]. split; [lia|exact H3].
        -- right. exists i, c. split; [lia|]. split; [lia|exact H3].
    + split; [easy|]. intros [i [c H]]. lia.
Qed.

(* position i is the upper end of a comparison *)
Definition lhsb (gap step i : nat) : bool :=
  if step =? gap then Nat.even (i / gap) else Nat.odd (i / step) && (i / (gap + gap) =? (i + step) / (gap + gap)).

Lemma even_2c c : Nat.even (2 * c) = true.
Proof. rewrite Nat.even_spec. now exists c. Qed.
Lemma odd_2c1 c : Nat.odd (2 * c + 1) = true.
Proof. rewrite Nat.odd_spec. now exists c. Qed.
Lemma div_add_mul s i c : 0 < s -> i < s -> (i + c * s) / s = c.
Proof. intros H H1. rewrite Nat.div_add by lia. now rewrite Nat.div_small. Qed.
Lemma same_block g i : 0 < g -> Nat.even (i / g) = true -> i / (g + g) = (i + g) / (g + g).
Proof.
  intros G E. apply Nat.even_spec in E. destruct E as [m E].
  pose proof (Nat.div_mod_eq i g). pose proof (Nat.mod_upper_bound i g ltac:(lia)).
  replace i with (i mod g + m * (g + g)) by nia. replace (i mod g + m * (g + g) + g) with (i mod g + g + m * (g + g)) by lia.
  now rewrite !div_add_mul by lia.
Qed.

Lemma net_pairs_in n gap step l r : 0 < step <= gap -> In (l, r) (net_pairs n gap step) <-> r = l + step /\ r < n /\ lhsb gap step l = true.
Proof.
  intros [SP SG]. unfold net_pairs. rewrite pairs_j_in by lia. unfold lhsb. destruct (Nat.eqb_spec step gap) as [->|NE].
  - rewrite Nat.mod_same by lia. split.
    + intros [i [c [H1 [H2 [H3 [H4 H5]]]]]]. repeat split; [exact H3|exact H4|]. subst l.
      replace (i + 0 + c * (2 * gap)) with (i + (2 * c) * gap) by lia. rewrite div_add_mul by lia. apply even_2c.
    + intros [-> [H2 H3]]. pose proof (same_block gap l SP H3) as SB. apply Nat.even_spec in H3. destruct H3 as [c H3].
      pose proof (Nat.div_mod_eq l gap). pose proof (Nat.mod_upper_bound l gap ltac:(lia)).
      exists (l mod gap), c. repeat split; try lia; try nia.
  - rewrite (Nat.mod_small step gap) by lia. split.
    + intros [i [c [H1 [H2 [H3 [H4 H5]]]]]]. repeat split; [exact H3|exact H4|]. apply andb_true_iff. split.
      * subst l. replace (i + step + c * (2 * step)) with (i + (2 * c + 1) * step) by lia. rewrite div_add_mul by lia. apply odd_2c1.
      * apply Nat.eqb_eq. now rewrite <- H3.
    + intros [-> [H2 H3]]. apply andb_true_iff in H3. destruct H3 as [H3 H4]. apply Nat.eqb_eq in H4. apply Nat.odd_spec in H3. destruct H3 as [c H3].
      pose proof (Nat.div_mod_eq l step). pose proof (Nat.mod_upper_bound l step ltac:(lia)).
      exists (l mod step), c. repeat split; try lia; try nia.
Qed.

(* positions do not meet twice *)
Lemma lhsb_exclusive gap step i : 0 < step <= gap -> lhsb gap step i = true -> lhsb gap step (i + step) = false.
Proof.
  intros [SP SG]. unfold lhsb.
  assert (D : (i + step) / step = S (i / step)) by (replace (i + step) with (i + 1 * step) by lia; rewrite Nat.div_add by lia; lia).
  destruct (Nat.eqb_spec step gap) as [->|NE].
  - intros E. rewrite D. rewrite Nat.even_succ, <- Nat.negb_even, E. reflexivity.
  - intros E. apply andb_true_iff in E. destruct E as [E _]. rewrite D, Nat.odd_succ, <- Nat.negb_odd, E. reflexivity.
Qed.
Lemma pairs_i_sorted n gap step j cnt : forall i, NoDup (map fst (pairs_i n gap step j cnt i)) /\ forall l r, In (l, r) (pairs_i n gap step j cnt i) -> i + j <= l < i + j + cnt.
Proof.
  induction cnt as [|c IH]; intros i; cbn [pairs_i]; [split; [constructor|easy]|].
  destruct (n <=? i + j + step); [split; [constructor|easy]|]. destruct (IH (S i)) as [H1 H2]. split.
  - destruct (_ =? _); [|exact H1]. cbn [app map fst]. constructor; [|exact H1].
    intros I. apply in_map_iff in I. destruct I as [[l r] [E I]]. cbn in E. apply H2 in I. lia.
  - intros l r I. apply in_app_iff in I. destruct I as [I|I].
    + destruct (_ =? _); [|easy]. destruct I as [I|[]]. injection I as <- <-. lia.
    + apply H2 in I. lia.
Qed.
Lemma NoDup_app_ {A} (a b : list A) : NoDup a -> NoDup b -> (forall x, In x a -> ~ In x b) -> NoDup (a ++ b).
Proof.
  induction a as [|x a IH]; intros Ha Hb D; [exact Hb|]. inversion Ha; subst. cbn. constructor.
  - rewrite in_app_iff. intros [I|I]; [easy|]. apply (D x); [now left|exact I].
  - apply IH; auto. intros y I. apply D. now right.
Qed.
Lemma pairs_j_sorted n gap step : 0 < step -> forall fuel j, NoDup (map fst (pairs_j fuel n gap step j)) /\ forall l r, In (l, r) (pairs_j fuel n gap step j) -> j <= l.
Proof.
  intros SP. induction fuel as [|f IH]; intros j; cbn [pairs_j]; [split; [constructor|easy]|].
  destruct (j + step <? n); [|split; [constructor|easy]].
  destruct (pairs_i_sorted n gap step j step 0) as [A1 A2]. destruct (IH (j + (step + step))) as [B1 B2]. split.
  - rewrite map_app. apply NoDup_app_; auto. intros x I I'. apply in_map_iff in I, I'.
    destruct I as [[l r] [<- I]]. destruct I' as [[l' r'] [E I']]. cbn in E. apply A2 in I. apply B2 in I'. cbn in *. lia.
  - intros l r I. apply in_app_iff in I. destruct I as [I|I]; [apply A2 in I|apply B2 in I]; lia.
Qed.

(* index pairs of a simultaneous exchange: a position occurs once, or is paired with itself *)
Definition compat (ps : list (nat * nat)) : Prop :=
  NoDup (map fst ps) /\ NoDup (map snd ps) /\ (forall l r l' r', In (l, r) ps -> In (l', r') ps -> l = r' -> l = r).
Definition inr (n : nat) (ps : list (nat * nat)) : Prop := forall l r, In (l, r) ps -> l < n /\ r < n.

Lemma net_compat n gap step : 0 < step <= gap -> compat (net_pairs n gap step) /\ inr n (net_pairs n gap step).
Proof.
  intros H. assert (E : map snd (net_pairs n gap step) = map (fun l => l + step) (map fst (net_pairs n gap step))).
  { rewrite map_map. apply map_ext_in. intros [l r] I. apply net_pairs_in in I; [|exact H]. cbn. easy. }
  assert (ND : NoDup (map fst (net_pairs n gap step))) by (apply pairs_j_sorted; lia).
  split; [split; [exact ND|split]|].
  - rewrite E. apply nodup_map_inj; [exact ND|]. intros a b _ _ E'. lia.
  - intros l r l' r' I I' ->. apply net_pairs_in in I, I'; auto. destruct I as [-> [_ I]]. destruct I' as [-> [_ I']].
    apply (lhsb_exclusive gap step l' H) in I'. congruence.
  - intros l r I. apply net_pairs_in in I; auto. lia.
Qed.

(* ---- gather and scatter ---- *)
Lemma row_nth (a : list row) i v : nth_error a i = Some v -> nth i a [] = v.
Proof. apply nth_of_error. Qed.
Lemma gather_ok a idx : (forall i, In i idx -> i < length a) -> gather a idx = Ok (map (fun i => nth i a []) idx).
Proof.
  unfold gather. induction idx as [|i idx IH]; intros H; [reflexivity|]. cbn. unfold read at 1.
  destruct (nth_error_lt a i (H i (or_introl eq_refl))) as [v E]. rewrite E. cbn [rbind]. rewrite IH by (intros; apply H; now right).
  cbn [rbind map]. do 2 f_equal. symmetry. now apply nth_of_error.
Qed.
Lemma set_nth_nth {A} (l : list A) i x j d : i < length l -> nth j (set_nth l i x) d = if j =? i then x else nth j l d.
Proof.
  intros H. destruct (Nat.eqb_spec j i) as [->|N].
  - apply nth_of_error. now apply set_nth_at.
  - assert (E : nth_error (set_nth l i x) j = nth_error l j) by (apply set_nth_ne; lia).
    destruct (nth_error l j) eqn:F.
    + rewrite (nth_of_error _ _ _ d E). symmetry. now apply nth_of_error.
    + apply nth_error_None in E, F. now rewrite !nth_overflow.
Qed.
Lemma scatter_ok : forall vals idx a, length vals = length idx -> NoDup idx -> (forall i, In i idx -> i < length a) ->
  exists a', scatter a vals idx = Ok a' /\ length a' = length a /\
  (forall j, j < length idx -> nth (nth j idx 0) a' [] = nth j vals []) /\ (forall i, ~ In i idx -> nth i a' [] = nth i a []).
Proof.
  induction vals as [|v vals IH]; intros [|i idx] a L ND B; try discriminate; cbn [scatter].
  - exists a. repeat split; auto. cbn; lia.
  - unfold write. destruct (Nat.ltb_spec i (length a)) as [G|G]; [|exfalso; specialize (B i (or_introl eq_refl)); lia]. cbn [rbind].
    inversion ND; subst. destruct (IH idx (set_nth a i v)) as [a' [E1 [E2 [E3 E4]]]]; auto.
    { intros j I. rewrite set_nth_length. apply B. now right. }
    rewrite set_nth_length in E2. exists a'. repeat split; auto.
    + intros [|j] J; cbn [nth length] in *; [|apply E3; lia]. rewrite E4 by auto. rewrite set_nth_nth by auto. now rewrite Nat.eqb_refl.
    + intros j NI. rewrite E4 by (intros I; apply NI; now right). rewrite set_nth_nth by auto.
      destruct (Nat.eqb_spec j i); [|reflexivity]. subst. exfalso. apply NI. now left.
Qed.
Lemma in_fst (ps : list (nat * nat)) l : In l (map fst ps) <-> exists r, In (l, r) ps.
Proof. rewrite in_map_iff. split; [intros [[a b] [E I]]; cbn in E; subst; eauto|intros [r I]; now exists (l, r)]. Qed.
Lemma in_snd (ps : list (nat * nat)) r : In r (map snd ps) <-> exists l, In (l, r) ps.
Proof. rewrite in_map_iff. split; [intros [[a b] [E I]]; cbn in E; subst; eauto|intros [l I]; now exists (l, r)]. Qed.

(* exchanging the rows of every pair *)
Definition swapped (a : list row) (ps : list (nat * nat)) (a' : list row) : Prop :=
  length a' = length a /\
  (forall l r, In (l, r) ps -> nth l a' [] = nth r a [] /\ nth r a' [] = nth l a []) /\
  (forall i, ~ In i (map fst ps) -> ~ In i (map snd ps) -> nth i a' [] = nth i a []).

Lemma scatter2 a ps (g h : nat * nat -> row) : compat ps -> inr (length a) ps -> (forall l r, In (l, r) ps -> l = r -> g (l, r) = h (l, r)) ->
  exists a', rbind (scatter a (map g ps) (map snd ps)) (fun a1 => scatter a1 (map h ps) (map fst ps)) = Ok a' /\ length a' = length a /\
  (forall l r, In (l, r) ps -> nth r a' [] = g (l, r) /\ nth l a' [] = h (l, r)) /\
  (forall i, ~ In i (map fst ps) -> ~ In i (map snd ps) -> nth i a' [] = nth i a []).
Proof.
  intros [C1 [C2 C3]] R GH.
  destruct (scatter_ok (map g ps) (map snd ps) a) as [a1 [E1 [E2 [E3 E4]]]]; [now rewrite !map_length|exact C2| |].
  { intros i I. apply in_snd in I. destruct I as [l I]. now apply R in I. }
  destruct (scatter_ok (map h ps) (map fst ps) a1) as [a2 [F1 [F2 [F3 F4]]]]; [now rewrite !map_length|exact C1| |].
  { intros i I. apply in_fst in I. destruct I as [r I]. rewrite E2. now apply R in I. }
  exists a2. rewrite E1. cbn [rbind]. split; [exact F1|]. split; [congruence|]. split.
  - intros l r I. destruct (In_nth _ _ (0, 0) I) as [j [J EJ]].
    assert (Al : nth l a2 [] = h (l, r)).
    { specialize (F3 j ltac:(rewrite map_length; exact J)). rewrite (nth_indep _ 0 (fst (0, 0))) in F3 by (rewrite map_length; exact J).
      rewrite map_nth, EJ in F3. cbn [fst] in F3. rewrite F3. rewrite (nth_indep _ [] (h (0, 0))) by (rewrite map_length; exact J). now rewrite map_nth, EJ. }
    split; [|exact Al]. destruct (in_dec Nat.eq_dec r (map fst ps)) as [I'|NI].
    + apply in_fst in I'. destruct I' as [r' I']. assert (r = r') by (eapply C3; eauto). subst r'.
      assert (l = r).
      { destruct (In_nth _ _ (0, 0) I') as [j' [J' EJ']]. assert (j = j').
        { apply (proj1 (NoDup_nth (map snd ps) (snd (0, 0))) C2); rewrite ?map_length; auto. now rewrite !map_nth, EJ, EJ'. }
        subst. rewrite EJ in EJ'. now injection EJ'. }
      subst. rewrite Al. symmetry. now apply GH.
    + rewrite F4 by exact NI. specialize (E3 j ltac:(rewrite map_length; exact J)). rewrite (nth_indep _ 0 (snd (0, 0))) in E3 by (rewrite map_length; exact J).
      rewrite map_nth, EJ in E3. cbn [snd] in E3. rewrite E3. rewrite (nth_indep _ [] (g (0, 0))) by (rewrite map_length; exact J). now rewrite map_nth, EJ.
  - intros i N1 N2. rewrite F4, E4; auto.
Qed.
Lemma swap_rows_ok a ps : compat ps -> inr (length a) ps -> exists a', swap_rows a ps = Ok a' /\ swapped a ps a'.
Proof.
  intros C R.
  assert (G : exists a', rbind (gather a (map fst ps)) (fun lv => rbind (gather a (map snd ps)) (fun rv =>
      rbind (scatter a lv (map snd ps)) (fun a' => scatter a' rv (map fst ps)))) = Ok a' /\ swapped a ps a').
  { rewrite !gather_ok; cbn [rbind].
    - rewrite !map_map. destruct (scatter2 a ps (fun p => nth (fst p) a []) (fun p => nth (snd p) a []) C R) as [a' [E1 [E2 [E3 E4]]]].
      { intros l r _ ->. reflexivity. }
      exists a'. split; [exact E1|]. split; [exact E2|]. split; [|exact E4]. intros l r I. apply E3 in I. cbn in I. tauto.
    - intros i I. apply in_snd in I. destruct I as [l I]. now apply R in I.
    - intros i I. apply in_fst in I. destruct I as [l I]. now apply R in I. }
  destruct ps as [|[l r] [|p ps]].
  - exists a. split; [reflexivity|]. repeat split; easy.
  - cbn [swap_rows]. destruct (Nat.eqb_spec l r) as [->|N]; [|exact G]. exists a. split; [reflexivity|]. repeat split; auto.
    + destruct H as [H|[]]. now injection H as -> ->.
    + destruct H as [H|[]]. now injection H as -> ->.
  - exact G.
Qed.

(* a simultaneous exchange is a sequence of exchanges *)
Definition tr (a : list row) (p : nat * nat) : list row := set_nth (set_nth a (fst p) (nth (snd p) a [])) (snd p) (nth (fst p) a []).
Lemma list_ext (a b : list row) : length a = length b -> (forall i, i < length a -> nth i a [] = nth i b []) -> a = b.
Proof.
  intros L H. apply nth_error_ext_; [exact L|]. intros i I. destruct (nth_error_lt a i I) as [u U]. destruct (nth_error_lt b i) as [v V]; [lia|].
  rewrite U, V. f_equal. rewrite <- (nth_of_error _ _ _ [] U), <- (nth_of_error _ _ _ [] V). now apply H.
Qed.
Lemma set_nth_perm : forall (a : list row) i v, i < length a -> Permutation (v :: a) (nth i a [] :: set_nth a i v).
Proof.
  induction a as [|x a IH]; intros [|i] v H; cbn in *; try lia.
  - apply perm_swap.
  - rewrite perm_swap. rewrite (IH i v) by lia. apply perm_swap.
Qed.
Lemma tr_perm a l r : l < length a -> r < length a -> Permutation a (tr a (l, r)).
Proof.
  intros Hl Hr. unfold tr. cbn [fst snd]. set (x := nth l a []). set (y := nth r a []).
  assert (P1 := set_nth_perm a l y Hl). fold x in P1.
  assert (P2 := set_nth_perm (set_nth a l y) r x ltac:(rewrite set_nth_length; exact Hr)).
  assert (E : nth r (set_nth a l y) [] = y). { rewrite set_nth_nth by exact Hl. destruct (Nat.eqb_spec r l); [reflexivity|reflexivity]. }
  rewrite E in P2. apply (Permutation_cons_inv (a := y)). now rewrite P1, P2.
Qed.
Lemma tr_length a p : length (tr a p) = length a.
Proof. unfold tr. now rewrite !set_nth_length. Qed.
Lemma tr_nth a l r i : l < length a -> r < length a -> nth i (tr a (l, r)) [] = if i =? r then nth l a [] else if i =? l then nth r a [] else nth i a [].
Proof. intros Hl Hr. unfold tr. cbn [fst snd]. rewrite set_nth_nth by (rewrite set_nth_length; exact Hr). destruct (i =? r); [reflexivity|]. now rewrite set_nth_nth. Qed.
Lemma compat_cons p ps : compat (p :: ps) -> compat ps.
Proof.
  intros [C1 [C2 C3]]. inversion C1; inversion C2; subst. repeat split; auto.
  intros l r l' r' I I'. apply (C3 l r l' r'); now right.
Qed.
Lemma swapped_tr : forall ps a, compat ps -> inr (length a) ps -> swapped a ps (fold_left tr ps a).
Proof.
  induction ps as [|[l r] ps IH]; intros a C R; cbn [fold_left].
  - repeat split; easy.
  - pose proof (R l r (or_introl eq_refl)) as [Hl Hr].
    destruct (IH (tr a (l, r)) (compat_cons _ _ C)) as [E1 [E2 E3]].
    { intros l' r' I. rewrite tr_length. apply R. now right. }
    rewrite tr_length in E1. destruct C as [C1 [C2 C3]]. cbn [map fst snd] in C1, C2. inversion C1 as [|? ? N1 _]; inversion C2 as [|? ? N2 _]; subst.
    assert (X : forall l' r', In (l', r') ps -> l' <> l /\ r' <> r /\ l' <> r /\ r' <> l).
    { intros l' r' I. assert (l' <> l) by (intros ->; apply N1, in_fst; eauto). assert (r' <> r) by (intros ->; apply N2, in_snd; eauto).
      repeat split; auto.
      - intros E. assert (l' = r') by (apply (C3 l' r' l r); auto; [now right|now left]). lia.
      - intros E. assert (l = r) by (apply (C3 l r l' r'); auto; [now left|now right]). lia. }
    assert (Y : ~ In l (map snd ps) /\ ~ In r (map fst ps)).
    { split; intros I; [apply in_snd in I|apply in_fst in I]; destruct I as [z I]; apply X in I; lia. }
    split; [exact E1|]. split.
    + intros l' r' [I|I].
      * injection I as <- <-. rewrite !E3 by tauto. rewrite !tr_nth by auto. rewrite Nat.eqb_refl. rewrite !Nat.eqb_refl. split; [|reflexivity].
        destruct (Nat.eqb_spec l r) as [->|]; reflexivity.
      * destruct (E2 l' r' I) as [F1 F2]. rewrite F1, F2. rewrite !tr_nth by auto. destruct (X _ _ I) as [Q1 [Q2 [Q3 Q4]]].
        apply Nat.eqb_neq in Q1, Q2, Q3, Q4. now rewrite Q1, Q2, Q3, Q4.
    + intros i N3 N4. cbn [map fst snd] in N3, N4. rewrite E3; [|intros I; apply N3; now right|intros I; apply N4; now right]. rewrite tr_nth by auto.
      destruct (Nat.eqb_spec i r); [exfalso; apply N4; left; lia|]. destruct (Nat.eqb_spec i l); [exfalso; apply N3; left; lia|reflexivity].
Qed.
Lemma tr_fold_perm : forall ps a, inr (length a) ps -> Permutation a (fold_left tr ps a).
Proof.
  induction ps as [|[l r] ps IH]; intros a R; cbn [fold_left]; [apply Permutation_refl|].
  pose proof (R l r (or_introl eq_refl)) as [Hl Hr]. rewrite (tr_perm a l r Hl Hr) at 1. apply IH.
  intros l' r' I. rewrite tr_length. apply R. now right.
Qed.
Lemma swapped_unique a ps b c : swapped a ps b -> swapped a ps c -> b = c.
Proof.
  intros [B1 [B2 B3]] [C1 [C2 C3]]. apply list_ext; [congruence|]. intros i _.
  destruct (in_dec Nat.eq_dec i (map fst ps)) as [I|N1]; [apply in_fst in I; destruct I as [r I]; apply B2 in I as X; apply C2 in I; destruct X, I; congruence|].
  destruct (in_dec Nat.eq_dec i (map snd ps)) as [I|N2]; [apply in_snd in I; destruct I as [r I]; apply B2 in I as X; apply C2 in I; destruct X, I; congruence|].
  now rewrite B3, C3.
Qed.
Lemma swapped_is_tr a ps b : compat ps -> inr (length a) ps -> swapped a ps b -> b = fold_left tr ps a.
Proof. intros C R S. eapply swapped_unique; eauto. now apply swapped_tr. Qed.
Lemma swapped_perm a ps b : compat ps -> inr (length a) ps -> swapped a ps b -> Permutation a b.
Proof. intros C R S. rewrite (swapped_is_tr _ _ _ C R S). now apply tr_fold_perm. Qed.

(* the result of a layer of comparisons *)
Definition compared (cmp : row -> row -> bool) (a : list row) (ps : list (nat * nat)) (a' : list row) : Prop :=
  swapped a (filter (fun p => negb (cmp (nth (fst p) a []) (nth (snd p) a []))) ps) a'.
Lemma NoDup_map_filter {A B} (g : A -> B) f l : NoDup (map g l) -> NoDup (map g (filter f l)).
Proof.
  induction l as [|x l IH]; intros H; [constructor|]. cbn in *. inversion H; subst. destruct (f x); [|auto]. cbn. constructor; [|auto].
  intros I. apply in_map_iff in I. destruct I as [y [E I]]. apply filter_In in I. apply H2. rewrite <- E. apply in_map. tauto.
Qed.
Lemma compat_filter f ps : compat ps -> compat (filter f ps).
Proof.
  intros [C1 [C2 C3]]. split; [now apply NoDup_map_filter|]. split; [now apply NoDup_map_filter|].
  intros l r l' r' I I'. apply filter_In in I, I'. apply (C3 l r l' r'); tauto.
Qed.
Lemma inr_filter n f ps : inr n ps -> inr n (filter f ps).
Proof. intros R l r I. apply filter_In in I. now apply R. Qed.
Lemma compared_perm cmp a ps a' : compat ps -> inr (length a) ps -> compared cmp a ps a' -> Permutation a a'.
Proof. intros C R S. eapply swapped_perm; [apply compat_filter, C|apply inr_filter, R|exact S]. Qed.
Lemma compared_at cmp a ps a' l r : compat ps -> compared cmp a ps a' -> In (l, r) ps ->
  nth l a' [] = (if cmp (nth l a []) (nth r a []) then nth l a [] else nth r a []) /\
  nth r a' [] = (if cmp (nth l a []) (nth r a []) then nth r a [] else nth l a []).
Proof.
  intros [C1 [C2 C3]] [S1 [S2 S3]] I. destruct (cmp (nth l a []) (nth r a [])) eqn:E.
  - assert (NI : forall x y, In (x, y) (filter (fun p => negb (cmp (nth (fst p) a []) (nth (snd p) a []))) ps) -> In (x, y) ps /\ (x, y) <> (l, r)).
    { intros x y J. apply filter_In in J. cbn in J. destruct J as [J1 J2]. split; [exact J1|]. intros Q. injection Q as -> ->. rewrite E in J2. discriminate. }
    assert (U : forall x y, In (x, y) ps -> (x, y) <> (l, r) -> x <> l /\ y <> r).
    { intros x y J N. split; intros Q; apply N; subst.
      - destruct (In_nth _ _ (0, 0) I) as [j [J1 J2]]. destruct (In_nth _ _ (0, 0) J) as [j' [J1' J2']].
        assert (j = j'). { apply (proj1 (NoDup_nth (map fst ps) (fst (0, 0))) C1); rewrite ?map_length; auto. now rewrite !map_nth, J2, J2'. }
        subst. congruence.
      - destruct (In_nth _ _ (0, 0) I) as [j [J1 J2]]. destruct (In_nth _ _ (0, 0) J) as [j' [J1' J2']].
        assert (j = j'). { apply (proj1 (NoDup_nth (map snd ps) (snd (0, 0))) C2); rewrite ?map_length; auto. now rewrite !map_nth, J2, J2'. }
        subst. congruence. }
    split; apply S3; intros J.
    + apply in_fst in J. destruct J as [y J]. apply NI in J. destruct J as [J N]. apply (U _ _ J) in N. lia.
    + apply in_snd in J. destruct J as [x J]. apply NI in J. destruct J as [J N]. pose proof (C3 _ _ _ _ I J eq_refl). pose proof (U _ _ J N). lia.
    + apply in_fst in J. destruct J as [y J]. apply NI in J. destruct J as [J N]. pose proof (C3 _ _ _ _ J I eq_refl). pose proof (U _ _ J N). lia.
    + apply in_snd in J. destruct J as [x J]. apply NI in J. destruct J as [J N]. apply (U _ _ J) in N. lia.
  - apply S2. apply filter_In. split; [exact I|]. cbn. now rewrite E.
Qed.
Lemma compared_out cmp a ps a' i : compared cmp a ps a' -> ~ In i (map fst ps) -> ~ In i (map snd ps) -> nth i a' [] = nth i a [].
Proof.
  intros [_ [_ S3]] N1 N2. apply S3; intros J; [apply N1|apply N2]; apply in_map_iff in J; destruct J as [p [<- J]]; apply filter_In in J; apply in_map; tauto.
Qed.

(* ---- the two ways the code performs a layer ---- *)
Lemma other_row_ok k f s c : Forall (word k) f -> Forall (word k) s -> length f = length s -> other_row k f s (if c : bool then f else s) = if c then s else f.
Proof.
  unfold other_row. intros Wf. revert s. induction Wf as [|x f Hx _ IH]; intros [|y s] Ws L; try discriminate; [now destruct c|].
  inversion Ws as [|? ? Hy Ws']; subst. injection L as L. specialize (IH s Ws' L).
  destruct c; cbn [zipWith]; rewrite IH; f_equal; unfold rsub, radd; rewrite wrap_sub_l.
  - replace (x + y - x)%Z with y by lia. apply wrap_small. exact Hy.
  - replace (x + y - y)%Z with x by lia. apply wrap_small. exact Hx.
Qed.
Lemma table_nth k w (a : list row) i : table k w a -> i < length a -> length (nth i a []) = w /\ Forall (word k) (nth i a []).
Proof. intros T H. unfold table in T. rewrite Forall_forall in T. apply (T (nth i a [])). now apply nth_In. Qed.
Lemma cmp_swap_ok k w cmp (a : list row) ps : table k w a -> compat ps -> inr (length a) ps -> exists a', cmp_swap k cmp a ps = Ok a' /\ compared cmp a ps a'.
Proof.
  intros T C R. unfold cmp_swap. rewrite !gather_ok; cbn [rbind]; [|intros i I; apply in_snd in I; destruct I as [l I]; now apply R in I|intros i I; apply in_fst in I; destruct I as [l I]; now apply R in I].
  set (g := fun p : nat * nat => if cmp (nth (fst p) a []) (nth (snd p) a []) then nth (fst p) a [] else nth (snd p) a []).
  set (h := fun p : nat * nat => if cmp (nth (fst p) a []) (nth (snd p) a []) then nth (snd p) a [] else nth (fst p) a []).
  assert (E1 : zipWith (fun f s : row => if cmp f s then f else s) (map (fun i => nth i a []) (map fst ps)) (map (fun i => nth i a []) (map snd ps)) = map g ps).
  { clear. unfold g. induction ps as [|p ps IH]; [reflexivity|]. cbn [map zipWith]. now rewrite IH. }
  rewrite E1.
  assert (E2 : zipWith (fun f '(s, g) => other_row k f s g) (map (fun i => nth i a []) (map fst ps)) (combine (map (fun i => nth i a []) (map snd ps)) (map g ps)) = map h ps).
  { clear C E1. induction ps as [|[l r] ps IH]; [reflexivity|]. cbn [map zipWith combine fst snd]. rewrite IH by (intros ? ? ?; apply R; now right). f_equal.
    unfold g, h. cbn [fst snd]. destruct (R l r (or_introl eq_refl)) as [Hl Hr].
    destruct (table_nth _ _ _ _ T Hl). destruct (table_nth _ _ _ _ T Hr). apply other_row_ok; auto. congruence. }
  rewrite E2.
  (* scatter2 with the roles of the two ends exchanged *)
  set (qs := map (fun p : nat * nat => (snd p, fst p)) ps).
  assert (Q1 : map fst qs = map snd ps) by (unfold qs; rewrite map_map; apply map_ext; auto).
  assert (Q2 : map snd qs = map fst ps) by (unfold qs; rewrite map_map; apply map_ext; auto).
  assert (Q3 : forall l r, In (l, r) qs <-> In (r, l) ps).
  { intros l r. unfold qs. rewrite in_map_iff. split; [intros [[x y] [Q I]]; cbn in Q; now injection Q as <- <-|intros I; now exists (r, l)]. }
  assert (Cq : compat qs).
  { destruct C as [C1 [C2 C3]]. repeat split; [now rewrite Q1|now rewrite Q2|]. intros l r l' r' I I' ->. apply Q3 in I, I'.
    symmetry. assert (X : r' = l') by (eapply C3; eauto). subst l'.
    destruct (In_nth _ _ (0, 0) I) as [j [J1 J2]]. destruct (In_nth _ _ (0, 0) I') as [j' [J1' J2']].
    assert (j = j'). { apply (proj1 (NoDup_nth (map snd ps) (snd (0, 0))) C2); rewrite ?map_length; auto. now rewrite !map_nth, J2, J2'. }
    subst. rewrite J2 in J2'. now injection J2'. }
  assert (Rq : inr (length a) qs) by (intros l r I; apply Q3, R in I; lia).
  destruct (scatter2 a qs (fun p => g (snd p, fst p)) (fun p => h (snd p, fst p)) Cq Rq) as [a' [F1 [F2 [F3 F4]]]].
  { intros l r _ ->. unfold g, h. cbn [fst snd]. now destruct (cmp _ _). }
  rewrite Q1, Q2 in F1. unfold qs in F1. rewrite !map_map in F1. cbn [fst snd] in F1.
  rewrite (map_ext (fun p => g (fst p, snd p)) g) in F1 by (now intros []). rewrite (map_ext (fun p => h (fst p, snd p)) h) in F1 by (now intros []).
  exists a'. split; [exact F1|]. split; [exact F2|]. split.
  - intros l r I. apply filter_In in I. destruct I as [I1 I2]. cbn [fst snd] in I2. apply Q3 in I1. apply F3 in I1. cbn [fst snd] in I1. unfold g, h in I1. cbn [fst snd] in I1.
    destruct (cmp (nth l a []) (nth r a [])); [discriminate|exact I1].
  - intros i N1 N2. destruct (in_dec Nat.eq_dec i (map fst ps)) as [I|I].
    { apply in_fst in I. destruct I as [r I]. assert (I' := I). apply Q3 in I'. apply F3 in I'. cbn [fst snd] in I'. unfold g, h in I'. cbn [fst snd] in I'.
      destruct (cmp (nth i a []) (nth r a [])) eqn:E; [tauto|]. exfalso. apply N1. apply in_map_iff. exists (i, r). split; [reflexivity|]. apply filter_In. split; [exact I|]. cbn. now rewrite E. }
    destruct (in_dec Nat.eq_dec i (map snd ps)) as [J|J].
    { apply in_snd in J. destruct J as [l J]. assert (I' := J). apply Q3 in I'. apply F3 in I'. cbn [fst snd] in I'. unfold g, h in I'. cbn [fst snd] in I'.
      destruct (cmp (nth l a []) (nth i a [])) eqn:E; [tauto|]. exfalso. apply N2. apply in_map_iff. exists (l, i). split; [reflexivity|]. apply filter_In. split; [exact J|]. cbn. now rewrite E. }
    apply F4; [now rewrite Q1|now rewrite Q2].
Qed.
Lemma reveal_swap_ok cmp a ps : compat ps -> inr (length a) ps -> exists a', reveal_swap cmp a ps = Ok a' /\ compared cmp a ps a'.
Proof.
  intros C R. unfold reveal_swap. destruct ps as [|p ps']; [exists a; split; [reflexivity|]; repeat split; easy|]. set (ps := p :: ps') in *.
  rewrite !gather_ok; cbn [rbind]; [|intros i I; apply in_snd in I; destruct I as [l I]; now apply R in I|intros i I; apply in_fst in I; destruct I as [l I]; now apply R in I].
  assert (E : map fst (filter (fun '(_, b) => negb b) (combine ps (zipWith cmp (map (fun i => nth i a []) (map fst ps)) (map (fun i => nth i a []) (map snd ps))))) =
    filter (fun p => negb (cmp (nth (fst p) a []) (nth (snd p) a []))) ps).
  { clear. induction ps as [|q ps IH]; [reflexivity|]. cbn [map zipWith combine filter]. destruct (cmp (nth (fst q) a []) (nth (snd q) a [])); cbn [negb map fst]; now rewrite IH. }
  rewrite E. apply swap_rows_ok; [now apply compat_filter|now apply inr_filter].
Qed.
