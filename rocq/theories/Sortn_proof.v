(* Correctness of the odd-even merge network: merging of 0/1 sequences, then the 0-1 principle. *)
From Coq Require Import ZifyBool ZifyNat ZifyN.
From Verif Require Import Base Ring_model Party Ring_spec Prg_model Perm_model Perm_proof Sort_model Sort_spec Sort_proof.
Open Scope nat_scope.

(* one layer on an unbounded 0/1 sequence *)
Definition blayer (gap step : nat) (x : nat -> bool) (i : nat) : bool :=
  if lhsb gap step i then x i && x (i + step)
  else if (step <=? i) && lhsb gap step (i - step) then x (i - step) || x i else x i.

(* elements of class r modulo s among alpha leading ones *)
Definition cnt (al r s : nat) : nat := (al + s - 1 - r) / s.
Definition merging (p s : nat) (al be : nat -> nat) (x : nat -> bool) : Prop :=
  forall b r q, r < s -> q * s < 2 * p -> x (2 * p * b + r + s * q) = (cnt (al b) r s + cnt (be b) r s <=? q).

Lemma cnt_halves al r s : r < s -> exists v, cnt al r (2 * s) = v / 2 /\ cnt al (r + s) (2 * s) = (v - 1) / 2 /\ cnt al r s = v - 1 /\ 1 <= v.
Proof.
  intros H. unfold cnt. exists ((al + 2 * s - 1 - r) / s). set (u := al + 2 * s - 1 - r).
  assert (U : s <= u) by (unfold u; lia).
  assert (D : (u - s) / s = u / s - 1).
  { pose proof (Nat.div_mod_eq u s). pose proof (Nat.mod_upper_bound u s ltac:(lia)).
    assert (1 <= u / s) by (apply Nat.div_le_lower_bound; lia).
    symmetry. apply Nat.div_unique with (r := u mod s); nia. }
  repeat split.
  - rewrite (Nat.mul_comm 2 s). now rewrite Nat.div_div by lia.
  - replace (al + 2 * s - 1 - (r + s)) with (u - s) by (unfold u; lia). rewrite (Nat.mul_comm 2 s), <- Nat.div_div by lia. now rewrite D.
  - replace (al + s - 1 - r) with (u - s) by (unfold u; lia). exact D.
  - apply Nat.div_le_lower_bound; lia.
Qed.
Lemma cnt_le al r s h : 0 < s -> r < s -> al <= s * h -> cnt al r s <= h.
Proof. intros S R H. unfold cnt. apply Nat.lt_succ_r. apply Nat.div_lt_upper_bound; [lia|]. nia. Qed.

Lemma idx_div s b r q h : 0 < s -> r < s -> (s * (2 * h) * b + r + s * q) / s = 2 * h * b + q.
Proof. intros S R. replace (s * (2 * h) * b + r + s * q) with (r + (2 * h * b + q) * s) by lia. now apply div_add_mul. Qed.
Lemma idx_blk s b r q h : 0 < s -> r < s -> q < 2 * h -> (s * (2 * h) * b + r + s * q) / (s * h + s * h) = b.
Proof. intros S R Q. replace (s * (2 * h) * b + r + s * q) with (r + s * q + b * (s * h + s * h)) by lia. apply div_add_mul; nia. Qed.

(* one layer halves the step *)
Lemma merging_step s h' al be x : 0 < s -> 0 < h' ->
  let h := 2 * h' in let p := s * h in
  (forall b, al b <= p) -> (forall b, be b <= p) -> merging p (2 * s) al be x -> merging p s al be (blayer p s x).
Proof.
  intros S0 H0 h p A B M b r q R Q.
  assert (Qh : q < 2 * h) by (unfold p in Q; nia).
  destruct (cnt_halves (al b) r s R) as [v [V1 [V2 [V3 V4]]]]. destruct (cnt_halves (be b) r s R) as [w [W1 [W2 [W3 W4]]]].
  assert (La : cnt (al b) r (2 * s) <= h') by (apply cnt_le; try lia; specialize (A b); unfold p, h in A; lia).
  assert (Lb : cnt (be b) r (2 * s) <= h') by (apply cnt_le; try lia; specialize (B b); unfold p, h in B; lia).
  assert (X0 : forall m, m < h -> x (2 * p * b + r + s * (2 * m)) = (v / 2 + w / 2 <=? m)).
  { intros m Hm. pose proof (M b r m ltac:(lia) ltac:(unfold p; nia)) as E. rewrite V1, W1 in E. rewrite <- E. f_equal. lia. }
  assert (X1 : forall m, m < h -> x (2 * p * b + r + s * (2 * m + 1)) = ((v - 1) / 2 + (w - 1) / 2 <=? m)).
  { intros m Hm. pose proof (M b (r + s) m ltac:(lia) ltac:(unfold p; nia)) as E. rewrite V2, W2 in E. rewrite <- E. f_equal. lia. }
  rewrite V1 in La. rewrite W1 in Lb. rewrite V3, W3.
  assert (P2 : 2 * p = s * (2 * h)) by (unfold p; lia).
  assert (LH : forall q', q' < 2 * h -> lhsb p s (2 * p * b + r + s * q') = Nat.odd q' && (S q' <? 2 * h)).
  { intros q' Hq. unfold lhsb. assert (s =? p = false) as -> by (apply Nat.eqb_neq; unfold p, h; nia).
    rewrite P2, idx_div by lia. replace (2 * h * b + q') with (q' + 2 * (h * b)) by lia. rewrite Nat.odd_add_mul_2. f_equal.
    unfold p at 1 2. rewrite idx_blk by lia. destruct (Nat.ltb_spec (S q') (2 * h)) as [G|G].
    - replace (s * (2 * h) * b + r + s * q' + s) with (s * (2 * h) * b + r + s * S q') by lia. unfold p. rewrite idx_blk by lia. apply Nat.eqb_refl.
    - replace (s * (2 * h) * b + r + s * q' + s) with (s * (2 * h) * S b + r + s * 0) by nia. unfold p. rewrite idx_blk by lia. apply Nat.eqb_neq. lia. }
  unfold blayer. rewrite LH by exact Qh. destruct (Nat.Even_or_Odd q) as [[m ->]|[m ->]].
  - assert (Nat.odd (2 * m) = false) as -> by (rewrite Nat.odd_mul; reflexivity). cbn [andb].
    destruct m as [|m].
    + (* no comparison at the first position of a block *)
      assert (N : (s <=? 2 * p * b + r + s * (2 * 0)) && lhsb p s (2 * p * b + r + s * (2 * 0) - s) = false).
      { destruct (Nat.leb_spec s (2 * p * b + r + s * (2 * 0))) as [G|G]; [|reflexivity]. cbn [andb].
        destruct b as [|b']; [lia|].
        replace (2 * p * S b' + r + s * (2 * 0) - s) with (2 * p * b' + r + s * (2 * h - 1)) by (rewrite P2; nia).
        unfold lhsb. assert (s =? p = false) as -> by (apply Nat.eqb_neq; unfold p, h; nia).
        apply andb_false_iff. right. apply Nat.eqb_neq. rewrite P2. unfold p. rewrite idx_blk by lia.
        replace (s * (2 * h) * b' + r + s * (2 * h - 1) + s) with (s * (2 * h) * S b' + r + s * 0) by nia. rewrite idx_blk by lia. lia. }
      rewrite N. rewrite X0 by lia. apply eq_true_iff_eq. rewrite !Nat.leb_le. lia.
    + assert (N : (s <=? 2 * p * b + r + s * (2 * S m)) && lhsb p s (2 * p * b + r + s * (2 * S m) - s) = true).
      { apply andb_true_iff. split; [apply Nat.leb_le; nia|].
        replace (2 * p * b + r + s * (2 * S m) - s) with (2 * p * b + r + s * (2 * m + 1)) by nia. rewrite LH by lia.
        rewrite odd_2c1. apply Nat.ltb_lt. lia. }
      rewrite N. replace (2 * p * b + r + s * (2 * S m) - s) with (2 * p * b + r + s * (2 * m + 1)) by nia.
      rewrite X0, X1 by lia. apply eq_true_iff_eq. rewrite orb_true_iff, !Nat.leb_le. lia.
  - rewrite odd_2c1. cbn [andb]. destruct (Nat.ltb_spec (S (2 * m + 1)) (2 * h)) as [G|G].
    + replace (2 * p * b + r + s * (2 * m + 1) + s) with (2 * p * b + r + s * (2 * S m)) by lia. rewrite X1, X0 by lia.
      apply eq_true_iff_eq. rewrite andb_true_iff, !Nat.leb_le. lia.
    + assert (N : (s <=? 2 * p * b + r + s * (2 * m + 1)) && lhsb p s (2 * p * b + r + s * (2 * m + 1) - s) = false).
      { apply andb_false_iff. right. replace (2 * p * b + r + s * (2 * m + 1) - s) with (2 * p * b + r + s * (2 * m)) by nia. rewrite LH by lia.
        rewrite Nat.odd_mul. reflexivity. }
      rewrite N. rewrite X1 by lia. apply eq_true_iff_eq. rewrite !Nat.leb_le. lia.
Qed.

(* the first layer of a merge *)
Definition halves (p : nat) (al be : nat -> nat) (x : nat -> bool) : Prop :=
  forall b r, r < p -> x (2 * p * b + r) = (al b <=? r) /\ x (2 * p * b + p + r) = (be b <=? r).
Lemma cnt_full al r p : r < p -> al <= p -> cnt al r p = if al <=? r then 0 else 1.
Proof.
  intros R A. unfold cnt. destruct (Nat.leb_spec al r) as [G|G].
  - apply Nat.div_small. lia.
  - symmetry. apply Nat.div_unique with (r := al - 1 - r); lia.
Qed.
Lemma merging_first p al be x : 0 < p -> (forall b, al b <= p) -> (forall b, be b <= p) -> halves p al be x -> merging p p al be (blayer p p x).
Proof.
  intros P A B H b r q R Q. assert (q < 2) by nia. unfold blayer, lhsb. rewrite Nat.eqb_refl.
  rewrite !cnt_full by auto. destruct (H b r R) as [K0 K1].
  assert (D : forall c, (2 * p * b + r + p * c) / p = c + 2 * b).
  { intros c. replace (2 * p * b + r + p * c) with (r + (c + 2 * b) * p) by lia. now apply div_add_mul. }
  rewrite D. rewrite Nat.even_add_mul_2. destruct q as [|[|]]; [| |lia]; cbn [Nat.even].
  - replace (2 * p * b + r + p * 0 + p) with (2 * p * b + p + r) by lia. replace (2 * p * b + r + p * 0) with (2 * p * b + r) by lia. rewrite K0, K1.
    destruct (al b <=? r), (be b <=? r); reflexivity.
  - replace (2 * p * b + r + p * 1 - p) with (2 * p * b + r + p * 0) by lia. rewrite D, Nat.even_add_mul_2. cbn [Nat.even].
    assert (p <=? 2 * p * b + r + p * 1 = true) as -> by (apply Nat.leb_le; lia). cbn [andb].
    replace (2 * p * b + r + p * 0) with (2 * p * b + r) by lia. replace (2 * p * b + r + p * 1) with (2 * p * b + p + r) by lia. rewrite K0, K1.
    destruct (al b <=? r), (be b <=? r); reflexivity.
Qed.

(* the layers of one stage *)
Fixpoint bsteps (fuel gap step : nat) (x : nat -> bool) : nat -> bool :=
  match fuel with
  | O => x
  | S f => if 0 <? step then bsteps f gap (step / 2) (blayer gap step x) else x
  end.
Lemma pow2_half u : 2 ^ S u / 2 = 2 ^ u.
Proof. cbn [Nat.pow]. rewrite Nat.mul_comm. now apply Nat.div_mul. Qed.
Lemma blayer_ext g s x y : (forall i, x i = y i) -> forall i, blayer g s x i = blayer g s y i.
Proof. intros H i. unfold blayer. now rewrite !H. Qed.
Lemma bsteps_merge : forall u t fuel x al be, u < t -> u < fuel ->
  (forall b, al b <= 2 ^ t) -> (forall b, be b <= 2 ^ t) -> merging (2 ^ t) (2 ^ S u) al be x -> merging (2 ^ t) 1 al be (bsteps fuel (2 ^ t) (2 ^ u) x).
Proof.
  induction u as [|u IH]; intros t [|f] x al be U F A B M; try lia; cbn [bsteps].
  - cbn [Nat.pow]. cbn [Nat.ltb Nat.leb]. assert (E : 1 / 2 = 0) by reflexivity. rewrite E.
    assert (Z0 : forall z, bsteps f (2 ^ t) 0 z = z) by (intros z; destruct f; reflexivity). rewrite Z0.
    destruct t as [|t]; [lia|]. pose proof (merging_step 1 (2 ^ t) al be x ltac:(lia)) as H. cbn zeta in H.
    replace (1 * (2 * 2 ^ t)) with (2 ^ S t) in H by (cbn [Nat.pow]; lia).
    apply H; auto. apply Nat.neq_0_lt_0. now apply Nat.pow_nonzero.
  - assert (0 <? 2 ^ S u = true) as -> by (apply Nat.ltb_lt, Nat.neq_0_lt_0; now apply Nat.pow_nonzero).
    rewrite pow2_half. apply IH; auto; try lia.
    assert (E : 2 ^ t = 2 ^ S u * (2 * 2 ^ (t - S (S u)))).
    { transitivity (2 ^ (S (S u) + (t - S (S u)))); [f_equal; lia|]. rewrite Nat.pow_add_r. change (2 ^ S (S u)) with (2 * 2 ^ S u). lia. }
    rewrite E in *. apply merging_step; auto; try (apply Nat.neq_0_lt_0; now apply Nat.pow_nonzero).
Qed.
Lemma stage_merges t al be x : (forall b, al b <= 2 ^ t) -> (forall b, be b <= 2 ^ t) -> halves (2 ^ t) al be x ->
  forall b q, q < 2 * 2 ^ t -> bsteps (S (2 ^ t)) (2 ^ t) (2 ^ t) x (2 * 2 ^ t * b + q) = (al b + be b <=? q).
Proof.
  intros A B H b q Q. assert (P : 0 < 2 ^ t) by (apply Nat.neq_0_lt_0; now apply Nat.pow_nonzero).
  assert (M : merging (2 ^ t) 1 al be (bsteps (S (2 ^ t)) (2 ^ t) (2 ^ t) x)).
  { cbn [bsteps]. assert (0 <? 2 ^ t = true) as -> by (now apply Nat.ltb_lt).
    pose proof (merging_first (2 ^ t) al be x P A B H) as M1. destruct t as [|t].
    - exact M1.
    - rewrite pow2_half. apply bsteps_merge; auto. clear. induction t; cbn [Nat.pow] in *; lia. }
  specialize (M b 0 q ltac:(lia) ltac:(lia)). replace (2 * 2 ^ t * b + 0 + 1 * q) with (2 * 2 ^ t * b + q) in M by lia. rewrite M.
  unfold cnt. now rewrite !Nat.div_1_r, !Nat.sub_0_r, !Nat.add_sub.
Qed.
Fixpoint bstages (fuel n gap : nat) (x : nat -> bool) : nat -> bool :=
  match fuel with
  | O => x
  | S f => if gap <? n then bstages f n (gap + gap) (bsteps (S gap) gap gap x) else x
  end.
Definition blocks (p : nat) (x : nat -> bool) : Prop := exists ga, (forall b, ga b <= p) /\ forall b r, r < p -> x (p * b + r) = (ga b <=? r).
Lemma stages_sort : forall fuel t n x, n <= fuel + 2 ^ t -> blocks (2 ^ t) x -> exists t', n <= 2 ^ t' /\ blocks (2 ^ t') (bstages fuel n (2 ^ t) x).
Proof.
  induction fuel as [|f IH]; intros t n x F B; cbn [bstages]; [exists t; split; [lia|exact B]|].
  destruct (Nat.ltb_spec (2 ^ t) n) as [G|G]; [|exists t; split; [lia|exact B]].
  assert (P : 0 < 2 ^ t) by (apply Nat.neq_0_lt_0; now apply Nat.pow_nonzero).
  replace (2 ^ t + 2 ^ t) with (2 ^ S t) by (cbn [Nat.pow]; lia). apply IH; [cbn [Nat.pow]; lia|].
  destruct B as [ga [G1 G2]]. exists (fun b => ga (2 * b) + ga (2 * b + 1)). split.
  - intros b. pose proof (G1 (2 * b)). pose proof (G1 (2 * b + 1)). cbn [Nat.pow]. lia.
  - intros b r R. cbn [Nat.pow] in R |- *. replace (2 * 2 ^ t * b + r) with (2 * 2 ^ t * b + r) by lia.
    apply (stage_merges t (fun b => ga (2 * b)) (fun b => ga (2 * b + 1)) x); auto.
    intros b' r' R'. split; [rewrite <- G2 by auto; f_equal; lia|]. rewrite <- G2 by auto. f_equal. lia.
Qed.
Theorem network_sorts_bool n x : exists P ga, n <= P /\ forall r, r < P -> bstages n n 1 x r = (ga <=? r).
Proof.
  destruct (stages_sort n 0 n x) as [t [H1 [ga [_ H2]]]]; [lia| |].
  - exists (fun b => if x b then 0 else 1). split; [intros b; destruct (x b); lia|]. intros b r R. cbn in R. assert (r = 0) as -> by lia.
    cbn [Nat.pow]. replace (1 * b + 0) with b by lia. now destruct (x b).
  - exists (2 ^ t), (ga 0). split; [exact H1|]. intros r R. specialize (H2 0 r R). now rewrite Nat.mul_0_r in H2.
Qed.

(* ---- the 0-1 principle ---- *)
Section Principle.
Variable le : row -> row -> bool.
Hypothesis TP : total_preorder le.
(* a run of a network: every layer is performed by some right comparison *)
Inductive runs : list row -> list (list (nat * nat)) -> list row -> Prop :=
| runs_nil a : runs a [] a
| runs_cons cmp a ps a1 ls a2 : decides le cmp -> compared cmp a ps a1 -> runs a1 ls a2 -> runs a (ps :: ls) a2.
Lemma runs_app l1 : forall a l2 b, runs a (l1 ++ l2) b -> exists m, runs a l1 m /\ runs m l2 b.
Proof.
  induction l1 as [|ps l1 IH]; intros a l2 b H; cbn in H.
  - exists a. split; [constructor|exact H].
  - inversion H; subst. destruct (IH _ _ _ H6) as [m [M1 M2]]. exists m. split; [econstructor; eauto|exact M2].
Qed.
Lemma runs_length a ls b : runs a ls b -> length b = length a.
Proof. induction 1 as [|? ? ? ? ? ? _ H1 _ IH]; [reflexivity|]. destruct H1 as [H1 _]. congruence. Qed.
Lemma runs_perm a ls b : (forall ps, In ps ls -> compat ps /\ inr (length a) ps) -> runs a ls b -> Permutation a b.
Proof.
  intros C H. induction H as [|cmp a ps a1 ls a2 D H1 H2 IH]; [apply Permutation_refl|].
  destruct (C ps (or_introl eq_refl)) as [C1 C2]. rewrite (compared_perm _ _ _ _ C1 C2 H1). apply IH.
  intros qs I. destruct H1 as [H1 _]. rewrite H1. apply C. now right.
Qed.

Variable f : row -> bool.
Hypothesis mono : forall x y, le x y = true -> f x = true -> f y = true.
Definition image (n : nat) (a : list row) (i : nat) : bool := if i <? n then f (nth i a []) else true.

Lemma layer_image n cmp0 a gap step a' : decides le cmp0 -> 0 < step <= gap -> length a = n -> compared cmp0 a (net_pairs n gap step) a' ->
  forall i, image n a' i = blayer gap step (image n a) i.
Proof.
  intros D S L C i. destruct (net_compat n gap step S) as [NC NR].
  assert (FA : forall x y, f (if cmp0 x y then x else y) = f x && f y /\ f (if cmp0 x y then y else x) = f x || f y).
  { intros x y. destruct (D x y) as [D1 D2]. destruct (cmp0 x y).
    - specialize (mono x y (D1 eq_refl)). destruct (f x), (f y); cbn; split; auto; try (symmetry; apply mono; auto).
    - specialize (mono y x (D2 eq_refl)). destruct (f x), (f y); cbn; split; auto; try (symmetry; apply mono; auto). }
  unfold blayer. destruct (lhsb gap step i) eqn:E.
  - assert (NS : ~ In i (map snd (net_pairs n gap step))).
    { intros I. apply in_snd in I. destruct I as [l I]. apply net_pairs_in in I; auto. destruct I as [-> [_ I]]. apply (lhsb_exclusive gap step l S) in I. congruence. }
    unfold image. destruct (Nat.ltb_spec (i + step) n) as [G|G].
    + assert (i <? n = true) as -> by (apply Nat.ltb_lt; lia).
      destruct (compared_at cmp0 a _ a' i (i + step) NC C) as [C1 _]; [apply net_pairs_in; auto|]. rewrite C1. apply FA.
    + rewrite andb_true_r. destruct (i <? n) eqn:Q; [|reflexivity]. f_equal. eapply compared_out; eauto.
      intros I. apply in_fst in I. destruct I as [r I]. apply net_pairs_in in I; auto. lia.
  - destruct (Nat.leb_spec step i) as [G|G]; cbn [andb].
    + destruct (lhsb gap step (i - step)) eqn:E'; cbn [andb].
      * unfold image. destruct (Nat.ltb_spec i n) as [Q|Q].
        -- assert (i - step <? n = true) as -> by (apply Nat.ltb_lt; lia).
           destruct (compared_at cmp0 a _ a' (i - step) i NC C) as [_ C1]; [apply net_pairs_in; auto; repeat split; auto; lia|]. rewrite C1. apply FA.
        -- now rewrite orb_true_r.
      * unfold image. destruct (i <? n); [|reflexivity]. f_equal. eapply compared_out; eauto; intros I.
        -- apply in_fst in I. destruct I as [r I]. apply net_pairs_in in I; auto. destruct I as [_ [_ I]]. congruence.
        -- apply in_snd in I. destruct I as [l I]. apply net_pairs_in in I; auto. destruct I as [-> [_ I]]. rewrite Nat.add_sub in E'. congruence.
    + unfold image. destruct (i <? n); [|reflexivity]. f_equal. eapply compared_out; eauto; intros I.
      * apply in_fst in I. destruct I as [r I]. apply net_pairs_in in I; auto. destruct I as [_ [_ I]]. congruence.
      * apply in_snd in I. destruct I as [l I]. apply net_pairs_in in I; auto. lia.
Qed.
Lemma bsteps_ext : forall fuel g s x y, (forall i, x i = y i) -> forall i, bsteps fuel g s x i = bsteps fuel g s y i.
Proof. induction fuel as [|fu IH]; intros g s x y H i; cbn [bsteps]; [apply H|]. destruct (0 <? s); [|apply H]. apply IH. now apply blayer_ext. Qed.
Lemma bstages_ext : forall fuel n g x y, (forall i, x i = y i) -> forall i, bstages fuel n g x i = bstages fuel n g y i.
Proof. induction fuel as [|fu IH]; intros n g x y H i; cbn [bstages]; [apply H|]. destruct (g <? n); [|apply H]. apply IH. now apply bsteps_ext. Qed.

Lemma steps_image n gap : forall fuel step a b, 0 < gap -> step <= gap -> length a = n -> runs a (net_steps fuel n gap step) b ->
  forall i, image n b i = bsteps fuel gap step (image n a) i.
Proof.
  induction fuel as [|fu IH]; intros step a b G S L R i; cbn [net_steps bsteps] in *; [inversion R; subst; reflexivity|].
  destruct (Nat.ltb_spec 0 step) as [S0|S0]; [|inversion R; subst; reflexivity].
  inversion R as [|cmp0 ? ? a1 ? ? D C R']; subst. rewrite (IH (step / 2) a1 b); auto.
  - apply bsteps_ext. intros j. eapply layer_image; eauto.
  - transitivity step; [|exact S]. apply Nat.div_le_upper_bound; lia.
  - destruct C as [C _]. exact C.
Qed.
Lemma stages_image n : forall fuel gap a b, 0 < gap -> length a = n -> runs a (net_stages fuel n gap) b ->
  forall i, image n b i = bstages fuel n gap (image n a) i.
Proof.
  induction fuel as [|fu IH]; intros gap a b G L R i; cbn [net_stages bstages] in *; [inversion R; subst; reflexivity|].
  destruct (Nat.ltb_spec gap n) as [S0|S0]; [|inversion R; subst; reflexivity].
  apply runs_app in R. destruct R as [m [R1 R2]]. rewrite (IH (gap + gap) m b); auto; [|lia|now rewrite (runs_length _ _ _ R1)].
  apply bstages_ext. intros j. eapply steps_image; eauto.
Qed.
End Principle.

Lemma net_steps_in n gap : forall fuel step ps, 0 < gap -> step <= gap -> In ps (net_steps fuel n gap step) -> compat ps /\ inr n ps.
Proof.
  induction fuel as [|fu IH]; intros step ps G S I; cbn [net_steps] in I; [easy|]. destruct (Nat.ltb_spec 0 step) as [S0|S0]; [|easy].
  destruct I as [<-|I]; [apply net_compat; lia|]. apply (IH (step / 2)); auto. transitivity step; [|exact S]. apply Nat.div_le_upper_bound; lia.
Qed.
Lemma net_stages_in n : forall fuel gap ps, 0 < gap -> In ps (net_stages fuel n gap) -> compat ps /\ inr n ps.
Proof.
  induction fuel as [|fu IH]; intros gap ps G I; cbn [net_stages] in I; [easy|]. destruct (gap <? n); [|easy].
  apply in_app_iff in I. destruct I as [I|I]; [apply (net_steps_in n gap (S gap) gap); auto|]. apply (IH (gap + gap)); auto. lia.
Qed.
Lemma layers_in n ps : In ps (layers n) -> compat ps /\ inr n ps.
Proof. apply net_stages_in. lia. Qed.

Theorem runs_sorts le a b : total_preorder le -> runs le a (layers (length a)) b -> sorting_of le a b.
Proof.
  intros [TT TR] R. split.
  - eapply runs_perm; eauto. apply layers_in.
  - intros i j x y IJ Hx Hy. destruct (le x y) eqn:E; [reflexivity|exfalso].
    (* observe the run through "does not stand before or beside y" *)
    set (f := fun z => negb (le z y)).
    assert (mono : forall u v, le u v = true -> f u = true -> f v = true).
    { intros u v H. unfold f. rewrite !negb_true_iff. intros H1. destruct (le v y) eqn:Q; [|reflexivity]. now rewrite (TR u v y H Q) in H1. }
    pose proof (runs_length _ _ _ _ R) as L.
    assert (J : j < length b) by (apply nth_error_Some; congruence).
    pose proof (stages_image le f mono (length a) (length a) 1 a b ltac:(lia) eq_refl R) as IM.
    destruct (network_sorts_bool (length a) (image f (length a) a)) as [P [ga [HP HS]]].
    assert (Ii := IM i). assert (Ij := IM j). rewrite HS in Ii, Ij by lia. unfold image in Ii, Ij.
    assert (i <? length a = true) as Q1 by (apply Nat.ltb_lt; lia). assert (j <? length a = true) as Q2 by (apply Nat.ltb_lt; lia).
    rewrite Q1 in Ii. rewrite Q2 in Ij. rewrite (row_nth _ _ _ Hx) in Ii. rewrite (row_nth _ _ _ Hy) in Ij. unfold f in Ii, Ij. rewrite E in Ii.
    assert (Ryy : le y y = true) by (destruct (TT y y); auto). rewrite Ryy in Ij. cbn in Ii, Ij. symmetry in Ii, Ij. apply Nat.leb_le in Ii. apply Nat.leb_gt in Ij. lia.
Qed.

Lemma table_perm k w (a b : list row) : Permutation a b -> table k w a -> table k w b.
Proof. intros P T. unfold table. now rewrite <- P. Qed.
Lemma run_layers_runs le k w cmp : decides le cmp -> forall ls (a : list row), table k w a -> (forall ps, In ps ls -> compat ps /\ inr (length a) ps) ->
  exists b, run_layers (cmp_swap k cmp) ls a = Ok b /\ runs le a ls b.
Proof.
  intros D. induction ls as [|ps ls IH]; intros a T C; cbn [run_layers]; [exists a; split; [reflexivity|constructor]|].
  destruct (C ps (or_introl eq_refl)) as [C1 C2]. destruct (cmp_swap_ok k w cmp a ps T C1 C2) as [a1 [E1 E2]]. rewrite E1. cbn [rbind].
  pose proof (compared_perm _ _ _ _ C1 C2 E2) as P.
  destruct (IH a1) as [b [B1 B2]]; [eapply table_perm; eauto|intros qs I; rewrite <- (Permutation_length P); apply C; now right|].
  exists b. split; [exact B1|]. econstructor; eauto.
Qed.
Theorem network_sort_ok le k w cmp (a : list row) : total_preorder le -> decides le cmp -> table k w a -> exists b, odd_even_merge_sort k cmp a = Ok b /\ sorting_of le a b.
Proof.
  intros TP D T. destruct (run_layers_runs le k w cmp D (layers (length a)) a T (layers_in _)) as [b [B1 B2]]. exists b. split; [exact B1|]. now apply runs_sorts.
Qed.
