(* Quicksort and top-k: the loops. *)
From Coq Require Import ZifyBool ZifyNat ZifyN.
From Verif Require Import Base Ring_model Party Ring_spec Prg_model Perm_model Perm_proof Sort_model Sort_spec Sort_proof Sortn_proof Sortq_proof.
Open Scope nat_scope.

Lemma fop_app {A} (R : A -> A -> Prop) l1 l2 : ForallOrdPairs R l1 -> ForallOrdPairs R l2 -> (forall x y, In x l1 -> In y l2 -> R x y) -> ForallOrdPairs R (l1 ++ l2).
Proof.
  induction 1 as [|x l H1 H2 IH]; intros F C; [exact F|]. cbn. constructor.
  - apply Forall_app. split; [exact H1|]. apply Forall_forall. intros y I. apply C; [now left|exact I].
  - apply IH; auto. intros u v I J. apply C; [now right|exact J].
Qed.
Lemma fop_filter {A} (R : A -> A -> Prop) f l : ForallOrdPairs R l -> ForallOrdPairs R (filter f l).
Proof.
  induction 1 as [|x l H1 H2 IH]; [constructor|]. cbn. destruct (f x); [|exact IH]. constructor; [|exact IH].
  apply Forall_forall. intros y I. apply filter_In in I. rewrite Forall_forall in H1. now apply H1.
Qed.
Lemma fop_rev {A} (R : A -> A -> Prop) l : (forall x y, R x y -> R y x) -> ForallOrdPairs R l -> ForallOrdPairs R (rev l).
Proof.
  intros S. induction 1 as [|x l H1 H2 IH]; [constructor|]. cbn. apply fop_app; [exact IH|constructor; constructor|].
  intros u v I [<-|[]]. apply S. rewrite Forall_forall in H1. apply H1. now apply in_rev.
Qed.
Lemma fop_flat_map {A B} (R : B -> B -> Prop) (g : A -> list B) l : (forall x, In x l -> ForallOrdPairs R (g x)) ->
  ForallOrdPairs (fun x y => forall u v, In u (g x) -> In v (g y) -> R u v) l -> ForallOrdPairs R (flat_map g l).
Proof.
  induction l as [|x l IH]; intros H F; cbn; [constructor|]. inversion F as [|? ? F1 F2]; subst. apply fop_app.
  - apply H. now left.
  - apply IH; auto. intros y I. apply H. now right.
  - intros u v I J. apply in_flat_map in J. destruct J as [y [J1 J2]]. rewrite Forall_forall in F1. exact (F1 y J1 u v I J2).
Qed.
Lemma fop_map {A B} (R : B -> B -> Prop) (g : A -> B) l : ForallOrdPairs R (map g l) <-> ForallOrdPairs (fun x y => R (g x) (g y)) l.
Proof.
  induction l as [|x l IH]; cbn; [split; constructor|]. split; intros F; inversion F as [|? ? F1 F2]; subst; constructor; try (now apply IH).
  - apply Forall_forall. intros y I. rewrite Forall_forall in F1. apply F1. now apply in_map.
  - apply Forall_forall. intros y I. apply in_map_iff in I. destruct I as [z [<- I]]. rewrite Forall_forall in F1. now apply F1.
Qed.
Lemma fop_impl {A} (R S : A -> A -> Prop) l : (forall x y, In x l -> In y l -> R x y -> S x y) -> ForallOrdPairs R l -> ForallOrdPairs S l.
Proof.
  intros H F. revert H. induction F as [|x l F1 F2 IH]; intros H; constructor.
  - apply Forall_forall. intros y I. rewrite Forall_forall in F1. apply H; [now left|now right|now apply F1].
  - apply IH. intros u v I J. apply H; now right.
Qed.

(* ---- number of layers ---- *)
Lemma net_steps_length n gap : forall t fuel, t < fuel -> length (net_steps fuel n gap (2 ^ t)) = S t.
Proof.
  induction t as [|t IH]; intros [|f] H; try lia; cbn [net_steps].
  - cbn [Nat.pow Nat.ltb Nat.leb length]. assert (E : 1 / 2 = 0) by reflexivity. rewrite E. destruct f; reflexivity.
  - assert (0 <? 2 ^ S t = true) as -> by (apply Nat.ltb_lt, Nat.neq_0_lt_0; now apply Nat.pow_nonzero). rewrite pow2_half. cbn [length]. rewrite IH by lia. reflexivity.
Qed.
Lemma net_stages_length n : forall fuel t, n <= fuel + 2 ^ t -> t <= Nat.log2_up n -> 2 * length (net_stages fuel n (2 ^ t)) + t * S t = Nat.log2_up n * S (Nat.log2_up n).
Proof.
  assert (Q : forall t, n <= 2 ^ t -> Nat.log2_up n <= t).
  { intros t H. transitivity (Nat.log2_up (2 ^ t)); [now apply Nat.log2_up_le_mono|]. rewrite Nat.log2_up_pow2; lia. }
  induction fuel as [|f IH]; intros t F T; cbn [net_stages].
  - assert (Nat.log2_up n = t) by (specialize (Q t ltac:(lia)); lia). cbn [length]. lia.
  - destruct (Nat.ltb_spec (2 ^ t) n) as [G|G].
    + assert (P : 0 < 2 ^ t) by (apply Nat.neq_0_lt_0; now apply Nat.pow_nonzero).
      assert (TL : t < Nat.log2_up n) by (apply Nat.log2_up_lt_pow2; lia).
      rewrite app_length, net_steps_length by (clear; induction t; cbn [Nat.pow]; [lia|]; lia).
      replace (2 ^ t + 2 ^ t) with (2 ^ S t) by (cbn [Nat.pow]; lia). specialize (IH (S t) ltac:(cbn [Nat.pow]; lia) ltac:(lia)). lia.
    + assert (Nat.log2_up n = t) by (specialize (Q t ltac:(lia)); lia). cbn [length]. lia.
Qed.
Lemma layers_length n : 2 * length (layers n) = Nat.log2_up n * S (Nat.log2_up n).
Proof. unfold layers. pose proof (net_stages_length n n 0 ltac:(lia) ltac:(lia)) as H. cbn [Nat.pow] in H. lia. Qed.
Lemma layers_fit m n : m <= n -> length (layers m) <= (S (log2c n) * log2c n) / 2.
Proof.
  intros H. unfold log2c. pose proof (layers_length m). pose proof (Nat.log2_up_le_mono _ _ H). apply Nat.div_le_lower_bound; [lia|]. nia.
Qed.

(* ---- part of an array ---- *)
Definition sub (lo e : nat) (a : list row) : list row := firstn (e - lo) (skipn lo a).
Lemma sub_length lo e a : lo <= e <= length a -> length (sub lo e a) = e - lo.
Proof. intros H. unfold sub. rewrite firstn_length, skipn_length. lia. Qed.
Lemma nth_firstn_ {A} (l : list A) d : forall m i, i < m -> nth i (firstn m l) d = nth i l d.
Proof. induction l as [|x l IH]; intros [|m] [|i] H; cbn; try lia; auto. apply IH. lia. Qed.
Lemma nth_skipn_ {A} (l : list A) d : forall m i, nth i (skipn m l) d = nth (m + i) l d.
Proof. induction l as [|x l IH]; intros [|m] i; cbn; auto; try (now destruct i); apply IH. Qed.
Lemma sub_nth lo e a i : i < e - lo -> nth i (sub lo e a) [] = nth (lo + i) a [].
Proof. intros H. unfold sub. now rewrite nth_firstn_, nth_skipn_. Qed.
Definition restricts (lo e : nat) (ps qs : list (nat * nat)) : Prop :=
  (forall l r, In (l, r) ps -> inside (lo, e) l \/ inside (lo, e) r -> exists l0 r0, l = l0 + lo /\ r = r0 + lo /\ In (l0, r0) qs) /\
  (forall l0 r0, In (l0, r0) qs -> In (l0 + lo, r0 + lo) ps /\ l0 < e - lo /\ r0 < e - lo).
Lemma swapped_sub lo e a ps a' qs : lo <= e <= length a -> restricts lo e ps qs -> swapped a ps a' -> swapped (sub lo e a) qs (sub lo e a').
Proof.
  intros H [R1 R2] [S1 [S2 S3]]. split; [rewrite !sub_length; lia|]. split.
  - intros l r I. apply R2 in I. destruct I as [I [Hl Hr]]. rewrite !sub_nth by lia. rewrite !(Nat.add_comm lo). now apply S2.
  - intros i N1 N2. destruct (Nat.lt_ge_cases i (e - lo)) as [G|G].
    + rewrite !sub_nth by lia. apply S3; intros J.
      * apply in_fst in J. destruct J as [r J]. destruct (R1 _ _ J) as [l0 [r0 [E1 [E2 J']]]]; [left; unfold inside; cbn; lia|].
        assert (l0 = i) by lia. subst l0. apply N1. apply in_fst. eauto.
      * apply in_snd in J. destruct J as [l J]. destruct (R1 _ _ J) as [l0 [r0 [E1 [E2 J']]]]; [right; unfold inside; cbn; lia|].
        assert (r0 = i) by lia. subst r0. apply N2. apply in_snd. eauto.
    + rewrite !nth_overflow; [reflexivity| |]; rewrite sub_length; lia.
Qed.
Lemma compared_sub cmp lo e a ps a' qs : lo <= e <= length a -> restricts lo e ps qs -> compared cmp a ps a' -> compared cmp (sub lo e a) qs (sub lo e a').
Proof.
  intros H [R1 R2] C. unfold compared in *. eapply swapped_sub; eauto. split.
  - intros l r I K. apply filter_In in I. destruct I as [I F]. cbn [fst snd] in F. destruct (R1 l r I K) as [l0 [r0 [E1 [E2 J]]]]. exists l0, r0. split; [exact E1|]. split; [exact E2|].
    apply filter_In. split; [exact J|]. cbn [fst snd]. destruct (R2 _ _ J) as [_ [B1 B2]]. rewrite !sub_nth by lia. now rewrite !(Nat.add_comm lo), <- E1, <- E2.
  - intros l0 r0 I. apply filter_In in I. destruct I as [I F]. cbn [fst snd] in F. destruct (R2 _ _ I) as [J [B1 B2]]. split; [|lia].
    apply filter_In. split; [exact J|]. cbn [fst snd]. rewrite !sub_nth in F by lia. now rewrite !(Nat.add_comm lo) in F.
Qed.
Lemma runs_sub le lo e a ls b : runs le a ls b -> lo <= e <= length a -> forall qs, Forall2 (restricts lo e) ls qs -> runs le (sub lo e a) qs (sub lo e b).
Proof.
  induction 1 as [|cmp a ps a1 ls a2 D C R IH]; intros H qs F; inversion F; subst; [constructor|].
  econstructor; [exact D|eapply compared_sub; eauto|]. apply IH; auto. destruct C as [C _]. rewrite C. exact H.
Qed.
Lemma runs_nops le k : forall a b, runs le a (repeat [] k) b -> b = a.
Proof.
  induction k as [|k IH]; intros a b R; cbn in R; inversion R; subst; [reflexivity|]. apply IH in H5. subst. unfold compared in H3. cbn in H3.
  apply (swapped_unique a []); [exact H3|]. repeat split; easy.
Qed.

(* ---- the combined layers of several intervals ---- *)
Definition lay1 (c : nat) (iv : nat * nat) : list (nat * nat) :=
  if snd iv <=? S (fst iv) then [] else shift_pairs (fst iv) (nth c (layers (snd iv - fst iv)) []).
Lemma shift_in lo ps l r : In (l, r) (shift_pairs lo ps) <-> exists l0 r0, l = l0 + lo /\ r = r0 + lo /\ In (l0, r0) ps.
Proof.
  unfold shift_pairs. rewrite in_map_iff. split.
  - intros [[l0 r0] [E I]]. injection E as <- <-. eauto.
  - intros [l0 [r0 [-> [-> I]]]]. exists (l0, r0). auto.
Qed.
Lemma shift_fst lo ps : map fst (shift_pairs lo ps) = map (fun x => x + lo) (map fst ps) /\ map snd (shift_pairs lo ps) = map (fun x => x + lo) (map snd ps).
Proof. unfold shift_pairs. rewrite !map_map. split; apply map_ext; now intros [l r]. Qed.
Lemma layer_nth_ok n c : compat (nth c (layers n) []) /\ inr n (nth c (layers n) []).
Proof.
  destruct (Nat.lt_ge_cases c (length (layers n))) as [G|G]; [apply layers_in; now apply nth_In|]. rewrite nth_overflow by lia. split; [|easy].
  split; [constructor|split; [constructor|easy]].
Qed.
Lemma lay1_ok c iv : compat (lay1 c iv) /\ (forall x, posn (lay1 c iv) x -> inside iv x).
Proof.
  unfold lay1. destruct (Nat.leb_spec (snd iv) (S (fst iv))) as [G|G].
  - split; [split; [constructor|split; [constructor|easy]]|intros x [[]|[]]].
  - destruct (layer_nth_ok (snd iv - fst iv) c) as [[C1 [C2 C3]] R]. destruct (shift_fst (fst iv) (nth c (layers (snd iv - fst iv)) [])) as [E1 E2]. split; [split; [|split]|].
    + rewrite E1. apply nodup_map_inj; [exact C1|]. intros; lia.
    + rewrite E2. apply nodup_map_inj; [exact C2|]. intros; lia.
    + intros l r l' r' I J E. apply shift_in in I, J. destruct I as [l0 [r0 [-> [-> I]]]]. destruct J as [l1 [r1 [-> [-> J]]]]. assert (l0 = r0) by (eapply C3; eauto; lia). lia.
    + intros x X. unfold inside. destruct X as [X|X]; [rewrite E1 in X|rewrite E2 in X]; apply in_map_iff in X; destruct X as [y [<- X]]; [apply in_fst in X|apply in_snd in X]; destruct X as [z X]; apply R in X; lia.
Qed.
Lemma lay_ok c : forall ivs, ForallOrdPairs apart ivs -> compat (flat_map (lay1 c) ivs) /\ (forall x, posn (flat_map (lay1 c) ivs) x -> exists iv, In iv ivs /\ posn (lay1 c iv) x).
Proof.
  induction 1 as [|iv ivs H1 H2 [IH1 IH2]]; cbn [flat_map].
  - split; [split; [constructor|split; [constructor|easy]]|intros x [[]|[]]].
  - destruct (lay1_ok c iv) as [C P]. split.
    + apply compat_app; auto. intros i X Y. destruct (IH2 i Y) as [iv' [I Z]]. rewrite Forall_forall in H1. apply (H1 iv' I i); [now apply P|now apply (lay1_ok c)].
    + intros x X. apply posn_app in X. destruct X as [X|X]; [exists iv; split; [now left|exact X]|]. destruct (IH2 x X) as [iv' [I Z]]. exists iv'. split; [now right|exact Z].
Qed.
Lemma add_layers_ok : forall ls acc, length ls <= length acc -> exists r, add_layers acc ls = Ok r /\ length r = length acc /\ forall c, nth c r [] = nth c acc [] ++ nth c ls [].
Proof.
  induction ls as [|l ls IH]; intros [|x acc] L; cbn in L; try lia.
  - exists []. repeat split. intros c. now destruct c.
  - exists (x :: acc). repeat split. intros c. destruct c; cbn [nth]; now rewrite app_nil_r.
  - destruct (IH acc ltac:(lia)) as [r [E [E1 E2]]]. cbn [add_layers]. rewrite E. cbn [rbind]. exists ((x ++ l) :: r). repeat split; [cbn; lia|]. intros [|c]; cbn [nth]; auto.
Qed.
Lemma merge_layers_ok : forall ivs acc, (forall iv, In iv ivs -> length (layers (snd iv - fst iv)) <= length acc) ->
  exists r, merge_layers acc ivs = Ok r /\ length r = length acc /\ forall c, nth c r [] = nth c acc [] ++ flat_map (lay1 c) ivs.
Proof.
  induction ivs as [|[lo e] ivs IH]; intros acc L; cbn [merge_layers flat_map].
  - exists acc. repeat split. intros c. now rewrite app_nil_r.
  - unfold lay1 at 1. cbn [fst snd]. destruct (e <=? S lo) eqn:G.
    + apply IH. intros iv I. apply L. now right.
    + destruct (add_layers_ok (map (shift_pairs lo) (layers (e - lo))) acc) as [r [E [E1 E2]]]; [rewrite map_length; apply (L (lo, e)); now left|].
      rewrite E. cbn [rbind]. destruct (IH r) as [r' [F [F1 F2]]]; [intros iv I; rewrite E1; apply L; now right|]. exists r'. split; [exact F|]. split; [lia|].
      intros c. rewrite F2, E2. rewrite <- app_assoc. do 2 f_equal. change (@nil (nat * nat)) with (shift_pairs lo []) at 1. now rewrite map_nth.
Qed.
Lemma run_reveal le mcmp : decides le mcmp -> forall ls a, (forall ps, In ps ls -> compat ps /\ inr (length a) ps) -> exists b, run_layers (reveal_swap mcmp) ls a = Ok b /\ runs le a ls b.
Proof.
  intros D. induction ls as [|ps ls IH]; intros a C; cbn [run_layers]; [exists a; split; [reflexivity|constructor]|].
  destruct (C ps (or_introl eq_refl)) as [C1 C2]. destruct (reveal_swap_ok mcmp a ps C1 C2) as [a1 [E1 E2]]. rewrite E1. cbn [rbind].
  pose proof (compared_perm _ _ _ _ C1 C2 E2) as P.
  destruct (IH a1) as [b [B1 B2]]; [intros qs I; rewrite <- (Permutation_length P); apply C; now right|].
  exists b. split; [exact B1|]. econstructor; eauto.
Qed.
Lemma runs_below le a ls b k : runs le a ls b -> (forall ps, In ps ls -> inr (length a) ps /\ forall l r, In (l, r) ps -> (l < k <-> r < k)) -> below le a k -> below le b k.
Proof.
  induction 1 as [|cmp a ps a1 ls a2 D C R IH]; intros H B; [exact B|]. destruct (H ps (or_introl eq_refl)) as [H1 H2]. apply IH.
  - intros qs I. destruct C as [C _]. rewrite C. apply H. now right.
  - eapply below_swapped; [apply inr_filter, H1|exact C| |exact B]. intros l r I. apply filter_In in I. now apply H2.
Qed.
Lemma nth_pad {A} (l : list A) d n : length l <= n -> map (fun c => nth c l d) (seq 0 n) = l ++ repeat d (n - length l).
Proof.
  intros H. apply nth_error_ext_.
  - rewrite map_length, seq_length, app_length, repeat_length. lia.
  - rewrite map_length, seq_length. intros i I. rewrite (map_nth_error _ _ _ (d := i)).
    + destruct (Nat.lt_ge_cases i (length l)) as [G|G].
      * rewrite nth_error_app1 by lia. symmetry. now apply nth_error_nth'.
      * rewrite nth_error_app2 by lia. rewrite nth_overflow by lia. symmetry. apply nth_error_repeat. lia.
    + rewrite (nth_error_nth' _ 0) by (rewrite seq_length; exact I). now rewrite seq_nth.
Qed.

Section Quick.
Variable le : row -> row -> bool.
Hypothesis TP : total_preorder le.
Variable thres : Z.
Variable qcmp : nat -> nat -> row -> row -> bool.
Hypothesis QD : forall c j, decides le (qcmp c j).
Variable mcmp : row -> row -> bool.
Hypothesis MD : decides le mcmp.

Lemma mergesort_ok a ivs : ForallOrdPairs apart ivs -> Forall (fun iv => snd iv <= length a) ivs ->
  exists b, mergesort mcmp a ivs = Ok b /\ Permutation a b /\ (forall iv, In iv ivs -> fst iv < snd iv -> sorted_by le (sub (fst iv) (snd iv) b)) /\
  (forall k, (forall iv, In iv ivs -> ~ fst iv < k < snd iv) -> below le a k -> below le b k).
Proof.
  intros AP B. unfold mergesort. set (D := S (log2c (length a)) * log2c (length a) / 2). rewrite Forall_forall in B.
  assert (FIT : forall iv, In iv ivs -> length (layers (snd iv - fst iv)) <= D) by (intros iv I; apply layers_fit; specialize (B iv I); lia).
  destruct (merge_layers_ok ivs (repeat [] D)) as [ls [E [E1 E2]]]; [intros iv I; rewrite repeat_length; now apply FIT|]. rewrite repeat_length in E1.
  rewrite E. cbn [rbind].
  assert (E3 : forall c, nth c ls [] = flat_map (lay1 c) ivs).
  { intros c. rewrite E2. destruct (Nat.lt_ge_cases c D); [|rewrite (nth_overflow (repeat [] D)) by (rewrite repeat_length; lia); reflexivity].
    replace (nth c (repeat [] D) []) with (@nil (nat * nat)); [reflexivity|]. symmetry. apply nth_repeat. }
  assert (LS : ls = map (fun c => flat_map (lay1 c) ivs) (seq 0 D)).
  { rewrite (map_ext _ (fun c => nth c ls [])) by (intros c; now rewrite E3). rewrite nth_pad by lia. rewrite E1, Nat.sub_diag. cbn. now rewrite app_nil_r. }
  assert (IV : forall c x, posn (flat_map (lay1 c) ivs) x -> exists iv, In iv ivs /\ inside iv x).
  { intros c x X. destruct (lay_ok c ivs AP) as [_ P]. destruct (P x X) as [iv [I Y]]. exists iv. split; [exact I|]. now apply (lay1_ok c). }
  assert (CI : forall ps, In ps ls -> compat ps /\ inr (length a) ps).
  { intros ps I. rewrite LS in I. apply in_map_iff in I. destruct I as [c [<- _]]. split; [now apply lay_ok|]. intros l r J. apply posn_in in J. destruct J as [J1 J2].
    destruct (IV c l J1) as [iv [I1 X1]]. destruct (IV c r J2) as [iv' [I2 X2]]. apply B in I1, I2. unfold inside in *. lia. }
  destruct (run_reveal le mcmp MD ls a CI) as [b [R1 R2]]. exists b. split; [exact R1|]. split; [eapply runs_perm; eauto|]. split.
  - intros iv I NE. specialize (B iv I) as Bi.
    assert (F2 : Forall2 (restricts (fst iv) (snd iv)) ls (map (fun c => nth c (layers (snd iv - fst iv)) []) (seq 0 D))).
    { rewrite LS. clear - AP I NE Bi. induction (seq 0 D) as [|c cs IH]; cbn [map]; [constructor|]. constructor; [|exact IH]. split.
      - intros l r J K. apply in_flat_map in J. destruct J as [iv' [I' J]]. assert (P' : inside iv' l /\ inside iv' r).
        { apply posn_in in J. destruct J as [J1 J2]. split; now apply (lay1_ok c). }
        assert (iv' = iv).
        { destruct (ordpairs_in apart ivs iv' iv apart_sym AP I' I) as [Q|Q]; [exact Q|exfalso]. destruct iv as [lo e]. cbn [fst snd] in K. destruct K as [K|K]; [exact (Q l (proj1 P') K)|exact (Q r (proj2 P') K)]. }
        subst iv'. unfold lay1 in J. destruct (snd iv <=? S (fst iv)); [easy|]. apply shift_in in J. exact J.
      - intros l0 r0 J. destruct (layer_nth_ok (snd iv - fst iv) c) as [_ R]. pose proof (R _ _ J) as BB. split; [|lia]. apply in_flat_map. exists iv. split; [exact I|].
        unfold lay1. destruct (Nat.leb_spec (snd iv) (S (fst iv))) as [G|G]; [|apply shift_in; eauto].
        exfalso. assert (snd iv - fst iv = 1) as Q by lia. rewrite Q in J. cbn in J. destruct c; easy. }
    pose proof (runs_sub le (fst iv) (snd iv) a ls b R2 ltac:(lia) _ F2) as RS. rewrite nth_pad in RS by (now apply FIT).
    apply runs_app in RS. destruct RS as [m [M1 M2]]. apply runs_nops in M2. rewrite M2.
    rewrite <- (sub_length (fst iv) (snd iv) a) in M1 by lia. exact (proj2 (runs_sorts le _ _ TP M1)).
  - intros k NK. apply (runs_below le a ls b k R2). intros ps I. split; [now apply CI|]. rewrite LS in I. apply in_map_iff in I. destruct I as [c [<- _]].
    intros l r J. apply in_flat_map in J. destruct J as [iv [I J]]. specialize (NK iv I). apply posn_in in J. destruct J as [J1 J2].
    apply (lay1_ok c) in J1, J2. unfold inside in *. lia.
Qed.

(* ---- Partition ---- *)
Definition r_pos (rc : rec) : nat * nat * nat := let '(lo, mid, e, _) := rc in (lo, mid, e).
Lemma partition_scan_ok (a : list row) c pred d : forall ivs len, Forall (fun iv => fst iv < snd iv <= length a) ivs ->
  (forall j, j < length (cmp_positions thres ivs) -> nth (len + j) pred false =
     qcmp c (len + j) (nth (fst (nth j (cmp_positions thres ivs) d)) a []) (nth (snd (nth j (cmp_positions thres ivs) d)) a [])) ->
  exists rs, partition_scan thres pred len ivs = (flat_map r_ps rs, map r_pv rs, map r_pos rs) /\ Forall (rec_ok le a) rs /\ map r_iv rs = filter (fun iv => negb (small thres iv)) ivs.
Proof.
  induction ivs as [|[lo e] ivs IH]; intros len B P; cbn [partition_scan filter].
  - exists []. repeat split; constructor.
  - inversion B as [|? ? B1 B2]; subst. cbn [fst snd] in B1. unfold cmp_positions in P. cbn [filter] in P. destruct (small thres (lo, e)) eqn:SM; cbn [negb] in *.
    + apply IH; auto.
    + cbn [flat_map] in P. fold (cmp_positions thres ivs) in P.
      destruct (scan_rec le a (fun i => nth (i - S lo + len) pred false) lo e B1) as [ps [mid [E OK]]].
      { intros x X. assert (LX : x - S lo < e - S lo) by lia.
        specialize (P (x - S lo)). rewrite app_length, map_length, seq_length in P. specialize (P ltac:(lia)).
        rewrite app_nth1 in P by (rewrite map_length, seq_length; lia).
        assert (EN : nth (x - S lo) (map (fun x => (lo, x)) (seq (S lo) (e - S lo))) d = (lo, x)).
        { rewrite (nth_indep _ d (lo, 0)) by (rewrite map_length, seq_length; lia). rewrite (map_nth (fun x => (lo, x))). rewrite seq_nth by lia. f_equal. lia. }
        rewrite EN in P. cbn [fst snd] in P. rewrite (Nat.add_comm (x - S lo) len). rewrite P. destruct (QD c (len + (x - S lo)) (nth lo a []) (nth x a [])). auto. }
      rewrite E. cbn [fst snd]. replace (S mid - 1) with mid by lia.
      destruct (IH (len + (e - S lo)) B2) as [rs [R1 [R2 R3]]].
      { intros j J. specialize (P (e - S lo + j)). rewrite app_length, map_length, seq_length in P. specialize (P ltac:(lia)).
        rewrite app_nth2 in P by (rewrite map_length, seq_length; lia). rewrite map_length, seq_length in P.
        replace (e - S lo + j - (e - S lo)) with j in P by lia. now rewrite Nat.add_assoc in P. }
      rewrite R1. exists ((lo, mid, e, ps) :: rs). split; [reflexivity|]. split; [constructor; auto|]. cbn [map r_iv]. now rewrite R3.
Qed.
Lemma pred_nth c a (ps : list (nat * nat)) d : forall off j, j < length ps ->
  nth j (zipWith (fun j '(p, x) => qcmp c j p x) (seq off (length ps)) (combine (map (fun i => nth i a []) (map fst ps)) (map (fun i => nth i a []) (map snd ps)))) false =
  qcmp c (off + j) (nth (fst (nth j ps d)) a []) (nth (snd (nth j ps d)) a []).
Proof.
  induction ps as [|p ps IH]; intros off j J; cbn in J; [lia|]. cbn [length seq map combine zipWith]. destruct j as [|j]; cbn [nth]; [now rewrite Nat.add_0_r|].
  rewrite IH by lia. now rewrite Nat.add_succ_r.
Qed.

Definition state (a : list row) (ivs : list (nat * nat)) : Prop :=
  Forall (fun iv => fst iv < snd iv <= length a) ivs /\ ForallOrdPairs apart ivs /\
  Forall (fun iv => below le a (fst iv) /\ below le a (snd iv)) ivs /\
  (forall k, (forall iv, In iv ivs -> ~ fst iv < k < snd iv) -> below le a k).

Definition kids (rp : nat * nat * nat) : list (nat * nat) :=
  let '(lo, mid, e) := rp in (if lo <? mid then [(lo, mid)] else []) ++ (if S mid <? e then [(S mid, e)] else []).
Lemma kids_in lo mid e iv : In iv (kids (lo, mid, e)) -> (iv = (lo, mid) /\ lo < mid) \/ (iv = (S mid, e) /\ S mid < e).
Proof.
  unfold kids. intros I. apply in_app_iff in I. destruct I as [I|I].
  - destruct (Nat.ltb_spec lo mid); [|easy]. destruct I as [<-|[]]. now left.
  - destruct (Nat.ltb_spec (S mid) e); [|easy]. destruct I as [<-|[]]. now right.
Qed.
Lemma kids_apart lo mid e : ForallOrdPairs apart (kids (lo, mid, e)).
Proof.
  unfold kids. apply fop_app.
  - destruct (lo <? mid); repeat constructor.
  - destruct (S mid <? e); repeat constructor.
  - intros x y I J. destruct (lo <? mid); [|easy]. destruct (S mid <? e); [|easy]. destruct I as [<-|[]], J as [<-|[]]. intros z A B. unfold inside in *. cbn in *. lia.
Qed.

Lemma partition_ok c a ivs : state a ivs -> partition thres qcmp c a ivs = Ok None \/
  exists a' ivs', partition thres qcmp c a ivs = Ok (Some (a', ivs')) /\ Permutation a a' /\ state a' ivs'.
Proof.
  intros [S1 [S2 [S3 S4]]]. unfold partition. destruct ivs as [|iv0 ivs0]; [now left|]. set (ivs := iv0 :: ivs0) in *.
  destruct (forallb (small thres) ivs); [now left|]. right.
  assert (CP : forall p x, In (p, x) (cmp_positions thres ivs) -> p < length a /\ x < length a).
  { intros p x I. unfold cmp_positions in I. apply in_flat_map in I. destruct I as [[lo e] [I J]]. apply filter_In in I. destruct I as [I _].
    rewrite Forall_forall in S1. apply S1 in I. cbn [fst snd] in I. apply in_map_iff in J. destruct J as [y [Q J]]. injection Q as <- <-. apply in_seq in J. lia. }
  rewrite !gather_ok; cbn [rbind]; [|intros i I; apply in_snd in I; destruct I as [l I]; now apply CP in I|intros i I; apply in_fst in I; destruct I as [l I]; now apply CP in I].
  set (pred := zipWith _ _ _).
  destruct (partition_scan_ok a c pred (0, 0) ivs 0 S1) as [rs [R1 [R2 R3]]]; [intros j J; apply (pred_nth c a (cmp_positions thres ivs) (0, 0) 0 j J)|].
  rewrite R1. assert (AP : ForallOrdPairs apart (map r_iv rs)) by (rewrite R3; now apply fop_filter).
  destruct (pivots_ok le TP a rs R2 AP) as [a1 [a2 [E1 [E2 [L [PM [K1 K2]]]]]]]. rewrite E1. cbn [rbind]. rewrite E2. cbn [rbind].
  eexists _, _. split; [reflexivity|]. split; [exact PM|].
  match goal with |- state _ (filter _ _ ++ flat_map ?g _) => change g with kids end.
  set (ivs' := filter (small thres) ivs ++ flat_map kids (rev (map r_pos rs))).
  assert (RI : forall rc, In rc rs -> In (r_iv rc) ivs /\ small thres (r_iv rc) = false).
  { intros rc I. apply (in_map r_iv) in I. rewrite R3 in I. apply filter_In in I. destruct I as [I F]. split; [exact I|]. now apply negb_true_iff in F. }
  assert (IN : forall iv, In iv ivs' -> (In iv ivs /\ small thres iv = true) \/ exists rc, In rc rs /\ In iv (kids (r_pos rc))).
  { intros iv I. apply in_app_iff in I. destruct I as [I|I]; [left; now apply filter_In|]. right. apply in_flat_map in I. destruct I as [p [I J]]. apply in_rev in I.
    apply in_map_iff in I. destruct I as [rc [<- I]]. exists rc. auto. }
  assert (KI : forall rc iv x, In rc rs -> In iv (kids (r_pos rc)) -> inside iv x -> inside (r_iv rc) x).
  { intros rc iv x I J X. rewrite Forall_forall in R2. specialize (R2 rc I). destruct rc as [[[lo mid] e] ps]. destruct R2 as [O1 _]. cbn [r_pos r_iv] in *.
    apply kids_in in J. destruct J as [[-> J]|[-> J]]; unfold inside in *; cbn in *; lia. }
  assert (SM : forall iv rc x, In iv ivs -> small thres iv = true -> In rc rs -> inside iv x -> inside (r_iv rc) x -> False).
  { intros iv rc x I F J X Y. destruct (RI rc J) as [J1 J2]. destruct (ordpairs_in apart ivs iv (r_iv rc) apart_sym S2 I J1) as [Q|Q]; [congruence|exact (Q x X Y)]. }
  (* splits of the old array that survive *)
  assert (KEEP : forall k, (forall rc, In rc rs -> ~ fst (r_iv rc) < k < snd (r_iv rc)) -> below le a k -> below le a2 k) by exact K1.
  rewrite Forall_forall in S1, S3. assert (R2' := R2). rewrite Forall_forall in R2'.
  assert (MID : forall lo mid e ps, In (lo, mid, e, ps) rs -> below le a2 lo /\ below le a2 mid /\ below le a2 (S mid) /\ below le a2 e).
  { intros lo mid e ps I. destruct (RI _ I) as [J1 _]. cbn [r_iv] in J1. destruct (S3 _ J1) as [Bl Be]. cbn [fst snd] in Bl, Be. destruct (K2 lo mid e ps I Bl Be) as [M1 M2].
    pose proof (R2' _ I) as [O1 [O2 _]].
    assert (NX : forall k, k = lo \/ k = e -> forall rc, In rc rs -> ~ fst (r_iv rc) < k < snd (r_iv rc)).
    { intros k K rc J X. destruct (RI _ J) as [J2 _]. destruct (ordpairs_in apart ivs (r_iv rc) (lo, e) apart_sym S2 J2 J1) as [Q|Q].
      - rewrite Q in X. cbn in X. lia.
      - destruct K; subst k; [apply (Q lo)|apply (Q (e - 1))]; unfold inside; cbn; lia. }
    repeat split; auto; apply KEEP; auto. }
  split; [|split; [|split]].
  - apply Forall_forall. intros iv I. rewrite L. destruct (IN iv I) as [[J _]|[rc [J K]]]; [now apply S1|]. pose proof (R2' _ J) as O. destruct rc as [[[lo mid] e] ps]. destruct O as [O1 [O2 _]].
    cbn [r_pos] in K. apply kids_in in K. destruct K as [[-> K]|[-> K]]; cbn; lia.
  - apply fop_app; [now apply fop_filter| |].
    + apply fop_flat_map.
      * intros p I. apply in_rev, in_map_iff in I. destruct I as [[[[lo mid] e] ps] [<- I]]. apply kids_apart.
      * apply fop_rev; [intros x y H u v Hu Hv; apply apart_sym; now apply H|]. rewrite fop_map. rewrite fop_map in AP. revert AP. apply fop_impl.
        intros x y Ix Iy H u v Hu Hv z Zu Zv. apply (H z); eapply KI; eauto.
    + intros iv iv' I J x X Y. apply filter_In in I. apply in_flat_map in J. destruct J as [p [J1 J2]]. apply in_rev, in_map_iff in J1. destruct J1 as [rc [<- J1]].
      apply (SM iv rc x); try tauto. eapply KI; eauto.
  - apply Forall_forall. intros iv I. destruct (IN iv I) as [[J F]|[rc [J K]]].
    + destruct (S3 iv J) as [B1 B2]. specialize (S1 iv J).
      split; apply KEEP; auto; intros rc Jr X.
      * apply (SM iv rc (fst iv)); auto; unfold inside; lia.
      * apply (SM iv rc (snd iv - 1)); auto; unfold inside; lia.
    + destruct rc as [[[lo mid] e] ps]. destruct (MID lo mid e ps J) as [M1 [M2 [M3 M4]]]. cbn [r_pos] in K. apply kids_in in K. destruct K as [[-> K]|[-> K]]; cbn [fst snd]; auto.
  - intros k NK.
    assert (DEC : (forall rc, In rc rs -> ~ fst (r_iv rc) < k < snd (r_iv rc)) \/ exists rc, In rc rs /\ fst (r_iv rc) < k < snd (r_iv rc)).
    { clear. induction rs as [|rc rs IH]; [left; easy|]. destruct IH as [IH|[rc' [I X]]]; [|right; exists rc'; split; [now right|exact X]].
      destruct (Nat.lt_ge_cases (fst (r_iv rc)) k); [destruct (Nat.lt_ge_cases k (snd (r_iv rc)))|].
      - right. exists rc. split; [now left|lia].
      - left. intros r [<-|I]; [lia|auto].
      - left. intros r [<-|I]; [lia|auto]. }
    destruct DEC as [DEC|[rc [J X]]].
    + apply KEEP; [exact DEC|]. apply S4. intros iv I X. destruct (small thres iv) eqn:F.
      * apply (NK iv); [apply in_app_iff; left; now apply filter_In|exact X].
      * assert (J : In iv (map r_iv rs)) by (rewrite R3; apply filter_In; split; [exact I|now rewrite F]). apply in_map_iff in J. destruct J as [rc [<- J]]. exact (DEC rc J X).
    + destruct rc as [[[lo mid] e] ps]. cbn [r_iv fst snd] in X. destruct (MID lo mid e ps J) as [M1 [M2 [M3 M4]]].
      assert (KD : forall iv, In iv (kids (lo, mid, e)) -> In iv ivs').
      { intros iv I. apply in_app_iff. right. apply in_flat_map. exists (lo, mid, e). split; [|exact I]. apply in_rev. rewrite rev_involutive. apply in_map_iff. exists (lo, mid, e, ps). auto. }
      destruct (Nat.lt_ge_cases k mid) as [G|G].
      { exfalso. apply (NK (lo, mid)); [|cbn; lia]. apply KD. unfold kids. destruct (Nat.ltb_spec lo mid); [|lia]. apply in_app_iff. left. now left. }
      destruct (Nat.eq_dec k mid) as [->|N1]; [exact M2|]. destruct (Nat.eq_dec k (S mid)) as [->|N2]; [exact M3|].
      exfalso. apply (NK (S mid, e)); [|cbn; lia]. apply KD. unfold kids. destruct (Nat.ltb_spec (S mid) e); [|lia]. apply in_app_iff. right. now left.
Qed.
Lemma quick_loop_ok : forall depth c a ivs, state a ivs -> exists a' ivs', quick_loop thres qcmp depth c a ivs = Ok (a', ivs') /\ Permutation a a' /\ state a' ivs'.
Proof.
  induction depth as [|d IH]; intros c a [|iv ivs] ST; cbn [quick_loop]; try (eexists _, _; split; [reflexivity|split; [apply Permutation_refl|exact ST]]).
  destruct (partition_ok c a (iv :: ivs) ST) as [->|[a' [ivs' [E [P ST']]]]]; cbn [rbind].
  - eexists _, _. split; [reflexivity|split; [apply Permutation_refl|exact ST]].
  - rewrite E. cbn [rbind]. destruct (IH (S c) a' ivs' ST') as [a'' [ivs'' [E' [P' S']]]]. exists a'', ivs''. split; [exact E'|]. split; [now rewrite P|exact S'].
Qed.
Lemma all_below_sorted a : (forall k, below le a k) -> sorted_by le a.
Proof.
  intros H i j x y IJ Hx Hy. apply (proj1 (below_split le a j) (H j) i j x y); auto.
Qed.
Lemma split_sorted_interval b lo e k : lo < k < e -> e <= length b -> below le b lo -> below le b e -> sorted_by le (sub lo e b) -> below le b k.
Proof.
  intros K E Bl Be SS i j I J. destruct (Nat.lt_ge_cases i lo); [apply Bl; lia|]. destruct (Nat.le_gt_cases e j); [apply Be; lia|].
  assert (L : length (sub lo e b) = e - lo) by (apply sub_length; lia).
  destruct (nth_error_lt (sub lo e b) (i - lo) ltac:(lia)) as [x Hx]. destruct (nth_error_lt (sub lo e b) (j - lo) ltac:(lia)) as [y Hy].
  pose proof (SS (i - lo) (j - lo) x y ltac:(lia) Hx Hy) as Q. apply row_nth in Hx, Hy. rewrite sub_nth in Hx, Hy by lia.
  replace (lo + (i - lo)) with i in Hx by lia. replace (lo + (j - lo)) with j in Hy by lia. now rewrite Hx, Hy.
Qed.
Theorem quick_mergesort_ok depth a : 0 < length a \/ (-1 <= thres)%Z -> exists b, quick_mergesort thres qcmp mcmp depth a = Ok b /\ sorting_of le a b.
Proof.
  intros HN. destruct (Nat.eq_dec (length a) 0) as [Z0|NZ].
  - assert (a = []) by (now apply length_zero_iff_nil). subst a. exists []. split; [|split; [constructor|intros [|i] j x y _ Hx; discriminate]].
    assert (SM : small thres (0, 0) = true) by (unfold small; cbn [fst snd]; apply Z.leb_le; cbn in HN; lia).
    unfold quick_mergesort. cbn [length]. destruct depth as [|d]; cbn [quick_loop]; [reflexivity|]. unfold partition. cbn [forallb]. rewrite SM. reflexivity.
  - assert (ST : state a [(0, length a)]).
    { split; [constructor; [cbn; lia|constructor]|]. split; [repeat constructor|]. split; [constructor; [cbn; split; [apply below_0|now apply below_end]|constructor]|].
      intros k NK. specialize (NK (0, length a) (or_introl eq_refl)). cbn in NK. destruct (Nat.eq_dec k 0) as [->|]; [apply below_0|apply below_end; lia]. }
    unfold quick_mergesort. destruct (quick_loop_ok depth 0 a _ ST) as [a' [ivs [E [P [S1 [S2 [S3 S4]]]]]]]. rewrite E. cbn [rbind].
    destruct ivs as [|iv ivs0].
    + exists a'. split; [reflexivity|]. split; [exact P|]. apply all_below_sorted. intros k. apply S4. easy.
    + set (ivs := iv :: ivs0) in *. destruct (mergesort_ok a' ivs S2) as [b [B1 [B2 [B3 B4]]]].
      { eapply Forall_impl; [|exact S1]. cbn. intros x. lia. }
      exists b. split; [exact B1|]. split; [now rewrite P|]. apply all_below_sorted. intros k.
      assert (NIN : forall k', (forall iv, In iv ivs -> ~ fst iv < k' < snd iv) -> below le b k') by (intros k' H; apply B4; auto).
      assert (DEC : (forall iv, In iv ivs -> ~ fst iv < k < snd iv) \/ exists iv, In iv ivs /\ fst iv < k < snd iv).
      { clear. induction ivs as [|rc rs IH]; [left; easy|]. destruct IH as [IH|[rc' [I X]]]; [|right; exists rc'; split; [now right|exact X]].
        destruct (Nat.lt_ge_cases (fst rc) k); [destruct (Nat.lt_ge_cases k (snd rc))|].
        - right. exists rc. split; [now left|lia].
        - left. intros r [<-|I]; [lia|auto].
        - left. intros r [<-|I]; [lia|auto]. }
      destruct DEC as [DEC|[iv' [I X]]]; [now apply NIN|]. rewrite Forall_forall in S1. specialize (S1 iv' I) as Si.
      assert (EDGE : forall k', k' = fst iv' \/ k' = snd iv' -> forall iv, In iv ivs -> ~ fst iv < k' < snd iv).
      { intros k' K' iv2 J Y. destruct (ordpairs_in apart ivs iv2 iv' apart_sym S2 J I) as [Q|Q]; [subst iv2; lia|].
        destruct K'; subst k'; [apply (Q (fst iv'))|apply (Q (snd iv' - 1))]; unfold inside; lia. }
      apply (split_sorted_interval b (fst iv') (snd iv') k X); [rewrite <- (Permutation_length B2); lia| | |apply B3; auto; lia]; apply NIN, EDGE; auto.
Qed.

(* ---- top-k ---- *)
Variables klo khi : nat.
Definition tstate (a : list row) (st : list (nat * nat)) : Prop :=
  Forall (fun iv => fst iv < snd iv -> snd iv <= length a /\ below le a (fst iv) /\ below le a (snd iv)) st /\ ForallOrdPairs apart st /\
  (forall k, klo <= k <= khi -> (forall iv, In iv st -> ~ fst iv < k < snd iv) -> below le a k).
Definition weight (st : list (nat * nat)) : nat := list_sum (map (fun iv => 2 * (snd iv - fst iv) + 1) st).

(* exchanges inside the popped interval keep the rest of the stack *)
Lemma tstate_rest a a' lo e st : lo < e -> length a' = length a -> tstate a ((lo, e) :: st) ->
  (forall k, ~ lo < k < e -> below le a k -> below le a' k) ->
  Forall (fun iv => fst iv < snd iv -> snd iv <= length a' /\ below le a' (fst iv) /\ below le a' (snd iv)) st.
Proof.
  intros NE L [S1 [S2 S3]] K. inversion S1 as [|? ? _ S1']; subst. inversion S2 as [|? ? A1 A2]; subst. apply Forall_forall. intros iv I X.
  rewrite Forall_forall in S1', A1. destruct (S1' iv I X) as [B0 [B1 B2]]. specialize (A1 iv I). rewrite L. repeat split; [exact B0| |]; apply K; auto; intros Y.
  - apply (A1 (fst iv)); unfold inside; cbn; lia.
  - apply (A1 (snd iv - 1)); unfold inside; cbn; lia.
Qed.
Lemma small_array_ok c a lo e st : e <= S (S lo) -> tstate a ((lo, e) :: st) -> exists a', small_array qcmp c a lo e = Ok a' /\ Permutation a a' /\ tstate a' st.
Proof.
  intros SZ ST. unfold small_array. destruct (Nat.eqb_spec e (S (S lo))) as [->|N].
  - pose proof ST as [S1 [S2 S3]]. inversion S1 as [|? ? B S1']; subst. cbn [fst snd] in B. specialize (B ltac:(lia)). destruct B as [B0 [B1 B2]].
    unfold read. destruct (nth_error_lt a lo ltac:(lia)) as [x Hx]. destruct (nth_error_lt a (S lo) ltac:(lia)) as [y Hy]. rewrite Hx. cbn [rbind]. rewrite Hy. cbn [rbind].
    apply row_nth in Hx, Hy. destruct (QD c 0 x y) as [Q1 Q2].
    assert (FIN : forall a' : list row, length a' = length a -> (forall k, ~ lo < k < S (S lo) -> below le a k -> below le a' k) -> le (nth lo a' []) (nth (S lo) a' []) = true -> tstate a' st).
    { intros a' L K C. split; [apply (tstate_rest a a' lo (S (S lo)) st); auto; lia|]. split; [now inversion S2|]. intros k KR NK. destruct (Nat.eq_dec k (S lo)) as [->|N].
      - assert (Bl : below le a' lo) by (apply K; auto; lia). assert (Be : below le a' (S (S lo))) by (apply K; auto; lia).
        intros i j I J. destruct (Nat.lt_ge_cases i lo); [apply Bl; lia|]. destruct (Nat.le_gt_cases (S (S lo)) j); [apply Be; lia|].
        replace i with lo by lia. replace j with (S lo) by lia. exact C.
      - apply K; [lia|]. apply S3; auto. intros iv [<-|I]; [cbn; lia|now apply NK]. }
    destruct (qcmp c 0 x y) eqn:E.
    + exists a. split; [reflexivity|]. split; [apply Permutation_refl|]. apply FIN; auto. rewrite Hx, Hy. auto.
    + assert (C : compat [(lo, S lo)]). { split; [repeat constructor; easy|]. split; [repeat constructor; easy|]. intros l r l' r' [I|[]] [J|[]] Q. congruence. }
      assert (R : inr (length a) [(lo, S lo)]) by (intros l r [I|[]]; injection I as <- <-; lia).
      destruct (swap_rows_ok a _ C R) as [a' [E1 SW]]. exists a'. split; [exact E1|]. split; [now apply (swapped_perm a [(lo, S lo)])|].
      destruct SW as [W1 [W2 W3]] eqn:WW. apply FIN; auto.
      * intros k NK. apply (below_swapped le a [(lo, S lo)] a' k R); [split; auto|]. intros l r [I|[]]. injection I as <- <-. lia.
      * destruct (W2 lo (S lo) (or_introl eq_refl)) as [-> ->]. rewrite Hx, Hy. auto.
  - exists a. split; [reflexivity|]. split; [apply Permutation_refl|]. destruct ST as [S1 [S2 S3]]. inversion S1; inversion S2; subst. split; [assumption|]. split; [assumption|].
    intros k KR NK. apply S3; auto. intros iv [<-|I]; [cbn; lia|now apply NK].
Qed.
Lemma two_way_ok c a lo e st : S (S lo) < e -> tstate a ((lo, e) :: st) ->
  exists a' new, two_way qcmp klo khi c a lo e = Ok (a', new) /\ Permutation a a' /\ tstate a' (rev new ++ st) /\ weight (rev new) < weight [(lo, e)].
Proof.
  intros SZ ST. pose proof ST as [S1 [S2 S3]]. inversion S1 as [|? ? B S1']; subst. cbn [fst snd] in B. specialize (B ltac:(lia)). destruct B as [B0 [B1 B2]].
  inversion S2 as [|? ? A1 A2]; subst. rewrite Forall_forall in A1.
  unfold two_way. set (ps := map (fun x => (lo, x)) (seq (S lo) (e - S lo))).
  assert (CP : forall p x, In (p, x) ps -> p < length a /\ x < length a).
  { intros p x I. apply in_map_iff in I. destruct I as [y [Q J]]. injection Q as <- <-. apply in_seq in J. lia. }
  rewrite !gather_ok; cbn [rbind]; [|intros i I; apply in_snd in I; destruct I as [l I]; now apply CP in I|intros i I; apply in_fst in I; destruct I as [l I]; now apply CP in I].
  set (pred := zipWith _ _ _).
  destruct (scan_rec le a (fun i => nth (i - S lo) pred false) lo e) as [sw [mid [E OK]]]; [lia| |].
  { intros x X. assert (LP : length ps = e - S lo) by (unfold ps; now rewrite map_length, seq_length).
    assert (EN : nth (x - S lo) ps (0, 0) = (lo, x)).
    { unfold ps. rewrite (nth_indep _ (0, 0) (lo, 0)) by (rewrite map_length, seq_length; lia). rewrite (map_nth (fun x => (lo, x))). rewrite seq_nth by lia. f_equal. lia. }
    unfold pred. rewrite (pred_nth c a ps (0, 0)) by lia. rewrite EN. cbn [fst snd]. destruct (QD c (0 + (x - S lo)) (nth lo a []) (nth x a [])). auto. }
  rewrite E. replace (S mid - 1) with mid by lia.
  destruct (pivots_ok le TP a [(lo, mid, e, sw)]) as [a1 [a2 [E1 [E2 [L [PM [K1 K2]]]]]]]; [constructor; [exact OK|constructor]|repeat constructor|].
  cbn [flat_map map r_ps r_pv] in E1, E2. rewrite app_nil_r in E1. rewrite E1. cbn [rbind]. rewrite E2. cbn [rbind].
  destruct (K2 lo mid e sw (or_introl eq_refl) B1 B2) as [M1 M2]. destruct OK as [O1 [O2 _]].
  assert (KEEP : forall k, ~ lo < k < e -> below le a k -> below le a2 k).
  { intros k NK. apply K1. intros rc [<-|[]]. exact NK. }
  pose proof (tstate_rest a a2 lo e st ltac:(lia) L ST KEEP) as REST.
  assert (Bl : below le a2 lo) by (apply KEEP; auto; lia). assert (Be : below le a2 e) by (apply KEEP; auto; lia).
  assert (OUT : forall k, klo <= k <= khi -> ~ lo < k < e -> (forall iv, In iv st -> ~ fst iv < k < snd iv) -> below le a2 k).
  { intros k KR NK NS. apply KEEP; [exact NK|]. apply S3; auto. intros iv [<-|I]; [exact NK|now apply NS]. }
  assert (AP : forall iv iv', (forall x, inside iv x -> inside (lo, e) x) -> In iv' st -> apart iv iv') by (intros iv iv' H I x X Y; apply (A1 iv' I x); auto).
  destruct ((klo <=? mid) && (S mid <? khi)) eqn:C; eexists _, _; (split; [reflexivity|]); (split; [exact PM|]).
  - cbn [rev app]. split; [|cbn; lia]. split; [|split].
    + constructor; [cbn; intros; repeat split; auto; lia|]. constructor; [cbn; intros; repeat split; auto; lia|exact REST].
    + constructor; [|constructor; [|exact A2]].
      * apply Forall_forall. intros iv' [<-|I]; [intros x X Y; unfold inside in *; cbn in *; lia|]. apply AP; auto. unfold inside. cbn. lia.
      * apply Forall_forall. intros iv' I. apply AP; auto. unfold inside. cbn. lia.
    + intros k KR NK. destruct (Nat.lt_ge_cases lo k); [destruct (Nat.lt_ge_cases k e)|].
      * destruct (Nat.lt_ge_cases k mid); [exfalso; apply (NK (lo, mid)); [right; now left|cbn; lia]|].
        destruct (Nat.eq_dec k mid) as [->|]; [exact M1|]. destruct (Nat.eq_dec k (S mid)) as [->|]; [exact M2|].
        exfalso. apply (NK (S mid, e)); [now left|cbn; lia].
      * apply OUT; [exact KR|lia|]. intros iv I. apply NK. right. now right.
      * apply OUT; [exact KR|lia|]. intros iv I. apply NK. right. now right.
  - cbn [rev app]. apply andb_false_iff in C. rewrite Nat.leb_gt, Nat.ltb_ge in C.
    set (e' := if khi <=? S mid then mid else e). set (lo' := if S mid <=? klo then S mid else lo).
    assert (He : (khi <= S mid /\ e' = mid) \/ (S mid < khi /\ e' = e)) by (unfold e'; destruct (Nat.leb_spec khi (S mid)); auto).
    assert (Hl : (S mid <= klo /\ lo' = S mid) \/ (klo < S mid /\ lo' = lo)) by (unfold lo'; destruct (Nat.leb_spec (S mid) klo); auto).
    clearbody e' lo'. split; [|cbn; lia]. split; [|split].
    + constructor; [|exact REST]. cbn [fst snd]. intros _. split; [lia|].
      split; [destruct Hl as [[_ ->]|[_ ->]]; auto|destruct He as [[_ ->]|[_ ->]]; auto].
    + constructor; [|exact A2]. apply Forall_forall. intros iv' I. apply AP; auto. unfold inside. cbn. lia.
    + intros k KR NK. specialize (NK (lo', e') (or_introl eq_refl)) as NK1. cbn [fst snd] in NK1. assert (NS : forall iv, In iv st -> ~ fst iv < k < snd iv) by (intros iv I; apply NK; now right).
      destruct (Nat.lt_ge_cases lo k); [destruct (Nat.lt_ge_cases k e)|].
      * destruct (Nat.eq_dec k mid) as [->|]; [exact M1|]. destruct (Nat.eq_dec k (S mid)) as [->|]; [exact M2|]. lia.
      * apply OUT; [exact KR|lia|exact NS].
      * apply OUT; [exact KR|lia|exact NS].
Qed.
Lemma weight_app x y : weight (x ++ y) = weight x + weight y.
Proof. unfold weight. now rewrite map_app, list_sum_app. Qed.
Lemma select_loop_ok : forall fuel c a st, weight st <= fuel -> tstate a st -> exists a', select_loop qcmp klo khi fuel c a st = Ok a' /\ Permutation a a' /\ tstate a' [].
Proof.
  induction fuel as [|f IH]; intros c a [|[lo e] st] W ST; cbn [select_loop]; try (exists a; split; [reflexivity|split; [apply Permutation_refl|exact ST]]).
  - exfalso. unfold weight in W. cbn in W. lia.
  - change ((lo, e) :: st) with ([(lo, e)] ++ st) in W. rewrite weight_app in W. destruct (Nat.leb_spec e (S (S lo))) as [G|G].
    + destruct (small_array_ok c a lo e st G ST) as [a' [E [P ST']]]. rewrite E. cbn [rbind]. destruct (IH (S c) a' st) as [b [F [P' S']]]; auto; [cbn in W; lia|].
      exists b. split; [exact F|]. split; [now rewrite P|exact S'].
    + destruct (two_way_ok c a lo e st G ST) as [a' [new [E [P [ST' W']]]]]. rewrite E. cbn [rbind]. destruct (IH (S c) a' (rev new ++ st)) as [b [F [P' S']]]; auto; [rewrite weight_app; lia|].
      exists b. split; [exact F|]. split; [now rewrite P|exact S'].
Qed.
Theorem quick_select_ok a : klo <= khi <= length a -> exists out, quick_select qcmp klo khi a = Ok out /\ selection_of le klo khi a out.
Proof.
  intros H. unfold quick_select. destruct (Nat.leb_spec khi (length a)); [|lia]. destruct (Nat.leb_spec klo khi); [|lia]. cbn [andb].
  assert (ST : tstate a [(0, length a)]).
  { split; [constructor; [cbn; intros _; split; [lia|split; [apply below_0|now apply below_end]]|constructor]|]. split; [repeat constructor|].
    intros k _ NK. specialize (NK (0, length a) (or_introl eq_refl)). cbn in NK. destruct (Nat.eq_dec k 0) as [->|]; [apply below_0|apply below_end; lia]. }
  destruct (select_loop_ok (2 * length a + 2) 0 a [(0, length a)]) as [a' [E [P [_ [_ K]]]]]; [unfold weight; cbn [map fst snd list_sum fold_right]; lia|exact ST|].
  rewrite E. cbn [rbind]. exists (firstn khi a'). split; [reflexivity|]. exists (skipn khi a'). rewrite firstn_skipn. split; [exact P|].
  split; [rewrite firstn_length; apply Permutation_length in P; lia|]. intros k KR. apply below_split. apply K; [exact KR|easy].
Qed.
End Quick.
