(* Quicksort with revealed comparisons and top-k selection. *)
From Coq Require Import ZifyBool ZifyNat ZifyN.
From Verif Require Import Base Ring_model Party Ring_spec Prg_model Perm_model Perm_proof Sort_model Sort_spec Sort_proof Sortn_proof.
Open Scope nat_scope.

(* ---- the two-pointer scan ---- *)
Lemma scan_up_spec pred r : forall fuel left, r - left <= fuel -> left <= r ->
  let l' := scan_up fuel pred left r in left <= l' <= r /\ (forall x, left <= x < l' -> pred x = false) /\ (l' < r -> pred l' = true).
Proof.
  induction fuel as [|f IH]; intros left F L; cbn [scan_up].
  - assert (left = r) by lia. subst. cbn zeta. repeat split; try lia.
  - destruct (Nat.ltb_spec left r) as [G|G]; cbn [andb].
    + destruct (pred left) eqn:E; cbn [negb].
      * cbn zeta. repeat split; try lia; auto.
      * destruct (IH (S left)) as [H1 [H2 H3]]; try lia. cbn zeta. repeat split; try lia; auto.
        intros x X. destruct (Nat.eq_dec x left) as [->|N]; [exact E|]. apply H2. lia.
    + cbn zeta. repeat split; try lia.
Qed.
Lemma scan_down_spec pred left : forall fuel r, r - left <= fuel -> left <= r ->
  let r' := scan_down fuel pred left r in left <= r' <= r /\ (forall x, r' <= x < r -> pred x = true) /\ (left < r' -> pred (r' - 1) = false).
Proof.
  induction fuel as [|f IH]; intros r F L; cbn [scan_down].
  - assert (left = r) by lia. subst. cbn zeta. repeat split; try lia.
  - destruct (Nat.ltb_spec left r) as [G|G]; cbn [andb].
    + destruct (pred (r - 1)) eqn:E.
      * destruct (IH (r - 1)) as [H1 [H2 H3]]; try lia. cbn zeta. repeat split; try lia; auto.
        intros x X. destruct (Nat.eq_dec x (r - 1)) as [->|N]; [exact E|]. apply H2. lia.
      * cbn zeta. repeat split; try lia; auto.
    + cbn zeta. repeat split; try lia.
Qed.
Lemma scan_spec pred : forall fuel left r, r - left <= fuel -> left <= r ->
  exists ps m, scan fuel pred left r = (ps, (m, m)) /\ left <= m <= r /\
  (forall x y, In (x, y) ps -> left <= x < m /\ m <= y < r /\ pred x = true /\ pred y = false) /\
  (forall x, left <= x < m -> pred x = false \/ In x (map fst ps)) /\
  (forall x, m <= x < r -> pred x = true \/ In x (map snd ps)) /\ NoDup (map fst ps) /\ NoDup (map snd ps).
Proof.
  induction fuel as [|f IH]; intros left r F L.
  - assert (left = r) by lia. subst. exists [], r. unfold scan. rewrite Nat.sub_diag. cbn [scan_up]. rewrite Nat.sub_diag. cbn [scan_down].
    rewrite Nat.leb_refl. repeat split; try lia; try easy; constructor.
  - cbn [scan]. destruct (scan_up_spec pred r (r - left) left) as [U1 [U2 U3]]; try lia. set (l' := scan_up (r - left) pred left r) in *.
    destruct (scan_down_spec pred l' (r - l') r) as [D1 [D2 D3]]; try lia. set (r' := scan_down (r - l') pred l' r) in *.
    destruct (Nat.leb_spec r' l') as [G|G].
    + assert (r' = l') by lia. exists [], l'. rewrite H. repeat split; try lia; try easy; try constructor; [now apply U2|apply D2; lia].
    + specialize (U3 ltac:(lia)). specialize (D3 ltac:(lia)). assert (l' <> r' - 1) by congruence.
      destruct (IH (S l') (r' - 1)) as [ps [m [E [B [P1 [P2 [P3 [P4 P5]]]]]]]]; try lia. rewrite E. exists ((l', r' - 1) :: ps), m.
      split; [reflexivity|]. split; [lia|]. split; [|split; [|split; [|split]]].
      * intros x y [I|I]; [injection I as <- <-; repeat split; auto; lia|]. apply P1 in I. repeat split; try tauto; lia.
      * intros x X. cbn [map fst]. destruct (Nat.lt_ge_cases x l'); [left; apply U2; lia|]. destruct (Nat.eq_dec x l') as [->|N]; [right; now left|].
        destruct (P2 x ltac:(lia)); [now left|right; now right].
      * intros x X. cbn [map snd]. destruct (Nat.lt_ge_cases x r'); [|left; apply D2; lia]. destruct (Nat.eq_dec x (r' - 1)) as [->|N]; [right; now left|].
        destruct (P3 x ltac:(lia)); [now left|right; now right].
      * cbn [map fst]. constructor; [|exact P4]. intros I. apply in_fst in I. destruct I as [y I]. apply P1 in I. lia.
      * cbn [map snd]. constructor; [|exact P5]. intros I. apply in_snd in I. destruct I as [x I]. apply P1 in I. lia.
Qed.

(* ---- exchanges ---- *)
Definition posn (ps : list (nat * nat)) (i : nat) : Prop := In i (map fst ps) \/ In i (map snd ps).
Lemma posn_app ps qs i : posn (ps ++ qs) i <-> posn ps i \/ posn qs i.
Proof. unfold posn. rewrite !map_app, !in_app_iff. tauto. Qed.
Lemma posn_in ps l r : In (l, r) ps -> posn ps l /\ posn ps r.
Proof. intros I. split; [left; apply in_fst|right; apply in_snd]; eauto. Qed.
Lemma compat_app ps qs : compat ps -> compat qs -> (forall i, posn ps i -> posn qs i -> False) -> compat (ps ++ qs).
Proof.
  intros [A1 [A2 A3]] [B1 [B2 B3]] D. split; [|split].
  - rewrite map_app. apply NoDup_app_; auto. intros x I J. apply (D x); now left.
  - rewrite map_app. apply NoDup_app_; auto. intros x I J. apply (D x); now right.
  - intros l r l' r' I J E. apply in_app_iff in I, J. destruct I as [I|I], J as [J|J].
    + eapply A3; eauto.
    + exfalso. apply (D l); [now apply posn_in in I|subst; now apply posn_in in J].
    + exfalso. apply (D l); [subst; now apply posn_in in J|now apply posn_in in I].
    + eapply B3; eauto.
Qed.
Lemma inr_app n ps qs : inr n ps -> inr n qs -> inr n (ps ++ qs).
Proof. intros A B l r I. apply in_app_iff in I. destruct I; auto. Qed.
Lemma swapped_src (a : list row) ps (a' : list row) i : inr (length a) ps -> swapped a ps a' -> i < length a ->
  exists i', i' < length a /\ nth i a' [] = nth i' a [] /\ (i' = i \/ In (i, i') ps \/ In (i', i) ps).
Proof.
  intros R [S1 [S2 S3]] H. destruct (in_dec Nat.eq_dec i (map fst ps)) as [I|N1].
  - apply in_fst in I. destruct I as [r I]. exists r. pose proof (R _ _ I). split; [lia|]. split; [exact (proj1 (S2 _ _ I))|tauto].
  - destruct (in_dec Nat.eq_dec i (map snd ps)) as [I|N2].
    + apply in_snd in I. destruct I as [l I]. exists l. pose proof (R _ _ I). split; [lia|]. split; [exact (proj2 (S2 _ _ I))|tauto].
    + exists i. split; [exact H|]. split; [now apply S3|tauto].
Qed.

Section Order.
Variable le : row -> row -> bool.
Hypothesis TP : total_preorder le.
Definition below (a : list row) (k : nat) : Prop := forall i j, i < k -> k <= j < length a -> le (nth i a []) (nth j a []) = true.
Lemma below_split a k : below a k <-> split_at le a k.
Proof.
  split.
  - intros H i j x y I J Hx Hy. rewrite <- (row_nth _ _ _ Hx), <- (row_nth _ _ _ Hy). apply H; [exact I|]. split; [exact J|]. apply nth_error_Some. congruence.
  - intros H i j I J. destruct (nth_error_lt a i) as [x Hx]; [lia|]. destruct (nth_error_lt a j) as [y Hy]; [lia|].
    rewrite (row_nth _ _ _ Hx), (row_nth _ _ _ Hy). apply (H i j); auto; lia.
Qed.
Lemma below_0 a : below a 0.
Proof. intros i j H. lia. Qed.
Lemma below_end a k : length a <= k -> below a k.
Proof. intros L i j H. lia. Qed.
(* exchanges that do not cross k *)
Lemma below_swapped a ps a' k : inr (length a) ps -> swapped a ps a' -> (forall l r, In (l, r) ps -> (l < k <-> r < k)) -> below a k -> below a' k.
Proof.
  intros R S X B i j I J. pose proof S as [L _].
  destruct (Nat.lt_ge_cases i (length a)) as [Hi|Hi]; [|lia].
  destruct (swapped_src a ps a' i R S Hi) as [i' [I1 [I2 I3]]]. destruct (swapped_src a ps a' j R S ltac:(lia)) as [j' [J1 [J2 J3]]].
  rewrite I2, J2. apply B.
  - destruct I3 as [->|[I3|I3]]; auto; apply X in I3; lia.
  - split; [|exact J1]. destruct J3 as [->|[J3|J3]]; [lia| |]; apply X in J3; lia.
Qed.

(* ---- one pivot ---- *)
Definition rec : Type := (nat * nat * nat * list (nat * nat))%type.   (* lo, mid, end, exchanges *)
Definition rec_ok (a : list row) (rc : rec) : Prop :=
  let '(lo, mid, e, ps) := rc in
  lo <= mid < e /\ e <= length a /\
  (forall x y, In (x, y) ps -> lo < x <= mid /\ mid < y < e /\ le (nth lo a []) (nth x a []) = true /\ le (nth y a []) (nth lo a []) = true) /\
  (forall x, lo < x <= mid -> le (nth x a []) (nth lo a []) = true \/ In x (map fst ps)) /\
  (forall x, mid < x < e -> le (nth lo a []) (nth x a []) = true \/ In x (map snd ps)) /\ NoDup (map fst ps) /\ NoDup (map snd ps).
Definition rd : rec := (0, 0, 0, []).
Definition r_iv (rc : rec) : nat * nat := let '(lo, _, e, _) := rc in (lo, e).
Definition r_ps (rc : rec) : list (nat * nat) := let '(_, _, _, ps) := rc in ps.
Definition r_pv (rc : rec) : nat * nat := let '(lo, mid, _, _) := rc in (lo, mid).

Lemma scan_rec (a : list row) pred lo e : lo < e <= length a ->
  (forall x, lo < x < e -> (pred x = true -> le (nth lo a []) (nth x a []) = true) /\ (pred x = false -> le (nth x a []) (nth lo a []) = true)) ->
  exists ps mid, scan (e - lo) pred (S lo) e = (ps, (S mid, S mid)) /\ rec_ok a (lo, mid, e, ps).
Proof.
  intros H D. destruct (scan_spec pred (e - lo) (S lo) e) as [ps [m [E [B [P1 [P2 [P3 [P4 P5]]]]]]]]; try lia.
  exists ps, (m - 1). replace (S (m - 1)) with m by lia. split; [exact E|]. unfold rec_ok. split; [lia|]. split; [lia|]. split; [|split; [|split; [|split]]]; auto.
  - intros x y I. apply P1 in I. destruct I as [I1 [I2 [I3 I4]]]. split; [lia|]. split; [lia|]. split; [apply D in I3; auto; lia|apply D in I4; auto; lia].
  - intros x X. destruct (P2 x ltac:(lia)) as [Q|Q]; [left; apply D; auto; lia|now right].
  - intros x X. destruct (P3 x ltac:(lia)) as [Q|Q]; [left; apply D; auto; lia|now right].
Qed.

(* intervals without common positions *)
Definition inside (iv : nat * nat) (x : nat) : Prop := fst iv <= x < snd iv.
Definition apart (p q : nat * nat) : Prop := forall x, inside p x -> inside q x -> False.
Lemma rec_compat a rc : rec_ok a rc -> compat (r_ps rc) /\ inr (length a) (r_ps rc) /\ (forall x, posn (r_ps rc) x -> fst (r_iv rc) < x < snd (r_iv rc)).
Proof.
  destruct rc as [[[lo mid] e] ps]. intros [H1 [H2 [H3 [_ [_ [H6 H7]]]]]]. cbn [r_ps r_iv fst snd]. split; [split; [exact H6|split; [exact H7|]]|split].
  - intros l r l' r' I J E. apply H3 in I, J. lia.
  - intros l r I. apply H3 in I. lia.
  - intros x [I|I]; [apply in_fst in I|apply in_snd in I]; destruct I as [y I]; apply H3 in I; lia.
Qed.
Lemma recs_compat a : forall rs, Forall (rec_ok a) rs -> ForallOrdPairs apart (map r_iv rs) ->
  compat (flat_map r_ps rs) /\ inr (length a) (flat_map r_ps rs) /\ (forall x, posn (flat_map r_ps rs) x -> exists rc, In rc rs /\ posn (r_ps rc) x) /\
  compat (map r_pv rs) /\ inr (length a) (map r_pv rs) /\ (forall x, posn (map r_pv rs) x -> exists rc, In rc rs /\ (x = fst (r_pv rc) \/ x = snd (r_pv rc))).
Proof.
  assert (CN : compat []) by (split; [constructor|split; [constructor|easy]]). assert (IN : forall n, inr n []) by easy.
  induction rs as [|rc rs IH]; intros OK AP.
  - cbn. repeat split; auto; try (constructor; fail); try easy; intros x [[]|[]].
  - inversion OK as [|? ? O1 O2]; subst. cbn [map] in AP. inversion AP as [|? ? A1 A2]; subst.
    destruct (IH O2 A2) as [C1 [R1 [P1 [C2 [R2 P2]]]]]. destruct (rec_compat a rc O1) as [C3 [R3 P3]].
    assert (AP1 : forall rc', In rc' rs -> apart (r_iv rc) (r_iv rc')) by (intros rc' I; rewrite Forall_forall in A1; apply A1; now apply in_map).
    assert (PV : forall rc', rec_ok a rc' -> inside (r_iv rc') (fst (r_pv rc')) /\ inside (r_iv rc') (snd (r_pv rc')) /\ fst (r_pv rc') < length a /\ snd (r_pv rc') < length a).
    { intros [[[lo mid] e] ps] [H1 [H2 _]]. unfold inside. cbn. lia. }
    assert (P4 : forall x, posn (r_ps rc ++ flat_map r_ps rs) x -> exists rc', In rc' (rc :: rs) /\ posn (r_ps rc') x).
    { intros x X. apply posn_app in X. destruct X as [X|X]; [exists rc; split; [now left|exact X]|]. destruct (P1 x X) as [rc' [I X']]. exists rc'. split; [now right|exact X']. }
    cbn [flat_map map]. split; [|split; [now apply inr_app|split; [exact P4|]]].
    { apply compat_app; auto. intros i X Y. apply P3 in X. destruct (P1 i Y) as [rc' [I Y']]. apply (AP1 rc' I i); unfold inside; [lia|].
      rewrite Forall_forall in O2. apply (rec_compat a rc' (O2 _ I)) in Y'. lia. }
    split; [|split].
    + change (r_pv rc :: map r_pv rs) with ([r_pv rc] ++ map r_pv rs). apply compat_app; auto.
      * split; [repeat constructor; easy|]. split; [repeat constructor; easy|]. intros l r l' r' [I|[]] [J|[]] E. congruence.
      * intros i X Y. destruct (P2 i Y) as [rc' [I Y']]. rewrite Forall_forall in O2. specialize (PV rc' (O2 _ I)) as V'. specialize (PV rc O1) as V.
        apply (AP1 rc' I i).
        -- destruct X as [[X|[]]|[X|[]]]; subst i; tauto.
        -- destruct Y'; subst i; tauto.
    + intros l r [I|I]; [|now apply R2]. specialize (PV rc O1). rewrite I in PV. cbn in PV. tauto.
    + intros x [X|X]; cbn [map] in X; destruct X as [X|X]; try (exists rc; split; [now left|subst x; tauto]).
      * destruct (P2 x (or_introl X)) as [rc' [I X']]. exists rc'. split; [now right|exact X'].
      * destruct (P2 x (or_intror X)) as [rc' [I X']]. exists rc'. split; [now right|exact X'].
Qed.
Lemma ordpairs_in {A} (R : A -> A -> Prop) (l : list A) x y : (forall u v, R u v -> R v u) -> ForallOrdPairs R l -> In x l -> In y l -> x = y \/ R x y.
Proof. intros S H I J. destruct (ForallOrdPairs_In H x y I J) as [E|[E|E]]; auto. Qed.
Lemma apart_sym p q : apart p q -> apart q p.
Proof. intros H x A B. exact (H x B A). Qed.

(* all pivots at once *)
Lemma pivots_ok a rs : Forall (rec_ok a) rs -> ForallOrdPairs apart (map r_iv rs) ->
  exists a1 a2, swap_rows a (flat_map r_ps rs) = Ok a1 /\ swap_rows a1 (map r_pv rs) = Ok a2 /\ length a2 = length a /\ Permutation a a2 /\
  (forall k, (forall rc, In rc rs -> ~ fst (r_iv rc) < k < snd (r_iv rc)) -> below a k -> below a2 k) /\
  (forall lo mid e ps, In (lo, mid, e, ps) rs -> below a lo -> below a e -> below a2 mid /\ below a2 (S mid)).
Proof.
  intros OK AP. destruct (recs_compat a rs OK AP) as [C1 [R1 [P1 [C2 [R2 P2]]]]].
  destruct (swap_rows_ok a _ C1 R1) as [a1 [E1 S1]]. pose proof S1 as [L1 [S1a S1b]].
  rewrite <- L1 in R2. destruct (swap_rows_ok a1 _ C2 R2) as [a2 [E2 S2]]. pose proof S2 as [L2 [S2a S2b]].
  assert (BK : forall k, (forall rc, In rc rs -> ~ fst (r_iv rc) < k < snd (r_iv rc)) -> below a k -> below a2 k).
  { intros k NK B. apply (below_swapped a1 (map r_pv rs) a2 k R2 S2).
    - intros l r I. apply in_map_iff in I. destruct I as [rc [E I]]. specialize (NK rc I). rewrite Forall_forall in OK. specialize (OK rc I).
      destruct rc as [[[lo mid] e] ps]. cbn in *. injection E as <- <-. destruct OK as [O1 _]. lia.
    - apply (below_swapped a (flat_map r_ps rs) a1 k R1 S1); [|exact B].
      intros l r I. apply in_flat_map in I. destruct I as [rc [I E]]. specialize (NK rc I). rewrite Forall_forall in OK. specialize (OK rc I).
      destruct rc as [[[lo mid] e] ps]. cbn in *. destruct OK as [O1 [_ [O3 _]]]. apply O3 in E. lia. }
  exists a1, a2. split; [exact E1|]. split; [exact E2|]. split; [congruence|]. split; [|split; [exact BK|]].
  { transitivity a1; [now apply (swapped_perm a (flat_map r_ps rs))|now apply (swapped_perm a1 (map r_pv rs))]. }
  intros lo mid e ps I Blo Be.
  assert (OKr := OK). rewrite Forall_forall in OKr. pose proof (OKr _ I) as [O1 [O2 [O3 [O4 [O5 [O6 O7]]]]]].
  assert (UNI : forall rc x, In rc rs -> lo <= x < e -> inside (r_iv rc) x -> r_iv rc = (lo, e)).
  { intros rc x J X Y. destruct (ordpairs_in apart (map r_iv rs) (r_iv rc) (lo, e) apart_sym AP) as [E|E]; [now apply in_map|apply (in_map r_iv) in I; exact I|exact E|].
    exfalso. exact (E x Y X). }
  assert (ND : forall rc x, In rc rs -> lo <= x < e -> inside (r_iv rc) x -> rc = (lo, mid, e, ps)).
  { intros rc x J X Y. destruct (In_nth _ _ rd I) as [u [U1 U2]]. destruct (In_nth _ _ rd J) as [v [V1 V2]].
    destruct (Nat.eq_dec u v) as [->|N]; [congruence|exfalso].
    assert (G : forall (l : list (nat * nat)) u v d, ForallOrdPairs apart l -> u < v < length l -> apart (nth u l d) (nth v l d)).
    { clear. intros l u v d H. revert u v. induction H as [|q l Q1 Q2 IHl]; intros u v B; cbn in B; [lia|]. destruct v as [|v]; [lia|]. destruct u as [|u].
      - cbn [nth]. rewrite Forall_forall in Q1. apply Q1. apply nth_In. lia.
      - cbn [nth]. apply IHl. lia. }
    assert (Iu : nth u (map r_iv rs) (r_iv rd) = (lo, e)) by (rewrite map_nth, U2; reflexivity).
    assert (Iv : nth v (map r_iv rs) (r_iv rd) = r_iv rc) by (rewrite map_nth, V2; reflexivity).
    destruct (Nat.lt_gt_cases u v) as [[W|W] _]; [exact N| |].
    - specialize (G (map r_iv rs) u v (r_iv rd) AP ltac:(rewrite map_length; lia)). rewrite Iu, Iv in G. exact (G x X Y).
    - specialize (G (map r_iv rs) v u (r_iv rd) AP ltac:(rewrite map_length; lia)). rewrite Iu, Iv in G. exact (G x Y X). }
  assert (Q : forall x y, In (x, y) ps -> In (x, y) (flat_map r_ps rs)) by (intros x y J; apply in_flat_map; exists (lo, mid, e, ps); split; auto).
  (* contents after the first exchange *)
  assert (N1 : forall x, lo <= x < e -> ~ posn ps x -> nth x a1 [] = nth x a []).
  { intros x X NP. apply S1b; intros J.
    - destruct (P1 x (or_introl J)) as [rc [J1 J2]]. assert (rc = (lo, mid, e, ps)); [|subst rc; exact (NP J2)].
      apply (ND rc x J1 X). apply (rec_compat a rc (OKr _ J1)) in J2. unfold inside. lia.
    - destruct (P1 x (or_intror J)) as [rc [J1 J2]]. assert (rc = (lo, mid, e, ps)); [|subst rc; exact (NP J2)].
      apply (ND rc x J1 X). apply (rec_compat a rc (OKr _ J1)) in J2. unfold inside. lia. }
  set (p := nth lo a []). assert (Rp : le p p = true) by (destruct TP as [T _]; destruct (T p p); auto).
  assert (A1lo : nth lo a1 [] = p).
  { apply N1; [lia|]. intros [J|J]; [apply in_fst in J|apply in_snd in J]; destruct J as [y J]; apply O3 in J; lia. }
  assert (A1l : forall x, lo < x <= mid -> le (nth x a1 []) p = true).
  { intros x X. destruct (in_dec Nat.eq_dec x (map fst ps)) as [J|J].
    - apply in_fst in J. destruct J as [y J]. destruct (S1a x y (Q _ _ J)) as [-> _]. now apply O3 in J.
    - rewrite N1; [|lia|].
      + destruct (O4 x X); [assumption|contradiction].
      + intros [K|K]; [contradiction|]. apply in_snd in K. destruct K as [z K]. apply O3 in K. lia. }
  assert (A1r : forall x, mid < x < e -> le p (nth x a1 []) = true).
  { intros x X. destruct (in_dec Nat.eq_dec x (map snd ps)) as [J|J].
    - apply in_snd in J. destruct J as [y J]. destruct (S1a y x (Q _ _ J)) as [_ ->]. now apply O3 in J.
    - rewrite N1; [|lia|].
      + destruct (O5 x X); [assumption|contradiction].
      + intros [K|K]; [|contradiction]. apply in_fst in K. destruct K as [z K]. apply O3 in K. lia. }
  (* contents after the pivots moved *)
  assert (PVi : In (lo, mid) (map r_pv rs)) by (apply in_map_iff; exists (lo, mid, e, ps); split; auto).
  destruct (S2a lo mid PVi) as [A2lo A2mid]. rewrite A1lo in A2mid.
  assert (N2 : forall x, lo <= x < e -> x <> lo -> x <> mid -> nth x a2 [] = nth x a1 []).
  { intros x X X1 X2. apply S2b; intros J.
    - destruct (P2 x (or_introl J)) as [rc [J1 J2]]. assert (rc = (lo, mid, e, ps)); [|subst rc; cbn in J2; lia].
      apply (ND rc x J1 X). pose proof (OKr _ J1) as K. destruct rc as [[[lo' mid'] e'] ps']. destruct K as [K1 _]. unfold inside. cbn in *. lia.
    - destruct (P2 x (or_intror J)) as [rc [J1 J2]]. assert (rc = (lo, mid, e, ps)); [|subst rc; cbn in J2; lia].
      apply (ND rc x J1 X). pose proof (OKr _ J1) as K. destruct rc as [[[lo' mid'] e'] ps']. destruct K as [K1 _]. unfold inside. cbn in *. lia. }
  assert (A2l : forall x, lo <= x <= mid -> le (nth x a2 []) p = true).
  { intros x X. destruct (Nat.eq_dec x mid) as [->|X1]; [now rewrite A2mid|]. destruct (Nat.eq_dec x lo) as [->|X2]; [rewrite A2lo; apply A1l; lia|].
    rewrite N2 by lia. apply A1l. lia. }
  assert (A2r : forall x, mid <= x < e -> le p (nth x a2 []) = true).
  { intros x X. destruct (Nat.eq_dec x mid) as [->|X1]; [now rewrite A2mid|]. rewrite N2 by lia. apply A1r. lia. }
  assert (NI : forall k, k = lo \/ k = e -> forall rc, In rc rs -> ~ fst (r_iv rc) < k < snd (r_iv rc)).
  { intros k K rc J X. destruct K; subst k.
    - assert (rc = (lo, mid, e, ps)) by (apply (ND rc lo J); [lia|unfold inside; lia]). subst rc. cbn in X. lia.
    - assert (rc = (lo, mid, e, ps)) by (apply (ND rc (e - 1) J); [lia|unfold inside; lia]). subst rc. cbn in X. lia. }
  pose proof (BK lo (NI lo (or_introl eq_refl)) Blo) as Blo2. pose proof (BK e (NI e (or_intror eq_refl)) Be) as Be2.
  destruct TP as [_ TR].
  split; intros i j Hi Hj.
  - destruct (Nat.lt_ge_cases i lo); [apply Blo2; lia|]. destruct (Nat.le_gt_cases e j); [apply Be2; lia|]. apply (TR _ p); [apply A2l; lia|apply A2r; lia].
  - destruct (Nat.lt_ge_cases i lo); [apply Blo2; lia|]. destruct (Nat.le_gt_cases e j); [apply Be2; lia|]. apply (TR _ p); [apply A2l; lia|apply A2r; lia].
Qed.
End Order.
