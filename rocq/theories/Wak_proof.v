(* The routing loop of one level of the network: every packet is routed, consistently on both sides. *)
From Verif Require Import Base Prg_model Perm_model Perm_proof Wak_model.
From Coq Require Import ZifyBool ZifyNat.
Open Scope nat_scope.
Ltac Zify.zify_post_hook ::= Z.to_euclidean_division_equations.

Definition upd {A} (f : nat -> A) (i : nat) (x : A) : nat -> A := fun j => if j =? i then x else f j.
Lemma upd_same {A} (f : nat -> A) i x : upd f i x i = x.
Proof. unfold upd. now rewrite Nat.eqb_refl. Qed.
Lemma upd_ne {A} (f : nat -> A) i x j : j <> i -> upd f i x j = f j.
Proof. unfold upd. intros. now rewrite (proj2 (Nat.eqb_neq _ _)). Qed.
Lemma nth_set_nth {A} (l : list A) : forall i j x d, i < length l -> nth j (set_nth l i x) d = if j =? i then x else nth j l d.
Proof. induction l as [|a l IH]; intros [|i] [|j] x d H; cbn in *; try lia; try reflexivity. now rewrite IH by lia. Qed.

Section Level.
Variables (sz left right lo : nat) (P Q : nat -> nat).
Hypothesis SZ : 3 <= sz.
Hypothesis LR : left <> right.
Let hi := lo + sz - 1.
Let d := sz / 2.
Definition inside (i : nat) : Prop := lo <= i <= hi.
Hypothesis P_in : forall i, inside i -> inside (P i).
Hypothesis Q_in : forall i, inside i -> inside (Q i).
Hypothesis PQ : forall i, inside i -> P (Q i) = i.
Hypothesis QP : forall i, inside i -> Q (P i) = i.
Variable r0 : routing.

Definition sw (w : nat) : Prop := lo <= w /\ (w - lo) mod 2 = 0 /\ w + 1 <= hi.
Definition odd : Prop := sz mod 2 = 1.
Definition wire (i : nat) (b : bool) : nat := lo + (i - lo) / 2 + (if b then 0 else d).
Definition top (r : routing) (c i : nat) : bool := match r c (row lo i) with Some s => xorb (row lo i =? i) s | None => false end.
Notation row := (row lo).
Notation other := (other lo).

Lemma row_cases i : lo <= i -> (row i = i /\ (i - lo) mod 2 = 0) \/ (row i + 1 = i /\ (i - lo) mod 2 = 1).
Proof. unfold Wak_model.row. lia. Qed.
Lemma row_sw i : inside i -> sw (row i) \/ (odd /\ i = hi /\ row i = hi).
Proof. unfold inside, sw, odd, Wak_model.row, hi. lia. Qed.
Lemma row_row i : row (row i) = row i.
Proof. unfold Wak_model.row. lia. Qed.
Lemma row_of w : sw w -> row w = w /\ row (w + 1) = w.
Proof. unfold sw, Wak_model.row. lia. Qed.
Lemma other_row i : lo <= i -> row (other i) = row i.
Proof. unfold Wak_model.other, Wak_model.row. lia. Qed.
Lemma other_other i : lo <= i -> other (other i) = i.
Proof. unfold Wak_model.other, Wak_model.row. lia. Qed.
Lemma other_cases i : lo <= i -> (row i = i /\ other i = row i + 1) \/ (i = row i + 1 /\ other i = row i).
Proof. unfold Wak_model.other, Wak_model.row. lia. Qed.
Lemma other_in i : inside i -> sw (row i) -> inside (other i).
Proof. unfold inside, sw. intros H W. destruct (other_cases i); lia. Qed.
Lemma same_row i j : lo <= i -> lo <= j -> row i = row j -> i = j \/ i = other j.
Proof. unfold Wak_model.other, Wak_model.row. lia. Qed.
Lemma half_row i j : lo <= i -> lo <= j -> (i - lo) / 2 = (j - lo) / 2 -> row i = row j.
Proof. unfold Wak_model.row. lia. Qed.
Lemma wire_in i b : inside i -> (sw (row i) \/ b = false) -> inside (wire i b).
Proof. unfold inside, sw, wire, d, hi, Wak_model.row. destruct b; intros; [destruct H0; [|discriminate]|]; lia. Qed.
Lemma wire_low i b : inside i -> (sw (row i) \/ b = false) -> wire i b < lo + d <-> b = true.
Proof. unfold inside, sw, wire, d, hi, Wak_model.row. destruct b; intros; [destruct H0; [|discriminate]|]; split; intros; try reflexivity; try discriminate; lia. Qed.
Lemma wire_inj i j a b : inside i -> inside j -> (sw (row i) \/ a = false) -> (sw (row j) \/ b = false) -> wire i a = wire j b -> a = b /\ row i = row j.
Proof.
  intros Hi Hj A B E. assert (AB : a = b). { destruct (wire_low i a Hi A), (wire_low j b Hj B). rewrite E in *. destruct a, b; intuition congruence. }
  split; [exact AB|]. subst b. apply half_row; [unfold inside in *; lia..|]. unfold wire in E. lia.
Qed.
Lemma switch_wire_ok i b : inside i -> sw (row i) -> switch_wire sz lo (row i) b = Ok (wire i b).
Proof.
  intros Hi W. unfold switch_wire, wire, top_height. fold d. unfold sw in W. replace ((row i - lo) mod 2 =? 0) with true by (unfold hi in *; lia).
  replace (row i - lo + 1 <? sz) with true by (unfold hi in *; lia). cbn [andb]. replace ((row i - lo) / 2) with ((i - lo) / 2); [reflexivity|]. unfold Wak_model.row. lia.
Qed.
Lemma top_set r c i b : lo <= i -> top (set_bit r c (row i) (setting_of lo i b)) c i = b.
Proof. intros H. unfold top, set_bit, setting_of. rewrite !Nat.eqb_refl. cbn [andb]. rewrite (Nat.eqb_sym i). now destruct (row i =? i), b. Qed.
Lemma top_decision r c i s : r c (row i) = Some s -> decision_of lo i s = top r c i.
Proof. intros E. unfold top. now rewrite E. Qed.
Lemma top_other r c i : lo <= i -> r c (row i) <> None -> top r c (other i) = negb (top r c i).
Proof.
  intros H N. unfold top. rewrite other_row by exact H. destruct (r c (row i)) as [s|]; [|contradiction].
  destruct (other_cases i H) as [[A B]|[A B]].
  - rewrite B. rewrite (proj2 (Nat.eqb_neq (row i) (row i + 1))) by lia. rewrite (proj2 (Nat.eqb_eq (row i) i)) by lia. now destruct s.
  - rewrite B, Nat.eqb_refl. rewrite (proj2 (Nat.eqb_neq (row i) i)) by lia. now destruct s.
Qed.
Lemma top_ext r r' c i : r' c (row i) = r c (row i) -> top r' c i = top r c i.
Proof. unfold top. now intros ->. Qed.
Lemma set_bit_same r c w b : set_bit r c w b c w = Some b.
Proof. unfold set_bit. now rewrite !Nat.eqb_refl. Qed.
Lemma set_bit_other r c w b c' w' : c' <> c \/ w' <> w -> set_bit r c w b c' w' = r c' w'.
Proof. unfold set_bit. intros H. destruct (Nat.eqb_spec c' c), (Nat.eqb_spec w' w); cbn; try reflexivity. lia. Qed.

(* ---- the invariant that holds throughout ---- *)
Record core (r : routing) (p q : nat -> nat) (R : nat -> bool) : Prop := mkCore {
  c_in : forall i, inside i -> R i = true -> top r left i = top r right (P i) /\ p (wire i (top r left i)) = wire (P i) (top r left i) /\ q (wire (P i) (top r left i)) = wire i (top r left i);
  c_l : forall w, sw w -> R w = true \/ R (w + 1) = true -> r left w <> None;
  c_l0 : forall w, sw w -> r left w <> None -> R w = true \/ R (w + 1) = true \/ (~ odd /\ w = hi - 1);
  c_fix : ~ odd -> r left (hi - 1) = Some false;
  c_odd : odd -> R hi = true;
  c_rr : forall w, sw w -> R (Q w) = true -> R (Q (w + 1)) = true -> r right w <> None;
  c_frame : forall c w, (c = left \/ c = right) /\ sw w \/ r c w = r0 c w }.
Hypothesis R0 : forall c i, c = left \/ c = right -> inside i -> r0 c i = None.

Lemma top_single r c : odd -> (forall c w, (c = left \/ c = right) /\ sw w \/ r c w = r0 c w) -> c = left \/ c = right -> top r c hi = false.
Proof.
  intros O F C. unfold top. assert (E : row hi = hi) by (unfold odd, Wak_model.row, hi in *; lia). rewrite E. destruct (F c hi) as [[_ W]|E0]; [unfold sw in W; lia|].
  rewrite E0, R0; auto. unfold inside, hi. lia.
Qed.
Lemma top_side r c i : (forall c w, (c = left \/ c = right) /\ sw w \/ r c w = r0 c w) -> c = left \/ c = right -> inside i -> sw (row i) \/ top r c i = false.
Proof. intros F C Hi. destruct (row_sw i Hi) as [W|[O [-> _]]]; [now left|right; now apply top_single]. Qed.

Lemma core_mark r p q R i r' b : core r p q R -> inside i ->
  (forall j, inside j -> R j = true -> top r' left j = top r left j /\ top r' right (P j) = top r right (P j)) ->
  top r' left i = b -> top r' right (P i) = b ->
  (forall w, sw w -> upd R i true w = true \/ upd R i true (w + 1) = true -> r' left w <> None) ->
  (forall w, sw w -> r' left w <> None -> upd R i true w = true \/ upd R i true (w + 1) = true \/ (~ odd /\ w = hi - 1)) ->
  (~ odd -> r' left (hi - 1) = Some false) ->
  (forall w, sw w -> upd R i true (Q w) = true -> upd R i true (Q (w + 1)) = true -> r' right w <> None) ->
  (forall c w, (c = left \/ c = right) /\ sw w \/ r' c w = r0 c w) ->
  core r' (upd p (wire i b) (wire (P i) b)) (upd q (wire (P i) b) (wire i b)) (upd R i true).
Proof.
  intros C Hi KEEP TL TR CL CL0 FIX CRR FR. constructor; auto.
  - intros j Hj Rj. destruct (Nat.eq_dec j i) as [->|NE].
    { rewrite TL, TR, !upd_same. auto. }
    rewrite upd_ne in Rj by exact NE. destruct (KEEP j Hj Rj) as [KL KR]. destruct (c_in _ _ _ _ C j Hj Rj) as (E & EP & EQ). split; [congruence|]. rewrite KL.
    assert (SJ := top_side r' left j FR (or_introl eq_refl) Hj). assert (SI := top_side r' left i FR (or_introl eq_refl) Hi). rewrite TL in SI. rewrite KL in SJ.
    assert (SPJ := top_side r' right (P j) FR (or_intror eq_refl) (P_in j Hj)). assert (SPI := top_side r' right (P i) FR (or_intror eq_refl) (P_in i Hi)). rewrite TR in SPI. rewrite KR, <- E in SPJ.
    assert (W1 : wire j (top r left j) <> wire i b).
    { intros W. destruct (wire_inj j i _ _ Hj Hi SJ SI W) as [T RW]. assert (J : j = other i) by (destruct (same_row j i ltac:(unfold inside in *; lia) ltac:(unfold inside in *; lia) RW); [contradiction|assumption]).
      assert (SW : sw (row i)) by (destruct (row_sw i Hi) as [?|[O [-> RH]]]; [assumption|]; exfalso; unfold inside, hi, Wak_model.other, Wak_model.row, odd in *; lia).
      assert (N : r' left (row i) <> None). { apply CL; [exact SW|]. destruct (row_cases i ltac:(unfold inside in *; lia)) as [[A _]|[A _]]; [left; rewrite A|right; rewrite A]; apply upd_same. }
      pose proof (top_other r' left i ltac:(unfold inside in *; lia) N) as TO. rewrite <- J, KL, T, TL in TO. now destruct b. }
    assert (W2 : wire (P j) (top r left j) <> wire (P i) b).
    { intros W. assert (HPi := P_in i Hi). assert (HPj := P_in j Hj). destruct (wire_inj (P j) (P i) _ _ HPj HPi SPJ SPI W) as [T RW].
      assert (PN : P j <> P i) by (intros X; apply NE; rewrite <- (QP j Hj), <- (QP i Hi); congruence).
      assert (J : P j = other (P i)) by (destruct (same_row (P j) (P i) ltac:(unfold inside in *; lia) ltac:(unfold inside in *; lia) RW); [contradiction|assumption]).
      assert (SW : sw (row (P i))) by (destruct (row_sw (P i) HPi) as [?|[O [EH RH]]]; [assumption|]; exfalso; rewrite EH in J; clear - J HPj O SZ; unfold inside, hi, Wak_model.other, Wak_model.row, odd in *; lia).
      assert (R1 : upd R i true (Q (P i)) = true) by (rewrite QP by exact Hi; apply upd_same).
      assert (R2 : upd R i true (Q (P j)) = true) by (rewrite QP by exact Hj; now rewrite upd_ne).
      assert (N : r' right (row (P i)) <> None). { apply CRR; [exact SW|..]; destruct (other_cases (P i) ltac:(unfold inside in *; lia)) as [[A B]|[A B]]; congruence. }
      pose proof (top_other r' right (P i) ltac:(unfold inside in *; lia) N) as TO. rewrite <- J, KR, <- E, T, TR in TO. now destruct b. }
    split; [rewrite upd_ne by exact W1; exact EP|rewrite upd_ne by exact W2; exact EQ].
  - intros O. unfold upd. destruct (hi =? i); [reflexivity|now apply (c_odd _ _ _ _ C)].
Qed.
(* ---- one step from the left, one step from the right ---- *)
Definition first_bit (r : routing) (i : nat) : routing := match r left (row i) with None => set_bit r left (row i) false | Some _ => r end.
Definition fwd_bits (r1 : routing) (o : nat) (b : bool) : routing := if o =? hi then r1 else set_bit r1 right (row o) (setting_of lo o b).
Lemma inside_lo i : inside i -> lo <= i.
Proof. unfold inside. lia. Qed.
Hint Resolve inside_lo : core.
Lemma row_ends i : lo <= i -> i = row i \/ i = row i + 1.
Proof. unfold Wak_model.row. lia. Qed.
Lemma sw_in w : sw w -> inside w /\ inside (w + 1).
Proof. unfold sw, inside. lia. Qed.
Lemma not_hi_sw o : inside o -> o <> hi -> sw (row o).
Proof. intros H N. destruct (row_sw o H) as [?|[_ [? _]]]; [assumption|contradiction]. Qed.
Lemma row_hi_even : ~ odd -> row hi = hi - 1 /\ sw (hi - 1) /\ other hi = hi - 1 /\ other (hi - 1) = hi /\ row (hi - 1) = hi - 1.
Proof. unfold odd, sw, Wak_model.other, Wak_model.row, hi. lia. Qed.
Lemma row_hi_odd : odd -> row hi = hi /\ ~ sw hi.
Proof. unfold odd, sw, Wak_model.row, hi. lia. Qed.
Lemma row_routed r p q R i : core r p q R -> inside i -> sw (row i) -> r left (row i) = None -> R i = false /\ R (other i) = false.
Proof.
  intros C Hi W E. pose proof (c_l _ _ _ _ C (row i) W) as N. rewrite E in N.
  destruct (R (row i)) eqn:E1; [exfalso; apply N; auto|]. destruct (R (row i + 1)) eqn:E2; [exfalso; apply N; auto|].
  destruct (other_cases i (inside_lo _ Hi)) as [[A B]|[A B]]; rewrite B; split; congruence.
Qed.
Lemma first_bit_top r p q R i j : core r p q R -> inside i -> sw (row i) -> inside j -> R j = true -> top (first_bit r i) left j = top r left j.
Proof.
  intros C Hi W Hj Rj. unfold first_bit. destruct (r left (row i)) eqn:E; [reflexivity|]. destruct (row_routed _ _ _ _ _ C Hi W E) as [A B]. apply top_ext, set_bit_other. right.
  intros X. destruct (same_row j i (inside_lo _ Hj) (inside_lo _ Hi) X); congruence.
Qed.
Lemma first_bit_right r i w : first_bit r i right w = r right w.
Proof. unfold first_bit. destruct (r left (row i)); [reflexivity|]. apply set_bit_other. left. congruence. Qed.
Lemma first_bit_set r i : first_bit r i left (row i) <> None.
Proof. unfold first_bit. destruct (r left (row i)) eqn:E; [congruence|]. now rewrite set_bit_same. Qed.
Lemma first_bit_left r i w : w <> row i -> first_bit r i left w = r left w.
Proof. intros H. unfold first_bit. destruct (r left (row i)); [reflexivity|]. apply set_bit_other. now right. Qed.
Lemma first_bit_frame r p q R i c w : core r p q R -> inside i -> sw (row i) -> (c = left \/ c = right) /\ sw w \/ first_bit r i c w = r0 c w.
Proof.
  intros C Hi W. destruct (c_frame _ _ _ _ C c w) as [H|H]; [now left|]. unfold first_bit. destruct (r left (row i)); [now right|]. unfold set_bit.
  destruct (Nat.eqb_spec c left), (Nat.eqb_spec w (row i)); cbn [andb]; auto. subst c w. left. auto.
Qed.
Lemma upd_row R i w : lo <= i -> sw w -> (upd R i true w = true \/ upd R i true (w + 1) = true) -> (w = row i) \/ (w <> row i /\ (R w = true \/ R (w + 1) = true)).
Proof.
  intros Hi W H. destruct (Nat.eq_dec w (row i)) as [E|NE]; [now left|]. right. split; [exact NE|]. unfold upd in H.
  destruct (row_of w W) as [A B]. destruct (Nat.eqb_spec w i) as [<-|]; [congruence|]. destruct (Nat.eqb_spec (w + 1) i) as [<-|]; [congruence|]. exact H.
Qed.
Lemma upd_row_true (R : nat -> bool) i : lo <= i -> upd R i true (row i) = true \/ upd R i true (row i + 1) = true.
Proof. intros Hi. destruct (row_ends i Hi) as [E|E]; [left; rewrite <- E|right; rewrite <- E]; apply upd_same. Qed.
Lemma upd_true (R : nat -> bool) i j : R j = true -> upd R i true j = true.
Proof. unfold upd. now destruct (j =? i). Qed.

Lemma forward_core r p q R i b : core r p q R -> inside i -> R i = false -> sw (row i) -> top (first_bit r i) left i = b ->
  (P i = hi /\ b = false /\ r right (row hi) = None /\ (~ odd -> R (Q (hi - 1)) = false)) \/
  (P i <> hi /\ r right (row (P i)) = None /\ (R (Q (other (P i))) = true -> top r right (other (P i)) = negb b)) ->
  core (fwd_bits (first_bit r i) (P i) b) (upd p (wire i b) (wire (P i) b)) (upd q (wire (P i) b) (wire i b)) (upd R i true).
Proof.
  intros C Hi Ri W TB CASES. set (r1 := first_bit r i). set (o := P i) in *. assert (Ho : inside o) by now apply P_in. set (r' := fwd_bits r1 o b).
  assert (EL : forall w, r' left w = r1 left w) by (intros w; unfold r', fwd_bits; destruct (o =? hi); [reflexivity|]; apply set_bit_other; now left).
  assert (TR : top r' right o = b).
  { unfold r', fwd_bits. destruct (Nat.eqb_spec o hi) as [E|NE]; [|apply top_set; auto]. destruct CASES as [(_ & -> & N & _)|(X & _)]; [|contradiction].
    unfold top. unfold r1. rewrite first_bit_right, E, N. reflexivity. }
  assert (QI : Q o = i) by (apply QP; exact Hi).
  apply (core_mark r p q R i r' b C Hi); auto.
  - intros j Hj Rj. split; [transitivity (top r1 left j); [apply top_ext, EL|now apply (first_bit_top r p q R)]|].
    unfold r', fwd_bits. destruct (Nat.eqb_spec o hi) as [E|NE]; [apply top_ext; apply first_bit_right|].
    destruct (Nat.eq_dec (row (P j)) (row o)) as [E|NR]; [|transitivity (top r1 right (P j)); apply top_ext; [apply set_bit_other; now right|apply first_bit_right]].
    assert (PJ : P j = other o). { destruct (same_row (P j) o (inside_lo _ (P_in _ Hj)) (inside_lo _ Ho) E) as [X|X]; [|exact X]. exfalso. assert (j = i) by (rewrite <- (QP j Hj), X; exact QI). congruence. }
    destruct CASES as [(X & _)|(_ & _ & K)]; [contradiction|]. rewrite PJ. rewrite K by (rewrite <- PJ, QP; auto). rewrite top_other; auto; [|rewrite set_bit_same; discriminate].
    now rewrite top_set by auto.
  - transitivity (top r1 left i); [apply top_ext, EL|exact TB].
  - intros w Sw H. rewrite EL. destruct (upd_row R i w (inside_lo _ Hi) Sw H) as [->|[NE H']]; [apply first_bit_set|]. unfold r1. rewrite first_bit_left by exact NE. now apply (c_l _ _ _ _ C).
  - intros w Sw H. rewrite EL in H. destruct (Nat.eq_dec w (row i)) as [->|NE]; [destruct (upd_row_true R i (inside_lo _ Hi)); auto|]. unfold r1 in H. rewrite first_bit_left in H by exact NE.
    destruct (c_l0 _ _ _ _ C w Sw H) as [X|[X|X]]; auto using upd_true.
  - intros E. rewrite EL. destruct (Nat.eq_dec (hi - 1) (row i)) as [X|NE]; [|unfold r1; rewrite first_bit_left by exact NE; now apply (c_fix _ _ _ _ C)].
    unfold r1, first_bit. rewrite <- X. rewrite (c_fix _ _ _ _ C E). now apply (c_fix _ _ _ _ C).
  - intros w Sw A B. destruct (Nat.eq_dec w (row o)) as [X|NE].
    + unfold r', fwd_bits. destruct (Nat.eqb_spec o hi) as [E|NH]; [|subst w; rewrite set_bit_same; discriminate]. exfalso. destruct CASES as [(_ & _ & _ & K)|(X' & _)]; [|contradiction].
      destruct (row_sw hi) as [SH|[O _]]; [unfold inside, hi; lia| |]. { assert (NO : ~ odd). { intros O. apply (proj2 (row_hi_odd O)). destruct (row_hi_odd O) as [EH _]. now rewrite EH in SH. }
        destruct (row_hi_even NO) as (RH & _). rewrite E, RH in X. specialize (K NO). rewrite X in A. rewrite upd_ne in A; [congruence|]. rewrite <- QI, E. intros Y. assert (hi - 1 = hi) by (transitivity (P (Q (hi - 1))); [symmetry; apply PQ|rewrite Y; apply PQ]; unfold inside, hi; lia). unfold hi in *; lia. }
      rewrite E in X. destruct (row_hi_odd O) as [EH NS]. rewrite EH in X. subst w. contradiction.
    + assert (HW := sw_in w Sw). assert (N1 : Q w <> i). { intros Y. apply NE. assert (w = o) by (rewrite <- (PQ w), Y; [reflexivity|apply HW]). subst w. now destruct (row_of o Sw). }
      assert (N2 : Q (w + 1) <> i). { intros Y. apply NE. assert (w + 1 = o) by (rewrite <- (PQ (w + 1)), Y; [reflexivity|apply HW]). destruct (row_of w Sw) as [_ X]. congruence. }
      rewrite upd_ne in A, B by assumption. assert (K := c_rr _ _ _ _ C w Sw A B). unfold r', fwd_bits. destruct (o =? hi); [|rewrite set_bit_other by (now right)]; unfold r1; now rewrite first_bit_right.
  - intros c w. unfold r', fwd_bits. destruct (Nat.eqb_spec o hi); [now apply (first_bit_frame r p q R)|]. destruct (first_bit_frame r p q R i c w C Hi W) as [X|X]; [now left|]. fold r1 in X.
    unfold set_bit. destruct (Nat.eqb_spec c right), (Nat.eqb_spec w (row o)); cbn [andb]; auto. subst c w. left. split; [auto|]. now apply not_hi_sw.
Qed.
Lemma backward_core r p q R o b : core r p q R -> inside o -> sw (row o) -> r right (row o) <> None -> top r right o = b -> sw (row (Q o)) ->
  r left (row (Q o)) = None \/ top r left (Q o) = b ->
  core (set_bit r left (row (Q o)) (setting_of lo (Q o) b)) (upd p (wire (Q o) b) (wire o b)) (upd q (wire o b) (wire (Q o) b)) (upd R (Q o) true).
Proof.
  intros C Ho SO NO TB SI CASES. set (i := Q o) in *. assert (Hi : inside i) by now apply Q_in. assert (PI : P i = o) by now apply PQ. set (r' := set_bit _ _ _ _).
  assert (ER : forall w, r' right w = r right w) by (intros w; apply set_bit_other; left; congruence).
  assert (EL : forall w, w <> row i -> r' left w = r left w) by (intros w H; apply set_bit_other; now right).
  assert (SAME : r left (row i) <> None -> r' left (row i) = r left (row i)).
  { intros N. destruct CASES as [X|X]; [contradiction|]. unfold r'. rewrite set_bit_same. unfold top in X. destruct (r left (row i)) as [s|]; [|contradiction]. f_equal. rewrite <- X. unfold setting_of.
    rewrite (Nat.eqb_sym i). now destruct (row i =? i), s. }
  assert (K := core_mark r p q R i r' b C Hi). rewrite PI in K. apply K; auto; clear K.
  - intros j Hj Rj. split; [|apply top_ext, ER]. apply top_ext. destruct (Nat.eq_dec (row j) (row i)) as [E|NE]; [rewrite E|now apply EL]. apply SAME. rewrite <- E.
    apply (c_l _ _ _ _ C); [now rewrite E|]. destruct (row_ends j (inside_lo _ Hj)) as [X|X]; [left; now rewrite <- X|right; now rewrite <- X].
  - apply top_set; auto.
  - now rewrite (top_ext r r' right o (ER _)).
  - intros w Sw H. destruct (upd_row R i w (inside_lo _ Hi) Sw H) as [->|[NE H']]; [unfold r'; rewrite set_bit_same; discriminate|]. rewrite EL by exact NE. now apply (c_l _ _ _ _ C).
  - intros w Sw H. destruct (Nat.eq_dec w (row i)) as [->|NE]; [destruct (upd_row_true R i (inside_lo _ Hi)); auto|]. rewrite EL in H by exact NE.
    destruct (c_l0 _ _ _ _ C w Sw H) as [X|[X|X]]; auto using upd_true.
  - intros E. destruct (Nat.eq_dec (hi - 1) (row i)) as [X|NE]; [|rewrite EL by exact NE; now apply (c_fix _ _ _ _ C)]. rewrite X, SAME; rewrite <- X, (c_fix _ _ _ _ C E); [reflexivity|discriminate].
  - intros w Sw A B. rewrite ER. destruct (Nat.eq_dec w (row o)) as [->|NE]; [exact NO|]. assert (HW := sw_in w Sw).
    assert (N1 : Q w <> i). { intros Y. apply NE. assert (w = o) by (rewrite <- (PQ w), Y; [exact PI|apply HW]). subst w. now destruct (row_of o Sw). }
    assert (N2 : Q (w + 1) <> i). { intros Y. apply NE. assert (w + 1 = o) by (rewrite <- (PQ (w + 1)), Y; [exact PI|apply HW]). destruct (row_of w Sw) as [_ X]. congruence. }
    rewrite upd_ne in A, B by assumption. now apply (c_rr _ _ _ _ C).
  - intros c w. destruct (c_frame _ _ _ _ C c w) as [X|X]; [now left|]. unfold r', set_bit. destruct (Nat.eqb_spec c left), (Nat.eqb_spec w (row i)); cbn [andb]; auto. subst c w. left. auto.
Qed.

(* ---- the phases of the loop ---- *)
Definition cl (R : nat -> bool) (A : nat -> Prop) : Prop := forall w, sw w -> ~ A w -> R w = R (w + 1).
Definition cr (r : routing) (R : nat -> bool) (A : nat -> Prop) : Prop :=
  forall w, sw w -> ~ A w -> R (Q w) = R (Q (w + 1)) /\ (r right w = None <-> R (Q w) = false).
Definition none (w : nat) : Prop := False.
Definition above (R : nat -> bool) (mu : nat) : Prop := inside mu /\ forall i, mu < i -> i <= hi -> R i = true.
Definition open_at (st : bool) (mu w : nat) : Prop := st = true /\ w = row mu.
Definition chain (r : routing) (R : nat -> bool) (mu : nat) (st : bool) : Prop :=
  if st then sw (row mu) /\ R mu = true /\ mu = row mu + 1 /\ R (row mu) = false /\ top r left mu = false /\ (odd -> R (Q hi) = true) else odd /\ R (Q hi) = false.
Definition pending (r : routing) (R : nat -> bool) : Prop := ~ odd /\ R (Q hi) = true /\ R (Q (hi - 1)) = false /\ r right (hi - 1) = None.
Definition closed (r : routing) (R : nat -> bool) : Prop := cl R none /\ cr r R none /\ (odd -> R (Q hi) = true).
Definition cut (r : routing) (R : nat -> bool) (mu : nat) : Prop :=
  pending r R /\ sw (row mu) /\ mu = row mu + 1 /\ R mu = true /\ R (row mu) = false /\ top r left mu = false /\ cl R (fun w => w = row mu) /\ cr r R (fun w => w = hi - 1) /\ R hi = true.
Inductive fmode (r : routing) (R : nat -> bool) : nat -> nat -> nat -> Prop :=
| Fresh mu : R mu = false -> closed r R -> fmode r R 0 mu mu
| Mid st i mu : inside i -> R i = false -> sw (row i) -> R (other i) = true -> top r left i = false -> chain r R mu st -> ~ open_at st mu (row i) ->
    cl R (fun w => open_at st mu w \/ w = row i) -> cr r R none -> R hi = true -> fmode r R 0 i mu
| Res i mu : inside i -> R i = false -> sw (row i) -> R (other i) = true -> top r left i = true -> pending r R -> cl R (fun w => w = row i) -> cr r R (fun w => w = hi - 1) -> R hi = true -> fmode r R 1 i mu.
Inductive bmode (r : routing) (R : nat -> bool) : nat -> nat -> nat -> Prop :=
| Bck st o mu : inside o -> sw (row o) -> R (Q o) = false -> R (Q (other o)) = true -> r right (row o) <> None -> top r right o = true -> chain r R mu st ->
    cl R (open_at st mu) -> cr r R (fun w => w = row o) -> R hi = true -> bmode r R 0 o mu
| BckRes o mu : inside o -> sw (row o) -> R (Q (other o)) = true -> r right (row o) <> None -> top r right o = false -> cl R none -> R hi = true ->
    R (Q o) = false -> row o <> hi - 1 -> pending r R -> cr r R (fun w => w = row o \/ w = hi - 1) -> bmode r R 1 o mu
| BckEnd mu : ~ odd -> R (Q (hi - 1)) = true -> R (Q hi) = true -> r right (hi - 1) <> None -> top r right hi = false -> cl R none -> cr r R none -> R hi = true -> bmode r R 1 hi mu.

Lemma hi_in : inside hi.
Proof. unfold inside, hi. lia. Qed.
Lemma hi1_in : inside (hi - 1).
Proof. unfold inside, hi. lia. Qed.
Lemma Q_inj a b : inside a -> inside b -> Q a = Q b -> a = b.
Proof. intros A B E. now rewrite <- (PQ a A), <- (PQ b B), E. Qed.
Lemma closed_pair R A i : cl R A -> inside i -> sw (row i) -> ~ A (row i) -> R (other i) = R i.
Proof. intros C Hi W N. specialize (C (row i) W N). destruct (other_cases i (inside_lo _ Hi)) as [[X Y]|[X Y]]; rewrite Y; [rewrite <- C; now rewrite X|rewrite C; now rewrite <- X]. Qed.
Lemma cr_pair r R A o : cr r R A -> inside o -> sw (row o) -> ~ A (row o) -> R (Q (other o)) = R (Q o) /\ (r right (row o) = None <-> R (Q o) = false).
Proof. intros C Hi W N. destruct (C (row o) W N) as [A1 A2]. destruct (other_cases o (inside_lo _ Hi)) as [[X Y]|[X Y]]; rewrite Y; [rewrite X in *; auto|]. rewrite <- X in A1. rewrite A1 in *. auto. Qed.
Lemma cl_upd R A B i : cl R A -> lo <= i -> (forall w, sw w -> w <> row i -> ~ B w -> ~ A w) -> (B (row i) \/ upd R i true (other i) = true) -> cl (upd R i true) B.
Proof.
  intros C Hi K E w Sw NB. destruct (Nat.eq_dec w (row i)) as [->|NE].
  - destruct E as [E|E]; [contradiction|]. destruct (other_cases i Hi) as [[X Y]|[X Y]]; rewrite Y in E; [rewrite E, X|rewrite E, <- X]; now rewrite upd_same.
  - destruct (row_of w Sw) as [A1 A2]. rewrite !upd_ne by (intros Z; subst i; congruence). apply C; auto.
Qed.
Lemma cr_upd r r' R A B o : cr r R A -> inside o -> (forall w, sw w -> w <> row o -> ~ B w -> ~ A w /\ r' right w = r right w) ->
  (sw (row o) -> B (row o) \/ (upd R (Q o) true (Q (other o)) = true /\ r' right (row o) <> None)) -> cr r' (upd R (Q o) true) B.
Proof.
  intros C Ho K E w Sw NB. destruct (Nat.eq_dec w (row o)) as [->|NE].
  - destruct (E Sw) as [X|[X N]]; [contradiction|]. assert (X1 : upd R (Q o) true (Q o) = true) by apply upd_same.
    assert (T1 : upd R (Q o) true (Q (row o)) = true /\ upd R (Q o) true (Q (row o + 1)) = true) by (revert X X1; generalize (upd R (Q o) true); intros f X X1; destruct (other_cases o (inside_lo _ Ho)) as [[Y Z]|[Y Z]]; rewrite Z in X; [rewrite <- Y in X1|rewrite Y in X1]; auto).
    destruct T1 as [-> ->]. split; [reflexivity|]. split; [contradiction|discriminate].
  - destruct (sw_in w Sw) as [W1 W2]. destruct (row_of w Sw) as [A1 A2].
    assert (N1 : Q w <> Q o) by (intros Z; apply Q_inj in Z; auto; congruence). assert (N2 : Q (w + 1) <> Q o) by (intros Z; apply Q_inj in Z; auto; congruence).
    rewrite !upd_ne by assumption. destruct (K w Sw NE NB) as [NA ->]. now apply C.
Qed.
Lemma fwd_bits_right r1 o b w : w <> row o \/ o = hi -> fwd_bits r1 o b right w = r1 right w.
Proof. intros H. unfold fwd_bits. destruct (Nat.eqb_spec o hi); [reflexivity|]. apply set_bit_other. tauto. Qed.
Lemma fwd_bits_left r1 o b w : fwd_bits r1 o b left w = r1 left w.
Proof. unfold fwd_bits. destruct (o =? hi); [reflexivity|]. apply set_bit_other. now left. Qed.
Lemma first_bit_top_ne r i j : row j <> row i -> top (first_bit r i) left j = top r left j.
Proof. intros H. apply top_ext, first_bit_left, H. Qed.
Lemma fresh_facts r p q R mu : core r p q R -> above R mu -> R mu = false -> cl R none -> sw (row mu) /\ mu = row mu + 1 /\ R (row mu) = false.
Proof.
  intros C [IN AB] RM CL. destruct (row_sw mu IN) as [W|[O [E _]]]; [|rewrite E, (c_odd _ _ _ _ C O) in RM; discriminate]. split; [exact W|].
  pose proof (closed_pair R none mu CL IN W (fun x => x)) as E. destruct (other_cases mu (inside_lo _ IN)) as [[X Y]|[X Y]]; rewrite Y in E; [|split; [exact X|congruence]].
  exfalso. rewrite AB in E; [congruence|lia|unfold sw in W; lia].
Qed.

Lemma fwd_step r p q R e i mu b : core r p q R -> above R mu -> fmode r R e i mu -> b = top (first_bit r i) left i ->
  let r' := fwd_bits (first_bit r i) (P i) b in let R' := upd R i true in
  inside i /\ R i = false /\ sw (row i) /\
  core r' (upd p (wire i b) (wire (P i) b)) (upd q (wire (P i) b) (wire i b)) R' /\ above R' mu /\
  (P i = hi -> e = 0 /\ b = false /\ (closed r' R' \/ cut r' R' mu)) /\ (P i <> hi -> bmode r' R' e (other (P i)) mu).
Proof.
  intros C AB M EB r' R'.
  assert (AB' : above R' mu) by (destruct AB as [IN AB]; split; [exact IN|]; intros j J1 J2; apply upd_true; auto).
  assert (TOP' : forall j, top r' left j = top (first_bit r i) left j) by (intros j; apply top_ext, fwd_bits_left).
  assert (ODDHI : forall w, odd -> sw w -> w <> hi /\ w + 1 <> hi) by (intros w O Sw; unfold odd, sw, hi in *; lia).
  assert (EVHI : forall o, ~ odd -> o = hi -> row o = hi - 1) by (intros o E ->; now destruct (row_hi_even E)).
  (* what all three phases share *)
  assert (PRE : inside i /\ R i = false /\ sw (row i) /\ (e = 0 -> b = false) /\ (e = 1 -> b = true) /\ (e = 0 -> cr r R none) /\ (e = 1 -> cr r R (fun w => w = hi - 1) /\ pending r R) /\ (e = 0 \/ e = 1)).
  { destruct M as [mu RM (CL & CR & OD)|st i mu Hi Ri W RO T CH NO CL CR RH|i mu Hi Ri W RO T PE CL CR RH].
    - destruct (fresh_facts r p q R mu C AB RM CL) as (W & EM & RR). refine (conj (proj1 AB) (conj RM (conj W (conj _ (conj _ (conj (fun _ => CR) (conj _ (or_introl eq_refl))))))));
        [|discriminate|discriminate].
      intros _. subst b. unfold top. unfold first_bit. destruct (r left (row mu)) as [s|] eqn:E.
      + rewrite E. destruct (c_l0 _ _ _ _ C (row mu) W) as [X|[X|[NO X]]]; [congruence|congruence|rewrite <- EM in X; congruence|]. rewrite X, (c_fix _ _ _ _ C NO) in E. injection E as <-.
        rewrite (proj2 (Nat.eqb_neq _ _)) by lia. reflexivity.
      + rewrite set_bit_same, (proj2 (Nat.eqb_neq _ _)) by lia. reflexivity.
    - refine (conj Hi (conj Ri (conj W (conj _ (conj _ (conj (fun _ => CR) (conj _ (or_introl eq_refl)))))))); [|discriminate|discriminate].
      intros _. subst b. unfold first_bit. destruct (r left (row i)) eqn:E; [exact T|]. destruct (row_routed _ _ _ _ _ C Hi W E); congruence.
    - refine (conj Hi (conj Ri (conj W (conj _ (conj _ (conj _ (conj (fun _ => conj CR PE) (or_intror eq_refl)))))))); [discriminate| |discriminate].
      intros _. subst b. unfold first_bit. destruct (r left (row i)) eqn:E; [exact T|]. destruct (row_routed _ _ _ _ _ C Hi W E); congruence. }
  destruct PRE as (Hi & Ri & W & B0 & B1 & CR0 & CR1 & E01). assert (Ho := P_in i Hi). assert (QI := QP i Hi).
  assert (CASES : (P i = hi /\ e = 0 /\ b = false /\ r right (row hi) = None /\ (~ odd -> R (Q (hi - 1)) = false)) \/
    (P i <> hi /\ r right (row (P i)) = None /\ (R (Q (other (P i))) = true -> top r right (other (P i)) = negb b))).
  { destruct (Nat.eq_dec (P i) hi) as [EH|NH].
    - left. assert (e = 0) by (destruct E01 as [|E1]; [assumption|]; destruct (CR1 E1) as [_ (_ & X & _)]; rewrite <- EH, QI in X; congruence). split; [exact EH|]. split; [assumption|]. split; [auto|].
      destruct (Nat.eq_dec (sz mod 2) 1) as [O|NO]; [split; [|contradiction]|].
      + destruct (row_hi_odd O) as [-> NS]. destruct (c_frame _ _ _ _ C right hi) as [[_ X]|X]; [contradiction|]. rewrite X. apply R0; auto using hi_in.
      + destruct (row_hi_even NO) as (E1 & SH & E2 & _). destruct (cr_pair r R none hi (CR0 ltac:(assumption)) hi_in) as [X Y]; [now rewrite E1|exact (fun x => x)|]. rewrite E2 in X.
        assert (RQ : R (Q hi) = false) by (rewrite <- EH, QI; exact Ri). split; [now apply Y|intros _; congruence].
    - right. split; [exact NH|]. assert (SO := not_hi_sw _ Ho NH). destruct E01 as [E0|E1].
      + destruct (cr_pair r R none (P i) (CR0 E0) Ho SO (fun x => x)) as [X Y]. rewrite QI in X, Y. split; [now apply Y|]. intros Z. congruence.
      + destruct (CR1 E1) as [CR (NO & H1 & H2 & H3)]. destruct (Nat.eq_dec (row (P i)) (hi - 1)) as [ER|NR].
        * split; [now rewrite ER|]. intros Z. destruct (row_hi_even NO) as (X1 & X2 & X3 & X4 & X5). assert (PI : P i = hi - 1).
          { destruct (row_ends (P i) (inside_lo _ Ho)) as [Y|Y]; [congruence|]. exfalso. apply NH. rewrite Y, ER. unfold hi. lia. }
          rewrite PI, X4. rewrite (B1 E1). unfold top. now rewrite X1, H3.
        * destruct (cr_pair r R _ (P i) CR Ho SO NR) as [X Y]. rewrite QI in X, Y. split; [now apply Y|]. intros Z. congruence. }
  assert (CO : core r' (upd p (wire i b) (wire (P i) b)) (upd q (wire (P i) b) (wire i b)) R').
  { apply forward_core; auto. destruct CASES as [(X & _ & Y)|X]; [left|right]; auto. }
  split; [exact Hi|]. split; [exact Ri|]. split; [exact W|]. split; [exact CO|]. split; [exact AB'|]. split.
  - intros EH. destruct CASES as [(_ & E0 & EB0 & RN & K)|(X & _)]; [|contradiction]. split; [exact E0|]. split; [exact EB0|].
    assert (QH : Q hi = i) by now rewrite <- EH. assert (RB : forall w, r' right w = r right w) by (intros w; unfold r'; rewrite fwd_bits_right by auto; apply first_bit_right).
    assert (CRX : forall B : nat -> Prop, (~ odd -> B (hi - 1)) -> cr r' R' B).
    { intros B HB. unfold R'. rewrite <- QH. apply (cr_upd r r' R none B hi (CR0 E0) hi_in); [intros w _ _ _; split; [exact (fun x => x)|apply RB]|]. intros SH. left.
      destruct (Nat.eq_dec (sz mod 2) 1) as [O|NO]; [exfalso; destruct (row_hi_odd O) as [X Y]; rewrite X in SH; contradiction|]. rewrite (EVHI hi NO eq_refl). auto. }
    assert (PEN : ~ odd -> pending r' R').
    { intros NO. split; [exact NO|]. split; [rewrite QH; apply upd_same|]. split; [|rewrite RB, <- (EVHI hi NO eq_refl); exact RN]. unfold R'. rewrite upd_ne; [now apply K|]. rewrite <- QH. intros Z. apply Q_inj in Z; auto using hi_in, hi1_in. unfold hi in *; lia. }
    destruct M as [mu RM (CL & CR & OD)|st i mu _ _ _ RO T CH NO CL CR RH|i mu _ _ _ RO T PE CL CR RH]; [..|discriminate].
    + destruct (fresh_facts r p q R mu C AB RM CL) as (_ & EM & RR). right. assert (NO : ~ odd) by (intros O; specialize (OD O); congruence).
      split; [auto|]. split; [exact W|]. split; [exact EM|]. split; [apply upd_same|]. split; [unfold R'; rewrite upd_ne by lia; exact RR|]. split; [rewrite TOP', <- EB; exact EB0|].
      split; [apply (cl_upd R none); auto|]. split; [apply CRX; auto|]. unfold R', upd. destruct (Nat.eqb_spec hi mu) as [|NE]; [reflexivity|]. apply AB; unfold above, inside in *; lia.
    + destruct st; cbn [chain] in CH.
      * destruct CH as (SM & RM & EM & RR & TM & OD). right. assert (NODD : ~ odd) by (intros O; specialize (OD O); congruence).
        assert (NI : row mu <> row i) by (intros Z; apply NO; now split). assert (mu <> i) by congruence. assert (row mu <> i) by (intros Z; apply NI; rewrite <- Z; symmetry; apply row_row).
        split; [auto|]. split; [exact SM|]. split; [exact EM|]. split; [unfold R'; now rewrite upd_ne|]. split; [unfold R'; now rewrite upd_ne|]. split; [rewrite TOP', first_bit_top_ne; auto|].
        split; [apply (cl_upd R _ _ i CL); auto; [intros w Sw NE NB [[_ Z]|Z]; contradiction|right; now apply upd_true]|]. split; [apply CRX; auto|now apply upd_true].
      * destruct CH as [O RQ]. left. split; [|split; [apply CRX; contradiction|intros _; rewrite QH; apply upd_same]].
        apply (cl_upd R _ _ i CL); auto; [intros w Sw NE NB [[Z _]|Z]; [discriminate|contradiction]|right; now apply upd_true].
  - intros NH. destruct CASES as [(X & _)|(_ & RN & K)]; [contradiction|]. assert (SO := not_hi_sw _ Ho NH). set (o := P i) in *. assert (HO' := other_in o Ho SO).
    assert (RB : forall w, w <> row o -> r' right w = r right w) by (intros w Hw; unfold r'; rewrite fwd_bits_right by auto; apply first_bit_right).
    assert (RO' : r' right (row o) <> None) by (unfold r', fwd_bits; rewrite (proj2 (Nat.eqb_neq _ _)) by exact NH; rewrite set_bit_same; discriminate).
    assert (TO : top r' right (other o) = negb b) by (rewrite top_other by auto; unfold r', fwd_bits; rewrite (proj2 (Nat.eqb_neq _ _)) by exact NH; now rewrite top_set by auto).
    assert (RQ : R' (Q (other (other o))) = true) by (rewrite other_other, QI by auto; apply upd_same).
    assert (NQ : Q (other o) <> i) by (rewrite <- QI; intros Z; apply Q_inj in Z; auto; destruct (other_cases o (inside_lo _ Ho)); lia).
    assert (CRX : forall A B : nat -> Prop, cr r R A -> (forall w, ~ B w -> w <> row o -> ~ A w) -> B (row o) \/ R (Q (other o)) = true -> cr r' R' B).
    { intros A B CA HAB HB. unfold R'. rewrite <- QI. apply (cr_upd r r' R A B o CA Ho); [intros w _ N1 N2; split; auto|]. intros _. destruct HB as [HB|HB]; [now left|right; split; [now apply upd_true|exact RO']]. }
    assert (RHI : forall j, R j = true -> R' j = true) by (intros j; apply upd_true).
    destruct M as [mu RM (CL & CR & OD)|st i mu _ _ _ RO T CH NO CL CR RH|i mu _ _ _ RO T PE CL CR RH].
    + destruct (fresh_facts r p q R mu C AB RM CL) as (_ & EM & RR). assert (RF : R (Q (other o)) = false) by (destruct (cr_pair r R none o CR Ho SO (fun x => x)) as [X _]; rewrite X, QI; exact Ri).
      apply (Bck r' R' true); auto; rewrite ?other_row by auto; auto.
      * unfold R'. rewrite upd_ne by exact NQ. exact RF.
      * rewrite TO, (B0 eq_refl). reflexivity.
      * cbn [chain]. split; [exact W|]. split; [apply upd_same|]. split; [exact EM|]. split; [unfold R'; rewrite upd_ne by lia; exact RR|]. split; [rewrite TOP', <- EB; auto|]. intros O. apply upd_true. auto.
      * apply (cl_upd R none); auto. left. now split.
      * apply (CRX none); auto.
      * unfold R', upd. destruct (Nat.eqb_spec hi mu) as [|NE]; [reflexivity|]. apply AB; unfold above, inside in *; lia.
    + assert (RF : R (Q (other o)) = false) by (destruct (cr_pair r R none o CR Ho SO (fun x => x)) as [X _]; rewrite X, QI; exact Ri).
      apply (Bck r' R' st); auto; rewrite ?other_row by auto; auto.
      * unfold R'. rewrite upd_ne by exact NQ. exact RF.
      * rewrite TO, (B0 eq_refl). reflexivity.
      * destruct st; cbn [chain] in *.
        -- destruct CH as (SM & RM & EM & RR & TM & OD). assert (NI : row mu <> row i) by (intros Z; apply NO; now split). assert (row mu <> i) by (intros Z; apply NI; rewrite <- Z; symmetry; apply row_row).
           split; [exact SM|]. split; [now apply upd_true|]. split; [exact EM|]. split; [unfold R'; now rewrite upd_ne|]. split; [rewrite TOP', first_bit_top_ne; auto|]. intros O. apply upd_true; auto.
        -- destruct CH as [O RQ0]. split; [exact O|]. unfold R'. rewrite upd_ne; [exact RQ0|]. rewrite <- QI. intros Z. apply Q_inj in Z; auto using hi_in.
      * apply (cl_upd R (fun w => open_at st mu w \/ w = row i) _ i CL); [auto|intros w Sw NE NB [Z|Z]; contradiction|right; now apply upd_true].
      * apply (CRX none); auto.
    + destruct PE as (NO & H1 & H2 & H3). destruct (row_hi_even NO) as (X1 & X2 & X3 & X4 & X5). assert (CLX : cl R' none) by (apply (cl_upd R _ _ i CL); auto; right; now apply upd_true).
      assert (TF : top r' right (other o) = false) by (rewrite TO, (B1 eq_refl); reflexivity).
      destruct (Nat.eq_dec (row o) (hi - 1)) as [ER|NR].
      * assert (PI : o = hi - 1). { destruct (row_ends o (inside_lo _ Ho)) as [Y|Y]; [congruence|]. exfalso. apply NH. rewrite Y, ER. unfold hi. lia. }
        replace (other o) with hi in * by (rewrite PI; now symmetry). rewrite X3 in RQ. rewrite ER in RO'. apply BckEnd; auto. apply (CRX (fun w => w = hi - 1)); auto. intros w _ Hw. congruence.
      * assert (RF : R (Q (other o)) = false) by (destruct (cr_pair r R _ o CR Ho SO NR) as [X _]; rewrite X, QI; exact Ri).
        assert (NOH : o <> hi - 1) by (intros Z; apply NR; rewrite Z; exact X5).
        apply BckRes; auto; rewrite ?other_row by auto; auto.
        -- unfold R'. rewrite upd_ne by exact NQ. exact RF.
        -- split; [exact NO|]. split; [now apply upd_true|]. split; [|rewrite RB by congruence; exact H3]. unfold R'. rewrite upd_ne; [exact H2|]. rewrite <- QI. intros Z. apply Q_inj in Z; auto using hi1_in.
        -- apply (CRX (fun w => w = hi - 1)); auto.
Qed.

Lemma bwd_step r p q R e o mu b : core r p q R -> above R mu -> bmode r R e o mu -> b = top r right o ->
  let i := Q o in let r' := set_bit r left (row i) (setting_of lo i b) in let R' := upd R i true in
  inside o /\ sw (row o) /\ r right (row o) <> None /\ sw (row i) /\
  core r' (upd p (wire i b) (wire o b)) (upd q (wire o b) (wire i b)) R' /\ above R' mu /\
  ((R i = false /\ R' (other i) = false /\ fmode r' R' e (other i) mu) \/ ((R i = false \/ e = 1) /\ R' (other i) = true /\ closed r' R')).
Proof.
  intros C AB M EB i r' R'.
  assert (AB' : above R' mu) by (destruct AB as [IN AB]; split; [exact IN|]; intros j J1 J2; apply upd_true; auto).
  assert (ER : forall w, r' right w = r right w) by (intros w; apply set_bit_other; left; congruence).
  assert (EL : forall w, w <> row i -> r' left w = r left w) by (intros w H; apply set_bit_other; now right).
  assert (PRE : inside o /\ sw (row o) /\ r right (row o) <> None /\ R hi = true).
  { destruct M as [st o mu Ho SO RO RX NO T CH CL CR RH|o mu Ho SO RX NO T CL RH RO NR PE CR|mu NO R1 R2 N T CL CR RH]; auto. destruct (row_hi_even NO) as (X1 & X2 & _). rewrite X1. auto using hi_in. }
  destruct PRE as (Ho & SO & NO & RH). assert (Hi : inside i) by now apply Q_in. assert (PI : P i = o) by now apply PQ.
  assert (SI : R i = false -> sw (row i)) by (intros Ri; destruct (row_sw i Hi) as [?|[O [E _]]]; [assumption|]; rewrite E in Ri; congruence).
  assert (HLO : forall x, R i = false -> R (other i) = x -> x = false -> r left (row i) = None).
  { intros x Ri Rx ->. destruct (r left (row i)) eqn:E; [|reflexivity]. exfalso. destruct (c_l0 _ _ _ _ C (row i) (SI Ri)) as [X|[X|[ND X]]]; [congruence|..].
    - destruct (other_cases i (inside_lo _ Hi)) as [[Y Z]|[Y Z]]; congruence.
    - destruct (other_cases i (inside_lo _ Hi)) as [[Y Z]|[Y Z]]; congruence.
    - assert (hi = row i + 1) by (rewrite X; unfold hi; lia). destruct (other_cases i (inside_lo _ Hi)) as [[Y Z]|[Y Z]]; congruence. }
  assert (RR : R' (other (other i)) = true) by (rewrite other_other by auto; apply upd_same).
  assert (LMU : lo <= mu) by (apply inside_lo, AB).
  assert (LOI : lo <= other i) by (unfold Wak_model.other, Wak_model.row; lia).
  assert (NOI : other i <> i) by (destruct (other_cases i (inside_lo _ Hi)); lia).
  assert (RO' : R' (other i) = R (other i)) by (unfold R'; now rewrite upd_ne).
  assert (TO : top r' left (other i) = negb b) by (rewrite top_other; [unfold r'; now rewrite top_set by auto|auto|unfold r'; rewrite set_bit_same; discriminate]).
  split; [exact Ho|]. split; [exact SO|]. split; [exact NO|].
  assert (CRX : forall A B : nat -> Prop, cr r R A -> (forall w, ~ B w -> w <> row o -> ~ A w) -> R (Q (other o)) = true -> cr r' R' B).
  { intros A B CA HAB HB. apply (cr_upd r r' R A B o CA Ho); [intros w _ N1 N2; split; auto|]. intros _. right. split; [now apply upd_true|now rewrite ER]. }
  destruct M as [st o mu _ _ RO RX _ T CH CL CR _|o mu _ _ RX _ T CL _ RO NR PE CR|mu ND R1 R2 N T CL CR _].
  - (* on the way back in an ordinary chain *)
    assert (Ri : R i = false) by exact RO. specialize (SI Ri). split; [exact SI|]. assert (B : b = true) by congruence. rewrite B in TO. cbn [negb] in TO.
    destruct (R (other i)) eqn:EO.
    + (* the chain closes *)
      assert (OP : open_at st mu (row i)). { destruct st; [split; [reflexivity|]|]; [destruct (Nat.eq_dec (row i) (row mu)) as [|NE]; [assumption|]|]; exfalso; pose proof (closed_pair R _ i CL Hi SI) as K; rewrite EO, Ri in K; assert (true = false) by (apply K; intros [X Y]; congruence); discriminate. }
      destruct OP as [-> OP]. cbn [chain] in CH. destruct CH as (SM & RM & EM & RRM & TM & OD).
      assert (OM : other i = mu). { destruct (same_row (other i) mu LOI LMU) as [X|X]; [rewrite other_row; auto|exact X|]. rewrite X in EO. destruct (other_cases mu LMU) as [[Y Z]|[Y Z]]; [lia|congruence]. }
      assert (TI : top r left i = true). { rewrite <- (other_other i) by auto. rewrite OM, top_other, TM; [reflexivity|exact LMU|]. apply (c_l _ _ _ _ C); auto. right. now rewrite <- EM. }
      split; [apply backward_core; auto; rewrite ?B; auto|]. split; [exact AB'|]. right. split; [now left|]. split; [exact RO'|]. split; [|split].
      * apply (cl_upd R (open_at true mu) none i CL); auto. intros w Sw NE _ [_ X]. congruence.
      * apply (CRX (fun w => w = row o)); auto.
      * intros O. apply upd_true; auto.
    + (* the chain goes on *)
      assert (LN := HLO false Ri eq_refl eq_refl). split; [apply backward_core; auto; rewrite ?B; auto|]. split; [exact AB'|]. left. split; [exact Ri|]. split; [exact RO'|].
      assert (NOP : ~ open_at st mu (row i)). { intros [-> X]. cbn [chain] in CH. destruct CH as (SM & RM & EM & RRM & TM & OD). destruct (same_row i mu (inside_lo _ Hi) LMU X) as [Y|Y]; [congruence|]. rewrite Y, other_other in EO; [congruence|exact LMU]. }
      apply (Mid r' R' st); auto; rewrite ?other_row by auto; auto using other_in.
      * destruct st; cbn [chain] in *.
        -- destruct CH as (SM & RM & EM & RRM & TM & OD). assert (NI : row mu <> row i) by (intros Z; apply NOP; now split). assert (row mu <> i) by (intros Z; apply NI; rewrite <- Z; symmetry; apply row_row).
           split; [exact SM|]. split; [now apply upd_true|]. split; [exact EM|]. split; [unfold R'; now rewrite upd_ne|]. split; [rewrite <- TM; apply top_ext, EL; auto|]. intros O. apply upd_true; auto.
        -- destruct CH as [O RQ0]. split; [exact O|]. unfold R'. rewrite upd_ne; [exact RQ0|]. unfold i. intros Z. apply Q_inj in Z; auto using hi_in. rewrite <- Z in SO. destruct (row_hi_odd O) as [X Y]. now rewrite X in SO.
      * apply (cl_upd R (open_at st mu) _ i CL); auto.
      * apply (CRX (fun w => w = row o)); auto.
      * now apply upd_true.
  - (* on the way back in a resumed chain *)
    assert (Ri : R i = false) by exact RO. specialize (SI Ri). split; [exact SI|]. assert (B : b = false) by congruence. rewrite B in TO. cbn [negb] in TO.
    assert (EO : R (other i) = false) by (rewrite (closed_pair R none i CL Hi SI (fun x => x)); exact Ri). assert (LN := HLO false Ri EO eq_refl).
    split; [apply backward_core; auto; rewrite ?B; auto|]. split; [exact AB'|]. left. split; [exact Ri|]. split; [now rewrite RO'|].
    destruct PE as (ND & H1 & H2 & H3). destruct (row_hi_even ND) as (X1 & X2 & X3 & X4 & X5).
    apply (Res r' R'); auto; rewrite ?other_row by auto; auto using other_in.
    + now rewrite RO'.
    + split; [exact ND|]. split; [now apply upd_true|]. split; [|now rewrite ER]. unfold R'. rewrite upd_ne; [exact H2|]. unfold i. intros Z. apply Q_inj in Z; auto using hi1_in. apply NR. now rewrite <- Z.
    + apply (cl_upd R none _ i CL); auto.
    + apply (CRX (fun w => w = row o \/ w = hi - 1)); auto. intros w A B0 [Z|Z]; contradiction.
    + now apply upd_true.
  - (* the resumed chain has met its end *)
    assert (Ri : R i = true) by exact R2. assert (SW : sw (row i)) by (destruct (row_sw i Hi) as [?|[O _]]; [assumption|contradiction]). split; [exact SW|]. assert (B : b = false) by congruence. rewrite B in TO. cbn [negb] in TO.
    assert (TI : top r left i = false) by (destruct (c_in _ _ _ _ C i Hi Ri) as [X _]; rewrite X, PI; exact T).
    split; [apply backward_core; auto; rewrite ?B; auto|]. split; [exact AB'|]. right. split; [now right|]. rewrite RO'. assert (EO : R (other i) = true) by (rewrite (closed_pair R none i CL Hi SW (fun x => x)); exact Ri).
    split; [exact EO|]. destruct (row_hi_even ND) as (X1 & X2 & X3 & X4 & X5). split; [|split].
    + apply (cl_upd R none none i CL); auto. right. now apply upd_true.
    + apply (CRX none); auto. now rewrite X3.
    + intros O. contradiction.
Qed.
(* ---- counting ---- *)
Definition cnt (R : nat -> bool) : nat := length (filter (fun i => negb (R i)) (seq lo sz)).
Lemma cnt_mark R i : inside i -> R i = false -> S (cnt (upd R i true)) = cnt R.
Proof.
  unfold cnt, inside. intros Hi Ri. assert (IN : In i (seq lo sz)) by (apply in_seq; unfold hi in *; lia). pose proof (seq_NoDup sz lo) as ND. revert IN ND. generalize (seq lo sz). induction l as [|x l IH]; [contradiction|].
  intros IN ND. inversion ND as [|? ? NI ND']; subst. cbn. destruct (Nat.eq_dec x i) as [->|NE].
  - rewrite upd_same, Ri. cbn. f_equal. f_equal. apply filter_ext_in. intros j Ij. rewrite upd_ne; [reflexivity|]. intros ->. contradiction.
  - destruct IN as [|IN]; [contradiction|]. rewrite upd_ne by exact NE. destruct (negb (R x)); cbn; [f_equal|]; apply IH; auto.
Qed.
Lemma cnt_le R : cnt R <= sz.
Proof. unfold cnt. rewrite <- (seq_length sz lo) at 2. generalize (seq lo sz). induction l as [|x l IH]; cbn; [lia|]. destruct (negb (R x)); cbn; lia. Qed.

(* ---- lists ---- *)
Definition rep {A} (l : list A) (f : nat -> A) : Prop := length l = sz /\ forall i, inside i -> nth_error l (i - lo) = Some (f i).
Lemma rd_rep {A} (l : list A) f i : rep l f -> inside i -> rd lo l i = Ok (f i).
Proof. intros [L H] Hi. unfold rd, read. rewrite (proj2 (Nat.ltb_ge _ _)) by auto. now rewrite H. Qed.
Lemma wr_rep {A} (l : list A) f i v : rep l f -> inside i -> exists l', wr lo l i v = Ok l' /\ rep l' (upd f i v).
Proof.
  intros [L H] Hi. unfold wr, write. rewrite (proj2 (Nat.ltb_ge _ _)) by auto. rewrite (proj2 (Nat.ltb_lt _ _)) by (unfold inside, hi in Hi; lia).
  eexists. split; [reflexivity|]. split; [now rewrite set_nth_length|]. intros j Hj. unfold upd. destruct (Nat.eqb_spec j i) as [->|NE].
  - apply set_nth_at. unfold inside, hi in Hi. lia.
  - rewrite set_nth_ne by (unfold inside in *; lia). now apply H.
Qed.
Lemma rep_iota : rep (iota lo sz) (fun i => i).
Proof. split; [apply seq_length|]. intros i Hi. rewrite (nth_error_nth' _ 0) by (unfold iota; rewrite seq_length; unfold inside, hi in *; lia). unfold iota. rewrite seq_nth by (unfold inside, hi in *; lia). f_equal. unfold inside in *. lia. Qed.
Lemma rep_repeat {A} (x : A) : rep (repeat x sz) (fun _ => x).
Proof. split; [apply repeat_length|]. intros i Hi. apply nth_error_repeat. unfold inside, hi in *. lia. Qed.

Variables (perm perm_inv : list nat).
Hypothesis RP : rep perm P.
Hypothesis RQ : rep perm_inv Q.
Definition good (s : rstate) (p q : nat -> nat) (R : nat -> bool) : Prop := rep (np s) p /\ rep (npi s) q /\ rep (routed s) R /\ core (bits s) p q R /\ above R (max_unrouted s).
Lemma wire_hi : wire hi false = hi.
Proof. unfold wire, d, hi. lia. Qed.

Lemma forward_ok s p q R e : good s p q R -> fmode (bits s) R e (to_route s) (max_unrouted s) ->
  exists s' p' q' R', forward sz left right lo hi perm s = Ok s' /\ good s' p' q' R' /\ max_unrouted s' = max_unrouted s /\ S (cnt R') = cnt R /\
    ((route_left s' = false /\ bmode (bits s') R' e (to_route s') (max_unrouted s')) \/
     (route_left s' = true /\ e = 0 /\ to_route s' = max_unrouted s /\ (closed (bits s') R' \/ cut (bits s') R' (max_unrouted s)))).
Proof.
  intros (RN & RI & RS & C & AB) M. set (i := to_route s) in *. set (r := bits s) in *. set (mu := max_unrouted s) in *. set (b := top (first_bit r i) left i).
  destruct (fwd_step r p q R e i mu b C AB M eq_refl) as (Hi & Ri & W & C' & AB' & K1 & K2). unfold forward. fold i r mu. fold (first_bit r i).
  pose proof (first_bit_set r i) as FS. destruct (first_bit r i left (row i)) as [s0|] eqn:ES; [|contradiction]. rewrite (top_decision _ _ _ _ ES). fold b.
  rewrite switch_wire_ok by assumption. cbn [rbind]. rewrite (rd_rep perm P i RP Hi). cbn [rbind].
  assert (Ho := P_in i Hi).
  assert (Wi : inside (wire i b)) by (apply wire_in; auto).
  destruct (Nat.eqb_spec (P i) hi) as [EH|NH].
  - destruct (K1 EH) as (E0 & EB & ST). rewrite EH in *. assert (WH : wire hi b = hi) by (rewrite EB; apply wire_hi). rewrite WH in *.
    destruct (wr_rep (np s) p (wire i b) hi RN Wi) as (p' & EP & RP'). rewrite EP. cbn [rbind].
    destruct (wr_rep (npi s) q hi (wire i b) RI hi_in) as (q' & EQ & RQ'). rewrite EQ. cbn [rbind].
    destruct (wr_rep (routed s) R i true RS Hi) as (s' & ESS & RS'). rewrite ESS. cbn [rbind].
    unfold fwd_bits in C', ST. rewrite Nat.eqb_refl in C', ST.
    eexists _, _, _, _. split; [reflexivity|]. cbn [bits np npi routed to_route max_unrouted route_left]. split; [split; [exact RP'|]; split; [exact RQ'|]; split; [exact RS'|]; split; [exact C'|exact AB']|].
    split; [reflexivity|]. split; [now apply cnt_mark|]. right. auto.
  - rewrite switch_wire_ok by (auto using not_hi_sw). cbn [rbind]. assert (Wo : inside (wire (P i) b)) by (apply wire_in; auto using not_hi_sw).
    destruct (wr_rep (np s) p (wire i b) (wire (P i) b) RN Wi) as (p' & EP & RP'). rewrite EP. cbn [rbind].
    destruct (wr_rep (npi s) q (wire (P i) b) (wire i b) RI Wo) as (q' & EQ & RQ'). rewrite EQ. cbn [rbind].
    destruct (wr_rep (routed s) R i true RS Hi) as (s' & ESS & RS'). rewrite ESS. cbn [rbind].
    specialize (K2 NH). unfold fwd_bits in C', K2. rewrite (proj2 (Nat.eqb_neq _ _)) in C', K2 by exact NH.
    eexists _, _, _, _. split; [reflexivity|]. cbn [bits np npi routed to_route max_unrouted route_left]. split; [split; [exact RP'|]; split; [exact RQ'|]; split; [exact RS'|]; split; [exact C'|exact AB']|].
    split; [reflexivity|]. split; [now apply cnt_mark|]. left. auto.
Qed.
Lemma cnt_upd_true R i : R i = true -> cnt (upd R i true) = cnt R.
Proof. intros H. unfold cnt. f_equal. apply filter_ext. intros j. unfold upd. destruct (Nat.eqb_spec j i) as [->|]; [now rewrite H|reflexivity]. Qed.
Lemma backward_ok s p q R e : good s p q R -> bmode (bits s) R e (to_route s) (max_unrouted s) ->
  exists s' p' q' R', backward sz left right lo perm_inv s = Ok s' /\ good s' p' q' R' /\ max_unrouted s' = max_unrouted s /\ route_left s' = true /\ inside (to_route s') /\
    ((S (cnt R') = cnt R /\ R' (to_route s') = false /\ fmode (bits s') R' e (to_route s') (max_unrouted s')) \/
     ((S (cnt R') = cnt R \/ (cnt R' = cnt R /\ e = 1)) /\ R' (to_route s') = true /\ closed (bits s') R')).
Proof.
  intros (RN & RI & RS & C & AB) M. set (o := to_route s) in *. set (r := bits s) in *. set (mu := max_unrouted s) in *. set (b := top r right o).
  destruct (bwd_step r p q R e o mu b C AB M eq_refl) as (Ho & SO & NO & SI & C' & AB' & K). unfold backward. fold o r mu.
  rewrite (rd_rep perm_inv Q o RQ Ho). cbn [rbind]. destruct (r right (row o)) as [s0|] eqn:ES; [|contradiction]. rewrite ES. rewrite (top_decision _ _ _ _ ES). fold b.
  rewrite switch_wire_ok by assumption. cbn [rbind]. assert (Hi := Q_in o Ho). rewrite switch_wire_ok by assumption. cbn [rbind].
  assert (Wi : inside (wire (Q o) b)) by (apply wire_in; auto). assert (Wo : inside (wire o b)) by (apply wire_in; auto).
  destruct (wr_rep (np s) p (wire (Q o) b) (wire o b) RN Wi) as (p' & EP & RP'). rewrite EP. cbn [rbind].
  destruct (wr_rep (npi s) q (wire o b) (wire (Q o) b) RI Wo) as (q' & EQ & RQ'). rewrite EQ. cbn [rbind].
  destruct (wr_rep (routed s) R (Q o) true RS Hi) as (s' & ESS & RS'). rewrite ESS. cbn [rbind].
  eexists _, _, _, _. split; [reflexivity|]. cbn [bits np npi routed to_route max_unrouted route_left]. split; [split; [exact RP'|]; split; [exact RQ'|]; split; [exact RS'|]; split; [exact C'|exact AB']|].
  split; [reflexivity|]. split; [reflexivity|]. split; [now apply other_in|]. destruct K as [(Ri & RO & F)|(Ri & RO & F)]; [left|right].
  - split; [now apply cnt_mark|]. auto.
  - split; [|auto]. destruct (R (Q o)) eqn:E; [right|left; now apply cnt_mark]. destruct Ri as [?|E1]; [discriminate|]. split; [now apply cnt_upd_true|exact E1].
Qed.
Lemma scan_ok seen R : rep seen R -> forall fuel m, inside m -> m - lo < fuel ->
  exists m', scan lo seen fuel m = Ok m' /\ lo <= m' <= m /\ (forall j, m' < j <= m -> R j = true) /\ (R m' = false \/ m' = lo).
Proof.
  intros RS. induction fuel as [|fuel IH]; intros m Hm F; [lia|]. cbn [scan]. destruct (Nat.leb_spec m lo) as [L|G].
  - exists m. split; [reflexivity|]. unfold inside in Hm. split; [lia|]. split; [intros; lia|]. right. lia.
  - rewrite (rd_rep seen R m RS Hm). cbn [rbind]. destruct (R m) eqn:E.
    + destruct (IH (m - 1)) as (m' & E' & L & A & B); [unfold inside in *; lia|lia|]. exists m'. split; [exact E'|]. split; [lia|]. split; [|exact B]. intros j J. destruct (Nat.eq_dec j m) as [->|]; [exact E|]. apply A. lia.
    + exists m. split; [reflexivity|]. unfold inside in Hm. split; [lia|]. split; [intros; lia|]. now left.
Qed.
Definition done (s : rstate) (p q : nat -> nat) (R : nat -> bool) : Prop := good s p q R /\ (forall i, inside i -> R i = true) /\ closed (bits s) R.
Lemma next_ok s p q R : good s p q R -> route_left s = true -> inside (to_route s) -> R (to_route s) = true -> closed (bits s) R \/ cut (bits s) R (max_unrouted s) ->
  exists s', (next lo s = Ok (inl s') /\ good s' p q R /\ route_left s' = true /\ exists e, fmode (bits s') R e (to_route s') (max_unrouted s') /\ (closed (bits s) R -> e = 0) /\ e <= 1) \/
             (next lo s = Ok (inr s') /\ done s' p q R).
Proof.
  intros (RN & RI & RS & C & AB) RL HI RT ST. unfold next. rewrite RL. cbn [negb]. rewrite (rd_rep _ _ _ RS HI), RT. cbn [rbind negb].
  destruct (scan_ok (routed s) R RS (S (length (routed s))) (max_unrouted s)) as (m & E & L & A & B); [apply AB|destruct RS as [-> _]; destruct AB as [X _]; unfold inside, hi in X; lia|]. rewrite E. cbn [rbind].
  assert (HM : inside m) by (destruct AB as [X _]; unfold inside in *; lia). assert (LIN : inside lo) by (unfold inside in *; lia).
  assert (E0 : read (routed s) 0 = Ok (R lo)) by (destruct RS as [_ X]; unfold read; specialize (X lo LIN); rewrite Nat.sub_diag in X; now rewrite X). rewrite E0. cbn [rbind].
  rewrite (proj2 (Nat.ltb_ge m lo)) by lia. cbn [orb].
  assert (AB2 : above R m) by (split; [exact HM|]; intros j J1 J2; destruct (Nat.le_gt_cases j (max_unrouted s)); [apply A; lia|apply AB; lia]).
  eexists. destruct ((m =? lo) && R lo) eqn:ED.
  - right. apply andb_prop in ED. destruct ED as [EM RL0]. apply Nat.eqb_eq in EM. split; [reflexivity|]. split; [exact (conj RN (conj RI (conj RS (conj C AB2))))|].
    assert (ALL : forall i, inside i -> R i = true) by (intros i Hi; destruct (Nat.eq_dec i lo) as [->|]; [exact RL0|]; apply AB2; unfold inside in *; lia). split; [exact ALL|].
    destruct ST as [ST|(_ & SW & _ & _ & X & _)]; [exact ST|]. exfalso. rewrite ALL in X; [discriminate|]. apply (sw_in _ SW).
  - left. split; [reflexivity|]. split; [exact (conj RN (conj RI (conj RS (conj C AB2))))|]. split; [reflexivity|].
    assert (RM : R m = false) by (destruct B as [?| ->]; [assumption|]; rewrite Nat.eqb_refl in ED; exact ED). cbn [bits to_route max_unrouted].
    destruct ST as [ST|(PE & SW & EM & RMU & RR & T & CL & CR & RH)]; [exists 0; split; [now constructor|split; [reflexivity|lia]]|].
    exists 1. split; [|split; [|lia]].
    + set (mu := max_unrouted s) in *. assert (M : m = row mu). { destruct (Nat.lt_trichotomy m (row mu)) as [X|[X|X]]; [|exact X|]; exfalso; [rewrite A in RR; [discriminate|lia]|]. assert (m = mu) by lia. congruence. }
      rewrite M in *. destruct (row_of _ SW) as [X1 X2]. assert (O : other (row mu) = mu) by (destruct (other_cases (row mu) ltac:(lia)) as [[Y Z]|[Y Z]]; lia).
      apply Res; auto; rewrite ?X1; auto.
      * now rewrite O.
      * rewrite <- (negb_involutive (top (bits s) left (row mu))), <- top_other, O, T; [reflexivity|lia|]. rewrite X1. apply (c_l _ _ _ _ C); auto. right. now rewrite <- EM.
    + intros (CL0 & _). exfalso. specialize (CL0 (row (max_unrouted s))). pose proof (CL0 SW (fun x => x)) as Z. rewrite <- EM in Z. congruence.
Qed.
Lemma route_loop_ok : forall fuel s p q R e, good s p q R -> e <= 1 -> (if route_left s then fmode (bits s) R e (to_route s) (max_unrouted s) else bmode (bits s) R e (to_route s) (max_unrouted s)) ->
  2 * cnt R + e < fuel -> exists s' p' q' R', route_loop sz left right lo hi perm perm_inv fuel s = Ok s' /\ done s' p' q' R'.
Proof.
  induction fuel as [|fuel IH]; intros s p q R e G E1 M F; [lia|]. cbn [route_loop]. destruct (route_left s) eqn:RL.
  - destruct (forward_ok s p q R e G M) as (s1 & p1 & q1 & R1 & EF & G1 & EMU & CN & K). rewrite EF. cbn [rbind]. destruct K as [[RL1 B]|(RL1 & E0 & TR & ST)].
    + unfold next. rewrite RL1. cbn [negb rbind]. apply (IH s1 p1 q1 R1 e G1 E1); [now rewrite RL1|lia].
    + assert (HI : inside (to_route s1)) by (rewrite TR, <- EMU; apply G1). rewrite <- EMU in ST. destruct (R1 (to_route s1)) eqn:ER.
      * destruct (next_ok s1 p1 q1 R1 G1 RL1 HI ER ST) as (s2 & [(EN & G2 & RL2 & e2 & F2 & _ & LE)|(EN & D)]); rewrite EN; cbn [rbind]; [|now exists s2, p1, q1, R1].
        apply (IH s2 p1 q1 R1 e2 G2 LE); [now rewrite RL2|lia].
      * unfold next. rewrite RL1. cbn [negb]. destruct G1 as (A1 & A2 & A3 & A4 & A5). rewrite (rd_rep _ _ _ A3 HI), ER. cbn [rbind negb].
        apply (IH s1 p1 q1 R1 0); [exact (conj A1 (conj A2 (conj A3 (conj A4 A5))))|lia| |lia]. rewrite RL1. destruct ST as [ST|(_ & _ & _ & X & _)]; [|rewrite TR, <- EMU in ER; congruence]. rewrite TR, <- EMU in *. now constructor.
  - destruct (backward_ok s p q R e G M) as (s1 & p1 & q1 & R1 & EF & G1 & EMU & RL1 & HI & K). rewrite EF. cbn [rbind]. destruct K as [(CN & ER & F1)|(CN & ER & ST)].
    + unfold next. rewrite RL1. cbn [negb]. destruct G1 as (A1 & A2 & A3 & A4 & A5). rewrite (rd_rep _ _ _ A3 HI), ER. cbn [rbind negb].
      apply (IH s1 p1 q1 R1 e); [exact (conj A1 (conj A2 (conj A3 (conj A4 A5))))|exact E1|now rewrite RL1|lia].
    + destruct (next_ok s1 p1 q1 R1 G1 RL1 HI ER (or_introl ST)) as (s2 & [(EN & G2 & RL2 & e2 & F2 & E2 & LE)|(EN & D)]); rewrite EN; cbn [rbind]; [|now exists s2, p1, q1, R1].
      apply (IH s2 p1 q1 R1 e2 G2 LE); [now rewrite RL2|]. rewrite (E2 ST). lia.
Qed.

Lemma odd_sw w : odd -> sw w -> w <> hi /\ w + 1 <> hi.
Proof. unfold odd, sw, hi. lia. Qed.
Lemma route_init_ok : exists s p q R, route_init sz left right lo hi perm r0 = Ok s /\ good s p q R /\
  (if route_left s then fmode (bits s) R 0 (to_route s) (max_unrouted s) else bmode (bits s) R 0 (to_route s) (max_unrouted s)).
Proof.
  unfold route_init. destruct (Nat.eqb_spec (sz mod 2) 1) as [O|NO].
  - assert (OD : odd) by exact O. rewrite (rd_rep perm P hi RP hi_in). cbn [rbind].
    destruct (wr_rep (repeat false sz) (fun _ => false) hi true (rep_repeat false) hi_in) as (seen & ES & RS). rewrite ES. cbn [rbind]. set (R := upd (fun _ => false) hi true) in *.
    assert (RT : forall i, R i = true -> i = hi) by (intros i; unfold R, upd; destruct (Nat.eqb_spec i hi); [auto|discriminate]).
    assert (RF : forall i, i <> hi -> R i = false) by (intros i Hi; unfold R; now rewrite upd_ne). assert (RH : R hi = true) by apply upd_same.
    assert (AB : above R (hi - 1)) by (split; [apply hi1_in|]; intros i J1 J2; replace i with hi by lia; exact RH).
    assert (LN : forall w, sw w -> r0 left w = None) by (intros w W; apply R0; [auto|apply sw_in; exact W]).
    destruct (Nat.eqb_spec (P hi) hi) as [EH|NH].
    + destruct (wr_rep (iota lo sz) (fun i => i) hi hi rep_iota hi_in) as (p & EP & RPP). rewrite EP. cbn [rbind].
      assert (FR : forall c w, (c = left \/ c = right) /\ sw w \/ r0 c w = r0 c w) by (intros; now right).
      assert (QW : forall w, sw w -> R (Q w) = false /\ R (Q (w + 1)) = false).
      { intros w W. destruct (sw_in w W) as [W1 W2]. destruct (odd_sw w OD W). split; apply RF; intros X; [assert (w = hi)|assert (w + 1 = hi)]; try lia; [rewrite <- (PQ w W1)|rewrite <- (PQ (w + 1) W2)]; congruence. }
      exists (mkR r0 p p seen (hi - 1) (hi - 1) true), (upd (fun i => i) hi hi), (upd (fun i => i) hi hi), R. split; [reflexivity|]. unfold good. cbn [bits np npi routed to_route max_unrouted route_left].
      split; [refine (conj RPP (conj RPP (conj RS (conj _ AB))))|].
      * constructor; [..|exact FR]; [| | |intros X; contradiction|intros _; exact RH|].
        -- intros i Hi Ri. rewrite (RT i Ri), EH, (top_single r0 left), (top_single r0 right), wire_hi, upd_same by auto. refine (conj _ (conj _ _)); reflexivity.
        -- intros w W [X|X]; apply RT in X; destruct (odd_sw w OD W); lia.
        -- intros w W X. now rewrite LN in X.
        -- intros w W X _. destruct (QW w W). congruence.
      * constructor; [apply RF; unfold hi; lia|]. split; [|split].
        -- intros w W _. destruct (odd_sw w OD W). now rewrite !RF.
        -- intros w W _. destruct (QW w W) as [A B]. rewrite A, B. split; [reflexivity|]. rewrite R0; [tauto|auto|apply sw_in; exact W].
        -- intros _. assert (Q hi = hi) by (rewrite <- EH at 1; now rewrite QP by apply hi_in). congruence.
    + set (o := P hi) in *. assert (Ho : inside o) by (apply P_in, hi_in). assert (W0 := not_hi_sw o Ho NH). assert (QO : Q o = hi) by (apply QP, hi_in).
      rewrite switch_wire_ok by assumption. cbn [rbind]. assert (WI : inside (wire o false)) by (apply wire_in; auto).
      destruct (wr_rep (iota lo sz) (fun i => i) hi (wire o false) rep_iota hi_in) as (p & EP & RPP). rewrite EP. cbn [rbind].
      destruct (wr_rep (iota lo sz) (fun i => i) (wire o false) hi rep_iota WI) as (q & EQ & RQQ). rewrite EQ. cbn [rbind].
      set (r := set_bit r0 right (row o) (setting_of lo o false)).
      assert (FR : forall c w, (c = left \/ c = right) /\ sw w \/ r c w = r0 c w).
      { intros c w. unfold r. destruct (Nat.eq_dec c right) as [->|]; [|right; apply set_bit_other; auto]. destruct (Nat.eq_dec w (row o)) as [->|]; [left; auto|right; apply set_bit_other; auto]. }
      assert (QH : forall w, inside w -> Q w = hi -> w = o) by (intros w W X; unfold o; rewrite <- X; symmetry; now apply PQ).
      assert (OI : inside (other o)) by now apply other_in.
      exists (mkR r p q seen (other o) (hi - 1) false), (upd (fun i => i) hi (wire o false)), (upd (fun i => i) (wire o false) hi), R. split; [reflexivity|]. unfold good. cbn [bits np npi routed to_route max_unrouted route_left].
      split; [refine (conj RPP (conj RQQ (conj RS (conj _ AB))))|].
      * constructor; [..|exact FR]; [| | |intros X; contradiction|intros _; exact RH|].
        -- intros i Hi Ri. rewrite (RT i Ri), (top_single r left) by auto. rewrite wire_hi. fold o. unfold r at 1. rewrite top_set by apply (inside_lo _ Ho). rewrite !upd_same. auto.
        -- intros w W [X|X]; apply RT in X; destruct (odd_sw w OD W); lia.
        -- intros w W X. exfalso. apply X. unfold r. rewrite set_bit_other by auto. now apply LN.
        -- intros w W X Y. destruct (sw_in w W) as [W1 W2]. apply RT, QH in X; [|exact W1]. apply RT, QH in Y; [|exact W2]. lia.
      * assert (OL := inside_lo _ Ho). assert (NN : other o <> o) by (destruct (other_cases o OL); lia).
        assert (RR : r right (row o) <> None) by (unfold r; rewrite set_bit_same; discriminate).
        assert (RQO : R (Q (other o)) = false) by (apply RF; intros X; now apply QH in X).
        apply Bck with (st := false); rewrite ?(other_row o OL); [exact OI|exact W0|exact RQO| |exact RR| | | | |exact RH].
        -- rewrite other_other by exact OL. now rewrite QO.
        -- rewrite top_other by auto. unfold r. now rewrite top_set.
        -- split; [exact OD|]. apply RF. intros X. apply QH in X; [auto|apply hi_in].
        -- intros w W _. destruct (odd_sw w OD W). now rewrite !RF.
        -- intros w W NW. destruct (sw_in w W) as [W1 W2]. destruct (row_of w W) as [E1 E2]. assert (N1 : w <> o) by congruence. assert (N2 : w + 1 <> o) by congruence.
           rewrite !RF by (intros X; apply QH in X; auto). split; [reflexivity|]. unfold r. rewrite set_bit_other by auto. rewrite R0; [tauto|auto|exact W1].
  - assert (NOD : ~ odd) by exact NO. destruct (row_hi_even NOD) as (E1 & SW & E2 & E3 & E4).
    exists (mkR (set_bit r0 left (hi - 1) false) (iota lo sz) (iota lo sz) (repeat false sz) hi hi true), (fun i => i), (fun i => i), (fun _ => false). split; [reflexivity|]. unfold good. cbn [bits np npi routed to_route max_unrouted route_left].
    split; [refine (conj rep_iota (conj rep_iota (conj (rep_repeat false) (conj _ _))))|].
    + constructor; try discriminate; try contradiction.
      * intros w W [X|X]; discriminate.
      * intros w W X. destruct (Nat.eq_dec w (hi - 1)) as [->|NE]; [auto|]. rewrite set_bit_other in X by auto. rewrite R0 in X; [contradiction|auto|apply sw_in; exact W].
      * intros _. apply set_bit_same.
      * intros c w. destruct (Nat.eq_dec c left) as [->|]; [|right; apply set_bit_other; auto]. destruct (Nat.eq_dec w (hi - 1)) as [->|]; [left; auto|right; apply set_bit_other; auto].
    + split; [apply hi_in|]. intros; lia.
    + constructor; [reflexivity|]. split; [|split].
      * intros w W _. reflexivity.
      * intros w W _. split; [reflexivity|]. rewrite set_bit_other by auto. rewrite R0; [tauto|auto|apply sw_in; exact W].
      * intros X. contradiction.
Qed.

(* ---- what one level achieves ---- *)
Record level (r : routing) (p q : nat -> nat) : Prop := mkLevel {
  v_in : forall i, inside i -> top r left i = top r right (P i) /\ p (wire i (top r left i)) = wire (P i) (top r left i) /\ q (wire (P i) (top r left i)) = wire i (top r left i);
  v_l : forall w, sw w -> r left w <> None;
  v_r : forall w, sw w -> r right w <> None;
  v_fix : ~ odd -> r left (hi - 1) = Some false;
  v_frame : forall c w, (c = left \/ c = right) /\ sw w \/ r c w = r0 c w }.
Lemma route_level : exists s0 s p q, route_init sz left right lo hi perm r0 = Ok s0 /\ route_loop sz left right lo hi perm perm_inv (2 * sz + 2) s0 = Ok s /\
  rep (np s) p /\ rep (npi s) q /\ level (bits s) p q.
Proof.
  destruct route_init_ok as (s0 & p0 & q0 & R & E0 & G & M). destruct (route_loop_ok (2 * sz + 2) s0 p0 q0 R 0 G ltac:(lia) M) as (s & p & q & R' & E & (A1 & A2 & A3 & C & _) & ALL & (CL & CR & CO)).
  { pose proof (cnt_le R). lia. }
  exists s0, s, p, q. refine (conj E0 (conj E (conj A1 (conj A2 _)))). constructor.
  - intros i Hi. apply (c_in _ _ _ _ C); auto.
  - intros w W. apply (c_l _ _ _ _ C); auto. left. apply ALL, sw_in, W.
  - intros w W X. destruct (CR w W (fun x => x)) as [_ K]. apply K in X. rewrite ALL in X; [discriminate|]. apply Q_in, sw_in, W.
  - apply (c_fix _ _ _ _ C).
  - apply (c_frame _ _ _ _ C).
Qed.
Lemma negb_ne a b : a <> b -> negb a = b.
Proof. destruct a, b; cbn; congruence. Qed.
(* every wire of the inner column carries a packet *)
Lemma wire_onto r c x : (c = left \/ c = right) -> (forall w, sw w -> r c w <> None) -> (forall c w, (c = left \/ c = right) /\ sw w \/ r c w = r0 c w) -> inside x ->
  exists i, inside i /\ wire i (top r c i) = x /\ top r c i = (x <? lo + d).
Proof.
  intros HC N FR Hx. set (b := x <? lo + d). set (w := lo + 2 * (x - lo - (if b then 0 else d))).
  assert (B : if b then x < lo + d else lo + d <= x) by (unfold b; destruct (Nat.ltb_spec x (lo + d)); lia).
  assert (K : forall i, lo <= i -> row i = w -> top r c i = b -> wire i (top r c i) = x).
  { intros i Hi E T. rewrite T. unfold wire. unfold Wak_model.row in E. unfold inside in Hx. clear N FR HC T R0 PQ QP P_in Q_in RP RQ. destruct b; unfold w in E; lia. }
  assert (WI : inside w) by (unfold inside, w, hi, d in *; clear N FR HC K R0 PQ QP P_in Q_in RP RQ; destruct b; lia).
  assert (RW : row w = w) by (unfold Wak_model.row, w; lia). assert (WL := inside_lo _ WI).
  destruct (row_sw w WI) as [SW|(O & EH & _)]; rewrite ?RW in *.
  - destruct (Bool.bool_dec (top r c w) b) as [T|T]; [exists w; auto|]. exists (other w). assert (T' : top r c (other w) = b) by (rewrite top_other; [now apply negb_ne|exact WL|rewrite RW; now apply N]).
    assert (OW : row (other w) = w) by (rewrite other_row; auto). split; [apply other_in; [exact WI|now rewrite RW]|]. split; [|exact T']. apply K; auto. destruct (other_cases w WL); lia.
  - exists hi. assert (T : top r c hi = false) by now apply top_single. assert (BF : b = false).
    { unfold w in EH. unfold hi, d, odd in *. clear N FR HC K T R0 PQ QP P_in Q_in RP RQ. destruct b; [lia|reflexivity]. }
    split; [apply hi_in|]. split; [|congruence]. apply K; [unfold inside in *; lia|congruence|congruence].
Qed.
Lemma level_perm r p q : level r p q -> forall x, inside x -> inside (p x) /\ inside (q x) /\ q (p x) = x /\ p (q x) = x /\ (p x < lo + d <-> x < lo + d) /\ (q x < lo + d <-> x < lo + d).
Proof.
  intros V x Hx. assert (FR := v_frame _ _ _ V).
  destruct (wire_onto r left x (or_introl eq_refl) (v_l _ _ _ V) FR Hx) as (i & Hi & E & T). destruct (v_in _ _ _ V i Hi) as (TP & EP & EQ). rewrite E in *.
  destruct (wire_onto r right x (or_intror eq_refl) (v_r _ _ _ V) FR Hx) as (o & Ho & E' & T'). assert (HQ := Q_in o Ho). destruct (v_in _ _ _ V (Q o) HQ) as (TP' & EP' & EQ'). rewrite PQ in * by exact Ho. rewrite TP' in *. rewrite E' in *.
  assert (SI := top_side r left i FR (or_introl eq_refl) Hi). assert (SO := top_side r right (P i) FR (or_intror eq_refl) (P_in i Hi)). rewrite <- TP in SO.
  assert (SI' := top_side r left (Q o) FR (or_introl eq_refl) HQ). rewrite TP' in SI'.
  rewrite EP, EQ'. refine (conj _ (conj _ (conj _ (conj _ (conj _ _))))).
  - apply wire_in; auto.
  - apply wire_in; auto.
  - exact EQ.
  - exact EP'.
  - rewrite wire_low by auto. rewrite T. apply Nat.ltb_lt.
  - rewrite wire_low by auto. rewrite T'. apply Nat.ltb_lt.
Qed.
End Level.
