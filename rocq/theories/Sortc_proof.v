(* The comparators of the sorting functions decide the order of the keys. *)
From Coq Require Import ZifyBool ZifyNat ZifyN.
From Verif Require Import Base Ring_model Ring_spec Perm_model Sort_model Sort_spec.
Open Scope Z_scope.

Lemma lex_total asc : forall x y, lex_le asc x y = true \/ lex_le asc y x = true.
Proof.
  induction x as [|a x IH]; intros [|b y]; cbn [lex_le]; auto. destruct (IH y) as [H|H]; rewrite H; destruct asc; lia.
Qed.
Lemma lex_trans asc : forall x y z, length x = length y -> length y = length z -> lex_le asc x y = true -> lex_le asc y z = true -> lex_le asc x z = true.
Proof.
  induction x as [|a x IH]; intros [|b y] [|c z] L1 L2; cbn [lex_le length] in *; try discriminate; auto. injection L1 as L1. injection L2 as L2.
  specialize (IH y z L1 L2). destruct (lex_le asc x y), (lex_le asc y z), (lex_le asc x z); destruct asc; lia.
Qed.
Lemma key_preorder val asc m : total_preorder (key_le val asc m).
Proof.
  split.
  - intros x y. apply lex_total.
  - intros x y z. unfold key_le. apply lex_trans; now rewrite !map_length.
Qed.

Section Cmp.
Variables (val : Z -> Z) (lt eq : Z -> Z -> bool) (asc : bool).
Hypothesis LT : forall x y, lt x y = (val x <? val y).
Hypothesis EQ : forall x y, eq x y = (val x =? val y).
Let keys (x : row) (i n : nat) : list Z := map (fun i => val (nthZ x i)) (seq i n).
(* strictly before *)
Fixpoint lex_lt (x y : list Z) : bool :=
  match x, y with
  | a :: x', b :: y' => (if asc then a <? b else b <? a) || ((a =? b) && lex_lt x' y')
  | _, _ => false
  end.
Fixpoint all_eq (x y : list Z) : bool :=
  match x, y with a :: x', b :: y' => (a =? b) && all_eq x' y' | _, _ => true end.
Lemma lex_lt_le : forall x y, lex_lt x y = true -> lex_le asc x y = true.
Proof. clear keys LT EQ val lt eq. induction x as [|a x IH]; intros [|b y]; cbn; auto. specialize (IH y). destruct (lex_lt x y), (lex_le asc x y), asc; lia. Qed.
Lemma lex_nlt : forall x y, length x = length y -> lex_lt x y = false -> lex_le asc y x = true.
Proof. clear keys LT EQ val lt eq. induction x as [|a x IH]; intros [|b y] L; cbn in *; try discriminate; auto. injection L as L. specialize (IH y L). destruct (lex_lt x y), (lex_le asc y x), asc; lia. Qed.
Lemma all_eq_le : forall x y, all_eq x y = true -> lex_le asc x y = true.
Proof. clear keys LT EQ val lt eq. induction x as [|a x IH]; intros [|b y]; cbn; auto. specialize (IH y). destruct (all_eq x y), (lex_le asc x y), asc; lia. Qed.

(* the loop over the keys from number i on: [pre] keys before i - 1 are equal *)
Lemma cmp_keys_ok x y : forall n i pre r, (0 < i)%nat ->
  let '(p, q) := cmp_keys lt eq asc x y n i pre r in
  q = r || (pre && all_eq (keys x (i - 1) 1) (keys y (i - 1) 1) && lex_lt (keys x i n) (keys y i n)) /\
  p && eq (nthZ x (i + n - 1)) (nthZ y (i + n - 1)) = pre && all_eq (keys x (i - 1) (S n)) (keys y (i - 1) (S n)).
Proof.
  induction n as [|n IH]; intros i pre r I; cbn [cmp_keys].
  - unfold keys. cbn [seq map all_eq lex_lt]. rewrite !andb_false_r, orb_false_r, !andb_true_r. rewrite EQ. replace (i + 0 - 1)%nat with (i - 1)%nat by lia. auto.
  - specialize (IH (S i) (pre && eq (nthZ x (i - 1)) (nthZ y (i - 1)))
      (r || (pre && eq (nthZ x (i - 1)) (nthZ y (i - 1)) && (if asc then lt (nthZ x i) (nthZ y i) else lt (nthZ y i) (nthZ x i)))) ltac:(lia)).
    destruct (cmp_keys lt eq asc x y n (S i) _ _) as [p q]. destruct IH as [IH1 IH2]. cbn [Nat.sub] in IH1, IH2. rewrite Nat.sub_0_r in IH1, IH2.
    replace (i + n - 0)%nat with (i + S n - 1)%nat in IH2 by lia. split.
    + rewrite IH1. unfold keys. cbn [seq map all_eq lex_lt]. rewrite EQ, !LT, !andb_true_r.
      destruct r, pre, (val (nthZ x (i - 1)) =? val (nthZ y (i - 1))); cbn [andb orb]; auto.
    + replace (S i + n - 1)%nat with (i + S n - 1)%nat in IH2 by lia. rewrite IH2. unfold keys. cbn [seq map all_eq]. rewrite EQ. replace (S (i - 1)) with i by lia. now rewrite <- !andb_assoc.
Qed.
Lemma cmp_func_spec m rnd x y : (0 < m)%nat -> cmp_func lt eq m asc rnd x y =
  lex_lt (keys x 0 m) (keys y 0 m) || (all_eq (keys x 0 m) (keys y 0 m) && match rnd with Some b => b | None => false end).
Proof.
  intros M. unfold cmp_func. pose proof (cmp_keys_ok x y (m - 1) 1 true (if asc then lt (nthZ x 0) (nthZ y 0) else lt (nthZ y 0) (nthZ x 0)) ltac:(lia)) as H.
  destruct (cmp_keys lt eq asc x y (m - 1) 1 true _) as [p q]. destruct H as [H1 H2]. cbn [Nat.sub andb] in H1, H2.
  replace (1 + (m - 1) - 1)%nat with (m - 1)%nat in H2 by lia. replace (S (m - 1)) with m in H2 by lia.
  assert (Q : q = lex_lt (keys x 0 m) (keys y 0 m)).
  { rewrite H1. destruct m as [|m]; [lia|]. replace (S m - 1)%nat with m by lia. unfold keys. cbn [seq map lex_lt all_eq]. rewrite !LT, andb_true_r. now destruct asc. }
  rewrite Q. destruct rnd as [b|]; [now rewrite H2|]. now rewrite andb_false_r, orb_false_r.
Qed.
End Cmp.
Lemma cmp_func_ok val lt eq m asc rnd : (0 < m)%nat ->
  (forall x y, lt x y = (val x <? val y)) -> (forall x y, eq x y = (val x =? val y)) ->
  total_preorder (key_le val asc m) /\ decides (key_le val asc m) (cmp_func lt eq m asc rnd).
Proof.
  intros M L E. split; [apply key_preorder|]. intros x y. rewrite (cmp_func_spec val lt eq asc L E m rnd x y M). unfold key_le. split; intros H.
  - apply orb_true_iff in H. destruct H as [H|H]; [now apply (lex_lt_le _)|]. apply andb_true_iff in H. now apply (all_eq_le _).
  - apply orb_false_iff in H. apply (lex_nlt _); [now rewrite !map_length|tauto].
Qed.
Lemma topk_cmp_ok val (lt eq : Z -> Z -> bool) (largest : bool) : (forall x y, lt x y = (val x <? val y)) -> (forall x y, eq x y = (val x =? val y)) ->
  total_preorder (key_le val (negb largest) 1) /\
  decides (key_le val (negb largest) 1) (topk_cmp (fun x y => if largest then lt y x else lt x y) eq).
Proof.
  intros L E. split; [apply key_preorder|]. intros x y. unfold topk_cmp, key_le. cbn [seq map lex_le]. rewrite !L, !E. split; destruct largest; cbn [negb]; lia.
Qed.
