(* The recursive network: routing and topology together realise the permutation. *)
From Verif Require Import Base Prg_model Perm_model Perm_proof Wak_model Wak_proof.
From Coq Require Import ZifyBool ZifyNat.
Open Scope nat_scope.
Ltac Zify.zify_post_hook ::= Z.to_euclidean_division_equations.

(* ---- lists ---- *)
Lemma nth_error_firstn {A} (l : list A) : forall n i, i < n -> nth_error (firstn n l) i = nth_error l i.
Proof. induction l as [|a l IH]; intros [|n] [|i] H; cbn; try reflexivity; try lia. apply IH. lia. Qed.
Lemma nth_error_skipn {A} (l : list A) : forall n i, nth_error (skipn n l) i = nth_error l (n + i).
Proof. induction l as [|a l IH]; intros [|n] i; cbn; try reflexivity. - now destruct i. - apply IH. Qed.
Lemma rd_rep {A} sz lo (l : list A) f i : rep sz lo l f -> inside sz lo i -> rd lo l i = Ok (f i).
Proof. intros [L H] Hi. unfold rd, read. rewrite (proj2 (Nat.ltb_ge _ _)) by (unfold inside in *; lia). now rewrite H. Qed.
Lemma wr_rep {A} sz lo (l : list A) f i v : 1 <= sz -> rep sz lo l f -> inside sz lo i -> exists l', wr lo l i v = Ok l' /\ rep sz lo l' (upd f i v).
Proof.
  intros SZ [L H] Hi. unfold wr, write. rewrite (proj2 (Nat.ltb_ge _ _)) by (unfold inside in *; lia). rewrite (proj2 (Nat.ltb_lt _ _)) by (unfold inside in Hi; lia).
  eexists. split; [reflexivity|]. split; [now rewrite set_nth_length|]. intros j Hj. unfold upd. destruct (Nat.eqb_spec j i) as [->|NE].
  - apply set_nth_at. unfold inside in Hi. lia.
  - rewrite set_nth_ne by (unfold inside in *; lia). now apply H.
Qed.
Lemma rep_ext {A} sz lo (l : list A) f f' : rep sz lo l f -> (forall i, inside sz lo i -> f' i = f i) -> rep sz lo l f'.
Proof. intros [L H] E. split; [exact L|]. intros i Hi. rewrite E by exact Hi. auto. Qed.
Lemma rep_firstn {A} sz lo (l : list A) f n : 1 <= n <= sz -> rep sz lo l f -> rep n lo (firstn n l) f.
Proof. intros N [L H]. split; [rewrite firstn_length; lia|]. intros i Hi. unfold inside in *. rewrite nth_error_firstn by lia. apply H. lia. Qed.
Lemma rep_skipn {A} sz lo (l : list A) f n : n < sz -> rep sz lo l f -> rep (sz - n) (lo + n) (skipn n l) f.
Proof. intros N [L H]. split; [rewrite skipn_length; lia|]. intros i Hi. unfold inside in *. rewrite nth_error_skipn. replace (n + (i - (lo + n))) with (i - lo) by lia. apply H. lia. Qed.
Lemma slice_rep sz lo (l : list nat) f a n : rep sz lo l f -> lo <= a -> 1 <= n -> a + n <= lo + sz -> exists l', slice lo l a (a + n - 1) = Ok l' /\ rep n a l' f.
Proof.
  intros H A N B. unfold slice. destruct H as [L H]. replace ((lo <=? a) && (a + n - 1 <? lo + length l) && (a <=? a + n - 1)) with true by lia. eexists. split; [reflexivity|].
  replace (a + n - 1 + 1 - a) with n by lia. apply (rep_firstn (sz - (a - lo))); [lia|].
  pose proof (rep_skipn sz lo l f (a - lo) ltac:(lia) (conj L H)) as K. now replace (lo + (a - lo)) with a in K by lia.
Qed.
Lemma loop_app {A} (f : nat -> A -> res A) l1 : forall l2 y, loop f (l1 ++ l2) y = rbind (loop f l1 y) (loop f l2).
Proof. induction l1 as [|i l1 IH]; intros l2 y; [reflexivity|]. cbn [app loop]. destruct (f i y) as [y1| |]; cbn [rbind]; auto. Qed.

(* ---- columns ---- *)
Lemma log2_half n : 2 <= n -> Nat.log2 n = S (Nat.log2 (n / 2)).
Proof.
  intros H. assert (E : n = 2 * (n / 2) \/ n = 2 * (n / 2) + 1) by lia. assert (0 < n / 2) by lia. set (m := n / 2) in *. clearbody m. destruct E as [-> | ->]; [now apply Nat.log2_double|now apply Nat.log2_succ_double].
Qed.
Lemma columns_half n : 3 <= n -> columns (n - n / 2) + 2 = columns n.
Proof.
  intros H. unfold columns, log2_ceil. rewrite (proj2 (Nat.ltb_lt 1 n)) by lia. rewrite (proj2 (Nat.leb_gt n 1)) by lia.
  rewrite (proj2 (Nat.ltb_lt 1 (n - n / 2))) by lia. rewrite (proj2 (Nat.leb_gt (n - n / 2) 1)) by lia. rewrite (log2_half (n - 1)) by lia. replace (n - n / 2 - 1) with ((n - 1) / 2) by lia.
  set (m := Nat.log2 ((n - 1) / 2)). clearbody m. clear H. lia.
Qed.
Lemma columns_mono a b : a <= b -> columns a <= columns b.
Proof.
  intros H. unfold columns, log2_ceil. destruct (Nat.ltb_spec 1 a); [|lia]. rewrite (proj2 (Nat.ltb_lt 1 b)) by lia. rewrite (proj2 (Nat.leb_gt a 1)), (proj2 (Nat.leb_gt b 1)) by lia.
  pose proof (Nat.log2_le_mono (a - 1) (b - 1) ltac:(lia)). lia.
Qed.
Lemma columns_odd n : 2 <= n -> exists k, columns n = 2 * k + 1.
Proof. intros H. unfold columns, log2_ceil. rewrite (proj2 (Nat.ltb_lt 1 n)) by lia. rewrite (proj2 (Nat.leb_gt n 1)) by lia. exists (Nat.log2 (n - 1)). lia. Qed.
Lemma columns_one n : n <= 1 -> columns n = 0.
Proof. intros H. unfold columns. now rewrite (proj2 (Nat.ltb_ge 1 n)) by lia. Qed.
Lemma columns_two : columns 2 = 1.
Proof. reflexivity. Qed.

(* ---- a column of switches: m gives the row a packet moves to ---- *)
Inductive col (g : topology) (r : routing) (c : nat) (m : nat -> nat) : nat -> nat -> Prop :=
| col_nil lo : col g r c m lo 0
| col_one lo n : g c lo = (Some (m lo), Some (m lo)) -> col g r c m (S lo) n -> col g r c m lo (S n)
| col_two lo n u v s : g c lo = (Some u, Some v) -> g c (S lo) = (Some v, Some u) -> u <> v -> r c lo = Some s ->
    m lo = (if s then v else u) -> m (S lo) = (if s then u else v) -> col g r c m (S (S lo)) n -> col g r c m lo (S (S n)).
Lemma col_app g r c m a lo : col g r c m lo a -> forall b, col g r c m (lo + a) b -> col g r c m lo (a + b).
Proof.
  induction 1 as [lo|lo n E C IH|lo n u v s E1 E2 N ES M1 M2 C IH]; intros b B.
  - now rewrite Nat.add_0_r in B.
  - cbn [plus]. apply col_one; [exact E|]. apply IH. now replace (S lo + n) with (lo + S n) by lia.
  - cbn [plus]. apply (col_two _ _ _ _ _ _ u v s); auto. apply IH. now replace (S (S lo) + n) with (lo + S (S n)) by lia.
Qed.
Lemma col_ext g r c m g' r' m' n lo : col g r c m lo n -> (forall i, lo <= i < lo + n -> g' c i = g c i /\ r' c i = r c i /\ m' i = m i) -> col g' r' c m' lo n.
Proof.
  induction 1 as [lo|lo n E C IH|lo n u v s E1 E2 N ES M1 M2 C IH]; intros X.
  - constructor.
  - destruct (X lo ltac:(lia)) as (A & B & D). apply col_one; [now rewrite A, D|]. apply IH. intros i Hi. apply X. lia.
  - destruct (X lo ltac:(lia)) as (A & B & D). destruct (X (S lo) ltac:(lia)) as (A' & B' & D'). apply (col_two _ _ _ _ _ _ u v s); try congruence. apply IH. intros i Hi. apply X. lia.
Qed.
Lemma col_pairs (g : topology) (r : routing) c (m : nat -> nat) n : forall lo, (forall j, j < n -> exists u v s, g c (lo + 2 * j) = (Some u, Some v) /\ g c (S (lo + 2 * j)) = (Some v, Some u) /\ u <> v /\ r c (lo + 2 * j) = Some s /\
   m (lo + 2 * j) = (if s then v else u) /\ m (S (lo + 2 * j)) = (if s then u else v)) -> col g r c m lo (2 * n).
Proof.
  induction n as [|n IH]; intros lo H; [constructor|]. replace (2 * S n) with (S (S (2 * n))) by lia.
  destruct (H 0 ltac:(lia)) as (u & v & s & E1 & E2 & N & ES & M1 & M2). rewrite Nat.mul_0_r, Nat.add_0_r in *. apply (col_two _ _ _ _ _ _ u v s); auto. apply IH.
  intros j Hj. replace (S (S lo) + 2 * j) with (lo + 2 * S j) by lia. apply H. lia.
Qed.
Fixpoint through (M : nat -> nat -> nat) (c len i : nat) : nat := match len with O => i | S len => through M (S c) len (M c i) end.
Lemma through_last M : forall len c i, through M c (S len) i = M (c + len) (through M c len i).
Proof. induction len as [|len IH]; intros c i; [cbn; now rewrite Nat.add_0_r|]. change (through M c (S (S len)) i) with (through M (S c) (S len) (M c i)). rewrite IH. cbn [through]. f_equal. lia. Qed.
Lemma through_ext (M M' : nat -> nat -> nat) (A : nat -> Prop) : forall len c i, A i -> (forall c' x, c <= c' < c + len -> A x -> M' c' x = M c' x) -> (forall c' x, c <= c' -> c' + 1 < c + len -> A x -> A (M c' x)) ->
  through M' c len i = through M c len i.
Proof.
  induction len as [|len IH]; intros c i Ai E K; [reflexivity|]. cbn [through]. rewrite E by (auto; lia). destruct len as [|len]; [reflexivity|]. apply IH.
  - apply K; [lia|lia|exact Ai].
  - intros c' x Hc Ax. apply E; [lia|exact Ax].
  - intros c' x H1 H2 Ax. apply K; [lia|lia|exact Ax].
Qed.
Definition net (g : topology) (r : routing) (left right lo sz : nat) (D F : nat -> nat) : Prop :=
  exists M, (forall c, left <= c <= right -> col g r c (M c) lo sz) /\ (forall c i, left <= c < right -> inside sz lo i -> inside sz lo (M c i)) /\
    (forall i, inside sz lo i -> exists j, inside sz lo j /\ M right i = D j) /\
    (forall i, inside sz lo i -> through M left (right + 1 - left) i = F i).

Lemma bit_ne r c w b c' w' : c' <> c \/ w' <> w -> set_bit r c w b c' w' = r c' w'.
Proof. unfold set_bit. intros H. destruct (Nat.eqb_spec c' c), (Nat.eqb_spec w' w); cbn; try reflexivity. lia. Qed.
(* ---- straight columns ---- *)
Lemma set_pair_at g c i a b : set_pair g c i a b c i = (a, b).
Proof. unfold set_pair. now rewrite !Nat.eqb_refl. Qed.
Lemma set_pair_ne g c i a b c' i' : c' <> c \/ i' <> i -> set_pair g c i a b c' i' = g c' i'.
Proof. unfold set_pair. intros H. destruct (Nat.eqb_spec c' c), (Nat.eqb_spec i' i); cbn; try reflexivity. lia. Qed.
Lemma straight_loop left right lo sz D dests g0 : rep sz lo dests (fun i => Some (D i)) -> forall n, n <= sz ->
  exists g, loop (wire_straight left right lo dests) (seq lo n) g0 = Ok g /\ forall c w, g c w =
    if (lo <=? w) && (w <? lo + n) then (if c =? right then (Some (D w), Some (D w)) else if c =? left then (Some w, Some w) else g0 c w) else g0 c w.
Proof.
  intros RD. induction n as [|n IH]; intros Hn.
  - exists g0. split; [reflexivity|]. intros c w. replace ((lo <=? w) && (w <? lo + 0)) with false by lia. reflexivity.
  - destruct IH as (g & E & G); [lia|]. rewrite seq_S, loop_app, E. cbn [rbind loop]. unfold wire_straight. rewrite (rd_rep sz lo dests _ (lo + n) RD) by (unfold inside; lia). cbn [rbind].
    eexists. split; [reflexivity|]. intros c w. destruct (Nat.eq_dec w (lo + n)) as [->|NW].
    + replace ((lo <=? lo + n) && (lo + n <? lo + S n)) with true by lia. destruct (Nat.eqb_spec c right) as [->|NR]; [now rewrite set_pair_at|]. rewrite set_pair_ne by auto.
      destruct (Nat.eqb_spec c left) as [->|NL]; [now rewrite set_pair_at|]. rewrite set_pair_ne by auto. rewrite G. now replace ((lo <=? lo + n) && (lo + n <? lo + n)) with false by lia.
    + rewrite !set_pair_ne by auto. rewrite G. replace ((lo <=? w) && (w <? lo + S n)) with ((lo <=? w) && (w <? lo + n)) by lia. reflexivity.
Qed.
Lemma col_straight (g : topology) (r : routing) c (m : nat -> nat) n : forall lo, (forall i, lo <= i < lo + n -> g c i = (Some (m i), Some (m i))) -> col g r c m lo n.
Proof. induction n as [|n IH]; intros lo H; [constructor|]. apply col_one; [apply H; lia|]. apply IH. intros i Hi. apply H. lia. Qed.

(* ---- switches ---- *)
Definition ndf (sz lo n x : nat) : option nat :=
  if x <? lo + sz / 2 then (if x <? lo + n then Some (lo + 2 * (x - lo)) else None) else (if x <? lo + sz / 2 + n then Some (lo + 2 * (x - lo - sz / 2) + 1) else None).
Definition pairing (sz left right lo : nat) (D : nat -> nat) (g0 : topology) (n c w : nat) : option nat * option nat :=
  if (lo <=? w) && (w <? lo + 2 * n) then
    let v := row lo w in
    let a := Some (wire sz lo v true) in
    let b := Some (wire sz lo v false) in
    if c =? right then (if w =? v then (Some (D v), Some (D (v + 1))) else (Some (D (v + 1)), Some (D v)))
    else if c =? left then (if w =? v then (a, b) else (b, a)) else g0 c w
  else g0 c w.
Lemma row_even lo n : row lo (lo + 2 * n) = lo + 2 * n.
Proof. unfold row. lia. Qed.
Lemma row_uneven lo n : row lo (lo + 2 * n + 1) = lo + 2 * n.
Proof. unfold row. lia. Qed.
Lemma switch_loop sz left right lo D dests g0 : 2 <= sz -> left <> right -> rep sz lo dests (fun i => Some (D i)) -> forall n, n <= sz / 2 ->
  exists g nd, loop (wire_switch sz left right lo dests) (map (fun j => lo + 2 * j) (seq 0 n)) (g0, repeat None sz) = Ok (g, nd) /\ rep sz lo nd (ndf sz lo n) /\
    forall c w, g c w = pairing sz left right lo D g0 n c w.
Proof.
  intros SZ LR RD. induction n as [|n IH]; intros Hn.
  - exists g0, (repeat None sz). split; [reflexivity|]. split.
    + split; [apply repeat_length|]. intros i Hi. unfold inside in Hi. rewrite nth_error_repeat by lia. unfold ndf. f_equal. destruct (Nat.ltb_spec i (lo + sz / 2)), (Nat.ltb_spec i (lo + 0)), (Nat.ltb_spec i (lo + sz / 2 + 0)); try reflexivity; lia.
    + intros c w. unfold pairing. now replace ((lo <=? w) && (w <? lo + 2 * 0)) with false by lia.
  - destruct IH as (g & nd & E & RN & G); [lia|]. rewrite seq_S, map_app, loop_app, E. cbn [rbind loop map plus]. set (v := lo + 2 * n). unfold wire_switch.
    assert (SW : forall b, switch_wire sz lo v b = Ok (wire sz lo v b)).
    { intros b. unfold switch_wire, wire, top_height, v. replace (lo + 2 * n - lo) with (2 * n) by lia. replace (((2 * n) mod 2 =? 0) && (2 * n + 1 <? sz)) with true by lia. reflexivity. }
    rewrite !SW. cbn [rbind]. assert (WT : wire sz lo v true = lo + n) by (unfold wire, v; lia). assert (WF : wire sz lo v false = lo + sz / 2 + n) by (unfold wire, v; lia).
    destruct (wr_rep sz lo nd _ (wire sz lo v true) (Some v) ltac:(lia) RN) as (nd1 & E1 & RN1); [unfold inside; lia|]. rewrite E1. cbn [rbind].
    destruct (wr_rep sz lo nd1 _ (wire sz lo v false) (Some (v + 1)) ltac:(lia) RN1) as (nd2 & E2 & RN2); [unfold inside; lia|]. rewrite E2. cbn [rbind].
    rewrite (rd_rep sz lo dests _ v RD) by (unfold inside, v; lia). rewrite (rd_rep sz lo dests _ (v + 1) RD) by (unfold inside, v; lia). cbn [rbind].
    eexists _, _. split; [reflexivity|]. split.
    + apply (rep_ext _ _ _ _ _ RN2). intros x Hx. unfold upd, ndf. rewrite WT, WF. unfold v. destruct (Nat.eqb_spec x (lo + sz / 2 + n)) as [->|N1].
      * replace (lo + sz / 2 + n <? lo + sz / 2) with false by lia. replace (lo + sz / 2 + n <? lo + sz / 2 + S n) with true by lia. f_equal. lia.
      * destruct (Nat.eqb_spec x (lo + n)) as [->|N2].
        -- replace (lo + n <? lo + sz / 2) with true by lia. replace (lo + n <? lo + S n) with true by lia. f_equal. lia.
        -- replace (x <? lo + S n) with (x <? lo + n) by lia. replace (x <? lo + sz / 2 + S n) with (x <? lo + sz / 2 + n) by lia. reflexivity.
    + intros c w. unfold pairing. assert (RV : row lo v = v) by apply row_even. assert (RV1 : row lo (v + 1) = v) by apply row_uneven.
      destruct (Nat.eq_dec w (v + 1)) as [->|N1].
      * replace ((lo <=? v + 1) && (v + 1 <? lo + 2 * S n)) with true by (unfold v; lia). cbv zeta. rewrite RV1. rewrite (proj2 (Nat.eqb_neq (v + 1) v)) by lia.
        destruct (Nat.eqb_spec c right) as [->|NR]; [now rewrite set_pair_at|]. rewrite !(set_pair_ne _ right) by auto. destruct (Nat.eqb_spec c left) as [->|NL]; [now rewrite set_pair_at|].
        rewrite !set_pair_ne by auto. rewrite G. unfold pairing. now replace ((lo <=? v + 1) && (v + 1 <? lo + 2 * n)) with false by (unfold v; lia).
      * rewrite !(set_pair_ne _ _ (v + 1)) by auto. destruct (Nat.eq_dec w v) as [->|N2].
        -- replace ((lo <=? v) && (v <? lo + 2 * S n)) with true by (unfold v; lia). cbv zeta. rewrite RV, Nat.eqb_refl.
           destruct (Nat.eqb_spec c right) as [->|NR]; [now rewrite set_pair_at|]. rewrite (set_pair_ne _ right) by auto. rewrite set_pair_ne by (right; lia). destruct (Nat.eqb_spec c left) as [->|NL]; [now rewrite set_pair_at|].
           rewrite !set_pair_ne by auto. rewrite G. unfold pairing. now replace ((lo <=? v) && (v <? lo + 2 * n)) with false by (unfold v; lia).
        -- rewrite (set_pair_ne _ right v) by auto. rewrite set_pair_ne by auto. rewrite set_pair_ne by auto. rewrite G. unfold pairing. replace ((lo <=? w) && (w <? lo + 2 * S n)) with ((lo <=? w) && (w <? lo + 2 * n)) by (unfold v in *; lia). reflexivity.
Qed.
Definition back (sz lo x : nat) : nat :=
  if x <? lo + sz / 2 then lo + 2 * (x - lo) else if (sz mod 2 =? 1) && (x =? lo + sz - 1) then x else lo + 2 * (x - lo - sz / 2) + 1.
Record outer (sz left right lo : nat) (D : nat -> nat) (g0 g : topology) : Prop := mkOuter {
  o_out : forall c w, ~ inside sz lo w -> g c w = g0 c w;
  o_mid : forall c w, c <> left -> c <> right -> g c w = g0 c w;
  o_left : forall j, 2 * j + 1 < sz -> sz mod 2 = 1 \/ 2 * j + 2 < sz ->
    g left (lo + 2 * j) = (Some (lo + j), Some (lo + sz / 2 + j)) /\ g left (S (lo + 2 * j)) = (Some (lo + sz / 2 + j), Some (lo + j));
  o_left_even : sz mod 2 = 0 -> g left (lo + sz - 2) = (Some (lo + sz / 2 - 1), Some (lo + sz / 2 - 1)) /\ g left (lo + sz - 1) = (Some (lo + sz - 1), Some (lo + sz - 1));
  o_left_odd : sz mod 2 = 1 -> g left (lo + sz - 1) = (Some (lo + sz - 1), Some (lo + sz - 1));
  o_right : forall j, 2 * j + 1 < sz -> g right (lo + 2 * j) = (Some (D (lo + 2 * j)), Some (D (lo + 2 * j + 1))) /\ g right (S (lo + 2 * j)) = (Some (D (lo + 2 * j + 1)), Some (D (lo + 2 * j)));
  o_right_odd : sz mod 2 = 1 -> g right (lo + sz - 1) = (Some (D (lo + sz - 1)), Some (D (lo + sz - 1))) }.
Lemma outer_ok sz left right lo D dests g0 : 3 <= sz -> left <> right -> rep sz lo dests (fun i => Some (D i)) ->
  exists s g nd, loop (wire_switch sz left right lo dests) (map (fun j => lo + 2 * j) (seq 0 (top_height sz))) (g0, repeat None sz) = Ok s /\
    wire_last sz left right lo (lo + sz - 1) dests s = Ok (g, nd) /\ rep sz lo nd (fun x => Some (back sz lo x)) /\ outer sz left right lo D g0 g.
Proof.
  intros SZ LR RD. destruct (switch_loop sz left right lo D dests g0 ltac:(lia) LR RD (sz / 2) (le_n _)) as (g & nd & E & RN & G). unfold top_height. rewrite E.
  assert (PL : forall j, 2 * j + 1 < sz -> g left (lo + 2 * j) = (Some (lo + j), Some (lo + sz / 2 + j)) /\ g left (S (lo + 2 * j)) = (Some (lo + sz / 2 + j), Some (lo + j))).
  { intros j Hj. rewrite !G. unfold pairing. replace ((lo <=? lo + 2 * j) && (lo + 2 * j <? lo + 2 * (sz / 2))) with true by lia. replace ((lo <=? S (lo + 2 * j)) && (S (lo + 2 * j) <? lo + 2 * (sz / 2))) with true by lia. cbv zeta.
    rewrite (proj2 (Nat.eqb_neq left right) LR), Nat.eqb_refl. replace (S (lo + 2 * j)) with (lo + 2 * j + 1) by lia. rewrite row_even, row_uneven, Nat.eqb_refl. rewrite (proj2 (Nat.eqb_neq (lo + 2 * j + 1) (lo + 2 * j))) by lia.
    replace (wire sz lo (lo + 2 * j) true) with (lo + j) by (unfold wire; lia). replace (wire sz lo (lo + 2 * j) false) with (lo + sz / 2 + j) by (unfold wire; lia). auto. }
  assert (PR : forall j, 2 * j + 1 < sz -> g right (lo + 2 * j) = (Some (D (lo + 2 * j)), Some (D (lo + 2 * j + 1))) /\ g right (S (lo + 2 * j)) = (Some (D (lo + 2 * j + 1)), Some (D (lo + 2 * j)))).
  { intros j Hj. rewrite !G. unfold pairing. replace ((lo <=? lo + 2 * j) && (lo + 2 * j <? lo + 2 * (sz / 2))) with true by lia. replace ((lo <=? S (lo + 2 * j)) && (S (lo + 2 * j) <? lo + 2 * (sz / 2))) with true by lia. cbv zeta.
    rewrite Nat.eqb_refl. replace (S (lo + 2 * j)) with (lo + 2 * j + 1) by lia. rewrite row_even, row_uneven, Nat.eqb_refl. rewrite (proj2 (Nat.eqb_neq (lo + 2 * j + 1) (lo + 2 * j))) by lia. auto. }
  assert (PO : forall c w, ~ inside sz lo w -> g c w = g0 c w) by (intros c w H; rewrite G; unfold pairing, inside in *; now replace ((lo <=? w) && (w <? lo + 2 * (sz / 2))) with false by lia).
  assert (PM : forall c w, c <> left -> c <> right -> g c w = g0 c w) by (intros c w H1 H2; rewrite G; unfold pairing; rewrite (proj2 (Nat.eqb_neq _ _) H1), (proj2 (Nat.eqb_neq _ _) H2); now destruct ((lo <=? w) && (w <? lo + 2 * (sz / 2)))).
  set (hi := lo + sz - 1) in *. exists (g, nd). unfold wire_last. destruct (Nat.eqb_spec (sz mod 2) 1) as [O|O].
  - rewrite (rd_rep sz lo dests _ hi RD) by (unfold inside, hi; lia). cbn [rbind]. destruct (wr_rep sz lo nd _ hi (Some hi) ltac:(lia) RN) as (nd' & E' & RN'); [unfold inside, hi; lia|]. rewrite E'. cbn [rbind].
    eexists _, nd'. split; [reflexivity|]. split; [reflexivity|]. split.
    + apply (rep_ext _ _ _ _ _ RN'). intros x Hx. unfold upd, back, ndf. fold hi. rewrite O. cbn [Nat.eqb andb]. unfold inside in Hx. fold hi in Hx. destruct (Nat.eqb_spec x hi) as [->|N].
      * replace (hi <? lo + sz / 2) with false by (unfold hi; lia). reflexivity.
      * destruct (Nat.ltb_spec x (lo + sz / 2)); [reflexivity|]. replace (x <? lo + sz / 2 + sz / 2) with true by (unfold hi in *; lia). reflexivity.
    + constructor.
      * intros c w H. rewrite !set_pair_ne; [now apply PO|right; intros ->; apply H; unfold inside, hi; lia..].
      * intros c w H1 H2. rewrite !set_pair_ne by auto. now apply PM.
      * intros j H1 H2. rewrite !set_pair_ne by (right; unfold hi; lia). now apply PL.
      * intros H. lia.
      * intros _. rewrite set_pair_ne by auto. apply set_pair_at.
      * intros j H. rewrite !set_pair_ne by (right; unfold hi; lia). now apply PR.
      * intros _. apply set_pair_at.
  - assert (EV : sz mod 2 = 0) by lia. destruct (PL (sz / 2 - 1) ltac:(lia)) as [A B]. replace (lo + 2 * (sz / 2 - 1)) with (hi - 1) in A by (unfold hi; lia). replace (S (lo + 2 * (sz / 2 - 1))) with hi in B by (unfold hi; lia).
    rewrite A. rewrite (set_pair_ne g left (hi - 1)) by (right; unfold hi; lia). rewrite B. eexists _, nd. split; [reflexivity|]. split; [reflexivity|]. split.
    + apply (rep_ext _ _ _ _ _ RN). intros x Hx. unfold back, ndf. rewrite EV. cbn [Nat.eqb andb]. unfold inside in Hx. destruct (Nat.ltb_spec x (lo + sz / 2)); [reflexivity|]. replace (x <? lo + sz / 2 + sz / 2) with true by lia. reflexivity.
    + constructor.
      * intros c w H. rewrite !set_pair_ne; [now apply PO|right; intros ->; apply H; unfold inside, hi; lia..].
      * intros c w H1 H2. rewrite !set_pair_ne by auto. now apply PM.
      * intros j H1 H2. rewrite !set_pair_ne by (right; unfold hi; lia). now apply PL.
      * intros _. split; [|fold hi; rewrite set_pair_at; replace (lo + sz / 2 + (sz / 2 - 1)) with hi by (unfold hi; lia); reflexivity]. rewrite set_pair_ne by (right; unfold hi; lia). replace (lo + sz - 2) with (hi - 1) by (unfold hi; lia).
        rewrite set_pair_at. replace (lo + (sz / 2 - 1)) with (lo + sz / 2 - 1) by lia. reflexivity.
      * intros H. lia.
      * intros j H. rewrite !set_pair_ne by auto. now apply PR.
      * intros H. lia.
Qed.
(* where the last column sends the packet at row x *)
Definition leave (lo right : nat) (D : nat -> nat) (rb : routing) (x : nat) : nat :=
  match rb right (row lo x) with
  | Some s => if x =? row lo x then D (if s then row lo x + 1 else row lo x) else D (if s then row lo x else row lo x + 1)
  | None => D x
  end.
Lemma back_in sz lo x : 3 <= sz -> inside sz lo x -> inside sz lo (back sz lo x).
Proof. unfold inside, back. intros SZ H. destruct (Nat.ltb_spec x (lo + sz / 2)); [lia|]. destruct ((sz mod 2 =? 1) && (x =? lo + sz - 1)) eqn:E; lia. Qed.
Lemma back_inj sz lo x y : 3 <= sz -> inside sz lo x -> inside sz lo y -> back sz lo x = back sz lo y -> x = y.
Proof.
  unfold inside, back. intros SZ Hx Hy. destruct (Nat.ltb_spec x (lo + sz / 2)), (Nat.ltb_spec y (lo + sz / 2)), ((sz mod 2 =? 1) && (x =? lo + sz - 1)) eqn:EX, ((sz mod 2 =? 1) && (y =? lo + sz - 1)) eqn:EY; lia.
Qed.
Section Columns.
Variables (sz left right lo : nat) (P D : nat -> nat) (r0 rb r : routing) (p q : nat -> nat) (g0 g : topology).
Hypothesis SZ : 3 <= sz.
Hypothesis LR : left <> right.
Hypothesis V : level sz left right lo P r0 rb p q.
Hypothesis G : outer sz left right lo D g0 g.
Hypothesis R0 : forall c i, c = left \/ c = right -> inside sz lo i -> r0 c i = None.
Hypothesis DI : forall i j, inside sz lo i -> inside sz lo j -> D i = D j -> i = j.
Hypothesis RL : forall w, sz mod 2 = 1 \/ w <> lo + sz - 2 -> r left w = rb left w.
Hypothesis RR : forall w, r right w = rb right w.
Lemma sw_even j : 2 * j + 1 < sz -> sw sz lo (lo + 2 * j).
Proof. unfold sw. lia. Qed.
Lemma hi_none c : sz mod 2 = 1 -> c = left \/ c = right -> rb c (lo + sz - 1) = None.
Proof. intros O C. destruct (v_frame _ _ _ _ _ _ _ _ _ V c (lo + sz - 1)) as [[_ W]|E]; [unfold sw in W; lia|]. rewrite E. apply R0; [exact C|unfold inside; lia]. Qed.
Lemma enter_col : col g r left (fun i => wire sz lo i (top lo rb left i)) lo sz.
Proof.
  set (m := fun i => wire sz lo i (top lo rb left i)).
  assert (K : forall j s, rb left (lo + 2 * j) = Some s -> m (lo + 2 * j) = (if s then lo + sz / 2 + j else lo + j) /\ m (S (lo + 2 * j)) = (if s then lo + j else lo + sz / 2 + j)).
  { intros j s E. unfold m, top. replace (S (lo + 2 * j)) with (lo + 2 * j + 1) by lia. rewrite row_even, row_uneven, E, Nat.eqb_refl. rewrite (proj2 (Nat.eqb_neq (lo + 2 * j) (lo + 2 * j + 1))) by lia. unfold wire. destruct s; cbn [xorb]; split; lia. }
  assert (PAIRS : forall n, (forall j, j < n -> 2 * j + 1 < sz /\ (sz mod 2 = 1 \/ 2 * j + 2 < sz)) -> col g r left m lo (2 * n)).
  { intros n Hn. apply col_pairs. intros j Hj. destruct (Hn j Hj) as [H1 H2]. destruct (o_left _ _ _ _ _ _ _ G j H1 H2) as [A B]. pose proof (v_l _ _ _ _ _ _ _ _ _ V _ (sw_even j H1)) as N. destruct (rb left (lo + 2 * j)) as [s|] eqn:E; [|contradiction].
    destruct (K j s E) as [M1 M2]. exists (lo + j), (lo + sz / 2 + j), s. refine (conj A (conj B (conj _ (conj _ (conj M1 M2))))); [lia|]. rewrite RL; [exact E|]. destruct H2; [now left|right; lia]. }
  destruct (Nat.eq_dec (sz mod 2) 1) as [O|O].
  - replace sz with (2 * (sz / 2) + 1) at 1 by lia. apply col_app; [apply PAIRS; intros; lia|]. apply col_one; [|constructor]. replace (lo + 2 * (sz / 2)) with (lo + sz - 1) by lia. rewrite (o_left_odd _ _ _ _ _ _ _ G O).
    assert (E : m (lo + sz - 1) = lo + sz - 1); [|now rewrite E]. unfold m, top. replace (row lo (lo + sz - 1)) with (lo + sz - 1) by (unfold row; lia). rewrite (hi_none left O (or_introl eq_refl)). unfold wire. lia.
  - destruct (o_left_even _ _ _ _ _ _ _ G ltac:(lia)) as [A B]. assert (F : rb left (lo + 2 * (sz / 2 - 1)) = Some false).
    { rewrite <- (v_fix _ _ _ _ _ _ _ _ _ V) by exact O. f_equal. lia. }
    destruct (K _ _ F) as [M1 M2]. replace (S (lo + 2 * (sz / 2 - 1))) with (lo + sz - 1) in M2 by lia. replace (lo + 2 * (sz / 2 - 1)) with (lo + sz - 2) in * by lia.
    replace sz with (2 * (sz / 2 - 1) + 2) at 1 by lia. apply col_app; [apply PAIRS; intros; lia|]. replace (lo + 2 * (sz / 2 - 1)) with (lo + sz - 2) by lia. apply col_one; [|apply col_one; [|constructor]].
    + rewrite A, M1. now replace (lo + (sz / 2 - 1)) with (lo + sz / 2 - 1) by lia.
    + replace (S (lo + sz - 2)) with (lo + sz - 1) by lia. rewrite B, M2. now replace (lo + sz / 2 + (sz / 2 - 1)) with (lo + sz - 1) by lia.
Qed.
Lemma leave_col : col g r right (leave lo right D rb) lo sz.
Proof.
  assert (PAIRS : col g r right (leave lo right D rb) lo (2 * (sz / 2))).
  { apply col_pairs. intros j Hj. assert (H1 : 2 * j + 1 < sz) by lia. destruct (o_right _ _ _ _ _ _ _ G j H1) as [A B]. pose proof (v_r _ _ _ _ _ _ _ _ _ V _ (sw_even j H1)) as N. destruct (rb right (lo + 2 * j)) as [s|] eqn:E; [|contradiction].
    eexists _, _, s. refine (conj A (conj B (conj _ (conj _ (conj _ _))))).
    - intros X. apply DI in X; [lia|unfold inside; lia..].
    - now rewrite RR.
    - unfold leave. rewrite row_even, E, Nat.eqb_refl. now destruct s.
    - unfold leave. replace (S (lo + 2 * j)) with (lo + 2 * j + 1) by lia. rewrite row_uneven, E. rewrite (proj2 (Nat.eqb_neq (lo + 2 * j + 1) (lo + 2 * j))) by lia. now destruct s. }
  destruct (Nat.eq_dec (sz mod 2) 1) as [O|O].
  - replace sz with (2 * (sz / 2) + 1) by lia. apply col_app; [exact PAIRS|]. apply col_one; [|constructor]. replace (lo + 2 * (sz / 2)) with (lo + sz - 1) by lia. rewrite (o_right_odd _ _ _ _ _ _ _ G O).
    unfold leave. replace (row lo (lo + sz - 1)) with (lo + sz - 1) by (unfold row; lia). now rewrite (hi_none right O (or_intror eq_refl)).
  - now replace sz with (2 * (sz / 2)) by lia.
Qed.
Lemma leave_back o : inside sz lo o -> leave lo right D rb (back sz lo (wire sz lo o (top lo rb right o))) = D o.
Proof.
  intros Ho. destruct (Nat.eq_dec (row lo o) (lo + sz - 1)) as [EH|NH].
  - assert (EO : o = lo + sz - 1) by (unfold row, inside in *; lia). assert (O : sz mod 2 = 1) by (subst o; unfold row in EH; lia). unfold top. rewrite EH, (hi_none right O (or_intror eq_refl)). rewrite EO.
    replace (back sz lo (wire sz lo (lo + sz - 1) false)) with (lo + sz - 1). { unfold leave. replace (row lo (lo + sz - 1)) with (lo + sz - 1) by (unfold row; lia). now rewrite (hi_none right O (or_intror eq_refl)). }
    unfold wire. replace (lo + (lo + sz - 1 - lo) / 2 + sz / 2) with (lo + sz - 1) by lia. unfold back. rewrite O, !Nat.eqb_refl. cbn [andb]. replace (lo + sz - 1 <? lo + sz / 2) with false by lia. reflexivity.
  - assert (W : sw sz lo (row lo o)) by (unfold sw, row, inside in *; lia). pose proof (v_r _ _ _ _ _ _ _ _ _ V _ W) as N. unfold top. destruct (rb right (row lo o)) as [s|] eqn:E; [|contradiction].
    assert (BT : back sz lo (wire sz lo o true) = row lo o). { unfold back, wire. replace (lo + (o - lo) / 2 + 0 <? lo + sz / 2) with true by (unfold sw, row in W; lia). unfold row. lia. }
    assert (BF : back sz lo (wire sz lo o false) = row lo o + 1).
    { unfold back, wire. replace (lo + (o - lo) / 2 + sz / 2 <? lo + sz / 2) with false by lia. replace ((sz mod 2 =? 1) && (lo + (o - lo) / 2 + sz / 2 =? lo + sz - 1)) with false by (unfold sw, row in W; lia). unfold row. lia. }
    assert (L1 : leave lo right D rb (row lo o) = D (if s then row lo o + 1 else row lo o)). { unfold leave. replace (row lo (row lo o)) with (row lo o) by (unfold row; lia). now rewrite E, Nat.eqb_refl. }
    assert (L2 : leave lo right D rb (row lo o + 1) = D (if s then row lo o else row lo o + 1)). { unfold leave. replace (row lo (row lo o + 1)) with (row lo o) by (unfold row; lia). rewrite E. now rewrite (proj2 (Nat.eqb_neq (row lo o + 1) (row lo o))) by lia. }
    assert (RC : row lo o = o \/ row lo o + 1 = o) by (unfold row, inside in *; lia).
    destruct RC as [RC|RC].
    + rewrite (proj2 (Nat.eqb_eq _ _) RC). destruct s; cbn [xorb]; rewrite ?BT, ?BF, ?L1, ?L2; now rewrite RC.
    + rewrite (proj2 (Nat.eqb_neq (row lo o) o)) by lia. destruct s; cbn [xorb]; rewrite ?BT, ?BF, ?L1, ?L2; now rewrite RC.
Qed.
End Columns.
Definition outside (left right lo sz c w : nat) : Prop := ~ (left <= c <= right /\ inside sz lo w).
Lemma outside_mono left right lo sz l' r' lo' sz' c w : outside left right lo sz c w -> left <= l' -> r' <= right -> (inside sz' lo' w -> inside sz lo w) -> outside l' r' lo' sz' c w.
Proof. unfold outside. intros O L R I [X Y]. apply O. split; [lia|auto]. Qed.
Lemma outside_col left right lo sz c w : c < left \/ right < c -> outside left right lo sz c w.
Proof. unfold outside. intros H [X Y]. lia. Qed.
Lemma net_ok : forall fuel left right lo sz P Q D perm perm_inv r0 dests g0,
  1 <= sz -> left <= right -> (right + 1 - left) mod 2 = 1 -> columns sz <= right + 1 - left -> (1 <= right \/ columns sz = right + 1 - left) -> right + 1 - left + 3 <= 2 * fuel ->
  (forall i, inside sz lo i -> inside sz lo (P i)) -> (forall i, inside sz lo i -> inside sz lo (Q i)) -> (forall i, inside sz lo i -> P (Q i) = i) -> (forall i, inside sz lo i -> Q (P i) = i) ->
  rep sz lo perm P -> rep sz lo perm_inv Q -> (forall c i, left <= c <= right -> inside sz lo i -> r0 c i = None) ->
  rep sz lo dests (fun i => Some (D i)) -> (forall i j, inside sz lo i -> inside sz lo j -> D i = D j -> i = j) ->
  exists r g, route_inner fuel left right lo (lo + sz - 1) perm perm_inv r0 = Ok r /\ construct_inner fuel left right lo (lo + sz - 1) dests g0 = Ok g /\
    (forall c w, outside left right lo sz c w -> r c w = r0 c w) /\ (forall c w, outside left right lo sz c w -> g c w = g0 c w) /\
    net g r left right lo sz D (fun i => D (P i)).
Proof.
  induction fuel as [|fuel IH]; intros left right lo sz P Q D perm perm_inv r0 dests g0 SZ LE ODD CW HR FU P_in Q_in PQ QP RP RQ R0 RD DI; [lia|].
  cbn [route_inner construct_inner]. rewrite (proj2 (Nat.ltb_ge right left)) by lia. replace (lo + sz - 1 - lo + 1) with sz by lia. replace (right - left + 1) with (right + 1 - left) by lia.
  assert (LD : length dests = sz) by apply RD. rewrite LD, Nat.eqb_refl. cbn [negb]. rewrite (proj2 (Nat.ltb_ge (right + 1 - left) (columns sz))) by lia.
  destruct (Nat.ltb_spec (columns sz) (right + 1 - left)) as [LT|GE].
  - (* straight *)
    assert (R1 : 1 <= right) by lia. rewrite (proj2 (Nat.eqb_neq right 0)) by lia.
    destruct (straight_loop left right lo sz D dests g0 RD sz (le_n _)) as (g1 & E1 & G1). rewrite E1. cbn [rbind].
    destruct (Nat.eq_dec left right) as [->|NLR].
    + assert (S1 : sz = 1) by (destruct (Nat.le_gt_cases sz 1); [lia|]; destruct (columns_odd sz) as [kk Hk]; lia). clear LD CW HR LT. subst sz.
      destruct fuel as [|fuel]; [lia|]. cbn [route_inner construct_inner]. rewrite (proj2 (Nat.ltb_lt (right - 1) (right + 1))) by lia. exists r0, g1. split; [reflexivity|]. split; [reflexivity|]. split; [reflexivity|]. split.
      * intros c w O. rewrite G1. destruct ((lo <=? w) && (w <? lo + 1)) eqn:EI; [|reflexivity]. destruct (Nat.eqb_spec c right) as [->|NC]; [|reflexivity]. exfalso. apply O. unfold inside. lia.
      * exists (fun _ => D). split; [|split; [|split]].
        -- intros c Hc. replace c with right by lia. apply col_straight. intros i Hi. rewrite G1. replace ((lo <=? i) && (i <? lo + 1)) with true by lia. now rewrite Nat.eqb_refl.
        -- intros c i Hc. lia.
        -- intros i Hi. now exists i.
        -- intros i Hi. replace (right + 1 - right) with 1 by lia. cbn [through]. f_equal. assert (X := P_in i Hi). unfold inside in *. lia.
    + assert (CW' : columns sz <= right - 1 + 1 - (left + 1)).
      { destruct (Nat.le_gt_cases sz 1); [rewrite columns_one by lia; lia|]. destruct (columns_odd sz) as [kk Hk]; lia. }
      assert (RI : rep sz lo (map Some (seq lo sz)) (fun i => Some i)).
      { split; [now rewrite map_length, seq_length|]. intros i Hi. unfold inside in Hi. apply map_nth_error. rewrite (nth_error_nth' _ 0) by (rewrite seq_length; lia). rewrite seq_nth by lia. f_equal. lia. }
      destruct (IH (left + 1) (right - 1) lo sz P Q (fun i => i) perm perm_inv r0 (map Some (seq lo sz)) g1) as (r & g & ER & EG & FR & FG & M & MC & MI & MD & MT); auto; try lia.
      { intros c i Hc. apply R0. lia. }
      exists r, g. split; [exact ER|]. split; [exact EG|]. split; [intros c w O; apply FR, (outside_mono _ _ _ _ _ _ _ _ _ _ O); auto; lia|]. split.
      * intros c w O. rewrite FG by (apply (outside_mono _ _ _ _ _ _ _ _ _ _ O); auto; lia). rewrite G1. destruct ((lo <=? w) && (w <? lo + sz)) eqn:EI; [|reflexivity]. destruct (Nat.eqb_spec c right) as [->|NC]; [exfalso; apply O; unfold inside; lia|].
        destruct (Nat.eqb_spec c left) as [->|NL]; [exfalso; apply O; unfold inside; lia|]. reflexivity.
      * exists (fun c i => if c =? right then D i else if c =? left then i else M c i). split; [|split; [|split]].
        -- intros c Hc. destruct (Nat.eqb_spec c right) as [->|NC]; [|destruct (Nat.eqb_spec c left) as [->|NL]].
           ++ apply col_straight. intros i Hi. rewrite FG by (apply outside_col; lia). rewrite G1. replace ((lo <=? i) && (i <? lo + sz)) with true by lia. now rewrite Nat.eqb_refl.
           ++ apply col_straight. intros i Hi. rewrite FG by (apply outside_col; lia). rewrite G1. replace ((lo <=? i) && (i <? lo + sz)) with true by lia. rewrite (proj2 (Nat.eqb_neq left right)) by exact NLR. now rewrite Nat.eqb_refl.
           ++ apply MC. lia.
        -- intros c i Hc Hi. rewrite (proj2 (Nat.eqb_neq c right)) by lia. destruct (Nat.eqb_spec c left) as [->|NL]; [exact Hi|]. destruct (Nat.eq_dec c (right - 1)) as [->|NC]; [|apply MI; [lia|exact Hi]].
           destruct (MD i Hi) as (j & Hj & ->). exact Hj.
        -- intros i Hi. rewrite Nat.eqb_refl. now exists i.
        -- intros i Hi. set (M' := fun c i => if c =? right then D i else if c =? left then i else M c i). replace (right + 1 - left) with (S (S (right - 1 + 1 - (left + 1)))) by lia. rewrite through_last. replace (left + S (right - 1 + 1 - (left + 1))) with right by lia.
           unfold M' at 1. rewrite Nat.eqb_refl. f_equal. cbn [through]. unfold M' at 2. rewrite (proj2 (Nat.eqb_neq left right)) by exact NLR. rewrite Nat.eqb_refl.
           rewrite <- (MT i Hi). replace (S left) with (left + 1) by lia. apply (through_ext _ _ (inside sz lo)); [exact Hi|..].
           ++ intros c' x Hc' Hx. unfold M'. rewrite (proj2 (Nat.eqb_neq c' right)), (proj2 (Nat.eqb_neq c' left)) by lia. reflexivity.
           ++ intros c' x H1 H2. apply MI. lia.
  - assert (CE : columns sz = right + 1 - left) by lia. destruct (Nat.eqb_spec sz 2) as [E2|N2].
    + (* a single switch *)
      clear LD. subst sz. rewrite columns_two in CE. assert (left = right) by lia. subst right. assert (IL : inside 2 lo lo) by (unfold inside; lia). assert (IH1 : inside 2 lo (lo + 1)) by (unfold inside; lia).
      rewrite (rd_rep 2 lo perm P lo RP IL), (rd_rep 2 lo perm P (lo + 1) RP IH1), (rd_rep 2 lo dests _ lo RD IL), (rd_rep 2 lo dests _ (lo + 1) RD IH1). cbn [rbind]. replace (lo + 2 - 1) with (lo + 1) by lia.
      assert (A := P_in lo IL). assert (B := P_in (lo + 1) IH1). assert (NE : P lo <> P (lo + 1)) by (intros X; pose proof (QP lo IL); pose proof (QP (lo + 1) IH1); rewrite X in *; lia).
      unfold inside in A, B. replace (((P lo =? lo) || (P lo =? lo + 1)) && ((P (lo + 1) =? lo) || (P (lo + 1) =? lo + 1)) && negb (P lo =? P (lo + 1))) with true by lia.
      exists (set_bit r0 left lo (negb (P lo =? lo))), (set_pair (set_pair g0 left lo (Some (D lo)) (Some (D (lo + 1)))) left (lo + 1) (Some (D (lo + 1))) (Some (D lo))). split; [reflexivity|]. split; [reflexivity|]. split; [|split].
      * intros c w O. apply bit_ne. destruct (Nat.eq_dec c left) as [->|]; [right|now left]. intros ->. apply O. split; [lia|exact IL].
      * intros c w O. destruct (Nat.eq_dec c left) as [->|]; [|now rewrite !set_pair_ne by auto]. rewrite !set_pair_ne; [reflexivity|right; intros ->; apply O; (split; [lia|assumption])..].
      * exists (fun _ i => D (P i)). split; [|split; [|split]].
        -- intros c Hc. replace c with left by lia. apply (col_pairs _ _ _ _ 1). intros j Hj. assert (j = 0) by lia. subst j. rewrite Nat.mul_0_r, Nat.add_0_r. replace (S lo) with (lo + 1) by lia.
           exists (D lo), (D (lo + 1)), (negb (P lo =? lo)). rewrite set_pair_at. rewrite set_pair_ne by (right; lia). rewrite set_pair_at, set_bit_same. refine (conj eq_refl (conj eq_refl (conj _ (conj eq_refl _)))).
           ++ intros X. apply DI in X; [lia|assumption..].
           ++ destruct (Nat.eqb_spec (P lo) lo) as [E|E]; cbn [negb]; (split; f_equal; lia).
        -- intros c i Hc. lia.
        -- intros i Hi. exists (P i). auto.
        -- intros i Hi. replace (left + 1 - left) with 1 by lia. reflexivity.
    + (* two columns of switches around two halves *)
      assert (S3 : 3 <= sz) by (destruct (Nat.eq_dec sz 1) as [->|]; [change (columns 1) with 0 in CE; lia|lia]).
      pose proof (columns_half sz S3) as CH. assert (R3 : left + 2 <= right).
      { pose proof (columns_mono 2 (sz - sz / 2) ltac:(lia)) as X. rewrite columns_two in X. lia. }
      assert (NLR : left <> right) by lia. assert (RS : forall c i, c = left \/ c = right -> inside sz lo i -> r0 c i = None) by (intros c i Hc; apply R0; lia).
      destruct (route_level sz left right lo P Q S3 NLR P_in Q_in PQ QP r0 RS perm perm_inv RP RQ) as (s0 & s & p & q & EI & EL & RNP & RNQ & V). rewrite EI. cbn [rbind]. rewrite EL. cbn [rbind].
      pose proof (level_perm sz left right lo P Q S3 NLR P_in Q_in PQ QP r0 RS (bits s) p q V) as LP.
      destruct (outer_ok sz left right lo D dests g0 S3 NLR RD) as (t & g1 & nd & EW & EWL & RND & OU). rewrite EW. cbn [rbind]. rewrite EWL. cbn [rbind].
      unfold top_height. set (d := sz / 2) in *. assert (HD : 1 <= d /\ d < sz) by (unfold d; lia).
      destruct (slice_rep sz lo (np s) p lo d RNP ltac:(lia) ltac:(lia) ltac:(lia)) as (pu & EPU & RPU). destruct (slice_rep sz lo (np s) p (lo + d) (sz - d) RNP ltac:(lia) ltac:(lia) ltac:(lia)) as (pl & EPL & RPL).
      destruct (slice_rep sz lo (npi s) q lo d RNQ ltac:(lia) ltac:(lia) ltac:(lia)) as (qu & EQU & RQU). destruct (slice_rep sz lo (npi s) q (lo + d) (sz - d) RNQ ltac:(lia) ltac:(lia) ltac:(lia)) as (ql & EQL & RQL).
      replace (lo + d + (sz - d) - 1) with (lo + sz - 1) in EPL, EQL by lia. rewrite EPU. cbn [rbind]. rewrite EPL. cbn [rbind]. rewrite EQU. cbn [rbind]. rewrite EQL. cbn [rbind].
      set (r1 := if sz mod 2 =? 0 then erase (bits s) left (lo + sz - 1 - 1) else bits s).
      assert (R1 : forall c w, c <> left \/ sz mod 2 = 1 \/ w <> lo + sz - 2 -> r1 c w = bits s c w).
      { intros c w H. unfold r1. destruct (Nat.eqb_spec (sz mod 2) 0) as [EV|OD]; [|reflexivity]. unfold erase. destruct (Nat.eqb_spec c left), (Nat.eqb_spec w (lo + sz - 1 - 1)); cbn [andb]; try reflexivity. lia. }
      assert (FB : forall c w, c <> left -> c <> right -> bits s c w = r0 c w) by (intros c w H1 H2; destruct (v_frame _ _ _ _ _ _ _ _ _ V c w) as [[[X|X] _]|X]; [contradiction|contradiction|exact X]).
      assert (CU : columns d <= right - 1 + 1 - (left + 1)) by (pose proof (columns_mono d (sz - d) ltac:(unfold d; lia)); lia).
      assert (IU : forall x, inside d lo x <-> inside sz lo x /\ x < lo + d) by (intros x; unfold inside; lia). assert (IL : forall x, inside (sz - d) (lo + d) x <-> inside sz lo x /\ ~ x < lo + d) by (intros x; unfold inside; lia).
      destruct (IH (left + 1) (right - 1) lo d p q (back sz lo) pu qu r1 (firstn d nd) g1) as (r2 & g2 & ER2 & EG2 & FR2 & FG2 & M1 & MC1 & MI1 & MD1 & MT1); try lia.
      { intros x Hx. apply IU in Hx. apply IU. destruct Hx as [Hx Lx]. destruct (LP x Hx) as (A1 & A2 & A3 & A4 & A5 & A6). tauto. }
      { intros x Hx. apply IU in Hx. apply IU. destruct Hx as [Hx Lx]. destruct (LP x Hx) as (A1 & A2 & A3 & A4 & A5 & A6). tauto. }
      { intros x Hx. apply IU in Hx. apply LP, Hx. }
      { intros x Hx. apply IU in Hx. apply LP, Hx. }
      { exact RPU. } { exact RQU. }
      { intros c i Hc Hi. rewrite R1 by lia. rewrite FB by lia. apply R0; [lia|]. now apply IU. }
      { apply (rep_firstn sz); [lia|exact RND]. }
      { intros i j Hi Hj. apply back_inj; [exact S3|apply IU; assumption..]. }
      destruct (IH (left + 1) (right - 1) (lo + d) (sz - d) p q (back sz lo) pl ql r2 (skipn d nd) g2) as (r3 & g3 & ER3 & EG3 & FR3 & FG3 & M2 & MC2 & MI2 & MD2 & MT2); try lia.
      { intros x Hx. apply IL in Hx. apply IL. destruct Hx as [Hx Lx]. destruct (LP x Hx) as (A1 & A2 & A3 & A4 & A5 & A6). tauto. }
      { intros x Hx. apply IL in Hx. apply IL. destruct Hx as [Hx Lx]. destruct (LP x Hx) as (A1 & A2 & A3 & A4 & A5 & A6). tauto. }
      { intros x Hx. apply IL in Hx. apply LP, Hx. }
      { intros x Hx. apply IL in Hx. apply LP, Hx. }
      { exact RPL. } { exact RQL. }
      { intros c i Hc Hi. assert (Hi' := Hi). apply IL in Hi'. rewrite FR2 by (intros [_ X]; apply IU in X; lia). rewrite R1 by lia. rewrite FB by lia. apply R0; [lia|]. apply Hi'. }
      { apply rep_skipn; [lia|exact RND]. }
      { intros i j Hi Hj. apply back_inj; [exact S3|apply IL; assumption..]. }
      rewrite ER2. cbn [rbind]. rewrite EG2. cbn [rbind]. replace (lo + d + (sz - d) - 1) with (lo + sz - 1) in ER3, EG3 by lia. rewrite ER3, EG3.
      exists r3, g3. split; [reflexivity|]. split; [reflexivity|].
      assert (RC : forall c w, ~ (left + 1 <= c <= right - 1) -> r3 c w = r1 c w) by (intros c w H; rewrite FR3, FR2; [reflexivity|apply outside_col; lia..]).
      assert (GC : forall c w, ~ (left + 1 <= c <= right - 1) -> g3 c w = g1 c w) by (intros c w H; rewrite FG3, FG2; [reflexivity|apply outside_col; lia..]).
      split; [|split].
      * intros c w O. rewrite FR3 by (apply (outside_mono _ _ _ _ _ _ _ _ _ _ O); [lia|lia|intros X; apply IL in X; apply X]). rewrite FR2 by (apply (outside_mono _ _ _ _ _ _ _ _ _ _ O); [lia|lia|intros X; apply IU in X; apply X]).
        rewrite R1. { destruct (v_frame _ _ _ _ _ _ _ _ _ V c w) as [[HC W]|X]; [|exact X]. exfalso. apply O. split; [lia|]. unfold sw, inside in *. lia. }
        destruct (Nat.eq_dec c left) as [->|]; [|now left]. right. right. intros ->. apply O. unfold inside. lia.
      * intros c w O. rewrite FG3 by (apply (outside_mono _ _ _ _ _ _ _ _ _ _ O); [lia|lia|intros X; apply IL in X; apply X]). rewrite FG2 by (apply (outside_mono _ _ _ _ _ _ _ _ _ _ O); [lia|lia|intros X; apply IU in X; apply X]).
        destruct (Nat.eq_dec c left) as [->|NL]; [apply (o_out _ _ _ _ _ _ _ OU); intros X; apply O; split; [lia|exact X]|]. destruct (Nat.eq_dec c right) as [->|NR]; [apply (o_out _ _ _ _ _ _ _ OU); intros X; apply O; split; [lia|exact X]|].
        now apply (o_mid _ _ _ _ _ _ _ OU).
      * set (M := fun c i => if c =? left then wire sz lo i (top lo (bits s) left i) else if c =? right then leave lo right D (bits s) i else if i <? lo + d then M1 c i else M2 c i).
        assert (ML : forall i, M left i = wire sz lo i (top lo (bits s) left i)) by (intros i; unfold M; now rewrite Nat.eqb_refl).
        assert (MR : forall i, M right i = leave lo right D (bits s) i) by (intros i; unfold M; rewrite (proj2 (Nat.eqb_neq right left)) by lia; now rewrite Nat.eqb_refl).
        assert (MM : forall c i, left < c < right -> M c i = if i <? lo + d then M1 c i else M2 c i) by (intros c i Hc; unfold M; now rewrite (proj2 (Nat.eqb_neq c left)), (proj2 (Nat.eqb_neq c right)) by lia).
        assert (WI : forall i, inside sz lo i -> inside sz lo (M left i)).
        { intros i Hi. rewrite ML. apply (wire_in sz left right lo P Q); auto. apply (top_side sz left right lo P Q S3 NLR P_in Q_in PQ QP r0 RS); auto. apply (v_frame _ _ _ _ _ _ _ _ _ V). }
        assert (OU3 : outer sz left right lo D (fun c w => g3 c w) g3).
        { constructor; try reflexivity; intros; rewrite ?GC by lia; [now apply (o_left _ _ _ _ _ _ _ OU)|now apply (o_left_even _ _ _ _ _ _ _ OU)|now apply (o_left_odd _ _ _ _ _ _ _ OU)|now apply (o_right _ _ _ _ _ _ _ OU)|now apply (o_right_odd _ _ _ _ _ _ _ OU)]. }
        assert (RL3 : forall w, sz mod 2 = 1 \/ w <> lo + sz - 2 -> r3 left w = bits s left w) by (intros w H; rewrite RC by lia; apply R1; now right).
        assert (RR3 : forall w, r3 right w = bits s right w) by (intros w; rewrite RC by lia; apply R1; left; lia).
        exists M. split; [|split; [|split]].
        -- intros c Hc. destruct (Nat.eq_dec c left) as [->|NL]; [|destruct (Nat.eq_dec c right) as [->|NR]].
           ++ apply (col_ext g3 r3 left (fun i => wire sz lo i (top lo (bits s) left i))); [|intros i Hi; rewrite ML; auto].
              apply (enter_col sz left right lo P D r0 (bits s) r3 p q (fun c w => g3 c w) g3); auto.
           ++ apply (col_ext g3 r3 right (leave lo right D (bits s))); [|intros i Hi; rewrite MR; auto].
              apply (leave_col sz left right lo P D r0 (bits s) r3 p q (fun c w => g3 c w) g3); auto.
           ++ replace sz with (d + (sz - d)) by lia. apply col_app.
              ** apply (col_ext g2 r2 c (M1 c)); [apply MC1; lia|]. intros i Hi. rewrite MM by lia. rewrite (proj2 (Nat.ltb_lt _ _)) by lia. rewrite FG3, FR3 by (intros [_ X]; apply IL in X; lia). auto.
              ** apply (col_ext g3 r3 c (M2 c)); [apply MC2; lia|]. intros i Hi. rewrite MM by lia. rewrite (proj2 (Nat.ltb_ge _ _)) by lia. auto.
        -- intros c i Hc Hi. destruct (Nat.eq_dec c left) as [->|NL]; [now apply WI|]. rewrite MM by lia. destruct (Nat.ltb_spec i (lo + d)) as [Li|Li].
           ++ assert (Hi1 : inside d lo i) by (apply IU; auto). destruct (Nat.eq_dec c (right - 1)) as [->|NC]; [|apply IU, MI1; auto; lia]. destruct (MD1 i Hi1) as (j & Hj & ->). apply back_in; [exact S3|now apply IU].
           ++ assert (Hi1 : inside (sz - d) (lo + d) i) by (apply IL; split; [exact Hi|lia]). destruct (Nat.eq_dec c (right - 1)) as [->|NC]; [|apply IL, MI2; auto; lia]. destruct (MD2 i Hi1) as (j & Hj & ->). apply back_in; [exact S3|now apply IL].
        -- intros i Hi. rewrite MR. unfold leave. destruct (bits s right (row lo i)) as [b|] eqn:EB; [|now exists i].
           assert (W : sw sz lo (row lo i)). { destruct (row_sw sz left right lo P Q S3 NLR P_in Q_in PQ QP i Hi) as [W|(O & E & ERow)]; [exact W|]. exfalso. destruct (v_frame _ _ _ _ _ _ _ _ _ V right (row lo i)) as [[_ W]|X]; [unfold sw in W; lia|]. rewrite X, RS in EB; [discriminate|auto|rewrite ERow; unfold inside; lia]. }
           assert (W1 : inside sz lo (row lo i) /\ inside sz lo (row lo i + 1)) by (unfold sw, inside in *; lia).
           destruct (i =? row lo i), b; eexists; (split; [|reflexivity]); apply W1.
        -- intros i Hi. replace (right + 1 - left) with (S (S (right - 1 + 1 - (left + 1)))) by lia. rewrite through_last. replace (left + S (right - 1 + 1 - (left + 1))) with right by lia. rewrite MR. cbn [through].
           set (b := top lo (bits s) left i). assert (Hx := WI i Hi). rewrite ML in *. fold b in Hx |- *. destruct (v_in _ _ _ _ _ _ _ _ _ V i Hi) as (TP & EP & _). fold b in TP, EP.
           replace (S left) with (left + 1) by lia.
           assert (T : through M (left + 1) (right - 1 + 1 - (left + 1)) (wire sz lo i b) = back sz lo (p (wire sz lo i b))).
           { destruct (Nat.lt_ge_cases (wire sz lo i b) (lo + d)) as [Lx|Lx].
             - assert (Hx1 : inside d lo (wire sz lo i b)) by (apply IU; auto). rewrite <- MT1 by exact Hx1. apply (through_ext _ _ (inside d lo)); [exact Hx1|..].
               + intros c x Hc X. rewrite MM by lia. apply IU in X. now rewrite (proj2 (Nat.ltb_lt _ _)) by apply X.
               + intros c x H1 H2. apply MI1. lia.
             - assert (Hx1 : inside (sz - d) (lo + d) (wire sz lo i b)) by (apply IL; split; [exact Hx|lia]). rewrite <- MT2 by exact Hx1. apply (through_ext _ _ (inside (sz - d) (lo + d))); [exact Hx1|..].
               + intros c x Hc X. rewrite MM by lia. apply IL in X. now rewrite (proj2 (Nat.ltb_ge _ _)) by lia.
               + intros c x H1 H2. apply MI2. lia. }
           rewrite T, EP, TP. apply (leave_back sz left right lo P D r0 (bits s) r3 p q); auto.
Qed.
