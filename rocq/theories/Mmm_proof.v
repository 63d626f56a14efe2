(* Merging the blocks of a tiled product: every position of the result is written, and with an element of the block it belongs to. *)
From Coq Require Import ZifyNat ZifyBool.
From Verif Require Import Base Ring_model Ring_spec Ring_proof Share_spec Disp_model Disp_spec Disp_proof Dyn_spec Dynw_proof Mm_model Mm_spec Mm_proof.
Open Scope nat_scope.
#[local] Existing Instance strict.

Section Merge.
Context {E : Type}.
Variable P : nat -> E -> Prop.
(* what is right stays right *)
Definition keeps (b b' : nat -> E) : Prop := forall p, P p (b p) -> P p (b' p).
Lemma memcpy_ok b d src s len : (forall q, q < len -> P (d + q) (src (s + q))) ->
  keeps b (memcpy b d src s len) /\ forall q, q < len -> P (d + q) (memcpy b d src s len (d + q)).
Proof.
  intros H. unfold memcpy. split.
  - intros p Hp. destruct (Nat.leb_spec d p), (Nat.ltb_spec p (d + len)); cbn [andb]; auto. specialize (H (p - d) ltac:(lia)). now replace (d + (p - d)) with p in H by lia.
  - intros q Q. destruct (Nat.leb_spec d (d + q)), (Nat.ltb_spec (d + q) (d + len)); try lia. cbn [andb]. replace (d + q - d) with q by lia. now apply H.
Qed.
Lemma fold_ok {X} (f : (nat -> E) -> X -> nat -> E) (D : X -> nat -> Prop) l : (forall x, In x l -> forall b, keeps b (f b x) /\ forall p, D x p -> P p (f b x p)) ->
  forall b, keeps b (fold_left f l b) /\ forall x p, In x l -> D x p -> P p (fold_left f l b p).
Proof.
  induction l as [|x l IH]; intros H b; cbn [fold_left]; [split; [now intros p Hp|intros x p []]|].
  destruct (IH (fun z Z => H z (or_intror Z)) (f b x)) as [K1 C1]. destruct (H x (or_introl eq_refl) b) as [K2 C2]. split.
  - intros p Hp. apply K1. now apply K2.
  - intros z p [->|I] Dz; [apply K1; now apply C2|now apply C1 with z].
Qed.
Lemma copy_block_ok c ms cs nb compact buf r col rows cols src :
  (nb = 1 -> col = 0 /\ cols = c) ->
  (forall i j, i < rows -> j < cols -> P ((r * ms + i) * c + (col * cs + j)) (src (i * cols + j))) ->
  let b' := copy_block c ms cs nb compact buf r col rows cols src in
  keeps buf b' /\ forall i j, i < rows -> j < cols -> P ((r * ms + i) * c + (col * cs + j)) (b' ((r * ms + i) * c + (col * cs + j))).
Proof.
  intros N1 H. unfold copy_block. cbv zeta. destruct compact.
  - destruct (Nat.eqb_spec nb 1) as [NB|NB].
    + destruct (N1 NB) as [-> ->].
      destruct (memcpy_ok buf (r * ms * c) src 0 (rows * c)) as [K1 C1].
      { intros q Q. destruct (pos_split _ _ _ Q) as (i & j & I & J & ->). specialize (H i j I J). replace (r * ms * c + (i * c + j)) with ((r * ms + i) * c + (0 * cs + j)) by nia. exact H. }
      split; [exact K1|]. intros i j I J. specialize (C1 (i * c + j) (pos_lt _ _ _ _ I J)). replace ((r * ms + i) * c + (0 * cs + j)) with (r * ms * c + (i * c + j)) by nia. exact C1.
    + destruct (fold_ok (fun buf i => memcpy buf ((r * ms + i) * c + col * cs) src (i * cols) cols)
        (fun i p => exists j, j < cols /\ p = (r * ms + i) * c + (col * cs + j)) (seq 0 rows)) with (b := buf) as [K1 C1].
      * intros i I b. apply in_seq in I. destruct (memcpy_ok b ((r * ms + i) * c + col * cs) src (i * cols) cols) as [K2 C2].
        { intros q Q. rewrite <- Nat.add_assoc. apply H; lia. }
        split; [exact K2|]. intros p (j & J & ->). rewrite Nat.add_assoc. now apply C2.
      * split; [exact K1|]. intros i j I J. apply (C1 i); [apply in_seq; lia|eauto].
  - destruct (fold_ok (fun buf i => fold_left (fun buf j => memcpy buf ((r * ms + i) * c + (col * cs + j)) src (i * cols + j) 1) (seq 0 cols) buf)
        (fun i p => exists j, j < cols /\ p = (r * ms + i) * c + (col * cs + j)) (seq 0 rows)) with (b := buf) as [K1 C1].
    + intros i I b. apply in_seq in I.
      destruct (fold_ok (fun buf j => memcpy buf ((r * ms + i) * c + (col * cs + j)) src (i * cols + j) 1)
        (fun j p => p = (r * ms + i) * c + (col * cs + j)) (seq 0 cols)) with (b := b) as [K2 C2].
      * intros j J b2. apply in_seq in J. destruct (memcpy_ok b2 ((r * ms + i) * c + (col * cs + j)) src (i * cols + j) 1) as [K3 C3].
        { intros q Q. replace q with 0 by lia. rewrite !Nat.add_0_r. apply H; lia. }
        split; [exact K3|]. intros p ->. specialize (C3 0 ltac:(lia)). now rewrite Nat.add_0_r in C3.
      * split; [exact K2|]. intros p (j & J & ->). apply (C2 j); [apply in_seq; lia|reflexivity].
    + split; [exact K1|]. intros i j I J. apply (C1 i); [apply in_seq; lia|eauto].
Qed.
Definition right_block (c ms cs nb : nat) (bl : nat * nat * (nat * nat) * (nat -> E)) : Prop :=
  let '(r, col, (rows, cols), src) := bl in (nb = 1 -> col = 0 /\ cols = c) /\
  forall i j, i < rows -> j < cols -> P ((r * ms + i) * c + (col * cs + j)) (src (i * cols + j)).
Lemma merge_ok c ms cs nb compact bls buf : Forall (right_block c ms cs nb) bls ->
  forall r col rows cols src i j, In (r, col, (rows, cols), src) bls -> i < rows -> j < cols ->
  P ((r * ms + i) * c + (col * cs + j)) (merge c ms cs nb compact bls buf ((r * ms + i) * c + (col * cs + j))).
Proof.
  intros F r col rows cols src i j IN I J. unfold merge. rewrite Forall_forall in F.
  match goal with |- context [fold_left ?g bls buf] =>
    destruct (fold_ok g (fun bl p => let '(r, col, (rows, cols), src) := bl in exists i j, i < rows /\ j < cols /\ p = (r * ms + i) * c + (col * cs + j)) bls) with (b := buf) as [_ C1] end.
  - intros [[[r' col'] [rows' cols']] src'] IN' b. destruct (F _ IN') as [N1 H].
    destruct (copy_block_ok c ms cs nb (compact r' col') b r' col' rows' cols' src' N1 H) as [K2 C2]. split; [exact K2|].
    intros p (i' & j' & I' & J' & ->). now apply C2.
  - apply (C1 _ _ IN). eauto 6.
Qed.
End Merge.

Lemma in_pairs a b r col : In (r, col) (pairs a b) <-> r < a /\ col < b.
Proof.
  unfold pairs. rewrite in_flat_map. split.
  - intros (i & I & H). apply in_map_iff in H. destruct H as (j & E & J). injection E as -> ->. apply in_seq in I, J. lia.
  - intros [A B]. exists r. split; [apply in_seq; lia|]. apply in_map_iff. exists col. split; [reflexivity|apply in_seq; lia].
Qed.
Lemma eachM_ok {A B} (f : A -> M B) (Q : A -> B -> Prop) l : (forall a, In a l -> wp (f a) (Q a)) -> wp (eachM f l) (Forall2 Q l).
Proof.
  induction l as [|a l IH]; intros H; cbn [eachM]; [apply wp_ret; constructor|].
  apply wp_bind. eapply wp_mono; [apply H; now left|]. intros b B0. cbv beta. apply wp_bind. eapply wp_mono; [apply IH; intros; apply H; now right|].
  intros bs BS. apply wp_ret. now constructor.
Qed.

Lemma numel2 u v : numel [u; v] = u * v. Proof. unfold numel. cbn. lia. Qed.
Lemma numel1 u : numel [u] = u. Proof. unfold numel. cbn. lia. Qed.

Section Mm.
Variable w : nat.
Hypothesis W5 : (5 <= w)%nat.
Hypothesis W7 : (w <= 7)%nat.
Notation k := (2 ^ Z.of_nat w)%Z.
Variable n : nat.
Hypothesis N0 : (0 < n)%nat.
Variable T : mtapes.
Hypothesis G : good_mtapes k n T.
Variable compact : nat -> nat -> bool.
Variable junk : Z.
Notation stands := (stands k n).

Definition ok_block (m K c ms cs : nat) (a b : nat -> Z) (q : kind) (rc : nat * nat) (bl : nat * nat * value) : Prop :=
  let '(r, col) := rc in let '(r', col', v) := bl in
  let rows := Nat.min m (r * ms + ms) - r * ms in let cols := Nat.min c (col * cs + cs) - col * cs in
  r' = r /\ col' = col /\ fst v = [rows; cols] /\ stands (rows * cols) (snd v) (partial_m w K c (r * ms) (col * cs) cols K a b) /\ has_kind (snd v) q.
Section Blocks.
Variables m K c ms cs : nat.
Variables a b : nat -> Z.
Variable q : kind.
Hypothesis M0 : 0 < m.
Hypothesis C0 : 0 < c.
Hypothesis MS : 0 < ms.
Hypothesis CS : 0 < cs.
Let rows r := Nat.min m (r * ms + ms) - r * ms.
Let cols col := Nat.min c (col * cs + cs) - col * cs.
Notation ok_block := (ok_block m K c ms cs a b q).
Let nb := blocks_of c cs.
Let ps := pairs (blocks_of m ms) nb.

Lemma all_as_ok {E} (as_ : value -> option (nat -> E)) (U : Z -> E -> Prop) l bs :
  (forall v, has_kind (snd v) q -> exists f, as_ v = Some f /\ forall N a, stands N (snd v) a -> forall p, p < N -> U (a p) (f p)) ->
  (forall rc, In rc l -> In rc ps) -> Forall2 ok_block l bs ->
  exists out, all_as as_ bs = Some out /\ Forall (right_block (fun p e => U (prodm k K c a b p) e) c ms cs nb) out /\
    forall r col, In (r, col) l -> exists src, In (r, col, (rows r, cols col), src) out.
Proof.
  intros AS IN F. induction F as [|[r col] [[r' col'] v] l bs (-> & -> & SH & ST & HK) F IH].
  - exists []. split; [reflexivity|]. split; [constructor|]. intros r col [].
  - destruct (IH (fun rc I => IN rc (or_intror I))) as (out & E1 & E2 & E3). destruct (AS v HK) as (f & EF & UF). specialize (UF _ _ ST).
    exists ((r, col, (rows r, cols col), f) :: out). cbn [all_as]. rewrite SH, EF, E1. split; [reflexivity|]. split.
    + constructor; [|exact E2]. pose proof (IN _ (or_introl eq_refl)) as PP. unfold ps in PP. apply in_pairs in PP. destruct PP as [PR PC].
      destruct (blocks_bounds c cs C0 CS) as (B1 & B2 & B3). fold nb in B1, B2, B3. split.
      * intros NB. unfold cols. rewrite NB in *. assert (col = 0) by lia. subst col. split; [reflexivity|lia].
      * intros i j I J. specialize (UF (i * cols col + j) (pos_lt _ _ _ _ I J)).
        replace (prodm k K c a b _) with (partial_m w K c (r * ms) (col * cs) (cols col) K a b (i * cols col + j)); [exact UF|].
        unfold prodm, partial_m. rewrite !pos_div, !pos_mod by (try exact J; unfold cols in J; lia). reflexivity.
    + intros r1 col1 [EE|I]; [injection EE as -> ->; exists f; now left|]. destruct (E3 _ _ I) as (src & S0). exists src. now right.
Qed.
Lemma covered p : p < m * c -> exists r col i j, In (r, col) ps /\ i < rows r /\ j < cols col /\ p = (r * ms + i) * c + (col * cs + j).
Proof.
  intros P. destruct (pos_split _ _ _ P) as (i & j & I & J & ->). exists (i / ms), (j / cs), (i mod ms), (j mod cs).
  pose proof (Nat.div_mod i ms ltac:(lia)) as DI. pose proof (Nat.mod_upper_bound i ms ltac:(lia)) as MI.
  pose proof (Nat.div_mod j cs ltac:(lia)) as DJ. pose proof (Nat.mod_upper_bound j cs ltac:(lia)) as MJ.
  destruct (blocks_bounds m ms M0 MS) as (_ & BM & _). destruct (blocks_bounds c cs C0 CS) as (_ & BC & _).
  split; [apply in_pairs; fold nb in BC; split; nia|]. unfold rows, cols. split; [lia|]. split; [lia|]. rewrite (Nat.mul_comm (i / ms)), (Nat.mul_comm (j / cs)), <- DI, <- DJ. reflexivity.
Qed.
Lemma merged_ok {E} (as_ : value -> option (nat -> E)) (U : Z -> E -> Prop) bs (buf : nat -> E) :
  (forall v, has_kind (snd v) q -> exists f, as_ v = Some f /\ forall N a, stands N (snd v) a -> forall p, p < N -> U (a p) (f p)) ->
  Forall2 ok_block ps bs -> exists out, all_as as_ bs = Some out /\ forall p, p < m * c -> U (prodm k K c a b p) (merge c ms cs nb compact out buf p).
Proof.
  intros AS F. destruct (all_as_ok as_ U ps bs AS ltac:(auto) F) as (out & E1 & E2 & E3). exists out. split; [exact E1|]. intros p P.
  destruct (covered p P) as (r & col & i & j & IN & I & J & ->). destruct (E3 _ _ IN) as (src & S0).
  exact (merge_ok _ c ms cs nb compact out buf E2 r col _ _ src i j S0 I J).
Qed.
Lemma merge_blocks_ok bs : (match q with KV o => (o < n)%nat | _ => True end) -> Forall2 ok_block ps bs ->
  wp (merge_blocks compact junk m c ms cs nb bs) (fun v => fst v = [m; c] /\ stands (m * c) (snd v) (prodm k K c a b) /\ has_kind (snd v) q).
Proof.
  intros QO F. assert (HK : (32 <= k)%Z) by (apply k0; assumption). unfold merge_blocks.
  match goal with |- context [if ?u then fail else _] => assert (CHK : u = false) end.
  { destruct (Nat.eqb_spec nb 1) as [NB|]; [|reflexivity]. cbn [andb]. apply negb_false_iff. apply forallb_forall. intros bl IN.
    assert (exists rc, In rc ps /\ ok_block rc bl) as (rc & PI & OB).
    { clear - F IN. induction F; [contradiction|]. destruct IN as [->|IN]; [eexists; split; [now left|eassumption]|]. destruct (IHF IN) as (rc & A1 & A2). exists rc. split; [now right|exact A2]. }
    destruct rc as [r col], bl as [[r' col'] [sh e]]. destruct OB as (_ & _ & SH & _). cbn [fst] in SH. subst sh. apply Nat.eqb_eq.
    unfold ps in PI. apply in_pairs in PI. destruct PI as [_ PC]. destruct (blocks_bounds c cs C0 CS) as (_ & BC & _). fold nb in BC. unfold cols. rewrite NB in *. assert (col = 0) by lia. subst col. lia. }
  rewrite CHK. clear CHK.
  assert (NE : ps <> []).
  { destruct (blocks_bounds m ms M0 MS) as (B1 & _). destruct (blocks_bounds c cs C0 CS) as (B2 & _). fold nb in B2. intros E. assert (I : In (0, 0) ps) by (apply in_pairs; lia). rewrite E in I. contradiction. }
  inversion F as [E|rc [[r' col'] [sh e]] l bs' H F' E1 E2]; [congruence|]. assert (HE : has_kind e q) by (destruct rc; apply H). rewrite E2.
  destruct e as [f|o f|f|nb' f], q as [|o'|] eqn:EQ; cbn in HE; try contradiction.
  - destruct (merged_ok as_p (fun z e => word k z /\ e = z) bs (fun _ => junk)) as (out & A1 & A2).
    + intros [s e'] HE'. cbn [snd] in *. rewrite EQ in HE'. destruct e'; try contradiction. eexists. split; [reflexivity|]. intros N a0 [_ ST] p P. now apply ST.
    + rewrite <- EQ in F. exact F.
    + rewrite A1. apply wp_ret. split; [reflexivity|]. split; [split; [exact I|exact A2]|]. exact HE.
  - subst o'. destruct (merged_ok (as_v o) (fun z e => word k z /\ e o = z) bs (fun _ _ => junk)) as (out & A1 & A2).
    + intros [s e'] HE'. cbn [snd] in *. rewrite EQ in HE'. destruct e' as [|o2 f'| |]; try contradiction. cbn in HE'. subst o2. unfold as_v. cbn [snd]. rewrite Nat.eqb_refl. eexists. split; [reflexivity|].
      intros N a0 [_ ST] p P. now apply ST.
    + rewrite <- EQ in F. exact F.
    + rewrite A1. apply wp_ret. split; [reflexivity|]. split; [split; [exact QO|exact A2]|]. reflexivity.
  - destruct (merged_ok as_a (fun z e => word k z /\ shA k n e z) bs (fun _ _ => junk)) as (out & A1 & A2).
    + intros [s e'] HE'. cbn [snd] in *. rewrite EQ in HE'. destruct e'; try contradiction. eexists. split; [reflexivity|]. intros N a0 [_ ST] p P. now apply ST.
    + rewrite <- EQ in F. exact F.
    + rewrite A1. apply wp_ret. split; [reflexivity|]. split; [split; [exact I|exact A2]|]. exact HE.
Qed.
End Blocks.

Lemma rkind_owner x y N M a b : stands N x a -> stands M y b -> match rkind (kind_of x) (kind_of y) with KV o => (o < n)%nat | _ => True end.
Proof. intros [X _] [Y _]. destruct x, y; cbn in *; auto. destruct (_ =? _); auto. Qed.
Lemma tiling_pos small ks ms m c K a b d : tiling small ks ms m c K = (a, b, d) -> (a, b, d) = (m, c, K) \/ (0 < m /\ 0 < c /\ 0 < K /\ 0 < a /\ 0 < b /\ 0 < d).
Proof.
  unfold tiling. destruct (_ || _)%bool eqn:E; [intros H; left; congruence|]. right.
  assert (0 < m /\ 0 < c /\ 0 < K) as (M & C & KK).
  { destruct (Nat.eqb_spec m 0), (Nat.eqb_spec c 0), (Nat.eqb_spec K 0); cbn in E; try discriminate; lia. }
  injection H as <- <- <-. split; [exact M|]. split; [exact C|]. split; [exact KK|]. split; [lia|]. split; [lia|].
  destruct (_ <? _); [lia|]. destruct (_ <? _); lia.
Qed.
Lemma mmul_kind split small ks0 ms0 shx shy m K c ex ey a b : left_operand shx m K -> right_operand shy K c -> stands (numel shx) ex a -> stands (numel shy) ey b ->
  wp (mmul k n T compact junk split small ks0 ms0 (shx, ex) (shy, ey)) (fun v => fst v = [m; c] /\ stands (m * c) (snd v) (prodm k K c a b) /\ has_kind (snd v) (rkind (kind_of ex) (kind_of ey))).
Proof.
  intros LO RO X Y.
  assert (NX : numel shx = m * K) by (destruct LO; rewrite ?numel1, ?numel2; lia).
  assert (NY : numel shy = K * c) by (destruct RO; rewrite ?numel1, ?numel2; lia).
  unfold mmul. cbn [fst]. assert (D : deduce shx shy = Some (m, c, K)) by (destruct LO, RO; cbn; now rewrite Nat.eqb_refl). rewrite D.
  unfold reshape. cbn [fst snd]. change total_size with numel. rewrite NX, NY, !numel2, !Nat.eqb_refl. rewrite NX in X. rewrite NY in Y.
  apply wp_bind, wp_ret. apply wp_bind, wp_ret. cbn [snd].
  destruct (tiling small ks0 ms0 m c K) as [[ms cs] ks] eqn:ET. destruct (tiling_pos _ _ _ _ _ _ _ _ _ ET) as [E|(M & C & KK & MS & CS & KS0)].
  - injection E as -> -> ->. rewrite !Nat.eqb_refl, orb_true_r. apply wp_bind. eapply wp_mono; [eapply mmul_impl_ok; eassumption|].
    intros r [R HK]. apply wp_ret. now repeat split; try apply R.
  - destruct (_ || _)%bool.
    { apply wp_bind. eapply wp_mono; [eapply mmul_impl_ok; eassumption|]. intros r [R HK]. apply wp_ret. now repeat split; try apply R. }
    apply wp_bind. eapply wp_mono.
    + apply (eachM_ok _ (ok_block m K c ms cs a b (rkind (kind_of ex) (kind_of ey)))). intros [r col] IN. apply in_pairs in IN. destruct IN as [IR IC].
      destruct (blocks_bounds m ms M MS) as (_ & _ & BM). destruct (blocks_bounds c cs C CS) as (_ & _ & BC).
      apply wp_bind. eapply wp_mono; [exact (result_block_ok w W5 W7 n N0 T G m K c ms ks cs r col ex ey a b KK MS KS0 CS (BM _ IR) (BC _ IC) X Y)|].
      intros v V. apply wp_ret. unfold ok_block.
      split; [reflexivity|]. split; [reflexivity|]. exact V.
    + intros bs F. cbv beta in F. apply (merge_blocks_ok m K c ms cs a b (rkind (kind_of ex) (kind_of ey)) M C MS CS); [exact (rkind_owner _ _ _ _ _ _ X Y)|exact F].
Qed.
Lemma mmul_ok split small ks0 ms0 shx shy m K c ex ey a b : left_operand shx m K -> right_operand shy K c -> stands (numel shx) ex a -> stands (numel shy) ey b ->
  wp (mmul k n T compact junk split small ks0 ms0 (shx, ex) (shy, ey)) (fun v => fst v = [m; c] /\ stands (m * c) (snd v) (prodm k K c a b)).
Proof. intros LO RO X Y. eapply wp_mono; [exact (mmul_kind split small ks0 ms0 _ _ m K c ex ey a b LO RO X Y)|]. intros v (V1 & V2 & _). now split. Qed.
End Mm.
