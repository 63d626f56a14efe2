From Coq Require Import ZifyBool ZifyNat.
From Verif Require Import Base Nd_model Nd_spec Nd_proof Ndv_proof Ndr_proof Ndm_model.

(* ---- single and multiple writes ---- *)
Lemma bufset_ok b p v : 0 <= p < Z.of_nat (length b) ->
  exists b', bufset b p v = Ok b' /\ length b' = length b /\
  bufget b' p = Ok v /\ (forall q, q <> p -> bufget b' q = bufget b q).
Proof.
  intros H. unfold bufset. destruct (Z.leb_spec 0 p), (Z.ltb_spec p (Z.of_nat (length b))); cbn [andb]; try lia.
  eexists. split; [reflexivity|]. rewrite upd_length. split; [reflexivity|]. split.
  - rewrite bufget_in by (rewrite upd_length; lia). unfold nthZ. now rewrite nth_upd_same by lia.
  - intros q Hq. unfold bufget. rewrite upd_length.
    destruct (Z.leb_spec 0 q), (Z.ltb_spec q (Z.of_nat (length b))); cbn [andb]; auto.
    unfold nthZ. rewrite nth_upd_other by lia. reflexivity.
Qed.

Lemma write_all_ok : forall w b,
  NoDup (map fst w) -> (forall p, In p (map fst w) -> 0 <= p < Z.of_nat (length b)) ->
  exists b', write_all b w = Ok b' /\ length b' = length b /\
  (forall p v, In (p, v) w -> bufget b' p = Ok v) /\
  (forall q, ~ In q (map fst w) -> bufget b' q = bufget b q).
Proof.
  induction w as [|[p v] w IH]; intros b ND R.
  - exists b. cbn. repeat split; auto. intros p v [].
  - cbn [map fst write_all] in *. inversion ND as [|? ? N1 N2]; subst.
    destruct (bufset_ok b p v) as (b1 & E1 & L1 & G1 & O1); [apply R; now left|].
    rewrite E1. cbn [rbind].
    destruct (IH b1 N2) as (b' & E & L & G & O). { rewrite L1. intros q Hq. apply R. now right. }
    exists b'. split; [exact E|]. split; [lia|]. split.
    + intros p' v' [[= <- <-]|H]; [|now apply G]. rewrite O by exact N1. exact G1.
    + intros q Hq. cbn [In] in Hq. rewrite O by tauto. apply O1. intros ->. tauto.
Qed.

(* a view whose elements have different addresses *)
Definition inj_view (a : nd) : Prop :=
  forall i j, valid i (shp a) -> valid j (shp a) -> addr a i = addr a j -> i = j.
Definition in_buf (a : nd) : Prop :=
  forall i, valid i (shp a) -> 0 <= addr a i < Z.of_nat (length (buf a)).

Lemma in_buf_safe a : in_buf a -> safe a.
Proof. intros H i V. unfold get. rewrite bufget_in by now apply H. eauto. Qed.
Lemma safe_in_buf a : safe a -> in_buf a.
Proof. intros H i V. destruct (H i V) as [v E]. now apply bufget_ok in E. Qed.

Lemma In_combine_map {A} (f : nat -> A) n (vs : list Z) p v :
  length vs = n -> In (p, v) (combine (map f (seq 0 n)) vs) ->
  exists i, (i < n)%nat /\ p = f i /\ v = nth i vs 0.
Proof.
  intros L H. apply (In_nth _ _ (f 0%nat, 0)) in H as [i [Hi E]].
  rewrite combine_length, map_length, seq_length in Hi.
  exists i. split; [lia|]. rewrite combine_nth in E by (rewrite map_length, seq_length; lia).
  rewrite nth_map_lt with (da := 0%nat) in E by (rewrite seq_length; lia).
  rewrite seq_nth in E by lia. now inversion E.
Qed.
Lemma combine_map_In {A} (f : nat -> A) n (vs : list Z) i :
  length vs = n -> (i < n)%nat -> In (f i, nth i vs 0) (combine (map f (seq 0 n)) vs).
Proof.
  intros L H.
  replace (f i, nth i vs 0) with (nth i (combine (map f (seq 0 n)) vs) (f 0%nat, 0)).
  - apply nth_In. rewrite combine_length, map_length, seq_length. lia.
  - rewrite combine_nth by (rewrite map_length, seq_length; lia).
    rewrite nth_map_lt with (da := 0%nat) by (rewrite seq_length; lia). now rewrite seq_nth by lia.
Qed.

Lemma read_all_ok a : wf a -> safe a ->
  exists vs, rmap (bufget (buf a)) (map (fun i => addr a (unf (Z.of_nat i) (shp a))) (seq 0 (Z.to_nat (size (shp a))))) = Ok vs
  /\ length vs = Z.to_nat (size (shp a)) /\
  forall idx, valid idx (shp a) -> get a idx = Ok (nth (Z.to_nat (rowmajor idx (shp a))) vs 0).
Proof.
  intros [W L] S. set (n := Z.to_nat (size (shp a))).
  pose proof (size_nonneg _ W) as SN.
  destruct (rmap_total (bufget (buf a)) (map (fun i => addr a (unf (Z.of_nat i) (shp a))) (seq 0 n))) as [vs Hr].
  { intros x Hx. apply in_map_iff in Hx as [i [<- Hi]]. apply in_seq in Hi.
    apply (S (unf (Z.of_nat i) (shp a))). apply unf_valid. apply pos_of_size; auto. lia. }
  exists vs. split; [exact Hr|]. pose proof (rmap_length _ _ _ Hr) as LR. rewrite map_length, seq_length in LR.
  split; [exact LR|]. intros idx V. pose proof (rowmajor_range _ _ V) as R.
  set (i := Z.to_nat (rowmajor idx (shp a))). assert (Hi : (i < n)%nat) by lia.
  pose proof (rmap_nth _ _ _ 0 0 i Hr) as Q. rewrite map_length, seq_length in Q.
  specialize (Q Hi). rewrite nth_map_lt with (da := 0%nat) in Q by now rewrite seq_length.
  rewrite seq_nth in Q by exact Hi. cbn [Nat.add] in Q.
  replace (Z.of_nat i) with (rowmajor idx (shp a)) in Q by lia. rewrite unf_rowmajor in Q by exact V. exact Q.
Qed.

Lemma copy_slice_ok dst src :
  wf dst -> wf src -> shp dst = shp src -> safe src -> in_buf dst -> inj_view dst ->
  exists b', copy_slice dst src (Z.to_nat (numel (shp src))) = Ok b' /\ length b' = length (buf dst) /\
  (forall idx, valid idx (shp src) -> bufget b' (addr dst idx) = get src idx) /\
  (forall q, (forall idx, valid idx (shp src) -> addr dst idx <> q) -> bufget b' q = bufget (buf dst) q).
Proof.
  intros Wd Ws ES S IB IJ. pose proof Wd as [Wd1 Wd2]. unfold copy_slice.
  rewrite !iterate_spec by assumption. rewrite numel_size, <- ES.
  set (s := shp dst). set (n := Z.to_nat (size s)). pose proof (size_nonneg _ Wd1) as SN. fold s in SN.
  rewrite !map_length, !seq_length, Nat.ltb_irrefl. cbn [orb].
  rewrite !firstn_all2 by now rewrite map_length, seq_length.
  destruct (read_all_ok src Ws S) as (vs & Hr & LV & G). rewrite <- ES in Hr, LV, G. fold s in Hr, LV, G. fold n in Hr, LV.
  rewrite Hr. cbn [rbind].
  assert (Pu : forall i, (i < n)%nat -> valid (unf (Z.of_nat i) s) s).
  { intros i Hi. apply unf_valid. apply pos_of_size; [exact Wd1|]. fold s. lia. }
  set (w := combine _ vs).
  assert (MF : map fst w = map (fun i => addr dst (unf (Z.of_nat i) s)) (seq 0 n)).
  { unfold w. apply combine_fst. rewrite map_length, seq_length. lia. }
  assert (INJ : forall i j, (i < n)%nat -> (j < n)%nat ->
            addr dst (unf (Z.of_nat i) s) = addr dst (unf (Z.of_nat j) s) -> i = j).
  { intros i j Hi Hj E. apply IJ in E; auto; try (fold s; auto).
    apply (f_equal (fun x => rowmajor x s)) in E.
    assert (Ps : pos s) by (apply pos_of_size; [exact Wd1|lia]).
    rewrite !rowmajor_unf, !Z.mod_small in E by (auto; lia). lia. }
  destruct (write_all_ok w (buf dst)) as (b' & E & LB & G1 & O1).
  - rewrite MF. apply NoDup_map_in; [|apply seq_NoDup]. intros i j Hi Hj. apply in_seq in Hi, Hj. apply INJ; lia.
  - rewrite MF. intros p Hp. apply in_map_iff in Hp as [i [<- Hi]]. apply in_seq in Hi. apply IB. apply Pu. lia.
  - exists b'. split; [exact E|]. split; [exact LB|]. split.
    + intros idx V. pose proof (rowmajor_range _ _ V) as R. rewrite G by exact V.
      set (i := Z.to_nat (rowmajor idx s)). assert (Hi : (i < n)%nat) by lia.
      pose proof (combine_map_In (fun i => addr dst (unf (Z.of_nat i) s)) n vs i LV Hi) as HI.
      apply G1 in HI. replace (Z.of_nat i) with (rowmajor idx s) in HI by lia.
      rewrite unf_rowmajor in HI by exact V. exact HI.
    + intros q Hq. apply O1. rewrite MF. intros C. apply in_map_iff in C as [i [E1 Hi]]. apply in_seq in Hi.
      apply (Hq (unf (Z.of_nat i) s)); auto. apply Pu. lia.
Qed.

(* ---- compact arrays ---- *)
Lemma rowmajor_inj s i j : valid i s -> valid j s -> rowmajor i s = rowmajor j s -> i = j.
Proof. intros Vi Vj E. rewrite <- (unf_rowmajor i s), <- (unf_rowmajor j s), E by assumption. reflexivity. Qed.

Lemma compact_at_inj b s o : inj_view (mkNd b s (makeCompactStrides s) o).
Proof.
  intros i j Vi Vj. unfold addr. cbn [off str shp] in *. rewrite !dot_compact by assumption.
  intros E. apply (rowmajor_inj s); auto. lia.
Qed.

(* ---- expand ---- *)
Lemma dup_spec v : forall fuel k n, (0 < k)%nat -> (k <= n)%nat -> (n - k <= fuel)%nat ->
  dup fuel (repeat v k) n = Ok (repeat v n).
Proof.
  induction fuel as [|fuel IH]; intros k n Hk Hn Hf; cbn [dup]; rewrite repeat_length.
  - destruct (Nat.eqb_spec k n); [now subst|lia].
  - destruct (Nat.eqb_spec k n); [now subst|].
    assert (F : firstn (Nat.min k (n - k)) (repeat v k) = repeat v (Nat.min k (n - k))).
    { clear. assert (H : (Nat.min k (n - k) <= k)%nat) by lia. revert H. generalize (Nat.min k (n - k)) as m.
      induction k as [|k IH]; intros m H; [replace m with 0%nat by lia; reflexivity|].
      destruct m; [reflexivity|]. cbn [repeat firstn]. f_equal. apply IH. lia. }
    rewrite F, <- repeat_app. apply IH; lia.
Qed.

Lemma size_one_valid s idx : valid idx s -> size s = 1 -> rowmajor idx s = 0.
Proof. intros V E. pose proof (rowmajor_range _ _ V). lia. Qed.

(* a one-element view: its element sits at the offset *)
Lemma one_elem_addr a idx : valid idx (shp a) -> size (shp a) = 1 -> addr a idx = off a.
Proof.
  intros V E. unfold addr.
  assert (D : dot idx (str a) = 0).
  { assert (G : forall st, dot idx st = 0).
    { clear -V E. revert E. induction V as [|i d idx s Hi V IH]; intros E st; [reflexivity|].
      cbn [size] in E. pose proof (size_pos _ (valid_pos _ _ V)).
      assert (d = 1) by nia. assert (size s = 1) by nia. destruct st; [reflexivity|]. cbn [dot].
      rewrite IH by assumption. assert (i = 0) by lia. lia. }
    apply G. }
  lia.
Qed.

Lemma expand_spec a t : wf a -> safe a -> size (shp a) = 1 -> shape_ok t -> 0 < size t ->
  exists v b, (forall idx, valid idx (shp a) -> get a idx = Ok v) /\
  expand a t = Ok b /\ b = compact (buf b) t /\ Z.of_nat (length (buf b)) = size t /\
  (forall idx, valid idx t -> get b idx = Ok v).
Proof.
  intros [W L] Sf E T P. unfold expand. rewrite !numel_size, E. cbn [Z.eqb Pos.eqb].
  assert (V0 : valid (unf 0 (shp a)) (shp a)).
  { apply unf_valid. apply pos_of_size; auto. lia. }
  destruct (Sf _ V0) as [v Hv].
  assert (A0 : bufget (buf a) (off a) = Ok v).
  { rewrite <- Hv. unfold get. now rewrite one_elem_addr. }
  destruct (Z.to_nat (size t)) as [|n] eqn:En; [lia|].
  rewrite A0. cbn [rbind].
  change [v] with (repeat v 1). rewrite dup_spec by lia. cbn [rbind].
  exists v. eexists. split; [|split; [reflexivity|]].
  - intros idx V. unfold get. now rewrite one_elem_addr.
  - cbn [buf compact]. split; [reflexivity|]. split; [rewrite repeat_length; lia|].
    intros idx V. change (get (compact (repeat v (S n)) t) idx = Ok v).
    rewrite get_compact by (auto; rewrite repeat_length; lia). f_equal.
    pose proof (rowmajor_range _ _ V). unfold nthZ.
    assert (In (nth (Z.to_nat (rowmajor idx t)) (repeat v (S n)) 0) (repeat v (S n))).
    { apply nth_In. rewrite repeat_length. lia. }
    now apply repeat_spec in H0.
Qed.

(* ---- pad ---- *)
Lemma pad_shape_ok shape : forall lo hi inn,
  length lo = length shape -> length hi = length shape -> length inn = length shape ->
  pad_shape shape lo hi inn = Ok (padded_shape shape lo hi inn).
Proof.
  induction shape as [|d s IH]; destruct lo, hi, inn; cbn [length]; intros; try lia; [reflexivity|].
  cbn [pad_shape padded_shape]. rewrite IH by lia. cbn [rbind]. do 2 f_equal. lia.
Qed.

Lemma padded_length shape : forall lo hi inn,
  length lo = length shape -> length hi = length shape -> length inn = length shape ->
  length (padded_shape shape lo hi inn) = length shape.
Proof.
  induction shape as [|d s IH]; destruct lo, hi, inn; cbn [length]; intros; try lia; [reflexivity|].
  cbn [padded_shape length]. rewrite IH by lia. reflexivity.
Qed.

Lemma pad_target_spec rs : forall idx lo inn,
  length idx = length rs -> length lo = length rs -> length inn = length rs ->
  exists t, pad_maps lo inn idx t /\ (forall t', pad_maps lo inn idx t' -> t' = t) /\
  (pad_target rs idx lo inn = Some t /\ valid t rs \/ pad_target rs idx lo inn = None /\ ~ valid t rs).
Proof.
  induction rs as [|r rs IH]; destruct idx as [|i idx], lo as [|l lo], inn as [|n inn]; cbn [length]; intros; try lia.
  - exists []. split; [constructor|]. split; [intros t' Ht; inversion Ht; reflexivity|]. left. split; [reflexivity|constructor].
  - destruct (IH idx lo inn) as (t & M & U & C); try lia.
    exists (l + i * (n + 1) :: t). split; [now constructor|]. split.
    { intros t' Ht. inversion Ht; subst. f_equal. now apply U. }
    cbn [pad_target].
    destruct (Z.ltb_spec (l + i * (n + 1)) 0); cbn [orb].
    { right. split; [reflexivity|]. intros V. inversion V; lia. }
    destruct (Z.leb_spec r (l + i * (n + 1))).
    { right. split; [reflexivity|]. intros V. inversion V; lia. }
    destruct C as [[-> V]|[-> V]]; cbn [option_map].
    + left. split; [reflexivity|]. constructor; [lia|exact V].
    + right. split; [reflexivity|]. intros V'. inversion V'; subst. contradiction.
Qed.

Lemma pad_maps_inj lo inn : Forall (fun n => 0 <= n) inn -> forall i j t,
  pad_maps lo inn i t -> pad_maps lo inn j t -> i = j.
Proof.
  intros F i j t H; revert j F; induction H as [|l n i t l' n' i' t' E H IH]; intros j F H2; inversion H2; subst; auto.
  inversion F as [|? ? Fn Fr]; subst. f_equal; [nia|auto].
Qed.

Section Pad.
  Variables (a : nd) (lo hi inn : list Z) (pv : Z).
  Let rs := padded_shape (shp a) lo hi inn.
  Hypothesis Wa : wf a.
  Hypothesis Sa : safe a.
  Hypothesis Llo : length lo = length (shp a).
  Hypothesis Lhi : length hi = length (shp a).
  Hypothesis Lin : length inn = length (shp a).
  Hypothesis Nin : Forall (fun n => 0 <= n) inn.

  Definition pad_inv (r : nd) (m : Z) : Prop :=
    r = compact (buf r) rs /\ Z.of_nat (length (buf r)) = size rs /\
    forall t, valid t rs ->
      (forall i, valid i (shp a) -> rowmajor i (shp a) < m -> pad_maps lo inn i t -> get r t = get a i) /\
      ((forall i, valid i (shp a) -> rowmajor i (shp a) < m -> ~ pad_maps lo inn i t) -> get r t = Ok pv).

  Lemma pad_block_ok : forall n r m, pad_inv r m -> 0 <= m -> m + Z.of_nat n <= size (shp a) ->
    exists r', pad_block a lo inn r (unf m (shp a)) n = Ok r' /\ pad_inv r' (m + Z.of_nat n).
  Proof.
    induction n as [|n IH]; intros r m I Hm Hn.
    - exists r. split; [reflexivity|]. now replace (m + Z.of_nat 0) with m by lia.
    - cbn [pad_block]. destruct Wa as [W L].
      assert (P : pos (shp a)) by (apply pos_of_size; auto; lia).
      pose proof (unf_valid m (shp a) P) as Vm.
      assert (Rm : rowmajor (unf m (shp a)) (shp a) = m) by (rewrite rowmajor_unf, Z.mod_small by (auto; lia); reflexivity).
      pose proof I as (Er & Lb & G).
      assert (Sr : shp r = rs) by now rewrite Er.
      assert (Ls : length rs = length (shp a)) by (apply padded_length; auto).
      destruct (pad_target_spec rs (unf m (shp a)) lo inn) as (t & M & U & C);
        try (rewrite ?unf_length, Ls; auto; fail).
      (* next invariant *)
      assert (NX : exists r1, rbind (match pad_target (shp r) (unf m (shp a)) lo inn with
             | Some t => rbind (get a (unf m (shp a))) (fun v =>
                         rbind (bufset (buf r) (addr r t) v) (fun b =>
                         Ok (mkNd b (shp r) (str r) (off r))))
             | None => Ok r end) (fun r' => Ok r') = Ok r1 /\ pad_inv r1 (m + 1)).
      { rewrite Sr. destruct C as [[C V]|[C V]]; rewrite C.
        - destruct (Sa _ Vm) as [v Hv]. rewrite Hv. cbn [rbind].
          assert (At : forall t, valid t rs -> addr r t = rowmajor t rs).
          { intros t0 V0. rewrite Er. unfold addr. cbn [off str compact]. now rewrite dot_compact. }
          pose proof (rowmajor_range _ _ V) as Rt.
          destruct (bufset_ok (buf r) (addr r t) v) as (b & Eb & L1 & G1 & O1).
          { rewrite At by exact V. lia. }
          rewrite Eb. cbn [rbind]. eexists. split; [reflexivity|].
          assert (Es : str r = makeCompactStrides rs) by now rewrite Er.
          assert (Eo : off r = 0) by now rewrite Er.
          unfold pad_inv. cbn [buf]. split; [unfold compact; now rewrite Es, Eo|]. split; [lia|].
          intros t0 V0.
          assert (Gt : get (mkNd b rs (str r) (off r)) t0 = bufget b (rowmajor t0 rs)).
          { unfold get. cbn [buf]. f_equal. unfold addr. cbn [off str]. fold (addr r t0). now apply At. }
          rewrite Gt.
          destruct (list_eq_dec Z.eq_dec t0 t) as [->|NE].
          + assert (G1' : bufget b (rowmajor t rs) = Ok v) by (rewrite <- At by exact V; exact G1). rewrite G1'.
            split.
            * intros i Vi Hi Mi. rewrite (pad_maps_inj lo inn Nin _ _ _ Mi M). now rewrite Hv.
            * intros H. exfalso. apply (H (unf m (shp a))); auto. lia.
          + assert (O1' : bufget b (rowmajor t0 rs) = get r t0).
            { rewrite O1. - unfold get. f_equal. symmetry. now apply At.
              - rewrite At by exact V. intros E. apply NE. eapply rowmajor_inj; eauto. }
            rewrite O1'. destruct (G t0 V0) as [Ga Gb]. split.
            * intros i Vi Hi Mi. apply Ga; auto.
              destruct (Z.eq_dec (rowmajor i (shp a)) m) as [E|E]; [|lia].
              exfalso. apply NE. assert (i = unf m (shp a)) by (rewrite <- E; symmetry; now apply unf_rowmajor).
              subst i. now apply U.
            * intros H. apply Gb. intros i Vi Hi. apply H; auto. lia.
        - eexists. split; [reflexivity|]. split; [exact Er|]. split; [exact Lb|].
          intros t0 V0. destruct (G t0 V0) as [Ga Gb]. split.
          + intros i Vi Hi Mi. apply Ga; auto.
            destruct (Z.eq_dec (rowmajor i (shp a)) m) as [E|E]; [|lia].
            exfalso. assert (i = unf m (shp a)) by (rewrite <- E; symmetry; now apply unf_rowmajor).
            subst i. apply V. now rewrite <- (U t0).
          + intros H. apply Gb. intros i Vi Hi. apply H; auto. lia. }
      destruct NX as (r1 & E1 & I1).
      assert (E1' : match pad_target (shp r) (unf m (shp a)) lo inn with
             | Some t => rbind (get a (unf m (shp a))) (fun v =>
                         rbind (bufset (buf r) (addr r t) v) (fun b =>
                         Ok (mkNd b (shp r) (str r) (off r))))
             | None => Ok r end = Ok r1).
      { match goal with |- ?x = _ => destruct x eqn:EX end; rewrite EX in E1 || idtac; cbn [rbind] in E1; try discriminate; auto. }
      rewrite E1'. cbn [rbind].
      rewrite bump_spec by exact Vm. rewrite Rm.
      destruct (Z.ltb_spec (m + 1) (size (shp a))) as [Hlt|Hge].
      + destruct (IH r1 (m + 1)) as (r' & E & I'); auto; try lia.
        exists r'. split; [exact E|]. now replace (m + Z.of_nat (S n)) with (m + 1 + Z.of_nat n) by lia.
      + assert (n = 0)%nat by lia. subst n. exists r1. split; [reflexivity|].
        now replace (m + Z.of_nat 1) with (m + 1) by lia.
  Qed.

  Lemma pad_blocks_ok : forall blocks r m, pad_inv r m -> 0 <= m -> Forall (fun n => (0 < n)%nat) blocks ->
    m + Z.of_nat (list_sum blocks) <= size (shp a) ->
    exists r', pad_blocks a lo inn r m blocks = Ok r' /\ pad_inv r' (m + Z.of_nat (list_sum blocks)).
  Proof.
    induction blocks as [|n blocks IH]; intros r m I Hm F Hs; cbn [pad_blocks list_sum fold_right] in *.
    - exists r. split; [reflexivity|]. now replace (m + Z.of_nat 0) with m by lia.
    - inversion F; subst. destruct Wa as [W L].
      change (fold_right Nat.add 0%nat blocks) with (list_sum blocks) in *.
      assert (P : pos (shp a)) by (apply pos_of_size; auto; lia).
      rewrite unflattenIndex_ok by auto. cbn [rbind].
      destruct (pad_block_ok n r m) as (r1 & E1 & I1); auto; try lia.
      rewrite E1. cbn [rbind].
      destruct (IH r1 (m + Z.of_nat n)) as (r' & E & I'); auto; try lia.
      exists r'. split; [exact E|]. now replace (m + Z.of_nat (n + list_sum blocks)) with (m + Z.of_nat n + Z.of_nat (list_sum blocks)) by lia.
  Qed.
End Pad.

Lemma pad_spec a pvar lo hi inn blocks :
  wf a -> safe a -> wf pvar -> safe pvar -> size (shp pvar) = 1 ->
  length lo = length (shp a) -> length hi = length (shp a) -> length inn = length (shp a) ->
  Forall (fun n => 0 <= n) inn ->
  let rs := padded_shape (shp a) lo hi inn in
  shape_ok rs -> 0 < size rs ->
  Forall (fun n => (0 < n)%nat) blocks -> Z.of_nat (list_sum blocks) = size (shp a) ->
  exists r v, pad a pvar lo hi inn blocks = Ok r /\ shp r = rs /\
  (forall idx, valid idx (shp pvar) -> get pvar idx = Ok v) /\
  forall t, valid t rs ->
    (forall i, valid i (shp a) -> pad_maps lo inn i t -> get r t = get a i) /\
    ((forall i, valid i (shp a) -> ~ pad_maps lo inn i t) -> get r t = Ok v).
Proof.
  intros Wa Sa Wp Sp E1 L1 L2 L3 N rs T P F B. unfold pad. rewrite pad_shape_ok by auto. cbn [rbind]. fold rs.
  destruct (expand_spec pvar rs Wp Sp E1 T P) as (v & r0 & Hv & E & Er & Lr & G). rewrite E. cbn [rbind].
  destruct (pad_blocks_ok a lo hi inn v Wa Sa L1 L2 L3 N blocks r0 0) as (r & Er' & I); auto; try lia.
  { split; [exact Er|]. split; [exact Lr|]. intros t Vt. split; [|intros _; now apply G].
    intros i Vi Hi. pose proof (rowmajor_range _ _ Vi). lia. }
  exists r, v. split; [exact Er'|]. destruct I as (Es & Lb & I). split; [now rewrite Es|]. split; [exact Hv|].
  intros t Vt. destruct (I t Vt) as [A C]. split.
  - intros i Vi Mi. apply A; auto. pose proof (rowmajor_range _ _ Vi). lia.
  - intros H. apply C. intros i Vi _. now apply H.
Qed.

(* ---- slices with unit steps, addresses ---- *)
Lemma slice_addr a s e sst b :
  Forall (fun x => 0 < x) (ssteps a sst) -> slice a s e sst = Ok b ->
  forall idx, valid idx (shp b) -> addr b idx = addr a (slice_src s (ssteps a sst) idx).
Proof.
  intros Hs H. unfold slice in H.
  set (ss := match sst with None => _ | Some l => _ end) in *.
  assert (Es : map step_of ss = ssteps a sst).
  { unfold ss, ssteps. destruct sst; [apply map_step_some|apply map_step_none]. }
  destruct (slice_dims (shp a) (str a) s e ss) as [r| |] eqn:E; cbn [rbind] in H; try discriminate.
  injection H as <-.
  assert (Hss : Forall (fun x => 0 < step_of x) ss).
  { apply Forall_forall. intros x Hx. rewrite Forall_forall in Hs. apply Hs. rewrite <- Es. now apply in_map. }
  destruct (slice_dims_spec _ _ _ _ _ _ Hss E) as (L1 & L2 & L3 & F & SO & V & D).
  rewrite Es in V, D. cbn [shp buf].
  intros idx Hi. unfold addr at 1. cbn [buf off str]. unfold addr. specialize (D _ Hi). lia.
Qed.

Lemma slice_src_one : forall s (one idx : list Z), Forall (fun x => x = 1) one ->
  length one = length s -> length idx = length s -> slice_src s one idx = offset_by s idx.
Proof.
  induction s as [|x s IH]; destruct one, idx; cbn [length]; intros F L1 L2; try lia; [reflexivity|].
  inversion F; subst. cbn [slice_src]. unfold offset_by in *. cbn [zipWith]. f_equal; [lia|]. apply IH; auto.
Qed.

Lemma ones_forall {A} (l : list A) : Forall (fun x => x = 1) (map (fun _ => 1) l).
Proof. induction l; cbn [map]; constructor; auto. Qed.
Lemma ones_pos {A} (l : list A) : Forall (fun x => 0 < x) (map (fun _ => 1) l).
Proof. induction l; cbn [map]; constructor; auto. lia. Qed.

(* unit-step slice [s, s+d) : shape d *)
Lemma slice_box a s d :
  wf a -> length s = length (shp a) -> length d = length (shp a) -> shape_ok d ->
  Forall2 Z.le (zipWith Z.add s d) (shp a) ->
  exists b, slice a s (zipWith Z.add s d) (Some (map (fun _ => 1) s)) = Ok b /\ wf b /\ shp b = d /\ buf b = buf a /\
  forall idx, valid idx d -> addr b idx = addr a (offset_by s idx).
Proof.
  intros WF Ls Ld Sd F.
  set (sst := Some (map (fun _ : Z => 1) s)).
  destruct (slice_ok a s (zipWith Z.add s d) sst) as [b [E Wb]]; auto.
  { cbn [ssteps sst]. now rewrite map_length. }
  { apply ones_pos. }
  assert (Eshp : shp b = d).
  { unfold slice, sst in E. 
    set (ss := map Some (map (fun _ : Z => 1) s)) in E.
    destruct (slice_dims (shp a) (str a) s (zipWith Z.add s d) ss) as [r| |] eqn:R; cbn [rbind] in E; try discriminate.
    injection E as <-. cbn [shp].
    clear -R Ls Ld Sd. revert R. unfold ss. clear ss. generalize (str a) as st. revert s d r Ls Ld Sd.
    induction (shp a) as [|x shape IH]; intros s d r Ls Ld Sd st R.
    - destruct s, d; cbn [length] in *; try lia. destruct st; cbn in R; try discriminate. injection R as <-. reflexivity.
    - destruct s as [|s0 s], d as [|d0 d]; cbn [length] in *; try lia. destruct st as [|t st]; cbn [map zipWith slice_dims] in R; try discriminate.
      destruct (slice_dim x t s0 (s0 + d0) (Some 1)) as [[n u]| |] eqn:E1; cbn [rbind] in R; try discriminate.
      destruct (slice_dims shape st s _ _) as [r'| |] eqn:E2; cbn [rbind] in R; try discriminate.
      injection R as <-. cbn [map fst]. inversion Sd; subst. f_equal.
      + unfold slice_dim in E1. destruct (x <? s0 + d0); [discriminate|].
        destruct (Z.eqb_spec (Z.max (s0 + d0 - s0) 0) 1) as [K|K]; injection E1 as <- <-; [lia|].
        rewrite Z.quot_1_r, Z.rem_1_r. cbn. lia.
      + eapply IH; [| |eassumption|exact E2]; lia. }
  exists b. split; [exact E|]. split; [exact Wb|]. split; [exact Eshp|].
  pose proof (slice_addr a s _ sst b (ones_pos s) E) as A.
  destruct (slice_spec a s _ sst b (ones_pos s) E) as (_ & _ & Eb & _).
  split; [exact Eb|]. intros idx V. rewrite A by now rewrite Eshp. cbn [ssteps sst].
  rewrite slice_src_one; auto.
  - apply ones_forall.
  - now rewrite map_length.
  - apply valid_length in V. lia.
Qed.

Lemma offset_length s i : length i = length s -> length (offset_by s i) = length s.
Proof. intros. unfold offset_by. rewrite zipWith_length. lia. Qed.
Lemma nth_offset s i j : length i = length s -> (j < length s)%nat ->
  nthZ (offset_by s i) j = nthZ s j + nthZ i j.
Proof. intros L H. unfold offset_by, nthZ. rewrite nth_zipWith with (da := 0) (db := 0); auto; lia. Qed.
Lemma offset_inj s i j : length i = length s -> length j = length s -> offset_by s i = offset_by s j -> i = j.
Proof.
  intros L1 L2 E. apply list_eq_nth with 0; [lia|]. intros k Hk.
  pose proof (nth_offset s i k L1 ltac:(lia)) as A. pose proof (nth_offset s j k L2 ltac:(lia)) as B.
  rewrite E in A. unfold nthZ in *. lia.
Qed.
Lemma offset_valid s d i shape : length s = length shape -> length d = length shape ->
  Forall (fun x => 0 <= x) s -> Forall2 Z.le (zipWith Z.add s d) shape -> valid i d -> valid (offset_by s i) shape.
Proof.
  intros L1 L2 F1 F2 V. revert s shape L1 L2 F1 F2. induction V as [|i d idx s' Hi V IH]; intros s shape L1 L2 F1 F2.
  - destruct shape; cbn [length] in L2; try lia. destruct s; cbn [length] in L1; try lia. constructor.
  - destruct shape as [|x shape], s as [|y s]; cbn [length] in *; try lia.
    unfold offset_by in *. cbn [zipWith] in *. inversion F2; subst. inversion F1; subst. constructor; [lia|]. apply IH; auto.
Qed.

(* copying a whole array into the box at [s] of an injective in-bounds view *)
Lemma box_copy a s o :
  wf a -> in_buf a -> inj_view a -> wf o -> safe o ->
  length s = length (shp a) -> length (shp o) = length (shp a) ->
  Forall (fun x => 0 <= x) s -> Forall2 Z.le (zipWith Z.add s (shp o)) (shp a) ->
  exists sl b, slice a s (zipWith Z.add s (shp o)) (Some (map (fun _ => 1) s)) = Ok sl /\
  copy_slice sl o (Z.to_nat (numel (shp o))) = Ok b /\ length b = length (buf a) /\
  let a' := mkNd b (shp a) (str a) (off a) in
  (forall j, valid j (shp o) -> get a' (offset_by s j) = get o j) /\
  (forall i, valid i (shp a) -> (forall j, valid j (shp o) -> offset_by s j <> i) -> get a' i = get a i).
Proof.
  intros Wa IB IJ Wo So Ls Lo F1 F2.
  destruct (slice_box a s (shp o)) as (sl & E & Wsl & Esh & Eb & A); auto. { apply Wo. }
  assert (OV : forall j, valid j (shp o) -> valid (offset_by s j) (shp a)).
  { intros j Vj. eapply offset_valid; eauto. }
  destruct (copy_slice_ok sl o) as (b & Ec & Lb & G & O); auto.
  { intros j Vj. rewrite Esh in Vj. rewrite A, Eb by exact Vj. apply IB. auto. }
  { intros i j Vi Vj Q. rewrite Esh in Vi, Vj. rewrite !A in Q by assumption.
    apply IJ in Q; auto. apply offset_inj in Q; auto; apply valid_length in Vi, Vj; lia. }
  rewrite Eb in Lb, O.
  exists sl, b. split; [exact E|]. split; [exact Ec|]. split; [exact Lb|]. cbv zeta. split.
  - intros j Vj. unfold get. cbn [buf]. unfold addr. cbn [off str]. fold (addr a (offset_by s j)).
    rewrite <- A by exact Vj. rewrite G by exact Vj. reflexivity.
  - intros i Vi H. unfold get. cbn [buf]. unfold addr. cbn [off str]. fold (addr a i).
    rewrite O; [reflexivity|]. intros j Vj Q. rewrite A in Q by exact Vj. apply IJ in Q; auto. now apply (H j).
Qed.

(* ---- concatenate ---- *)
Lemma nthZ_zeros {A} (l : list A) j : nthZ (map (fun _ => 0) l) j = 0.
Proof. unfold nthZ. revert j; induction l; destruct j; cbn [map nth]; auto. Qed.

Lemma nthZ_upd (l : list Z) n v j : (n < length l)%nat -> nthZ (upd l n v) j = if Nat.eqb n j then v else nthZ l j.
Proof.
  intros H. unfold nthZ. destruct (Nat.eqb_spec n j); [subst; now apply nth_upd_same|now apply nth_upd_other].
Qed.

Lemma start_axis_offset (rs idx : list Z) ax c :
  (ax < length rs)%nat -> length idx = length rs ->
  offset_by (upd (map (fun _ => 0) rs) ax c) idx = shift_axis idx ax c.
Proof.
  intros H L. unfold shift_axis. apply list_eq_nth with 0.
  - rewrite offset_length; rewrite ?upd_length, ?map_length; auto.
  - intros j Hj. rewrite offset_length, upd_length, map_length in Hj by (now rewrite upd_length, map_length).
    change (nth j ?l 0) with (nthZ l j). rewrite nth_offset by (rewrite ?upd_length, ?map_length; lia).
    rewrite !nthZ_upd by (rewrite ?map_length; lia). rewrite nthZ_zeros.
    destruct (Nat.eqb_spec ax j); [subst|]; lia.
Qed.

Lemma map_const_eq {A B} (l : list A) (m : list B) : length l = length m -> map (fun _ => 1) l = map (fun _ => 1) m.
Proof. revert m; induction l; destruct m; cbn [length map]; intros; try lia; auto. f_equal. apply IHl. lia. Qed.

Lemma compact_in_buf b s : Z.of_nat (length b) = size s -> in_buf (compact b s).
Proof.
  intros L i V. unfold addr. cbn [off str buf compact shp] in *. rewrite dot_compact by exact V.
  pose proof (rowmajor_range _ _ V). lia.
Qed.

Lemma shape_ok_nth s j : shape_ok s -> 0 <= nthZ s j.
Proof.
  intros H. unfold nthZ. destruct (nth_in_or_default j s 0) as [I|I]; [|lia].
  unfold shape_ok in H. rewrite Forall_forall in H. now apply H.
Qed.

Lemma axis_sum_nonneg ax arrs : Forall (fun o => wf o) arrs -> 0 <= axis_sum ax arrs.
Proof.
  induction 1 as [|o arrs [W _] F IH]; unfold axis_sum in *; cbn [map]; rewrite ?sumZ_cons; [cbn; lia|].
  pose proof (shape_ok_nth _ ax W). lia.
Qed.

Lemma Forall2_le_upd (rs : list Z) ax v : (ax < length rs)%nat -> v <= nthZ rs ax -> Forall2 Z.le (upd rs ax v) rs.
Proof.
  intros H1 H2. apply (Forall2_nth_iff _ _ _ 0 0). rewrite upd_length. split; [reflexivity|]. intros j Hj.
  change (nth j ?l 0) with (nthZ l j). rewrite nthZ_upd by exact H1.
  destruct (Nat.eqb_spec ax j); [subst; auto|lia].
Qed.

Lemma concat_go_ok rs ax : shape_ok rs -> (ax < length rs)%nat ->
  forall arrs result c,
  Forall (fun o => wf o) arrs ->
  Forall (fun o => safe o /\ shp o = upd rs ax (nthZ (shp o) ax)) arrs ->
  0 <= c -> c + axis_sum ax arrs <= nthZ rs ax ->
  result = compact (buf result) rs -> Z.of_nat (length (buf result)) = size rs ->
  exists r, concat_go result ax (upd (map (fun _ => 0) rs) ax c) arrs = Ok r /\
  r = compact (buf r) rs /\ Z.of_nat (length (buf r)) = size rs /\
  (forall pre o post idx, arrs = pre ++ o :: post -> valid idx (shp o) ->
      get r (shift_axis idx ax (c + axis_sum ax pre)) = get o idx) /\
  (forall t, valid t rs -> nthZ t ax < c -> get r t = get result t).
Proof.
  intros SO HA. induction arrs as [|o arrs IH]; intros result c FW FS Hc Hsum ER LR.
  - exists result. split; [reflexivity|]. split; [exact ER|]. split; [exact LR|]. split; [|auto].
    intros pre o post idx E. destruct pre; discriminate.
  - cbn [concat_go]. inversion FW as [|? ? Wo FW']; subst. inversion FS as [|? ? [So Eo] FS']; subst.
    set (d := nthZ (shp o) ax) in *.
    assert (Hd : 0 <= d) by (apply shape_ok_nth; apply Wo).
    pose proof (axis_sum_nonneg ax arrs FW') as HN.
    unfold axis_sum in Hsum. cbn [map] in Hsum. rewrite sumZ_cons in Hsum. fold d in Hsum.
    change (c + (d + axis_sum ax arrs) <= nthZ rs ax) in Hsum.
    assert (SR : shp result = rs) by now rewrite ER.
    set (start := upd (map (fun _ => 0) rs) ax c).
    assert (Lst : length start = length rs) by (unfold start; now rewrite upd_length, map_length).
    assert (Nst : nthZ start ax = c).
    { unfold start. rewrite nthZ_upd by now rewrite map_length. now rewrite Nat.eqb_refl. }
    assert (Eend : set_axis (shp result) ax (nthZ start ax + d) = zipWith Z.add start (shp o)).
    { rewrite SR, Nst. unfold set_axis. apply list_eq_nth with 0.
      - rewrite zipWith_length, upd_length, Lst, Eo, upd_length. lia.
      - intros j Hj. rewrite upd_length in Hj.
        rewrite nth_zipWith with (da := 0) (db := 0) by (rewrite ?Lst, ?Eo, ?upd_length; lia).
        change (nth j ?l 0) with (nthZ l j). rewrite Eo. unfold start.
        rewrite !nthZ_upd by (rewrite ?map_length; lia). rewrite nthZ_zeros.
        destruct (Nat.eqb_spec ax j); lia. }
    rewrite Eend.
    replace (map (fun _ : Z => 1) (shp result)) with (map (fun _ : Z => 1) start) by (apply map_const_eq; now rewrite SR).
    assert (IJ : inj_view result) by (rewrite ER; apply compact_at_inj).
    assert (IB : in_buf result) by (rewrite ER; now apply compact_in_buf).
    assert (WR : wf result) by (rewrite ER; now apply compact_wf).
    destruct (box_copy result start o) as (sl & b & E1 & E2 & Lb & G & O); auto.
    { now rewrite SR. }
    { rewrite SR, Eo, upd_length. reflexivity. }
    { apply Forall_forall. intros x Hx. apply (In_nth _ _ 0) in Hx as [j [Hj <-]].
      change (nth j ?l 0) with (nthZ l j). unfold start. rewrite nthZ_upd by now rewrite map_length.
      rewrite nthZ_zeros. destruct (Nat.eqb_spec ax j); lia. }
    { rewrite <- Eend, SR, Nst. apply Forall2_le_upd; auto. lia. }
    rewrite E1. cbn [rbind]. rewrite E2. cbn [rbind].
    assert (Ea : mkNd b (shp result) (str result) (off result) = compact b rs) by (rewrite ER; reflexivity).
    rewrite Ea in G, O |- *.
    assert (Nend : set_axis start ax (nthZ (zipWith Z.add start (shp o)) ax) = upd (map (fun _ : Z => 0) rs) ax (c + d)).
    { rewrite <- Eend, SR, Nst. unfold set_axis. rewrite nthZ_upd by exact HA. rewrite Nat.eqb_refl.
      unfold start. apply list_eq_nth with 0; rewrite !upd_length; [reflexivity|].
      intros j Hj. rewrite map_length in Hj. change (nth j ?l 0) with (nthZ l j).
      rewrite !nthZ_upd by (rewrite ?upd_length, map_length; lia). destruct (Nat.eqb_spec ax j); auto. }
    rewrite Nend.
    destruct (IH (compact b rs) (c + d)) as (r & E & Er & Lr & G' & O'); auto; try lia.
    { cbn [buf compact]. lia. }
    exists r. split; [exact E|]. split; [exact Er|]. split; [exact Lr|].
    assert (LI : forall idx, valid idx (shp o) -> length idx = length rs).
    { intros idx V. apply valid_length in V. rewrite V, Eo, upd_length. reflexivity. }
    split.
    + intros pre o' post idx Epre V. destruct pre as [|x pre]; cbn [app] in Epre.
      * injection Epre as <- <-. unfold axis_sum. cbn [map sumZ fold_right]. rewrite Z.add_0_r.
        rewrite O'.
        -- rewrite <- start_axis_offset with (rs := rs) by (auto). fold start. now apply G.
        -- rewrite <- start_axis_offset with (rs := rs) by (auto). fold start.
           apply offset_valid with (d := shp o); auto.
           ++ rewrite Eo, upd_length. reflexivity.
           ++ apply Forall_forall. intros x Hx. apply (In_nth _ _ 0) in Hx as [j [Hj <-]].
              change (nth j ?l 0) with (nthZ l j). unfold start. rewrite nthZ_upd by now rewrite map_length.
              rewrite nthZ_zeros. destruct (Nat.eqb_spec ax j); lia.
           ++ rewrite <- Eend, SR, Nst. apply Forall2_le_upd; auto. lia.
        -- unfold shift_axis. rewrite nthZ_upd by (rewrite LI; auto). rewrite Nat.eqb_refl.
           assert (0 <= nthZ idx ax < d). { apply valid_nth; auto. rewrite Eo, upd_length. exact HA. }
           lia.
      * injection Epre as <- ->. specialize (G' pre o' post idx eq_refl V).
        replace (c + axis_sum ax (o :: pre)) with (c + d + axis_sum ax pre).
        2:{ unfold axis_sum. cbn [map]. rewrite sumZ_cons. fold d. lia. }
        exact G'.
    + intros t Vt Ht. rewrite O' by (auto; lia). apply O; [now rewrite SR|].
      intros j Vj C. unfold start in C. rewrite start_axis_offset in C by auto. subst t.
      unfold shift_axis in Ht. rewrite nthZ_upd in Ht by (rewrite LI; auto). rewrite Nat.eqb_refl in Ht.
      assert (0 <= nthZ j ax < d). { apply valid_nth; auto. rewrite Eo, upd_length. exact HA. }
      lia.
Qed.

Lemma concatenate_spec u a others axis :
  0 <= axis < Z.of_nat (length (shp a)) ->
  let ax := Z.to_nat axis in
  let rs := upd (shp a) ax (axis_sum ax (a :: others)) in
  Forall (fun o => wf o /\ safe o /\ shp o = upd (shp a) ax (nthZ (shp o) ax)) (a :: others) ->
  Z.of_nat (length u) = size rs ->
  exists r, concatenate u a others axis = Ok r /\ shp r = rs /\ wf r /\
  forall pre o post idx, a :: others = pre ++ o :: post -> valid idx (shp o) ->
    get r (shift_axis idx ax (axis_sum ax pre)) = get o idx.
Proof.
  intros HA ax rs F Lu. unfold concatenate.
  assert (R : in_rank (length (shp a)) axis = true) by (unfold in_rank; lia). rewrite R. fold ax.
  assert (Hax : (ax < length (shp a))%nat) by lia.
  assert (Es : fold_left (fun acc o => acc + nthZ (shp o) ax) others (nthZ (shp a) ax) = axis_sum ax (a :: others)).
  { unfold axis_sum. cbn [map]. rewrite sumZ_cons. generalize (nthZ (shp a) ax) as z.
    clear. induction others as [|o os IH]; intros z; cbn [fold_left map]; [cbn; lia|].
    rewrite IH, sumZ_cons. lia. }
  rewrite Es. fold rs. unfold set_axis. fold rs.
  assert (FW : Forall (fun o => wf o) (a :: others)) by (eapply Forall_impl; [|exact F]; cbn; tauto).
  pose proof (axis_sum_nonneg ax _ FW) as HN.
  assert (Wa : wf a) by now inversion FW.
  assert (SO : shape_ok rs).
  { apply Forall_forall. intros x Hx. apply (In_nth _ _ 0) in Hx as [j [Hj <-]]. change (nth j ?l 0) with (nthZ l j).
    unfold rs. rewrite nthZ_upd by exact Hax. destruct (Nat.eqb_spec ax j); [exact HN|]. apply shape_ok_nth. apply Wa. }
  assert (Nrs : nthZ rs ax = axis_sum ax (a :: others)).
  { unfold rs. rewrite nthZ_upd by exact Hax. now rewrite Nat.eqb_refl. }
  assert (Lrs : length rs = length (shp a)) by (unfold rs; now rewrite upd_length).
  replace (map (fun _ => 0) (shp a)) with (upd (map (fun _ => 0) rs) ax 0).
  2:{ apply list_eq_nth with 0; rewrite ?upd_length, !map_length; [exact Lrs|]. intros j Hj.
      change (nth j ?l 0) with (nthZ l j). rewrite nthZ_upd by (rewrite map_length; lia).
      rewrite !nthZ_zeros. now destruct (Nat.eqb ax j). }
  destruct (concat_go_ok rs ax SO ltac:(lia) (a :: others) (compact u rs) 0) as (r & E & Er & Lr & G & O); auto; try lia.
  { eapply Forall_impl; [|exact F]. cbv beta. intros o (_ & So & Eo). split; [exact So|].
    unfold rs. rewrite Eo at 1. apply list_eq_nth with 0; rewrite !upd_length; [reflexivity|].
    intros j Hj. change (nth j ?l 0) with (nthZ l j). rewrite !nthZ_upd by (rewrite ?upd_length; lia).
    destruct (Nat.eqb_spec ax j); auto. }
  exists r. split; [exact E|]. split; [now rewrite Er|]. split; [rewrite Er; now apply compact_wf|].
  intros pre o post idx Ep V. specialize (G pre o post idx Ep V). now rewrite Z.add_0_l in G.
Qed.

(* every result index of a concatenation belongs to exactly one piece *)
Lemma concat_cover ax arrs (t : list Z) : Forall (fun o => wf o) arrs ->
  0 <= nthZ t ax < axis_sum ax arrs ->
  exists pre o post, arrs = pre ++ o :: post /\ 0 <= nthZ t ax - axis_sum ax pre < nthZ (shp o) ax.
Proof.
  intros F. generalize (nthZ t ax) as z. induction F as [|o arrs Wo F IH]; intros z Hz.
  - unfold axis_sum in Hz. cbn in Hz. lia.
  - unfold axis_sum in Hz. cbn [map] in Hz. rewrite sumZ_cons in Hz.
    destruct (Z.lt_ge_cases z (nthZ (shp o) ax)) as [H|H].
    + exists [], o, arrs. split; [reflexivity|]. unfold axis_sum. cbn. lia.
    + destruct (IH (z - nthZ (shp o) ax)) as (pre & o' & post & E & R).
      { unfold axis_sum. lia. }
      exists (o :: pre), o', post. split; [now rewrite E|]. unfold axis_sum in *. cbn [map]. rewrite sumZ_cons. lia.
Qed.

(* ---- update_slice ---- *)
Lemma inj_of_no_overlap a : wf a -> no_overlap a -> has_zero_stride a = false -> inj_view a.
Proof.
  intros [W L] N H i j Vi Vj E. apply list_eq_nth with 0.
  - apply valid_length in Vi, Vj. congruence.
  - intros k Hk. apply valid_length in Vi as Li. change (nth k ?l 0) with (nthZ l k).
    destruct (Z.eq_dec (nthZ (str a) k) 0) as [Z0|NZ]; [|now apply (N i j)].
    assert (D1 : nthZ (shp a) k = 1).
    { unfold has_zero_stride in H. destruct (Z.eq_dec (nthZ (shp a) k) 1); [assumption|]. exfalso.
      assert (existsb (fun p => negb (fst p =? 1) && (snd p =? 0)) (combine (shp a) (str a)) = true); [|congruence].
      apply existsb_exists. exists (nthZ (shp a) k, nthZ (str a) k). split.
      - unfold nthZ. rewrite <- combine_nth by auto. apply nth_In. rewrite combine_length. lia.
      - cbn [fst snd]. lia. }
    pose proof (valid_nth _ _ k Vi ltac:(lia)). pose proof (valid_nth _ _ k Vj ltac:(lia)). lia.
Qed.

Lemma eliminate_spec a : wf a -> safe a -> no_overlap a ->
  exists a', eliminate_zero_stride a = Ok a' /\ wf a' /\ in_buf a' /\ inj_view a' /\ shp a' = shp a /\
  forall i, valid i (shp a) -> get a' i = get a i.
Proof.
  intros Wa Sa N. unfold eliminate_zero_stride. destruct (has_zero_stride a) eqn:H.
  - destruct (clone_spec a Wa Sa) as (c & E & SC & EC & LB & G). exists c. split; [exact E|].
    rewrite EC. split; [apply compact_wf; apply Wa|]. split; [now apply compact_in_buf|].
    split; [apply compact_at_inj|]. split; [reflexivity|]. intros i V. rewrite <- EC. now apply G.
  - exists a. split; [reflexivity|]. split; [exact Wa|]. split; [now apply safe_in_buf|].
    split; [now apply inj_of_no_overlap|]. auto.
Qed.

Lemma rank_of_one s j : valid j s -> size s = 1 -> j = map (fun _ => 0) s.
Proof.
  induction 1 as [|i d idx s Hi V IH]; intros E; cbn [map]; [reflexivity|].
  cbn [size] in E. pose proof (size_pos _ (valid_pos _ _ V)).
  assert (d = 1) by nia. assert (size s = 1) by nia. rewrite IH by assumption. f_equal. lia.
Qed.
Lemma offset_zero (s : list Z) {A} (l : list A) : length l = length s -> offset_by s (map (fun _ => 0) l) = s.
Proof.
  revert l; induction s as [|x s IH]; destruct l; cbn [length]; intros; try lia; [reflexivity|].
  unfold offset_by in *. cbn [map zipWith]. rewrite IH by lia. f_equal. lia.
Qed.

Lemma update_slice_spec a v start :
  wf a -> safe a -> no_overlap a -> wf v -> safe v ->
  length start = length (shp a) -> length (shp v) = length (shp a) ->
  Forall (fun x => 0 <= x) start -> Forall2 Z.le (zipWith Z.add start (shp v)) (shp a) ->
  exists r, update_slice a v start = Ok r /\ shp r = shp a /\
  (forall j, valid j (shp v) -> get r (offset_by start j) = get v j) /\
  (forall i, valid i (shp a) -> (forall j, valid j (shp v) -> offset_by start j <> i) -> get r i = get a i).
Proof.
  intros Wa Sa N Wv Sv Ls Lv F1 F2. unfold update_slice. rewrite !numel_size.
  destruct (Z.eqb_spec (size (shp v)) 0) as [E0|E0].
  - exists a. split; [reflexivity|]. split; [reflexivity|]. split; [|auto].
    intros j Vj. pose proof (rowmajor_range _ _ Vj). lia.
  - destruct (eliminate_spec a Wa Sa N) as (a' & E & Wa' & IB & IJ & Sh & G). rewrite E. cbn [rbind].
    destruct (Z.eqb_spec (size (shp v)) 1) as [E1|E1].
    + assert (Pv : pos (shp v)) by (apply pos_of_size; [apply Wv|lia]).
      set (z := map (fun _ => 0) (shp v)).
      assert (Vz : valid z (shp v)) by now apply map_zero_valid.
      assert (Vs : valid start (shp a)).
      { rewrite <- (offset_zero start (shp v)) by lia. eapply offset_valid; eauto. }
      rewrite Sh. apply inBounds_valid in Vs as Ib. rewrite Ib.
      destruct (Sv z Vz) as [x Hx]. 
      assert (Hx' : bufget (buf v) (off v) = Ok x).
      { rewrite <- Hx. unfold get. now rewrite one_elem_addr. }
      rewrite Hx'. cbn [rbind].
      destruct (bufset_ok (buf a') (addr a' start) x) as (b & Eb & Lb & G1 & O1).
      { apply IB. now rewrite Sh. }
      rewrite Eb. cbn [rbind]. eexists. split; [reflexivity|]. cbn [shp]. split; [reflexivity|]. split.
      * intros j Vj. rewrite (rank_of_one _ _ Vj E1). rewrite (offset_zero start (shp v)) by lia.
        unfold get at 1. cbn [buf]. unfold addr. cbn [off str]. fold (addr a' start). rewrite G1.
        fold z. now rewrite Hx.
      * intros i Vi H. unfold get at 1. cbn [buf]. unfold addr. cbn [off str]. fold (addr a' i).
        rewrite O1; [apply G; exact Vi|]. intros C. apply IJ in C; rewrite ?Sh; auto. subst i.
        apply (H z Vz). apply (offset_zero start (shp v)). lia.
    + destruct (box_copy a' start v) as (sl & b & E2 & E3 & Lb & G1 & O1); auto; rewrite ?Sh; auto.
      rewrite E2. cbn [rbind]. replace (Z.to_nat (size (shp v))) with (Z.to_nat (numel (shp v))) by now rewrite numel_size.
      rewrite E3. cbn [rbind]. eexists. split; [reflexivity|]. cbn [shp]. split; [auto|]. rewrite Sh in G1, O1. rewrite ?Sh. split; [exact G1|].
      intros i Vi H. rewrite O1 by auto. now apply G.
Qed.

(* compact arrays do not overlap; slices, transposes and reversals of non-overlapping
   views do not overlap *)
Lemma no_overlap_compact b s o : no_overlap (mkNd b s (makeCompactStrides s) o).
Proof. intros i j Vi Vj E k _. now rewrite (compact_at_inj b s o i j Vi Vj E). Qed.

(* ---- linear gather / scatter ---- *)
Lemma linear_gather_spec a n s indices :
  shp a = [n] -> str a = [s] -> safe a -> Forall (fun i => 0 <= i < n) indices ->
  exists r, linear_gather a indices = Ok r /\ shp r = [Z.of_nat (length indices)] /\
  forall k, (k < length indices)%nat -> get r [Z.of_nat k] = get a [nthZ indices k].
Proof.
  intros Es Est Sa F. unfold linear_gather. rewrite Es, Est.
  destruct (rmap_total (fun i => bufget (buf a) (off a + i * s)) indices) as [d Hd].
  { intros i Hi. rewrite Forall_forall in F. specialize (F i Hi).
    destruct (Sa [i]) as [v Hv]. { rewrite Es. constructor; [exact F|constructor]. }
    unfold get, addr in Hv. rewrite Est in Hv. cbn [dot] in Hv. exists v. rewrite <- Hv. f_equal. lia. }
  rewrite Hd. cbn [rbind]. eexists. split; [reflexivity|]. split; [reflexivity|].
  intros k Hk. pose proof (rmap_length _ _ _ Hd) as LD.
  assert (V : valid [Z.of_nat k] [Z.of_nat (length indices)]) by (constructor; [lia|constructor]).
  rewrite get_compact by (auto; cbn [size]; lia).
  pose proof (rmap_nth _ _ _ 0 0 k Hd Hk) as Q. cbv beta in Q.
  unfold get, addr. rewrite Est. cbn [dot rowmajor size].
  replace (off a + (nthZ indices k * s + 0)) with (off a + nth k indices 0 * s) by (unfold nthZ; lia).
  rewrite Q. f_equal. unfold nthZ. f_equal. lia.
Qed.

Lemma linear_scatter_spec a v n s indices :
  shp a = [n] -> str a = [s] -> s <> 0 -> safe a -> wf v -> safe v ->
  Z.of_nat (length indices) <= size (shp v) ->
  NoDup indices -> Forall (fun i => 0 <= i < n) indices ->
  exists r, linear_scatter a v indices = Ok r /\ shp r = shp a /\
  (forall k j, (k < length indices)%nat -> valid j (shp v) -> rowmajor j (shp v) = Z.of_nat k ->
      get r [nthZ indices k] = get v j) /\
  (forall i, 0 <= i < n -> ~ In i indices -> get r [i] = get a [i]).
Proof.
  intros Es Est Hs Sa Wv Sv Lv ND F. unfold linear_scatter. rewrite Es, Est.
  rewrite iterate_spec by exact Wv. rewrite map_length, seq_length.
  set (m := length indices) in *. set (N := Z.to_nat (size (shp v))).
  destruct (Nat.ltb_spec N m); [lia|].
  destruct (read_all_ok v Wv Sv) as (vs & Hr & LV & G). fold N in Hr, LV.
  assert (Hr' : rmap (bufget (buf v)) (firstn m (map (fun i => addr v (unf (Z.of_nat i) (shp v))) (seq 0 N))) = Ok (firstn m vs)).
  { clear -Hr. clearbody m. revert m vs Hr. generalize (map (fun i => addr v (unf (Z.of_nat i) (shp v))) (seq 0 N)) as l.
    induction l as [|x l IH]; intros m vs Hr; cbn [rmap] in Hr.
    - injection Hr as <-. now rewrite !firstn_nil.
    - destruct (bufget (buf v) x) as [y| |] eqn:E; cbn [rbind] in Hr; try discriminate.
      destruct (rmap (bufget (buf v)) l) as [r| |] eqn:E2; cbn [rbind] in Hr; try discriminate.
      injection Hr as <-. destruct m; [reflexivity|]. cbn [firstn rmap]. rewrite E. cbn [rbind].
      rewrite (IH m r eq_refl). reflexivity. }
  rewrite Hr'. cbn [rbind].
  assert (Lf : length (firstn m vs) = m) by (rewrite firstn_length; lia).
  set (w := combine (map (fun i => off a + i * s) indices) (firstn m vs)).
  assert (MF : map fst w = map (fun i => off a + i * s) indices) by (apply combine_fst; rewrite map_length; lia).
  assert (At : forall i, addr a [i] = off a + i * s) by (intros i; unfold addr; rewrite Est; cbn [dot]; lia).
  pose proof (safe_in_buf a Sa) as IB.
  destruct (write_all_ok w (buf a)) as (b & E & Lb & G1 & O1).
  - rewrite MF. apply NoDup_map_in; [|exact ND]. intros x y _ _ Q. nia.
  - rewrite MF. intros p Hp. apply in_map_iff in Hp as [i [<- Hi]]. rewrite <- At. apply IB. rewrite Es.
    rewrite Forall_forall in F. constructor; [now apply F|constructor].
  - rewrite E. cbn [rbind]. eexists. split; [reflexivity|]. cbn [shp]. rewrite <- Es. split; [reflexivity|]. split.
    + intros k j Hk Vj Rj. rewrite G by exact Vj. unfold get. cbn [buf]. unfold addr. cbn [off str].
      apply G1. unfold w.
      replace (off a + dot [nthZ indices k] [s], nth (Z.to_nat (rowmajor j (shp v))) vs 0)
        with (nth k (combine (map (fun i => off a + i * s) indices) (firstn m vs)) (0, 0)).
      * apply nth_In. rewrite combine_length, map_length, Lf. lia.
      * rewrite combine_nth by (rewrite map_length; lia). f_equal.
        -- rewrite nth_map_lt with (da := 0) by exact Hk. cbn [dot]. unfold nthZ. lia.
        -- rewrite Rj, Nat2Z.id. rewrite <- (firstn_skipn m vs) at 2. rewrite app_nth1 by lia. reflexivity.
    + intros i Hi NI. unfold get. cbn [buf]. unfold addr. cbn [off str].
      replace (off a + dot [i] [s]) with (addr a [i]) by (unfold addr; now rewrite Est).
      fold (addr a [i]). rewrite O1; [reflexivity|]. rewrite MF, At. intros C. apply in_map_iff in C as [x [Q Hx]].
      apply NI. replace i with x by nia. exact Hx.
Qed.

(* ---- pack / unpack ---- *)
Definition elems_ok (x : nd) : Prop := wf x /\ safe x.

Fixpoint sizes (xs : list (list Z)) : Z := match xs with [] => 0 | s :: xs' => size s + sizes xs' end.

Lemma fold_sizes xs z : fold_left (fun acc s => acc + numel s) xs z = z + sizes xs.
Proof.
  revert z; induction xs as [|s xs IH]; intros z; cbn [fold_left sizes]; [lia|]. rewrite IH, numel_size. lia.
Qed.
Lemma fold_sizes_nd xs z : fold_left (fun acc x => acc + numel (shp x)) xs z = z + sizes (map shp xs).
Proof.
  revert z; induction xs as [|s xs IH]; intros z; cbn [fold_left sizes map]; [lia|]. rewrite IH, numel_size. lia.
Qed.
Lemma sizes_nonneg xs : Forall shape_ok xs -> 0 <= sizes xs.
Proof. induction 1; cbn [sizes]; [lia|]. pose proof (size_nonneg _ H). lia. Qed.

Lemma pack_go_ok : forall xs b o, 0 <= o -> Forall elems_ok xs -> o + sizes (map shp xs) <= Z.of_nat (length b) ->
  exists b', pack_go b o xs = Ok b' /\ length b' = length b /\
  (forall p, 0 <= p < o -> bufget b' p = bufget b p) /\
  (forall pre x post j, xs = pre ++ x :: post -> valid j (shp x) ->
     bufget b' (o + sizes (map shp pre) + rowmajor j (shp x)) = get x j).
Proof.
  induction xs as [|x xs IH]; intros b o Ho F L; cbn [pack_go].
  - exists b. split; [reflexivity|]. split; [reflexivity|]. split; [auto|]. intros pre x post j E. destruct pre; discriminate.
  - inversion F as [|? ? [Wx Sx] F']; subst. cbn [map sizes] in L.
    pose proof (size_nonneg _ (proj1 Wx)) as SN.
    assert (SN' : 0 <= sizes (map shp xs)).
    { apply sizes_nonneg. apply Forall_forall. intros s Hs. apply in_map_iff in Hs as [y [<- Hy]].
      rewrite Forall_forall in F'. apply (F' y Hy). }
    set (sl := mkNd b (shp x) (makeCompactStrides (shp x)) o).
    assert (A : forall j, valid j (shp x) -> addr sl j = o + rowmajor j (shp x)).
    { intros j V. unfold addr, sl. cbn [off str]. now rewrite dot_compact. }
    destruct (copy_slice_ok sl x) as (b1 & E & L1 & G & O); auto.
    { split; [apply Wx|apply compact_length]. }
    { intros j V. change (shp sl) with (shp x) in V. rewrite A by exact V. cbn [buf sl]. pose proof (rowmajor_range _ _ V). lia. }
    { apply compact_at_inj. }
    cbn [buf sl] in L1, O. rewrite E. cbn [rbind]. rewrite numel_size.
    destruct (IH b1 (o + size (shp x))) as (b' & E' & L' & O' & G'); auto; try lia.
    exists b'. split; [exact E'|]. split; [lia|]. split.
    + intros p Hp. rewrite O' by lia. apply O. intros j V C. rewrite A in C by exact V.
      pose proof (rowmajor_range _ _ V). lia.
    + intros pre y post j Ep V. destruct pre as [|z pre]; cbn [app] in Ep.
      * injection Ep as <- <-. cbn [map sizes]. rewrite Z.add_0_r. pose proof (rowmajor_range _ _ V).
        rewrite O' by lia. rewrite <- A by exact V. now apply G.
      * injection Ep as <- ->. cbn [map sizes]. rewrite Z.add_assoc. eapply G'; eauto.
Qed.

Lemma pack_ok u xs : xs <> [] -> Forall elems_ok xs -> Z.of_nat (length u) = sizes (map shp xs) ->
  exists b, pack u xs = Ok (compact b [sizes (map shp xs)], map shp xs) /\
  Z.of_nat (length b) = sizes (map shp xs) /\
  forall pre x post j, xs = pre ++ x :: post -> valid j (shp x) ->
    bufget b (sizes (map shp pre) + rowmajor j (shp x)) = get x j.
Proof.
  intros NE F L. unfold pack. destruct xs as [|x xs]; [congruence|]. set (l := x :: xs) in *.
  rewrite fold_sizes_nd, Z.add_0_l.
  destruct (pack_go_ok l u 0) as (b & E & Lb & _ & G); auto; try lia.
  rewrite E. cbn [rbind]. exists b. split; [reflexivity|]. split; [lia|].
  intros. specialize (G pre x0 post j H H0). now rewrite Z.add_0_l in G.
Qed.

Lemma unpack_go_nth b : forall pi o pre s post, pi = pre ++ s :: post ->
  nth (length pre) (unpack_go b o pi) (mkNd [] [] [] 0) = mkNd b s (makeCompactStrides s) (o + sizes pre).
Proof.
  induction pi as [|s0 pi IH]; intros o pre s post E; destruct pre as [|p pre]; cbn [app] in E; try discriminate.
  - injection E as <- <-. cbn [length nth unpack_go sizes]. f_equal. lia.
  - injection E as <- ->. cbn [length nth unpack_go sizes]. rewrite (IH _ pre s post eq_refl). rewrite numel_size. f_equal. lia.
Qed.
Lemma unpack_go_length b pi o : length (unpack_go b o pi) = length pi.
Proof. revert o; induction pi; intros; cbn [unpack_go length]; auto. Qed.

(* vmap of an operation that maps f over a compact 1-D array and returns a compact array *)
Definition pointwise1 (f : Z -> Z) (op : nd -> res nd) : Prop :=
  forall d n, Z.of_nat (length d) = n -> op (compact d [n]) = Ok (compact (map f d) [n]).
Definition pointwise2 (f : Z -> Z -> Z) (op : nd -> nd -> res nd) : Prop :=
  forall d e n, Z.of_nat (length d) = n -> Z.of_nat (length e) = n ->
    op (compact d [n]) (compact e [n]) = Ok (compact (zipWith f d e) [n]).

Definition res_map (f : Z -> Z) (r : res Z) : res Z := match r with Ok v => Ok (f v) | Err => Err | Ub => Ub end.

Lemma split_nth {A} (l : list A) k d : (k < length l)%nat -> l = firstn k l ++ nth k l d :: skipn (S k) l.
Proof.
  revert k; induction l as [|x l IH]; intros k H; cbn [length] in H; [lia|].
  destruct k; [reflexivity|]. cbn [firstn nth skipn app]. f_equal. apply IH. lia.
Qed.

Lemma sizes_app a b : sizes (a ++ b) = sizes a + sizes b.
Proof. induction a; cbn [app sizes]; lia. Qed.

Lemma vmap1_spec u f op xs :
  pointwise1 f op -> xs <> [] -> Forall elems_ok xs -> Z.of_nat (length u) = sizes (map shp xs) ->
  exists rs, vmap1 u op xs = Ok rs /\ length rs = length xs /\
  forall k, (k < length xs)%nat ->
    let x := nth k xs (mkNd [] [] [] 0) in let r := nth k rs (mkNd [] [] [] 0) in
    shp r = shp x /\ forall j, valid j (shp x) -> get r j = res_map f (get x j).
Proof.
  intros PW NE F L. unfold vmap1. destruct (pack_ok u xs NE F L) as (b & E & Lb & G). rewrite E. cbn [rbind].
  rewrite PW by exact Lb. cbn [rbind]. unfold unpack. cbn [shp compact buf].
  rewrite fold_sizes, Z.add_0_l. rewrite numel_size. cbn [size]. rewrite Z.mul_1_r, Z.eqb_refl.
  eexists. split; [reflexivity|]. split; [rewrite unpack_go_length, map_length; reflexivity|].
  intros k Hk. set (x := nth k xs (mkNd [] [] [] 0)). set (r := nth k (unpack_go _ _ _) _). pose proof (split_nth xs k (mkNd [] [] [] 0) Hk) as Sp. fold x in Sp.
  assert (Er : r = mkNd (map f b) (shp x) (makeCompactStrides (shp x)) (sizes (map shp (firstn k xs)))).
  { unfold r.
    replace k with (length (map shp (firstn k xs))) at 1 by (rewrite map_length, firstn_length; lia).
    rewrite unpack_go_nth with (s := shp x) (post := map shp (skipn (S k) xs)); [reflexivity|].
    rewrite Sp at 1. rewrite map_app. reflexivity. }
  rewrite Er. split; [reflexivity|]. intros j V. unfold get at 1, addr. cbn [buf off str].
  rewrite dot_compact by exact V.
  pose proof (G _ _ _ j Sp V) as Q.
  assert (Hx : safe x). { rewrite Forall_forall in F. apply (F x). unfold x. now apply nth_In. }
  destruct (Hx j V) as [v Hv]. rewrite Hv in Q. apply bufget_ok in Q as [R Ev].
  rewrite Hv. cbn [res_map]. rewrite bufget_in by (rewrite map_length; exact R).
  f_equal. unfold nthZ in *. rewrite nth_map_lt with (da := 0) by lia. now rewrite Ev.
Qed.

Lemma vmap2_spec u1 u2 f op xs ys :
  pointwise2 f op -> xs <> [] -> Forall elems_ok xs -> Forall elems_ok ys -> map shp xs = map shp ys ->
  Z.of_nat (length u1) = sizes (map shp xs) -> Z.of_nat (length u2) = sizes (map shp xs) ->
  exists rs, vmap2 u1 u2 op xs ys = Ok rs /\ length rs = length xs /\
  forall k, (k < length xs)%nat ->
    let x := nth k xs (mkNd [] [] [] 0) in let y := nth k ys (mkNd [] [] [] 0) in
    let r := nth k rs (mkNd [] [] [] 0) in
    shp r = shp x /\ forall j v w, valid j (shp x) -> get x j = Ok v -> get y j = Ok w -> get r j = Ok (f v w).
Proof.
  intros PW NE F1 F2 ES L1 L2. unfold vmap2.
  assert (LXY : length xs = length ys) by (rewrite <- (map_length shp xs), ES, map_length; reflexivity).
  destruct (pack_ok u1 xs NE F1 L1) as (b & E & Lb & G). rewrite E. cbn [rbind].
  destruct (pack_ok u2 ys) as (c & E2 & Lc & G2); auto. { destruct ys; [destruct xs; [congruence|discriminate]|discriminate]. }
  { now rewrite <- ES. }
  rewrite E2. cbn [rbind]. rewrite <- ES in *.
  rewrite PW by assumption. cbn [rbind]. unfold unpack. cbn [shp compact buf].
  rewrite fold_sizes, Z.add_0_l. rewrite numel_size. cbn [size]. rewrite Z.mul_1_r, Z.eqb_refl.
  eexists. split; [reflexivity|]. split; [rewrite unpack_go_length, map_length; reflexivity|].
  intros k Hk. set (x := nth k xs (mkNd [] [] [] 0)). set (y := nth k ys (mkNd [] [] [] 0)).
  set (r := nth k (unpack_go _ _ _) _). pose proof (split_nth xs k (mkNd [] [] [] 0) Hk) as Sp. fold x in Sp.
  pose proof (split_nth ys k (mkNd [] [] [] 0) ltac:(lia)) as Sp2. fold y in Sp2.
  assert (Exy : shp y = shp x).
  { unfold x, y. rewrite <- !(map_nth shp). rewrite ES. reflexivity. }
  assert (Er : r = mkNd (zipWith f b c) (shp x) (makeCompactStrides (shp x)) (sizes (map shp (firstn k xs)))).
  { unfold r.
    replace k with (length (map shp (firstn k xs))) at 1 by (rewrite map_length, firstn_length; lia).
    rewrite unpack_go_nth with (s := shp x) (post := map shp (skipn (S k) xs)); [reflexivity|].
    rewrite Sp at 1. rewrite map_app. reflexivity. }
  rewrite Er. split; [reflexivity|]. intros j v w V Hv Hw. unfold get, addr. cbn [buf off str].
  rewrite dot_compact by exact V.
  pose proof (G _ _ _ j Sp V) as Q. rewrite Hv in Q. apply bufget_ok in Q as [R Ev].
  assert (Epre : map shp (firstn k ys) = map shp (firstn k xs)) by now rewrite <- !firstn_map, ES.
  rewrite <- Exy in V. pose proof (G2 _ _ _ j Sp2 V) as Q2. rewrite Hw in Q2. apply bufget_ok in Q2 as [R2 Ew].
  rewrite Epre, Exy in R2, Ew.
  rewrite bufget_in by (rewrite zipWith_length; lia).
  f_equal. unfold nthZ in *. rewrite nth_zipWith with (da := 0) (db := 0) by lia. now rewrite Ev, Ew.
Qed.
