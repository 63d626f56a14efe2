From Coq Require Import ZifyBool ZifyNat.
From Verif Require Import Base Nd_model Nd_spec Nd_proof.

(* ---- generic sums over positions ---- *)
Lemma dot_sum idx st : length idx = length st ->
  dot idx st = sumZ (map (fun j => nthZ idx j * nthZ st j) (seq 0 (length st))).
Proof.
  revert st; induction idx as [|i idx IH]; destruct st as [|s st]; cbn [length]; intros H; try lia; [reflexivity|].
  cbn [seq map dot sumZ fold_right]. rewrite <- seq_shift, map_map. cbn [nthZ nth].
  rewrite IH by lia. unfold nthZ. cbn [nth]. reflexivity.
Qed.

Lemma upd_length {A} (l : list A) n v : length (upd l n v) = length l.
Proof. revert n; induction l; destruct n; cbn [upd length]; auto. Qed.
Lemma nth_upd_same {A} (l : list A) n v d : (n < length l)%nat -> nth n (upd l n v) d = v.
Proof. revert n; induction l; destruct n; cbn [upd length nth]; intros; try lia; auto. apply IHl; lia. Qed.
Lemma nth_upd_other {A} (l : list A) n m v d : n <> m -> nth m (upd l n v) d = nth m l d.
Proof. revert n m; induction l; destruct n, m; cbn [upd nth]; intros; try lia; auto. Qed.

Lemma dot_upd_st idx st n v : (n < length st)%nat -> length idx = length st ->
  dot idx (upd st n v) = dot idx st + nthZ idx n * (v - nthZ st n).
Proof.
  revert st n; induction idx as [|i idx IH]; destruct st as [|s st]; cbn [length]; intros n H L; try lia.
  destruct n; cbn [upd dot].
  - unfold nthZ. cbn [nth]. lia.
  - rewrite IH by lia. unfold nthZ. cbn [nth]. lia.
Qed.
Lemma dot_upd_idx idx st n v : (n < length st)%nat -> length idx = length st ->
  dot (upd idx n v) st = dot idx st + (v - nthZ idx n) * nthZ st n.
Proof.
  revert st n; induction idx as [|i idx IH]; destruct st as [|s st]; cbn [length]; intros n H L; try lia.
  destruct n; cbn [upd dot].
  - unfold nthZ. cbn [nth]. lia.
  - rewrite IH by lia. unfold nthZ. cbn [nth]. lia.
Qed.

Lemma valid_nth idx s j : valid idx s -> (j < length s)%nat -> 0 <= nthZ idx j < nthZ s j.
Proof.
  intros V; revert j; induction V; cbn [length]; intros j Hj; [lia|].
  destruct j; unfold nthZ; cbn [nth]; [lia|]. apply IHV. lia.
Qed.
Lemma valid_of_nth idx s : length idx = length s ->
  (forall j, (j < length s)%nat -> 0 <= nthZ idx j < nthZ s j) -> valid idx s.
Proof.
  revert s; induction idx as [|i idx IH]; destruct s as [|d s]; cbn [length]; intros L H; try lia; constructor.
  - specialize (H 0%nat). unfold nthZ in H; cbn [nth] in H. apply H; lia.
  - apply IH; [lia|]. intros j Hj. specialize (H (S j)). unfold nthZ in *; cbn [nth] in H. apply H; lia.
Qed.

(* ---- slice ---- *)
Definition ssteps (a : nd) (sst : option (list Z)) : list Z :=
  match sst with None => map (fun _ => 1) (shp a) | Some l => l end.

Definition step_of (x : option Z) : Z := match x with None => 1 | Some x => x end.

Lemma slice_dim_spec d st s e x n t :
  0 < step_of x -> slice_dim d st s e x = Ok (n, t) ->
  e <= d /\ 0 <= n /\ (forall i, 0 <= i < n <-> 0 <= i /\ s + i * step_of x < e) /\
  (forall i, 0 <= i < n -> i * t = (i * step_of x) * st).
Proof.
  unfold slice_dim. intros Hx. destruct (Z.ltb_spec d e) as [|He]; [discriminate|].
  destruct (Z.eqb_spec (Z.max (e - s) 0) 1) as [H1|H1].
  - intros [= <- <-]. repeat split; try lia; try nia. intros i Hi. assert (i = 0) by lia. subst. lia.
  - destruct x as [x|]; cbn [step_of] in *.
    + destruct x as [|x|x]; try discriminate; try lia.
      set (y := Z.pos x) in *. intros [= <- <-]. 
      rewrite Z.quot_div_nonneg, Z.rem_mod_nonneg by lia.
      set (m := Z.max (e - s) 0) in *.
      pose proof (Z.div_mod m y). pose proof (Z.mod_pos_bound m y).
      assert (0 <= m / y) by (apply Z.div_pos; lia).
      destruct (Z.eqb_spec (m mod y) 0); repeat split; try nia.
    + intros [= <- <-]. repeat split; try lia; nia.
Qed.

Lemma slice_dims_spec : forall shape st s e ss r,
  Forall (fun x => 0 < step_of x) ss ->
  slice_dims shape st s e ss = Ok r ->
  length s = length shape /\ length e = length shape /\ length ss = length shape /\
  Forall2 Z.le e shape /\ shape_ok (map fst r) /\
  (forall idx, valid idx (map fst r) <-> in_slice s e (map step_of ss) idx) /\
  (forall idx, valid idx (map fst r) ->
     dot idx (map snd r) + dot s st = dot (slice_src s (map step_of ss) idx) st).
Proof.
  induction shape as [|d shape IH]; intros st s e ss r Hs H.
  - destruct st, s, e, ss; cbn in H; try discriminate. injection H as <-. cbn [map length].
    repeat split; auto; try constructor.
    + inversion 1; constructor.
    + inversion 1; constructor.
    + inversion 1; reflexivity.
  - destruct st as [|t st], s as [|s0 s], e as [|e0 e], ss as [|x ss]; cbn [slice_dims] in H; try discriminate.
    inversion Hs as [|? ? Hx Hs']; subst.
    destruct (slice_dim d t s0 e0 x) as [[n t']| |] eqn:E1; cbn [rbind] in H; try discriminate.
    destruct (slice_dims shape st s e ss) as [r'| |] eqn:E2; cbn [rbind] in H; try discriminate.
    injection H as <-.
    destruct (IH _ _ _ _ _ Hs' E2) as (L1 & L2 & L3 & F & SO & V & D).
    destruct (slice_dim_spec _ _ _ _ _ _ _ Hx E1) as (A1 & A2 & A3 & A4).
    cbn [map length fst snd]. repeat split; try lia.
    + constructor; auto.
    + constructor; auto.
    + intros VV. inversion VV as [|i0 ? idx0 ? Hi0 Hv0]; subst. apply A3 in Hi0. constructor; try tauto. now apply V.
    + intros VV. inversion VV as [|? ? ? i0 ? ? ? idx0 P1 P2 P3]; subst. constructor; [apply A3; tauto|now apply V].
    + intros idx VV. inversion VV as [|i0 ? idx0 ? Hi0 Hv0]; subst. cbn [dot slice_src]. rewrite A4 by lia.
      specialize (D _ Hv0). lia.
Qed.

Lemma map_step_none (l : list Z) : map step_of (map (fun _ => None) l) = map (fun _ => 1) l.
Proof. rewrite map_map. reflexivity. Qed.
Lemma map_step_some (l : list Z) : map step_of (map Some l) = l.
Proof. rewrite map_map. cbn. apply map_id. Qed.

Lemma slice_spec a s e sst b :
  Forall (fun x => 0 < x) (ssteps a sst) ->
  slice a s e sst = Ok b ->
  Forall2 Z.le e (shp a) /\ shape_ok (shp b) /\ buf b = buf a /\
  (forall idx, valid idx (shp b) <-> in_slice s e (ssteps a sst) idx) /\
  (forall idx, valid idx (shp b) -> get b idx = get a (slice_src s (ssteps a sst) idx)).
Proof.
  intros Hs H. unfold slice in H.
  set (ss := match sst with None => _ | Some l => _ end) in *.
  assert (Es : map step_of ss = ssteps a sst).
  { unfold ss, ssteps. destruct sst; [apply map_step_some|apply map_step_none]. }
  destruct (slice_dims (shp a) (str a) s e ss) as [r| |] eqn:E; cbn [rbind] in H; try discriminate.
  injection H as <-.
  assert (Hss : Forall (fun x => 0 < step_of x) ss).
  { apply Forall_forall. intros x Hx. rewrite Forall_forall in Hs. apply Hs. rewrite <- Es. now apply in_map. }
  destruct (slice_dims_spec _ _ _ _ _ _ Hss E) as (L1 & L2 & L3 & F & SO & V & D).
  rewrite Es in V, D. cbn [shp buf].
  split; [exact F|]. split; [exact SO|]. split; [reflexivity|]. split; [exact V|].
  intros idx Hi. unfold get, addr. cbn [buf off str]. f_equal. specialize (D _ Hi). lia.
Qed.

Lemma slice_dims_ok : forall shape st s e ss,
  length st = length shape -> length s = length shape -> length ss = length shape ->
  Forall (fun x => 0 < step_of x) ss -> Forall2 Z.le e shape ->
  exists r, slice_dims shape st s e ss = Ok r /\ length r = length shape.
Proof.
  induction shape as [|d shape IH]; intros st s e ss L1 L2 L3 Hs F.
  - inversion F; subst. destruct st, s, ss; cbn [length] in *; try lia. exists []. split; reflexivity.
  - inversion F as [|e0 d0 e' sh' He F']; subst.
    destruct st as [|t st], s as [|s0 s], ss as [|x ss]; cbn [length] in *; try lia.
    inversion Hs; subst.
    destruct (IH st s e' ss) as [r [E L]]; auto; try lia.
    cbn [slice_dims]. unfold slice_dim. destruct (Z.ltb_spec d e0); [lia|].
    rewrite E. destruct (Z.max (e0 - s0) 0 =? 1).
    + cbn [rbind]. eexists. split; [reflexivity|]. cbn [length]. lia.
    + destruct x as [[|x|x]|]; cbn [step_of] in *; try lia; cbn [rbind]; eexists; (split; [reflexivity|cbn [length]; lia]).
Qed.

Lemma slice_ok a s e sst :
  wf a -> length s = length (shp a) -> length (ssteps a sst) = length (shp a) ->
  Forall (fun x => 0 < x) (ssteps a sst) -> Forall2 Z.le e (shp a) ->
  exists b, slice a s e sst = Ok b /\ wf b.
Proof.
  intros [W L] L1 L2 Hs F. unfold slice.
  set (ss := match sst with None => _ | Some l => _ end) in *.
  assert (Es : map step_of ss = ssteps a sst).
  { unfold ss, ssteps. destruct sst; [apply map_step_some|apply map_step_none]. }
  assert (Hss : Forall (fun x => 0 < step_of x) ss).
  { apply Forall_forall. intros x Hx. rewrite Forall_forall in Hs. apply Hs. rewrite <- Es. now apply in_map. }
  assert (Lss : length ss = length (shp a)) by (rewrite <- L2, <- Es, map_length; reflexivity).
  destruct (slice_dims_ok (shp a) (str a) s e ss) as [r [E Lr]]; auto.
  rewrite E. cbn [rbind]. eexists. split; [reflexivity|].
  destruct (slice_dims_spec _ _ _ _ _ _ Hss E) as (_ & _ & _ & _ & SO & _).
  split; cbn [shp str]; [exact SO|]. rewrite !map_length. reflexivity.
Qed.

(* the selected source index is inside the source shape *)
Lemma in_slice_src s e x idx shape :
  in_slice s e x idx -> Forall2 Z.le e shape -> Forall (fun v => 0 <= v) s -> Forall (fun v => 0 < v) x ->
  valid (slice_src s x idx) shape.
Proof.
  intros H; revert shape; induction H; intros shape F Hs Hx.
  - inversion F; constructor.
  - inversion F; subst. inversion Hs; subst. inversion Hx; subst. cbn [slice_src]. constructor; [nia|auto].
Qed.

(* ---- transpose ---- *)
Lemma existsb_Zeqb_In x l : existsb (Z.eqb x) l = true <-> In x l.
Proof.
  rewrite existsb_exists. split.
  - intros [y [H E]]. apply Z.eqb_eq in E. now subst.
  - intros H. exists x. split; [exact H|apply Z.eqb_refl].
Qed.
Lemma nodupb_NoDup l : nodupb l = true <-> NoDup l.
Proof.
  induction l as [|x l IH]; cbn [nodupb]; split; intros H; try constructor.
  - apply andb_true_iff in H as [H1 H2]. intros C. apply existsb_Zeqb_In in C. rewrite C in H1. discriminate.
  - apply IH. apply andb_true_iff in H. tauto.
  - inversion H; subst. apply andb_true_iff. split; [|now apply IH].
    destruct (existsb (Z.eqb x) l) eqn:E; [|reflexivity]. apply existsb_Zeqb_In in E. contradiction.
Qed.

Lemma perm_of_nodup (perm : list Z) n :
  length perm = n -> NoDup perm -> forallb (in_rank n) perm = true ->
  Permutation (map Z.to_nat perm) (seq 0 n).
Proof.
  intros L ND R. apply NoDup_Permutation_bis.
  - apply NoDup_map_in; [|exact ND]. intros x y Hx Hy E.
    rewrite forallb_forall in R. pose proof (R _ Hx). pose proof (R _ Hy). unfold in_rank in *. lia.
  - rewrite map_length, seq_length. lia.
  - intros x Hx. apply in_map_iff in Hx as [y [<- Hy]]. rewrite forallb_forall in R.
    pose proof (R _ Hy). unfold in_rank in *. apply in_seq. lia.
Qed.

Lemma dot_map_map {A} (f g : A -> Z) l : dot (map f l) (map g l) = sumZ (map (fun x => f x * g x) l).
Proof. induction l; cbn [map dot sumZ fold_right]; [reflexivity|]. rewrite IHl. reflexivity. Qed.

Lemma dot_permute perm idx st n :
  length idx = n -> length st = n -> Permutation (map Z.to_nat perm) (seq 0 n) ->
  dot (permute_index perm idx) (map (fun p => nthZ st (Z.to_nat p)) perm) = dot idx st.
Proof.
  intros L1 L2 P. unfold permute_index. rewrite dot_map_map.
  rewrite <- (map_map Z.to_nat (fun j => nthZ idx j * nthZ st j)).
  rewrite dot_sum by lia. rewrite L2. apply sumZ_perm. now apply Permutation_map.
Qed.

Lemma valid_permute perm idx s :
  valid idx s -> Permutation (map Z.to_nat perm) (seq 0 (length s)) ->
  valid (permute_index perm idx) (map (fun p => nthZ s (Z.to_nat p)) perm).
Proof.
  intros V P. unfold permute_index.
  assert (H : forall p, In p perm -> (Z.to_nat p < length s)%nat).
  { intros p Hp. apply (in_map Z.to_nat) in Hp. apply (Permutation_in _ P) in Hp. apply in_seq in Hp. lia. }
  clear P. induction perm as [|p perm IH]; cbn [map]; constructor.
  - apply valid_nth; auto. apply H. now left.
  - apply IH. intros q Hq. apply H. now right.
Qed.

Lemma nth_map_nthZ (f : Z -> Z) l j : (j < length l)%nat -> nthZ (map f l) j = f (nthZ l j).
Proof. intros. unfold nthZ. now rewrite nth_map_lt with (da := 0). Qed.

(* every valid index of the permuted shape comes from exactly one valid index *)
Lemma permute_surj perm s jdx :
  Permutation (map Z.to_nat perm) (seq 0 (length s)) ->
  valid jdx (map (fun p => nthZ s (Z.to_nat p)) perm) ->
  exists idx, valid idx s /\ permute_index perm idx = jdx.
Proof.
  intros P V.
  pose proof (valid_length _ _ V) as LJ. rewrite map_length in LJ.
  assert (LP : length perm = length s).
  { apply Permutation_length in P. rewrite map_length, seq_length in P. exact P. }
  (* position of axis i in perm *)
  assert (Pos : forall i, (i < length s)%nat -> exists j, (j < length perm)%nat /\ nth j (map Z.to_nat perm) 0%nat = i).
  { intros i Hi. assert (In i (map Z.to_nat perm)).
    { apply (Permutation_in _ (Permutation_sym P)). apply in_seq. lia. }
    apply (In_nth _ _ 0%nat) in H as [j [Hj E]]. rewrite map_length in Hj. eauto. }
  assert (ND : NoDup (map Z.to_nat perm)) by (apply (Permutation_NoDup (Permutation_sym P)), seq_NoDup).
  assert (Ex : exists idx, length idx = length s /\
     forall j, (j < length perm)%nat -> nthZ idx (nth j (map Z.to_nat perm) 0%nat) = nthZ jdx j).
  { clear V. revert LP ND Pos P LJ. intros.
    exists (map (fun i => nthZ jdx (List.hd 0%nat (filter (fun j => Nat.eqb (nth j (map Z.to_nat perm) 0%nat) i) (seq 0 (length perm))))) (seq 0 (length s))).
    split; [now rewrite map_length, seq_length|].
    intros j Hj. set (i := nth j (map Z.to_nat perm) 0%nat).
    assert (Hi : (i < length s)%nat).
    { assert (In i (map Z.to_nat perm)) by (apply nth_In; now rewrite map_length).
      apply (Permutation_in _ P) in H. apply in_seq in H. lia. }
    unfold nthZ at 1. rewrite nth_map_lt with (da := 0%nat) by now rewrite seq_length.
    rewrite seq_nth by exact Hi. cbn [Nat.add].
    f_equal.
    destruct (filter _ (seq 0 (length perm))) as [|x l] eqn:F.
    - exfalso. assert (In j (filter (fun j => Nat.eqb (nth j (map Z.to_nat perm) 0%nat) i) (seq 0 (length perm)))).
      { apply filter_In. split; [apply in_seq; lia|]. apply Nat.eqb_refl. }
      rewrite F in H. exact H.
    - cbn [hd]. assert (In x (x :: l)) by now left. rewrite <- F in H.
      apply filter_In in H as [Hx E]. apply in_seq in Hx. apply Nat.eqb_eq in E.
      apply (proj1 (NoDup_nth (map Z.to_nat perm) 0%nat) ND); rewrite ?map_length; auto; lia. }
  destruct Ex as [idx [LI E]]. exists idx. split.
  - apply valid_of_nth; [exact LI|]. intros i Hi. destruct (Pos i Hi) as [j [Hj <-]].
    rewrite E by exact Hj.
    assert (Hv : 0 <= nthZ jdx j < nthZ (map (fun p => nthZ s (Z.to_nat p)) perm) j).
    { apply valid_nth; auto. now rewrite map_length. }
    rewrite (nth_map_nthZ (fun p => nthZ s (Z.to_nat p))) in Hv by exact Hj.
    rewrite nth_map_lt with (da := 0) by exact Hj. exact Hv.
  - unfold permute_index. apply list_eq_nth with 0; rewrite map_length; [lia|].
    intros j Hj. rewrite nth_map_lt with (da := 0) by exact Hj.
    specialize (E j Hj). rewrite nth_map_lt with (da := 0) in E by exact Hj. exact E.
Qed.

Lemma transpose_spec a perm b :
  wf a -> transpose a perm = Ok b ->
  wf b /\ buf b = buf a /\
  Permutation (map Z.to_nat perm) (seq 0 (length (shp a))) /\
  shp b = permute_index perm (shp a) /\
  (forall idx, valid idx (shp a) ->
     valid (permute_index perm idx) (shp b) /\ get b (permute_index perm idx) = get a idx) /\
  (forall jdx, valid jdx (shp b) -> exists idx, valid idx (shp a) /\ permute_index perm idx = jdx).
Proof.
  intros [W L] H. unfold transpose in H.
  destruct ((length perm =? length (shp a))%nat && nodupb perm) eqn:C; [|discriminate].
  destruct (forallb (in_rank (length (shp a))) perm) eqn:R; [|discriminate].
  injection H as <-. apply andb_true_iff in C as [C1 C2]. apply Nat.eqb_eq in C1. apply nodupb_NoDup in C2.
  pose proof (perm_of_nodup perm _ C1 C2 R) as P.
  assert (In_ok : forall p, In p perm -> (Z.to_nat p < length (shp a))%nat).
  { intros p Hp. apply (in_map Z.to_nat) in Hp. apply (Permutation_in _ P) in Hp. apply in_seq in Hp. lia. }
  cbn [shp buf]. split; [|split; [reflexivity|split; [exact P|split; [reflexivity|split]]]].
  - split; cbn [shp str].
    + apply Forall_forall. intros x Hx. apply in_map_iff in Hx as [p [<- Hp]].
      unfold shape_ok in W. rewrite Forall_forall in W. apply W. apply nth_In. now apply In_ok.
    + now rewrite !map_length.
  - intros idx V. split; [now apply valid_permute|]. unfold get, addr. cbn [buf off str].
    rewrite dot_permute with (n := length (shp a)); auto. now apply valid_length.
  - intros jdx V. now apply permute_surj.
Qed.

Lemma transpose_ok a perm :
  Permutation perm (map Z.of_nat (seq 0 (length (shp a)))) -> exists b, transpose a perm = Ok b.
Proof.
  intros P. unfold transpose.
  assert (L : length perm = length (shp a)).
  { apply Permutation_length in P. now rewrite map_length, seq_length in P. }
  assert (ND : NoDup perm).
  { apply (Permutation_NoDup (Permutation_sym P)). apply NoDup_map_in; [|apply seq_NoDup].
    intros x y _ _. lia. }
  rewrite L, Nat.eqb_refl. apply nodupb_NoDup in ND. rewrite ND. cbn [andb].
  assert (R : forallb (in_rank (length (shp a))) perm = true).
  { apply forallb_forall. intros x Hx. apply (Permutation_in _ P) in Hx. apply in_map_iff in Hx as [y [<- Hy]].
    apply in_seq in Hy. unfold in_rank. lia. }
  rewrite R. eauto.
Qed.

(* ---- reverse ---- *)
Lemma mirror_length shape dims idx : length (mirror shape dims idx) = length idx.
Proof. unfold mirror. now rewrite map_length, seq_length. Qed.
Lemma nth_mirror shape dims idx j : (j < length idx)%nat ->
  nthZ (mirror shape dims idx) j =
  if existsb (Z.eqb (Z.of_nat j)) dims then nthZ shape j - 1 - nthZ idx j else nthZ idx j.
Proof.
  intros H. unfold mirror, nthZ at 1. rewrite nth_map_lt with (da := 0%nat) by now rewrite seq_length.
  rewrite seq_nth by exact H. reflexivity.
Qed.
Lemma mirror_nil shape idx : mirror shape [] idx = idx.
Proof.
  apply list_eq_nth with 0; rewrite mirror_length; [reflexivity|]. intros j Hj.
  pose proof (nth_mirror shape [] idx j Hj) as E. exact E.
Qed.
Lemma mirror_cons shape d dims idx :
  0 <= d -> (Z.to_nat d < length idx)%nat -> ~ In d dims ->
  mirror shape (d :: dims) idx =
  upd (mirror shape dims idx) (Z.to_nat d) (nthZ shape (Z.to_nat d) - 1 - nthZ idx (Z.to_nat d)).
Proof.
  intros Hd Hl Hn. apply list_eq_nth with 0; rewrite ?upd_length, !mirror_length; [reflexivity|].
  intros j Hj. change (nth j ?l 0) with (nthZ l j). rewrite nth_mirror by exact Hj. cbn [existsb].
  destruct (Z.eqb_spec (Z.of_nat j) d) as [E|E].
  - cbn [orb]. assert (j = Z.to_nat d) by lia. subst j. unfold nthZ at 3.
    rewrite nth_upd_same by now rewrite mirror_length. reflexivity.
  - cbn [orb]. unfold nthZ at 4. rewrite nth_upd_other by lia.
    change (nth j ?l 0) with (nthZ l j). now rewrite nth_mirror.
Qed.

Lemma reverse_loop_spec shape st0 : forall dims st o st' o',
  length st0 = length shape -> length st = length shape -> NoDup dims ->
  (forall d, In d dims -> nthZ st (Z.to_nat d) = nthZ st0 (Z.to_nat d)) ->
  reverse_loop shape st0 st o dims = Ok (st', o') ->
  length st' = length shape /\
  Forall (fun d => 0 <= d < Z.of_nat (length shape)) dims /\
  (forall j, nthZ st' j = 0 <-> nthZ st j = 0) /\
  forall idx, length idx = length shape -> dot idx st' + o' = dot (mirror shape dims idx) st + o.
Proof.
  induction dims as [|d dims IH]; intros st o st' o' L0 L ND Heq H; cbn [reverse_loop] in H.
  - injection H as <- <-. split; [exact L|]. split; [constructor|]. split; [tauto|]. intros idx _. now rewrite mirror_nil.
  - destruct (Z.leb_spec (Z.of_nat (length shape)) d); [discriminate|].
    destruct (Z.ltb_spec d 0); [discriminate|].
    set (i := Z.to_nat d) in *. assert (Hi : (i < length shape)%nat) by lia.
    inversion ND as [|? ? N1 N2]; subst.
    apply IH in H; auto.
    + destruct H as (L' & F & Zr & D). split; [exact L'|]. split; [constructor; [lia|exact F]|]. split.
      { intros j. rewrite Zr. destruct (Nat.eq_dec j i) as [->|Nj].
        - unfold nthZ at 1. rewrite nth_upd_same by lia. lia.
        - unfold nthZ at 1. rewrite nth_upd_other by auto. reflexivity. }
      intros idx LI. rewrite D by exact LI. rewrite mirror_cons by (auto; lia). fold i.
      rewrite dot_upd_st by (rewrite ?mirror_length; lia).
      rewrite dot_upd_idx by (rewrite ?mirror_length; lia).
      rewrite nth_mirror by lia.
      assert (Ex : existsb (Z.eqb (Z.of_nat i)) dims = false).
      { destruct (existsb _ dims) eqn:E; [|reflexivity]. apply existsb_Zeqb_In in E.
        replace (Z.of_nat i) with d in E by lia. contradiction. }
      rewrite Ex. pose proof (Heq d (or_introl eq_refl)) as Q. fold i in Q. rewrite <- Q. lia.
    + rewrite upd_length. exact L.
    + intros d' Hd'. destruct (Nat.eq_dec (Z.to_nat d') i) as [E|E].
      * exfalso.
        (* equal positions force equal axes unless one is negative; axes of the tail
           are non-negative by the success of the loop *)
        assert (G : Forall (fun d => 0 <= d < Z.of_nat (length shape)) dims).
        { clear -H. revert H. generalize (upd st i (nthZ st i * -1)) as s1.
          generalize (o + nthZ st0 i * (nthZ shape i - 1)) as o1. clear.
          induction dims as [|d dims IH]; intros; constructor.
          - cbn [reverse_loop] in H. destruct (Z.leb_spec (Z.of_nat (length shape)) d); [discriminate|].
            destruct (Z.ltb_spec d 0); [discriminate|]. lia.
          - cbn [reverse_loop] in H. destruct (Z.leb_spec (Z.of_nat (length shape)) d); [discriminate|].
            destruct (Z.ltb_spec d 0); [discriminate|]. eapply IH. exact H. }
        rewrite Forall_forall in G. pose proof (G _ Hd'). assert (d' = d) by lia. subst. contradiction.
      * unfold nthZ at 1. rewrite nth_upd_other by auto. apply Heq. now right.
Qed.

Lemma reverse_ok a dims :
  Forall (fun d => 0 <= d < Z.of_nat (length (shp a))) dims -> exists b, reverse a dims = Ok b.
Proof.
  intros H. unfold reverse. enough (G : exists r, reverse_loop (shp a) (str a) (str a) 0 dims = Ok r).
  { destruct G as [[st o] ->]. cbn [rbind]. eauto. }
  revert H. generalize (str a) at 2 as st. generalize 0 at 2 as o.
  induction dims as [|d dims IH]; intros o st H; cbn [reverse_loop]; [eauto|].
  inversion H; subst. destruct (Z.leb_spec (Z.of_nat (length (shp a))) d); [lia|].
  destruct (Z.ltb_spec d 0); [lia|]. apply IH. assumption.
Qed.

Lemma mirror_valid s dims idx : valid idx s -> valid (mirror s dims idx) s.
Proof.
  intros V. pose proof (valid_length _ _ V) as L. apply valid_of_nth; [now rewrite mirror_length|].
  intros j Hj. rewrite nth_mirror by lia. pose proof (valid_nth _ _ j V Hj).
  destruct (existsb _ dims); lia.
Qed.

Lemma reverse_spec a dims b :
  wf a -> NoDup dims -> reverse a dims = Ok b ->
  wf b /\ shp b = shp a /\ buf b = buf a /\
  (forall j, nthZ (str b) j = 0 <-> nthZ (str a) j = 0) /\
  forall idx, valid idx (shp a) -> get b idx = get a (mirror (shp a) dims idx).
Proof.
  intros [W L] ND H. unfold reverse in H.
  destruct (reverse_loop (shp a) (str a) (str a) 0 dims) as [[st o]| |] eqn:E; cbn [rbind] in H; try discriminate.
  injection H as <-. apply reverse_loop_spec in E; auto. destruct E as (L' & _ & Zr & D).
  split; [split; auto|]. repeat split; auto; try (cbn [str]; apply Zr).
  intros idx V. unfold get, addr. cbn [buf off str]. f_equal.
  specialize (D idx (valid_length _ _ V)). lia.
Qed.

(* ---- broadcast ---- *)
Lemma nth_repeat0 n j : nthZ (repeat 0 n) j = 0.
Proof. unfold nthZ. destruct (nth_in_or_default j (repeat 0 n) 0) as [H|H]; [now apply repeat_spec in H|exact H]. Qed.
Lemma dot_repeat0 idx n : dot idx (repeat 0 n) = 0.
Proof. revert n; induction idx; destruct n; cbn [repeat dot]; auto. rewrite IHidx. lia. Qed.

Definition bsum (idx dims st : list Z) : Z := dot (map (fun t => nthZ idx (Z.to_nat t)) dims) st.

Lemma set_dims_spec idx : forall dims st ns ns',
  NoDup dims -> (forall d, In d dims -> 0 <= d < Z.of_nat (length ns) /\ nthZ ns (Z.to_nat d) = 0) ->
  length idx = length ns -> length dims = length st ->
  set_dims ns dims st = Ok ns' -> length ns' = length ns /\ dot idx ns' = dot idx ns + bsum idx dims st.
Proof.
  induction dims as [|d dims IH]; intros st ns ns' ND H LI LS E; destruct st as [|s st]; cbn [length] in LS; try lia;
    cbn [set_dims] in E.
  - injection E as <-. cbn. split; [reflexivity|lia].
  - inversion ND as [|? ? N1 N2]; subst. destruct (H d (or_introl eq_refl)) as [Hd Hz].
    apply IH in E; auto.
    + rewrite upd_length in E. destruct E as [E1 E2]. split; [exact E1|].
      rewrite E2. rewrite dot_upd_st by lia. rewrite Hz.
      cbn [bsum map dot]. unfold bsum. cbn [map dot]. lia.
    + intros d' Hd'. destruct (H d' (or_intror Hd')) as [A B]. rewrite upd_length. split; [exact A|].
      unfold nthZ at 1. rewrite nth_upd_other; [exact B|]. intros C. apply N1. replace d with d' by lia. exact Hd'.
    + now rewrite upd_length.
Qed.
Lemma set_dims_ok dims : forall st ns, (length dims <= length st)%nat -> exists ns', set_dims ns dims st = Ok ns'.
Proof.
  induction dims as [|d dims IH]; intros st ns L; cbn [set_dims]; [eauto|].
  destruct st; cbn [length] in L; [lia|]. apply IH. lia.
Qed.

Lemma bsum_src shape dims st idx :
  Forall2 (fun d s => d = 1 -> s = 0) shape st -> length dims = length shape ->
  bsum idx dims st = dot (bcast_src shape dims idx) st.
Proof.
  intros H. revert dims. induction H as [|d s shape st Hd H IH]; intros dims L; destruct dims as [|t dims];
    cbn [length] in L; try lia; [reflexivity|].
  unfold bsum, bcast_src in *. cbn [map zipWith dot]. rewrite IH by lia.
  destruct (Z.eqb_spec d 1) as [E|E]; [|reflexivity]. rewrite (Hd E). lia.
Qed.

Lemma bcast_src_valid shape dims idx to_shape :
  bcast_ok shape dims to_shape -> valid idx to_shape -> pos shape \/ True ->
  valid (bcast_src shape dims idx) shape.
Proof.
  intros (L & ND & F) V _. clear ND. revert L. unfold bcast_src.
  induction F as [|d t shape dims [Ht Hd] F IH]; intros L; cbn [zipWith]; constructor.
  - assert (Hv : 0 <= nthZ idx (Z.to_nat t) < nthZ to_shape (Z.to_nat t)) by (apply valid_nth; auto; lia).
    destruct (Z.eqb_spec d 1); [lia|]. destruct Hd; lia.
  - apply IH. cbn [length] in L. lia.
Qed.

Lemma broadcast_spec a to_shape dims b :
  wf a -> shape_ok to_shape -> unit_zero a -> bcast_ok (shp a) dims to_shape ->
  broadcast_to a to_shape dims = Ok b ->
  wf b /\ shp b = to_shape /\ buf b = buf a /\
  forall idx, valid idx to_shape -> get b idx = get a (bcast_src (shp a) dims idx).
Proof.
  intros [W L] TO U (LD & ND & F) H. unfold broadcast_to in H.
  destruct (forallb _ dims) eqn:FB; [|discriminate].
  destruct dims as [|d0 dims0].
  - destruct (shp a) eqn:SA; [|discriminate LD]. rewrite L in H. cbn [length] in H.
    destruct (str a) eqn:ST; [|discriminate L]. cbn [Nat.leb rbind] in H.
    injection H as <-. rewrite Nat.sub_0_r, app_nil_r.
    replace (firstn (length to_shape) (repeat 0 (length to_shape))) with (repeat 0 (length to_shape)).
    2:{ rewrite firstn_all2; [reflexivity|]. rewrite repeat_length. lia. }
    cbn [shp buf]. split; [split; auto; cbn [shp str]; now rewrite repeat_length|].
    repeat split. intros idx V. unfold get, addr, bcast_src. cbn [buf off str zipWith].
    rewrite dot_repeat0, ST. reflexivity.
  - cbv beta iota in H. remember (d0 :: dims0) as dims.
    destruct (set_dims (repeat 0 (length to_shape)) dims (str a)) as [ns| |] eqn:E; cbn [rbind] in H; try discriminate.
    injection H as <-.
    assert (HD : forall d, In d dims -> 0 <= d < Z.of_nat (length (repeat 0 (length to_shape))) /\
                                        nthZ (repeat 0 (length to_shape)) (Z.to_nat d) = 0).
    { intros d Hd. rewrite repeat_length, nth_repeat0. split; [|reflexivity].
      rewrite forallb_forall in FB. specialize (FB _ Hd). lia. }
    assert (S : forall idx, length idx = length to_shape ->
               length ns = length to_shape /\ dot idx ns = bsum idx dims (str a)).
    { intros idx LI. destruct (set_dims_spec idx dims (str a) (repeat 0 (length to_shape)) ns) as [A B]; auto.
      - now rewrite repeat_length.
      - lia.
      - rewrite repeat_length in A. rewrite dot_repeat0 in B. split; [exact A|lia]. }
    cbn [shp buf]. split.
    + split; cbn [shp str]; [exact TO|]. apply (S (repeat 0 (length to_shape))). now rewrite repeat_length.
    + repeat split. intros idx V. unfold get, addr. cbn [buf off str]. f_equal.
      destruct (S idx (valid_length _ _ V)) as [_ ->]. f_equal. now apply bsum_src.
Qed.

Lemma broadcast_ok a to_shape dims :
  wf a -> bcast_ok (shp a) dims to_shape -> exists b, broadcast_to a to_shape dims = Ok b.
Proof.
  intros [W L] (LD & ND & F). unfold broadcast_to.
  assert (FB : forallb (fun d => (d <? Z.of_nat (length to_shape)) && (0 <=? d)) dims = true).
  { apply forallb_forall. intros t Ht. clear -F Ht. induction F as [|? ? ? ? [H _] F IH]; [destruct Ht|].
    destruct Ht as [<-|Ht]; [lia|auto]. }
  rewrite FB. destruct dims as [|d dims].
  - destruct (shp a); [|discriminate LD]. destruct (str a); [|discriminate L]. cbn. eauto.
  - cbv beta iota. destruct (set_dims_ok (d :: dims) (str a) (repeat 0 (length to_shape))) as [ns Hns]; [lia|].
    rewrite Hns. cbn [rbind]. eauto.
Qed.
