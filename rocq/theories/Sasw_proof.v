(* The scatter itself: the parts of all window positions, combined. *)
From Coq Require Import ZifyNat ZifyBool Permutation.
From Verif Require Import Base Ring_model Perm_model Scan_model Scan_proof Fold Dyn_spec Dynw_proof Mm_model Mm_spec Mm_proof Mmt_proof Redn_model Redn_spec Redn_proof Rednw_proof Sas_model Sas_spec Sas_proof.
Open Scope nat_scope.

Lemma same_shape_refl a : same_shape a a = true.
Proof. unfold same_shape. destruct (list_eq_dec Nat.eq_dec a a); congruence. Qed.
Lemma same_shape_true a b : same_shape a b = true -> a = b.
Proof. unfold same_shape. destruct (list_eq_dec Nat.eq_dec a b); congruence. Qed.
Lemma index_of_inside sh p : p < numel sh -> inside sh (index_of sh p).
Proof. intros H. now apply inside_index. Qed.
Lemma flat_index_of sh p : p < numel sh -> flat sh (index_of sh p) = p.
Proof. intros H. now apply inside_index. Qed.
Lemma strides_back S : (forall a, a < length S -> 0 < nth a S 0) -> map (fun n => n + 1) (map (fun s => s - 1) S) = S.
Proof.
  intros P. rewrite map_map. transitivity (map (fun s : nat => s) S); [|apply map_id]. apply map_ext_in. intros s I. apply (In_nth _ _ 0) in I. destruct I as (a & Ha & <-). specialize (P a Ha). lia.
Qed.
Lemma rest_nth : forall W wi a, length wi = length W -> a < length W -> nth a (zipWith (fun w i => w - i - 1) W wi) 0 = nth a W 0 - nth a wi 0 - 1.
Proof. intros W wi a L H. now rewrite zip_nth by lia. Qed.

Section Scatter.
Context {A : Type}.
Variables (f : A -> A -> A) (e : A).
Hypothesis assoc : forall a b c, f a (f b c) = f (f a b) c.
Hypothesis comm : forall a b, f a b = f b a.
Hypothesis unit : forall a, f e a = a.

(* the shape of one part does not depend on the position of the window *)
Lemma spread_ok B N W S (src : nat -> A) hot widx : tiles B N W S -> widx < numel W ->
  exists b, spread e (N, src) hot e B W S widx = Ok b /\
    forall c, inside B c -> snd b (flat B c) =
      total f e (map (fun n => if hot (flat N n * numel W + widx) && same (cell S n (index_of W widx)) c then src (flat N n) else e) (indices N)).
Proof using assoc comm unit.
  intros (LN & LW & LS & T) HW. unfold spread. cbn [fst snd]. set (wi := index_of W widx).
  assert (Iw : inside W wi) by (apply index_of_inside; exact HW). pose proof (inside_len _ _ Iw) as Lwi.
  assert (SP : forall a, a < length S -> 0 < nth a S 0) by (intros a Ha; apply (T a); lia).
  set (sel := fun n => if hot (n * total_size W + widx) then src n else e).
  destruct (padding_exists N wi S sel e) as (b & PB); [lia|lia|apply Forall_forall; intros s I; apply (In_nth _ _ 0) in I; destruct I as (a & Ha & <-); apply SP; exact Ha|].
  assert (PB' : is_padding N wi (map (fun n => n + 1) (map (fun s => s - 1) S)) sel e b) by (rewrite strides_back by exact SP; exact PB).
  destruct (padded_ok N sel e wi (zipWith (fun w i => w - i - 1) W wi) (map (fun s => s - 1) S) b) as (v & P & E & [F RD] & LP & NP); [lia|rewrite zip_len; lia|rewrite map_length; lia|exact PB'|].
  rewrite E. cbn [rbind].
  assert (PE : P = B).
  { apply (nth_ext _ _ 0 0); [lia|]. intros a Ha. rewrite NP by lia. rewrite rest_nth by lia. rewrite (nth_map_in (fun s => s - 1) S a 0) by lia. destruct (T a ltac:(lia)) as (N0 & W0 & S0 & ->).
    pose proof (nth_inside W wi a Iw ltac:(lia)) as LT. destruct (nth a N 0) as [|n]; [lia|]. destruct (nth a S 0) as [|s]; [lia|]. cbn [Nat.sub]. rewrite !Nat.sub_0_r. nia. }
  rewrite PE in F, RD. rewrite F, same_shape_refl. exists v. split; [reflexivity|]. intros c Ic. rewrite RD by exact Ic. destruct PB as [B1 B2].
  destruct (in_dec (list_eq_dec Nat.eq_dec) c (map (fun n => cell S n wi) (indices N))) as [I|I].
  - apply in_map_iff in I. destruct I as (n0 & <- & I0). pose proof (proj1 (in_indices _ _) I0) as In0. pose proof (inside_len _ _ In0) as L0.
    rewrite <- cell_pad by lia. rewrite B1 by exact In0. unfold sel. change (total_size W) with (numel W).
    rewrite (total_one f e assoc comm unit _ (indices N) n0); [|apply nodup_indices|exact I0|].
    + rewrite (proj2 (same_true (cell S n0 wi) _)) by (symmetry; apply cell_pad; lia). now rewrite andb_true_r.
    + intros n IN NE. apply in_indices in IN. pose proof (inside_len _ _ IN) as Ln. destruct (same (cell S n wi) _) eqn:SM; [|now rewrite andb_false_r]. exfalso. apply NE. apply same_true in SM.
      rewrite cell_pad in SM by lia. apply (cell_inj S n n0 wi); auto; lia.
  - rewrite B2; [|intros j IJ Q; apply I, in_map_iff; exists j; pose proof (inside_len _ _ IJ) as LJ; split; [rewrite <- Q; symmetry; apply cell_pad; lia|now apply in_indices]].
    symmetry. apply total_zero; auto. intros n IN. destruct (same (cell S n wi) c) eqn:SM; [|now rewrite andb_false_r]. exfalso. apply I, in_map_iff. exists n. split; [now apply same_true|exact IN].
Qed.

Theorem scatter_window_ok B N W S (src : nat -> A) hot : tiles B N W S ->
  exists z, scatter_window e f (N, src) (N ++ [numel W]) hot e B W S = Ok (B, z) /\
    is_scattered f e B N W S src (fun n w => hot (flat N n * numel W + flat W w)) z.
Proof using assoc comm unit.
  intros T. pose proof T as (LN & LW & LS & T'). unfold scatter_window. cbn [fst]. change (total_size W) with (numel W).
  assert (WP : 0 < numel W) by (apply nth_numel; intros a Ha; apply (T' a); lia).
  rewrite (proj2 (Nat.eqb_eq (length N) (length W))), (proj2 (Nat.eqb_eq (length N) (length S))) by lia. cbn [negb orb]. rewrite same_shape_refl. cbn [negb].
  set (Q := fun (widx : nat) (b : arr A) => forall c, inside B c -> snd b (flat B c) =
      total f e (map (fun n => if hot (flat N n * numel W + widx) && same (cell S n (index_of W widx)) c then src (flat N n) else e) (indices N))).
  destruct (rmap_parts (spread e (N, src) hot e B W S) Q (seq 0 (numel W))) as (parts & E & LP & HP).
  { intros x I. apply in_seq in I. apply spread_ok; [exact T|lia]. }
  rewrite E. cbn [rbind]. rewrite seq_length in LP.
  set (col := fun p => map (fun part : arr A => snd part p) parts).
  assert (NE : forall p, col p <> []) by (intros p C; unfold col in C; apply map_eq_nil in C; rewrite C in LP; cbn in LP; lia).
  destruct parts as [|q0 parts']; [cbn in LP; lia|]. set (parts := q0 :: parts') in *.
  assert (RM : exists l, rmap (fun p => reduce_row f true e (col p)) (seq 0 (total_size B)) = Ok l /\ length l = numel B /\ forall p d, p < numel B -> nth p l d = total f e (col p)).
  { change (total_size B) with (numel B). clear - NE assoc comm unit. 
    assert (G : forall l0, exists l, rmap (fun p => reduce_row f true e (col p)) l0 = Ok l /\ length l = length l0 /\ forall j d, j < length l0 -> nth j l d = total f e (col (nth j l0 0))).
    { induction l0 as [|p l0 (l & E & L & H)]; [exists []; repeat split; cbn; intros; lia|]. destruct (row_ok f assoc comm true e (col p) (NE p)) as (v & EV & FV). exists (v :: l). cbn [rmap]. rewrite EV, E. cbn [rbind].
      split; [reflexivity|]. split; [cbn; lia|]. intros [|j] d J; cbn [nth]; [symmetry; now apply (total_fold1 f e assoc comm unit)|]. apply H. cbn in J. lia. }
    destruct (G (seq 0 (numel B))) as (l & E & L & H). rewrite seq_length in *. exists l. split; [exact E|]. split; [exact L|]. intros p d Hp. rewrite H by exact Hp. now rewrite seq_nth. }
  destruct RM as (l & EL & LL & HL). match goal with |- context [rmap ?g ?l0] => change (rmap g l0) with (rmap (fun p => reduce_row f true e (col p)) (seq 0 (total_size B))) end. rewrite EL. cbn [rbind]. unfold from_list. eexists. split; [reflexivity|].
  intros c Ic. cbv beta. rewrite HL by (now apply flat_lt). unfold col.
  rewrite total_filter by assumption. rewrite total_prod by assumption.
  transitivity (total f e (map (fun x => total f e (map (fun n => if hot (flat N n * numel W + x) && same (cell S n (index_of W x)) c then src (flat N n) else e) (indices N))) (seq 0 (numel W)))).
  - f_equal. apply (nth_ext _ _ e e); [rewrite !map_length, seq_length; exact LP|]. intros j Hj. rewrite map_length, LP in Hj.
    rewrite (nth_map_in (fun part : arr A => snd part (flat B c)) parts j (B, fun _ => e)) by lia. rewrite (nth_map_in _ (seq 0 (numel W)) j 0) by (rewrite seq_length; lia).
    apply HP; [rewrite seq_length; lia|exact Ic].
  - rewrite total_swap by assumption. f_equal. apply map_ext_in. intros n IN. f_equal. rewrite (indices_index W), map_map. apply map_ext_in. intros x Ix. apply in_seq in Ix.
    cbn [fst snd]. rewrite flat_index_of by (change (total_size W) with (numel W) in *; lia). reflexivity.
Qed.

(* a base of any other shape is refused *)
Theorem scatter_window_shape B N W S (src : nat -> A) hs hot (zero init : A) z : (forall a, a < length W -> 0 < nth a N 0 /\ 0 < nth a W 0 /\ 0 < nth a S 0) ->
  scatter_window zero f (N, src) hs hot init B W S = Ok z -> tiles B N W S.
Proof.
  clear assoc comm unit e. intros P E. unfold scatter_window in E. cbn [fst] in E. change (total_size W) with (numel W) in E.
  destruct (Nat.eqb_spec (length N) (length W)) as [LW|]; [|discriminate E]. destruct (Nat.eqb_spec (length N) (length S)) as [LS|]; [|discriminate E]. cbn [negb orb] in E.
  destruct (same_shape hs (N ++ [numel W])); [|discriminate E]. cbn [negb] in E.
  assert (WP : 0 < numel W) by (apply nth_numel; intros a Ha; apply (P a); lia).
  destruct (numel W) as [|k] eqn:NW; [lia|]. cbn [seq rmap] in E. destruct (spread zero (N, src) hot init B W S 0) as [b| |] eqn:SPR; cbn [rbind] in E; try discriminate E. clear E.
  unfold spread in SPR. cbn [fst] in SPR. set (wi := index_of W 0) in *. assert (Iw : inside W wi) by (apply index_of_inside; change (0 < numel W); lia). pose proof (inside_len _ _ Iw) as Lwi.
  assert (SP : forall a, a < length S -> 0 < nth a S 0) by (intros a Ha; apply (P a); lia).
  match type of SPR with context [padded (N, ?g) _ _ _ _] => set (sel := g) in * end.
  destruct (padding_exists N wi S sel init) as (b' & PB); [lia|lia|apply Forall_forall; intros s I; apply (In_nth _ _ 0) in I; destruct I as (a & Ha & <-); apply SP; exact Ha|].
  assert (PB' : is_padding N wi (map (fun n => n + 1) (map (fun s => s - 1) S)) sel init b') by (rewrite strides_back by exact SP; exact PB).
  destruct (padded_ok N sel init wi (zipWith (fun w i => w - i - 1) W wi) (map (fun s => s - 1) S) b') as (v & Q & EP & [F RD] & LP & NP); [lia|rewrite zip_len; lia|rewrite map_length; lia|exact PB'|].
  rewrite EP in SPR. cbn [rbind] in SPR. destruct (same_shape (fst v) B) eqn:SM; [|discriminate SPR]. apply same_shape_true in SM. rewrite F in SM. rewrite SM in LP, NP.
  split; [lia|]. split; [lia|]. split; [lia|]. intros a Ha. destruct (P a ltac:(lia)) as (N0 & W0 & S0). split; [exact N0|]. split; [exact W0|]. split; [exact S0|].
  rewrite NP by lia. rewrite rest_nth by lia. rewrite (nth_map_in (fun s => s - 1) S a 0) by lia.
  pose proof (nth_inside W wi a Iw ltac:(lia)) as LT. destruct (nth a N 0) as [|n]; [lia|]. destruct (nth a S 0) as [|s]; [lia|]. cbn [Nat.sub]. rewrite !Nat.sub_0_r. nia.
Qed.
End Scatter.
