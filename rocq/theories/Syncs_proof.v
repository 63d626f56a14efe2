(* semi2k shares can be sent and recombine to the variable. *)
From Verif Require Import Ty_model Ty_proof Base Nd_model Nd_spec Nd_proof Ndr_proof Val_model Val_spec Ring_spec Ring_model Ring_proof Party Semi_proof Sync_model Sync_spec Sync_proof.
From Verif Require Semi_model.
Open Scope list_scope.
Open Scope Z_scope.

Section Semi.
Variable f : field.
Hypothesis FI : f <> FT_INVALID.
Variable n : nat.
Hypothesis N0 : (0 < n)%nat.
Variable ps : list proto.
Hypothesis PS : In PSemi ps.
Notation k := (fbits f).
Lemma kf : fsize f = Ok (k / 8) /\ 256 ^ (k / 8) = 2 ^ k /\ 32 <= k <= 128 /\ k / 8 <= 16.
Proof. destruct f; [contradiction|..]; cbn; repeat split; lia. Qed.
Lemma share_word h p i : good_hvar f n h -> (i < length (hwords h))%nat -> (p < n)%nat -> word k (helem f n h p i).
Proof.
  intros (_ & _ & W & _ & _ & _ & R) I P. pose proof kf as (_ & _ & KP & _). rewrite Forall_forall in W. assert (WX : word k (nth i (hwords h) 0)) by (apply W, nth_In; exact I).
  unfold helem. destruct (hvis h) as [|o|]; cbn [Semi_model.to_shares].
  - assert (E : nth p (repeat (nth i (hwords h) 0) n) 0 = nth i (hwords h) 0) by (apply (repeat_spec n), nth_In; now rewrite repeat_length). now rewrite E.
  - set (g := fun i0 : nat => _). rewrite (nth_indep _ 0 (g 0%nat)) by (now rewrite map_length, seq_length). rewrite map_nth, seq_nth by exact P. unfold g. destruct (_ =? _)%nat; [exact WX|apply word_0; lia].
  - unfold additive_splits. destruct (R i) as [LR FR]. destruct p as [|p]; cbn [nth].
    + revert FR. generalize (nth i (hwords h) 0), WX. clear - KP. induction (hrand h i) as [|r l IH]; intros x Wx FR; [exact Wx|]. cbn. apply IH; [|now inversion FR].
      unfold rsub. apply wrap_is_mod. lia.
    + rewrite Forall_forall in FR. apply FR. apply nth_In. lia.
Qed.
Lemma semi_portable h i s : good_hvar f n h -> exists vs, semi_make f n i s h = Ok vs /\ length vs = n /\ Forall (portable ps) vs.
Proof.
  intros G. pose proof G as (SO & LW & W & DT & SZ & PO & R). pose proof kf as (KF & KP & KB & K16). eexists. split; [reflexivity|]. split; [now rewrite map_length, seq_length|].
  apply Forall_forall. intros v IV. apply in_map_iff in IV. destruct IV as (p & <- & IP). apply in_seq in IP.
  exists (match hvis h with Semi_model.VPublic => MField CPub f | Semi_model.VPrivate o => MPriv f (Z.of_nat o) | Semi_model.VSecret => MField SemiA f end), (k / 8). cbn [vty vdata vimag vdt].
  assert (GA : good_array (k / 8) (compact (map (helem f n h p) (seq 0 (length (hwords h)))) (hshape h))).
  { split; [now apply compact_wf|]. cbn [shp compact]. intros idx V. pose proof (rowmajor_range _ _ V) as RR.
    rewrite get_compact by (rewrite ?map_length, ?seq_length; assumption). eexists. split; [reflexivity|]. rewrite KP. unfold nthZ.
    rewrite (nth_indep _ 0 (helem f n h p 0)) by (rewrite map_length, seq_length; lia). rewrite map_nth, seq_nth by lia. apply share_word; [exact G|lia|lia]. }
  assert (OB : forall o, hvis h = Semi_model.VPrivate o -> - 2 ^ 63 <= Z.of_nat o < 2 ^ 63) by (intros o E; specialize (PO o E); lia).
  split; [destruct (hvis h); try exact I; apply OB; reflexivity|].
  split; [destruct (hvis h); reflexivity|]. split; [destruct (hvis h), f; try contradiction; reflexivity|].
  split; [right; exists PSemi; split; [exact PS|]; destruct (hvis h); cbn; auto 10|].
  split; [destruct (hvis h); discriminate|]. split; [destruct (hvis h); discriminate|]. split; [destruct (hvis h); reflexivity|]. split; [exact DT|].
  split; [destruct (hvis h); discriminate|]. split; [exact GA|]. split; [exact I|]. cbn [shp compact]. nia.
Qed.
Definition elem_of (h : hvar) (p : nat) (idx : list Z) : Z := helem f n h p (Z.to_nat (rowmajor idx (hshape h))).
Lemma semi_recombines h : good_hvar f n h -> recombines f n h (elem_of h).
Proof.
  intros (SO & LW & W & DT & SZ & PO & R) idx V. pose proof (rowmajor_range _ _ V) as RR. pose proof kf as (_ & _ & KB & _). set (i := Z.to_nat _). destruct (R i) as [LR FR].
  assert (WX : word k (nth i (hwords h) 0)) by (rewrite Forall_forall in W; apply W, nth_In; unfold i; lia).
  destruct (from_to_shares k n (hvis h) (nth i (hwords h) 0) (hrand h i)) as [E L]; [lia|exact N0|exact WX|exact LR|exact FR|intros o EO; now apply (PO o)|].
  etransitivity; [|exact E]. f_equal. unfold elem_of, helem. fold i. set (l := Semi_model.to_shares _ _ _ _ _) in *. rewrite <- L. apply seq_nth_map.
Qed.
Lemma semi_holds h i s vs p x v' : good_hvar f n h -> semi_make f n i s h = Ok vs -> (p < n)%nat -> nth_error vs p = Some x -> same_value x v' -> holds_share f n p h v' (elem_of h).
Proof.
  intros G EM P EX SV. pose proof G as (SO & LW & _). injection EM as <-. rewrite nth_error_map, (nth_error_nth' _ 0%nat) in EX by (now rewrite seq_length). rewrite seq_nth in EX by exact P.
  injection EX as <-. destruct SV as (_ & DT & (SH & GT) & _). cbn [vdt vdata shp compact] in *. split; [exact SH|]. split; [exact DT|]. intros idx V. rewrite GT by exact V.
  pose proof (rowmajor_range _ _ V) as RR. rewrite get_compact by (rewrite ?map_length, ?seq_length; assumption). f_equal. unfold nthZ.
  rewrite (nth_indep _ 0 (helem f n h p 0)) by (rewrite map_length, seq_length; lia). rewrite map_nth, seq_nth by lia. reflexivity.
Qed.
End Semi.

Lemma same_names (V : Type) n make send_order set_order ps junk (st : nat -> pstate V) :
  any_order send_order -> any_order set_order -> (forall i, (i < n)%nat -> keys_once (unsynced V (st i))) -> shareable n make ps st -> disjoint n st ->
  forall p q, (p < n)%nat -> (q < n)%nat -> (forall s, look (symbols V (st p)) s = None <-> look (symbols V (st q)) s = None) ->
  exists a b, sync V n make send_order set_order ps junk st p = Ok (mkP V a [], []) /\ sync V n make send_order set_order ps junk st q = Ok (mkP V b [], []) /\
    forall s, look a s = None <-> look b s = None.
Proof.
  intros SO TO KO SH D p q P Q SAME.
  destruct (sync_ok V n make send_order set_order SO TO ps junk st KO SH p P D) as (a & EA & A1 & A2).
  destruct (sync_ok V n make send_order set_order SO TO ps junk st KO SH q Q D) as (b & EB & B1 & B2). exists a, b. split; [exact EA|]. split; [exact EB|]. intros s.
  destruct (in_dec String.string_dec s (flat_map (fun i => map fst (unsynced V (st i))) (seq 0 n))) as [I|I].
  - apply in_flat_map in I. destruct I as (i & II & I). apply in_seq in II. apply in_map_iff in I. destruct I as ([s' v] & E & I). cbn in E. subst s'. assert (Hi : (i < n)%nat) by lia.
    destruct (SH i s v Hi I) as (vs & EM & _). destruct (A2 i s v vs Hi I EM) as (? & ? & _ & -> & _). destruct (B2 i s v vs Hi I EM) as (? & ? & _ & -> & _). split; discriminate.
  - assert (NI : forall i, (i < n)%nat -> ~ In s (map fst (unsynced V (st i)))) by (intros i Hi J; apply I, in_flat_map; exists i; split; [apply in_seq; lia|exact J]).
    rewrite A1, B1 by exact NI. apply SAME.
Qed.
Lemma pick {A} (d : A) (n : nat) (P : nat -> A -> Prop) : (forall p, (p < n)%nat -> exists a, P p a) -> exists g, forall p, (p < n)%nat -> P p (g p).
Proof.
  induction n as [|n IH]; intros H; [exists (fun _ => d); intros; lia|]. destruct IH as [g G]; [intros p Hp; apply H; lia|]. destruct (H n) as [a HA]; [lia|].
  exists (fun p => if (p =? n)%nat then a else g p). intros p Hp. destruct (Nat.eqb_spec p n); [now subst|]. apply G. lia.
Qed.
Lemma semi_sync f n send_order set_order ps junk (st : nat -> pstate hvar) :
  f <> FT_INVALID -> In PSemi ps -> any_order send_order -> any_order set_order -> (forall i, (i < n)%nat -> keys_once (unsynced hvar (st i))) ->
  (forall i s h, (i < n)%nat -> In (s, h) (unsynced hvar (st i)) -> good_hvar f n h) -> disjoint n st ->
  exists sym : nat -> smap value,
    (forall p, (p < n)%nat -> sync hvar n (semi_make f n) send_order set_order ps junk st p = Ok (mkP hvar (sym p) [], [])) /\
    forall i s h, (i < n)%nat -> In (s, h) (unsynced hvar (st i)) -> exists e, recombines f n h e /\
      forall p, (p < n)%nat -> exists v, look (sym p) s = Some v /\ holds_share f n p h v e.
Proof.
  intros FI PS SO TO KO GH D.
  assert (SH : shareable n (semi_make f n) ps st).
  { intros i s h Hi I. apply semi_portable; auto; [lia|]. now apply (GH i s). }
  destruct (pick (@nil (string * value)) n (fun p sym => sync hvar n (semi_make f n) send_order set_order ps junk st p = Ok (mkP hvar sym [], []) /\
    forall i s v vs, (i < n)%nat -> In (s, v) (unsynced hvar (st i)) -> semi_make f n i s v = Ok vs ->
       exists x v', nth_error vs p = Some x /\ look sym s = Some v' /\ same_value x v')) as [sym G].
  { intros p P. destruct (sync_ok hvar n (semi_make f n) send_order set_order SO TO ps junk st KO SH p P D) as (a & EA & _ & A2). exists a. now split. }
  exists sym. split; [intros p P; now apply G|]. intros i s h Hi I. assert (GG := GH i s h Hi I). exists (elem_of f n h). split; [apply semi_recombines; auto; lia|].
  intros p P. destruct (G p P) as [_ A]. destruct (SH i s h Hi I) as (vs & EM & _). destruct (A i s h vs Hi I EM) as (x & v' & EX & EL & SV). exists v'. split; [exact EL|].
  eapply semi_holds; eauto. lia.
Qed.
