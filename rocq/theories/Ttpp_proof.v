From Verif Require Import Base Prg_model Ring_model Ring_spec Ring_proof Share_spec Party Semi_model Semi_proof Beaver_model Beaver_spec Beaver_proof Ttp_model Ttp_spec Ttp_proof Ttps_proof Ttpp_model Ttpp_spec.
Open Scope Z_scope.

(* ---- shifted operands ---- *)
Section Shift.
Variable prg : Z -> Z -> Z -> nat -> Z.
Hypothesis ST : stream prg.
Definition shifted (m : nat) (o o' : operand) : Prop :=
  o_seeds o' = o_seeds o /\ o_field o' = o_field o /\ o_tr o' = o_tr o /\ forall s i, replay prg s o' i = replay prg s o (m + i)%nat.
Lemma reduce_shift op m o o' i : shifted m o o' -> reduce prg op o' i = reduce prg op o (m + i)%nat.
Proof.
  intros (S1 & _ & _ & R). unfold reduce. rewrite S1. destruct (o_seeds o) as [|s0 ss]; [reflexivity|]. rewrite R. generalize (replay prg s0 o (m + i)). clear S1.
  induction ss as [|s ss IH]; intros a; [reflexivity|]. cbn [fold_left]. rewrite R. apply IH.
Qed.
Definition okw (k : Z) : Prop := k = 32 \/ k = 64 \/ k = 128.
Lemma okw_size k : okw k -> exists e, word_size k = e /\ (e = 4 \/ e = 8 \/ e = 16)%nat /\ k / 8 = Z.of_nat e /\ 2 ^ k = 256 ^ Z.of_nat e.
Proof. intros [ ->|[ ->| ->]]; [exists 4%nat|exists 8%nat|exists 16%nat]; repeat split; auto. Qed.
Lemma blocks_exact k m : okw k -> ((m * word_size k) mod 16 = 0)%nat -> blocks k (Z.of_nat m) = Z.of_nat (m * word_size k / 16).
Proof.
  intros K H. destruct (okw_size k K) as (e & E & _ & K8 & _). rewrite E in *. unfold blocks. rewrite K8. apply Nat.mod_divides in H; [|lia]. destruct H as (q & H). rewrite H. rewrite (Nat.mul_comm 16 q), Nat.div_mul by lia.
  rewrite <- Nat2Z.inj_mul, H. symmetry. apply Z.div_unique with (r := 15); lia.
Qed.
Lemma shifted_0 o : shifted 0 o o.
Proof. repeat split. Qed.
Lemma shifted_advance k off m o o' : okw k -> o_field o = k -> shifted off o o' -> ((m * word_size k) mod 16 = 0)%nat -> shifted (off + m) o (advance m o').
Proof.
  intros K F (S1 & S2 & S3 & R) H. unfold advance. repeat split; auto. intros s i. unfold replay in *. cbn [o_field o_ctr]. rewrite S2, F in *. rewrite blocks_exact by auto.
  destruct ST as [_ S]. unfold word_size in *. rewrite (S k s (o_ctr o') m i K H), R. f_equal. lia.
Qed.
End Shift.

Lemma array_bytes_length k n f : length (array_bytes k n f) = (n * word_size k)%nat.
Proof. unfold array_bytes. rewrite <- (map_map f (le_bytes (word_size k))), words_length, map_length, seq_length. reflexivity. Qed.
Lemma array_bytes_app k n m f : array_bytes k (n + m) f = array_bytes k n f ++ array_bytes k m (fun i => f (n + i)%nat).
Proof.
  unfold array_bytes. rewrite seq_app, map_app, concat_app. f_equal. f_equal. cbn [Nat.add]. 
  rewrite <- (Nat.add_0_r n) at 1. generalize 0%nat. induction m as [|m IH]; intros x; [reflexivity|]. cbn [seq map]. f_equal. rewrite <- Nat.add_succ_r. apply IH.
Qed.
Lemma array_bytes_ext k n f g : (forall i, (i < n)%nat -> f i = g i) -> array_bytes k n f = array_bytes k n g.
Proof. intros H. unfold array_bytes. f_equal. apply map_ext_in. intros i I. apply in_seq in I. rewrite H by lia. reflexivity. Qed.
Lemma array_words k n f : okw k -> (forall i, word k (f i)) -> as_words (word_size k) (array_bytes k n f) = Ok (map f (seq 0 n)).
Proof.
  intros K W. destruct (okw_size k K) as (e & E & EC & _ & PW). unfold array_bytes. rewrite <- (map_map f (le_bytes (word_size k))). apply as_words_ok; [lia|]. rewrite Forall_forall. intros x IN. apply in_map_iff in IN. destruct IN as (i & <- & _).
  specialize (W i). unfold word in W. rewrite E, <- PW. exact W.
Qed.

(* ---- the replies ---- *)
Section Reply.
Variable prg : Z -> Z -> Z -> nat -> Z.
Hypothesis STR : stream prg.
Variables (C : nat) (err : bytes).
Variables (k : Z) (K : okw k).
Hypothesis C16 : ((C / word_size k * word_size k) mod 16 = 0)%nat.
Hypothesis C0 : (0 < word_size k <= C)%nat.
Hypothesis C1 : Z.of_nat C < 2 ^ 64.
Variables (net : bytes -> list bytes * bool) (junk : nat -> nat -> Z).
Hypothesis NET : lossless net.
Variable arrs : list operand -> nat -> res (list (nat -> Z)).

Lemma size_pos : (0 < word_size k)%nat. Proof. clear - C0. lia. Qed.
(* what is asked of a request with one array *)
Record single (ops : list operand) (g : nat -> Z) : Prop := {
  s_one : forall ops d, match arrs ops d with Ok l => exists g, l = [g] | Err => True | Ub => False end;
  s_field : Forall (fun o => o_field o = k) ops;
  s_shift : forall m ops', Forall2 (shifted prg m) ops ops' -> exists g', arrs ops' m = Ok [g'] /\ forall i, g' i = g (m + i)%nat;
  s_word : forall i, word k (g i) }.

Lemma single_produces ops g : single ops g -> forall left off ops', Forall2 (shifted prg off) ops ops' ->
  exists As, produces (adjust_impl k arrs) (C / word_size k) left (ops', off) (map (fun a => [a]) As) /\ concat As = array_bytes k left (fun i => g (off + i)%nat).
Proof.
  intros S. pose proof (Nat.div_str_pos C (word_size k) C0) as CE. set (ce := (C / word_size k)%nat) in *. induction left as [left IH] using lt_wf_ind. intros off ops' F.
  destruct (Nat.eq_dec left 0) as [->|NZ]; [exists []; split; [constructor|reflexivity]|].
  destruct (s_shift _ _ S _ _ F) as (g' & EA & EG). set (cur := Nat.min left ce).
  assert (AD : adjust_impl k arrs cur (ops', off) = Ok ([array_bytes k cur g'], (map (advance cur) ops', (off + cur)%nat))) by (unfold adjust_impl; rewrite EA; reflexivity).
  destruct (le_lt_dec left ce) as [LE|LT].
  - exists [array_bytes k cur g']. cbn [map concat]. rewrite app_nil_r. split.
    + apply produces_chunk with (1 := ltac:(lia) : (0 < left)%nat) (2 := AD). replace (left - Nat.min left ce)%nat with 0%nat by lia. constructor.
    + replace cur with left by lia. apply array_bytes_ext. intros i _. apply EG.
  - assert (EC : cur = ce) by lia. assert (F' : Forall2 (shifted prg (off + cur)) ops (map (advance cur) ops')).
    { pose proof (s_field _ _ S) as SF. clear - F SF K STR C16 EC. rewrite EC in *. clear EC. induction F as [|o o' l l' H F IH]; [constructor|]. inversion SF; subst. cbn [map]. constructor; [|auto]. eapply shifted_advance; eauto. }
    destruct (IH (left - cur)%nat ltac:(lia) _ _ F') as (As & P & EQ). exists (array_bytes k cur g' :: As). cbn [map concat]. split.
    + apply produces_chunk with (1 := ltac:(lia) : (0 < left)%nat) (2 := AD). exact P.
    + rewrite EQ. replace left with (cur + (left - cur))%nat at 2 by lia. rewrite array_bytes_app. f_equal; apply array_bytes_ext; intros i _; [apply EG|]. now rewrite Nat.add_assoc.
Qed.
Lemma single_one : (forall ops d, match arrs ops d with Ok l => exists g, l = [g] | Err => True | Ub => False end) -> one_array (adjust_impl k arrs) (word_size k).
Proof. intros S n [ops d]. unfold adjust_impl. specialize (S ops d). destruct (arrs ops d) as [l| |]; cbn [rbind]; auto. destruct S as (g & ->). eexists. split; [reflexivity|apply array_bytes_length]. Qed.

Lemma ask_fetched s num size (As : list (nat -> Z)) : (forall a i, In a As -> word k (a i)) -> 
  (forall parts sound, concat parts = s -> fetch junk num (size * word_size k) parts sound = if sound then Ok (map (array_bytes k size) As) else Err) ->
  ask net junk k (Ok s) num size = Ok (map (fun a => map a (seq 0 size)) As).
Proof.
  intros W H. unfold ask. cbn [rbind]. destruct (NET s) as [NC NS]. destruct (net s) as [parts sound]. cbn [fst snd] in *. subst sound. unfold rpc_call. rewrite (H parts true NC). cbn [rbind]. clear H.
  induction As as [|a As IH]; [reflexivity|]. cbn [map rmap]. rewrite (array_words k size a K (fun i => W a i (or_introl eq_refl))). cbn [rbind]. rewrite IH by (intros; apply W; now right). reflexivity.
Qed.
Lemma serve_single ops g size : single ops g -> (0 < size)%nat -> ask net junk k (serve C err k arrs ops size) 1 size = Ok [map g (seq 0 size)].
Proof.
  intros S N. unfold serve. replace (size =? 0)%nat with false by lia.
  assert (F0 : Forall2 (shifted prg 0) ops ops) by (clear; induction ops; constructor; auto using shifted_0).
  destruct (single_produces ops g S size 0 ops F0) as (As & P & EQ).
  destruct (chunked_ok _ err C (word_size k) 0 size (ops, 0%nat) As C0 C1 size_pos N (single_one (s_one _ _ S)) P) as (s & -> & R).
  apply (ask_fetched s 1 size [g]); [intros a i [<-|[]]; apply (s_word _ _ S)|]. intros parts sound E. specialize (R junk parts sound E). rewrite Nat.sub_0_r, EQ in R. cbn [Nat.add] in R. rewrite <- (array_bytes_length k size g), firstn_all in R. rewrite <- (array_bytes_length k size g). exact R.
Qed.
Lemma serve_whole_one ops g size : arrs ops 0%nat = Ok [g] -> (forall i, word k (g i)) -> (0 < size)%nat -> ask net junk k (serve_whole C err k arrs ops size) 1 size = Ok [map g (seq 0 size)].
Proof.
  intros EA W N. unfold serve_whole. replace (size =? 0)%nat with false by lia.
  assert (AD : adjust_impl k arrs size (ops, 0%nat) = Ok ([array_bytes k size g], (map (advance size) ops, (0 + size)%nat))) by (unfold adjust_impl; rewrite EA; reflexivity).
  assert (NE : array_bytes k size g <> []). { intros E. apply (f_equal (@length Z)) in E. rewrite array_bytes_length in E. cbn in E. pose proof size_pos. nia. }
  destruct (whole_ok _ err C size _ _ _ ltac:(lia) C1 AD NE) as (s & -> & R).
  apply (ask_fetched s 1 size [g]); [intros a i [<-|[]]; apply W|]. intros parts sound E. specialize (R junk parts sound E). rewrite array_bytes_length in R. exact R.
Qed.
Lemma serve_two ops g1 g2 size : arrs ops 0%nat = Ok [g1; g2] -> (forall i, word k (g1 i)) -> (forall i, word k (g2 i)) -> (0 < size <= C / word_size k)%nat ->
  ask net junk k (serve C err k arrs ops size) 2 size = Ok [map g1 (seq 0 size); map g2 (seq 0 size)].
Proof.
  intros EA W1 W2 N. unfold serve. replace (size =? 0)%nat with false by lia.
  assert (AD : adjust_impl k arrs size (ops, 0%nat) = Ok ([array_bytes k size g1; array_bytes k size g2], (map (advance size) ops, (0 + size)%nat))) by (unfold adjust_impl; rewrite EA; reflexivity).
  assert (PL : (0 < size * word_size k)%nat) by (pose proof size_pos; nia).
  destruct (one_chunk_ok _ err C (word_size k) 0 size (ops, 0%nat) (size * word_size k) _ _ C0 C1 N AD ltac:(discriminate) ltac:(repeat constructor; apply array_bytes_length) PL) as (s & -> & R).
  apply (ask_fetched s 2 size [g1; g2]); [intros a i [<-|[<-|[]]]; auto|]. intros parts sound E. specialize (R junk parts sound E). rewrite Nat.sub_0_r in R. cbn [length map] in R.
  rewrite <- (array_bytes_length k size g1) in R at 2. rewrite firstn_all in R. rewrite <- (array_bytes_length k size g2) in R at 2. rewrite firstn_all in R. exact R.
Qed.
End Reply.
