From Verif Require Import Base Prg_model Ring_model Ring_spec Ring_proof Share_spec Party Semi_model Semi_proof Beaver_model Beaver_spec Beaver_proof Ttp_model Ttp_spec Ttp_proof Ttps_proof Ttpp_model Ttpp_spec Ttpp_proof Ttpc_proof.
Open Scope Z_scope.

(* ---- kReplayChunkSize ---- *)
Lemma chunk_16 : exists q, kReplayChunkSize = (q * 16)%nat /\ (0 < q)%nat.
Proof.
  exists (Z.to_nat (2 * 1024 * 1024)). split; [|apply Nat2Z.inj_lt; rewrite Z2Nat.id; [reflexivity|discriminate]].
  unfold kReplayChunkSize. change 16%nat with (Z.to_nat 16). rewrite <- Z2Nat.inj_mul by discriminate. reflexivity.
Qed.
Lemma chunk_small : Z.of_nat kReplayChunkSize < 2 ^ 64.
Proof. unfold kReplayChunkSize. rewrite Z2Nat.id by discriminate. reflexivity. Qed.
Lemma chunk_field k : okw k -> (0 < word_size k <= kReplayChunkSize)%nat /\ ((kReplayChunkSize / word_size k * word_size k) mod 16 = 0)%nat /\ (kReplayChunkSize / word_size k * word_size k = kReplayChunkSize)%nat.
Proof.
  intros K. destruct (okw_size k K) as (e & -> & E & _). destruct chunk_16 as (q & -> & Q). assert (D : exists d, (e * d = 16)%nat) by (destruct E as [->|[->| ->]]; [exists 4%nat|exists 2%nat|exists 1%nat]; reflexivity). destruct D as (d & D).
  assert (E0 : (0 < e)%nat) by (clear - E; lia). assert (EQ : (q * 16 / e * e = q * 16)%nat) by (rewrite <- D, (Nat.mul_comm e d), Nat.mul_assoc, Nat.div_mul by lia; reflexivity). rewrite EQ. split; [clear - E Q; lia|]. split; [apply Nat.mod_mul; lia|reflexivity].
Qed.

(* ---- a transport that may lose the end of the reply ---- *)
Lemma perfect_lossless : lossless perfect.
Proof. intros s. cbn. now rewrite app_nil_r. Qed.
Section Faulty.
Variables (C : nat) (err : bytes) (k : Z).
Hypothesis C0 : (0 < word_size k <= C)%nat.
Hypothesis C1 : Z.of_nat C < 2 ^ 64.
Hypothesis ER : err <> [] /\ Z.of_nat (length err) < 2 ^ 64.
Variables (net : bytes -> list bytes * bool) (junk : nat -> nat -> Z).
Hypothesis NET : forall s, delivers (fst (net s)) s.
Variables (r : nat) (arrs : list operand -> nat -> res (list (nat -> Z))).
Hypothesis ONE : forall ops d, match arrs ops d with Ok l => exists g, l = [g] | Err => True | Ub => False end.
Lemma ask_faulty ops size : (0 < size)%nat ->
  ask net junk k (serve C err k arrs ops size) 1 size = Err \/ ask net junk k (serve C err k arrs ops size) 1 size = ask perfect junk k (serve C err k arrs ops size) 1 size.
Proof.
  intros N. destruct (serve C err k arrs ops size) as [s| |] eqn:ES; [|right; reflexivity|right; reflexivity]. unfold serve in ES. replace (size =? 0)%nat with false in ES by (clear - N; lia).
  unfold ask, perfect. cbn [rbind]. pose proof (NET s) as DL. destruct (net s) as [parts sound]. cbn [fst] in DL. unfold rpc_call.
  pose proof (chunked_sound _ err C (word_size k) 0 size (ops, O) s C0 C1 ltac:(clear - C0; lia) N (single_one k arrs ONE) (proj1 ER) (proj2 ER) ES junk parts sound DL) as S1.
  rewrite Nat.sub_0_r in S1. destruct (fetch junk 1 (size * word_size k) parts sound) as [bufs| |]; [|left; reflexivity|contradiction].
  right. destruct S1 as (SO & EC & As & P & EB).
  destruct (chunked_ok _ err C (word_size k) 0 size (ops, O) As C0 C1 ltac:(clear - C0; lia) N (single_one k arrs ONE) P) as (s2 & ES2 & FT). rewrite ES in ES2. injection ES2 as <-.
  specialize (FT junk [s] true ltac:(cbn; now rewrite app_nil_r)). rewrite Nat.sub_0_r in FT. rewrite FT, EB. reflexivity.
Qed.
Lemma adjusted_faulty op p c ops size : (0 < size)%nat -> let q net := adjusted r p op (ask net junk k (serve C err k arrs ops size) 1 size) c in q net = Err \/ q net = q perfect.
Proof.
  intros N q. subst q. cbv beta. unfold adjusted. destruct (p =? r)%nat; [|now right]. destruct (ask_faulty ops size N) as [->| ->]; [now left|now right].
Qed.
End Faulty.
Lemma bind_faulty {A B} (x y : res A) (f : A -> res B) : x = Err \/ x = y -> rbind x f = Err \/ rbind x f = rbind y f.
Proof. intros [->| ->]; [now left|now right]. Qed.

Section FaultyOps.
Variables (prg : Z -> Z -> Z -> nat -> Z) (k : Z) (K : okw k) (err : bytes) (ER : err <> [] /\ Z.of_nat (length err) < 2 ^ 64) (net : bytes -> list bytes * bool) (junk : nat -> nat -> Z).
Hypothesis NET : forall s, delivers (fst (net s)) s.
Variables (r p : nat) (st : bst) (size : nat).
Hypothesis N : (0 < size)%nat.
Notation CS := kReplayChunkSize.
Ltac one_tac := intros ops d; repeat match goal with |- context [match ?l with [] => _ | _ :: _ => _ end] => destruct l end; try exact I; eexists; reflexivity.
Ltac fl := apply bind_faulty; refine (adjusted_faulty CS err _ (proj1 (chunk_field _ _)) chunk_small ER net junk NET r _ _ _ p _ _ _ _); [assumption|one_tac|assumption].
Lemma mul_faulty : ttp_mul prg CS err r net junk k p st size = Err \/ ttp_mul prg CS err r net junk k p st size = ttp_mul prg CS err r perfect junk k p st size.
Proof. unfold ttp_mul. cbv beta iota zeta delta [Beaver_model.fresh create]. fl. Qed.
Lemma priv_faulty : ttp_mul_priv prg CS err r net junk k p st size = Err \/ ttp_mul_priv prg CS err r net junk k p st size = ttp_mul_priv prg CS err r perfect junk k p st size.
Proof. unfold ttp_mul_priv. cbv beta iota zeta delta [Beaver_model.fresh create]. fl. Qed.
Lemma square_faulty : ttp_square prg CS err r net junk k p st size = Err \/ ttp_square prg CS err r net junk k p st size = ttp_square prg CS err r perfect junk k p st size.
Proof. unfold ttp_square. cbv beta iota zeta delta [Beaver_model.fresh create]. fl. Qed.
Lemma trunc_faulty bits : ttp_trunc prg CS err r net junk k p st size bits = Err \/ ttp_trunc prg CS err r net junk k p st size bits = ttp_trunc prg CS err r perfect junk k p st size bits.
Proof. unfold ttp_trunc. cbv beta iota zeta delta [Beaver_model.fresh create]. fl. Qed.
Lemma randbit_faulty rb : ttp_randbit prg CS err r net junk k p st size rb = Err \/ ttp_randbit prg CS err r net junk k p st size rb = ttp_randbit prg CS err r perfect junk k p st size rb.
Proof. unfold ttp_randbit. cbv beta iota zeta delta [Beaver_model.fresh create]. fl. Qed.
Lemma eqz_faulty : ttp_eqz prg CS err r net junk k p st size = Err \/ ttp_eqz prg CS err r net junk k p st size = ttp_eqz prg CS err r perfect junk k p st size.
Proof. unfold ttp_eqz. cbv beta iota zeta delta [Beaver_model.fresh create]. fl. Qed.
Lemma and_faulty : ttp_and prg CS err r net junk p st size = Err \/ ttp_and prg CS err r net junk p st size = ttp_and prg CS err r perfect junk p st size.
Proof.
  unfold ttp_and. cbv beta iota zeta delta [Beaver_model.fresh create]. apply bind_faulty. refine (adjusted_faulty CS err _ (proj1 (chunk_field 128 _)) chunk_small ER net junk NET r _ _ _ p _ _ _ _); [right; now right|one_tac|].
  apply Nat.div_str_pos. clear - N. lia.
Qed.
End FaultyOps.

(* ---- TruncPr of more than one chunk ---- *)
(* a generator that gives 2^63 only, and one party *)
Definition flat (w s c : Z) (i : nat) : Z := if w =? 64 then 2 ^ 63 else 0.
Lemma flat_stream : stream flat.
Proof.
  split; [|reflexivity]. intros w s c i W. unfold flat, word. destruct (Z.eqb_spec w 64) as [->|]; [split; [discriminate|reflexivity]|]. pose proof (Z.pow_pos_nonneg 2 w ltac:(lia) W). lia.
Qed.
Lemma swapped_any C err junk : (0 < word_size 64 <= C)%nat -> Z.of_nat C < 2 ^ 64 -> (C / word_size 64 * word_size 64 = C)%nat -> let ce := (C / word_size 64)%nat in
  exists A B D c', ttp_truncpr flat C err 0 perfect junk 64 0 (mkt [0] 0 0) (ce + ce) 3 = Ok (mkTriple A B D, mkt [0] 0 c') /\ ~ truncpr_upto 64 3 1 (ce + ce) (fun _ => A) (fun _ => B) (fun _ => D).
Proof.
  intros C0 C1 CE. cbv zeta. set (ce := (C / word_size 64)%nat) in *.
  assert (P : (0 < ce)%nat) by (unfold ce; apply Nat.div_str_pos; exact C0). set (a := rsub 64 0 (2 ^ 63)). set (b := rsub 64 1 (2 ^ 63)).
  unfold ttp_truncpr, Beaver_model.fresh, create. cbn [b_seed b_ctr b_seeds mkt]. rewrite Nat.eqb_refl.
  set (arrs := fun ops (_ : nat) => match ops with [x; y; z] => Ok [fun i => fst (adjust_truncpr flat 64 3 x y z i); fun i => snd (adjust_truncpr flat 64 3 x y z i)] | _ => Err end).
  assert (AR : forall c1 c2 c3 d m, exists o, adjust_impl 64 arrs m ([mkOp [0] c1 64 false; mkOp [0] c2 64 false; mkOp [0] c3 64 false], d) = Ok ([array_bytes 64 m (fun _ => a); array_bytes 64 m (fun _ => b)], ([mkOp [0] (c1 + o) 64 false; mkOp [0] (c2 + o) 64 false; mkOp [0] (c3 + o) 64 false], (d + m)%nat))).
  { intros. exists (blocks 64 (Z.of_nat m)). reflexivity. }
  assert (SV : forall c1 c2 c3, ask perfect junk 64 (serve C err 64 arrs [mkOp [0] c1 64 false; mkOp [0] c2 64 false; mkOp [0] c3 64 false] (ce + ce)) 2 (ce + ce) =
     Ok (repeat (map (fun i => if (i <? ce)%nat then a else b) (seq 0 (ce + ce))) 2)).
  { intros c1 c2 c3. unfold serve. replace (ce + ce =? 0)%nat with false by (clear - P; lia).
    destruct (AR c1 c2 c3 0%nat ce) as (o & A1). destruct (AR (c1 + o) (c2 + o) (c3 + o) (0 + ce)%nat ce) as (o2 & A2).
    set (X := array_bytes 64 ce (fun _ => a)) in *. set (Y := array_bytes 64 ce (fun _ => b)) in *.
    assert (PR : produces (adjust_impl 64 arrs) (C / word_size 64) (ce + ce) ([mkOp [0] c1 64 false; mkOp [0] c2 64 false; mkOp [0] c3 64 false], 0%nat) [[X; Y]; [X; Y]]).
    { fold ce. eapply produces_chunk; [clear - P; lia| |]; replace (Nat.min (ce + ce) ce) with ce by (clear; lia); [exact A1|]. replace (ce + ce - ce)%nat with ce by (clear; lia). eapply produces_chunk; [exact P| |]; rewrite Nat.min_id; [exact A2|]. rewrite Nat.sub_diag. constructor. }
    assert (LX : length X = C) by (unfold X; rewrite array_bytes_length; exact CE). assert (LY : length Y = C) by (unfold Y; rewrite array_bytes_length; exact CE).
    destruct (two_chunks_swapped _ err C (word_size 64) (ce + ce) _ X Y X Y C0 C1 ltac:(fold ce; clear - P; lia) PR LX LY LX LY) as (s & -> & FT).
    unfold ask, perfect, rpc_call. cbn [rbind]. specialize (FT junk [s] true ltac:(cbn; now rewrite app_nil_r)). replace ((ce + ce) * word_size 64)%nat with (2 * C)%nat by (rewrite <- CE; clear; lia). rewrite FT. cbn [rbind rmap repeat].
    assert (EXY : X ++ Y = array_bytes 64 (ce + ce) (fun i => if (i <? ce)%nat then a else b)).
    { rewrite array_bytes_app. f_equal; apply array_bytes_ext; intros i Hi; [replace (i <? ce)%nat with true by (clear - Hi; lia); reflexivity|]. replace (ce + i <? ce)%nat with false by (clear; lia). reflexivity. }
    rewrite EXY. rewrite array_words; [reflexivity|right; now left|]. intros i. destruct (i <? ce)%nat; apply rsub_word; discriminate. }
  rewrite SV. cbn [rbind repeat]. do 4 eexists. split; [reflexivity|]. intros V.
  specialize (V ce (2 ^ 63) ltac:(clear - P; lia)). cbv beta in V. unfold tot in V. cbn [total] in V. rewrite nth_map_seq in V by (clear - P; lia). rewrite Nat.ltb_irrefl in V.
  assert (E1 : forall c i, radd 64 (flat 64 (nth 0 [0] 0) c i) b = 1) by reflexivity. rewrite E1 in V. clear - V.
  destruct V as [[q V] _]; [split; [split; [discriminate|reflexivity]|exists 0; reflexivity]|]. change (2 ^ 63 mod 2 ^ (64 - 1) / 2 ^ 3) with 0 in V. change (2 ^ 64) with 18446744073709551616 in V. rewrite !Z.add_0_l in V. lia.
Qed.
Lemma truncpr_swapped err junk : let ce := (kReplayChunkSize / word_size 64)%nat in
  exists A B D c', ttp_truncpr flat kReplayChunkSize err 0 perfect junk 64 0 (mkt [0] 0 0) (ce + ce) 3 = Ok (mkTriple A B D, mkt [0] 0 c') /\ ~ truncpr_upto 64 3 1 (ce + ce) (fun _ => A) (fun _ => B) (fun _ => D).
Proof. destruct (chunk_field 64 ltac:(right; now left)) as (C0 & _ & CE). exact (swapped_any kReplayChunkSize err junk C0 chunk_small CE). Qed.
