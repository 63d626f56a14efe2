(* C14: the client of the beaver server reconstructs exactly the byte arrays the server produced, however the transport splits
   the stream into parts. *)
From Verif Require Import Base Prg_model Ttp_model Ttp_spec Ttp_proof Ttps_proof.
From Coq Require Import ZifyBool ZifyNat.
Open Scope Z_scope.

(* one reply: Mul, MulPriv, Square, And, Trunc, RandBit, Eqz.  All of [numel] elements, the last [pad] bytes left out *)
Theorem C14_reply : forall (ops : Type) (adjust : nat -> ops -> res (list bytes * ops)) err C esz pad numel o As,
  (0 < esz <= C)%nat -> Z.of_nat C < 2 ^ 64 -> (pad < esz)%nat -> (0 < numel)%nat -> one_array adjust esz ->
  produces adjust (C / esz) numel o (map (fun a => [a]) As) ->
  exists s, reply_chunked ops adjust err C esz pad numel o = Ok s /\
    forall junk parts sound, concat parts = s ->
      fetch junk 1 (numel * esz - pad) parts sound = if sound then Ok [firstn (numel * esz - pad) (concat As)] else Err.
Proof. exact @chunked_ok. Qed.
Print Assumptions C14_reply.

(* whatever happens on the server and on the way, nothing else is ever returned: a cut stream, a failed transfer or an error on
   the server is an error of the client *)
Theorem C14_sound : forall (ops : Type) (adjust : nat -> ops -> res (list bytes * ops)) err C esz pad numel o s,
  (0 < esz <= C)%nat -> Z.of_nat C < 2 ^ 64 -> (pad < esz)%nat -> (0 < numel)%nat -> one_array adjust esz ->
  err <> [] -> Z.of_nat (length err) < 2 ^ 64 -> reply_chunked ops adjust err C esz pad numel o = Ok s ->
  forall junk parts sound, delivers parts s ->
    match fetch junk 1 (numel * esz - pad) parts sound with
    | Ok bufs => sound = true /\ concat parts = s /\
        exists As, produces adjust (C / esz) numel o (map (fun a => [a]) As) /\ bufs = [firstn (numel * esz - pad) (concat As)]
    | Err => True
    | Ub => False
    end.
Proof. exact @chunked_sound. Qed.
Print Assumptions C14_sound.

(* Dot and Perm *)
Theorem C14_whole : forall (ops : Type) (adjust : nat -> ops -> res (list bytes * ops)) err C numel o a o',
  (0 < C)%nat -> Z.of_nat C < 2 ^ 64 -> adjust numel o = Ok ([a], o') -> a <> [] ->
  exists s, reply_whole ops adjust err C numel o = Ok s /\
    forall junk parts sound, concat parts = s -> fetch junk 1 (length a) parts sound = if sound then Ok [a] else Err.
Proof. exact @whole_ok. Qed.
Print Assumptions C14_whole.

(* any number of arrays of one length (TruncPr: two), when all the elements fit in one chunk *)
Theorem C14_arrays_partial : forall (ops : Type) (adjust : nat -> ops -> res (list bytes * ops)) err C esz pad numel o L arrs o',
  (0 < esz <= C)%nat -> Z.of_nat C < 2 ^ 64 -> (0 < numel <= C / esz)%nat -> adjust numel o = Ok (arrs, o') -> arrs <> [] ->
  Forall (fun a => length a = L) arrs -> (pad < L)%nat ->
  exists s, reply_chunked ops adjust err C esz pad numel o = Ok s /\
    forall junk parts sound, concat parts = s ->
      fetch junk (length arrs) (L - pad) parts sound = if sound then Ok (map (firstn (L - pad)) arrs) else Err.
Proof. exact @one_chunk_ok. Qed.
Print Assumptions C14_arrays_partial.

(* the client alone, fed with any sequence of non-empty pieces that fill its buffers one after the other *)
Theorem C14_client : forall junk (K : list (list bytes)) L parts sound,
  K <> [] -> Forall (fun a => a <> [] /\ Forall (fun c => c <> [] /\ Z.of_nat (length c) < 2 ^ 64) a) K -> Forall (fun a => length (concat a) = L) K ->
  concat parts = frames (concat K) -> fetch junk (length K) L parts sound = if sound then Ok (map (@concat Z) K) else Err.
Proof. exact fetch_ok. Qed.
Print Assumptions C14_client.

(* ... and any bytes behind them *)
Theorem C14_client_extra : forall junk (K : list (list bytes)) L parts sound extra,
  K <> [] -> Forall (fun a => a <> [] /\ Forall (fun c => c <> [] /\ Z.of_nat (length c) < 2 ^ 64) a) K -> Forall (fun a => length (concat a) = L) K ->
  extra <> [] -> concat parts = frames (concat K) ++ extra -> fetch junk (length K) L parts sound = Err.
Proof.
  intros junk K L parts sound extra NK S FL NE EQ.
  destruct (fetch_bad junk K L parts sound extra (length (concat K)) [] NK S FL) as [R|[R _]]; [left; lia|rewrite app_nil_r, firstn_all; exact EQ|now left|exact R|congruence].
Qed.
Print Assumptions C14_client_extra.

(* the buffers read as ring elements *)
Theorem C14_words : forall junk esz num_buf buf_len parts ws,
  (0 < esz)%nat -> Forall (fun w => 0 <= w < 256 ^ Z.of_nat esz) ws -> fetch junk num_buf buf_len parts true = Ok [concat (map (le_bytes esz) ws)] ->
  rpc_call junk esz num_buf buf_len parts true = Ok [ws].
Proof. intros junk esz nb bl parts ws E F R. unfold rpc_call. rewrite R. cbn [rbind rmap]. now rewrite as_words_ok. Qed.
Print Assumptions C14_words.

(* ---- TruncPr requests of more than one chunk: C14 is false of them ---- *)
Definition two (n : nat) (o : nat) : res (list bytes * nat) := Ok ([repeat (Z.of_nat o) (n * 4); repeat 7 (n * 4)], S o).
Lemma chunk_4 : exists ce, kReplayChunkSize = (4 * ce)%nat /\ (kReplayChunkSize / 4)%nat = ce /\ (9 < ce)%nat /\ Z.of_nat kReplayChunkSize < 2 ^ 64.
Proof.
  assert (E : exists ce, kReplayChunkSize = (4 * ce)%nat /\ (9 < ce)%nat).
  { exists (Z.to_nat 8388608). split; [unfold kReplayChunkSize; exact (Z2Nat.inj_mul 4 8388608 ltac:(lia) ltac:(lia))|exact (proj1 (Z2Nat.inj_lt 9 8388608 ltac:(lia) ltac:(lia)) ltac:(lia))]. }
  destruct E as (ce & E & L). exists ce. split; [exact E|]. split; [rewrite E, Nat.mul_comm; now apply Nat.div_mul|]. split; [exact L|].
  unfold kReplayChunkSize. rewrite Z2Nat.id by lia. lia.
Qed.
(* two full chunks: for every split the client takes the second piece of the stream, which belongs to the second array, for the
   rest of the first array *)
Theorem C14_two_arrays_refuted : exists numel a1 b1 a2 b2 s,
  produces two (kReplayChunkSize / 4) numel O [[a1; b1]; [a2; b2]] /\ reply_chunked nat two [] kReplayChunkSize 4 0 numel O = Ok s /\ length (a1 ++ a2) = (2 * kReplayChunkSize)%nat /\
  forall junk parts, concat parts = s -> fetch junk 2 (2 * kReplayChunkSize) parts true = Ok [a1 ++ b1; a2 ++ b2] /\ [a1 ++ b1; a2 ++ b2] <> [a1 ++ a2; b1 ++ b2].
Proof.
  destruct chunk_4 as (ce & E & D & L & B). set (C := kReplayChunkSize) in *. clearbody C.
  assert (P : produces two (C / 4) (2 * ce) O [[repeat 0 (ce * 4); repeat 7 (ce * 4)]; [repeat 1 (ce * 4); repeat 7 (ce * 4)]]).
  { rewrite D. apply (produces_chunk _ _ _ _ _ 1%nat); [lia|rewrite Nat.min_r by lia; reflexivity|]. rewrite Nat.min_r by lia. replace (2 * ce - ce)%nat with ce by lia. apply (produces_chunk _ _ _ _ _ 2%nat); [lia|rewrite Nat.min_r by lia; reflexivity|]. rewrite Nat.min_id, Nat.sub_diag. constructor. }
  destruct (two_chunks_swapped two [] C 4 (2 * ce) O _ _ _ _ ltac:(lia) B ltac:(lia) P) as (s & ES & R); try (rewrite repeat_length; lia).
  exists (2 * ce)%nat. do 4 eexists. exists s. split; [exact P|]. split; [exact ES|]. split; [rewrite app_length, !repeat_length; lia|]. intros junk parts EQ. split; [exact (R junk parts true EQ)|].
  intros K. injection K as K _. apply app_inv_head in K. replace (ce * 4)%nat with (S (ce * 4 - 1)) in K by lia. discriminate K.
Qed.
Print Assumptions C14_two_arrays_refuted.
(* one element more than a chunk: a split after which the client reads behind the part it was given (undefined behaviour) *)
Theorem C14_over_read_refuted : exists numel s parts, reply_chunked nat two [] kReplayChunkSize 4 0 numel O = Ok s /\ concat parts = s /\ forall junk sound, fetch junk 2 (numel * 4) parts sound = Ub.
Proof.
  destruct chunk_4 as (ce & E & D & L & B). set (C := kReplayChunkSize) in *. clearbody C.
  assert (P : produces two (C / 4) (ce + 1) O [[repeat 0 (ce * 4); repeat 7 (ce * 4)]; [repeat 1 (1 * 4); repeat 7 (1 * 4)]]).
  { rewrite D. apply (produces_chunk _ _ _ _ _ 1%nat); [lia|rewrite Nat.min_r by lia; reflexivity|]. rewrite Nat.min_r by lia. replace (ce + 1 - ce)%nat with 1%nat by lia. apply (produces_chunk _ _ _ _ _ 2%nat); [lia|rewrite Nat.min_l by lia; reflexivity|]. rewrite Nat.min_l, Nat.sub_diag by lia. constructor. }
  exists (ce + 1)%nat. eexists. exists (frame (repeat 0 (ce * 4)) :: frame (repeat 7 (ce * 4)) :: [frames (send_array C 0 (repeat 1 (1 * 4)) ++ send_array C 0 (repeat 7 (1 * 4)))]).
  split; [exact (two_chunks two [] C 4 (ce + 1) O _ _ _ _ ltac:(lia) B ltac:(lia) P)|]. split.
  - rewrite !(send_array_one _ (repeat _ (ce * 4))) by (rewrite ?repeat_length; lia). rewrite !frames_app. unfold frames. cbn [map concat]. now rewrite ?app_nil_r.
  - intros junk sound. replace ((ce + 1) * 4)%nat with (C + 4)%nat by lia. apply over_read; rewrite ?repeat_length; lia.
Qed.
Print Assumptions C14_over_read_refuted.

(* five elements of two bytes in chunks of four bytes, the last byte left out, delivered in parts that cut a header and a piece *)
Definition ex_adjust (n : nat) (o : nat) : res (list bytes * nat) := Ok ([map (fun i => Z.of_nat (o + i)) (seq 0 (n * 2))], (o + n * 2)%nat).
Example C14_ex :
  one_array ex_adjust 2 /\ produces ex_adjust (4 / 2) 5 O (map (fun a => [a]) [[0; 1; 2; 3]; [4; 5; 6; 7]; [8; 9]]) /\
  exists s, reply_chunked nat ex_adjust [33] 4 2 1 5 O = Ok s /\
    let parts := [firstn 3 s; firstn 8 (skipn 3 s); []; skipn 11 s] in concat parts = s /\ fetch (fun _ _ => 99) 1 9 parts true = Ok [[0; 1; 2; 3; 4; 5; 6; 7; 8]].
Proof.
  split; [intros n o; cbn; eexists; split; [reflexivity|now rewrite map_length, seq_length]|]. split.
  - change (4 / 2)%nat with 2%nat. eapply produces_chunk; [lia|reflexivity|]. eapply produces_chunk; [cbn; lia|reflexivity|]. eapply produces_chunk; [cbn; lia|reflexivity|]. constructor.
  - eexists. split; [reflexivity|]. cbv zeta. split; vm_compute; reflexivity.
Qed.
(* the server fails in the second chunk *)
Example C14_ex_err : exists s, reply_chunked nat (fun n o => if (o =? 0)%nat then ex_adjust n o else Err) [33] 4 2 0 3 O = Ok s /\ fetch (fun _ _ => 99) 1 6 [s] true = Err.
Proof. eexists. split; [reflexivity|]. vm_compute. reflexivity. Qed.
