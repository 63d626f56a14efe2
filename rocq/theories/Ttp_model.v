(* Model of the streamed replies of the beaver server and of their client:
     src/libspu/mpc/semi2k/beaver/beaver_impl/ttp_server/beaver_server.cc
     src/libspu/mpc/semi2k/beaver/beaver_impl/beaver_ttp.cc
   A byte is a Z in 0..255.  The transport (brpc, http 1.1 or 2) is not modelled: it hands the written bytes
   over in order, in parts of any sizes, and reports at the end whether the transfer succeeded.  Decryption of
   the seeds and the request messages are not modelled. *)
From Verif Require Import Base Prg_model.
Open Scope Z_scope.

Definition bytes := list Z.
(* the memory of an integer of n bytes (memcpy from it, little endian) *)
Fixpoint le_bytes (n : nat) (x : Z) : bytes := match n with O => [] | S n => x mod 256 :: le_bytes n (x / 256) end.

(* ---- server ---- *)
(* beaver_server.cc:48 *)
Definition kReplayChunkSize : nat := Z.to_nat (32 * 1024 * 1024).
(* 215-217, 231-235: the nine flag bytes *)
Definition header (code size : Z) : bytes := code :: le_bytes 8 size.
(* 208-226: the loop over one buffer, as the list of the data pieces written; C is kReplayChunkSize *)
Fixpoint pieces (fuel C : nat) (data : bytes) : list bytes :=
  match fuel, data with
  | S f, _ :: _ => firstn C data :: pieces f C (skipn C data)
  | _, _ => []
  end.
Definition frame (data : bytes) : bytes := header 0 (Z.of_nat (length data)) ++ data.
Definition frames (ds : list bytes) : bytes := concat (map frame ds).
(* 201-227 SendStreamData; the arrays are compact, so the buffer is the array *)
Definition send_array (C pad : nat) (data : bytes) : list bytes :=
  let need := firstn (length data - pad) data in pieces (length need) C need.
Definition send_stream (C pad : nat) (arrs : list bytes) : res bytes :=
  match arrs with [] => Err | _ => Ok (frames (concat (map (send_array C pad) arrs))) end.
(* 229-252 SendError *)
Definition send_error (code : Z) (err : bytes) : bytes := header code (Z.of_nat (length err)) ++ err.
Section Server.
Variables (ops : Type).
(* 254-298 AdjustImpl for the given number of elements: the arrays, and the operands with their advanced counters *)
Variable adjust : nat -> ops -> res (list bytes * ops).
(* the text of the exception, with its prefix "adjust error " (383) *)
Variable err : bytes.
(* 385: SendError(pa, OpAdjustError, err) *)
Definition or_error {A} (r : res A) (f : A -> res bytes) : res bytes :=
  match r with Ok a => f a | Err => Ok (send_error 1 err) | Ub => Ub end.
(* 360-376: the chunks of at most [ce] elements *)
Fixpoint chunk_loop (fuel C ce pad left : nat) (o : ops) : res bytes :=
  match fuel with
  | O => Ok []
  | S fuel =>
    if (left =? 0)%nat then Ok []
    else
      let cur := Nat.min left ce in
      let rest := (left - cur)%nat in
      or_error (adjust cur o) (fun '(arrs, o') =>
      or_error (send_stream C (if (rest =? 0)%nat then pad else O) arrs) (fun s =>
      rbind (chunk_loop fuel C ce pad rest o') (fun s' => Ok (s ++ s'))))
  end.
(* 348-387 AdjustAndSend after the operands were built, for the requests cut into chunks; [esz] is SizeOf(field) *)
Definition reply_chunked (C esz pad numel : nat) (o : ops) : res bytes := chunk_loop numel C (C / esz) pad numel o.
(* 350-353: AdjustDot and AdjustPerm are computed at once *)
Definition reply_whole (C numel : nat) (o : ops) : res bytes :=
  or_error (adjust numel o) (fun '(arrs, _) => or_error (send_stream C 0 arrs) (fun s => Ok s)).
End Server.

(* ---- client: beaver_ttp.cc:132-305 ProgressiveReader ---- *)
Inductive rstate := ReadFlags | ReadChunk | ReadError | End.
Record reader := mkReader { r_state : rstate; r_flags : bytes; r_fpos : nat; r_chunk : Z; r_msg : bytes;
                            r_left : Z; r_idx : nat; r_pos : nat; r_bufs : list bytes }.
(* memcpy(b + pos, d, |d|), inside b *)
Definition blit (b : bytes) (pos : nat) (d : bytes) : bytes := firstn pos b ++ d ++ skipn (pos + length d) b.
(* 134-141; [junk] is the content of the fresh flags_ array and buffers *)
Definition reader0 (junk : nat -> nat -> Z) (num_buf buf_len : nat) : reader :=
  mkReader ReadFlags (map (junk O) (seq 0 9)) 0 0 [] (Z.of_nat buf_len * Z.of_nat num_buf) 0 0
    (map (fun b => map (junk (S b)) (seq 0 buf_len)) (seq 0 num_buf)).
(* 212-233 copy_to_flags: the new state and the consumed bytes *)
Definition copy_to_flags (r : reader) (data : bytes) : res (reader * nat) :=
  let cp := Nat.min (9 - r_fpos r) (length data) in
  let fl := blit (r_flags r) (r_fpos r) (firstn cp data) in
  let fpos := (r_fpos r + cp)%nat in
  if (fpos =? 9)%nat then
    let chunk := le_word (skipn 1 fl) in    (* int64 to size_t: the same 64 bits *)
    let next st := Ok (mkReader st fl 0 chunk (r_msg r) (r_left r) (r_idx r) (r_pos r) (r_bufs r), cp) in
    let f0 := nth 0 fl 0 in
    if f0 =? 0 then next ReadChunk
    else if (f0 =? 1) || (f0 =? 2) then next ReadError  (* service.proto:21-25 *)
    else Err
  else Ok (mkReader (r_state r) fl fpos (r_chunk r) (r_msg r) (r_left r) (r_idx r) (r_pos r) (r_bufs r), cp).
(* 251-267: the loop of copy_to_buffer.  [data] is what is left of the part: reading behind it is undefined.  Note that cp_size
   is bounded by the length of the whole piece, not by what is left of it (257-258) *)
Fixpoint copy_loop (fuel : nat) (bufs : list bytes) (idx pos : nat) (data : bytes) (len dpos : nat) : res (list bytes * nat * nat) :=
  match fuel with
  | O => Ub
  | S fuel =>
    if (dpos <? len)%nat then
      match nth_error bufs idx with
      | None => Err
      | Some b =>
        let cp := Nat.min len (length b - pos) in
        if (length data <? dpos + cp)%nat then Ub
        else
          let bufs' := set_nth bufs idx (blit b pos (firstn cp (skipn dpos data))) in
          let pos' := (pos + cp)%nat in
          if (pos' =? length b)%nat then copy_loop fuel bufs' (S idx) 0 data len (dpos + cp)
          else copy_loop fuel bufs' idx pos' data len (dpos + cp)
      end
    else Ok (bufs, idx, pos)
  end.
(* 235-270 copy_to_buffer *)
Definition copy_to_buffer (r : reader) (data : bytes) : res (reader * nat) :=
  let len := Z.min (Z.of_nat (length data)) (r_chunk r) in
  let chunk := r_chunk r - len in
  let st := if chunk =? 0 then ReadFlags else r_state r in
  if r_left r <? len then Err
  else
    let left := r_left r - len in
    let st := if left =? 0 then End else st in
    let n := Z.to_nat len in
    rbind (copy_loop (S (n + length (r_bufs r))) (r_bufs r) (r_idx r) (r_pos r) data n 0) (fun '(bufs, idx, pos) =>
    Ok (mkReader st (r_flags r) (r_fpos r) chunk (r_msg r) left idx pos bufs, n)).
(* 272-281 copy_to_error *)
Definition copy_to_error (r : reader) (data : bytes) : reader * nat :=
  let len := Z.min (Z.of_nat (length data)) (r_chunk r) in
  let chunk := r_chunk r - len in
  let n := Z.to_nat len in
  (mkReader (if chunk =? 0 then End else r_state r) (r_flags r) (r_fpos r) chunk (r_msg r ++ firstn n data) (r_left r) (r_idx r) (r_pos r) (r_bufs r), n).
(* 146-161: the loop over the bytes of a part; a status other than OK is Err.  Every second iteration consumes a byte. *)
Fixpoint consume (fuel : nat) (r : reader) (data : bytes) : res reader :=
  match data with
  | [] => Ok r
  | _ :: _ =>
    match fuel with
    | O => Ub
    | S fuel =>
      match r_state r with
      | ReadFlags => rbind (copy_to_flags r data) (fun '(r', n) => consume fuel r' (skipn n data))
      | ReadChunk => rbind (copy_to_buffer r data) (fun '(r', n) => consume fuel r' (skipn n data))
      | ReadError => let '(r', n) := copy_to_error r data in consume fuel r' (skipn n data)
      | End => Err
      end
    end
  end.
(* 143-174 OnReadOnePart *)
Definition on_part (r : reader) (data : bytes) : res reader :=
  rbind (consume (2 * length data + 2) r data) (fun r' =>
  match r_state r', r_msg r' with
  | End, _ :: _ => Err
  | _, _ => Ok r'
  end).
(* the transport reads part after part until one is refused *)
Fixpoint read_parts (r : reader) (parts : list bytes) : res reader :=
  match parts with [] => Ok r | p :: ps => rbind (on_part r p) (fun r' => read_parts r' ps) end.
(* 176-209 OnEndOfMessage, Wait, PopBuffer: [sound] is the final status of the transport *)
Definition fetch (junk : nat -> nat -> Z) (num_buf buf_len : nat) (parts : list bytes) (sound : bool) : res (list bytes) :=
  rbind (read_parts (reader0 junk num_buf buf_len) parts) (fun r =>
  match r_state r with
  | End => if sound then Ok (r_bufs r) else Err
  | _ => Err
  end).
(* 359-376 RpcCall: the bytes as ring elements of [esz] bytes *)
Definition as_words (esz : nat) (b : bytes) : res (list Z) :=
  if (length b mod esz =? 0)%nat then Ok (map (word_at esz b) (seq 0 (length b / esz))) else Err.
Definition rpc_call (junk : nat -> nat -> Z) (esz num_buf buf_len : nat) (parts : list bytes) (sound : bool) : res (list (list Z)) :=
  rbind (fetch junk num_buf buf_len parts sound) (rmap (as_words esz)).
