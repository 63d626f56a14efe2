(* Model of the beaver provider that asks a server (BeaverTtp) for the adjustments:
     src/libspu/mpc/semi2k/beaver/beaver_impl/beaver_ttp.cc
     src/libspu/mpc/semi2k/beaver/beaver_impl/ttp_server/beaver_server.cc
   The replies travel as in Ttp_model.v.  Simplified: elements are ring words (kRing); requests come without replay descriptors (their
   treatment is the text of beaver_tfp.cc, Beaver_model.v); the seeds arrive at the server as the parties drew them (public-key
   encryption, external); the message of the request carries its numbers unchanged (protobuf, external).
   Every client function is the code run by ONE party. *)
From Verif Require Import Base Prg_model Ring_model Semi_model Beaver_model Ttp_model.
Open Scope Z_scope.

(* the bytes of [n] words of k bits *)
Definition word_size (k : Z) : nat := Z.to_nat (k / 8).
Definition array_bytes (k : Z) (n : nat) (f : nat -> Z) : bytes := concat (map (fun i => le_bytes (word_size k) (f i)) (seq 0 n)).

(* the transport that hands over what was written in one part *)
Definition perfect (s : bytes) : list bytes * bool := ([s], true).

Section Provider.
Variable prg : Z -> Z -> Z -> nat -> Z.
Variable shuffle : Z -> Z -> nat -> list nat * Z.
(* kReplayChunkSize *)
Variable C : nat.
(* the text of an exception of the server *)
Variable err : bytes.

(* ---- server ---- *)
(* prg_tensor.h:60-66 prgReplayArrayMutable: the counter behind [n] elements.  trusted_party.cc:37-81: it is used for the last seed, so
   every operand advances once per call *)
Definition advance (n : nat) (o : operand) : operand := mkOp (o_seeds o) (o_ctr o + blocks (o_field o) (Z.of_nat n)) (o_field o) (o_tr o).
(* beaver_server.cc:254-298 AdjustImpl on [n] elements: [arrs] are the adjustments of the request (an
   exception when the number of operands is wrong, trusted_party.cc:103-237); the second component counts the random bits drawn by the server so far *)
Definition adjust_impl (k : Z) (arrs : list operand -> nat -> res (list (nat -> Z))) (n : nat) (st : list operand * nat) : res (list bytes * (list operand * nat)) :=
  let '(ops, drawn) := st in
  rbind (arrs ops drawn) (fun l => Ok (map (array_bytes k n) l, (map (advance n) ops, (drawn + n)%nat))).
(* beaver_server.cc:62-173: buffer_len > 0 is enforced (102); 300-388 AdjustAndSend *)
Definition serve (k : Z) (arrs : list operand -> nat -> res (list (nat -> Z))) (ops : list operand) (numel : nat) : res bytes :=
  if (numel =? 0)%nat then Ok (send_error 1 err)
  else reply_chunked _ (adjust_impl k arrs) err C (word_size k) 0 numel (ops, O).
(* ... and for Dot and Perm (350-353): numel > 0 is enforced (145) *)
Definition serve_whole (k : Z) (arrs : list operand -> nat -> res (list (nat -> Z))) (ops : list operand) (numel : nat) : res bytes :=
  if (numel =? 0)%nat then Ok (send_error 1 err)
  else reply_whole _ (adjust_impl k arrs) err C numel (ops, O).

(* ---- client ---- *)
Variable adjust_rank : nat.
(* the transport: the parts it hands over for the bytes written, and its final status *)
Variable net : bytes -> list bytes * bool.
Variable junk : nat -> nat -> Z.
(* beaver_ttp.cc:307-376 RpcCall, 114-131 GetBufferLength *)
Definition ask (k : Z) (reply : res bytes) (num size : nat) : res (list (list Z)) :=
  rbind reply (fun s => let '(parts, sound) := net s in rpc_call junk (word_size k) num (size * word_size k) parts sound).
(* the adjusting party adds one received array, the others keep what they drew *)
Definition adjusted (rank : nat) (op : Z -> Z -> Z) (call : res (list (list Z))) (c : nat -> Z) : res (nat -> Z) :=
  if (rank =? adjust_rank)%nat then
    rbind call (fun ws => match ws with [w] => Ok (fun i => op (c i) (nth i w 0)) | _ => Err end)
  else Ok c.

Variable k : Z.
Variable rank : nat.
Variable st : bst.
(* beaver_ttp.cc:431-486 Mul *)
Definition ttp_mul (size : nat) : res (triple * bst) :=
  let '(a, oa, st1, _) := fresh prg k st (Z.of_nat size) in
  let '(b, ob, st2, _) := fresh prg k st1 (Z.of_nat size) in
  let '(c, oc, st3, _) := fresh prg k st2 (Z.of_nat size) in
  let arrs ops _ := match ops with [x; y; z] => Ok [adjust_mul prg k x y z] | _ => Err end in
  rbind (adjusted rank (radd k) (ask k (serve k arrs [oa; ob; oc] size) 1 size) c) (fun c' => Ok (mkTriple a b c', st3)).
(* 488-514 MulPriv *)
Definition ttp_mul_priv (size : nat) : res ((nat -> Z) * (nat -> Z) * bst) :=
  let '(a, oa, st1, _) := fresh prg k st (Z.of_nat size) in
  let '(c, oc, st2, _) := fresh prg k st1 (Z.of_nat size) in
  let arrs ops _ := match ops with [x; z] => Ok [adjust_mul_priv prg k x z] | _ => Err end in
  rbind (adjusted rank (radd k) (ask k (serve k arrs [oa; oc] size) 1 size) c) (fun c' => Ok (a, c', st2)).
(* 516-558 Square *)
Definition ttp_square (size : nat) : res ((nat -> Z) * (nat -> Z) * bst) :=
  let '(a, oa, st1, _) := fresh prg k st (Z.of_nat size) in
  let '(b, ob, st2, _) := fresh prg k st1 (Z.of_nat size) in
  let arrs ops _ := match ops with [x; y] => Ok [adjust_square prg k x y] | _ => Err end in
  rbind (adjusted rank (radd k) (ask k (serve k arrs [oa; ob] size) 1 size) b) (fun b' => Ok (a, b', st2)).
(* 560-623 Dot: a is m x kk, b is kk x n *)
Definition ttp_dot (m n kk : nat) : res (triple * bst) :=
  let '(a, oa, st1, _) := fresh prg k st (Z.of_nat (m * kk)) in
  let '(b, ob, st2, _) := fresh prg k st1 (Z.of_nat (kk * n)) in
  let '(c, oc, st3, _) := fresh prg k st2 (Z.of_nat (m * n)) in
  let arrs ops _ := match ops with [x; y; z] => Ok [fun f => adjust_dot prg k m n kk x y z (f / n) (f mod n)] | _ => Err end in
  (* all three operands must have elements (beaver_server.cc:145) *)
  let reply := if (m * kk =? 0)%nat || (kk * n =? 0)%nat then Ok (send_error 1 err) else serve_whole k arrs [oa; ob; oc] (m * n) in
  rbind (adjusted rank (radd k) (ask k reply 1 (m * n)) c) (fun c' => Ok (mkTriple a b c', st3)).
(* 656-677 Trunc *)
Definition ttp_trunc (size : nat) (bits : Z) : res ((nat -> Z) * (nat -> Z) * bst) :=
  let '(a, oa, st1, _) := fresh prg k st (Z.of_nat size) in
  let '(b, ob, st2, _) := fresh prg k st1 (Z.of_nat size) in
  let arrs ops _ := match ops with [x; y] => Ok [adjust_trunc prg k bits x y] | _ => Err end in
  rbind (adjusted rank (radd k) (ask k (serve k arrs [oa; ob] size) 1 size) b) (fun b' => Ok (a, b', st2)).
(* 679-705 TruncPr *)
Definition ttp_truncpr (size : nat) (bits : Z) : res (triple * bst) :=
  let '(r, o0, st1, _) := fresh prg k st (Z.of_nat size) in
  let '(rc, o1, st2, _) := fresh prg k st1 (Z.of_nat size) in
  let '(rb, o2, st3, _) := fresh prg k st2 (Z.of_nat size) in
  let arrs ops _ := match ops with
    | [x; y; z] => Ok [fun i => fst (adjust_truncpr prg k bits x y z i); fun i => snd (adjust_truncpr prg k bits x y z i)]
    | _ => Err end in
  if (rank =? adjust_rank)%nat then
    rbind (ask k (serve k arrs [o0; o1; o2] size) 2 size) (fun ws =>
    match ws with
    | [w1; w2] => Ok (mkTriple r (fun i => radd k (rc i) (nth i w1 0)) (fun i => radd k (rb i) (nth i w2 0)), st3)
    | _ => Err end)
  else Ok (mkTriple r rc rb, st3).
(* 707-723 RandBit; [bits] are the bits the server draws, in order *)
Definition ttp_randbit (size : nat) (bits : nat -> Z) : res ((nat -> Z) * bst) :=
  let '(a, oa, st1, _) := fresh prg k st (Z.of_nat size) in
  let arrs ops drawn := match ops with [x] => Ok [adjust_randbit prg k (fun i => bits (drawn + i)%nat) x] | _ => Err end in
  rbind (adjusted rank (radd k) (ask k (serve k arrs [oa] size) 1 size) a) (fun a' => Ok (a', st1)).
(* 771-791 Eqz *)
Definition ttp_eqz (size : nat) : res ((nat -> Z) * (nat -> Z) * bst) :=
  let '(a, oa, st1, _) := fresh prg k st (Z.of_nat size) in
  let '(b, ob, st2, _) := fresh prg k st1 (Z.of_nat size) in
  let arrs ops _ := match ops with [x; y] => Ok [adjust_eqz prg k x y] | _ => Err end in
  rbind (adjusted rank rxor (ask k (serve k arrs [oa; ob] size) 1 size) b) (fun b' => Ok (a, b', st2)).
(* 725-764 PermPair before the broadcast of perm_rank's counter *)
Definition ttp_perm_local (perm_rank size : nat) : res ((nat -> Z) * (nat -> Z) * list nat * bst) :=
  let '(a, oa, st1, _) := fresh prg k st (Z.of_nat size) in
  let '(b, ob, st2, _) := fresh prg k st1 (Z.of_nat size) in
  (* beaver_server.cc:286-290: the server replays the permutation from perm_rank's seed *)
  let pv := fst (shuffle (nth perm_rank (b_seeds st2) 0) (b_ctr st2) size) in
  let arrs ops _ := match ops with [x; y] => Ok [adjust_perm prg k pv x y] | _ => Err end in
  rbind (adjusted rank (radd k) (ask k (serve_whole k arrs [oa; ob] size) 1 size) b) (fun b' =>
  let '(pi, c') := if (rank =? perm_rank)%nat then shuffle (b_seed st2) (b_ctr st2) size else ([], b_ctr st2) in
  Ok (a, b', pi, mkBst (b_seed st2) c' (b_seeds st2))).
End Provider.

Section And.
Variable prg : Z -> Z -> Z -> nat -> Z.
Variable C : nat.
Variable err : bytes.
Variable adjust_rank : nat.
Variable net : bytes -> list bytes * bool.
Variable junk : nat -> nat -> Z.
(* 625-654 And: FM128 words; [size] bytes of them are kept *)
Definition ttp_and (rank : nat) (st : bst) (size : nat) : res (triple * bst) :=
  let elsize := ((size + 15) / 16)%nat in
  let '(a, oa, st1, _) := fresh prg 128 st (Z.of_nat elsize) in
  let '(b, ob, st2, _) := fresh prg 128 st1 (Z.of_nat elsize) in
  let '(c, oc, st3, _) := fresh prg 128 st2 (Z.of_nat elsize) in
  let arrs ops _ := match ops with [x; y; z] => Ok [adjust_and prg x y z] | _ => Err end in
  rbind (adjusted adjust_rank rank rxor (ask net junk 128 (serve C err 128 arrs [oa; ob; oc] elsize) 1 elsize) c) (fun c' => Ok (mkTriple a b c', st3)).
(* 757-762: the broadcast after PermPair; every party continues with perm_rank's counter *)
Definition ttp_perm (shuffle : Z -> Z -> nat -> list nat * Z) (k : Z) (perm_rank : nat) (st : nat -> bst) (size rank : nat) : res ((nat -> Z) * (nat -> Z) * list nat * bst) :=
  rbind (ttp_perm_local prg shuffle C err adjust_rank net junk k rank (st rank) perm_rank size) (fun '(a, b, pi, st') =>
  rbind (ttp_perm_local prg shuffle C err adjust_rank net junk k perm_rank (st perm_rank) perm_rank size) (fun '(_, _, _, stp) =>
  Ok (a, b, pi, mkBst (b_seed st') (b_ctr stp) (b_seeds st')))).
End And.
