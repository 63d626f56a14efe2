(* C54: the beaver provider that asks a server.  In every theorem: [prg] is the generator (only what [stream] says is known of it),
   [seeds] the seeds of the parties, [r] the adjusting rank, [net] the transport, [err] the text of a server exception, [mkt seeds p c] party p's state at
   stream position c.  The three fields are FM32, FM64 and FM128; the chunk size is the one of the code. *)
From Verif Require Import Base Prg_model Ring_model Ring_spec Share_spec Semi_model Beaver_model Beaver_spec Ttp_model Ttp_spec Ttpp_model Ttpp_spec Ttpp_proof Ttpc_proof Ttpf_proof.
Open Scope Z_scope.

Section Props.
Variables (prg : Z -> Z -> Z -> nat -> Z) (STR : stream prg) (seeds : list Z) (r : nat) (R : (r < length seeds)%nat) (err : bytes)
  (net : bytes -> list bytes * bool) (NET : lossless net) (junk : nat -> nat -> Z).
Notation n := (length seeds).
Notation CS := kReplayChunkSize.
Notation bl k s := (blocks k (Z.of_nat s)).

Theorem C54_mul : forall k c size, k = 32 \/ k = 64 \/ k = 128 -> (0 < size)%nat ->
  exists A B D, (forall p, ttp_mul prg CS err r net junk k p (mkt seeds p c) size = Ok (mkTriple (A p) (B p) (D p), mkt seeds p (c + bl k size + bl k size + bl k size))) /\ mul_upto k n size A B D.
Proof. intros k c size K N. destruct (chunk_field k K) as (C0 & C16 & _). exact (mul_ok prg STR seeds r R CS err net junk NET chunk_small k K C16 C0 c size N). Qed.
Theorem C54_mul_priv : forall k c size, k = 32 \/ k = 64 \/ k = 128 -> (0 < size)%nat ->
  exists A D, (forall p, ttp_mul_priv prg CS err r net junk k p (mkt seeds p c) size = Ok (A p, D p, mkt seeds p (c + bl k size + bl k size))) /\ priv_upto k n size A D.
Proof. intros k c size K N. destruct (chunk_field k K) as (C0 & C16 & _). exact (priv_ok prg STR seeds r R CS err net junk NET chunk_small k K C16 C0 c size N). Qed.
Theorem C54_square : forall k c size, k = 32 \/ k = 64 \/ k = 128 -> (0 < size)%nat ->
  exists A D, (forall p, ttp_square prg CS err r net junk k p (mkt seeds p c) size = Ok (A p, D p, mkt seeds p (c + bl k size + bl k size))) /\ square_upto k n size A D.
Proof. intros k c size K N. destruct (chunk_field k K) as (C0 & C16 & _). exact (square_ok prg STR seeds r R CS err net junk NET chunk_small k K C16 C0 c size N). Qed.
Theorem C54_dot : forall k c m nn kk, k = 32 \/ k = 64 \/ k = 128 -> (0 < m)%nat -> (0 < nn)%nat -> (0 < kk)%nat ->
  exists A B D, (forall p, ttp_dot prg CS err r net junk k p (mkt seeds p c) m nn kk = Ok (mkTriple (A p) (B p) (D p), mkt seeds p (c + bl k (m * kk) + bl k (kk * nn) + bl k (m * nn)))) /\ dot_triple k n m nn kk A B D.
Proof. intros k c m nn kk K M N L. destruct (chunk_field k K) as (C0 & C16 & _). exact (dot_ok prg STR seeds r R CS err net junk NET chunk_small k K C16 C0 c m nn kk M N L). Qed.
Theorem C54_and : forall c size, (0 < size)%nat -> let els := ((size + 15) / 16)%nat in
  exists A B D, (forall p, ttp_and prg CS err r net junk p (mkt seeds p c) size = Ok (mkTriple (A p) (B p) (D p), mkt seeds p (c + bl 128 els + bl 128 els + bl 128 els))) /\ and_upto n els A B D.
Proof. intros c size N. destruct (chunk_field 128 ltac:(right; now right)) as (C0 & C16 & E). apply (and_ok prg STR seeds r R CS err net junk NET chunk_small c size (proj2 C0)); [|exact N]. rewrite <- E. exact C16. Qed.
Theorem C54_trunc : forall k c size bits, k = 32 \/ k = 64 \/ k = 128 -> (0 < size)%nat ->
  exists A D, (forall p, ttp_trunc prg CS err r net junk k p (mkt seeds p c) size bits = Ok (A p, D p, mkt seeds p (c + bl k size + bl k size))) /\ trunc_upto k bits n size A D.
Proof. intros k c size bits K N. destruct (chunk_field k K) as (C0 & C16 & _). exact (trunc_ok prg STR seeds r R CS err net junk NET chunk_small k K C16 C0 c size bits N). Qed.
Theorem C54_randbit : forall k c size bits, k = 32 \/ k = 64 \/ k = 128 -> (0 < size)%nat ->
  exists A, (forall p, ttp_randbit prg CS err r net junk k p (mkt seeds p c) size bits = Ok (A p, mkt seeds p (c + bl k size))) /\ bits_upto k n size bits A.
Proof. intros k c size bits K N. destruct (chunk_field k K) as (C0 & C16 & _). exact (randbit_ok prg STR seeds r R CS err net junk NET chunk_small k K C16 C0 c size bits N). Qed.
Theorem C54_eqz : forall k c size, k = 32 \/ k = 64 \/ k = 128 -> (0 < size)%nat ->
  exists A D, (forall p, ttp_eqz prg CS err r net junk k p (mkt seeds p c) size = Ok (A p, D p, mkt seeds p (c + bl k size + bl k size))) /\ dual_upto k n size A D.
Proof. intros k c size K N. destruct (chunk_field k K) as (C0 & C16 & _). exact (eqz_ok prg STR seeds r R CS err net junk NET chunk_small k K C16 C0 c size N). Qed.
Theorem C54_perm : forall shuffle k c pr size, (forall s c m, Permutation (fst (shuffle s c m)) (seq 0 m)) -> k = 32 \/ k = 64 \/ k = 128 -> (0 < size)%nat -> (pr < n)%nat ->
  exists A B P c', (forall p, ttp_perm prg CS err r net junk shuffle k pr (fun p => mkt seeds p c) size p = Ok (A p, B p, P p, mkt seeds p c')) /\ perm_pair k n size pr A B P.
Proof. intros shuffle k c pr size SH K N PR. destruct (chunk_field k K) as (C0 & C16 & _). exact (perm_ok prg STR seeds r R CS err net junk NET chunk_small k K C16 C0 shuffle c pr size SH N PR). Qed.
(* TruncPr gives the triple up to one chunk (32 MiB / element size); missing: larger sizes, where it is false (C54_truncpr_refuted) *)
Theorem C54_truncpr_partial : forall k c size bits, k = 32 \/ k = 64 \/ k = 128 -> 0 <= bits < k -> (0 < size <= CS / word_size k)%nat ->
  exists A B D, (forall p, ttp_truncpr prg CS err r net junk k p (mkt seeds p c) size bits = Ok (mkTriple (A p) (B p) (D p), mkt seeds p (c + bl k size + bl k size + bl k size))) /\ truncpr_upto k bits n size A B D.
Proof. intros k c size bits K D N. destruct (chunk_field k K) as (C0 & C16 & _). exact (truncpr_ok prg STR seeds r R CS err net junk NET chunk_small k K C16 C0 c size bits D N). Qed.
End Props.

(* two full chunks of TruncPr over a transport that loses nothing, with one party and a legal generator: a wrong triple, without an error *)
Theorem C54_truncpr_refuted : exists prg size, stream prg /\ forall err junk, exists A B D c',
  ttp_truncpr prg kReplayChunkSize err 0 perfect junk 64 0 (mkt [0] 0 0) size 3 = Ok (mkTriple A B D, mkt [0] 0 c') /\ ~ truncpr_upto 64 3 1 size (fun _ => A) (fun _ => B) (fun _ => D).
Proof. exists flat, (kReplayChunkSize / word_size 64 + kReplayChunkSize / word_size 64)%nat. split; [exact flat_stream|]. intros err junk. exact (truncpr_swapped err junk). Qed.

(* when the transport loses the end of a reply or reports a failure, a party gets an exception or what it gets over a lossless one *)
Definition err_or_same {A} (f : (bytes -> list bytes * bool) -> res A) (net : bytes -> list bytes * bool) : Prop := f net = Err \/ f net = f perfect.
Theorem C54_faulty : forall prg k err net junk r p st size bits rb, k = 32 \/ k = 64 \/ k = 128 -> err <> [] /\ Z.of_nat (length err) < 2 ^ 64 -> (forall s, delivers (fst (net s)) s) -> (0 < size)%nat ->
  err_or_same (fun net => ttp_mul prg kReplayChunkSize err r net junk k p st size) net /\
  err_or_same (fun net => ttp_mul_priv prg kReplayChunkSize err r net junk k p st size) net /\
  err_or_same (fun net => ttp_square prg kReplayChunkSize err r net junk k p st size) net /\
  err_or_same (fun net => ttp_and prg kReplayChunkSize err r net junk p st size) net /\
  err_or_same (fun net => ttp_trunc prg kReplayChunkSize err r net junk k p st size bits) net /\
  err_or_same (fun net => ttp_randbit prg kReplayChunkSize err r net junk k p st size rb) net /\
  err_or_same (fun net => ttp_eqz prg kReplayChunkSize err r net junk k p st size) net.
Proof.
  intros prg k err net junk r p st size bits rb K ER NET N. unfold err_or_same.
  exact (conj (mul_faulty prg k K err ER net junk NET r p st size N) (conj (priv_faulty prg k K err ER net junk NET r p st size N) (conj (square_faulty prg k K err ER net junk NET r p st size N)
   (conj (and_faulty prg err ER net junk NET r p st size N) (conj (trunc_faulty prg k K err ER net junk NET r p st size N bits) (conj (randbit_faulty prg k K err ER net junk NET r p st size N rb) (eqz_faulty prg k K err ER net junk NET r p st size N))))))).
Qed.

(* a generator that meets [stream], three parties, adjusting rank 2, a transport that delivers byte by byte *)
Definition toy (w s c : Z) (i : nat) : Z := (s * 77 + (c * (16 / (w / 8)) + Z.of_nat i) * 1234567) mod 2 ^ w.
Lemma toy_stream : stream toy.
Proof.
  split.
  - intros w s c i W. unfold toy, word. apply Z.mod_pos_bound, Z.pow_pos_nonneg; lia.
  - intros w s c m i W H. unfold toy. f_equal. f_equal. f_equal.
    apply Nat.mod_divides in H; [|lia]. destruct H as (q & H). rewrite H. rewrite (Nat.mul_comm 16 q), Nat.div_mul by lia.
    destruct W as [ ->|[ ->| ->]]; [change (Z.to_nat (32 / 8)) with 4%nat in H; change (16 / (32 / 8)) with 4|change (Z.to_nat (64 / 8)) with 8%nat in H; change (16 / (64 / 8)) with 2|change (Z.to_nat (128 / 8)) with 16%nat in H; change (16 / (128 / 8)) with 1]; lia.
Qed.
Definition bytewise (s : bytes) : list bytes * bool := (map (fun b => [b]) s, true).
Lemma bytewise_lossless : lossless bytewise.
Proof. intros s. split; [|reflexivity]. cbn [bytewise fst]. induction s as [|b s IH]; [reflexivity|]. cbn. now rewrite IH. Qed.
Example C54_ex : forall k c size, k = 32 \/ k = 64 \/ k = 128 -> (0 < size)%nat -> exists A B D,
  (forall p, ttp_mul toy kReplayChunkSize [101] 2 bytewise (fun _ _ => 0) k p (mkt [3; 5; 9] p c) size = Ok (mkTriple (A p) (B p) (D p), mkt [3; 5; 9] p (c + blocks k (Z.of_nat size) + blocks k (Z.of_nat size) + blocks k (Z.of_nat size)))) /\ mul_upto k 3 size A B D.
Proof. apply (C54_mul toy toy_stream [3; 5; 9] 2 ltac:(cbn; lia) [101] bytewise bytewise_lossless). Qed.
(* the same computed, with chunks of 16 bytes: seven 64-bit elements in four chunks *)
Definition show (m : res (triple * bst)) : list (Z * Z * Z) := match m with Ok (t, _) => map (fun i => (t_a t i, t_b t i, t_c t i)) (seq 0 7) | _ => [] end.
Definition run (p : nat) := show (ttp_mul toy 16 [101] 2 bytewise (fun _ _ => 0) 64 p (mkt [3; 5; 9] p 4) 7).
Example C54_ex_run : map (fun i => match nth i (run 0) (0,0,0), nth i (run 1) (0,0,0), nth i (run 2) (0,0,0) with
  (a0, b0, c0), (a1, b1, c1), (a2, b2, c2) => ((a0 + a1 + a2) * (b0 + b1 + b2) - (c0 + c1 + c2)) mod 2 ^ 64 end) (seq 0 7) = repeat 0 7 /\ map (fun x => fst (fst x)) (run 2) <> repeat 0 7.
Proof. split; [vm_compute; reflexivity|vm_compute; discriminate]. Qed.

Print Assumptions C54_mul. Print Assumptions C54_mul_priv. Print Assumptions C54_square. Print Assumptions C54_dot. Print Assumptions C54_and. Print Assumptions C54_trunc. Print Assumptions C54_randbit.
Print Assumptions C54_eqz. Print Assumptions C54_perm. Print Assumptions C54_truncpr_partial. Print Assumptions C54_truncpr_refuted. Print Assumptions C54_faulty.
(* a request without elements is refused by the server: the adjusting party gets an exception, the others do not *)
Example C54_ex_empty : ttp_mul toy 16 [101] 2 bytewise (fun _ _ => 0) 64 2 (mkt [3; 5; 9] 2 4) 0 = Err /\ exists t, ttp_mul toy 16 [101] 2 bytewise (fun _ _ => 0) 64 1 (mkt [3; 5; 9] 1 4) 0 = Ok t.
Proof. split; [vm_compute; reflexivity|]. eexists. reflexivity. Qed.
