(* C12, C13 and the cached part of C11: the dealer-assisted Beaver provider (semi2k).
   Statement vocabulary: the correlations are defined in Beaver_spec; [req_ok], [valid], [arr],
   [no_dot_init] (Beaver_proof) and [op_ok], [op_val], [plain] (Beaverc_proof) only select the
   correlation, the returned array or the plaintext a request is about. *)
From Verif Require Import Base Ring_model Ring_spec Share_spec Party Semi_model Beaver_model Beaver_spec Beaver_proof Beaverc_proof.
Open Scope Z_scope.

(* After any program of requests, the next one is either rejected by every party or accepted by
   every party, and then what the parties hold is a valid correlation of the requested kind. *)
Theorem C12_dealer prg shuffle seeds qs q :
  (forall w s c i, 0 <= w -> word w (prg w s c i)) ->
  (forall s c m, Permutation (fst (shuffle s c m)) (seq 0 m)) -> (forall s c m, c <= snd (shuffle s c m)) ->
  (0 < length seeds)%nat -> Forall (req_ok seeds) qs -> req_ok seeds q ->
  let s := mrun prg shuffle qs (minit seeds) in
  (forall p, (p < length seeds)%nat -> mstep prg shuffle q s p = Err) \/
  ((forall p, (p < length seeds)%nat -> exists s' a, mstep prg shuffle q s p = Ok (s', a)) /\ valid prg seeds shuffle q s).
Proof.
  intros W SP SC N F OK s. destruct (mrun_rel prg W seeds N shuffle SP SC qs (minit seeds) 0 (fun _ => None) F (mrel_init seeds)) as [c [sl R]].
  destruct (step_all prg W seeds N shuffle SP SC q s c sl OK R) as [E|[c' [sl' [_ [A V]]]]]; [now left|right].
  split; [|exact V]. intros p P. destruct (A p P) as [s' [a [E _]]]. eauto.
Qed.
Print Assumptions C12_dealer.
(* a request that uses no descriptor is never rejected *)
Theorem C12_accepted prg shuffle (q : req) s p :
  (match q with QMul _ _ x y | QDot _ _ _ _ x y => x = None /\ y = None | QSquare _ _ x => x = None | _ => True end) ->
  exists s' a, mstep prg shuffle q s p = Ok (s', a).
Proof.
  destruct q; cbn; intros H; try match type of H with _ /\ _ => destruct H as [H1 H2]; subst | _ = None => subst end; try (do 2 eexists; reflexivity).
  repeat match goal with |- context[let '(_, _) := ?x in _] => destruct x end; eauto.
Qed.
Print Assumptions C12_accepted.
(* a toy stream and shuffle meeting the hypotheses, a program that fills a descriptor and replays it *)
Definition toy_prg (w s c : Z) (i : nat) : Z := wrap w (s * 1000003 + c * 7919 + Z.of_nat i * 104729 + 17).
Definition toy_shuffle (s c : Z) (m : nat) : list nat * Z := (rev (seq 0 m), c + 5).
Definition toy_prog : list req :=
  [QMul 64 3 (Some 0%nat) None; QStatus 0 SReplay; QTruncPr 32 7 5; QPerm 64 2 4; QAnd 33].
Lemma toy_words : forall w s c i, 0 <= w -> word w (toy_prg w s c i).
Proof. intros. now apply word_wrap. Qed.
Lemma toy_perm : forall s c m, Permutation (fst (toy_shuffle s c m)) (seq 0 m).
Proof. intros. apply Permutation_sym, Permutation_rev. Qed.
Lemma toy_ctr : forall s c m, c <= snd (toy_shuffle s c m). Proof. intros. cbn. lia. Qed.
Example C12_ex : let s := mrun toy_prg toy_shuffle toy_prog (minit [11; 22; 33]) in
  valid toy_prg [11; 22; 33] toy_shuffle (QMul 64 3 (Some 0%nat) (Some 1%nat)) s.
Proof.
  destruct (C12_dealer toy_prg toy_shuffle [11; 22; 33] toy_prog (QMul 64 3 (Some 0%nat) (Some 1%nat))) as [E|[_ V]].
  - exact toy_words.
  - exact toy_perm.
  - exact toy_ctr.
  - cbn; lia.
  - repeat constructor; cbn; lia.
  - cbn; lia.
  - exfalso. specialize (E O ltac:(cbn; lia)). apply (f_equal (fun r => match r with Err => true | _ => false end)) in E. vm_compute in E. discriminate E.
  - exact V.
Qed.
(* the replayed operand really is the mask drawn by the first request *)
Example C12_replay_ex : let s := mrun toy_prg toy_shuffle toy_prog (minit [11; 22; 33]) in
  map (arr toy_prg toy_shuffle (QMul 64 3 (Some 0%nat) None) s 0 1) [0; 1; 2]%nat =
  map (arr toy_prg toy_shuffle (QMul 64 3 None None) (minit [11; 22; 33]) 0 1) [0; 1; 2]%nat.
Proof. vm_compute. reflexivity. Qed.

(* C13: every party's draws occupy pairwise disjoint intervals of its stream (d = first block, count),
   for every program that never hands Dot a descriptor still to be filled. *)
Theorem C13_no_reuse_partial prg shuffle seeds qs p i j d e :
  (forall w s c i, 0 <= w -> word w (prg w s c i)) ->
  (forall s c m, Permutation (fst (shuffle s c m)) (seq 0 m)) -> (forall s c m, c <= snd (shuffle s c m)) ->
  (p < length seeds)%nat -> Forall (req_ok seeds) qs -> no_dot_init prg shuffle qs (minit seeds) p ->
  (i < j)%nat -> nth_error (mdraws prg shuffle qs (minit seeds) p) i = Some d ->
  nth_error (mdraws prg shuffle qs (minit seeds) p) j = Some e -> fst d + snd d <= fst e.
Proof.
  intros W SP SC P F ND L E1 E2. assert (N : (0 < length seeds)%nat) by lia.
  destruct (mdraws_chain prg W seeds N shuffle SP SC qs (minit seeds) 0 (fun _ => None) p P F (mrel_init seeds) ND) as [c' CH].
  exact (chain_disjoint _ 0 c' i j d e CH L E1 E2).
Qed.
Print Assumptions C13_no_reuse_partial.
Definition toy_prog2 : list req := toy_prog ++ [QMul 64 3 (Some 0%nat) (Some 1%nat); QDot 64 2 3 4 None None].
Example C13_ex : Forall (req_ok [11; 22; 33]) toy_prog2 /\ no_dot_init toy_prg toy_shuffle toy_prog2 (minit [11; 22; 33]) 1 /\
  mdraws toy_prg toy_shuffle toy_prog2 (minit [11; 22; 33]) 2 =
  [(0, 2); (2, 2); (4, 2); (6, 2); (8, 2); (10, 2); (12, 2); (14, 2); (16, 5); (21, 3); (24, 3); (27, 3); (30, 2); (32, 2); (34, 4); (38, 6); (44, 3)].
Proof.
  split; [repeat constructor; cbn; lia|]. split; [|vm_compute; reflexivity].
  cbn. repeat split; try tauto. intros [[dd [E _]]|[dd [E _]]]; discriminate E.
Qed.
(* The full statement fails: Dot draws an unfilled descriptor's mask at the current counter without
   advancing it (beaver_tfp.cc:228-265), so the masks of both operands, of the product and of the next request
   coincide. *)
Theorem C13_dot_mask_reuse_refuted : exists qs i j d e,
  Forall (req_ok [11; 22]) qs /\ (i < j)%nat /\
  nth_error (mdraws toy_prg toy_shuffle qs (minit [11; 22]) 1) i = Some d /\
  nth_error (mdraws toy_prg toy_shuffle qs (minit [11; 22]) 1) j = Some e /\
  fst d <= fst e < fst d + snd d.
Proof.
  exists [QDot 64 2 2 2 (Some 0%nat) None], 0%nat, 1%nat, (0, 2), (0, 2).
  repeat split; try reflexivity; try lia. repeat constructor.
Qed.
Print Assumptions C13_dot_mask_reuse_refuted.
(* ... for every stream the two operand masks are the same array *)
Theorem C13_dot_same_masks_refuted : exists q, forall prg shuffle s p f, (f < 4)%nat -> m_d (s p) 0%nat = None ->
  arr prg shuffle q s 0 p f = arr prg shuffle q s 1 p f.
Proof.
  exists (QDot 64 2 2 2 (Some 0%nat) None). intros prg shuffle s p f F H. unfold arr. cbn [mstep slot_arg]. rewrite H.
  unfold tfp_dot. cbn. destruct f as [|[|[|[|f]]]]; try reflexivity; lia.
Qed.
Print Assumptions C13_dot_same_masks_refuted.

(* C11 with the cache: any history of enabling/disabling buffers and of cached and uncached products,
   squares and matrix products; the next operation is accepted by all parties and every element of its
   result shares the exact product of the plaintexts modulo 2^k.  [plain x i j] is the value that
   the parties' buffers share at element (i,j) of view x. *)
Theorem C11_cache prg seeds k mem ops o :
  (forall w s c i, 0 <= w -> word w (prg w s c i)) -> (0 < length seeds)%nat -> 0 < k ->
  Forall op_ok ops -> op_ok o ->
  let s := crun prg k (length seeds) mem ops (cinit seeds) in
  exists Z0 : nat -> nat -> nat -> Z,
    (forall p, (p < length seeds)%nat -> exists s', cstep prg k (length seeds) mem o s p = Ok (s', Z0 p)) /\
    forall i j v, op_val seeds mem o i j v -> exists z, is_mod k v z /\ shA k (length seeds) (fun p => Z0 p i j) z.
Proof.
  intros W N K F OK s. destruct (crun_ok prg W seeds N k K mem ops (cinit seeds) 0 [] [] (crel_init prg seeds k mem) F) as [c [on [es R]]].
  destruct (cstep_ok prg W seeds N k K mem s c on es o R OK) as [c' [on' [es' [Z0 [S' [E [_ G]]]]]]].
  exists Z0. split; [|exact G]. intros p P. eauto.
Qed.
Print Assumptions C11_cache.
(* a history with a plain hit and a transposed hit *)
Definition ex_x : view := mkView 0 0 2 3 3 1.
Definition ex_xt : view := mkView 0 0 3 2 1 3.
Definition ex_mem (p b : nat) (o : Z) : Z := Z.of_nat (S p) * 5 + Z.of_nat b * 11 + o * 3.
Definition ex_ops : list cop := [CEnable 0; CMul ex_x ex_x; CMatMul ex_x (mkView 1 0 3 2 2 1); CMatMul ex_xt ex_x].
Example C11_cache_ex : Forall op_ok (ex_ops ++ [CSquare ex_x]) /\
  let s := crun toy_prg 32 2 ex_mem ex_ops (cinit [11; 22]) in
  map (fun p => match cstep toy_prg 32 2 ex_mem (CMatMul ex_xt ex_x) s p with Ok (_, z) => z 1%nat 2%nat | _ => 0 end) [0; 1]%nat
   = [2213893150; 2081076468] /\ 2213893150 + 2081076468 = 21 * 27 + 39 * 45 + 2 ^ 32 /\
  map (fun ij => plain [11; 22] ex_mem ex_x (fst ij) (snd ij)) [(0, 1); (0, 2); (1, 1); (1, 2)]%nat = [21; 27; 39; 45] /\
  (* one cache entry serves the plain and the transposed operand *)
  length (ch_ent (p_c (s 1%nat))) = 1%nat.
Proof. split; [repeat constructor|]. vm_compute. repeat split. Qed.
