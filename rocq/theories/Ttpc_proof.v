From Verif Require Import Base Prg_model Ring_model Ring_spec Ring_proof Share_spec Party Semi_model Semi_proof Beaver_model Beaver_spec Beaver_proof Ttp_model Ttp_spec Ttpp_model Ttpp_spec Ttpp_proof.
Open Scope Z_scope.

Lemma nth_map_seq (g : nat -> Z) size i : (i < size)%nat -> nth i (map g (seq 0 size)) 0 = g i.
Proof. intros I. rewrite nth_indep with (d' := g 0%nat) by (now rewrite map_length, seq_length). rewrite map_nth, seq_nth by exact I. reflexivity. Qed.

Definition idsh (s c : Z) (m : nat) : list nat * Z := (seq 0 m, c).
Lemma idsh_perm : forall s c m, Permutation (fst (idsh s c m)) (seq 0 m). Proof. reflexivity. Qed.
Lemma idsh_ctr : forall s c m, c <= snd (idsh s c m). Proof. intros. apply Z.le_refl. Qed.
Section Ops.
Variable prg : Z -> Z -> Z -> nat -> Z.
Hypothesis STR : stream prg.
Variable seeds : list Z.
Notation n := (length seeds).
Variable r : nat.
Hypothesis R : (r < n)%nat.
Variables (C : nat) (err : bytes).
Variables (net : bytes -> list bytes * bool) (junk : nat -> nat -> Z).
Hypothesis NET : lossless net.
Hypothesis C1 : Z.of_nat C < 2 ^ 64.
Definition mkt (p : nat) (c : Z) : bst := mkBst (sd seeds p) c seeds.

Lemma n0 : (0 < n)%nat. Proof. clear - R. lia. Qed.
Lemma prgw : forall w s c i, 0 <= w -> word w (prg w s c i). Proof. apply STR. Qed.
(* the arrays after the adjusting party added w *)
Definition adjf (op : Z -> Z -> Z) (k c : Z) (w : list Z) (p : nat) : nat -> Z :=
  if (p =? r)%nat then fun i => op (prg k (sd seeds p) c i) (nth i w 0) else prg k (sd seeds p) c.
Lemma adjusted_ok op k c call w p : call = Ok [w] -> adjusted r p op call (prg k (sd seeds p) c) = Ok (adjf op k c w p).
Proof. intros ->. unfold adjusted, adjf. now destruct (p =? r)%nat. Qed.
Lemma tot_at k c w i : eqm k (tot n (adjf (radd k) k c w) i) (total n (pa prg seeds k c i) + nth i w 0).
Proof.
  clear - R. unfold tot. transitivity (total n (fun p => pa prg seeds k c i p + (if (p =? r)%nat then nth i w 0 else 0))).
  - apply total_eqm. intros p P. unfold adjf, pa. destruct (p =? r)%nat; [apply eqm_radd|now rewrite Z.add_0_r].
  - rewrite total_add, total_delta by exact R. reflexivity.
Qed.
Lemma xtot_at k c w i : xtot n (adjf rxor k c w) i = Z.lxor (xtotal n (pa prg seeds k c i)) (nth i w 0).
Proof.
  clear - R. unfold xtot. rewrite <- (xtotal_delta n r (nth i w 0) R), <- xtotal_xor. apply xtotal_ext. intros p P. unfold adjf, pa, rxor. destruct (p =? r)%nat; [reflexivity|now rewrite Z.lxor_0_r].
Qed.
(* from the arrays adjusted at rank 0 by any adjustment with the same element *)
Lemma to_0 k c w d i v : 0 <= k -> nth i w 0 = d O i -> cong k v (tot n (fun p => if (p =? 0)%nat then fun i => radd k (prg k (sd seeds p) c i) (d p i) else prg k (sd seeds p) c) i) -> cong k v (tot n (adjf (radd k) k c w) i).
Proof. intros K E H. apply cong_eqm; [exact K|]. apply eqm_cong in H. rewrite <- H, tot_at, E. symmetry. apply tot_adj; [exact n0|exact K]. Qed.
Lemma xto_0 k c w d i : nth i w 0 = d O i -> xtot n (adjf rxor k c w) i = xtot n (fun p => if (p =? 0)%nat then fun i => rxor (prg k (sd seeds p) c i) (d p i) else prg k (sd seeds p) c) i.
Proof. intros E. rewrite xtot_at, E. symmetry. apply xtot_adj. exact n0. Qed.

Section Field.
Variables (k : Z) (K : okw k).
Hypothesis C16 : ((C / word_size k * word_size k) mod 16 = 0)%nat.
Hypothesis C0 : (0 < word_size k <= C)%nat.
Lemma k0 : 0 <= k. Proof. destruct K as [ ->|[ ->| ->]]; discriminate. Qed.
Lemma k1 : 0 < k. Proof. destruct K as [ ->|[ ->| ->]]; reflexivity. Qed.
Notation op c := (mkOp seeds c k false).
Ltac shift_tac :=
  let m := fresh "m" in let ops' := fresh "ops'" in let F := fresh "F" in
  intros m ops' F; repeat match goal with H : Forall2 _ (_ :: _) _ |- _ => inversion H; subst; clear H | H : Forall2 _ [] _ |- _ => inversion H; subst; clear H end;
  eexists; split; [reflexivity|]; intros i; cbv beta.
Ltac one_tac := intros ops d; repeat match goal with |- context [match ?l with [] => _ | _ :: _ => _ end] => destruct l end; try exact I; eexists; reflexivity.
Ltac redu := repeat match goal with H : shifted _ _ _ _ |- _ => progress rewrite ?(reduce_shift _ _ _ _ _ _ H) end.

Lemma single_mul ca cb cc : single prg k (fun ops _ => match ops with [x; y; z] => Ok [adjust_mul prg k x y z] | _ => Err end) [op ca; op cb; op cc] (adjust_mul prg k (op ca) (op cb) (op cc)).
Proof. split; [one_tac|repeat constructor| |intros i; apply rsub_word, k0]. shift_tac. unfold adjust_mul. redu. reflexivity. Qed.
Lemma single_priv ca cc : single prg k (fun ops _ => match ops with [x; z] => Ok [adjust_mul_priv prg k x z] | _ => Err end) [op ca; op cc] (adjust_mul_priv prg k (op ca) (op cc)).
Proof. split; [one_tac|repeat constructor| |intros i; apply rsub_word, k0]. shift_tac. unfold adjust_mul_priv. redu. reflexivity. Qed.
Lemma single_square ca cc : single prg k (fun ops _ => match ops with [x; z] => Ok [adjust_square prg k x z] | _ => Err end) [op ca; op cc] (adjust_square prg k (op ca) (op cc)).
Proof. split; [one_tac|repeat constructor| |intros i; apply rsub_word, k0]. shift_tac. unfold adjust_square. redu. reflexivity. Qed.
Lemma single_trunc bits ca cc : single prg k (fun ops _ => match ops with [x; z] => Ok [adjust_trunc prg k bits x z] | _ => Err end) [op ca; op cc] (adjust_trunc prg k bits (op ca) (op cc)).
Proof. split; [one_tac|repeat constructor| |intros i; apply rsub_word, k0]. shift_tac. unfold adjust_trunc. redu. reflexivity. Qed.
Lemma single_randbit rb ca : single prg k (fun ops drawn => match ops with [x] => Ok [adjust_randbit prg k (fun i => rb (drawn + i)%nat) x] | _ => Err end) [op ca] (adjust_randbit prg k rb (op ca)).
Proof. split; [one_tac|repeat constructor| |intros i; apply rsub_word, k0]. shift_tac. unfold adjust_randbit. redu. reflexivity. Qed.
Lemma single_eqz ca cb : single prg k (fun ops _ => match ops with [x; y] => Ok [adjust_eqz prg k x y] | _ => Err end) [op ca; op cb] (adjust_eqz prg k (op ca) (op cb)).
Proof.
  split; [one_tac|repeat constructor| |]. { shift_tac. unfold adjust_eqz. redu. reflexivity. }
  intros i. unfold adjust_eqz, rxor. apply word_lxor; [exact k0|apply (reduce_add_eqm prg prgw seeds n0 k ca false i k0)|]. rewrite (reduce_xor prg seeds n0). apply xtotal_word; [exact k0|]. intros p _. apply prgw, k0.
Qed.
Notation bl s := (blocks k (Z.of_nat s)).
Ltac go L N := rewrite (adjusted_ok _ _ _ _ _ _ (serve_single prg STR C err k K C16 C0 C1 net junk NET _ _ _ _ L N)).
Ltac fin := cbn [rbind]; unfold mkt; repeat f_equal; ring.

Lemma mul_ok c size : (0 < size)%nat -> exists A B D, (forall p, ttp_mul prg C err r net junk k p (mkt p c) size = Ok (mkTriple (A p) (B p) (D p), mkt p (c + bl size + bl size + bl size))) /\ mul_upto k n size A B D.
Proof.
  intros N. set (ca := c). set (cb := ca + bl size). set (cc := cb + bl size). exists (fun p => prg k (sd seeds p) ca), (fun p => prg k (sd seeds p) cb). eexists. split.
  - intros p. unfold ttp_mul, fresh, create. cbn [b_seed b_ctr b_seeds mkt]. fold cb. fold cc. go (single_mul ca cb cc) N. reflexivity.
  - intros i I. eapply to_0 with (d := fun p => adjust_mul prg k (mkOp (tbl seeds p) ca k false) (mkOp (tbl seeds p) cb k false) (mkOp (tbl seeds p) cc k false)); [exact k0|now rewrite nth_map_seq|]. apply (mul_valid prg prgw seeds n0 k ca cb cc k0).
Qed.
Lemma priv_ok c size : (0 < size)%nat -> exists A D, (forall p, ttp_mul_priv prg C err r net junk k p (mkt p c) size = Ok (A p, D p, mkt p (c + bl size + bl size))) /\ priv_upto k n size A D.
Proof.
  intros N. set (ca := c). set (cb := ca + bl size). exists (fun p => prg k (sd seeds p) ca). eexists. split.
  - intros p. unfold ttp_mul_priv, fresh, create. cbn [b_seed b_ctr b_seeds mkt]. fold cb. go (single_priv ca cb) N. reflexivity.
  - intros i I. eapply to_0 with (d := fun p => adjust_mul_priv prg k (mkOp (tbl seeds p) ca k false) (mkOp (tbl seeds p) cb k false)); [exact k0|now rewrite nth_map_seq|]. apply (priv_valid prg prgw seeds n0 k ca cb k0).
Qed.
Lemma square_ok c size : (0 < size)%nat -> exists A D, (forall p, ttp_square prg C err r net junk k p (mkt p c) size = Ok (A p, D p, mkt p (c + bl size + bl size))) /\ square_upto k n size A D.
Proof.
  intros N. set (ca := c). set (cb := ca + bl size). exists (fun p => prg k (sd seeds p) ca). eexists. split.
  - intros p. unfold ttp_square, fresh, create. cbn [b_seed b_ctr b_seeds mkt]. fold cb. go (single_square ca cb) N. reflexivity.
  - intros i I. eapply to_0 with (d := fun p => adjust_square prg k (mkOp (tbl seeds p) ca k false) (mkOp (tbl seeds p) cb k false)); [exact k0|now rewrite nth_map_seq|]. apply (square_valid prg prgw seeds n0 k ca cb k0).
Qed.
Lemma trunc_ok c size bits : (0 < size)%nat -> exists A D, (forall p, ttp_trunc prg C err r net junk k p (mkt p c) size bits = Ok (A p, D p, mkt p (c + bl size + bl size))) /\ trunc_upto k bits n size A D.
Proof.
  intros N. set (ca := c). set (cb := ca + bl size). exists (fun p => prg k (sd seeds p) ca). eexists. split.
  - intros p. unfold ttp_trunc, fresh, create. cbn [b_seed b_ctr b_seeds mkt]. fold cb. go (single_trunc bits ca cb) N. reflexivity.
  - intros i x v I M S. eapply to_0 with (d := fun p => adjust_trunc prg k bits (mkOp (tbl seeds p) ca k false) (mkOp (tbl seeds p) cb k false)); [exact k0|now rewrite nth_map_seq|]. exact (trunc_valid prg prgw seeds n0 idsh idsh_perm idsh_ctr k bits ca cb k1 i x v M S).
Qed.
Lemma randbit_ok c size rb : (0 < size)%nat -> exists A, (forall p, ttp_randbit prg C err r net junk k p (mkt p c) size rb = Ok (A p, mkt p (c + bl size))) /\ bits_upto k n size rb A.
Proof.
  intros N. set (ca := c). eexists. split.
  - intros p. unfold ttp_randbit, fresh, create. cbn [b_seed b_ctr b_seeds mkt]. go (single_randbit rb ca) N. reflexivity.
  - intros i I. eapply to_0 with (d := fun p => adjust_randbit prg k rb (mkOp (tbl seeds p) ca k false)); [exact k0|now rewrite nth_map_seq|]. apply (randbit_valid prg prgw seeds n0 k rb ca k0).
Qed.
Lemma eqz_ok c size : (0 < size)%nat -> exists A D, (forall p, ttp_eqz prg C err r net junk k p (mkt p c) size = Ok (A p, D p, mkt p (c + bl size + bl size))) /\ dual_upto k n size A D.
Proof.
  intros N. set (ca := c). set (cb := ca + bl size). exists (fun p => prg k (sd seeds p) ca). eexists. split.
  - intros p. unfold ttp_eqz, fresh, create. cbn [b_seed b_ctr b_seeds mkt]. fold cb. go (single_eqz ca cb) N. reflexivity.
  - intros i I. erewrite xto_0 with (d := fun p => adjust_eqz prg k (mkOp (tbl seeds p) ca k false) (mkOp (tbl seeds p) cb k false)); [|now rewrite nth_map_seq]. apply (eqz_valid prg prgw seeds n0 idsh idsh_perm idsh_ctr k ca cb k0).
Qed.
Lemma truncpr_ok c size bits : 0 <= bits < k -> (0 < size <= C / word_size k)%nat -> exists A B D, (forall p, ttp_truncpr prg C err r net junk k p (mkt p c) size bits = Ok (mkTriple (A p) (B p) (D p), mkt p (c + bl size + bl size + bl size))) /\ truncpr_upto k bits n size A B D.
Proof.
  intros D N. set (ca := c). set (cb := ca + bl size). set (cc := cb + bl size).
  set (g1 := fun i => fst (adjust_truncpr prg k bits (op ca) (op cb) (op cc) i)). set (g2 := fun i => snd (adjust_truncpr prg k bits (op ca) (op cb) (op cc) i)).
  exists (fun p => prg k (sd seeds p) ca), (adjf (radd k) k cb (map g1 (seq 0 size))), (adjf (radd k) k cc (map g2 (seq 0 size))). split.
  - intros p. unfold ttp_truncpr, fresh, create. cbn [b_seed b_ctr b_seeds mkt]. fold cb. fold cc.
    rewrite (serve_two C err k K C16 C0 C1 net junk NET (fun ops _ => match ops with [x; y; z] => Ok [fun i => fst (adjust_truncpr prg k bits x y z i); fun i => snd (adjust_truncpr prg k bits x y z i)] | _ => Err end) [op ca; op cb; op cc] g1 g2 size eq_refl (fun i => rsub_word _ _ _ k0) (fun i => rsub_word _ _ _ k0) N).
    unfold adjf. destruct (p =? r)%nat; reflexivity.
  - intros i x I M. destruct (truncpr_valid prg prgw seeds n0 idsh idsh_perm idsh_ctr k bits ca cb cc k1 D i x M) as [V1 V2]. split.
    + eapply to_0 with (d := fun p i => fst (adjust_truncpr prg k bits (mkOp (tbl seeds p) ca k false) (mkOp (tbl seeds p) cb k false) (mkOp (tbl seeds p) cc k false) i)); [exact k0|now rewrite nth_map_seq|exact V1].
    + eapply to_0 with (d := fun p i => snd (adjust_truncpr prg k bits (mkOp (tbl seeds p) ca k false) (mkOp (tbl seeds p) cb k false) (mkOp (tbl seeds p) cc k false) i)); [exact k0|now rewrite nth_map_seq|exact V2].
Qed.
Lemma dot_ok c m nn kk : (0 < m)%nat -> (0 < nn)%nat -> (0 < kk)%nat -> exists A B D, (forall p, ttp_dot prg C err r net junk k p (mkt p c) m nn kk = Ok (mkTriple (A p) (B p) (D p), mkt p (c + bl (m * kk) + bl (kk * nn) + bl (m * nn)))) /\ dot_triple k n m nn kk A B D.
Proof.
  intros M0 N0 K0. set (ca := c). set (cb := ca + bl (m * kk)). set (cc := cb + bl (kk * nn)).
  set (g := fun f => adjust_dot prg k m nn kk (op ca) (op cb) (op cc) (f / nn)%nat (f mod nn)%nat).
  exists (fun p => prg k (sd seeds p) ca), (fun p => prg k (sd seeds p) cb), (adjf (radd k) k cc (map g (seq 0 (m * nn)))). split.
  - intros p. unfold ttp_dot, fresh, create. cbn [b_seed b_ctr b_seeds mkt]. fold cb. fold cc.
    replace (m * kk =? 0)%nat with false by (symmetry; apply Nat.eqb_neq; nia). replace (kk * nn =? 0)%nat with false by (symmetry; apply Nat.eqb_neq; nia). cbn [orb].
    rewrite (adjusted_ok _ _ _ _ _ _ (serve_whole_one C err k K C16 C0 C1 net junk NET (fun ops _ => match ops with [x; y; z] => Ok [fun f => adjust_dot prg k m nn kk x y z (f / nn)%nat (f mod nn)%nat] | _ => Err end) [op ca; op cb; op cc] g (m * nn) eq_refl (fun i => rsub_word _ _ _ k0) ltac:(clear - M0 N0; nia))). reflexivity.
  - intros i j I J.
    pose proof (dot_valid prg prgw seeds n0 k m nn kk ca false cb false cc (fun p => prg k (sd seeds p) ca) (fun p => prg k (sd seeds p) cb)
      (fun p => if (p =? 0)%nat then fun i => radd k (prg k (sd seeds p) cc i) (g i) else prg k (sd seeds p) cc) k0) as V.
    eapply to_0 with (d := fun _ => g); [exact k0|rewrite nth_map_seq; [reflexivity|clear - I J; nia]|]. apply V; auto.
    intros p P i' j' I' J'. destruct (p =? 0)%nat; [|reflexivity]. unfold g. rewrite Nat.div_add_l, Nat.div_small, Nat.add_0_r by (clear - J'; lia). rewrite Nat.add_comm, Nat.mod_add, Nat.mod_small by (clear - J'; lia). reflexivity.
Qed.
Lemma perm_ok shuffle c pr size : (forall s c m, Permutation (fst (shuffle s c m)) (seq 0 m)) -> (0 < size)%nat -> (pr < n)%nat -> exists A B P c', (forall p, ttp_perm prg C err r net junk shuffle k pr (fun p => mkt p c) size p = Ok (A p, B p, P p, mkt p c')) /\ perm_pair k n size pr A B P.
Proof.
  intros SH N PR. set (ca := c). set (cb := ca + bl size). set (cc := cb + bl size). set (pv := fst (shuffle (nth pr seeds 0) cc size)).
  set (g := adjust_perm prg k pv (op ca) (op cb)).
  exists (fun p => prg k (sd seeds p) ca), (adjf (radd k) k cb (map g (seq 0 size))), (fun p => if (p =? pr)%nat then pv else []), (snd (shuffle (nth pr seeds 0) cc size)).
  assert (LOC : forall p, ttp_perm_local prg shuffle C err r net junk k p (mkt p c) pr size = Ok (prg k (sd seeds p) ca, adjf (radd k) k cb (map g (seq 0 size)) p, (if (p =? pr)%nat then pv else []), mkt p (if (p =? pr)%nat then snd (shuffle (nth pr seeds 0) cc size) else cc))).
  { intros p. unfold ttp_perm_local, fresh, create. cbn [b_seed b_ctr b_seeds mkt]. fold ca. fold cb. fold cc. fold pv.
    rewrite (adjusted_ok _ _ _ _ _ _ (serve_whole_one C err k K C16 C0 C1 net junk NET (fun ops _ => match ops with [x; y] => Ok [adjust_perm prg k pv x y] | _ => Err end) [op ca; op cb] g size eq_refl (fun i => rsub_word _ _ _ k0) N)). cbn [rbind].
    destruct (Nat.eqb_spec p pr) as [->|NE]; [|reflexivity]. unfold pv, mkt, sd. destruct (shuffle (nth pr seeds 0) cc size); reflexivity. }
  split.
  - intros p. unfold ttp_perm. rewrite !LOC. cbn [rbind]. rewrite Nat.eqb_refl. reflexivity.
  - pose proof (SH (nth pr seeds 0) cc size) as PM. fold pv in PM. assert (ND : NoDup pv) by (eapply Permutation_NoDup; [apply Permutation_sym, PM|apply seq_NoDup]). assert (LP : length pv = size) by (rewrite (Permutation_length PM); apply seq_length).
    split; [rewrite Nat.eqb_refl; exact PM|]. split; [intros p _ NE; destruct (Nat.eqb_spec p pr); [contradiction|reflexivity]|]. intros j J. rewrite Nat.eqb_refl.
    eapply to_0 with (d := fun p => adjust_perm prg k pv (mkOp (tbl seeds p) ca k false) (mkOp (tbl seeds p) cb k false)); [exact k0| |apply (perm_valid prg prgw seeds n0 k pv ca cb j k0 ND); rewrite LP; exact J].
    rewrite nth_map_seq; [reflexivity|]. assert (IN : In (nth j pv O) (seq 0 size)) by (eapply Permutation_in; [exact PM|apply nth_In; rewrite LP; exact J]). apply in_seq in IN. clear - IN. lia.
Qed.
End Field.
Lemma and_ok c size : (16 <= C)%nat -> (C mod 16 = 0)%nat -> (0 < size)%nat -> let els := ((size + 15) / 16)%nat in let b := blocks 128 (Z.of_nat els) in
  exists A B D, (forall p, ttp_and prg C err r net junk p (mkt p c) size = Ok (mkTriple (A p) (B p) (D p), mkt p (c + b + b + b))) /\ and_upto n els A B D.
Proof.
  intros C16 CM N els b. assert (EN : (0 < els)%nat) by (unfold els; apply Nat.div_str_pos; clear - N; lia). set (ca := c). set (cb := ca + b). set (cc := cb + b).
  assert (K : okw 128) by (right; now right). assert (WS : word_size 128 = 16%nat) by reflexivity. 
  assert (S : single prg 128 (fun ops _ => match ops with [x; y; z] => Ok [adjust_and prg x y z] | _ => Err end) [mkOp seeds ca 128 false; mkOp seeds cb 128 false; mkOp seeds cc 128 false] (adjust_and prg (mkOp seeds ca 128 false) (mkOp seeds cb 128 false) (mkOp seeds cc 128 false))).
  { split.
    - intros ops d. destruct ops as [|? [|? [|? [|? ?]]]]; try exact I. eexists. reflexivity.
    - repeat constructor.
    - intros m ops' F. inversion F as [|? x ? ? S1 F1]; subst. inversion F1 as [|? y ? ? S2 F2]; subst. inversion F2 as [|? z ? ? S3 F3]; subst. inversion F3; subst. eexists. split; [reflexivity|]. intros i. cbv beta. unfold adjust_and.
      now rewrite (reduce_shift _ _ _ _ _ _ S1), (reduce_shift _ _ _ _ _ _ S2), (reduce_shift _ _ _ _ _ _ S3).
    - intros i. unfold adjust_and, rxor, rand_. rewrite !(reduce_xor prg seeds n0). assert (W : forall c, word 128 (xtotal n (pa prg seeds 128 c i))) by (intros; apply xtotal_word; [lia|]; intros; apply prgw; lia).
      apply word_lxor; [lia| |apply W]. apply word_land_l; [lia|apply W]. }
  assert (D16 : ((C / word_size 128 * word_size 128) mod 16 = 0)%nat) by (rewrite WS; apply Nat.mod_mul; lia).
  exists (fun p => prg 128 (sd seeds p) ca), (fun p => prg 128 (sd seeds p) cb). eexists. split.
  - intros p. unfold ttp_and, fresh, create. cbn [b_seed b_ctr b_seeds mkt]. fold els. fold b. fold ca. fold cb. fold cc.
    rewrite (adjusted_ok _ _ _ _ _ _ (serve_single prg STR C err 128 K D16 ltac:(rewrite WS; lia) C1 net junk NET _ _ _ _ S EN)). reflexivity.
  - intros i I. erewrite xto_0 with (d := fun p => adjust_and prg (mkOp (tbl seeds p) ca 128 false) (mkOp (tbl seeds p) cb 128 false) (mkOp (tbl seeds p) cc 128 false)); [|now rewrite nth_map_seq]. apply (and_valid prg seeds n0 ca cb cc).
Qed.
End Ops.
