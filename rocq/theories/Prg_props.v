(* C15: pseudo-random secret sharing stays synchronised. *)
From Verif Require Import Base Ring_model Ring_spec Semi_model Share_spec Party Semi_proof Prg_model Prg_spec Prg_proof.
Open Scope Z_scope.

(* the constructor: every party receives its successor's seed, and all get the same public seed *)
Theorem C15_init n pk priv self : forall rank, (rank < n)%nat -> exists s, prg_init n pk priv self rank = Ok s /\
  next_seed s = self (nextrank n rank) /\ self_seed s = self rank /\
  (forall rank' s', (rank' < n)%nat -> prg_init n pk priv self rank' = Ok s' -> pub_seed s' = pub_seed s).
Proof.
  intros rank R. eexists. split; [exact (init_ok n pk priv self rank R)|]. split; [reflexivity|]. split; [reflexivity|].
  intros rank' s' R' E. rewrite init_ok in E by exact R'. now injection E as <-.
Qed.
Print Assumptions C15_init.

(* Parties may run different programs (some draw only the first, some only the second element of the pair).
   Whenever the draws of party i from the second stream are those its successor makes from the first stream, in the same
   order, both obtain the same values and their streams are again at the same positions, for every live (forked) generator. *)
Theorem C15_streams_aligned fill shuffle n pk priv self fresh (h : nat -> list pop) i a b Fa Fb oa ob :
  let j := nextrank n i in (i < n)%nat ->
  prg_init n pk priv self i = Ok a -> prg_init n pk priv self j = Ok b ->
  prg_run fill shuffle (fresh i) [a] (h i) = Ok (Fa, oa) -> prg_run fill shuffle (fresh j) [b] (h j) = Ok (Fb, ob) ->
  flat_map second_draw (h i) = flat_map first_draw (h j) ->
  flat_map second_value oa = flat_map first_value ob /\
  map (fun s => (next_seed s, r1_ctr s)) Fa = map (fun s => (self_seed s, r0_ctr s)) Fb.
Proof.
  intros j I Ea Eb Ra Rb M. assert (J : (j < n)%nat) by (unfold j, nextrank; destruct (Nat.eqb_spec (S i) n); lia).
  rewrite init_ok in Ea, Eb by assumption. injection Ea as <-. injection Eb as <-.
  destruct (run_streams _ _ _ _ _ _ _ Ra) as [_ A]. destruct (run_streams _ _ _ _ _ _ _ Rb) as [B _].
  unfold s0, s1 in A, B. cbn [map next_seed self_seed r0_ctr r1_ctr] in A, B. fold j in A. rewrite M, B in A. injection A as A1 A2.
  split; now symmetry.
Qed.
Print Assumptions C15_streams_aligned.

(* After any matched histories, one joint draw of pairs is an additive and a boolean sharing of zero, element by element. *)
Theorem C15_zero_share fill shuffle n pk priv self fresh (h : nat -> list pop) id bytes sz (A B : nat -> list Z) st F outs :
  (forall s c m b, In b (fst (fill s c m)) -> 0 <= b < 256) -> (0 < n)%nat -> (0 < sz)%nat ->
  (forall i, (i < n)%nat -> flat_map second_draw (h i) = flat_map first_draw (h (nextrank n i))) ->
  (forall i, (i < n)%nat -> prg_init n pk priv self i = Ok (st i)) ->
  (forall i, (i < n)%nat -> prg_run fill shuffle (fresh i) [st i] (h i ++ [OPrss id bytes Both]) = Ok (F i, outs i ++ [RPair (Some (A i)) (Some (B i))])) ->
  let k := 8 * Z.of_nat sz in
  forall idx, shA k n (fun i => rsub k (word_at sz (A i) idx) (word_at sz (B i) idx)) 0 /\
              shB k n (fun i => rxor (word_at sz (A i) idx) (word_at sz (B i) idx)) 0.
Proof.
  intros BY N SZ M I R k idx.
  assert (LAST : forall (u v : list value) x y, u ++ [x] = v ++ [y] -> x = y) by (intros u v x y E; apply app_inj_tail in E; apply E).
  assert (E : forall i, (i < n)%nat -> B i = A (nextrank n i)).
  { intros i Hi. assert (J : (nextrank n i < n)%nat) by (unfold nextrank; destruct (Nat.eqb_spec (S i) n); lia).
    pose proof (C15_streams_aligned fill shuffle n pk priv self fresh (fun i => h i ++ [OPrss id bytes Both]) i _ _ _ _ _ _ Hi (I i Hi) (I _ J) (R i Hi) (R _ J)) as [E _].
    - now rewrite !flat_map_app, M.
    - rewrite !flat_map_app in E. cbn [flat_map second_value first_value app] in E. apply LAST in E. congruence. }
  assert (BA : forall i b, (i < n)%nat -> In b (A i) -> 0 <= b < 256).
  { intros i b Hi HB. pose proof (R i Hi) as RR. clear -RR HB BY.
    assert (G : forall hh FF F' oo x y, prg_run fill shuffle (fresh i) FF (hh ++ [OPrss id bytes Both]) = Ok (F', oo ++ [RPair (Some x) y]) -> exists s c, x = fst (fill s c bytes)).
    { induction hh as [|o hh IH]; intros FF F' oo x y; cbn [app prg_run].
      - unfold prg_step. cbn [op_id]. destruct (nth_error FF id) as [s|]; [|discriminate]. unfold fill_prss.
        destruct (fill (self_seed s) (r0_ctr s) bytes) as [b0 c0] eqn:F0. destruct (fill (next_seed s) (r1_ctr s) bytes) as [b1 c1]. cbn [rbind].
        intros H. injection H as _ H. change [RPair (Some b0) (Some b1)] with ([] ++ [RPair (Some b0) (Some b1)]) in H. apply app_inj_tail in H. destruct H as [_ H].
        injection H as <- _. exists (self_seed s), (r0_ctr s). now rewrite F0.
      - destruct (prg_step fill shuffle (fresh i) FF o) as [[F1 r]| |]; cbn [rbind]; try discriminate.
        destruct (prg_run fill shuffle (fresh i) F1 (hh ++ [OPrss id bytes Both])) as [[F2 rs]| |] eqn:E2; cbn [rbind]; try discriminate.
        intros H. injection H as _ H. destruct oo as [|o0 oo].
        + cbn in H. injection H as _ H. subst rs.
          exfalso. apply run_length in E2. rewrite app_length in E2. cbn in E2. lia.
        + cbn in H. injection H as _ H. subst rs. exact (IH _ _ _ _ _ E2). }
    destruct (G _ _ _ _ _ _ RR) as [s [c EA]]. apply (BY s c bytes). now rewrite <- EA. }
  assert (WA : forall i, (i < n)%nat -> word k (word_at sz (A i) idx)) by (intros; apply word_at_word; eauto).
  assert (J : forall i, (i < n)%nat -> (nextrank n i < n)%nat) by (intros; unfold nextrank; destruct (Nat.eqb_spec (S i) n); lia).
  split.
  - apply shA_of; [unfold k; lia|intros; apply rsub_word; unfold k; lia|apply Party.word_0; unfold k; lia|].
    transitivity (total n (fun i => word_at sz (A i) idx - word_at sz (A (nextp n i)) idx)).
    + apply total_eqm. intros i Hi. rewrite eqm_rsub, E by exact Hi. reflexivity.
    + rewrite total_sub, (total_next n (fun i => word_at sz (A i) idx) N), Z.sub_diag. reflexivity.
  - split; [|split; [apply Party.word_0; unfold k; lia|]].
    + intros i Hi. rewrite E by exact Hi. apply Party.word_lxor; [unfold k; lia|auto|auto].
    + rewrite (xtotal_ext n _ (fun i => Z.lxor (word_at sz (A i) idx) (word_at sz (A (nextp n i)) idx))) by (intros i Hi; now rewrite E by exact Hi).
      now rewrite xtotal_xor, (xtotal_next n (fun i => word_at sz (A i) idx) N), Z.lxor_nilpotent.
Qed.
Print Assumptions C15_zero_share.

(* all parties running the same program: no run fails, the draws always match, and all public values agree *)
Theorem C15_same_program fill shuffle n pk priv self fresh h st : (forall i, (i < n)%nat -> prg_init n pk priv self i = Ok (st i)) -> live 1 h ->
  (forall i, (i < n)%nat -> exists F o, prg_run fill shuffle (fresh i) [st i] h = Ok (F, o)) /\
  (forall i j F o F' o', (i < n)%nat -> (j < n)%nat -> prg_run fill shuffle (fresh i) [st i] h = Ok (F, o) -> prg_run fill shuffle (fresh j) [st j] h = Ok (F', o') ->
     flat_map pub_value (combine h o) = flat_map pub_value (combine h o')).
Proof.
  intros I L. split; [intros i Hi; now apply run_live|]. intros i j F o F' o' Hi Hj R R'.
  apply run_pub in R, R'. pose proof (I i Hi) as Ei. pose proof (I j Hj) as Ej. rewrite init_ok in Ei, Ej by assumption. injection Ei as Ei. injection Ej as Ej.
  rewrite <- Ei in R. rewrite <- Ej in R'. unfold sp in R, R'; cbn [map pub_seed pub_ctr] in R, R'. rewrite R in R'. now injection R' as _ E.
Qed.
Print Assumptions C15_same_program.
(* whole-pair draws match by construction *)
Theorem C15_both_matched h : (forall id b c, In (OPrss id b c) h -> c = Both) -> flat_map second_draw h = flat_map first_draw h.
Proof.
  induction h as [|o h IH]; intros H; [reflexivity|]. cbn [flat_map]. rewrite IH by (intros; apply (H id b c); now right). f_equal.
  destruct o as [i b c| | | | |]; try reflexivity. rewrite (H i b c) by now left. reflexivity.
Qed.
Print Assumptions C15_both_matched.

(* three parties; a first-only draw of party 1 matched by a second-only draw of party 0, then a fork and a draw on it *)
Definition ex_fill (s c : Z) (m : nat) : list Z * Z := (map (fun i => (s * 31 + (c + Z.of_nat i) * 7) mod 256) (seq 0 m), c + Z.of_nat m).
Definition ex_shuffle (s c : Z) (m : nat) : list nat * Z := (rev (seq 0 m), c + 1).
Definition ex_h (i : nat) : list pop :=
  [OPrss 0 8 (if (i =? 0)%nat then Second else if (i =? 1)%nat then First else First)]
  ++ (if (i =? 0)%nat then [] else []) ++ (if (i =? 1)%nat then [OPrss 0 8 Second] else [])
  ++ (if (i =? 0)%nat then [OPriv 0 3] else []) ++ [OFork 0; OPubl 1 4].
Definition ex_st (i : nat) : prg := match prg_init 3 (fun i => Z.of_nat i) (fun i => 7) (fun i => Z.of_nat i * 5 + 1) i with Ok s => s | _ => mkPrg 0 0 0 0 0 0 0 0 end.
Example C15_ex :
  (forall i, (i < 3)%nat -> flat_map second_draw (ex_h i) = flat_map first_draw (ex_h (nextrank 3 i))) /\
  let get i := match prg_run ex_fill ex_shuffle (fun _ => 9) [ex_st i] (ex_h i ++ [OPrss 1 8 Both]) with
               | Ok (_, o) => match last o RNone with RPair (Some a) (Some b) => (word_at 4 a 1, word_at 4 b 1) | _ => (0, 1) end | _ => (0, 1) end in
  map (fun i => fst (get i)) [0; 1; 2]%nat <> [0; 0; 0] /\
  (sumZ (map (fun i => fst (get i) - snd (get i)) [0; 1; 2]%nat)) = 0.
Proof.
  split.
  - intros i I. destruct i as [|[|[|i]]]; [reflexivity|reflexivity|reflexivity|lia].
  - vm_compute. split; [discriminate|reflexivity].
Qed.
(* without matching, the streams separate: all parties drawing only the first element once *)
Theorem C15_unmatched_refuted : exists h i j b, j = nextrank 2 i /\ flat_map second_draw h <> flat_map first_draw h /\
  match prg_run ex_fill ex_shuffle (fun _ => 0) [ex_st i] (h ++ [OPrss 0 4 Both]), prg_run ex_fill ex_shuffle (fun _ => 0) [ex_st j] (h ++ [OPrss 0 4 Both]) with
  | Ok (_, oa), Ok (_, ob) => match last oa RNone, last ob RNone with RPair _ (Some r1), RPair (Some r0) _ => negb (nth b r1 0 =? nth b r0 0) | _, _ => false end
  | _, _ => false end = true.
Proof. exists [OPrss 0 4 First], 0%nat, 1%nat, 0%nat. split; [reflexivity|]. split; [discriminate|]. vm_compute. reflexivity. Qed.
Print Assumptions C15_unmatched_refuted.
