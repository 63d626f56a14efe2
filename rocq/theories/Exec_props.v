(* C44: executing a block with worker threads gives what sequential execution gives. *)
From Verif Require Import Base Exec_model Exec_spec Exec_proof Execs_proof Exect_proof.
Local Open Scope nat_scope.

(* If sequential execution of a block succeeds, then with any number of threads and under any schedule no thread ever
   fails; and when all threads are done, the block's results and every value it defined are the sequential ones, and
   every kernel has run exactly once. *)
Theorem C44_parallel_equals_sequential {V : Type} (n : nat) (ops : list (op V)) (term : list key) (e : env V) (rs : list V) :
  ssa ops e -> captures_with_operand ops -> run_block ops term e = Some rs -> 0 < n ->
  forall L s, exec n ops e L s ->
    s_crash s = false /\
    (finished n s -> par_results s term = Some rs /\ (forall k v, seq_value ops e k v -> s_env s k = Some v) /\
                     forall i, i < length ops -> count_run i L = 1).
Proof. intros S0 C R N L s X. exact (parallel_ok n ops term e rs S0 C R L s N X). Qed.
Print Assumptions C44_parallel_equals_sequential.

(* at no point is every thread blocked: as long as some thread is not done, a thread can move without relying on a
   spurious wake-up *)
Theorem C44_no_deadlock {V : Type} (n : nat) (ops : list (op V)) (term : list key) (e : env V) (rs : list V) :
  ssa ops e -> captures_with_operand ops -> run_block ops term e = Some rs ->
  forall L s, exec n ops e L s -> finished n s \/ exists l s', step n ops s l s' /\ l <> LSpur.
Proof. intros S0 C R L s X. exact (no_deadlock n ops term e rs S0 C R L s X). Qed.
Print Assumptions C44_no_deadlock.

(* every schedule is finite: its length is bounded by a constant of the block plus a constant per spurious wake-up *)
Theorem C44_terminates {V : Type} (n : nat) (ops : list (op V)) (term : list key) (e : env V) (rs : list V) :
  ssa ops e -> captures_with_operand ops -> run_block ops term e = Some rs ->
  exists B C, forall L s, exec n ops e L s -> length L <= B + C * spurious L.
Proof. intros S0 C R. exact (terminates n ops term e rs S0 C R). Qed.
Print Assumptions C44_terminates.

(* and from every reachable state the execution can be completed *)
Theorem C44_can_finish {V : Type} (n : nat) (ops : list (op V)) (term : list key) (e : env V) (rs : list V) :
  ssa ops e -> captures_with_operand ops -> run_block ops term e = Some rs ->
  forall L s, exec n ops e L s -> exists L' s', exec n ops e (L ++ L') s' /\ finished n s' /\ spurious L' = 0.
Proof. intros S0 C R L s X. exact (can_finish n ops term e rs S0 C R L s X). Qed.
Print Assumptions C44_can_finish.

(* no kernel ever runs twice, whatever the schedule *)
Theorem C44_at_most_once {V : Type} (n : nat) (ops : list (op V)) (term : list key) (e : env V) (rs : list V) :
  ssa ops e -> captures_with_operand ops -> run_block ops term e = Some rs ->
  forall L s i, exec n ops e L s -> count_run i L <= 1.
Proof. intros S0 C R L s i X. exact (once n ops term e rs S0 C R L s i X). Qed.
Print Assumptions C44_at_most_once.

(* an operation with side effects that has a result is over before any later operation with an operand starts *)
Theorem C44_side_effect_order {V : Type} (n : nat) (ops : list (op V)) (term : list key) (e : env V) (rs : list V) :
  ssa ops e -> captures_with_operand ops -> run_block ops term e = Some rs ->
  forall L s i j o p, exec n ops e L s -> i < j -> nth_error ops i = Some o -> nth_error ops j = Some p ->
    o_side o = true -> o_dbg o = false -> o_res o <> [] -> o_in p <> [] -> before (LRun i) (LStart j) L.
Proof.
  intros S0 C R L s i j o p X IJ O P SD D. apply (side_effect_order n ops term e rs S0 C R L s i j o p X IJ O P).
  unfold orders. rewrite SD, D. reflexivity.
Qed.
Print Assumptions C44_side_effect_order.

(* ---- a concrete block ---- *)
Definition sum1 (c : Z) (vs : list Z) : option (list Z) := Some [Z.add c (fold_right Z.add 0%Z vs)].
Definition ex_env : env Z := fun k => if k =? 0 then Some 10%Z else None.
(* %1 = const 5; %2 = add %0 %1 (side effect); %3 = if (%1) { uses %2 }; free %1; return %3, %2 *)
Definition ex_ops : list (op Z) :=
  [ mkOp [] [] [1] (sum1 5) false false false;
    mkOp [0; 1] [] [2] (sum1 0) false true false;
    mkOp [1] [2] [3] (sum1 7) false false false;
    mkOp [1] [] [] (fun _ => Some []) true false false ].
Lemma ex_ssa : ssa ex_ops ex_env.
Proof.
  split; [cbn; repeat constructor; cbn; intuition congruence|]. split; [cbn; intros k [<-|[<-|[<-|[]]]]; reflexivity|]. split.
  - intros i o k O I. destruct i as [|[|[|[|i]]]]; cbn in O; inversion O; subst; cbn in I; clear O.
    + destruct I.
    + destruct I as [<-|[<-|[]]]; [left; discriminate|right]. exists 0, (nth 0 ex_ops (mkOp [] [] [] (sum1 0) false false false)). cbn. auto.
    + destruct I as [<-|[<-|[]]]; right.
      * exists 0, (nth 0 ex_ops (mkOp [] [] [] (sum1 0) false false false)). cbn. auto with arith.
      * exists 1, (nth 1 ex_ops (mkOp [] [] [] (sum1 0) false false false)). cbn. auto with arith.
    + destruct I as [<-|[]]. right. exists 0, (nth 0 ex_ops (mkOp [] [] [] (sum1 0) false false false)). cbn. auto with arith.
    + destruct i; discriminate.
  - intros i o O F. destruct i as [|[|[|[|i]]]]; cbn in O; inversion O; subst; cbn in *; try discriminate; auto.
    destruct i; discriminate.
Qed.
Lemma ex_cap : captures_with_operand ex_ops.
Proof.
  intros i o k O Z I. destruct i as [|[|[|[|i]]]]; cbn in O; inversion O; subst; cbn in *; try discriminate; auto.
  destruct i; discriminate.
Qed.
Example C44_example : run_block ex_ops [3; 2] ex_env = Some [27%Z; 15%Z] /\
  exists L s, exec 2 ex_ops ex_env L s /\ finished 2 s /\ par_results s [3; 2] = Some [27%Z; 15%Z] /\
    before (LRun 1) (LStart 2) L.
Proof.
  assert (R : run_block ex_ops [3; 2] ex_env = Some [27%Z; 15%Z]) by reflexivity. split; [exact R|].
  destruct (C44_can_finish 2 ex_ops [3; 2] ex_env _ ex_ssa ex_cap R [] _ (exec_nil _ _ _)) as (L & s & X & F & _).
  exists L, s. cbn [app] in X. split; [exact X|]. split; [exact F|]. split.
  - exact (proj1 (proj2 (C44_parallel_equals_sequential 2 ex_ops [3; 2] ex_env _ ex_ssa ex_cap R ltac:(lia) L s X) F)).
  - eapply (C44_side_effect_order 2 ex_ops [3; 2] ex_env _ ex_ssa ex_cap R L s 1 2); eauto; try reflexivity; discriminate.
Qed.

(* ---- the limits of the code ---- *)
(* an operation with a region but no operand starts before the values its region uses exist, and fails *)
Definition bad_ops : list (op Z) :=
  [ mkOp [0] [] [1] (sum1 5) false false false; mkOp [] [1] [2] (sum1 7) false false false ].
Theorem C44_capture_without_operand_refuted : exists (ops : list (op Z)) e term rs L s,
  ssa ops e /\ run_block ops term e = Some rs /\ exec 2 ops e L s /\ s_crash s = true.
Proof.
  exists bad_ops, ex_env, [2], [22%Z]. eexists _, _. split; [|split; [reflexivity|]].
  - split; [cbn; repeat constructor; cbn; intuition congruence|]. split; [cbn; intros k [<-|[<-|[]]]; reflexivity|]. split.
    + intros i o k O I. destruct i as [|[|i]]; cbn in O; inversion O; subst; cbn in I; clear O.
      * destruct I as [<-|[]]. left. discriminate.
      * destruct I as [<-|[]]. right. exists 0, (nth 0 bad_ops (mkOp [] [] [] (sum1 0) false false false)). cbn. auto.
      * destruct i; discriminate.
    + intros i o O F. destruct i as [|[|i]]; cbn in O; inversion O; subst; cbn in *; try discriminate. destruct i; discriminate.
  - split.
    + eapply exec_snoc. eapply exec_snoc. eapply exec_snoc. apply exec_nil.
      * eapply (s_pop 2 bad_ops _ 0); cbn; auto.
      * eapply (s_pop 2 bad_ops _ 1); cbn; auto.
      * eapply (s_noread 2 bad_ops _ 1); cbn; auto.
    + reflexivity.
Qed.
Print Assumptions C44_capture_without_operand_refuted.

(* an operation with side effects but no result does not hold back the next one with side effects *)
Definition eff_ops : list (op Z) :=
  [ mkOp [0] [] [] (fun _ => Some []) false true false; mkOp [0] [] [1] (sum1 7) false true false ].
Theorem C44_effect_without_result_refuted : exists (ops : list (op Z)) e term rs L s,
  ssa ops e /\ captures_with_operand ops /\ run_block ops term e = Some rs /\
  (forall o, In o ops -> o_side o = true /\ o_dbg o = false /\ o_in o <> []) /\
  exec 2 ops e L s /\ ~ before (LRun 0) (LStart 1) L.
Proof.
  exists eff_ops, ex_env, [1], [17%Z]. eexists _, _. split; [|split; [|split; [reflexivity|split; [|split]]]].
  - split; [cbn; repeat constructor; cbn; intuition congruence|]. split; [cbn; intros k [<-|[]]; reflexivity|]. split.
    + intros i o k O I. destruct i as [|[|i]]; cbn in O; inversion O; subst; cbn in I; clear O.
      * destruct I as [<-|[]]. left. discriminate.
      * destruct I as [<-|[]]. left. discriminate.
      * destruct i; discriminate.
    + intros i o O F. destruct i as [|[|i]]; cbn in O; inversion O; subst; cbn in *; try discriminate. destruct i; discriminate.
  - intros i o k O Z I. destruct i as [|[|i]]; cbn in O; inversion O; subst; cbn in *; try discriminate. destruct i; discriminate.
  - intros o [<-|[<-|[]]]; cbn; repeat split; discriminate.
  - eapply exec_snoc. eapply exec_snoc. eapply exec_snoc. eapply exec_snoc. eapply exec_snoc. apply exec_nil.
    + eapply (s_pop 2 eff_ops _ 0); cbn; auto.
    + eapply (s_pop 2 eff_ops _ 1); cbn; auto.
    + eapply (s_lock 2 eff_ops _ 1 1); cbn; auto.
    + eapply (s_has 2 eff_ops _ 1); cbn; auto. discriminate.
    + eapply (s_start 2 eff_ops _ 1 1); cbn; auto.
  - intros B. cbn in B. specialize (B [LTau; LTau; LTau; LTau] [] eq_refl). cbn in B. intuition discriminate.
Qed.
Print Assumptions C44_effect_without_result_refuted.

(* nor is an operation with side effects but no operand held back *)
Definition eff2_ops : list (op Z) :=
  [ mkOp [0] [] [1] (sum1 3) false true false; mkOp [] [] [2] (sum1 7) false true false ].
Theorem C44_effect_without_operand_refuted : exists (ops : list (op Z)) e term rs L s,
  ssa ops e /\ captures_with_operand ops /\ run_block ops term e = Some rs /\
  (forall o, In o ops -> o_side o = true /\ o_dbg o = false /\ o_res o <> []) /\
  exec 2 ops e L s /\ ~ before (LRun 0) (LStart 1) L.
Proof.
  exists eff2_ops, ex_env, [2], [7%Z]. eexists _, _. split; [|split; [|split; [reflexivity|split; [|split]]]].
  - split; [cbn; repeat constructor; cbn; intuition congruence|]. split; [cbn; intros k [<-|[<-|[]]]; reflexivity|]. split.
    + intros i o k O I. destruct i as [|[|i]]; cbn in O; inversion O; subst; cbn in I; clear O.
      * destruct I as [<-|[]]. left. discriminate.
      * destruct I.
      * destruct i; discriminate.
    + intros i o O F. destruct i as [|[|i]]; cbn in O; inversion O; subst; cbn in *; try discriminate. destruct i; discriminate.
  - intros i o k O Z I. destruct i as [|[|i]]; cbn in O; inversion O; subst; cbn in *; try discriminate; auto. destruct i; discriminate.
  - intros o [<-|[<-|[]]]; cbn; repeat split; discriminate.
  - eapply exec_snoc. eapply exec_snoc. apply exec_nil.
    + eapply (s_pop 2 eff2_ops _ 0); cbn; auto.
    + eapply (s_pop 2 eff2_ops _ 1); cbn; auto.
  - intros B. cbn in B. specialize (B [LTau] [] eq_refl). cbn in B. intuition discriminate.
Qed.
Print Assumptions C44_effect_without_operand_refuted.
