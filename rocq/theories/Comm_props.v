(* C45: the collectives. *)
From Verif Require Import Base Ring_model Ring_spec Ring_proof Share_spec Party Semi_model Semi_proof Prg_model Comm_model Comm_spec Comm_proof.
Open Scope Z_scope.

(* [runs_to n P r] speaks about every schedule of sends, arrivals and receives; this shows it also gives a finished one,
   from any state reached *)
Theorem C45_finishes {R} n (P : nat -> prog R) r : runs_to n P r ->
  forall L st, exec n (start P) L st -> exists L' st', exec n (start P) (L ++ L') st' /\ done n st' r.
Proof. exact (runs_finish n P r). Qed.
Print Assumptions C45_finishes.

(* allReduce with ring addition: everybody ends with the elementwise sum mod 2^k *)
Theorem C45_allreduce_add k n m (x : nat -> payload) : 0 <= k ->
  (forall i, (i < n)%nat -> length (x i) = m /\ Forall (word k) (x i)) ->
  runs_to n (fun i => comm_allreduce (radd k) n i (x i)) (fun _ => Ok (array m (fun e => total n (fun j => elem e (x j)) mod 2 ^ k))).
Proof.
  intros K H. destruct (allreduce_valid (radd k) n m x) as [G V]; [intros; now apply H|].
  eapply runs_ext; [|exact (valid_runs _ _ _ _ V)]. intros i I. cbv beta. apply (f_equal (@Ok payload)). unfold array. apply map_ext_in. intros e E.
  rewrite allreduce_add; auto. destruct (H i I) as [L F]. rewrite Forall_forall in F. apply F. apply in_seq in E. apply nth_In. lia.
Qed.
Print Assumptions C45_allreduce_add.
(* ... with xor, for both overloads *)
Theorem C45_allreduce_xor n m (x : nat -> payload) : (forall i, (i < n)%nat -> length (x i) = m) ->
  runs_to n (fun i => comm_allreduce rxor n i (x i)) (fun _ => Ok (array m (fun e => xtotal n (fun j => elem e (x j))))) /\
  runs_to n (fun i => comm_allreduce_t rxor n i (x i)) (fun _ => Ok (array m (fun e => xtotal n (fun j => elem e (x j))))).
Proof.
  intros H. split.
  - destruct (allreduce_valid rxor n m x H) as [G V]. eapply runs_ext; [|exact (valid_runs _ _ _ _ V)]. intros i I. cbv beta. apply (f_equal (@Ok payload)). unfold array. apply map_ext.
    intros e. now apply allreduce_xor.
  - destruct (allreduce_t_valid rxor n m x H) as [G V]. eapply runs_ext; [|exact (valid_runs _ _ _ _ V)]. intros i I. cbv beta. apply (f_equal (@Ok payload)). unfold array. apply map_ext.
    intros e. apply allreduce0_xor.
Qed.
Print Assumptions C45_allreduce_xor.
(* the meaning given to allReduce by the kernel models (Semi_model.v) is what every schedule computes, whatever the operator *)
Theorem C45_allreduce_meaning op n m (x : nat -> payload) : (forall i, (i < n)%nat -> length (x i) = m) ->
  runs_to n (fun i => comm_allreduce op n i (x i)) (fun i => Ok (array m (fun e => allreduce op n (fun j => elem e (x j)) i))).
Proof. intros H. destruct (allreduce_valid op n m x H) as [G V]. exact (valid_runs _ _ _ _ V). Qed.
Print Assumptions C45_allreduce_meaning.
(* reduce: the root gets the sum; the others get their own input back *)
Theorem C45_reduce_add k n root m (x : nat -> payload) : 0 <= k -> (root < n)%nat ->
  (forall i, (i < n)%nat -> length (x i) = m /\ Forall (word k) (x i)) ->
  runs_to n (fun i => comm_reduce (radd k) n root i (x i))
    (fun i => Ok (if (i =? root)%nat then array m (fun e => total n (fun j => elem e (x j)) mod 2 ^ k) else x i)).
Proof.
  intros K HR H. destruct (reduce_valid (radd k) n root m x HR) as [G V]; [intros; now apply H|].
  eapply runs_ext; [|exact (valid_runs _ _ _ _ V)]. intros i I. cbv beta. destruct (i =? root)%nat; [|reflexivity]. apply (f_equal (@Ok payload)). unfold array. apply map_ext_in. intros e E.
  rewrite allreduce_add; auto. destruct (H root HR) as [L F]. rewrite Forall_forall in F. apply F. apply in_seq in E. apply nth_In. lia.
Qed.
Print Assumptions C45_reduce_add.
(* rotate: everybody gets the next party's array *)
Theorem C45_rotate n (x : nat -> payload) : runs_to n (fun i => comm_rotate n i (x i)) (fun i => x ((i + 1) mod n)%nat).
Proof.
  eapply runs_ext; [|exact (valid_runs _ _ _ _ (rotate_valid n x))]. intros i I. cbv beta. f_equal. unfold nextrank.
  destruct (Nat.eqb_spec (S i) n) as [E|E]; [rewrite Nat.add_1_r, E, Nat.mod_same by lia; reflexivity|rewrite Nat.mod_small; lia].
Qed.
Print Assumptions C45_rotate.
(* gather: the root gets every party's array in rank order *)
Theorem C45_gather n root (x : nat -> payload) : (root < n)%nat ->
  runs_to n (fun i => comm_gather n root i (x i)) (fun i => if (i =? root)%nat then map x (seq 0 n) else repeat [] n).
Proof. intros H. destruct (comm_gather_valid n root x H) as [G V]. exact (valid_runs _ _ _ _ V). Qed.
Print Assumptions C45_gather.
(* broadcast: everybody gets the root's array; a party that expects another number of elements throws *)
Theorem C45_broadcast n root numel (x : nat -> payload) : (root < n)%nat ->
  runs_to n (fun i => comm_broadcast n root i numel (x i))
    (fun i => if (i =? root)%nat then Ok (x root) else if (length (x root) =? numel)%nat then Ok (x root) else Err).
Proof. intros H. destruct (comm_broadcast_valid n root x numel H) as [G V]. exact (valid_runs _ _ _ _ V). Qed.
Print Assumptions C45_broadcast.
(* collectives one after another: every schedule computes what lockstep rounds compute, although a fast party's messages
   of a later round overtake those of an earlier one *)
Theorem C45_rounds {S} n msg next t (s : nat -> S) : runs_to n (fun i => rounds n msg next t i (s i)) (sync n msg next t s).
Proof. destruct (rounds_valid n msg next t s) as [G V]. exact (valid_runs _ _ _ _ V). Qed.
Print Assumptions C45_rounds.

(* concrete cases: three parties, and a schedule in which messages arrive out of order *)
Definition ex_x (i : nat) : payload := match i with O => [5; 250] | 1%nat => [7; 3] | _ => [255; 4] end.
Example C45_allreduce_ex : (forall i, (i < 3)%nat -> length (ex_x i) = 2%nat /\ Forall (word 8) (ex_x i)) /\
  array 2 (fun e => total 3 (fun j => elem e (ex_x j)) mod 2 ^ 8) = [11; 1].
Proof.
  split; [|reflexivity]. intros i I. destruct i as [|[|[|i]]]; [| | |lia]; (split; [reflexivity|]); repeat (apply Forall_cons || apply Forall_nil); unfold word; cbn; lia.
Qed.
Definition ex_two (i : nat) : prog (list payload) :=
  if (i =? 0)%nat then Send 1 [1] (Send 1 [2] (Ret [])) else Recv 0 (fun a => Recv 0 (fun b => Ret [a; b])).
Lemma step_send_at {R} n (st : net R) i d v k c : (i < n)%nat -> np st i = Send d v k -> length (nch st i d) = c ->
  step n st (LSend i d c) (mkNet (upd (np st) i k) (upd2 (nch st) i d (nch st i d ++ [(v, false)])) (nrc st)).
Proof. intros I E <-. now apply step_send. Qed.
Example C45_overtaking_ex : exists st, exec 2 (start ex_two)
    [LSend 0 1 0; LSend 0 1 1; LDeliver 0 1 1; LDeliver 0 1 0; LRecv 0 1; LRecv 0 1] st /\
  done 2 st (fun i => if (i =? 0)%nat then [] else [[1]; [2]]).
Proof.
  eexists. split.
  - change [LSend 0 1 0; LSend 0 1 1; LDeliver 0 1 1; LDeliver 0 1 0; LRecv 0 1; LRecv 0 1]
      with ((((([] ++ [LSend 0 1 0]) ++ [LSend 0 1 1]) ++ [LDeliver 0 1 1]) ++ [LDeliver 0 1 0]) ++ [LRecv 0 1] ++ [LRecv 0 1]). rewrite app_assoc.
    eapply exec_snoc. eapply exec_snoc. eapply exec_snoc. eapply exec_snoc. eapply exec_snoc. eapply exec_snoc. apply exec_nil.
    + eapply step_send_at; [lia|reflexivity|reflexivity].
    + eapply step_send_at; [lia|reflexivity|reflexivity].
    + eapply step_deliver. reflexivity.
    + eapply step_deliver. reflexivity.
    + eapply step_recv; [lia|reflexivity|reflexivity].
    + eapply step_recv; [lia|reflexivity|reflexivity].
  - intros i I. destruct i as [|[|i]]; [reflexivity|reflexivity|lia].
Qed.
(* allReduce does not check the size of the buffers it receives: with arrays of different sizes some party reads past
   the end of a message *)
Theorem C45_allreduce_sizes_refuted : exists n x i L st r, (i < n)%nat /\ exec n (start (fun i => comm_allreduce (radd 8) n i (x i))) L st /\ done n st r /\ r i = Ub.
Proof.
  set (x := fun i : nat => if (i =? 0)%nat then [1; 2] else [3]).
  assert (V : exists G r, valid 2 (fun i => comm_allreduce (radd 8) 2 i (x i)) G r /\ r O = Ub).
  { eexists. eexists. split.
    - unfold comm_allreduce. eapply valid_bind; [apply all_gather_valid|]. apply valid_ret.
    - reflexivity. }
  destruct V as [G [r [V E]]]. destruct (runs_finish _ _ _ (valid_runs _ _ _ _ V) [] _ (exec_nil _ _)) as [L [st [X D]]].
  exists 2%nat, x, O, L, st, r. split; [lia|]. split; [exact X|]. split; [exact D|exact E].
Qed.
Print Assumptions C45_allreduce_sizes_refuted.
