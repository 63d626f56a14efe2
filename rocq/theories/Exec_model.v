(* Executing the operations of one block: device/executor.cc, sequentially (runBlock) and with worker threads
   (BlockParallelRunner). *)
From Verif Require Import Base.

Section Exec.
Context {V : Type}.                      (* spu::Value *)

(* mlir::Value *)
Definition key := nat.
(* SymbolScope (executor.h:31-54, executor.cc:32-102): the values visible in the block, from this scope or from a
   parent.  Simplified: the two levels are merged, since a block only ever writes its own scope. *)
Definition env := key -> option V.
Definition set (e : env) (k : key) (v : V) : env := fun k' => if (k' =? k)%nat then Some v else e k'.
Definition del (e : env) (k : key) : env := fun k' => if (k' =? k)%nat then None else e k'.
Fixpoint lookups (e : env) (ks : list key) : option (list V) :=
  match ks with
  | [] => Some []
  | k :: r => match e k, lookups e r with Some v, Some vs => Some (v :: vs) | _, _ => None end
  end.
Fixpoint sets (e : env) (ks : list key) (vs : list V) : env :=
  match ks, vs with k :: ks', v :: vs' => sets (set e k v) ks' vs' | _, _ => e end.

(* mlir::Operation, as runKernel uses it (pphlo_executor.cc).  Simplified: the kernel is a function of the values it
   looks up (None: it throws); o_nest lists the operands of the operations in its regions that are defined outside
   those regions, in the order of the walk. *)
Record op := mkOp {
  o_in : list key; o_nest : list key; o_res : list key;
  o_run : list V -> option (list V);
  o_free : bool;                          (* FreeOp *)
  o_side : bool;                          (* attribute has_side_effect *)
  o_dbg : bool }.                         (* a custom call to DBG_PRINT *)
Definition o_reads (o : op) : list key := if o_free o then [] else o_in o ++ o_nest o.

(* one kernel, sequentially (pphlo_executor.cc:1140-1160 for FreeOp; the other operations look up their operands, then
   add each result) *)
Definition run_op (o : op) (e : env) : option env :=
  if o_free o then Some (fold_left del (o_in o) e)
  else match lookups e (o_reads o) with
       | None => None
       | Some vs => match o_run o vs with
                    | None => None
                    | Some rs => if (length rs =? length (o_res o))%nat then Some (sets e (o_res o) rs) else None
                    end
       end.
(* executor.cc:131-151 *)
Fixpoint run_ops (ops : list op) (e : env) : option env :=
  match ops with
  | [] => Some e
  | o :: r => match run_op o e with None => None | Some e' => run_ops r e' end
  end.
Definition run_block (ops : list op) (term : list key) (e : env) : option (list V) :=
  match run_ops ops e with None => None | Some e' => lookups e' term end.

(* executor.cc:238-251: the results of the earlier operations with side effects, except prints *)
Definition orders (o : op) : bool := o_side o && negb (o_dbg o).
Definition side_deps (ops : list op) (i : nat) : list key := flat_map o_res (filter orders (firstn i ops)).
Definition memk (k : key) (ks : list key) : bool := existsb (Nat.eqb k) ks.
(* executor.cc:170-194: and what the nested operations use of this block *)
Definition defined_here (ops : list op) (k : key) : bool := memk k (flat_map o_res ops).
Definition extra_deps (ops : list op) (i : nat) (o : op) : list key :=
  side_deps ops i ++ filter (defined_here ops) (o_nest o).
(* executor.cc:196-199 *)
Definition ready_keys (ops : list op) (i : nat) (o : op) : list key := o_in o ++ extra_deps ops i o.

(* A worker thread (executor.cc:277-288 run_task, 201-211 OpExecTask::run).  Every access to the symbol table is one
   step.  std::condition_variable::wait(lk, p) is `while (!p()) wait(lk)`. *)
Inductive tst :=
| TPop                                   (* at the task queue *)
| TLock (i : nat)                        (* about to lock the event mutex, to test ready() *)
| TCheck (i : nat) (ks : list key)       (* has the mutex; keys still to be tested *)
| TFail (i : nat)                        (* has the mutex; ready() was false; about to wait *)
| TSleep (i : nat)                       (* waiting on the condition variable *)
| TRead (i : nat) (ks : list key) (vs : list V)   (* in runKernel: keys to look up, values found *)
| TWrite (i : nat) (kvs : list (key * V))         (* results still to be added *)
| TSignal (i : nat)                      (* about to lock the event mutex and notify *)
| TDone.
Record state := mkSt { s_next : nat;                 (* the queue: tasks s_next, s_next+1, … in program order *)
                       s_env : env; s_mu : option nat;   (* owner of the event mutex *)
                       s_th : nat -> tst; s_crash : bool (* an exception left a thread: std::terminate *) }.
Definition updt (f : nat -> tst) (t : nat) (x : tst) : nat -> tst := fun t' => if (t' =? t)%nat then x else f t'.
Definition wake (x : tst) : tst := match x with TSleep i => TLock i | _ => x end.

Inductive label :=
| LTau | LSpur                           (* LSpur: the condition variable wakes a thread without a notification *)
| LStart (i : nat)                       (* the kernel of operation i is entered *)
| LRun (i : nat).                        (* its computation is over; no result is visible yet *)

Section Sys.
Context (n : nat) (ops : list op).       (* number of threads, the block *)
(* after taking task i from the queue (executor.cc:201-206): an operation without operands does not wait *)
Definition enter (i : nat) (o : op) : tst := match o_in o with [] => TRead i (o_reads o) [] | _ :: _ => TLock i end.
Inductive step : state -> label -> state -> Prop :=
| s_done s t : (t < n)%nat -> s_crash s = false -> s_th s t = TPop -> nth_error ops (s_next s) = None ->
    step s LTau (mkSt (s_next s) (s_env s) (s_mu s) (updt (s_th s) t TDone) false)
| s_pop s t o : (t < n)%nat -> s_crash s = false -> s_th s t = TPop -> nth_error ops (s_next s) = Some o ->
    step s (match o_in o with [] => LStart (s_next s) | _ :: _ => LTau end)
         (mkSt (S (s_next s)) (s_env s) (s_mu s) (updt (s_th s) t (enter (s_next s) o)) false)
| s_lock s t i o : (t < n)%nat -> s_crash s = false -> s_th s t = TLock i -> nth_error ops i = Some o -> s_mu s = None ->
    step s LTau (mkSt (s_next s) (s_env s) (Some t) (updt (s_th s) t (TCheck i (ready_keys ops i o))) false)
| s_has s t i k ks : (t < n)%nat -> s_crash s = false -> s_th s t = TCheck i (k :: ks) -> s_env s k <> None ->
    step s LTau (mkSt (s_next s) (s_env s) (s_mu s) (updt (s_th s) t (TCheck i ks)) false)
| s_hasnot s t i k ks : (t < n)%nat -> s_crash s = false -> s_th s t = TCheck i (k :: ks) -> s_env s k = None ->
    step s LTau (mkSt (s_next s) (s_env s) (s_mu s) (updt (s_th s) t (TFail i)) false)
| s_sleep s t i : (t < n)%nat -> s_crash s = false -> s_th s t = TFail i ->
    step s LTau (mkSt (s_next s) (s_env s) None (updt (s_th s) t (TSleep i)) false)
| s_spur s t i : (t < n)%nat -> s_crash s = false -> s_th s t = TSleep i ->
    step s LSpur (mkSt (s_next s) (s_env s) (s_mu s) (updt (s_th s) t (TLock i)) false)
| s_start s t i o : (t < n)%nat -> s_crash s = false -> s_th s t = TCheck i [] -> nth_error ops i = Some o ->
    step s (LStart i) (mkSt (s_next s) (s_env s) None (updt (s_th s) t (TRead i (o_reads o) [])) false)
| s_read s t i k ks vs v : (t < n)%nat -> s_crash s = false -> s_th s t = TRead i (k :: ks) vs -> s_env s k = Some v ->
    step s LTau (mkSt (s_next s) (s_env s) (s_mu s) (updt (s_th s) t (TRead i ks (vs ++ [v]))) false)
| s_noread s t i k ks vs : (t < n)%nat -> s_crash s = false -> s_th s t = TRead i (k :: ks) vs -> s_env s k = None ->
    step s LTau (mkSt (s_next s) (s_env s) (s_mu s) (s_th s) true)
| s_free s t i vs o : (t < n)%nat -> s_crash s = false -> s_th s t = TRead i [] vs -> nth_error ops i = Some o ->
    o_free o = true ->                                                   (* pphlo_executor.cc:1142-1156 *)
    step s (LRun i) (mkSt (s_next s) (s_env s) (s_mu s) (updt (s_th s) t (TWrite i [])) false)
| s_run s t i vs o rs : (t < n)%nat -> s_crash s = false -> s_th s t = TRead i [] vs -> nth_error ops i = Some o ->
    o_free o = false -> o_run o vs = Some rs -> length rs = length (o_res o) ->
    step s (LRun i) (mkSt (s_next s) (s_env s) (s_mu s) (updt (s_th s) t (TWrite i (combine (o_res o) rs))) false)
| s_norun s t i vs o : (t < n)%nat -> s_crash s = false -> s_th s t = TRead i [] vs -> nth_error ops i = Some o ->
    o_free o = false -> (forall rs, o_run o vs = Some rs -> length rs <> length (o_res o)) ->
    step s LTau (mkSt (s_next s) (s_env s) (s_mu s) (s_th s) true)
| s_write s t i k v kvs : (t < n)%nat -> s_crash s = false -> s_th s t = TWrite i ((k, v) :: kvs) ->
    step s LTau (mkSt (s_next s) (set (s_env s) k v) (s_mu s) (updt (s_th s) t (TWrite i kvs)) false)
| s_wrote s t i : (t < n)%nat -> s_crash s = false -> s_th s t = TWrite i [] ->
    step s LTau (mkSt (s_next s) (s_env s) (s_mu s) (updt (s_th s) t (TSignal i)) false)
| s_signal s t i : (t < n)%nat -> s_crash s = false -> s_th s t = TSignal i -> s_mu s = None ->
    step s LTau (mkSt (s_next s) (s_env s) None (updt (fun t' => wake (s_th s t')) t TPop) false).
Inductive exec (e : env) : list label -> state -> Prop :=
| exec_nil : exec e [] (mkSt 0 e None (fun _ => TPop) false)
| exec_snoc L s l s' : exec e L s -> step s l s' -> exec e (L ++ [l]) s'.
Definition finished (s : state) : Prop := forall t, (t < n)%nat -> s_th s t = TDone.   (* every thread can be joined *)
End Sys.
(* executor.cc:264-272 *)
Definition par_results (s : state) (term : list key) : option (list V) := lookups (s_env s) term.
End Exec.
Arguments env : clear implicits.
Arguments op : clear implicits.
Arguments tst : clear implicits.
Arguments state : clear implicits.
