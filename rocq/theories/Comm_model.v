(* Parties exchanging messages, and the collectives of libspu/mpc/common/communicator.{h,cc}. *)
From Verif Require Import Base Ring_model Semi_model Prg_model.
Open Scope Z_scope.

(* the bytes of a compact array, as the list of its words *)
Definition payload : Type := list Z.
(* a party's program: what it does next *)
Inductive prog (R : Type) : Type :=
| Ret (r : R)
| Send (dst : nat) (v : payload) (k : prog R)
| Recv (src : nat) (k : payload -> prog R).
Arguments Ret {R}. Arguments Send {R}. Arguments Recv {R}.
Fixpoint bind {A B} (p : prog A) (f : A -> prog B) : prog B :=
  match p with
  | Ret r => f r
  | Send d v k => Send d v (bind k f)
  | Recv s k => Recv s (fun v => bind (k v) f)
  end.

(* yacl link: SendAsync never blocks.  The c-th message from s to d carries the key c and may overtake others; a
   Recv waits for the message with the next key of its channel. *)
Record net (R : Type) : Type := mkNet {
  np : nat -> prog R;                              (* remaining program of each party *)
  nch : nat -> nat -> list (payload * bool);       (* messages sent from s to d, in order, with "has arrived" *)
  nrc : nat -> nat -> nat }.                       (* number of messages from s already received by d *)
Arguments mkNet {R}. Arguments np {R}. Arguments nch {R}. Arguments nrc {R}.
Definition upd {A} (f : nat -> A) (i : nat) (x : A) : nat -> A := fun j => if (j =? i)%nat then x else f j.
Definition upd2 {A} (f : nat -> nat -> A) (i j : nat) (x : A) : nat -> nat -> A :=
  fun a b => if (a =? i)%nat && (b =? j)%nat then x else f a b.
Inductive label := LSend (s d c : nat) | LDeliver (s d c : nat) | LRecv (s d : nat).
Inductive step {R} (n : nat) : net R -> label -> net R -> Prop :=
| step_send st i d v k : (i < n)%nat -> np st i = Send d v k ->
    step n st (LSend i d (length (nch st i d)))
         (mkNet (upd (np st) i k) (upd2 (nch st) i d (nch st i d ++ [(v, false)])) (nrc st))
| step_deliver st s d c v : nth_error (nch st s d) c = Some (v, false) ->
    step n st (LDeliver s d c) (mkNet (np st) (upd2 (nch st) s d (set_nth (nch st s d) c (v, true))) (nrc st))
| step_recv st i s k v : (i < n)%nat -> np st i = Recv s k -> nth_error (nch st s i) (nrc st s i) = Some (v, true) ->
    step n st (LRecv s i) (mkNet (upd (np st) i (k v)) (nch st) (upd2 (nrc st) s i (S (nrc st s i)))).
Inductive exec {R} (n : nat) : net R -> list label -> net R -> Prop :=
| exec_nil st : exec n st [] st
| exec_snoc st L st1 l st2 : exec n st L st1 -> step n st1 l st2 -> exec n st (L ++ [l]) st2.
Definition start {R} (P : nat -> prog R) : net R := mkNet P (fun _ _ => []) (fun _ _ => O).
Definition done {R} (n : nat) (st : net R) (r : nat -> R) : Prop := forall i, (i < n)%nat -> np st i = Ret (r i).

(* ---- yacl collectives, as direct sends and receives (simplified: yacl may relay or batch) ---- *)
Fixpoint send_all {R} (ds : list nat) (v : payload) (k : prog R) : prog R :=
  match ds with [] => k | d :: r => Send d v (send_all r v k) end.
Fixpoint recv_all {R} (ss : list nat) (k : list payload -> prog R) : prog R :=
  match ss with [] => k [] | s :: r => Recv s (fun v => recv_all r (fun vs => k (v :: vs))) end.
Definition others (n rank : nat) : list nat := filter (fun i => negb (i =? rank)%nat) (seq 0 n).
(* the received list with the own value inserted at the own rank *)
Definition insert_own (rank : nat) (x : payload) (vs : list payload) : list payload := firstn rank vs ++ x :: skipn rank vs.
Definition all_gather (n rank : nat) (x : payload) : prog (list payload) :=
  send_all (others n rank) x (recv_all (others n rank) (fun vs => Ret (insert_own rank x vs))).
Definition gather_ (n root rank : nat) (x : payload) : prog (list payload) :=
  if (rank =? root)%nat then recv_all (others n rank) (fun vs => Ret (insert_own rank x vs)) else Send root x (Ret []).
Definition broadcast_ (n root rank : nat) (x : payload) : prog payload :=
  if (rank =? root)%nat then send_all (others n rank) x (Ret x) else Recv root (fun v => Ret v).

(* combining a received buffer with an array of m elements reads m elements of it *)
Definition combine_ (op : Z -> Z -> Z) (res_ : payload) (buf : payload) : res payload :=
  if (length res_ <=? length buf)%nat then Ok (zipWith op res_ (firstn (length res_) buf)) else Ub.
Fixpoint fold_res {A B} (f : A -> B -> res A) (l : list B) (a : A) : res A :=
  match l with [] => Ok a | x :: r => rbind (f a x) (fold_res f r) end.
(* communicator.cc:40-73 allReduce *)
Definition comm_allreduce (op : Z -> Z -> Z) (n rank : nat) (x : payload) : prog (res payload) :=
  bind (all_gather n rank x) (fun bufs =>
  Ret (fold_res (fun acc idx => combine_ op acc (nth idx bufs [])) (others n rank) x)).
(* communicator.h:175-195 allReduce<T, FN> *)
Definition comm_allreduce_t (op : Z -> Z -> Z) (n rank : nat) (x : payload) : prog (res payload) :=
  bind (all_gather n rank x) (fun bufs => Ret (fold_res (combine_ op) bufs (repeat 0 (length x)))).
(* communicator.cc:75-110 reduce: the other parties get their own input back *)
Definition comm_reduce (op : Z -> Z -> Z) (n root rank : nat) (x : payload) : prog (res payload) :=
  if (root <? n)%nat then
    bind (gather_ n root rank x) (fun bufs =>
    Ret (if (rank =? root)%nat then fold_res (fun acc idx => combine_ op acc (nth idx bufs [])) (others n rank) x else Ok x))
  else Ret Err.
(* communicator.cc:112-125 rotate, communicator.h:143-156 *)
Definition comm_rotate (n rank : nat) (x : payload) : prog payload :=
  Send (prevrank n rank) x (Recv (nextrank n rank) (fun v => Ret v)).
(* communicator.cc:127-147, communicator.h:213-232 gather: empty arrays at the other parties *)
Definition comm_gather (n root rank : nat) (x : payload) : prog (list payload) :=
  bind (gather_ n root rank x) (fun bufs => Ret (if (rank =? root)%nat then bufs else repeat [] n)).
(* communicator.cc:149-173 broadcast: the others check the size against the expected number of elements *)
Definition comm_broadcast (n root rank : nat) (numel : nat) (x : payload) : prog (res payload) :=
  bind (broadcast_ n root rank x) (fun buf =>
  Ret (if (rank =? root)%nat then Ok buf else if (length buf =? numel)%nat then Ok buf else Err)).
(* a protocol made of t rounds, each an AllGather of one message per party (any kernel built from allReduce is one) *)
Fixpoint rounds {S} (n : nat) (msg : nat -> S -> payload) (next : nat -> S -> list payload -> S) (t : nat) (i : nat) (s : S) : prog S :=
  match t with
  | O => Ret s
  | S t' => bind (all_gather n i (msg i s)) (fun bufs => rounds n msg next t' i (next i s bufs))
  end.
