(* Model of the permutation kernels of the three-party protocol:
     src/libspu/mpc/aby3/permute.cc
   A vector is the list of its elements; a share vector of one party is the list of its pairs.  A joint state is a function
   from ranks.  The streams of the pairwise generators are as in Aby_model.v: party i's a0 is stream i, its a1 stream nx i;
   [A s e] is element e of the first draw from stream s in a kernel, [R s e] of the second one (the re-sharing).
   Reading or writing outside a vector is undefined ([Ub]). *)
From Verif Require Import Base Ring_model Semi_model Aby_model Prg_model Perm_model.
Open Scope Z_scope.

Section Loop.
Variable ord : nat -> list nat.   (* the order in which pforeach runs its iterations *)
Variable junk : Z.                (* content of freshly allocated arrays *)
Variable k : Z.                   (* field width *)

(* permute.cc:26-46 RandPermM: [gen s] is the permutation that genPrssPermPair (common/prg_state.cc:117-122) derives from stream s;
   every party gets that of its own stream and that of the next one *)
Definition rand_perm_m (gen : nat -> list nat) (rank : nat) : list nat * list nat := (gen rank, gen (nx rank)).

(* "pforeach(0, numel, [&](int64_t idx) { y[tgt idx] = val idx; })" on a std::vector y(numel) *)
Definition vloop (m : nat) (tgt : nat -> res nat) (val : nat -> res Z) : res (list Z) :=
  loop (fun i y => rbind (tgt i) (fun p => rbind (val i) (fun v => write y p v))) (ord m) (repeat 0 m).
(* y[idx] = g(idx, x[pv[idx]]) *)
Definition gloop {T} (m : nat) (pv : list nat) (x : list T) (g : nat -> T -> Z) : res (list Z) :=
  vloop m (fun i => Ok i) (fun i => rbind (read pv i) (fun p => rbind (read x p) (fun v => Ok (g i v)))).
(* y[pv[idx]] = g(pv[idx], x[idx]) *)
Definition sloop {T} (m : nat) (pv : list nat) (x : list T) (g : nat -> T -> Z) : res (list Z) :=
  vloop m (read pv) (fun i => rbind (read pv i) (fun p => rbind (read x i) (fun v => Ok (g p v)))).
(* element-wise loops "y[idx] = f(idx)" *)
Definition vec {T} (m : nat) (f : nat -> T) : list T := map f (seq 0 m).

Section Kernel.
Variable X : nat -> list (Z * Z).
Variable PV : nat -> list nat * list nat.
Variables A R : nat -> nat -> Z.
Definition numel : nat := length (X 0%nat).
Definition drawA (s e : nat) : Z := wrap k (A s e).
Definition drawR (s e : nat) : Z := wrap k (R s e).

(* ---- permute.cc:50-156 PermAM ---- *)
(* 79-87: rank 0, sent to rank 2 *)
Definition shuf_delta : res (list Z) :=
  rbind (gloop numel (fst (PV 0%nat)) (X 0%nat) (fun i v => rsub k (radd k (fst v) (snd v)) (drawA 0 i))) (fun tmp =>
  gloop numel (snd (PV 0%nat)) tmp (fun i v => rsub k v (drawA 1 i))).
(* 127-130: rank 2, sent to rank 1; a1 of rank 2 is stream 0 *)
Definition shuf_gama : res (list Z) := gloop numel (snd (PV 2%nat)) (X 2%nat) (fun i v => radd k (fst v) (drawA 0 i)).
(* 104-108: rank 1 *)
Definition shuf_beta1 (gama : list Z) : res (list Z) :=
  rbind (gloop numel (fst (PV 1%nat)) gama (fun i v => radd k v (drawA 1 i))) (fun tmp =>
  gloop numel (snd (PV 1%nat)) tmp (fun _ v => v)).
(* 132-133: rank 2 *)
Definition shuf_beta2 (delta : list Z) : res (list Z) := gloop numel (fst (PV 2%nat)) delta (fun _ v => v).
(* 111-117 and 136-143: the two re-sharing messages; r0 of rank 1 is stream 1, r1 of rank 2 is stream 0 *)
Definition shuf_msg (beta : list Z) (s : nat) : list Z := vec numel (fun e => rsub k (nth e beta 0) (drawR s e)).
(* all messages: to rank 2 (delta, 2to3), to rank 1 (gama, 2to3); rank 0 receives nothing *)
Definition shuf_msgs : res ((list Z * list Z) * (list Z * list Z)) :=
  rbind shuf_delta (fun d => rbind shuf_gama (fun g => rbind (shuf_beta1 g) (fun b1 => rbind (shuf_beta2 d) (fun b2 =>
  Ok ((d, shuf_msg b1 1), (g, shuf_msg b2 0)))))).
(* 90-97, 119-122, 146-149: the output shares *)
Definition shuf_am : res (nat -> list (Z * Z)) :=
  rbind shuf_msgs (fun M => let m1 := snd (fst M) in let m2 := snd (snd M) in
  Ok (fun rank => vec numel (fun e =>
    match rank with
    | 0%nat => (drawR 0 e, drawR 1 e)
    | 1%nat => (drawR 1 e, radd k (nth e m1 0) (nth e m2 0))
    | _ => (radd k (nth e m2 0) (nth e m1 0), drawR 0 e)
    end))).

(* ---- permute.cc:179-289 InvPermAM ---- *)
(* 235-244: rank 1, sent to rank 2; its a1 is stream 2, its a0 stream 1 *)
Definition unshuf_delta : res (list Z) :=
  rbind (sloop numel (snd (PV 1%nat)) (X 1%nat) (fun p v => rsub k (radd k (fst v) (snd v)) (drawA 2 p))) (fun tmp =>
  sloop numel (fst (PV 1%nat)) tmp (fun p v => rsub k v (drawA 1 p))).
(* 259-262: rank 2, sent to rank 0 *)
Definition unshuf_gama : res (list Z) := sloop numel (fst (PV 2%nat)) (X 2%nat) (fun p v => radd k (snd v) (drawA 2 p)).
(* 213-217: rank 0 *)
Definition unshuf_beta0 (gama : list Z) : res (list Z) :=
  rbind (sloop numel (snd (PV 0%nat)) gama (fun p v => radd k v (drawA 1 p))) (fun tmp =>
  sloop numel (fst (PV 0%nat)) tmp (fun _ v => v)).
(* 264-265: rank 2 *)
Definition unshuf_beta2 (delta : list Z) : res (list Z) := sloop numel (snd (PV 2%nat)) delta (fun _ v => v).
(* messages: to rank 2 (delta, 2to3), to rank 0 (gama, 2to3); rank 1 receives nothing.
   220-227: r1 of rank 0 is stream 1; 268-276: r0 of rank 2 is stream 2 *)
Definition unshuf_msgs : res ((list Z * list Z) * (list Z * list Z)) :=
  rbind unshuf_delta (fun d => rbind unshuf_gama (fun g => rbind (unshuf_beta0 g) (fun b0 => rbind (unshuf_beta2 d) (fun b2 =>
  Ok ((d, shuf_msg b0 1), (g, shuf_msg b2 2)))))).
(* 230-233, 247-254, 278-281 *)
Definition unshuf_am : res (nat -> list (Z * Z)) :=
  rbind unshuf_msgs (fun M => let m0 := snd (fst M) in let m2 := snd (snd M) in
  Ok (fun rank => vec numel (fun e =>
    match rank with
    | 0%nat => (radd k (nth e m0 0) (nth e m2 0), drawR 1 e)
    | 1%nat => (drawR 1 e, drawR 2 e)
    | _ => (drawR 2 e, radd k (nth e m2 0) (nth e m0 0))
    end))).
End Kernel.

(* permute.cc:158-175 PermAP, 291-309 InvPermAP at one party; getFirstShare/getSecondShare are strided views of the
   components (aby3/value.h) *)
Definition on_both (f : list Z -> res (list Z)) (x : list (Z * Z)) : res (list (Z * Z)) :=
  if (length x =? 0)%nat then Ok [] else
  rbind (f (map fst x)) (fun a => rbind (f (map snd x)) (fun b => Ok (combine a b))).
Definition shuf_ap (x : list (Z * Z)) (pv : list nat) : res (list (Z * Z)) := on_both (fun a => apply_perm ord junk a pv) x.
Definition unshuf_ap (x : list (Z * Z)) (pv : list nat) : res (list (Z * Z)) := on_both (fun a => apply_inv_perm ord junk a pv) x.
End Loop.
