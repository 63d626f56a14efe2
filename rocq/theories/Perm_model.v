(* Model of the permutation utilities and of the semi2k permutation kernels:
     src/libspu/mpc/utils/permute.cc
     src/libspu/mpc/semi2k/permute.cc
   A vector is the list of its elements, an index vector the list of its indices. *)
From Verif Require Import Base Ring_model Semi_model Prg_model.
Open Scope Z_scope.

Section Loop.
(* pforeach runs the iterations 0..m-1 in some order: [ord m] (core/parallel_utils.h) *)
Variable ord : nat -> list nat.
(* content of freshly allocated memory *)
Variable junk : Z.

(* one iteration _y[pv[i]] = v: undefined if outside the buffer *)
Definition write {A} (y : list A) (p : nat) (v : A) : res (list A) := if (p <? length y)%nat then Ok (set_nth y p v) else Ub.
Definition read {A} (x : list A) (p : nat) : res A := match nth_error x p with Some v => Ok v | None => Ub end.
(* a loop over the given iterations *)
Fixpoint loop {A} (f : nat -> A -> res A) (l : list nat) (y : A) : res A :=
  match l with [] => Ok y | i :: r => rbind (f i y) (loop f r) end.
(* permute.cc:40-51 applyInvPerm(x, Span pv) *)
Definition apply_inv_perm_span (x : list Z) (pv : list nat) : res (list Z) :=
  loop (fun i y => rbind (read pv i) (fun p => rbind (read x i) (fun v => write y p v))) (ord (length x)) (repeat junk (length x)).
(* permute.cc:71-82 applyPerm(x, Span pv) *)
Definition apply_perm_span (x : list Z) (pv : list nat) : res (list Z) :=
  loop (fun i y => rbind (read pv i) (fun p => rbind (read x p) (fun v => write y i v))) (ord (length x)) (repeat junk (length x)).
(* permute.cc:53-69, 84-100: the overloads for arrays check the shapes *)
Definition apply_inv_perm (x : list Z) (pv : list nat) : res (list Z) :=
  if (length x =? length pv)%nat then apply_inv_perm_span x pv else Err.
Definition apply_perm (x : list Z) (pv : list nat) : res (list Z) :=
  if (length x =? length pv)%nat then apply_perm_span x pv else Err.
(* permute.cc:102-111 genInversePerm; applyInvPerm on an index vector (semi2k/permute.cc:70) is the same loop *)
Definition gen_inverse_perm (pv : list nat) : res (list nat) :=
  loop (fun i y => rbind (read pv i) (fun p => write y p i)) (ord (length pv)) (repeat (Z.to_nat junk) (length pv)).
Definition apply_inv_perm_idx (x : list nat) (pv : list nat) : res (list nat) :=
  if (length x =? length pv)%nat then
    loop (fun i y => rbind (read pv i) (fun p => rbind (read x i) (fun v => write y p v))) (ord (length x)) (repeat (Z.to_nat junk) (length x))
  else Err.

(* std::stable_sort (external) with the comparator "less": insertion sort, equal elements keep their order *)
Fixpoint insert_stable (less : nat -> nat -> bool) (a : nat) (l : list nat) : list nat :=
  match l with [] => [a] | b :: r => if less b a then b :: insert_stable less a r else a :: b :: r end.
Fixpoint stable_sort (less : nat -> nat -> bool) (l : list nat) : list nat :=
  match l with [] => [] | a :: r => insert_stable less a (stable_sort less r) end.
(* permute.cc:113-126 genPermBySort: by the signed values of k-bit words *)
Definition gen_perm_by_sort (k : Z) (x : list Z) : list nat :=
  stable_sort (fun a b => sgn k (nth a x 0) <? sgn k (nth b x 0)) (seq 0 (length x)).

(* semi2k/permute.cc:43-97 SecureInvPerm, the code of party [rank]; X is everybody's share vector; A, B, pr the answer of
   beaver->PermPair; [perm] the permutation held by perm_rank; a2v (arithmetic.cc) opens X - A to perm_rank *)
Definition secure_inv_perm (k : Z) (n perm_rank : nat) (perm : list nat) (pr : list nat) (X : nat -> list Z) (A B : nat -> nat -> Z)
    (rank : nat) : res (list Z) :=
  let m := length (X rank) in
  if (rank =? perm_rank)%nat && negb (length perm =? m)%nat then Err else
  rbind (apply_inv_perm_idx perm pr) (fun po =>                       (* at perm_rank, then broadcast *)
  let x_a := map (fun e => a2v k n (fun j => rsub k (nth e (X j) 0) (A j e)) perm_rank perm_rank) (seq 0 m) in
  let b := map (B rank) (seq 0 m) in
  if (rank =? perm_rank)%nat then
    rbind (apply_inv_perm b po) (fun b' => rbind (apply_inv_perm x_a perm) (fun c => Ok (zipWith (radd k) b' c)))
  else apply_inv_perm b po).
(* the answers of the t-th PermPair call *)
Definition pairs : Type := nat -> (nat -> nat -> Z) * (nat -> nat -> Z) * (nat -> list nat).
(* one SecureInvPerm of everybody, with the t-th pair; a failure anywhere is a failure (every party runs the same checks) *)
Definition all_ranks (n : nat) (f : nat -> res (list Z)) : res (nat -> list Z) :=
  rbind (fold_right (fun r acc => rbind (f r) (fun v => rbind acc (fun l => Ok (v :: l)))) (Ok []) (seq 0 n))
    (fun l => Ok (fun i => nth i l [])).
Definition secure_step (k : Z) (n : nat) (Q : pairs) (P : nat -> list nat) (t r : nat) (X : nat -> list Z) : res (nat -> list Z) :=
  let '(A, B, pr) := Q t in all_ranks n (secure_inv_perm k n r (P r) (pr r) X A B).
Fixpoint secure_loop (k : Z) (n : nat) (Q : pairs) (P : nat -> list nat) (t : nat) (rs : list nat) (X : nat -> list Z) : res (nat -> list Z) :=
  match rs with [] => Ok X | r :: rs' => rbind (secure_step k n Q P t r X) (secure_loop k n Q P (S t) rs') end.
(* semi2k/permute.cc:116-125 PermAM: P i is party i's component of the shared permutation *)
Definition perm_am (k : Z) (n : nat) (Q : pairs) (P : nat -> list nat) (X : nat -> list Z) : res (nat -> list Z) :=
  secure_loop k n Q P 0 (seq 0 n) X.
(* semi2k/permute.cc:132-141 InvPermAM *)
Definition inv_perm_am (k : Z) (n : nat) (Q : pairs) (P : nat -> list nat) (X : nat -> list Z) : res (nat -> list Z) :=
  rbind (fold_right (fun r acc => rbind (gen_inverse_perm (P r)) (fun v => rbind acc (fun l => Ok (v :: l)))) (Ok []) (seq 0 n))
    (fun inv => secure_loop k n Q (fun i => nth i inv []) 0 (rev (seq 0 n)) X).
(* semi2k/permute.cc:127-130, 143-146, 148-151 PermAP, InvPermAP (local), InvPermAV *)
Definition perm_ap (n : nat) (pv : list nat) (X : nat -> list Z) : res (nat -> list Z) := all_ranks n (fun r => apply_perm (X r) pv).
Definition inv_perm_ap (n : nat) (pv : list nat) (X : nat -> list Z) : res (nat -> list Z) := all_ranks n (fun r => apply_inv_perm (X r) pv).
Definition inv_perm_av (k : Z) (n : nat) (Q : pairs) (owner : nat) (pv : list nat) (X : nat -> list Z) : res (nat -> list Z) :=
  secure_step k n Q (fun _ => pv) 0 owner X.
End Loop.
