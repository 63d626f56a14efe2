(* What Gather computes (the definition of the StableHLO gather operation). *)
From Verif Require Import Base Dyn_spec.
Open Scope nat_scope.

(* the entries of l at the positions ds; the entries of l at the positions not in ds; l with x put at position n *)
Definition pick (ds l : list nat) : list nat := map (fun i => nth i l 0) ds.
Definition drop_at (ds l : list nat) : list nat := map (fun i => nth i l 0) (filter (fun i => if in_dec Nat.eq_dec i ds then false else true) (seq 0 (length l))).
Definition insert_at (n x : nat) (l : list nat) : list nat := firstn n l ++ x :: skipn n l.
Definition increasing (l : list nat) : Prop := forall i j, i < j < length l -> nth i l 0 < nth j l 0.

(* sh: operand; ssh: start indices; rs: result; sizes: slice sizes; ivd: index vector dimension; od: offset dimensions;
   cd: collapsed dimensions; sim: start index map *)
Definition gather_fits (sh ssh rs sizes : list nat) (ivd : nat) (od cd sim : list nat) : Prop :=
  increasing od /\ Forall (fun i => i < length rs) od /\
  increasing cd /\ Forall (fun i => i < length sh) cd /\
  NoDup sim /\ Forall (fun i => i < length sh) sim /\
  length sizes = length sh /\ Forall2 le sizes sh /\ (forall i, In i cd -> nth i sizes 0 = 1) /\
  (* the offset dimensions of the result are the dimensions of the slice that are not collapsed, the others those of the start indices *)
  pick od rs = drop_at cd sizes /\
  ivd <= length (drop_at od rs) /\
  (if ivd =? length ssh then ssh ++ [1] else ssh) = insert_at ivd (length sim) (drop_at od rs).

Definition is_gathered {A} (sh ssh rs sizes : list nat) (ivd : nat) (od cd sim : list nat) (a : nat -> A) (si : nat -> Z) (z : nat -> A) : Prop :=
  forall r, inside rs r -> exists s f : list nat,
  length s = length sh /\ length f = length sh /\
  (* the slice starts at the start index of the batch, clamped so that the slice fits *)
  (forall j d, nth_error sim j = Some d ->
     let x := si (flat ssh (if ivd =? length ssh then drop_at od r else insert_at ivd j (drop_at od r))) in
     Z.of_nat (nth d s 0) = Z.min (Z.of_nat (nth d sh 0 - nth d sizes 0)) (Z.max 0 x)) /\
  (forall d, ~ In d sim -> nth d s 0 = 0) /\
  (* the offset within the slice *)
  drop_at cd f = pick od r /\ (forall d, In d cd -> nth d f 0 = 0) /\
  inside sh (zipWith Nat.add s f) /\ z (flat rs r) = a (flat sh (zipWith Nat.add s f)).

(* the elements whose mask is set, in order *)
Definition selected {A} (v : list A) (mask : list Z) : list A := map snd (filter (fun p => negb (fst p =? 0)%Z) (combine mask v)).
