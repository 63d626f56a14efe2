(* Synchronised symbol tables of colocated input and output (C46). *)
From Verif Require Import Ty_model Base Nd_model Nd_spec Val_model Val_spec Sync_model Sync_spec Sync_proof Syncs_proof.
From Verif Require Semi_model.
Open Scope list_scope.
Open Scope Z_scope.

(* whatever the hash maps' iteration orders, every party ends with no unsynced variable and no unread message; its symbol table binds
   every variable of every party to that party's share of it, and leaves every other name as it was *)
Theorem C46_sync (V : Type) n make send_order set_order ps junk (st : nat -> pstate V) :
  any_order send_order -> any_order set_order -> (forall i, (i < n)%nat -> keys_once (unsynced V (st i))) -> shareable n make ps st -> disjoint n st ->
  forall p, (p < n)%nat -> exists sym, sync V n make send_order set_order ps junk st p = Ok (mkP V sym [], []) /\
    (forall s, (forall i, (i < n)%nat -> ~ In s (map fst (unsynced V (st i)))) -> look sym s = look (symbols V (st p)) s) /\
    (forall i s v vs, (i < n)%nat -> In (s, v) (unsynced V (st i)) -> make i s v = Ok vs ->
       exists x v', nth_error vs p = Some x /\ look sym s = Some v' /\ same_value x v').
Proof. intros SO TO KO SH D p P. exact (sync_ok V n make send_order set_order SO TO ps junk st KO SH p P D). Qed.
Print Assumptions C46_sync.
(* parties that held the same names hold the same names afterwards *)
Theorem C46_same_names (V : Type) n make send_order set_order ps junk (st : nat -> pstate V) :
  any_order send_order -> any_order set_order -> (forall i, (i < n)%nat -> keys_once (unsynced V (st i))) -> shareable n make ps st -> disjoint n st ->
  forall p q, (p < n)%nat -> (q < n)%nat -> (forall s, look (symbols V (st p)) s = None <-> look (symbols V (st q)) s = None) ->
  exists a b, sync V n make send_order set_order ps junk st p = Ok (mkP V a [], []) /\ sync V n make send_order set_order ps junk st q = Ok (mkP V b [], []) /\
    forall s, look a s = None <-> look b s = None.
Proof. exact (same_names V n make send_order set_order ps junk st). Qed.
Print Assumptions C46_same_names.
(* a name set by two parties is rejected by every party *)
Theorem C46_duplicate (V : Type) n make send_order set_order ps junk (st : nat -> pstate V) :
  any_order send_order -> any_order set_order -> (forall i, (i < n)%nat -> keys_once (unsynced V (st i))) -> shareable n make ps st ->
  forall i j s, (i < n)%nat -> (j < n)%nat -> i <> j -> In s (map fst (unsynced V (st i))) -> In s (map fst (unsynced V (st j))) ->
  forall p, (p < n)%nat -> sync V n make send_order set_order ps junk st p = Err.
Proof. intros SO TO KO SH i j s I J NE A B p P. exact (sync_dup V n make send_order set_order SO TO ps junk st KO SH p P i j s I J NE A B). Qed.
Print Assumptions C46_duplicate.
(* semi2k: what the parties hold under a name recombines, element by element, to the words its owner set *)
Theorem C46_semi2k f n send_order set_order ps junk (st : nat -> pstate hvar) :
  f <> FT_INVALID -> In PSemi ps -> any_order send_order -> any_order set_order -> (forall i, (i < n)%nat -> keys_once (unsynced hvar (st i))) ->
  (forall i s h, (i < n)%nat -> In (s, h) (unsynced hvar (st i)) -> good_hvar f n h) -> disjoint n st ->
  exists sym : nat -> smap value,
    (forall p, (p < n)%nat -> sync hvar n (semi_make f n) send_order set_order ps junk st p = Ok (mkP hvar (sym p) [], [])) /\
    forall i s h, (i < n)%nat -> In (s, h) (unsynced hvar (st i)) -> exists e, recombines f n h e /\
      forall p, (p < n)%nat -> exists v, look (sym p) s = Some v /\ holds_share f n p h v e.
Proof. exact (semi_sync f n send_order set_order ps junk st). Qed.
Print Assumptions C46_semi2k.

(* three parties; party 0 sets a secret vector, party 2 a private scalar and a public vector; maps are iterated backwards *)
Definition sx_rand (i : nat) : list Z := [match i with O => 7 | _ => 8 end; 2 ^ 64 - 1].
Definition sx_x : hvar := mkH Semi_model.VSecret [2] [5; 2 ^ 64 - 3] 7 sx_rand.
Definition sx_y : hvar := mkH (Semi_model.VPrivate 2) [] [9] 7 sx_rand.
Definition sx_z : hvar := mkH Semi_model.VPublic [1; 2] [1; 2] 7 sx_rand.
Definition sx_st (i : nat) : pstate hvar := mkP hvar [] (match i with O => [("x"%string, sx_x)] | 2%nat => [("y"%string, sx_y); ("z"%string, sx_z)] | _ => [] end).
Definition sx_rev (i j : nat) (m : smap pvalue) : smap pvalue := rev m.
Definition sx_show (r : res (pstate hvar * list msg)) (s : string) (idxs : list (list Z)) : list (res Z) :=
  match r with Ok (st, _) => match look (symbols hvar st) s with Some v => map (get (vdata v)) idxs | None => [] end | _ => [] end.
Definition sx_sync (p : nat) := sync hvar 3 (semi_make FM64 3) sx_rev sx_rev [PSemi] 0 sx_st p.
Example C46_ex :
  map (fun p => sx_show (sx_sync p) "x" [[0]; [1]]) [0; 1; 2]%nat = [[Ok (2 ^ 64 - 1); Ok (2 ^ 64 - 10)]; [Ok 7; Ok 8]; [Ok (2 ^ 64 - 1); Ok (2 ^ 64 - 1)]] /\
  map (fun p => sx_show (sx_sync p) "y" [[]]) [0; 1; 2]%nat = [[Ok 0]; [Ok 0]; [Ok 9]] /\
  map (fun p => sx_show (sx_sync p) "z" [[0; 0]; [0; 1]]) [0; 1; 2]%nat = [[Ok 1; Ok 2]; [Ok 1; Ok 2]; [Ok 1; Ok 2]].
Proof. vm_compute. auto. Qed.
Example C46_hyps_ex :
  any_order sx_rev /\ (forall i, (i < 3)%nat -> keys_once (unsynced hvar (sx_st i))) /\ disjoint 3 sx_st /\
  (forall i s h, (i < 3)%nat -> In (s, h) (unsynced hvar (sx_st i)) -> good_hvar FM64 3 h).
Proof.
  split; [intros i j m; apply Permutation.Permutation_rev|].
  split; [intros [|[|[|i]]] H; cbn; repeat constructor; cbn; try tauto; intros [H1|[]]; discriminate|].
  split.
  - intros i j s I J A B. destruct i as [|[|[|i]]]; [..|lia]; destruct j as [|[|[|j]]]; try lia; cbn in A, B; intuition congruence.
  - assert (R : forall i, length (sx_rand i) = 2%nat /\ Forall (fun r => 0 <= r < 2 ^ 64) (sx_rand i)) by (intros [|i]; (split; [reflexivity|repeat constructor; lia])).
    assert (G : forall h, In h [sx_x; sx_y; sx_z] -> good_hvar FM64 3 h).
    { intros h [<-|[<-|[<-|[]]]]; (split; [repeat constructor; lia|]); (split; [reflexivity|]); (split; [repeat constructor; cbn; lia|]); (split; [discriminate|]); (split; [reflexivity|]);
        (split; [intros o E; cbn in E; try discriminate; injection E as <-; split; lia|]); exact R. }
    intros i s h I J. apply G. destruct i as [|[|[|i]]]; [..|lia]; cbn in J; cbn; intuition congruence.
Qed.
