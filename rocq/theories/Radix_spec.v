(* Specification of the stable multi-key sort. *)
From Verif Require Import Base Ring_spec Perm_spec Radix_model.
Open Scope Z_scope.

(* the number that entry i of a key stands for *)
Definition key_value (k : Z) (x : skey) (i : nat) : Z :=
  let w := nthZ (kwords x) i in if kuns x then w else if w <? 2 ^ (k - 1) then w else w - 2 ^ k.
(* every entry of the key can be written with nb bits (as an unsigned, or as a two's complement number) *)
Definition key_fits (k : Z) (nb : nat) (x : skey) : Prop :=
  forall i, (i < length (kwords x))%nat ->
    if kuns x then 0 <= key_value k x i < 2 ^ Z.of_nat nb else (0 < nb)%nat /\ - 2 ^ (Z.of_nat nb - 1) <= key_value k x i < 2 ^ (Z.of_nat nb - 1).
(* row i strictly before row j in the lexicographic order of the keys, the first key first *)
Fixpoint row_before (desc : bool) (keys : list (nat -> Z)) (i j : nat) : Prop :=
  match keys with
  | [] => False
  | v :: r => (if desc then v j < v i else v i < v j) \/ (v i = v j /\ row_before desc r i j)
  end.
(* q lists the rows in sorted order; rows with equal keys keep their order *)
Definition stable_order (n : nat) (desc : bool) (keys : list (nat -> Z)) (q : list nat) : Prop :=
  is_perm n q /\
  forall a b i j, (a < b)%nat -> nth_error q a = Some i -> nth_error q b = Some j ->
    row_before desc keys i j \/ ((forall v, In v keys -> v i = v j) /\ (i < j)%nat).
(* a key of n words, sorted by the requested number of bits, or by those of its boolean share; they hold its values *)
Definition nbits_of (vb : option nat) (key : skey) : nat := match vb with Some v => v | None => kbits key end.
Definition key_ok (k : Z) (n : nat) (vb : option nat) (key : skey) : Prop :=
  Forall (word k) (kwords key) /\ Z.of_nat (nbits_of vb key) <= k /\ (0 < nbits_of vb key)%nat /\ length (kwords key) = n /\ key_fits k (nbits_of vb key) key.
(* a key held as an arithmetic share: all bits of the ring *)
Definition full_key (k : Z) (n : nat) (key : skey) : Prop := Forall (word k) (kwords key) /\ Z.of_nat (kbits key) = k /\ length (kwords key) = n.
