(* Specification of synchronised symbol tables. *)
From Coq Require Import Permutation.
From Verif Require Import Ty_model Ty_proof Base Nd_model Nd_spec Val_model Val_spec Sync_model.
Open Scope list_scope.
Open Scope Z_scope.

(* a value that can be sent (C43): its type survives its own string, its elements exist *)
Definition portable (ps : list proto) (v : value) : Prop := exists mk z,
  args_ok mk /\ construct mk = Ok (vty v) /\ tsize (vty v) = Ok z /\ registered ps (tcls (vty v)) /\ tcls (vty v) <> AbyO /\ tcls (vty v) <> SpdzB /\
  mac (vty v) = false /\ vdt v <> 0 /\ tvisibility (vty v) <> VInvalid /\ good_array z (vdata v) /\
  match vimag v with Some im => good_array z im /\ shp im = shp (vdata v) | None => True end /\ size (shp (vdata v)) * z < 2 ^ 63.
(* the same value in another memory layout *)
Definition same_value (v v' : value) : Prop :=
  vty v' = vty v /\ vdt v' = vdt v /\ same_array (vdata v) (vdata v') /\
  match vimag v, vimag v' with Some a, Some b => same_array a b | None, None => True | _, _ => False end.
(* any iteration order of a hash map *)
Definition any_order (f : nat -> nat -> smap pvalue -> smap pvalue) : Prop := forall i j m, Permutation m (f i j m).
(* names are keys of a map *)
Definition keys_once {A} (m : smap A) : Prop := NoDup (map fst m).
(* no name is set by two parties *)
Definition disjoint {V} (n : nat) (st : nat -> pstate V) : Prop :=
  forall i j s, (i < n)%nat -> (j < n)%nat -> In s (map fst (unsynced V (st i))) -> In s (map fst (unsynced V (st j))) -> i = j.
(* every host variable has one portable value per party *)
Definition shareable {V} (n : nat) (make : nat -> string -> V -> res (list value)) (ps : list proto) (st : nat -> pstate V) : Prop :=
  forall i s v, (i < n)%nat -> In (s, v) (unsynced V (st i)) -> exists vs, make i s v = Ok vs /\ length vs = n /\ Forall (portable ps) vs.
(* a host variable: words of the field in the number its shape says, a data type, an owner among the parties, n - 1 random words per element *)
Definition good_hvar (f : field) (n : nat) (h : hvar) : Prop :=
  shape_ok (hshape h) /\ Z.of_nat (length (hwords h)) = size (hshape h) /\ Forall (fun x => 0 <= x < 2 ^ fbits f) (hwords h) /\ hdt h <> 0 /\ size (hshape h) < 2 ^ 59 /\
  (forall o, hvis h = Semi_model.VPrivate o -> (o < n)%nat /\ Z.of_nat o < 2 ^ 63) /\ (forall i, length (hrand h i) = (n - 1)%nat /\ Forall (fun r => 0 <= r < 2 ^ fbits f) (hrand h i)).
(* party p holds, for every index, its element of a sharing that recombines to the word *)
Definition holds_share (f : field) (n p : nat) (h : hvar) (v : value) (e : nat -> list Z -> Z) : Prop :=
  shp (vdata v) = hshape h /\ vdt v = hdt h /\ forall idx, valid idx (hshape h) -> get (vdata v) idx = Ok (e p idx).
Definition recombines (f : field) (n : nat) (h : hvar) (e : nat -> list Z -> Z) : Prop :=
  forall idx, valid idx (hshape h) ->
    Semi_model.from_shares (fbits f) (Semi_model.kind_of (hvis h)) (map (fun p => e p idx) (seq 0 n)) = Ok (nth (Z.to_nat (rowmajor idx (hshape h))) (hwords h) 0).
