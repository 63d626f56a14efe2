(* Specification of sorting permutations, merged keys and group marks. *)
From Verif Require Import Base Ring_spec Perm_spec Radix_model Radix_spec.
Open Scope nat_scope.

(* pn gives every row its place in the stable order of the rows by the given keys *)
Definition places (n : nat) (desc : bool) (keys : list (nat -> Z)) (pn : list nat) : Prop :=
  is_perm n pn /\
  forall i j, i < n -> j < n ->
    (nth i pn 0 < nth j pn 0 <-> row_before desc keys i j \/ ((forall v, In v keys -> v i = v j) /\ i < j)).
(* one key m that orders the rows as the list of keys does *)
Definition merged (n : nat) (desc : bool) (keys : list (nat -> Z)) (m : nat -> Z) : Prop :=
  forall i j, i < n -> j < n ->
    (row_before desc [m] i j <-> row_before desc keys i j) /\ (m i = m j <-> forall v, In v keys -> v i = v j).
(* the signed number that entry i of a vector of words stands for *)
Definition sval (k : Z) (x : list Z) (i : nat) : Z := let w := nthZ x i in if (w <? 2 ^ (k - 1))%Z then w else (w - 2 ^ k)%Z.
(* row i of a table of columns *)
Definition row_of (cols : list (list Z)) (i : nat) : list Z := map (fun x => nthZ x i) cols.
(* the longest run of equal rows around i ends (starts) at i *)
Definition last_of_run (cols : list (list Z)) (n i : nat) : Prop := forall j, i < j < n -> exists m, i < m <= j /\ row_of cols m <> row_of cols i.
Definition first_of_run (cols : list (list Z)) (i : nat) : Prop := forall j, j < i -> exists m, j <= m < i /\ row_of cols m <> row_of cols i.
(* the nearest integer to x / 2^b, halves rounded up *)
Definition nearest (x b r : Z) : Prop := (- 2 ^ b <= 2 * (x - r * 2 ^ b) < 2 ^ b)%Z.
(* a group of keys that can be merged: one secret key, or keys that are public or belong to one owner *)
Definition one_group (g : list vis) : Prop := g = [Sec] \/ (g <> [] /\ exists o, Forall (fun v => v = Pub \/ v = Priv o) g).
(* no private key directly in front of a secret key follows, with public keys at most between them, a private key of another owner *)
Definition owners_ok (keys : list vis) : Prop :=
  forall a o m o' b, keys = a ++ Priv o :: repeat Pub m ++ Priv o' :: Sec :: b -> o = o'.
(* a key of n words that sorts as its value says: public and private keys are compared as signed numbers, whatever their type *)
Definition sort_key (k : Z) (n : nat) (vb : option nat) (v : vis) (key : skey) : Prop :=
  Forall (word k) (kwords key) /\ length (kwords key) = n /\
  match v with
  | Sec => key_ok k n vb key
  | _ => kuns key = true -> Forall (fun w => w < 2 ^ (k - 1))%Z (kwords key)
  end.
