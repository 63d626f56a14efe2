(* Sorting kernels on public and private data, and the sort of keys of any visibility.
   libspu/mpc/common/pv2k.cc, libspu/kernel/hal/permute.cc
   A 1-d array is the list of its k-bit words.  A private value is what its owner holds; what the other parties hold
   (pv2k.cc: the untouched input, or zeros) is never looked at and is modelled only in [on_owner]. *)
From Verif Require Import Base Ring_model Perm_model Scan_model Radix_model.
Open Scope nat_scope.

Section Pv.
Variable ord : nat -> list nat.
Variable junk : Z.
Variable k : Z.

(* what party [rank] returns from the private variant of a kernel: pv2k.cc:725-760 etc. ([other] what the rest returns) *)
Definition on_owner {A} (owner rank : nat) (mine other : A) : A := if rank =? owner then mine else other.

(* pv2k.cc:603-615 rounded_arshift on one element (617-649 TruncP, TruncV); for bits = 0 the second shift is by 2^64 - 1 *)
Definition rounded_arshift (bits : Z) (x : Z) : res Z :=
  rbind (ring_arshift k bits x) (fun v1 => rbind (ring_arshift k (bits - 1) x) (fun v2 => Ok (radd k v1 (Z.land v2 1)))).

(* pv2k.cc:691-723 GenInvPermP (725-760 GenInvPermV): std::stable_sort of 0..n-1 by the signed values, then _out[perm[idx]] = idx *)
Definition gen_inv_perm_p (x : list Z) (is_ascending : bool) : res (list Z) :=
  let less := fun a b => let u := sgn k (nth a x 0%Z) in let v := sgn k (nth b x 0%Z) in if is_ascending then (u <? v)%Z else (v <? u)%Z in
  let perm := stable_sort less (seq 0 (length x)) in
  loop (fun idx y => rbind (read perm idx) (fun p => write y p (wrap k (Z.of_nat idx)))) (seq 0 (length x)) (repeat junk (length x)).

(* prot_wrapper.cc:357-370 (shape check), pv2k.cc:762-785, 787-814 InvPermPP, InvPermVV: sequential loops *)
Definition inv_perm_pp (x y : list Z) : res (list Z) := apply_inv_perm (seq 0) junk x (ring2pv y).
(* pv2k.cc:816-839, 841-868 PermPP, PermVV *)
Definition perm_pp (x y : list Z) : res (list Z) := apply_perm (seq 0) junk x (ring2pv y).

(* std::all_of over the inputs: entries i and j agree; reading outside an input is undefined *)
Fixpoint all_same (inputs : list (list Z)) (i j : nat) : res bool :=
  match inputs with
  | [] => Ok true
  | x :: r => rbind (read x i) (fun u => rbind (read x j) (fun v => if (u =? v)%Z then all_same r i j else Ok false))
  end.
(* pv2k.cc:870-900 MergeKeysP (902-943 MergeKeysV): the loop from i, [last] = _out[i - 1] *)
Fixpoint merge_keys_loop (inputs : list (list Z)) (asc : bool) (i todo : nat) (last : Z) : res (list Z) :=
  match todo with
  | O => Ok []
  | S t =>
      rbind (all_same inputs i (i - 1)) (fun eq =>
      let v := if eq then last else if asc then radd k last 1 else rsub k last 1 in
      rbind (merge_keys_loop inputs asc (i + 1) t v) (fun r => Ok (v :: r)))
  end.
Definition merge_keys_p (inputs : list (list Z)) (asc : bool) : res (list Z) :=
  match inputs with
  | [] => Err
  | x0 :: _ =>
      let numel := length x0 in
      if numel =? 0 then Ub                                            (* _out[0] *)
      else rbind (merge_keys_loop inputs asc 1 (numel - 1) 0) (fun r => Ok (0%Z :: r))
  end.
(* pv2k.cc:954-1004 GroupMarkP (1006-1059 GroupMarkV) *)
Definition group_mark_p (inputs : list (list Z)) (end_group_mark : bool) : res (list Z) :=
  match inputs with
  | [] => Err
  | x0 :: _ =>
      let numel := length x0 in
      if numel =? 0 then Ub                                            (* _out[-1], _out[0] *)
      else if end_group_mark then
        rbind (rmap (fun i => rbind (all_same inputs i (i + 1)) (fun eq => Ok (if eq then 0 else 1)%Z)) (seq 0 (numel - 1))) (fun r => Ok (r ++ [1%Z]))
      else
        rbind (rmap (fun i => rbind (all_same inputs i (i - 1)) (fun eq => Ok (if eq then 1 else 0)%Z)) (seq 1 (numel - 1))) (fun r => Ok (0%Z :: r))
  end.

(* ---- hal: values of any visibility ---- *)
(* whether the protocol has the kernel inv_perm_av *)
Variable has_av : bool.
Record pval := mkV { pvis : vis; pkey : skey }.
Notation wordsof x := (kwords (pkey x)).
(* a result of the same data type as x; a secret result of a permutation is an arithmetic share (api.cc:768-811 _2a) *)
Definition like (x : pval) (v : vis) (w : list Z) : pval :=
  mkV v (mkKey w (match v with Sec => Z.to_nat k | _ => kbits (pkey x) end) (kuns (pkey x))).

(* permute.cc:1195-1218 _apply_inv_perm_sv *)
Definition apply_inv_perm_sv (x perm : list Z) (sh : list nat) : res (list Z) :=
  if has_av then apply_inv_perm ord junk x (ring2pv perm)
  else rbind (apply_inv_perm_ss ord junk [x] perm sh) (fun v => read v 0).
(* permute.cc:1270-1312, 1316-1323 MAP_PERM_OP(_apply_inv_perm) on one input; [sh] the random permutation drawn if one is needed *)
Definition apply_inv_perm1 (x perm : pval) (sh : list nat) : res pval :=
  let ss := rbind (apply_inv_perm_ss ord junk [wordsof x] (wordsof perm) sh) (fun v => rbind (read v 0) (fun w => Ok (like x Sec w))) in
  let sv := rbind (apply_inv_perm_sv (wordsof x) (wordsof perm) sh) (fun w => Ok (like x Sec w)) in
  let local v := rbind (inv_perm_pp (wordsof x) (wordsof perm)) (fun w => Ok (like x v w)) in
  match pvis x, pvis perm with
  | Pub, Pub => local Pub
  | Pub, Sec => ss
  | Pub, Priv o => local (Priv o)
  | Priv o, Priv o' => if o =? o' then local (Priv o) else sv
  | Priv o, Pub => local (Priv o)
  | Priv _, Sec => ss
  | Sec, Sec => ss
  | Sec, Pub => rbind (apply_inv_perm ord junk (wordsof x) (ring2pv (wordsof perm))) (fun w => Ok (like x Sec w))
  | Sec, Priv _ => sv
  end.
(* permute.cc:1327-1331 _inverse: a public iota is permuted *)
Definition inverse_words (perm : list Z) : res (list Z) := inv_perm_pp (map (fun i => wrap k (Z.of_nat i)) (seq 0 (length perm))) perm.
(* permute.cc:1104-1130 _apply_perm_ss *)
Definition apply_perm_ss (x perm : list Z) (sh : list nat) : res (list Z) :=
  rbind (apply_perm ord junk perm sh) (fun sp => opt_apply_perm_ss ord junk x (ring2pv sp) sh).
(* permute.cc:1349-1356 MAP_PERM_OP(_apply_perm) on one input; 1333-1345 _apply_perm_sv *)
Definition apply_perm1 (x perm : pval) (sh : list nat) : res pval :=
  let ss := rbind (apply_perm_ss (wordsof x) (wordsof perm) sh) (fun w => Ok (like x Sec w)) in
  let sv := rbind (inverse_words (wordsof perm)) (fun inv => rbind (apply_inv_perm_sv (wordsof x) inv sh) (fun w => Ok (like x Sec w))) in
  let local v := rbind (perm_pp (wordsof x) (wordsof perm)) (fun w => Ok (like x v w)) in
  match pvis x, pvis perm with
  | Pub, Pub => local Pub
  | Pub, Sec => ss
  | Pub, Priv o => local (Priv o)
  | Priv o, Priv o' => if o =? o' then local (Priv o) else sv
  | Priv o, Pub => local (Priv o)
  | Priv _, Sec => ss
  | Sec, Sec => ss
  | Sec, Pub => rbind (apply_perm ord junk (wordsof x) (ring2pv (wordsof perm))) (fun w => Ok (like x Sec w))
  | Sec, Priv _ => sv
  end.
(* permute.cc:1361-1363 _compose_perm *)
Definition compose_perm (x y : pval) (sh : list nat) : res pval := apply_perm1 y x sh.
(* permute.cc:1181-1193 _gen_inv_perm, 1053-1060 _gen_inv_perm_s of one key *)
Definition gen_inv_perm1 (x : pval) (asc : bool) (valid_bits : option nat) (rand : nat -> list nat) : res pval :=
  match pvis x with
  | Sec => rbind (gen_inv_perm_s ord junk k [pkey x] (negb asc) valid_bits rand) (fun w => Ok (mkV Sec (mkKey w (Z.to_nat k) false)))
  | v => rbind (gen_inv_perm_p (wordsof x) asc) (fun w => Ok (mkV v (mkKey w (kbits (pkey x)) false)))
  end.

(* random permutations drawn by one run of the loop below: in step t, for _gen_inv_perm, for the key and for the composition *)
Record rnds := mkR { r_gen : nat -> nat -> list nat; r_key : nat -> list nat; r_comp : nat -> list nat }.
(* permute.cc:1400-1405, 1457-1466: from the last key but one down to the first; [bits] the bit count for a key *)
Fixpoint perm_loop (below : list pval) (asc : bool) (bits : pval -> option nat) (R : rnds) (t : nat) (inv_perm : pval) : res pval :=
  match below with
  | [] => Ok inv_perm
  | cur :: r =>
      rbind (apply_inv_perm1 cur inv_perm (r_key R t)) (fun hat =>
      rbind (gen_inv_perm1 hat asc (bits cur) (r_gen R t)) (fun cp =>
      rbind (compose_perm inv_perm cp (r_comp R t)) (perm_loop r asc bits R (S t))))
  end.
Definition perm_of_keys (keys : list pval) (asc : bool) (last_bits : option nat) (bits : pval -> option nat) (R : rnds) : res pval :=
  match rev keys with
  | [] => Ub                                                           (* keys.back() *)
  | pre :: below => rbind (gen_inv_perm1 pre asc last_bits (r_gen R 0)) (perm_loop below asc bits R 1)
  end.
Definition is_sec (x : pval) : bool := match pvis x with Sec => true | _ => false end.
Definition is_pub (x : pval) : bool := match pvis x with Pub => true | _ => false end.
(* permute.cc:1367-1387 _merge_keys *)
Definition merge_keys (inputs : list pval) (asc : bool) : res pval :=
  match inputs with
  | [] => Ub                                                           (* inputs[0] *)
  | x0 :: _ =>
      let go v := rbind (merge_keys_p (map (fun x => wordsof x) inputs) asc) (fun w => Ok (mkV v (mkKey w (kbits (pkey x0)) false))) in
      match pvis x0 with
      | Pub => if forallb is_pub inputs then go Pub else Err
      | Priv o => if forallb (fun x => match pvis x with Priv o' => o' =? o | _ => false end) inputs then go (Priv o) else Err
      | Sec => Err
      end
  end.
(* permute.cc:1389-1413 _merge_pub_pri_keys; the merged key has a signed type *)
Definition merge_pub_pri_keys (keys : list pval) (asc : bool) (R : rnds) (sh : nat -> list nat) (sh_last : list nat) : res pval :=
  if existsb is_sec keys then Err
  else if length keys =? 0 then Err
  else
    rbind (perm_of_keys keys asc None (fun _ => None) R) (fun inv_perm =>
    rbind (rmap (fun '(i, key) => apply_inv_perm1 key inv_perm (sh i)) (combine (seq 0 (length keys)) keys)) (fun permed =>
    rbind (merge_keys permed asc) (fun merged => apply_perm1 merged inv_perm sh_last))).
(* permute.cc:1416-1436 _merge_sorting_keys: the keys are cut at the positions [ends] *)
Fixpoint cut {A} (beg : nat) (ends : list nat) (l : list A) : list (list A) :=
  match ends with [] => [] | e :: r => firstn (e - beg) l :: cut e r (skipn (e - beg) l) end.
Record mrnd := mkMR { m_loop : rnds; m_key : nat -> list nat; m_last : list nat }.
Definition merge_group (g : list pval) (asc : bool) (R : mrnd) : res pval :=
  match g with
  | [key] => if is_sec key then Ok key else merge_pub_pri_keys g asc (m_loop R) (m_key R) (m_last R)
  | _ => merge_pub_pri_keys g asc (m_loop R) (m_key R) (m_last R)
  end.
Definition merge_sorting_keys (keys : list pval) (asc : bool) (MR : nat -> mrnd) : res (list pval) :=
  rbind (find_mergeable_keys (map pvis keys)) (fun ends =>
  let groups := cut 0 ends keys in
  rmap (fun '(i, g) => merge_group g asc (MR i)) (combine (seq 0 (length groups)) groups)).
(* permute.cc:1442-1469 gen_inv_perm; core/bit_utils.h:24-26 Log2Floor *)
Definition gen_inv_perm (keys : list pval) (asc : bool) (valid_bits : option nat) (MR : nat -> mrnd) (R : rnds) : res pval :=
  if forallb is_sec keys then
    rbind (gen_inv_perm_s ord junk k (map pkey keys) (negb asc) valid_bits (r_gen R 0)) (fun w => Ok (mkV Sec (mkKey w (Z.to_nat k) false)))
  else
    rbind (merge_sorting_keys keys asc MR) (fun merged =>
    perm_of_keys merged asc valid_bits (fun cur => if is_sec cur then valid_bits else Some (Nat.log2 (length (wordsof cur)) + 2)) R).
(* permute.cc:1471-1498 apply_inv_perm on one input (every input is permuted alike, with one shuffle) *)
Definition apply_inv_perm_any (x perm : pval) (sh : list nat) : res pval :=
  let ss := rbind (apply_inv_perm_ss ord junk [wordsof x] (wordsof perm) sh) (fun v => rbind (read v 0) (fun w => Ok (like x Sec w))) in
  match pvis perm with
  | Sec => ss
  | Priv _ => if has_av then apply_inv_perm1 x perm sh else ss
  | Pub => Err
  end.
(* permute.cc:1506-1513 radix_sort *)
Definition radix_sort_any (keys payload : list pval) (asc : bool) (valid_bits : option nat) (MR : nat -> mrnd) (R : rnds) (sh : list nat) : res (list pval) :=
  rbind (gen_inv_perm keys asc valid_bits MR R) (fun perm => rmap (fun x => apply_inv_perm_any x perm sh) (keys ++ payload)).
End Pv.
