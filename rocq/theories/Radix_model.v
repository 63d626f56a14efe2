(* Radix sort of secret keys.
   libspu/kernel/hal/permute.cc
   Values are seen in plaintext, as k-bit words: what the share kernels do to them is the subject of C14-C28 (ring
   operations, bit decomposition) and C22 (perm_ss gathers by ONE permutation of the vector, the same for every vector
   permuted with the same shared permutation; inv_perm_ss undoes it; perm_sp and inv_perm_sp gather and scatter by a
   public vector).  A random shared permutation is therefore the index vector it gathers by. *)
From Verif Require Import Base Ring_model Perm_model Scan_model.
Open Scope nat_scope.

Section Radix.
(* order of the iterations of a parallel loop, content of fresh memory: see Perm_model *)
Variable ord : nat -> list nat.
Variable junk : Z.
(* width of the ring *)
Variable k : Z.

(* mpc/utils/permute.cc:29-39 ring2pv: words as int64 indices; a negative index is out of every range, so is the
   natural number that stands for it here *)
Definition ring2pv (x : list Z) : list nat := map Z.to_nat x.

(* permute.cc:781-806 _opt_apply_inv_perm_ss *)
Definition opt_apply_inv_perm_ss (x : list (list Z)) (perm : list Z) (random_perm : list nat) : res (list (list Z) * list nat) :=
  rbind (apply_perm ord junk perm random_perm) (fun sp =>
  rbind (rmap (fun xi => apply_perm ord junk xi random_perm) x) (fun sx =>
  let m := ring2pv sp in
  rbind (rmap (fun s => apply_inv_perm ord junk s m) sx) (fun v => Ok (v, m)))).
(* permute.cc:945-952 _opt_apply_perm_ss *)
Definition opt_apply_perm_ss (perm : list Z) (shuffled_perm random_perm : list nat) : res (list Z) :=
  rbind (apply_perm ord junk perm shuffled_perm) (fun sm => apply_inv_perm ord junk sm random_perm).

(* permute.cc:209-215 _prefix_sum *)
Definition prefix_sum (x : list Z) : res (list Z) := associative_scan (S (length x)) k (radd k) x.
(* permute.cc:849-886 _gen_inv_perm_by_bv(x, y) *)
Definition gen_inv_perm_by_bv2 (x y : list Z) : res (list Z) :=
  if negb (length x =? length y) then Err else
  let numel := length x in
  let k1 := repeat 1%Z numel in
  rbind (vec2 (rsub k) k1 x) (fun rev_x =>
  rbind (vec2 (rsub k) k1 y) (fun rev_y =>
  rbind (vec2 (rmul k) rev_x rev_y) (fun f0 =>
  rbind (vec2 (rsub k) rev_y f0) (fun f1 =>
  rbind (vec2 (rsub k) rev_x f0) (fun f2 =>
  rbind (vec2 (rsub k) y f2) (fun f3 =>
  let f := f0 ++ f1 ++ f2 ++ f3 in
  rbind (prefix_sum f) (fun ps =>
  rbind (vec2 (rmul k) f ps) (fun fs =>
  rbind (slice1 fs 0 numel 1) (fun fs0 =>
  rbind (slice1 fs numel (2 * numel) 1) (fun fs1 =>
  rbind (slice1 fs (2 * numel) (3 * numel) 1) (fun fs2 =>
  rbind (slice1 fs (3 * numel) (4 * numel) 1) (fun fs3 =>
  rbind (vec2 (radd k) fs0 fs1) (fun s01 =>
  rbind (vec2 (radd k) fs2 fs3) (fun s23 =>
  rbind (vec2 (radd k) s01 s23) (fun r => vec2 (rsub k) r k1))))))))))))))).
(* permute.cc:908-930 _gen_inv_perm_by_bv(x) *)
Definition gen_inv_perm_by_bv1 (x : list Z) : res (list Z) :=
  let numel := length x in
  let k1 := repeat 1%Z numel in
  rbind (vec2 (rsub k) k1 x) (fun rev_x =>
  let f := rev_x ++ x in
  rbind (prefix_sum f) (fun ps =>
  rbind (vec2 (rmul k) f ps) (fun fs =>
  rbind (slice1 fs 0 numel 1) (fun fs0 =>
  rbind (slice1 fs numel (2 * numel) 1) (fun fs1 =>
  rbind (vec2 (radd k) fs0 fs1) (fun r => vec2 (rsub k) r k1)))))).

(* a sort key: its words, the bit count of its boolean share (k for an arithmetic share, which _prefer_b converts),
   and whether its data type is unsigned *)
Record skey := mkKey { kwords : list Z; kbits : nat; kuns : bool }.
(* permute.cc:954-981 _bit_decompose; valid_bits = None stands for -1 *)
Definition bit_decompose (x : skey) (valid_bits : option nat) : list (list Z) :=
  let nbits := match valid_bits with Some v => v | None => kbits x end in
  map (fun bit => map (fun v => Z.land (Z.shiftr v (Z.of_nat bit)) 1) (kwords x)) (seq 0 nbits).
(* permute.cc:984-1014 _gen_bv_vector: the body for one key; an empty decomposition is refused *)
Definition key_bv (desc : bool) (valid_bits : option nat) (key : skey) : res (list (list Z)) :=
  let t := bit_decompose key valid_bits in
  let flip := map (fun b => rsub k 1 b) in
  let top := nth (length t - 1) t [] in
  if length t =? 0 then Err else
  Ok (map (fun b => if desc then flip b else b) (firstn (length t - 1) t) ++
      [if kuns key then if desc then flip top else top else if desc then top else flip top]).
(* keys[0] is the most significant key: the loop runs from the last one *)
Definition gen_bv_vector (keys : list skey) (desc : bool) (valid_bits : option nat) : res (list (list Z)) :=
  rbind (rmap (key_bv desc valid_bits) (rev keys)) (fun l => Ok (concat l)).

(* permute.cc:1017-1051 _gen_inv_perm_s: the loop over pairs of bit vectors, and the last one; [rand] the random permutations drawn in turn *)
Fixpoint inv_perm_loop (bv : list (list Z)) (rand : nat -> list nat) (t : nat) (shared_perm : list Z) : res (list Z) :=
  match bv with
  | [] => Ok shared_perm
  | [b] =>
      rbind (opt_apply_inv_perm_ss [b] shared_perm (rand t)) (fun '(sbv, sperm) =>
      rbind (read sbv 0) (fun b0 =>
      rbind (gen_inv_perm_by_bv1 b0) (fun perm => opt_apply_perm_ss perm sperm (rand t))))
  | b :: c :: bv' =>
      rbind (opt_apply_inv_perm_ss [b; c] shared_perm (rand t)) (fun '(sbv, sperm) =>
      rbind (read sbv 0) (fun b0 => rbind (read sbv 1) (fun b1 =>
      rbind (gen_inv_perm_by_bv2 b0 b1) (fun perm =>
      rbind (opt_apply_perm_ss perm sperm (rand t)) (fun p => inv_perm_loop bv' rand (S t) p)))))
  end.
Definition gen_inv_perm_s (keys : list skey) (desc : bool) (valid_bits : option nat) (rand : nat -> list nat) : res (list Z) :=
  rbind (gen_bv_vector keys desc valid_bits) (fun bv =>
  match keys with
  | [] => Ub                                                          (* keys[0] *)
  | key0 :: _ => if length bv =? 0 then Err else inv_perm_loop bv rand 0 (map Z.of_nat (seq 0 (length (kwords key0))))
  end).
(* permute.cc:1064-1089 _apply_inv_perm_ss, with one more random permutation *)
Definition apply_inv_perm_ss (x : list (list Z)) (perm : list Z) (shuffle : list nat) : res (list (list Z)) :=
  rbind (opt_apply_inv_perm_ss x perm shuffle) (fun '(v, _) => Ok v).
(* permute.cc:1442-1450, 1506-1513: radix_sort when every key is secret; inputs are the words of every operand, keys first *)
Definition radix_sort (keys : list skey) (payload : list (list Z)) (desc : bool) (valid_bits : option nat) (rand : nat -> list nat) (shuffle : list nat) :
  res (list (list Z)) :=
  rbind (gen_inv_perm_s keys desc valid_bits rand) (fun perm => apply_inv_perm_ss (map kwords keys ++ payload) perm shuffle).
End Radix.

(* visibility of a key, with the owner of a private one *)
Inductive vis := Pub | Priv (owner : nat) | Sec.
(* permute.cc:1144-1178 _find_mergeable_keys: the loop from the last key down; [pre] is pre_owner (None = -1), [next] the key
   at idx+1, [idx1] = idx+1, [below] the keys idx, idx-1, ..., 0 *)
Fixpoint mergeable_loop (below : list vis) (next : vis) (pre : option nat) (idx1 : nat) : list nat :=
  match below with
  | [] => []
  | cur :: below' =>
      match next with
      | Sec => idx1 :: mergeable_loop below' cur pre (idx1 - 1)
      | _ =>
          let pre' := match cur with Priv o => Some o | _ => None end in
          match cur with
          | Pub => mergeable_loop below' cur pre (idx1 - 1)
          | Priv o =>
              match pre with
              | None => mergeable_loop below' cur (Some o) (idx1 - 1)
              | Some p => if p =? o then mergeable_loop below' cur (Some o) (idx1 - 1) else idx1 :: mergeable_loop below' cur pre' (idx1 - 1)
              end
          | Sec => idx1 :: mergeable_loop below' cur pre' (idx1 - 1)
          end
      end
  end.
Definition find_mergeable_keys (keys : list vis) : res (list nat) :=
  match rev keys with
  | [] => Ub                                                         (* keys[-1] *)
  | last :: below => Ok (rev (length keys :: mergeable_loop below last (match last with Priv o => Some o | _ => None end) (length keys - 1)))
  end.
