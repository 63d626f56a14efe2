(* Model of the trusted-first-party beaver provider, the trusted-party adjustment and the beaver
   cache of semi2k:
     src/libspu/mpc/semi2k/beaver/beaver_impl/beaver_tfp.cc
     src/libspu/mpc/semi2k/beaver/beaver_impl/trusted_party/trusted_party.cc
     src/libspu/mpc/semi2k/beaver/beaver_cache.cc
     src/libspu/mpc/semi2k/arithmetic.cc (MulOpen, MulAA, SquareA, MatMulAA)
   Every function is the code run by ONE party; a joint run is a function from ranks.
   A field is represented by its width in bits.  Simplifications: the eltype is kRing; a buffer is
   an accessor from the flat index. *)
From Verif Require Import Base Ring_model Semi_model.
Open Scope Z_scope.

(* beaver_interface.h:32-46 *)
Inductive status := SInit | SReplay | STransposeReplay.
Record desc := mkDesc { d_status : status; d_ctr : Z; d_seed : Z; d_seeds : list Z; d_size : Z; d_field : Z }.
Definition desc0 : desc := mkDesc SInit 0 0 [] 0 0.  (* a default-constructed ReplayDesc *)

(* beaver_tfp.h: members seed_, counter_, seeds_ (seeds_ is filled at rank 0 only, beaver_tfp.cc:54-70) *)
Record bst := mkBst { b_seed : Z; b_ctr : Z; b_seeds : list Z }.
(* trusted_party.h:28-32 Operand *)
Record operand := mkOp { o_seeds : list Z; o_ctr : Z; o_field : Z; o_tr : bool }.
(* one call of the generator on fresh stream positions: start counter and number of 16-byte blocks *)
Definition draw := (Z * Z)%type.

(* Beaver server/first party: constructor beaver_tfp.cc:54-70 after the gather *)
Definition tfp_init (seeds : list Z) (rank : nat) : bst :=
  mkBst (nth rank seeds 0) 0 (if (rank =? 0)%nat then seeds else []).

Section Prg.
(* The AES generator (yacl FillPRand, external): the idx-th element, of a given width, of an array
   filled for a seed from a counter on *)
Variable prg : Z -> Z -> Z -> nat -> Z.
(* Counter increase of a call that produces [numel] elements of width w: FillPRand returns the counter
   plus the number of 16-byte blocks used (external) *)
Definition blocks (w numel : Z) : Z := (numel * (w / 8) + 15) / 16.
(* the width of the field of the call *)
Variable k : Z.

(* common/prg_tensor.h:37-49 prgCreateArray (ring_ops.cc:223-235 ring_rand); the drawn array, the operand descriptor and the new
   counter *)
Definition create (w seed ctr numel : Z) : (nat -> Z) * Z := (prg w seed ctr, ctr + blocks w numel).
(* common/prg_tensor.h:51-66 prgReplayArray, prgReplayArrayMutable *)
Definition replay (seed : Z) (o : operand) : nat -> Z := prg (o_field o) seed (o_ctr o).

(* trusted_party.cc:37-81 reduce: starts from rank 0's array *)
Definition reduce (op : Z -> Z -> Z) (o : operand) (i : nat) : Z :=
  match o_seeds o with
  | [] => 0
  | s0 :: ss => fold_left (fun acc s => op acc (replay s o i)) ss (replay s0 o i)
  end.
(* trusted_party.cc:103-116 *)
Definition adjust_mul (oa ob oc : operand) (i : nat) : Z :=
  rsub k (rmul k (reduce (radd k) oa i) (reduce (radd k) ob i)) (reduce (radd k) oc i).
(* trusted_party.cc:127-139 *)
Definition adjust_mul_priv (oab oc : operand) (i : nat) : Z :=
  rsub k (reduce (rmul k) oab i) (reduce (radd k) oc i).
(* trusted_party.cc:141-149 *)
Definition adjust_square (oa ob : operand) (i : nat) : Z :=
  rsub k (rmul k (reduce (radd k) oa i) (reduce (radd k) oa i)) (reduce (radd k) ob i).
(* trusted_party.cc:151-168: a is m x kk, b is kk x n; a transposed operand was drawn with the
   reversed shape *)
Definition as_matrix (o : operand) (rows cols : nat) (f : nat -> Z) (i j : nat) : Z :=
  if o_tr o then f (j * rows + i)%nat else f (i * cols + j)%nat.
Definition adjust_dot (m n kk : nat) (oa ob oc : operand) (i j : nat) : Z :=
  rsub k (ring_mmul k kk (as_matrix oa m kk (reduce (radd k) oa)) (as_matrix ob kk n (reduce (radd k) ob)) i j)
         (reduce (radd k) oc (i * n + j)%nat).
(* trusted_party.cc:170-179 *)
Definition adjust_and (oa ob oc : operand) (i : nat) : Z :=
  rxor (rand_ (reduce rxor oa i) (reduce rxor ob i)) (reduce rxor oc i).
(* trusted_party.cc:181-190 *)
Definition adjust_trunc (bits : Z) (oa ob : operand) (i : nat) : Z :=
  rsub k (rsar k bits (reduce (radd k) oa i)) (reduce (radd k) ob i).
(* trusted_party.cc:192-210 *)
Definition adjust_truncpr (bits : Z) (o0 o1 o2 : operand) (i : nat) : Z * Z :=
  (rsub k (rshr (bits + 1) (rshl k 1 (reduce (radd k) o0 i))) (reduce (radd k) o1 i),
   rsub k (rshr (k - 1) (reduce (radd k) o0 i)) (reduce (radd k) o2 i)).
(* trusted_party.cc:212-220; [rb] is the dealer's ring_randbit array *)
Definition adjust_randbit (rb : nat -> Z) (o : operand) (i : nat) : Z := rsub k (rb i) (reduce (radd k) o i).
(* trusted_party.cc:222-229 *)
Definition adjust_eqz (oa ob : operand) (i : nat) : Z := rxor (reduce (radd k) oa i) (reduce rxor ob i).
(* trusted_party.cc:231-237; applyInvPerm (utils/permute.cc:40-51) is y[pv[i]] = x[i]: element j of the result is
   x at the position where pv holds j *)
Fixpoint find_pos (pv : list nat) (j : nat) : nat :=
  match pv with [] => O | v :: vs => if (v =? j)%nat then O else S (find_pos vs j) end.
Definition apply_inv (pv : list nat) (x : nat -> Z) (j : nat) : Z := x (find_pos pv j).
Definition adjust_perm (pv : list nat) (oa ob : operand) (i : nat) : Z :=
  rsub k (apply_inv pv (reduce (radd k) oa) i) (reduce (radd k) ob i).

(* beaver_tfp.cc:37-50 FillReplayDesc (encrypted_seeds is seeds_buff_, the bytes of seeds_) *)
Definition fill_desc (d : option desc) (st : bst) (size : Z) : option desc :=
  match d with
  | Some (mkDesc SInit _ _ _ _ _) => Some (mkDesc SInit (b_ctr st) (b_seed st) (b_seeds st) size k)
  | d => d
  end.
(* the lambda if_replay of Mul and Square: beaver_tfp.cc:79-110, 174-201 *)
Definition if_replay (st : bst) (d : option desc) (size : Z) : res ((nat -> Z) * operand * bst * list draw) :=
  match d with
  | Some (mkDesc SReplay c s ss sz fd) =>
      if (fd =? k) && (sz =? size) then Ok (prg k s c, mkOp ss c k false, st, []) else Err
  | _ =>
      let '(a, c') := create k (b_seed st) (b_ctr st) size in
      Ok (a, mkOp (b_seeds st) (b_ctr st) k false, mkBst (b_seed st) c' (b_seeds st), [(b_ctr st, blocks k size)])
  end.
(* the lambda if_replay of Dot: beaver_tfp.cc:228-260; any descriptor (whatever its status) draws at
   the descriptor's counter through a temporary, so counter_ does not move *)
Definition if_replay_dot (st : bst) (d : option desc) (rows cols : nat) : res ((nat -> Z) * operand * bst * list draw) :=
  let size := Z.of_nat rows * Z.of_nat cols in
  match d with
  | None =>
      let '(a, c') := create k (b_seed st) (b_ctr st) size in
      Ok (a, mkOp (b_seeds st) (b_ctr st) k false, mkBst (b_seed st) c' (b_seeds st), [(b_ctr st, blocks k size)])
  | Some dd =>
      if d_field dd =? k then
        let tr := match d_status dd with STransposeReplay => true | _ => false end in
        let o := mkOp (d_seeds dd) (d_ctr dd) k tr in
        (* an Init descriptor was just filled with counter_: these are positions drawn now *)
        let l := match d_status dd with SInit => [(d_ctr dd, blocks k size)] | _ => [] end in
        let raw := prg k (d_seed dd) (d_ctr dd) in
        (* the transposed array is re-laid out row-major (transpose().clone()) *)
        Ok ((fun f => as_matrix o rows cols raw (f / cols) (f mod cols)), o, st, l)
      else Err
  end.
(* prgCreateArray into operand: the unconditional draws *)
Definition fresh (w : Z) (st : bst) (size : Z) : (nat -> Z) * operand * bst * list draw :=
  let '(a, c') := create w (b_seed st) (b_ctr st) size in
  (a, mkOp (b_seeds st) (b_ctr st) w false, mkBst (b_seed st) c' (b_seeds st), [(b_ctr st, blocks w size)]).

Record triple := mkTriple { t_a : nat -> Z; t_b : nat -> Z; t_c : nat -> Z }.
Record out (A : Type) := mkOut { r_val : A; r_st : bst; r_xd : option desc; r_yd : option desc; r_draws : list draw }.
Arguments mkOut {A}. Arguments r_val {A}. Arguments r_st {A}. Arguments r_xd {A}. Arguments r_yd {A}. Arguments r_draws {A}.

(* beaver_tfp.cc:72-135 Mul *)
Definition tfp_mul (rank : nat) (st : bst) (size : Z) (xd yd : option desc) : res (out triple) :=
  let xd' := fill_desc xd st size in
  rbind (if_replay st xd' size) (fun '(a, oa, st1, l1) =>
  let yd' := fill_desc yd st1 size in
  rbind (if_replay st1 yd' size) (fun '(b, ob, st2, l2) =>
  let '(c, oc, st3, l3) := fresh k st2 size in
  let c' := if (rank =? 0)%nat then fun i => radd k (c i) (adjust_mul oa ob oc i) else c in
  Ok (mkOut (mkTriple a b c') st3 xd' yd' (l1 ++ l2 ++ l3)))).
(* beaver_tfp.cc:137-166 MulPriv *)
Definition tfp_mul_priv (rank : nat) (st : bst) (size : Z) : out ((nat -> Z) * (nat -> Z)) :=
  let '(a, oa, st1, l1) := fresh k st size in
  let '(c, oc, st2, l2) := fresh k st1 size in
  let c' := if (rank =? 0)%nat then fun i => radd k (c i) (adjust_mul_priv oa oc i) else c in
  mkOut (a, c') st2 None None (l1 ++ l2).
(* beaver_tfp.cc:168-216 Square *)
Definition tfp_square (rank : nat) (st : bst) (size : Z) (xd : option desc) : res (out ((nat -> Z) * (nat -> Z))) :=
  let xd' := fill_desc xd st size in
  rbind (if_replay st xd' size) (fun '(a, oa, st1, l1) =>
  let '(b, ob, st2, l2) := fresh k st1 size in
  let b' := if (rank =? 0)%nat then fun i => radd k (b i) (adjust_square oa ob i) else b in
  Ok (mkOut (a, b') st2 xd' None (l1 ++ l2))).
(* beaver_tfp.cc:218-282 Dot: a is m x kk, b is kk x n *)
Definition tfp_dot (rank : nat) (st : bst) (m n kk : nat) (xd yd : option desc) : res (out triple) :=
  let xd' := fill_desc xd st (Z.of_nat m * Z.of_nat kk) in
  rbind (if_replay_dot st xd' m kk) (fun '(a, oa, st1, l1) =>
  let yd' := fill_desc yd st1 (Z.of_nat n * Z.of_nat kk) in
  rbind (if_replay_dot st1 yd' kk n) (fun '(b, ob, st2, l2) =>
  let '(c, oc, st3, l3) := fresh k st2 (Z.of_nat m * Z.of_nat n) in
  let c' := if (rank =? 0)%nat then fun f => radd k (c f) (adjust_dot m n kk oa ob oc (f / n) (f mod n)) else c in
  Ok (mkOut (mkTriple a b c') st3 xd' yd' (l1 ++ l2 ++ l3)))).
(* beaver_tfp.cc:284-312 And: elements are FM128 words, [size] bytes are kept *)
Definition tfp_and (rank : nat) (st : bst) (size : Z) : out triple :=
  let elsize := (size + 15) / 16 in
  let '(a, oa, st1, l1) := fresh 128 st elsize in
  let '(b, ob, st2, l2) := fresh 128 st1 elsize in
  let '(c, oc, st3, l3) := fresh 128 st2 elsize in
  let c' := if (rank =? 0)%nat then fun i => rxor (c i) (adjust_and oa ob oc i) else c in
  mkOut (mkTriple a b c') st3 None None (l1 ++ l2 ++ l3).
(* beaver_tfp.cc:314-334 Trunc *)
Definition tfp_trunc (rank : nat) (st : bst) (size bits : Z) : out ((nat -> Z) * (nat -> Z)) :=
  let '(a, oa, st1, l1) := fresh k st size in
  let '(b, ob, st2, l2) := fresh k st1 size in
  let b' := if (rank =? 0)%nat then fun i => radd k (b i) (adjust_trunc bits oa ob i) else b in
  mkOut (a, b') st2 None None (l1 ++ l2).
(* beaver_tfp.cc:336-360 TruncPr *)
Definition tfp_truncpr (rank : nat) (st : bst) (size bits : Z) : out triple :=
  let '(r, o0, st1, l1) := fresh k st size in
  let '(rc, o1, st2, l2) := fresh k st1 size in
  let '(rb, o2, st3, l3) := fresh k st2 size in
  let rc' := if (rank =? 0)%nat then fun i => radd k (rc i) (fst (adjust_truncpr bits o0 o1 o2 i)) else rc in
  let rb' := if (rank =? 0)%nat then fun i => radd k (rb i) (snd (adjust_truncpr bits o0 o1 o2 i)) else rb in
  mkOut (mkTriple r rc' rb') st3 None None (l1 ++ l2 ++ l3).
(* beaver_tfp.cc:362-376 RandBit *)
Definition tfp_randbit (rank : nat) (st : bst) (size : Z) (rb : nat -> Z) : out (nat -> Z) :=
  let '(a, oa, st1, l1) := fresh k st size in
  let a' := if (rank =? 0)%nat then fun i => radd k (a i) (adjust_randbit rb oa i) else a in
  mkOut a' st1 None None l1.
(* beaver_tfp.cc:426-445 Eqz *)
Definition tfp_eqz (rank : nat) (st : bst) (size : Z) : out ((nat -> Z) * (nat -> Z)) :=
  let '(a, oa, st1, l1) := fresh k st size in
  let '(b, ob, st2, l2) := fresh k st1 size in
  let b' := if (rank =? 0)%nat then fun i => rxor (b i) (adjust_eqz oa ob i) else b in
  mkOut (a, b') st2 None None (l1 ++ l2).

(* genRandomPerm, utils/permute.cc:128-133 (yacl ReplayShuffle, external): the permutation of
   0..numel-1 and the new counter *)
Variable shuffle : Z -> Z -> nat -> list nat * Z.
(* beaver_tfp.cc:378-420 PermPair up to the broadcast: the party's results and its own counter *)
Definition tfp_perm_local (rank perm_rank : nat) (st : bst) (size : nat) :
    (nat -> Z) * (nat -> Z) * list nat * bst * list draw :=
  let '(a, oa, st1, l1) := fresh k st (Z.of_nat size) in
  let '(b, ob, st2, l2) := fresh k st1 (Z.of_nat size) in
  let '(pi, c1) := if (rank =? perm_rank)%nat then shuffle (b_seed st2) (b_ctr st2) size else ([], b_ctr st2) in
  let '(b', c2) :=
    if (rank =? 0)%nat then
      if (perm_rank =? 0)%nat then ((fun i => radd k (b i) (adjust_perm pi oa ob i)), c1)
      else let '(pi', c') := shuffle (nth perm_rank (b_seeds st2) 0) c1 size in
           ((fun i => radd k (b i) (adjust_perm pi' oa ob i)), c')
    else (b, c1) in
  (a, b', pi, mkBst (b_seed st2) c2 (b_seeds st2), l1 ++ l2 ++ (if (rank =? perm_rank)%nat then [(b_ctr st2, c1 - b_ctr st2)] else [])).
(* ... and the broadcast of perm_rank's counter *)
Definition tfp_perm_all (perm_rank : nat) (st : nat -> bst) (size : nat) (rank : nat) :
    (nat -> Z) * (nat -> Z) * list nat * bst :=
  let '(a, b, pi, st', _) := tfp_perm_local rank perm_rank (st rank) size in
  let '(_, _, _, stp, _) := tfp_perm_local perm_rank perm_rank (st perm_rank) size in
  (a, b, pi, mkBst (b_seed st') (b_ctr stp) (b_seeds st')).

(* ------------------------------------------------------------------ *)
(* Beaver cache.  Arrays are two-dimensional views of shared buffers; a one-dimensional operand of
   an element-wise product is a single column. *)
Record view := mkView { v_buf : nat; v_off : Z; v_r : nat; v_c : nat; v_sr : Z; v_sc : Z }.
(* core/ndarray_ref.h:95-98 operator== *)
Definition view_eqb (x y : view) : bool :=
  (v_buf x =? v_buf y)%nat && (v_off x =? v_off y) && (v_r x =? v_r y)%nat && (v_c x =? v_c y)%nat &&
  (v_sr x =? v_sr y) && (v_sc x =? v_sc y).
Definition vtranspose (x : view) : view := mkView (v_buf x) (v_off x) (v_c x) (v_r x) (v_sc x) (v_sr x).
(* element (i,j) of a view over the buffers of one party *)
Definition vget (mem : nat -> Z -> Z) (x : view) (i j : nat) : Z :=
  mem (v_buf x) (v_off x + Z.of_nat i * v_sr x + Z.of_nat j * v_sc x).
Definition vsize (x : view) : Z := Z.of_nat (v_r x) * Z.of_nat (v_c x).

(* beaver_cache.h:62-91: enabled buffers with, per view, the descriptor and the opened difference.
   WriteCache/ReadCache (133-177) store and read back the row-major bytes of the opened array; the
   leveldb store is modelled as returning what was stored. *)
Record entry := mkEntry { e_view : view; e_desc : desc; e_open : nat -> Z }.
Record cache := mkCache { ch_on : list nat; ch_ent : list entry }.
Definition cache0 := mkCache [] [].
(* beaver_cache.cc:51-57, 118-131 *)
Definition enable (c : cache) (b : nat) : cache :=
  if existsb (Nat.eqb b) (ch_on c) then c else mkCache (b :: ch_on c) (ch_ent c).
Definition disable (c : cache) (b : nat) : cache :=
  mkCache (filter (fun b' => negb (b' =? b)%nat) (ch_on c)) (filter (fun e => negb (v_buf (e_view e) =? b)%nat) (ch_ent c)).
Definition find_entry (c : cache) (x : view) : option entry := find (fun e => view_eqb (e_view e) x) (ch_ent c).
(* beaver_cache.cc:59-97 GetCache: enabled flag, descriptor, opened value (as a matrix) *)
Definition with_status (d : desc) (s : status) : desc := mkDesc s (d_ctr d) (d_seed d) (d_seeds d) (d_size d) (d_field d).
Record got := mkGot { g_on : bool; g_desc : desc; g_open : nat -> nat -> Z }.
Definition got0 (on : bool) : got := mkGot on desc0 (fun _ _ => 0).
Definition get_cache (c : cache) (x : view) (tr : bool) : res got :=
  if existsb (Nat.eqb (v_buf x)) (ch_on c) then
    match find_entry c x with
    | Some e => if (d_field (e_desc e) =? k) && (d_size (e_desc e) =? vsize x)
                then Ok (mkGot true (with_status (e_desc e) SReplay) (fun i j => e_open e (i * v_c x + j)%nat)) else Err
    | None =>
      if tr then match find_entry c (vtranspose x) with
        | Some e => if (d_field (e_desc e) =? k) && (d_size (e_desc e) =? vsize x)
                    then Ok (mkGot true (with_status (e_desc e) STransposeReplay) (fun i j => e_open e (j * v_r x + i)%nat)) else Err
        | None => Ok (got0 true)
        end
      else Ok (got0 true)
    end
  else Ok (got0 false).
(* beaver_cache.cc:99-116 SetCache *)
Definition set_cache (c : cache) (x : view) (d : desc) (op : nat -> nat -> Z) : res cache :=
  if existsb (Nat.eqb (v_buf x)) (ch_on c) then
    match find_entry c x with
    | Some _ => Err
    | None => Ok (mkCache (ch_on c) (mkEntry x d (fun f => op (f / v_c x)%nat (f mod v_c x)%nat) :: ch_ent c))
    end
  else Err.

Definition is_init (d : desc) : bool := match d_status d with SInit => true | _ => false end.
Definition opt (g : got) : option desc := if g_on g then Some (g_desc g) else None.

(* per-party protocol state *)
Record pst := mkPst { p_b : bst; p_c : cache }.
(* arithmetic.cc:167-260 MulOpen, the part before the messages: caches and triple.  Result: the cache
   lookups after the x == y rule and after Beaver filled the descriptors, the triple as matrices *)
Record mo := mkMo { mo_x : got; mo_y : got; mo_a : nat -> nat -> Z; mo_b : nat -> nat -> Z; mo_c : nat -> nat -> Z; mo_st : bst; mo_draws : list draw }.
Definition upd_desc (g : got) (d : option desc) : got :=
  match d with Some d' => mkGot (g_on g) d' (g_open g) | None => g end.
Definition mulopen_pre (rank : nat) (s : pst) (x y : view) (mmul : bool) : res mo :=
  rbind (get_cache (p_c s) x mmul) (fun xc =>
  rbind (get_cache (p_c s) y mmul) (fun yc0 =>
  let yc := if view_eqb x y && g_on xc && is_init (g_desc xc) then mkGot false (g_desc yc0) (g_open yc0) else yc0 in
  if mmul then
    if (v_c x =? v_r y)%nat then
      rbind (tfp_dot rank (p_b s) (v_r x) (v_c y) (v_c x) (opt xc) (opt yc)) (fun o =>
      let t := r_val o in
      Ok (mkMo (upd_desc xc (r_xd o)) (upd_desc yc (r_yd o))
           (fun i j => t_a t (i * v_c x + j)%nat) (fun i j => t_b t (i * v_c y + j)%nat) (fun i j => t_c t (i * v_c y + j)%nat)
           (r_st o) (r_draws o)))
    else Err
  else
    if (v_r x =? v_r y)%nat && (v_c x =? v_c y)%nat then
      rbind (tfp_mul rank (p_b s) (vsize x) (opt xc) (opt yc)) (fun o =>
      let t := r_val o in
      Ok (mkMo (upd_desc xc (r_xd o)) (upd_desc yc (r_yd o))
           (fun i j => t_a t (i * v_c x + j)%nat) (fun i j => t_b t (i * v_c x + j)%nat) (fun i j => t_c t (i * v_c x + j)%nat)
           (r_st o) (r_draws o)))
    else Err)).
(* the masked operand a party sends; it is sent only when the cache was not hit *)
Definition masked (mem : nat -> Z -> Z) (x : view) (a : nat -> nat -> Z) (i j : nat) : Z := rsub k (vget mem x i j) (a i j).
(* arithmetic.cc:226-247 the opened value this party continues with; [opened] is the result of allReduce *)
Definition open_val (g : got) (opened : nat -> nat -> Z) : nat -> nat -> Z := if is_init (g_desc g) then opened else g_open g.
(* arithmetic.cc:249-255 storing new entries *)
Definition store (c : cache) (x : view) (g : got) (o : nat -> nat -> Z) : res cache :=
  if g_on g && is_init (g_desc g) then set_cache c x (g_desc g) o else Ok c.

(* one joint step, over the n parties; the shares of all parties live in [mem] *)
Variable n : nat.
Variable mem : nat -> nat -> Z -> Z.
Inductive cop := CEnable (b : nat) | CDisable (b : nat) | CMul (x y : view) | CSquare (x : view) | CMatMul (x y : view).
(* arithmetic.cc:264-324, 448-461 with MulOpen, run at party [p]; the values of the other parties enter
   only through the opened differences *)
Definition step_mul (mmul : bool) (s : nat -> pst) (x y : view) (p : nat) : res (pst * (nat -> nat -> Z)) :=
  rbind (mulopen_pre p (s p) x y mmul) (fun m =>
  let others g := fun q => match mulopen_pre q (s q) x y mmul with Ok m' => g q m' | _ => 0 end in
  let ox := open_val (mo_x m) (fun i j => allreduce (radd k) n (others (fun q m' => masked (mem q) x (mo_a m') i j)) p) in
  let oy := open_val (mo_y m) (fun i j => allreduce (radd k) n (others (fun q m' => masked (mem q) y (mo_b m') i j)) p) in
  rbind (store (p_c (s p)) x (mo_x m) ox) (fun c1 =>
  rbind (store c1 y (mo_y m) oy) (fun c2 =>
  Ok (mkPst (mo_st m) c2,
      if mmul then matmul_aa k (v_c x) p (mo_a m) (mo_b m) (mo_c m) ox oy
      else fun i j => mul_aa k p (mo_a m i j) (mo_b m i j) (mo_c m i j) (ox i j) (oy i j))))).
(* arithmetic.cc:284-324 SquareA, before the message *)
Definition square_pre (rank : nat) (s : pst) (x : view) : res (got * (nat -> nat -> Z) * (nat -> nat -> Z) * bst) :=
  rbind (get_cache (p_c s) x false) (fun xc =>
  rbind (tfp_square rank (p_b s) (vsize x) (opt xc)) (fun o =>
  Ok (upd_desc xc (r_xd o), (fun i j => fst (r_val o) (i * v_c x + j)%nat), (fun i j => snd (r_val o) (i * v_c x + j)%nat), r_st o))).
Definition step_square (s : nat -> pst) (x : view) (p : nat) : res (pst * (nat -> nat -> Z)) :=
  rbind (square_pre p (s p) x) (fun '(g, a, b, st') =>
  let others := fun i j q => match square_pre q (s q) x with Ok (_, a', _, _) => masked (mem q) x a' i j | _ => 0 end in
  let ox := open_val g (fun i j => allreduce (radd k) n (others i j) p) in
  rbind (store (p_c (s p)) x g ox) (fun c1 =>
  Ok (mkPst st' c1, fun i j => square_a k p (a i j) (b i j) (ox i j)))).
Definition cstep (o : cop) (s : nat -> pst) (p : nat) : res (pst * (nat -> nat -> Z)) :=
  match o with
  | CEnable b => Ok (mkPst (p_b (s p)) (enable (p_c (s p)) b), fun _ _ => 0)
  | CDisable b => Ok (mkPst (p_b (s p)) (disable (p_c (s p)) b), fun _ _ => 0)
  | CMul x y => step_mul false s x y p
  | CSquare x => step_square s x p
  | CMatMul x y => step_mul true s x y p
  end.
Definition cinit (seeds : list Z) (p : nat) : pst := mkPst (tfp_init seeds p) cache0.
(* the state of party p after a program, None if some step was rejected *)
Definition get_st (r : res (pst * (nat -> nat -> Z))) : pst := match r with Ok (s, _) => s | _ => mkPst (mkBst 0 0 []) cache0 end.
Fixpoint crun (ops : list cop) (s : nat -> pst) : nat -> pst :=
  match ops with [] => s | o :: os => crun os (fun p => get_st (cstep o s p)) end.

(* ------------------------------------------------------------------ *)
(* A program of requests to the provider.  Descriptor slots stand for the ReplayDesc objects kept by
   callers: [None] is default-constructed; a request works on copies of its descriptors (as MulOpen
   does), which the caller keeps; QStatus is the caller marking a filled descriptor (GetCache). *)
End Prg.
Arguments mkOut {A}. Arguments r_val {A}. Arguments r_st {A}. Arguments r_xd {A}. Arguments r_yd {A}. Arguments r_draws {A}.
Inductive req :=
| QMul (k size : Z) (x y : option nat)
| QMulPriv (k size : Z)
| QSquare (k size : Z) (x : option nat)
| QDot (k : Z) (m n kk : nat) (x y : option nat)
| QAnd (size : Z)
| QTrunc (k size bits : Z)
| QTruncPr (k size bits : Z)
| QRandBit (k size : Z) (rb : nat -> Z)
| QEqz (k size : Z)
| QPerm (k : Z) (perm_rank size : nat)
| QStatus (slot : nat) (s : status).
Record mst := mkMst { m_b : bst; m_d : nat -> option desc }.
Definition slot_arg (d : nat -> option desc) (x : option nat) : option desc :=
  match x with None => None | Some i => Some (match d i with Some dd => dd | None => desc0 end) end.
Definition slot_set (d : nat -> option desc) (x : option nat) (v : option desc) : nat -> option desc :=
  match x with None => d | Some i => fun j => if (j =? i)%nat then v else d j end.
(* what a party receives: arrays and, for PermPair, the permutation *)
Record answer := mkAns { an_arr : list (nat -> Z); an_perm : list nat; an_draws : list draw }.
Section Prog.
Variable prg : Z -> Z -> Z -> nat -> Z.
Variable shuffle : Z -> Z -> nat -> list nat * Z.
Definition mstep (q : req) (s : nat -> mst) (p : nat) : res (mst * answer) :=
  let st := m_b (s p) in
  let d := m_d (s p) in
  let tri (t : triple) := [t_a t; t_b t; t_c t] in
  let two (t : (nat -> Z) * (nat -> Z)) := [fst t; snd t] in
  match q with
  | QMul k size x y =>
      rbind (tfp_mul prg k p st size (slot_arg d x) (slot_arg d y)) (fun o =>
      Ok (mkMst (r_st o) (slot_set (slot_set d x (r_xd o)) y (r_yd o)), mkAns (tri (r_val o)) [] (r_draws o)))
  | QMulPriv k size => let o := tfp_mul_priv prg k p st size in Ok (mkMst (r_st o) d, mkAns (two (r_val o)) [] (r_draws o))
  | QSquare k size x =>
      rbind (tfp_square prg k p st size (slot_arg d x)) (fun o =>
      Ok (mkMst (r_st o) (slot_set d x (r_xd o)), mkAns (two (r_val o)) [] (r_draws o)))
  | QDot k m n kk x y =>
      rbind (tfp_dot prg k p st m n kk (slot_arg d x) (slot_arg d y)) (fun o =>
      Ok (mkMst (r_st o) (slot_set (slot_set d x (r_xd o)) y (r_yd o)), mkAns (tri (r_val o)) [] (r_draws o)))
  | QAnd size => let o := tfp_and prg p st size in Ok (mkMst (r_st o) d, mkAns (tri (r_val o)) [] (r_draws o))
  | QTrunc k size bits => let o := tfp_trunc prg k p st size bits in Ok (mkMst (r_st o) d, mkAns (two (r_val o)) [] (r_draws o))
  | QTruncPr k size bits => let o := tfp_truncpr prg k p st size bits in Ok (mkMst (r_st o) d, mkAns (tri (r_val o)) [] (r_draws o))
  | QRandBit k size rb => let o := tfp_randbit prg k p st size rb in Ok (mkMst (r_st o) d, mkAns [r_val o] [] (r_draws o))
  | QEqz k size => let o := tfp_eqz prg k p st size in Ok (mkMst (r_st o) d, mkAns (two (r_val o)) [] (r_draws o))
  | QPerm k pr size =>
      let '(a, b, pi, st') := tfp_perm_all prg k shuffle pr (fun i => m_b (s i)) size p in
      let '(_, _, _, _, l) := tfp_perm_local prg k shuffle p pr st size in
      Ok (mkMst st' d, mkAns [a; b] pi l)
  | QStatus i stt => Ok (mkMst st (fun j => if (j =? i)%nat then match d i with Some dd => Some (with_status dd stt) | None => None end else d j), mkAns [] [] [])
  end.
(* running a program; a rejected request (exception) leaves the party's state as it was *)
Definition mnext (q : req) (s : nat -> mst) : nat -> mst :=
  fun p => match mstep q s p with Ok (s', _) => s' | _ => s p end.
Fixpoint mrun (qs : list req) (s : nat -> mst) : nat -> mst :=
  match qs with [] => s | q :: qs' => mrun qs' (mnext q s) end.
(* all stream positions a party drew, in order *)
Fixpoint mdraws (qs : list req) (s : nat -> mst) (p : nat) : list draw :=
  match qs with
  | [] => []
  | q :: qs' => match mstep q s p with Ok (_, a) => an_draws a | _ => [] end ++ mdraws qs' (mnext q s) p
  end.
Definition minit (seeds : list Z) : nat -> mst := fun p => mkMst (tfp_init seeds p) (fun _ => None).
End Prog.
