(* Reduction over several axes and reduction over windows.
   libspu/kernel/hlo/reduce.cc:108-374, libspu/kernel/hlo/utils.cc:38-114, libspu/core/shape.h:155-169
   An array is its shape and its elements by row-major position (how views number them: C08).  With several operands an element is
   the tuple of the operands' elements.  The reducer works elementwise and is modelled by its value on one pair of elements.
   The window mask operand of ArgMax is not modelled.  Sizes, paddings and dilations are non-negative. *)
From Verif Require Import Base Ring_model Perm_model Scan_model Mm_model.
Open Scope nat_scope.

Section Redn.
Context {A : Type}.
Definition arr : Type := list nat * (nat -> A).

(* hal::reshape: refused when the number of elements differs *)
Definition reshaped (v : arr) (sh : list nat) : res arr := if total_size sh =? total_size (fst v) then Ok (sh, snd v) else Err.
(* ndarray_ref.cc:333-347 transpose *)
Definition transposed (v : arr) (perm : list nat) : res arr :=
  if (length perm =? length (fst v)) && distinct perm then
    if negb (forallb (fun a => a <? length (fst v)) perm) then Ub else
    let sh := map (fun a => nth a (fst v) O) perm in
    Ok (sh, fun p => snd v (position (fst v) (source_index perm (index_of sh p))))
  else Err.

(* ndarray_ref.cc:302-319: extent of one sliced axis; a length of one is not divided by the stride *)
Definition slice_dim (start stop step : nat) : res nat :=
  let n := stop - start in
  if n =? 1 then Ok 1 else if step =? 0 then Ub else Ok (n / step + (if n mod step =? 0 then 0 else 1)).
Fixpoint slice_dims (sh start stop step : list nat) : res (list nat) :=
  match sh, start, stop, step with
  | [], [], [], [] => Ok []
  | d :: sh, a :: start, b :: stop, s :: step =>
      if b <=? d then rbind (slice_dim a b s) (fun n => rbind (slice_dims sh start stop step) (fun ns => Ok (n :: ns))) else Err
  | _, _, _, _ => Err
  end.
(* coordinates of the operand: start + index * stride *)
Definition along (start step idx : list nat) : list nat := zipWith Nat.add start (zipWith Nat.mul idx step).
(* ndarray_ref.cc:293-323 slice; an empty stride list is a list of ones *)
Definition sliced (v : arr) (start stop step : list nat) : res arr :=
  rbind (slice_dims (fst v) start stop step) (fun sh =>
  Ok (sh, fun p => snd v (position (fst v) (along start step (index_of sh p))))).

(* ndarray_ref.cc:26-40 deducePadShape.  Simplified: interior padding of an empty axis adds nothing (the code subtracts it) *)
Fixpoint pad_dims (sh lo hi inn : list nat) : res (list nat) :=
  match sh, lo, hi, inn with
  | [], [], [], [] => Ok []
  | d :: sh, l :: lo, h :: hi, n :: inn => rbind (pad_dims sh lo hi inn) (fun ds => Ok (l + h + n * (d - 1) + d :: ds))
  | _, _, _, _ => Err
  end.
(* ndarray_ref.cc:428-447, read from the side of the result: the operand coordinates written to an index, if any *)
Fixpoint pad_source (sh lo inn idx : list nat) : option (list nat) :=
  match sh, lo, inn, idx with
  | d :: sh, l :: lo, n :: inn, i :: idx =>
      if (l <=? i) && ((i - l) mod (n + 1) =? 0) && ((i - l) / (n + 1) <? d) then
        match pad_source sh lo inn idx with Some js => Some ((i - l) / (n + 1) :: js) | None => None end
      else None
  | _, _, _, _ => Some []
  end.
(* ndarray_ref.cc:414-452 pad *)
Definition padded (v : arr) (c : A) (lo hi inn : list nat) : res arr :=
  rbind (pad_dims (fst v) lo hi inn) (fun sh =>
  Ok (sh, fun p => match pad_source (fst v) lo inn (index_of sh p) with Some js => snd v (position (fst v) js) | None => c end)).

(* shape.h:155-169 bumpIndices: None is false *)
Fixpoint bump (sh idx : list nat) : option (list nat) :=
  match sh, idx with
  | d :: sh, i :: idx =>
      match bump sh idx with
      | Some js => Some (i :: js)
      | None => if i + 1 <? d then Some (i + 1 :: map (fun _ => 0) idx) else None
      end
  | _, _ => None
  end.
(* do { .. } while (bumpIndices(sh, idx)): the indices visited; the number of elements bounds the number of steps *)
Fixpoint visit (fuel : nat) (sh idx : list nat) : list (list nat) :=
  match fuel with
  | O => []
  | S f => idx :: match bump sh idx with Some js => visit f sh js | None => [] end
  end.
Definition visited (sh : list nat) : list (list nat) := visit (S (total_size sh)) sh (map (fun _ => 0) sh).

(* unsqueeze and concatenate along the new axis: all parts have shape sh *)
Definition stacked (c : A) (sh : list nat) (parts : list arr) : arr :=
  (length parts :: sh, fun p => snd (nth (p / total_size sh) parts (sh, fun _ => c)) (p mod total_size sh)).

Variable fn : A -> A -> A.
(* TreeReduce along the last axis, of N elements, the reshape of its result and the combination with the initial value: row by row *)
Definition reduce_rows (ign : bool) (init : A) (R N : nat) (at_ : nat -> A) : res (list A) :=
  rmap (fun r => reduce_row fn ign init (map (fun j => at_ (r * N + j)) (seq 0 N))) (seq 0 R).
Definition from_list (c : A) (sh : list nat) (l : list A) : arr := (sh, fun p => nth p l c).

(* reduce.cc:286-374 Reduce *)
Definition reduce (ign : bool) (init : A) (ix : list nat) (v : arr) : res arr :=
  let sh := fst v in
  let axes := seq 0 (length sh) in
  let found a := existsb (Nat.eqb a) ix in
  let kept := filter (fun a => negb (found a)) axes in
  let gone := filter found axes in
  let kept_shape := map (fun a => nth a sh 0) kept in
  let numel_to_reduce := fold_left (fun n a => n * nth a sh 0) gone 1 in
  rbind (transposed v (kept ++ gone)) (fun t =>
  rbind (reshaped t (kept_shape ++ [numel_to_reduce])) (fun f =>
  if negb (forallb (fun a => a <? length sh) ix) then Ub else      (* out_shape[axis] = 1 *)
  rbind (reduce_rows ign init (total_size kept_shape) numel_to_reduce (snd f)) (fun l =>
  reshaped (from_list init (kept_shape ++ [1]) l) (map (fun a => if found a then 1 else nth a sh 0) axes)))).

(* utils.cc:57-60 *)
Fixpoint window_counts (B W St : list nat) : res (list nat) :=
  match B, W, St with
  | b :: B, w :: W, s :: St =>
      if s =? 0 then Ub else rbind (window_counts B W St) (fun ns => Ok (Z.to_nat (Z.quot (Z.of_nat b - Z.of_nat w) (Z.of_nat s) + 1) :: ns))
  | _, _, _ => Ok []
  end.
(* utils.cc:38-87 expandWindow.  A negative count behaves as zero: the first slice has already been refused *)
Definition expand_window (c : A) (v : arr) (W S : list nat) : res arr :=
  let B := fst v in
  if negb (length B =? length W) || negb (length B =? length S) then Err else
  rbind (window_counts B W S) (fun N =>
  rbind (rmap (fun idx => let start := zipWith Nat.mul idx S in
                          sliced v start (zipWith Nat.add start W) (map (fun _ => 1) B)) (visited N)) (fun windows =>
  if negb (length windows =? total_size N) then Err else
  reshaped (stacked c W windows) (N ++ W))).
(* utils.cc:89-114 expandWindow with padding *)
Definition expand_padded (v : arr) (W S : list nat) (pads : list (nat * nat)) (init : A) : res arr :=
  if negb (length (fst v) =? length pads) then Err else
  if existsb (fun '(l, h) => negb (l =? 0) || negb (h =? 0)) pads then
    rbind (padded v init (map fst pads) (map snd pads) (map (fun _ => 0) (fst v))) (fun p => expand_window init p W S)
  else expand_window init v W S.
(* reduce.cc:108-187 ReduceWindowWithoutDilation *)
Definition reduce_window_plain (ign : bool) (init : A) (v : arr) (W S : list nat) (pads : list (nat * nat)) (ret_shape : list nat) : res arr :=
  let ws := int_product W in
  rbind (expand_padded v W S pads init) (fun e =>
  if (ws <? 0)%Z then Err else
  let n := Z.to_nat ws in
  rbind (reshaped e (ret_shape ++ [n])) (fun t =>
  rbind (reduce_rows ign init (total_size ret_shape) n (snd t)) (fun l => Ok (from_list init ret_shape l)))).

(* reduce.cc:189-284 ReduceWindow; D: window dilations, E: base dilations.  Simplified: a base dilation is at least one (a smaller
   one acts as one) and stride, window and base dilation lists shorter than the shape are reported as undefined *)
Definition reduce_window (ign : bool) (init : A) (v : arr) (W S D E : list nat) (pads : list (nat * nat)) (ret_shape : list nat) : res arr :=
  if forallb (Nat.eqb 1) D && forallb (Nat.eqb 1) E then reduce_window_plain ign init v W S pads ret_shape else
  let nd := length (fst v) in
  if negb (nd =? length pads) || negb (nd =? length D) then Err else
  if negb (nd =? length E) || negb (nd =? length W) || negb (nd =? length S) then Ub else
  if negb (nd =? length ret_shape) then Err else
  rbind (padded v init (map fst pads) (map snd pads) (map (fun e => e - 1) E)) (fun p =>
  rbind (rmap (fun idx =>
           let start := zipWith Nat.mul idx S in
           rbind (sliced p start (zipWith Nat.add start (zipWith Nat.add W (zipWith Nat.mul (map (fun w => w - 1) W) (map (fun d => d - 1) D)))) D) (fun w =>
           reduce false init (seq 0 nd) w)) (visited ret_shape)) (fun rets =>
  if negb (length rets =? total_size ret_shape) then Err else
  reshaped (stacked init (map (fun _ => 1) ret_shape) rets) ret_shape)).
End Redn.
Arguments arr : clear implicits.
