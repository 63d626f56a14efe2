(* Model of libspu/core/shape.{h,cc} and libspu/core/ndarray_ref.{h,cc}.
   Sizes, strides and offsets are unbounded integers (int64 overflow is not
   modelled); offsets are counted in elements instead of bytes; the element type is
   left out, an element is a Z. *)
From Verif Require Import Base.

(* /repo/src/libspu/core/shape.h:54-57 Shape::numel *)
Definition numel (s : list Z) : Z := fold_left Z.mul s 1.

(* /repo/src/libspu/core/shape.cc:19-30 Index::inBounds *)
Fixpoint inBounds (idx bounds : list Z) : bool :=
  match idx, bounds with
  | [], [] => true
  | i :: idx', b :: bounds' => negb ((i <? 0) || (b <=? i)) && inBounds idx' bounds'
  | _, _ => false
  end.

(* shape.cc:34-37: strides from the last dimension; the pair carries the stride of
   the next outer dimension. *)
Fixpoint raw_strides (shape : list Z) : list Z * Z :=
  match shape with
  | [] => ([], 1)
  | d :: ds => let '(st, nxt) := raw_strides ds in (nxt :: st, nxt * d)
  end.
(* shape.cc:40-44: dimensions of size 1 get stride 0 *)
Definition zero_units (shape st : list Z) : list Z :=
  zipWith (fun d s => if d =? 1 then 0 else s) shape st.
(* /repo/src/libspu/core/shape.cc:32-46 *)
Definition makeCompactStrides (shape : list Z) : list Z :=
  zero_units shape (fst (raw_strides shape)).

(* /repo/src/libspu/core/shape.cc:48-58; the loop runs from the last dimension with the
   pair (linear_idx, stride). *)
Definition flatten_loop (idx shape : list Z) : Z * Z :=
  fold_right (fun id '(lin, stride) => (lin + fst id * stride, stride * snd id))
             (0, 1) (combine idx shape).
Definition flattenIndex (idx shape : list Z) : res Z :=
  if (length idx =? length shape)%nat then Ok (fst (flatten_loop idx shape)) else Err.

(* /repo/src/libspu/core/shape.cc:60-67; C++ % and / truncate, and dividing by a zero
   dimension is undefined. *)
Fixpoint unflatten_loop (shape : list Z) (index : Z) : res (Z * list Z) :=
  match shape with
  | [] => Ok (index, [])
  | d :: ds =>
      rbind (unflatten_loop ds index) (fun '(rest, tail) =>
        if d =? 0 then Ub else Ok (Z.quot rest d, Z.rem rest d :: tail))
  end.
Definition unflattenIndex (index : Z) (shape : list Z) : res (list Z) :=
  rbind (unflatten_loop shape index) (fun r => Ok (snd r)).

(* /repo/src/libspu/core/shape.h:155-169; Some = true with the updated indices,
   None = false (indices unchanged).  The C++ loop goes from the last dimension to the
   first, here as recursion that tries the inner dimensions first. *)
Fixpoint bumpIndices (shape idx : list Z) : option (list Z) :=
  match shape, idx with
  | d :: ds, i :: is =>
      match bumpIndices ds is with
      | Some is' => Some (i :: is')
      | None => if i + 1 <? d then Some (i + 1 :: map (fun _ => 0) is) else None
      end
  | _, _ => None
  end.

(* /repo/src/libspu/core/shape.h:171-182 with non-empty strides *)
Fixpoint dot (idx strides : list Z) : Z :=
  match idx, strides with
  | i :: idx', s :: strides' => i * s + dot idx' strides'
  | _, _ => 0
  end.

(* /repo/src/libspu/core/ndarray_ref.h: class NdArrayRef.  use_fast_indexing_ and
   fast_indexing_stride_ are functions of shape and strides (see [fast_indexing]). *)
Record nd := mkNd { buf : list Z; shp : list Z; str : list Z; off : Z }.

(* ndarray_ref.cc:175-188: a freshly allocated compact array *)
Definition compact (data shape : list Z) : nd := mkNd data shape (makeCompactStrides shape) 0.

(* ndarray_ref.h:153-158: at(Index), as the element position in the buffer *)
Definition addr (a : nd) (idx : list Z) : Z := off a + dot idx (str a).

(* reading a buffer position; outside the allocation this is undefined behaviour *)
Definition bufget (b : list Z) (p : Z) : res Z :=
  if (0 <=? p) && (p <? Z.of_nat (length b)) then Ok (nthZ b (Z.to_nat p)) else Ub.
Definition get (a : nd) (idx : list Z) : res Z := bufget (buf a) (addr a idx).

(* /repo/src/libspu/core/ndarray_ref.cc:118-153 *)
Definition strip_units {B} (shape : list Z) (x : list B) : list B :=
  map snd (filter (fun p => negb (fst p =? 1)) (combine shape x)).
Fixpoint list_Z_eqb (a b : list Z) : bool :=
  match a, b with
  | [], [] => true
  | x :: a', y :: b' => (x =? y) && list_Z_eqb a' b'
  | _, _ => false
  end.
Definition fast_indexing (shape strides : list Z) : option Z :=
  let sshape := strip_units shape shape in
  let sstrides := strip_units shape strides in
  match sshape with
  | [] => Some 0
  | _ => let lin := last sstrides 0 in
         if list_Z_eqb (map (fun c => lin * c) (makeCompactStrides sshape)) sstrides
         then Some lin else None
  end.

(* ndarray_ref.h:181-190 at(int64_t pos) and NdArrayView::operator[] (433-453): the
   buffer position of the pos-th element *)
Definition addr_flat (a : nd) (pos : Z) : res Z :=
  match fast_indexing (shp a) (str a) with
  | Some fs => Ok (off a + pos * fs)
  | None => rbind (unflattenIndex pos (shp a)) (fun idx => Ok (addr a idx))
  end.

(* /repo/src/libspu/core/ndarray_ref.cc:240-263 broadcast_to; writing strides()[idx]
   past the rank or new_strides past the target rank is undefined. *)
Fixpoint upd {A} (l : list A) (n : nat) (v : A) : list A :=
  match l, n with
  | [], _ => []
  | _ :: t, O => v :: t
  | x :: t, S n' => x :: upd t n' v
  end.
Fixpoint set_dims (ns : list Z) (dims st : list Z) : res (list Z) :=
  match dims, st with
  | [], _ => Ok ns
  | d :: dims', s :: st' => set_dims (upd ns (Z.to_nat d) s) dims' st'
  | _ :: _, [] => Ub
  end.
Definition broadcast_to (a : nd) (to_shape in_dims : list Z) : res nd :=
  if forallb (fun d => (d <? Z.of_nat (length to_shape)) && (0 <=? d)) in_dims then
    let zeros := repeat 0 (length to_shape) in
    rbind (match in_dims with
           | [] => if (length (str a) <=? length to_shape)%nat
                   then Ok (firstn (length to_shape - length (str a)) zeros ++ str a)
                   else Ub
           | _ => set_dims zeros in_dims (str a)
           end)
          (fun ns => Ok (mkNd (buf a) to_shape ns (off a)))
  else Err.

(* /repo/src/libspu/core/ndarray_ref.cc:290-319 slice.  [sst] = None models an empty
   slice_strides.  A zero slice stride divides by zero.  The result's offset is the
   address of the start index. *)
Definition slice_dim (d st s e : Z) (ss : option Z) : res (Z * Z) :=
  if d <? e then Err else
  let n0 := Z.max (e - s) 0 in
  if n0 =? 1 then Ok (1, 0)
  else match ss with
       | None => Ok (n0, st)
       | Some 0 => Ub
       | Some x => Ok (Z.quot n0 x + (if Z.rem n0 x =? 0 then 0 else 1), st * x)
       end.
Fixpoint slice_dims (shape st s e : list Z) (ss : list (option Z)) : res (list (Z * Z)) :=
  match shape, st, s, e, ss with
  | [], [], [], [], [] => Ok []
  | d :: shape', t :: st', s0 :: s', e0 :: e', x :: ss' =>
      rbind (slice_dim d t s0 e0 x) (fun p =>
      rbind (slice_dims shape' st' s' e' ss') (fun r => Ok (p :: r)))
  | _, _, _, _, _ => Err
  end.
Definition slice (a : nd) (s e : list Z) (sst : option (list Z)) : res nd :=
  let ss := match sst with None => map (fun _ => None) (shp a) | Some l => map Some l end in
  rbind (slice_dims (shp a) (str a) s e ss) (fun r =>
  Ok (mkNd (buf a) (map fst r) (map snd r) (addr a s))).

(* /repo/src/libspu/core/ndarray_ref.cc:333-347 transpose(perm); shape()[perm[i]] outside
   the rank is undefined (the code checks only length and uniqueness). *)
Definition in_rank (n : nat) (d : Z) : bool := (0 <=? d) && (d <? Z.of_nat n).
Fixpoint nodupb (l : list Z) : bool :=
  match l with [] => true | x :: t => negb (existsb (Z.eqb x) t) && nodupb t end.
Definition transpose (a : nd) (perm : list Z) : res nd :=
  if (length perm =? length (shp a))%nat && nodupb perm then
    if forallb (in_rank (length (shp a))) perm then
      Ok (mkNd (buf a) (map (fun p => nthZ (shp a) (Z.to_nat p)) perm)
               (map (fun p => nthZ (str a) (Z.to_nat p)) perm) (off a))
    else Ub
  else Err.

(* /repo/src/libspu/core/ndarray_ref.cc:349-361 reverse; a negative axis indexes out of
   range (only the upper bound is checked). *)
Fixpoint reverse_loop (shape st0 st : list Z) (o : Z) (dims : list Z) : res (list Z * Z) :=
  match dims with
  | [] => Ok (st, o)
  | d :: dims' =>
      if Z.of_nat (length shape) <=? d then Err
      else if d <? 0 then Ub
      else let i := Z.to_nat d in
           reverse_loop shape st0 (upd st i (nthZ st i * -1))
                        (o + nthZ st0 i * (nthZ shape i - 1)) dims'
  end.
Definition reverse (a : nd) (dims : list Z) : res nd :=
  rbind (reverse_loop (shp a) (str a) (str a) 0 dims) (fun '(st, o) =>
  Ok (mkNd (buf a) (shp a) st (off a + o))).

(* ---- iteration and cloning ---- *)
(* /repo/src/libspu/core/ndarray_ref.cc:556-576 Iterator::operator++ on a valid iterator:
   (carry out of dimension 0, new index, pointer displacement) *)
Fixpoint iter_inc (shape st idx : list Z) : bool * list Z * Z :=
  match shape, st, idx with
  | d :: shape', s :: st', i :: idx' =>
      let '(c, is', dp) := iter_inc shape' st' idx' in
      if c then
        if i + 1 =? d then (true, 0 :: is', dp - (d - 1) * s)
        else (false, i + 1 :: is', dp + s)
      else (false, i :: is', dp)
  | _, _, _ => (true, [], 0)
  end.
(* the addresses visited from (idx,ptr), at most n of them *)
Fixpoint iter_run (shape st idx : list Z) (ptr : Z) (n : nat) : list Z :=
  match n with
  | O => []
  | S n' => ptr :: (let '(c, idx', dp) := iter_inc shape st idx in
                    if c then [] else iter_run shape st idx' (ptr + dp) n')
  end.

(* ---- reshape ---- *)
(* ndarray_ref.cc:42-116 attempt_nocopy_reshape, with the two index ranges
   [ni,nj) and [oi,oj) represented as consumed prefixes (reversed accumulators).
   Inner while loop, lines 79-86: grow the smaller side until the products agree.
   None: an index ran past the end (undefined). *)
Fixpoint grab (fuel : nat) (np op : Z) (nacc nrest : list Z) (oacc orest : list (Z * Z))
  : option (list Z * list Z * list (Z * Z) * list (Z * Z)) :=
  if np =? op then Some (rev nacc, nrest, rev oacc, orest) else
  match fuel with
  | O => None
  | S f =>
      if np <? op then
        match nrest with
        | [] => None
        | d :: nr => grab f (np * d) op (d :: nacc) nr oacc orest
        end
      else
        match orest with
        | [] => None
        | (d, s) :: orr => grab f np (op * d) nacc nrest ((d, s) :: oacc) orr
        end
  end.
(* lines 88-94: original axes can be combined *)
Fixpoint contiguous (o : list (Z * Z)) : bool :=
  match o with
  | (d0, s0) :: (((d1, s1) :: _) as t) => (s0 =? d1 * s1) && contiguous t
  | _ => true
  end.
(* lines 96-100: strides of the new axes from the last one *)
Fixpoint chunk_strides (newdims : list Z) (s : Z) : list Z * Z :=
  match newdims with
  | [] => ([], s)
  | d :: ds => let '(st, nxt) := chunk_strides ds s in (nxt :: st, nxt * d)
  end.
(* lines 74-104: the outer while loop.  Result: Ok None = "return false",
   Ok (Some strides) = strides (remaining new axes keep 0), Ub = out of range. *)
Fixpoint nocopy_loop (fuel : nat) (newdims : list Z) (old : list (Z * Z)) : res (option (list Z)) :=
  match newdims, old with
  | [], _ => Ok (Some [])
  | _, [] => Ok (Some (map (fun _ => 0) newdims))
  | nd0 :: nr, (od, os) :: orr =>
      match fuel with
      | O => Ub
      | S f =>
          match grab (length nr + length orr) nd0 od [nd0] nr [(od, os)] orr with
          | None => Ub
          | Some (nch, nr', och, or') =>
              if contiguous och then
                match nocopy_loop f nr' or' with
                | Ok (Some st) => Ok (Some (fst (chunk_strides nch (snd (last och (0, 0)))) ++ st))
                | r => r
                end
              else Ok None
          end
      end
  end.
Definition attempt_nocopy_reshape (shape st new_shape : list Z) : res (option (list Z)) :=
  let old := combine (strip_units shape shape) (strip_units shape st) in
  match nocopy_loop (length new_shape) new_shape old with
  | Ok (Some ns) => Ok (Some (zero_units new_shape ns))   (* lines 106-113 *)
  | r => r
  end.

(* iteration order of a view: Iterator(array, Index(rank,0)) then ++ (ndarray_ref.h:194-229).
   With fast indexing the iterator walks the flattened array (a 1-D view with the fast
   stride, from array.reshape({numel})); an empty array gives an invalid iterator. *)
Definition iterate_addrs (a : nd) : list Z :=
  let zeros := map (fun _ => 0) (shp a) in
  if inBounds zeros (shp a) then
    match fast_indexing (shp a) (str a) with
    | Some fs => iter_run [numel (shp a)] [if numel (shp a) =? 1 then 0 else fs] [0] (addr a zeros)
                          (Z.to_nat (numel (shp a)))
    | None => iter_run (shp a) (str a) zeros (addr a zeros) (Z.to_nat (numel (shp a)))
    end
  else [].

(* /repo/src/libspu/core/ndarray_ref.cc:207-221 clone: numel() memcpy's through the iterator *)
Definition clone (a : nd) : res nd :=
  let n := Z.to_nat (numel (shp a)) in
  let ad := iterate_addrs a in
  if (length ad <? n)%nat then Ub     (* would dereference an exhausted iterator *)
  else rbind (rmap (bufget (buf a)) (firstn n ad)) (fun d => Ok (compact d (shp a))).

(* /repo/src/libspu/core/ndarray_ref.cc:265-288 reshape *)
Definition reshape (a : nd) (to_shape : list Z) : res nd :=
  if list_Z_eqb (shp a) to_shape then Ok a
  else if negb (numel (shp a) =? numel to_shape) then Err
  else if numel to_shape =? 0 then Ok (mkNd (buf a) to_shape (makeCompactStrides to_shape) (off a))
  else match attempt_nocopy_reshape (shp a) (str a) to_shape with
       | Ok (Some ns) => Ok (mkNd (buf a) to_shape ns (off a))
       | Ok None => rbind (clone a) (fun c => Ok (compact (buf c) to_shape))
       | Err => Err
       | Ub => Ub
       end.
