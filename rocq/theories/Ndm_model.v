(* Model of the NdArrayRef operations that allocate or write buffers
   (libspu/core/ndarray_ref.{h,cc}).  Same conventions as Nd_model: a buffer is a list of
   elements.  A fresh allocation's contents are an argument [u] (uninitialised memory).
   The written buffer is never the source buffer (no aliasing between source and
   destination is modelled). *)
From Verif Require Import Base Nd_model.

(* memcpy of one element to buffer position p *)
Definition bufset (b : list Z) (p v : Z) : res (list Z) :=
  if (0 <=? p) && (p <? Z.of_nat (length b)) then Ok (upd b (Z.to_nat p) v) else Ub.
Fixpoint write_all (b : list Z) (w : list (Z * Z)) : res (list Z) :=
  match w with
  | [] => Ok b
  | (p, v) :: w' => rbind (bufset b p v) (fun b' => write_all b' w')
  end.

(* /repo/src/libspu/core/ndarray_ref.cc:223-238 copy_slice with both bases zero, as used by
   concatenate and pack; dereferencing an exhausted iterator is undefined.  Returns the
   destination's new buffer. *)
Definition copy_slice (dst src : nd) (n : nat) : res (list Z) :=
  let da := iterate_addrs dst in
  let sa := iterate_addrs src in
  if (length da <? n)%nat || (length sa <? n)%nat then Ub
  else rbind (rmap (bufget (buf src)) (firstn n sa)) (fun vs =>
       write_all (buf dst) (combine (firstn n da) vs)).

(* /repo/src/libspu/core/ndarray_ref.cc:363-381 expand.  [dup] is the doubling memcpy
   loop; it does not terminate normally when the target has no element (the first memcpy
   already writes past the allocation). *)
Fixpoint dup (fuel : nat) (cur : list Z) (n : nat) : res (list Z) :=
  if (length cur =? n)%nat then Ok cur else
  match fuel with
  | O => Ub
  | S f => dup f (cur ++ firstn (Nat.min (length cur) (n - length cur)) cur) n
  end.
Definition expand (a : nd) (to_shape : list Z) : res nd :=
  if numel (shp a) =? 1 then
    let n := Z.to_nat (numel to_shape) in
    match n with
    | O => Ub
    | _ => rbind (bufget (buf a) (off a)) (fun v =>
           rbind (dup n [v] n) (fun d => Ok (compact d to_shape)))
    end
  else Err.

(* /repo/src/libspu/core/ndarray_ref.cc:26-40 deducePadShape *)
Fixpoint pad_shape (shape lo hi inn : list Z) : res (list Z) :=
  match shape, lo, hi, inn with
  | [], [], [], [] => Ok []
  | d :: shape', l :: lo', h :: hi', i :: inn' =>
      rbind (pad_shape shape' lo' hi' inn') (fun r => Ok (l + h + i * (d - 1) + d :: r))
  | _, _, _, _ => Err
  end.
(* ndarray_ref.cc:428-441: target index, None when it falls outside the result *)
Fixpoint pad_target (rshape idx lo inn : list Z) : option (list Z) :=
  match rshape, idx, lo, inn with
  | r :: rshape', i :: idx', l :: lo', n :: inn' =>
      let t := l + i * (n + 1) in
      if (t <? 0) || (r <=? t) then None
      else option_map (cons t) (pad_target rshape' idx' lo' inn')
  | _, _, _, _ => Some []
  end.
(* ndarray_ref.cc:422-449: the body of pforeach for one block of n positions starting at
   index idx; a failing bumpIndices leaves idx unchanged *)
Fixpoint pad_block (a : nd) (lo inn : list Z) (r : nd) (idx : list Z) (n : nat) : res nd :=
  match n with
  | O => Ok r
  | S n' =>
      rbind (match pad_target (shp r) idx lo inn with
             | Some t => rbind (get a idx) (fun v =>
                         rbind (bufset (buf r) (addr r t) v) (fun b =>
                         Ok (mkNd b (shp r) (str r) (off r))))
             | None => Ok r
             end) (fun r' =>
      pad_block a lo inn r'
        (match bumpIndices (shp a) idx with Some idx' => idx' | None => idx end) n')
  end.
(* the blocks of pforeach(0, numel, ..): consecutive block lengths, executed in order
   (they write different positions) *)
Fixpoint pad_blocks (a : nd) (lo inn : list Z) (r : nd) (start : Z) (blocks : list nat) : res nd :=
  match blocks with
  | [] => Ok r
  | n :: blocks' =>
      rbind (unflattenIndex start (shp a)) (fun idx =>
      rbind (pad_block a lo inn r idx n) (fun r' =>
      pad_blocks a lo inn r' (start + Z.of_nat n) blocks'))
  end.
(* /repo/src/libspu/core/ndarray_ref.cc:414-452 pad; [blocks] is how pforeach splits
   [0,numel) *)
Definition pad (a pv : nd) (lo hi inn : list Z) (blocks : list nat) : res nd :=
  rbind (pad_shape (shp a) lo hi inn) (fun rs =>
  rbind (expand pv rs) (fun r => pad_blocks a lo inn r 0 blocks)).

(* /repo/src/libspu/core/ndarray_ref.cc:383-412 concatenate; axis outside the rank is
   undefined.  [concat_go] handles one array after another. *)
Definition set_axis (l : list Z) (axis : nat) (v : Z) : list Z := upd l axis v.
Fixpoint concat_go (result : nd) (axis : nat) (start : list Z) (arrs : list nd) : res nd :=
  match arrs with
  | [] => Ok result
  | o :: arrs' =>
      (* slice_end[axis] += o.shape()[axis]; the other axes keep this->shape() *)
      let endi := set_axis (shp result) axis (nthZ start axis + nthZ (shp o) axis) in
      rbind (slice result start endi (Some (map (fun _ => 1) (shp result)))) (fun s =>
      rbind (copy_slice s o (Z.to_nat (numel (shp o)))) (fun b =>
      concat_go (mkNd b (shp result) (str result) (off result)) axis
                (set_axis start axis (nthZ endi axis)) arrs'))
  end.
Definition concatenate (u : list Z) (a : nd) (others : list nd) (axis : Z) : res nd :=
  if in_rank (length (shp a)) axis then
    let ax := Z.to_nat axis in
    let rs := set_axis (shp a) ax
                (fold_left (fun acc o => acc + nthZ (shp o) ax) others (nthZ (shp a) ax)) in
    concat_go (compact u rs) ax (map (fun _ => 0) (shp a)) (a :: others)
  else Ub.

(* /repo/src/libspu/core/ndarray_ref.cc:454-471 linear_gather *)
Definition linear_gather (a : nd) (indices : list Z) : res nd :=
  match shp a, str a with
  | [_], [s] => rbind (rmap (fun i => bufget (buf a) (off a + i * s)) indices) (fun d =>
                Ok (compact d [Z.of_nat (length indices)]))
  | _, _ => Err
  end.
(* /repo/src/libspu/core/ndarray_ref.cc:473-492 linear_scatter *)
Definition linear_scatter (a new_values : nd) (indices : list Z) : res nd :=
  match shp a, str a with
  | [_], [s] =>
      let na := iterate_addrs new_values in
      if (length na <? length indices)%nat then Ub else
      rbind (rmap (bufget (buf new_values)) (firstn (length indices) na)) (fun vs =>
      rbind (write_all (buf a) (combine (map (fun i => off a + i * s) indices) vs)) (fun b =>
      Ok (mkNd b (shp a) (str a) (off a))))
  | _, _ => Err
  end.

(* /repo/src/libspu/core/ndarray_ref.cc:494-514 eliminate_zero_stride *)
Definition has_zero_stride (a : nd) : bool :=
  existsb (fun p => negb (fst p =? 1) && (snd p =? 0)) (combine (shp a) (str a)).
Definition eliminate_zero_stride (a : nd) : res nd :=
  if has_zero_stride a then clone a else Ok a.
(* /repo/src/libspu/core/ndarray_ref.cc:516-554 update_slice.  In the scalar path an
   out-of-bounds start index makes a null iterator; the general path does not require
   start >= 0 (slice computes an address below the view). *)
Definition update_slice (a new_value : nd) (start : list Z) : res nd :=
  if numel (shp new_value) =? 0 then Ok a else
  rbind (eliminate_zero_stride a) (fun a =>
  if numel (shp new_value) =? 1 then
    if inBounds start (shp a) then
      rbind (bufget (buf new_value) (off new_value)) (fun v =>
      rbind (bufset (buf a) (addr a start) v) (fun b => Ok (mkNd b (shp a) (str a) (off a))))
    else Ub
  else
    let endi := zipWith Z.add start (shp new_value) in
    rbind (slice a start endi (Some (map (fun _ => 1) start))) (fun s =>
    rbind (copy_slice s new_value (Z.to_nat (numel (shp new_value)))) (fun b =>
    Ok (mkNd b (shp a) (str a) (off a))))).

(* /repo/src/libspu/core/ndarray_ref.h:360-384 pack: offsets in elements *)
Fixpoint pack_go (b : list Z) (offset : Z) (xs : list nd) : res (list Z) :=
  match xs with
  | [] => Ok b
  | x :: xs' =>
      let sl := mkNd b (shp x) (makeCompactStrides (shp x)) offset in
      rbind (copy_slice sl x (Z.to_nat (numel (shp x)))) (fun b' =>
      pack_go b' (offset + numel (shp x)) xs')
  end.
Definition pack (u : list Z) (xs : list nd) : res (nd * list (list Z)) :=
  match xs with
  | [] => Err
  | _ => let total := fold_left (fun acc x => acc + numel (shp x)) xs 0 in
         rbind (pack_go u 0 xs) (fun b => Ok (compact b [total], map shp xs))
  end.
(* ndarray_ref.h:386-408 unpack: views into v.buf() from element 0 *)
Fixpoint unpack_go (b : list Z) (offset : Z) (pi : list (list Z)) : list nd :=
  match pi with
  | [] => []
  | s :: pi' => mkNd b s (makeCompactStrides s) offset :: unpack_go b (offset + numel s) pi'
  end.
Definition unpack (v : nd) (pi : list (list Z)) : res (list nd) :=
  if numel (shp v) =? fold_left (fun acc s => acc + numel s) pi 0
  then Ok (unpack_go (buf v) 0 pi) else Err.

(* /repo/src/libspu/core/vectorize.h:115-125 vmap, unary *)
Definition vmap1 (u : list Z) (op : nd -> res nd) (xs : list nd) : res (list nd) :=
  rbind (pack u xs) (fun '(joined, pi) => rbind (op joined) (fun v => unpack v pi)).
(* vectorize.h:137-150 vmap, binary *)
Definition vmap2 (u1 u2 : list Z) (op : nd -> nd -> res nd) (xs ys : list nd) : res (list nd) :=
  rbind (pack u1 xs) (fun '(ja, pi) =>
  rbind (pack u2 ys) (fun '(jb, _) =>
  rbind (op ja jb) (fun v => unpack v pi))).

(* vectorize.h:185-211 vreduce over the list of one level: pair i with i+half, keep the
   last element of an odd level.  [f2 xs ys] is the vectorised application. *)
Fixpoint vreduce {T} (fuel : nat) (f2 : list T -> list T -> list T) (xs : list T) : option T :=
  match xs with
  | [] => None          (* *first of an empty range *)
  | [x] => Some x
  | _ =>
      match fuel with
      | O => None
      | S f =>
          let half := (length xs / 2)%nat in
          let next := f2 (firstn half xs) (firstn half (skipn half xs)) ++
                      (if (length xs mod 2 =? 1)%nat then skipn (length xs - 1) xs else []) in
          vreduce f f2 next
      end
  end.
