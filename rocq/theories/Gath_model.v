(* Gather with public start indices, and the filters and gathers of vectors.
   libspu/kernel/hlo/indexing.cc:38-311, 425-528, 887-932; libspu/kernel/hlo/utils.h:31-60
   An array is its shape and its elements by row-major position (how views number them: C08).  The start indices are those getIndices
   decodes (utils.cc:31-35).  The imaginary part of a complex operand goes through the same loop and is not modelled separately. *)
From Verif Require Import Base Ring_model Perm_model Scan_model Mm_model Redn_model.
Open Scope nat_scope.

(* std::lower_bound and std::binary_search on a vector *)
Fixpoint lower_bound (fuel : nat) (l : list nat) (x first len : nat) : nat :=
  match fuel with
  | O => first
  | S f => if len =? 0 then first else
      let half := len / 2 in
      if nth (first + half) l 0 <? x then lower_bound f l x (first + half + 1) (len - half - 1) else lower_bound f l x first half
  end.
Definition binary_search (l : list nat) (x : nat) : bool :=
  let p := lower_bound (length l) l x 0 (length l) in (p <? length l) && negb (x <? nth p l 0).
(* v[n] = x for an n below the size *)
Fixpoint set_at {B} (l : list B) (n : nat) (v : B) : list B :=
  match l, n with [], _ => [] | _ :: l, O => v :: l | x :: l, S n => x :: set_at l n v end.

(* indexing.h:26-32 GatherConfig *)
Record gather_config := mkGather { slice_sizes : list nat; index_vector_dim : nat; offset_dims : list nat; collapsed_dims : list nat; start_index_map : list nat }.

(* utils.h:31-60 forEachIndex with base zero and increment one: the indices visited.  The first index is visited whatever the counts are. *)
Definition for_each (count : list nat) : list (list nat) := visit (S (total_size (map (Nat.max 1) count))) count (map (fun _ => 0) count).

Section Gather.
Variable cfg : gather_config.
Let off := binary_search (offset_dims cfg).
Let coll := binary_search (collapsed_dims cfg).

(* indexing.cc:47-63 iterationSpaceForOutputBatchIndices *)
Definition batch_count (rs : list nat) : list nat := map (fun i => if off i then 1 else nth i rs 0) (seq 0 (length rs)).
(* indexing.cc:67-88 iterationSpaceForOutputOffsetIndices; k is slice_sizes_idx *)
Fixpoint skip_collapsed (fuel k : nat) : nat := match fuel with O => k | S f => if coll k then skip_collapsed f (S k) else k end.
Fixpoint offset_count (dims : list nat) (k : nat) : res (list nat) :=
  match dims with
  | [] => Ok []
  | i :: dims =>
      if off i then
        let k := skip_collapsed (length (collapsed_dims cfg)) k in
        match nth_error (slice_sizes cfg) k with
        | Some n => rbind (offset_count dims (S k)) (fun c => Ok (n :: c))
        | None => Ub
        end
      else rbind (offset_count dims k) (fun c => Ok (1 :: c))
  end.

(* indexing.cc:109-121: where input dimension i is found in startIndexMap; None is -1 *)
Fixpoint find_in (l : list nat) (x : nat) : option nat :=
  match l with [] => None | y :: l => if y =? x then Some 0 else option_map S (find_in l x) end.
Definition dim_to_vector (rank : nat) : list (option nat) := map (find_in (start_index_map cfg)) (seq 0 rank).
(* indexing.cc:157-170 propagateOutputIndexGatherDimsToIndexVectorIndex *)
Fixpoint set_batch (dims out : list nat) (k : nat) (buf : list nat) : res (list nat) :=
  match dims, out with
  | i :: dims, o :: out =>
      if off i then set_batch dims out k buf else
      let k := if k =? index_vector_dim cfg then S k else k in
      if k <? length buf then set_batch dims out (S k) (set_at buf k o) else Ub
  | _, _ => Ok buf
  end.
(* indexing.cc:174-181 fetchIndexVector; a read past the start indices is undefined *)
Fixpoint fetch_vector (si : @arr Z) (js : list nat) (buf : list nat) (vec : list Z) : res (list nat * list Z) :=
  match js with
  | [] => Ok (buf, vec)
  | j :: js =>
      let buf := set_at buf (index_vector_dim cfg) j in
      let p := position (fst si) buf in
      if p <? total_size (fst si) then fetch_vector si js buf (set_at vec j (snd si p)) else Ub
  end.
(* indexing.cc:184-190 propagateIndexVectorToInputIndex and indexing.cc:277-284 propagateOutputIndexWindowDimsToInputIndex *)
Fixpoint set_from {B} (m : list (option nat)) (src buf : list B) : res (list B) :=
  match m, buf with
  | x :: m, b :: buf =>
      rbind (match x with Some j => match nth_error src j with Some v => Ok v | None => Ub end | None => Ok b end) (fun v =>
      rbind (set_from m src buf) (fun r => Ok (v :: r)))
  | _, _ => Ok []
  end.
(* indexing.cc:233-252: window_index_to_output_index and input_dim_value_to_output_index_ *)
Definition window_to_output (rs : list nat) : list nat := filter off (seq 0 (length rs)).
Fixpoint dim_to_output (w2o dims : list nat) (k : nat) : res (list (option nat)) :=
  match dims with
  | [] => Ok []
  | i :: dims =>
      if coll i then rbind (dim_to_output w2o dims k) (fun m => Ok (None :: m)) else
      match nth_error w2o k with
      | Some o => rbind (dim_to_output w2o dims (S k)) (fun m => Ok (Some o :: m))
      | None => Ub
      end
  end.
(* indexing.cc:301-311 reshapedGatherIndices *)
Definition reshaped_indices (si : @arr Z) : res (@arr Z) :=
  if length (fst si) =? index_vector_dim cfg then reshaped si (fst si ++ [1]) else Ok si.

Context {A : Type}.
(* NdArrayRef::slice_scalar_at and the scalar path of update_slice (ndarray_ref.cc:321-324, 529-534).  Simplified: an index outside the
   operand is undefined even where its offset is that of another element *)
Definition in_shape (sh : list nat) (idx : list Z) : bool :=
  (length idx =? length sh) && forallb (fun '(i, d) => ((0 <=? i) && (i <? Z.of_nat d))%Z) (combine idx sh).
Definition read_at (v : @arr A) (idx : list Z) : res A := if in_shape (fst v) idx then Ok (snd v (position (fst v) (map Z.to_nat idx))) else Ub.
Definition write_at (rs : list nat) (z : nat -> A) (idx : list nat) (x : A) : res (nat -> A) :=
  if in_shape rs (map Z.of_nat idx) then Ok (fun p => if p =? position rs idx then x else z p) else Ub.

(* indexing.cc:475-508 gather_inner_loop_body; m2o is input_dim_value_to_output_index_.  win is the buffer input_index_ of the functor *)
Definition clamp_dim (rs : list nat) (p : option nat * (nat * Z)) : Z :=
  let '(m, (d, x)) := p in Z.min (Z.of_nat d - match m with Some o => Z.of_nat (nth o rs 0) | None => 1%Z end) (Z.max 0 x).
Definition clamp_dims (rs sh : list nat) (m2o : list (option nat)) (g : list Z) : list Z := map (clamp_dim rs) (combine m2o (combine sh g)).
Definition inner_body (v : @arr A) (rs : list nat) (m2o : list (option nat)) (g : list Z) (og ow : list nat) (st : list nat * (nat -> A)) : res (list nat * (nat -> A)) :=
  let '(win, z) := st in
  rbind (set_from m2o ow win) (fun win =>
  rbind (read_at v (zipWith Z.add (clamp_dims rs (fst v) m2o g) (map Z.of_nat win))) (fun x =>
  rbind (write_at rs z (zipWith Nat.add og ow) x) (fun z => Ok (win, z)))).
Fixpoint loop {S T} (body : T -> S -> res S) (l : list T) (st : S) : res S :=
  match l with [] => Ok st | x :: l => rbind (body x st) (loop body l) end.
(* indexing.cc:510-520 gather_outer_loop_body; ((buf, vec), inp) are the buffers index_vector_index_, index_vector_ and input_index_ *)
Definition outer_body (v : @arr A) (si : @arr Z) (n : nat) (rs oc : list nat) (m2v m2o : list (option nat)) (og : list nat)
  (st : list nat * list Z * list Z * (list nat * (nat -> A))) : res (list nat * list Z * list Z * (list nat * (nat -> A))) :=
  let '(buf, vec, inp, wz) := st in
  rbind (set_batch (seq 0 (length rs)) og 0 buf) (fun buf =>
  rbind (fetch_vector si (seq 0 n) buf vec) (fun '(buf, vec) =>
  rbind (set_from m2v vec inp) (fun inp =>
  rbind (loop (inner_body v rs m2o inp og) (for_each oc) wz) (fun wz => Ok (buf, vec, inp, wz))))).
(* indexing.cc:425-528 Gather.  u is the content of the fresh result *)
Definition gather (u : nat -> A) (v : @arr A) (si : @arr Z) (rs : list nat) : res (@arr A) :=
  if total_size (fst v) =? 0 then Ok v else
  rbind (reshaped_indices si) (fun si =>
  let rank := length (fst v) in
  match nth_error (fst si) (index_vector_dim cfg) with
  | None => Ub
  | Some n =>
      rbind (offset_count (seq 0 (length rs)) 0) (fun oc =>
      rbind (dim_to_output (window_to_output rs) (seq 0 rank) 0) (fun m2o =>
      rbind (loop (outer_body v si n rs oc (dim_to_vector rank) m2o) (for_each (batch_count rs))
        (map (fun _ => 0) (fst si), repeat 0%Z n, repeat 0%Z rank, (repeat 0 rank, u))) (fun st =>
      Ok (rs, snd (snd st)))))
  end).
End Gather.

(* indexing.cc:887-932 FilterByMask, LinearGather and LinearScatterInPlace (operands of one type) on a vector of elements;
   the strided accesses are those of linear_gather and linear_scatter (C08) *)
Section Linear.
Context {A : Type}.
Fixpoint linear_get (v : list A) (ix : list Z) : res (list A) :=
  match ix with
  | [] => Ok []
  | i :: ix => match (if (0 <=? i)%Z then nth_error v (Z.to_nat i) else None) with
               | Some x => rbind (linear_get v ix) (fun r => Ok (x :: r))
               | None => Ub
               end
  end.
Fixpoint linear_put (v : list A) (ix : list Z) (w : list A) : res (list A) :=
  match ix, w with
  | [], _ => Ok v
  | i :: ix, x :: w => if ((0 <=? i) && (i <? Z.of_nat (length v)))%Z then linear_put (set_at v (Z.to_nat i) x) ix w else Ub
  | _ :: _, [] => Ub
  end.
(* indexing.cc:895-913: the positions whose mask byte is not zero *)
Fixpoint mask_positions (mask : list Z) (i : Z) : list Z :=
  match mask with [] => [] | m :: mask => if (m =? 0)%Z then mask_positions mask (i + 1) else i :: mask_positions mask (i + 1) end.
Definition filter_by_mask (v : list A) (mask : list Z) : res (list A) :=
  if length mask =? length v then linear_get v (mask_positions mask 0) else Err.
End Linear.
