(* Theorems about n-dimensional array views (C03-C08, C49). *)
From Verif Require Import Base Nd_model Nd_spec Ndm_model Nd_proof Ndv_proof Ndr_proof Ndm_proof Fold Vred_proof.

(* C03: flattenIndex and unflattenIndex are mutually inverse. *)
Theorem C03_flatten_unflatten : forall shape idx, valid idx shape ->
  exists p, flattenIndex idx shape = Ok p /\ 0 <= p < size shape /\ unflattenIndex p shape = Ok idx.
Proof.
  intros shape idx V. exists (rowmajor idx shape). pose proof (rowmajor_range _ _ V).
  split; [now apply flattenIndex_ok|]. split; [assumption|].
  rewrite unflattenIndex_ok by (try lia; eapply valid_pos; eauto). now rewrite unf_rowmajor.
Qed.
Print Assumptions C03_flatten_unflatten.
Example C03_ex1 : valid [1; 2; 0] [2; 3; 4]. Proof. repeat constructor; lia. Qed.

Theorem C03_unflatten_flatten : forall shape p, shape_ok shape -> 0 <= p < size shape ->
  exists idx, unflattenIndex p shape = Ok idx /\ valid idx shape /\ flattenIndex idx shape = Ok p.
Proof.
  intros shape p S H. assert (P : pos shape) by (apply pos_of_size; auto; lia).
  exists (unf p shape). split; [apply unflattenIndex_ok; auto; lia|]. pose proof (unf_valid p shape P) as V.
  split; [exact V|]. rewrite flattenIndex_ok by exact V. rewrite rowmajor_unf, Z.mod_small by (auto; lia). reflexivity.
Qed.
Print Assumptions C03_unflatten_flatten.
Example C03_ex2 : shape_ok [2; 3; 4] /\ 0 <= 17 < size [2; 3; 4] /\ unflattenIndex 17 [2; 3; 4] = Ok [1; 1; 1].
Proof. repeat constructor; cbn; lia. Qed.

(* C03: the flat position is the rank of the index in lexicographic order. *)
Theorem C03_rank : forall shape p, shape_ok shape -> 0 <= p < size shape ->
  unflattenIndex p shape = Ok (nth (Z.to_nat p) (all_indices shape) []).
Proof.
  intros shape p S H. destruct (all_indices_spec shape S) as [_ N]. rewrite N by exact H.
  apply unflattenIndex_ok; [lia|]. apply pos_of_size; auto; lia.
Qed.
Print Assumptions C03_rank.

(* C03: do { visit } while (bumpIndices) from the zero index visits every index once, in
   lexicographic order, and stops (any larger fuel gives the same list). *)
Theorem C03_bump_visits_all : forall shape n, pos shape -> (Z.to_nat (size shape) <= n)%nat ->
  bump_visit shape (map (fun _ => 0) shape) n = all_indices shape.
Proof. exact bump_all. Qed.
Print Assumptions C03_bump_visits_all.
Example C03_ex3 : pos [2; 3] /\ bump_visit [2; 3] [0; 0] 100 = [[0;0];[0;1];[0;2];[1;0];[1;1];[1;2]].
Proof. split; [repeat constructor; lia|reflexivity]. Qed.

(* C04: slice. *)
Theorem C04_slice : forall a s e sst b,
  Forall (fun x => 0 < x) (ssteps a sst) -> slice a s e sst = Ok b ->
  buf b = buf a /\
  (forall idx, valid idx (shp b) <-> in_slice s e (ssteps a sst) idx) /\
  (forall idx, valid idx (shp b) -> get b idx = get a (slice_src s (ssteps a sst) idx)) /\
  (Forall (fun v => 0 <= v) s -> forall idx, valid idx (shp b) -> valid (slice_src s (ssteps a sst) idx) (shp a)).
Proof.
  intros a s e sst b P H. destruct (slice_spec a s e sst b P H) as (F & _ & B & V & G).
  repeat split; auto; try apply V. intros S idx Vi. eapply in_slice_src; eauto. now apply V.
Qed.
Print Assumptions C04_slice.
Theorem C04_slice_total : forall a s e sst,
  wf a -> length s = length (shp a) -> length (ssteps a sst) = length (shp a) ->
  Forall (fun x => 0 < x) (ssteps a sst) -> Forall2 Z.le e (shp a) ->
  exists b, slice a s e sst = Ok b /\ wf b.
Proof. exact slice_ok. Qed.
Print Assumptions C04_slice_total.
(* a strided, transposed, offset view is sliced with steps *)
Example C04_slice_ex :
  let a := mkNd (map Z.of_nat (seq 0 20)) [3; 4] [1; 5] 2 in
  exists b, slice a [0; 1] [3; 4] (Some [2; 2]) = Ok b /\ get b [1; 1] = get a [2; 3] /\ get b [1; 1] = Ok 19.
Proof. eexists. repeat split. Qed.

(* C04: transpose. *)
Theorem C04_transpose : forall a perm b, wf a -> transpose a perm = Ok b ->
  buf b = buf a /\ shp b = permute_index perm (shp a) /\
  (forall idx, valid idx (shp a) ->
     valid (permute_index perm idx) (shp b) /\ get b (permute_index perm idx) = get a idx) /\
  (forall jdx, valid jdx (shp b) -> exists idx, valid idx (shp a) /\ permute_index perm idx = jdx).
Proof. intros a perm b W H. destruct (transpose_spec a perm b W H) as (_ & A & _ & B & C & D). auto. Qed.
Print Assumptions C04_transpose.
Theorem C04_transpose_total : forall a perm,
  Permutation perm (map Z.of_nat (seq 0 (length (shp a)))) -> exists b, transpose a perm = Ok b.
Proof. exact transpose_ok. Qed.
Print Assumptions C04_transpose_total.
Example C04_transpose_ex :
  let a := mkNd (map Z.of_nat (seq 0 24)) [2; 3; 4] [12; 4; 1] 0 in
  exists b, transpose a [2; 0; 1] = Ok b /\ shp b = [4; 2; 3] /\ get b [3; 1; 2] = Ok 23 /\ get b [1; 0; 2] = Ok 9.
Proof. eexists. repeat split. Qed.

(* C04: reverse, for a set of axes. *)
Theorem C04_reverse : forall a dims b, wf a -> NoDup dims -> reverse a dims = Ok b ->
  buf b = buf a /\ shp b = shp a /\
  forall idx, valid idx (shp a) ->
    valid (mirror (shp a) dims idx) (shp a) /\ get b idx = get a (mirror (shp a) dims idx).
Proof.
  intros a dims b W N H. destruct (reverse_spec a dims b W N H) as (_ & A & B & _ & D).
  repeat split; auto. now apply mirror_valid.
Qed.
Print Assumptions C04_reverse.
Theorem C04_reverse_total : forall a dims,
  Forall (fun d => 0 <= d < Z.of_nat (length (shp a))) dims -> exists b, reverse a dims = Ok b.
Proof. exact reverse_ok. Qed.
Print Assumptions C04_reverse_total.
Example C04_reverse_ex :
  let a := mkNd (map Z.of_nat (seq 0 6)) [2; 3] [3; 1] 0 in
  exists b, reverse a [1] = Ok b /\ get b [1; 0] = Ok 5 /\ get b [0; 1] = Ok 1 /\ get b [0; 0] = Ok 2.
Proof. eexists. repeat split. Qed.
(* the axis list is not checked for duplicates: reversing an axis twice keeps the strides
   but moves the offset twice *)
Theorem C04_reverse_duplicate_axis_refuted : exists a b,
  wf a /\ safe a /\ reverse a [0; 0] = Ok b /\ get b [0] = Ub.
Proof.
  exists (mkNd [7; 8; 9] [3] [1] 0). eexists. split; [split; [repeat constructor; lia|reflexivity]|].
  split; [|split; [reflexivity|reflexivity]].
  apply in_buf_safe. intros i V. inversion V as [|i0 ? ? ? Hi V']; subst. inversion V'; subst. unfold addr. cbn. lia.
Qed.
Print Assumptions C04_reverse_duplicate_axis_refuted.

(* C04/C07: broadcast of a view whose unit dimensions have stride 0. *)
Theorem C04_broadcast : forall a to_shape dims b,
  wf a -> shape_ok to_shape -> unit_zero a -> bcast_ok (shp a) dims to_shape ->
  broadcast_to a to_shape dims = Ok b ->
  buf b = buf a /\ shp b = to_shape /\
  forall idx, valid idx to_shape ->
    valid (bcast_src (shp a) dims idx) (shp a) /\ get b idx = get a (bcast_src (shp a) dims idx).
Proof.
  intros a t d b W S U B H. destruct (broadcast_spec a t d b W S U B H) as (_ & A & C & D).
  repeat split; auto. eapply bcast_src_valid; eauto.
Qed.
Print Assumptions C04_broadcast.
Theorem C04_broadcast_total : forall a to_shape dims,
  wf a -> bcast_ok (shp a) dims to_shape -> exists b, broadcast_to a to_shape dims = Ok b.
Proof. exact broadcast_ok. Qed.
Print Assumptions C04_broadcast_total.
Example C04_broadcast_ex :
  let a := compact [5; 6] [2; 1] in
  unit_zero a /\ bcast_ok (shp a) [0; 2] [2; 3; 4] /\
  exists b, broadcast_to a [2; 3; 4] [0; 2] = Ok b /\ get b [1; 2; 3] = Ok 6 /\ get b [0; 2; 3] = Ok 5.
Proof.
  cbv zeta. split; [apply uz_compact|]. split.
  - split; [reflexivity|]. split; [repeat constructor; cbn; intuition lia|].
    repeat constructor; cbn; lia.
  - eexists. repeat split.
Qed.

(* C05: reshape keeps the row-major element sequence, on both paths. *)
Theorem C05_reshape : forall a t, wf a -> safe a -> shape_ok t -> size (shp a) = size t ->
  exists b, reshape a t = Ok b /\ shp b = t /\ wf b /\
  forall i j, valid i (shp a) -> valid j t -> rowmajor i (shp a) = rowmajor j t -> get b j = get a i.
Proof.
  intros a t W S T E. destruct (reshape_spec a t W S T E) as (b & A & B & C & D). exists b. auto.
Qed.
Print Assumptions C05_reshape.
Theorem C05_reject : forall a t, size (shp a) <> size t -> reshape a t = Err.
Proof. exact reshape_reject. Qed.
Print Assumptions C05_reject.
(* both paths occur: a transposed view must be copied, a sliced one splits without copy *)
Example C05_ex_copy :
  let a := mkNd [0;1;2;3;4;5] [3; 2] [1; 3] 0 in
  attempt_nocopy_reshape (shp a) (str a) [6] = Ok None /\
  exists b, reshape a [6] = Ok b /\ get b [1] = Ok 3 /\ get b [2] = Ok 1.
Proof. cbv zeta. split; [reflexivity|]. eexists. repeat split. Qed.
Example C05_ex_nocopy :
  attempt_nocopy_reshape [4; 1; 6] [12; 0; 2] [2; 2; 3; 1; 2] = Ok (Some [24; 12; 4; 0; 2]).
Proof. reflexivity. Qed.

(* C06: linear element access. *)
Theorem C06_flat_access : forall a p idx, wf a -> valid idx (shp a) -> rowmajor idx (shp a) = p ->
  addr_flat a p = Ok (addr a idx).
Proof.
  intros a p idx W V E. pose proof (rowmajor_range _ _ V). rewrite addr_flat_spec by (auto; lia).
  subst p. now rewrite unf_rowmajor.
Qed.
Print Assumptions C06_flat_access.
Theorem C06_iteration : forall a, wf a -> iterate_addrs a = map (addr a) (all_indices (shp a)).
Proof.
  intros a W. rewrite iterate_spec by exact W. destruct (all_indices_spec (shp a) (proj1 W)) as [L N].
  apply list_eq_nth with 0; rewrite !map_length, seq_length; [lia|]. intros i Hi.
  rewrite nth_map_lt with (da := 0%nat) by now rewrite seq_length. rewrite seq_nth by exact Hi. cbn [Nat.add].
  rewrite nth_map_lt with (da := []) by lia. f_equal. rewrite <- N by lia. f_equal. lia.
Qed.
Print Assumptions C06_iteration.
(* the fast path of the iterator flattens by reshape({numel}); that reshape never copies *)
Theorem C06_fast_reshape_is_a_view : forall s st fs,
  pos s -> length st = length s -> fast_indexing s st = Some fs ->
  exists x, attempt_nocopy_reshape s st [size s] = Ok (Some [x]) /\ (2 <= size s -> x = fs).
Proof. exact fast_reshape_nocopy. Qed.
Print Assumptions C06_fast_reshape_is_a_view.
Example C06_ex : fast_indexing [3; 1; 4] [8; 0; 2] = Some 2 /\ fast_indexing [3; 4] [1; 3] = None /\
  addr_flat (mkNd [] [3; 4] [1; 3] 0) 5 = Ok 4.
Proof. repeat split. Qed.

(* C07: which views keep their unit dimensions broadcastable. *)
Theorem C07_fresh : forall d s, unit_zero (compact d s).
Proof. exact uz_compact. Qed.
Print Assumptions C07_fresh.
Theorem C07_preserved_partial : forall a b, wf a -> safe a -> unit_zero a ->
  (exists perm, transpose a perm = Ok b) \/
  (exists dims, NoDup dims /\ reverse a dims = Ok b) \/
  (exists t, shape_ok t /\ reshape a t = Ok b) \/
  (exists s e sst, Forall (fun x => x = 1) (ssteps a sst) /\ slice a s e sst = Ok b) ->
  unit_zero b.
Proof.
  intros a b W S U [[p H]|[[d [N H]]|[[t [T H]]|[s [e [sst [F H]]]]]]].
  - eapply uz_transpose; eauto.
  - eapply uz_reverse; eauto.
  - eapply uz_reshape; eauto.
  - eapply uz_slice; eauto.
Qed.
Print Assumptions C07_preserved_partial.
(* a slice with step 2 that leaves one element keeps a non-zero stride, and broadcasting
   it then reads the elements that the slice dropped *)
Theorem C07_strided_slice_broadcast_refuted : exists a s e st v b,
  wf a /\ safe a /\ unit_zero a /\ slice a s e (Some st) = Ok v /\ shp v = [1] /\
  broadcast_to v [2] [0] = Ok b /\ get v [0] = Ok 10 /\ get b [1] = Ok 30.
Proof.
  exists (compact [10; 20; 30; 40] [4]), [0], [2], [2]. do 2 eexists.
  split; [apply compact_wf; repeat constructor; lia|].
  split; [apply in_buf_safe, compact_in_buf; reflexivity|].
  split; [apply uz_compact|]. repeat split.
Qed.
Print Assumptions C07_strided_slice_broadcast_refuted.

(* C08: padding. *)
Theorem C08_pad : forall a pvar lo hi inn blocks,
  wf a -> safe a -> wf pvar -> safe pvar -> size (shp pvar) = 1 ->
  length lo = length (shp a) -> length hi = length (shp a) -> length inn = length (shp a) ->
  Forall (fun n => 0 <= n) inn ->
  let rs := padded_shape (shp a) lo hi inn in
  shape_ok rs -> 0 < size rs ->
  Forall (fun n => (0 < n)%nat) blocks -> Z.of_nat (list_sum blocks) = size (shp a) ->
  exists r v, pad a pvar lo hi inn blocks = Ok r /\ shp r = rs /\
  (forall idx, valid idx (shp pvar) -> get pvar idx = Ok v) /\
  forall t, valid t rs ->
    (forall i, valid i (shp a) -> pad_maps lo inn i t -> get r t = get a i) /\
    ((forall i, valid i (shp a) -> ~ pad_maps lo inn i t) -> get r t = Ok v).
Proof. exact pad_spec. Qed.
Print Assumptions C08_pad.
(* negative low edge, positive high edge, interior padding, two parallel blocks *)
Example C08_pad_ex :
  exists r, pad (compact [1; 2; 3] [3]) (compact [9] []) [-1] [2] [1] [2; 1]%nat = Ok r /\ shp r = [6] /\
  buf r = [9; 2; 9; 3; 9; 9].
Proof. eexists. repeat split. Qed.
(* padding to an empty result writes one element outside the allocation *)
Theorem C08_pad_empty_result_refuted : exists a pvar, wf a /\ safe a /\ safe pvar /\
  pad a pvar [-1] [-2] [0] [3%nat] = Ub.
Proof.
  exists (compact [1; 2; 3] [3]), (compact [9] []).
  split; [apply compact_wf; repeat constructor; lia|].
  split; [apply in_buf_safe, compact_in_buf; reflexivity|].
  split; [apply in_buf_safe, compact_in_buf; reflexivity|]. reflexivity.
Qed.
Print Assumptions C08_pad_empty_result_refuted.

(* C08: concatenation along an axis. *)
Theorem C08_concatenate : forall u a others axis,
  0 <= axis < Z.of_nat (length (shp a)) ->
  let ax := Z.to_nat axis in
  let rs := upd (shp a) ax (axis_sum ax (a :: others)) in
  Forall (fun o => wf o /\ safe o /\ shp o = upd (shp a) ax (nthZ (shp o) ax)) (a :: others) ->
  Z.of_nat (length u) = size rs ->
  exists r, concatenate u a others axis = Ok r /\ shp r = rs /\ wf r /\
  forall pre o post idx, a :: others = pre ++ o :: post -> valid idx (shp o) ->
    get r (shift_axis idx ax (axis_sum ax pre)) = get o idx.
Proof. exact concatenate_spec. Qed.
Print Assumptions C08_concatenate.
(* ... and every position of the result belongs to some piece *)
Theorem C08_concatenate_covers : forall ax arrs (t : list Z), Forall (fun o => wf o) arrs ->
  0 <= nthZ t ax < axis_sum ax arrs ->
  exists pre o post, arrs = pre ++ o :: post /\ 0 <= nthZ t ax - axis_sum ax pre < nthZ (shp o) ax.
Proof. exact concat_cover. Qed.
Print Assumptions C08_concatenate_covers.
Example C08_concat_ex :
  match concatenate [0;0;0;0;0;0] (compact [1;2;3;4] [2;2]) [mkNd [7;8] [2;1] [1;0] 0] 1 with Ok r => buf r | _ => [] end = [1;2;7;3;4;8].
Proof. vm_compute. reflexivity. Qed.

(* C08: slice update (also of broadcast views, which are materialised first). *)
Theorem C08_update_slice : forall a v start,
  wf a -> safe a -> no_overlap a -> wf v -> safe v ->
  length start = length (shp a) -> length (shp v) = length (shp a) ->
  Forall (fun x => 0 <= x) start -> Forall2 Z.le (zipWith Z.add start (shp v)) (shp a) ->
  exists r, update_slice a v start = Ok r /\ shp r = shp a /\
  (forall j, valid j (shp v) -> get r (offset_by start j) = get v j) /\
  (forall i, valid i (shp a) -> (forall j, valid j (shp v) -> offset_by start j <> i) -> get r i = get a i).
Proof. exact update_slice_spec. Qed.
Print Assumptions C08_update_slice.
Theorem C08_compact_no_overlap : forall b s o, no_overlap (mkNd b s (makeCompactStrides s) o).
Proof. exact no_overlap_compact. Qed.
Print Assumptions C08_compact_no_overlap.
Example C08_update_ex :   (* a broadcast row is materialised, then updated *)
  exists r, update_slice (mkNd [1; 2; 3] [2; 3] [0; 1] 0) (compact [8; 9] [1; 2]) [1; 1] = Ok r /\
  buf r = [1; 2; 3; 1; 8; 9].
Proof. eexists. repeat split. Qed.

(* C08: element gather and scatter on 1-D views. *)
Theorem C08_linear_gather : forall a n s indices,
  shp a = [n] -> str a = [s] -> safe a -> Forall (fun i => 0 <= i < n) indices ->
  exists r, linear_gather a indices = Ok r /\ shp r = [Z.of_nat (length indices)] /\
  forall k, (k < length indices)%nat -> get r [Z.of_nat k] = get a [nthZ indices k].
Proof. exact linear_gather_spec. Qed.
Print Assumptions C08_linear_gather.
Theorem C08_linear_scatter : forall a v n s indices,
  shp a = [n] -> str a = [s] -> s <> 0 -> safe a -> wf v -> safe v ->
  Z.of_nat (length indices) <= size (shp v) ->
  NoDup indices -> Forall (fun i => 0 <= i < n) indices ->
  exists r, linear_scatter a v indices = Ok r /\ shp r = shp a /\
  (forall k j, (k < length indices)%nat -> valid j (shp v) -> rowmajor j (shp v) = Z.of_nat k ->
      get r [nthZ indices k] = get v j) /\
  (forall i, 0 <= i < n -> ~ In i indices -> get r [i] = get a [i]).
Proof. exact linear_scatter_spec. Qed.
Print Assumptions C08_linear_scatter.
Example C08_gather_scatter_ex :
  (exists r, linear_gather (mkNd [0;1;2;3;4;5] [3] [2] 1) [2; 0; 0] = Ok r /\ buf r = [5; 1; 1]) /\
  (exists r, linear_scatter (mkNd [0;1;2;3;4;5] [3] [2] 1) (compact [7; 8] [2]) [2; 0] = Ok r /\ buf r = [0;8;2;3;4;7]).
Proof. split; eexists; repeat split. Qed.
(* linear_scatter into a broadcast view changes every element, unlike update_slice it
   does not materialise the view *)
Theorem C08_scatter_broadcast_refuted : exists a v r,
  wf a /\ safe a /\ linear_scatter a v [0] = Ok r /\ get a [1] = Ok 5 /\ get r [1] = Ok 7.
Proof.
  exists (mkNd [5] [3] [0] 0), (compact [7] [1]). eexists.
  split; [split; [repeat constructor; lia|reflexivity]|].
  split; [|repeat split].
  apply in_buf_safe. intros i V. inversion V as [|i0 ? ? ? Hi V']; subst. inversion V'; subst. unfold addr. cbn. lia.
Qed.
Print Assumptions C08_scatter_broadcast_refuted.

(* C49: packed execution. *)
Theorem C49_vmap : forall u f op xs,
  pointwise1 f op -> xs <> [] -> Forall elems_ok xs -> Z.of_nat (length u) = sizes (map shp xs) ->
  exists rs, vmap1 u op xs = Ok rs /\ length rs = length xs /\
  forall k, (k < length xs)%nat ->
    let x := nth k xs (mkNd [] [] [] 0) in let r := nth k rs (mkNd [] [] [] 0) in
    shp r = shp x /\ forall j, valid j (shp x) -> get r j = res_map f (get x j).
Proof. exact vmap1_spec. Qed.
Print Assumptions C49_vmap.
Theorem C49_vmap_binary : forall u1 u2 f op xs ys,
  pointwise2 f op -> xs <> [] -> Forall elems_ok xs -> Forall elems_ok ys -> map shp xs = map shp ys ->
  Z.of_nat (length u1) = sizes (map shp xs) -> Z.of_nat (length u2) = sizes (map shp xs) ->
  exists rs, vmap2 u1 u2 op xs ys = Ok rs /\ length rs = length xs /\
  forall k, (k < length xs)%nat ->
    let x := nth k xs (mkNd [] [] [] 0) in let y := nth k ys (mkNd [] [] [] 0) in
    let r := nth k rs (mkNd [] [] [] 0) in
    shp r = shp x /\ forall j v w, valid j (shp x) -> get x j = Ok v -> get y j = Ok w -> get r j = Ok (f v w).
Proof. exact vmap2_spec. Qed.
Print Assumptions C49_vmap_binary.
Example C49_vmap_ex :
  let neg a := Ok (compact (map Z.opp (buf a)) (shp a)) in
  exists rs, vmap1 [0;0;0;0;0] neg [mkNd [1;2;3] [3] [-1] 2; compact [4;5] [2;1]] = Ok rs /\
  map buf rs = [[-3;-2;-1;-4;-5]; [-3;-2;-1;-4;-5]] /\ map off rs = [0; 3].
Proof. cbv zeta. eexists. repeat split. Qed.
Example C49_vmap_ex_hyp : pointwise1 Z.opp (fun a => Ok (compact (map Z.opp (buf a)) (shp a))) /\
  elems_ok (compact [4;5] [2;1]).
Proof.
  split; [intros d n _; reflexivity|]. split; [apply compact_wf; repeat constructor; lia|].
  apply in_buf_safe, compact_in_buf. reflexivity.
Qed.
(* unpack reads the result buffer from position 0 and ignores its strides: an operation
   that returns a view (here a broadcast constant) is unpacked out of bounds *)
Theorem C49_unpack_of_view_refuted : exists op xs rs,
  (forall a, exists v, op a = Ok v /\ shp v = shp a /\ forall j, valid j (shp v) -> get v j = Ok 7) /\
  Forall elems_ok xs /\ vmap1 [0; 0] op xs = Ok rs /\
  get (nth 1 rs (mkNd [] [] [] 0)) [0] = Ub.
Proof.
  exists (fun a => Ok (mkNd [7] (shp a) (map (fun _ => 0) (shp a)) 0)), [compact [4] [1]; compact [5] [1]].
  eexists. split.
  - intros a. eexists. split; [reflexivity|]. split; [reflexivity|]. cbn [shp]. intros j V.
    unfold get, addr. cbn [buf off str]. assert (E : forall (s j : list Z), dot j (map (fun _ => 0) s) = 0).
    { induction s as [|x s IH]; destruct j0; cbn [map dot]; auto. rewrite IH. lia. }
    rewrite E. reflexivity.
  - split; [|split; [reflexivity|reflexivity]].
    repeat constructor; try lia; apply in_buf_safe, compact_in_buf; reflexivity.
Qed.
Print Assumptions C49_unpack_of_view_refuted.

(* C49: vectorised reduction equals the fold, for associative commutative operators ... *)
Theorem C49_vreduce : forall (T : Type) (f : T -> T -> T),
  (forall a b c, f a (f b c) = f (f a b) c) -> (forall a b, f a b = f b a) ->
  forall fuel xs, (length xs <= fuel)%nat -> xs <> [] -> vreduce fuel (zipWith f) xs = fold1 f xs.
Proof. intros T f. exact (vreduce_spec f). Qed.
Print Assumptions C49_vreduce.
Example C49_vreduce_ex : vreduce 7 (zipWith Z.add) [1; 2; 3; 4; 5; 6; 7] = Some 28.
Proof. reflexivity. Qed.
(* ... and commutativity is needed, although the operation is described as a tree
   reduction of neighbours *)
Theorem C49_vreduce_noncommutative_refuted : exists (f : list Z -> list Z -> list Z) xs,
  (forall a b c, f a (f b c) = f (f a b) c) /\ vreduce 4 (zipWith f) xs <> fold1 f xs.
Proof.
  exists (@app Z), [[1]; [2]; [3]; [4]]. split; [intros; apply app_assoc|]. vm_compute. discriminate.
Qed.
Print Assumptions C49_vreduce_noncommutative_refuted.
