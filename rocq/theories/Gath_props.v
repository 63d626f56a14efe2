(* C69: Gather.  C70: filters, gathers and scatters of vectors. *)
From Verif Require Import Base Dyn_spec Mm_model Redn_model Gath_model Gath_spec Gath_proof Gathm_proof.
Open Scope nat_scope.

Theorem C69_gather_partial : forall A cfg sh ssh rs (a u : nat -> A) si,
  gather_fits sh ssh rs (slice_sizes cfg) (index_vector_dim cfg) (offset_dims cfg) (collapsed_dims cfg) (start_index_map cfg) -> 0 < numel sh -> 0 < numel rs ->
  exists z, gather cfg u (sh, a) (ssh, si) rs = Ok (rs, z) /\
  is_gathered sh ssh rs (slice_sizes cfg) (index_vector_dim cfg) (offset_dims cfg) (collapsed_dims cfg) (start_index_map cfg) a si z.
Proof. exact (@gather_ok). Qed.
Print Assumptions C69_gather_partial.
(* rows of a 3 x 3 matrix: the indices are clamped to the matrix *)
Definition rows_cfg := mkGather [1; 3] 1 [1] [0] [0].
Definition rows_si : nat -> Z := fun p => nth p [2; (-5); 7; 1]%Z 0%Z.
Example C69_ex_rows : exists z, gather rows_cfg (fun _ => 0) ([3; 3], fun p => 10 + p) ([4], rows_si) [4; 3] = Ok ([4; 3], z) /\
  map z (seq 0 12) = [16; 17; 18; 10; 11; 12; 16; 17; 18; 13; 14; 15].
Proof. eexists. split; vm_compute; reflexivity. Qed.
Example C69_ex_rows_fits : gather_fits [3; 3] [4] [4; 3] (slice_sizes rows_cfg) (index_vector_dim rows_cfg) (offset_dims rows_cfg) (collapsed_dims rows_cfg) (start_index_map rows_cfg).
Proof.
  assert (O : forall x, increasing [x]) by (intros x i j H; cbn in H; lia). split; [apply O|]. split; [repeat constructor|]. split; [apply O|]. split; [repeat constructor|].
  split; [repeat constructor; intros []|]. split; [repeat constructor|]. split; [reflexivity|]. split; [repeat constructor|]. split; [intros i [<-|[]]; reflexivity|].
  split; [reflexivity|]. split; [apply le_n|reflexivity].
Qed.
(* a window of 2 x 2 at a two-dimensional position; the index vector is the first axis of the start indices and names the axes in reverse *)
Definition win_cfg := mkGather [2; 2] 0 [1; 2] [] [1; 0].
Example C69_ex_windows : exists z, gather win_cfg (fun _ => 0) ([3; 4], fun p => p) ([2; 2], fun p => nth p [1; 0; 0; 9]%Z 0%Z) [2; 2; 2] = Ok ([2; 2; 2], z) /\
  map z (seq 0 8) = [1; 2; 5; 6; 4; 5; 8; 9].
Proof. eexists. split; vm_compute; reflexivity. Qed.
Example C69_ex_windows_fits : gather_fits [3; 4] [2; 2] [2; 2; 2] (slice_sizes win_cfg) (index_vector_dim win_cfg) (offset_dims win_cfg) (collapsed_dims win_cfg) (start_index_map win_cfg).
Proof.
  split. { intros i j H. cbn in H. assert (i = 0 /\ j = 1) as [-> ->] by lia. cbn. lia. }
  split; [repeat constructor|]. split. { intros i j H. cbn in H. lia. } split; [constructor|].
  split; [repeat constructor; cbn; lia|]. split; [repeat constructor|]. split; [reflexivity|]. split; [repeat constructor|]. split; [intros i []|].
  split; [reflexivity|]. split; [apply Nat.le_0_l|reflexivity].
Qed.

(* what is missing: results without elements.  No start index: the loops run once and the result is written outside its buffer *)
Theorem C69_gather_no_indices_refuted : exists cfg sh ssh rs (a u : nat -> nat) si,
  gather_fits sh ssh rs (slice_sizes cfg) (index_vector_dim cfg) (offset_dims cfg) (collapsed_dims cfg) (start_index_map cfg) /\ 0 < numel sh /\
  gather cfg u (sh, a) (ssh, si) rs = Ub.
Proof.
  exists rows_cfg, [3; 3], [0], [0; 3], (fun p => p), (fun _ => 0), (fun _ => 0%Z). split; [|split; [cbn; lia|reflexivity]].
  assert (O : forall x, increasing [x]) by (intros x i j H; cbn in H; lia). split; [apply O|]. split; [repeat constructor|]. split; [apply O|]. split; [repeat constructor|].
  split; [repeat constructor; intros []|]. split; [repeat constructor|]. split; [reflexivity|]. split; [repeat constructor|]. split; [intros i [<-|[]]; reflexivity|].
  split; [reflexivity|]. split; [apply le_n|reflexivity].
Qed.
Print Assumptions C69_gather_no_indices_refuted.
Theorem C69_gather_empty_result : forall A cfg u (v : @arr A) si rs z, 0 < numel (fst v) -> numel rs = 0 -> gather cfg u v si rs <> Ok z.
Proof. exact (@gather_empty_never). Qed.
Print Assumptions C69_gather_empty_result.
Example C69_ex_empty_result : forall z, gather rows_cfg (fun _ => 0) ([3; 3], fun p => p) ([0], fun _ => 0%Z) [0; 3] <> Ok z.
Proof. intros z. apply C69_gather_empty_result; cbn; lia. Qed.
(* an operand without elements is returned with its own shape instead of the result's *)
Theorem C69_gather_no_elements_refuted : exists cfg sh ssh rs (a u : nat -> nat) si,
  gather_fits sh ssh rs (slice_sizes cfg) (index_vector_dim cfg) (offset_dims cfg) (collapsed_dims cfg) (start_index_map cfg) /\
  gather cfg u (sh, a) (ssh, si) rs = Ok (sh, a) /\ sh <> rs.
Proof.
  exists (mkGather [1; 0] 1 [1] [0] [0]), [3; 0], [2], [2; 0], (fun p => p), (fun _ => 0), (fun _ => 0%Z). split; [|split; [reflexivity|discriminate]].
  assert (O : forall x, increasing [x]) by (intros x i j H; cbn in H; lia). split; [apply O|]. split; [repeat constructor|]. split; [apply O|]. split; [repeat constructor|].
  split; [repeat constructor; intros []|]. split; [repeat constructor|]. split; [reflexivity|]. split; [repeat constructor|]. split; [intros i [<-|[]]; reflexivity|].
  split; [reflexivity|]. split; [apply le_n|reflexivity].
Qed.
Print Assumptions C69_gather_no_elements_refuted.

Theorem C70_filter_by_mask : forall A (v : list A) mask, length mask = length v -> filter_by_mask v mask = Ok (selected v mask).
Proof. exact (@filter_by_mask_ok). Qed.
Print Assumptions C70_filter_by_mask.
Example C70_ex_filter : filter_by_mask [10; 11; 12; 13] [1; 0; 255; 0]%Z = Ok [10; 12] /\ filter_by_mask [10; 11] [1]%Z = Err.
Proof. split; reflexivity. Qed.
Theorem C70_linear_gather : forall A (v : list A) ix, Forall (fun i => (0 <= i < Z.of_nat (length v))%Z) ix ->
  exists r, linear_get v ix = Ok r /\ length r = length ix /\ forall j, j < length ix -> nth_error r j = nth_error v (Z.to_nat (nth j ix 0%Z)).
Proof. exact (@linear_get_ok). Qed.
Print Assumptions C70_linear_gather.
Theorem C70_linear_gather_out_of_range : forall A (v : list A) ix, ~ Forall (fun i => (0 <= i < Z.of_nat (length v))%Z) ix -> linear_get v ix = Ub.
Proof. exact (@linear_get_bad). Qed.
Print Assumptions C70_linear_gather_out_of_range.
Example C70_ex_gather : linear_get [10; 11; 12] [2; 2; 0]%Z = Ok [12; 12; 10] /\ linear_get [10; 11; 12] [1; 3]%Z = Ub.
Proof. split; reflexivity. Qed.
Theorem C70_linear_scatter : forall A (w : list A) ix v, length ix <= length w -> Forall (fun i => (0 <= i < Z.of_nat (length v))%Z) ix ->
  exists r, linear_put v ix w = Ok r /\ length r = length v /\
  (forall p, ~ In (Z.of_nat p) ix -> nth_error r p = nth_error v p) /\
  (* of several values for one position the last stays *)
  (forall j, j < length ix -> (forall l, j < l < length ix -> nth l ix 0%Z <> nth j ix 0%Z) -> nth_error r (Z.to_nat (nth j ix 0%Z)) = nth_error w j).
Proof. exact (@linear_put_ok). Qed.
Print Assumptions C70_linear_scatter.
Example C70_ex_scatter : linear_put [10; 11; 12; 13] [2; 0; 2]%Z [7; 8; 9] = Ok [8; 11; 9; 13].
Proof. reflexivity. Qed.
