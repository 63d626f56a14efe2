(* C72: ArgMax over windows (libspu/kernel/hlo/reduce.cc). *)
From Verif Require Import Base Dyn_spec Redn_model Redn_spec Sas_spec Amax_model Amax_spec Amax_proof.
Open Scope nat_scope.

Theorem C72_argmax_partial {A} (lt : A -> A -> bool) c sh (a : nat -> A) W S D E pads ret :
  strict_weak lt ->
  Forall (eq (0, 0)) pads -> Forall (eq 1) D -> Forall (eq 1) E -> length D = length sh -> length E = length sh ->
  window_fits sh pads E W S D ret -> 0 < numel ret -> (Z.of_nat (numel W) < 2 ^ 31)%Z ->
  (W = [1; 2; 2; 1] -> nth 0 S 0 = 1 /\ nth 3 S 0 = 1) ->
  exists z m, argmax lt c (sh, a) W S D E pads ret = Ok ((ret, z), (ret ++ [numel W], m)) /\ is_argmax lt sh ret W S a z m.
Proof. intros SW. exact (argmax_ok lt SW c sh a W S D E pads ret). Qed.
Print Assumptions C72_argmax_partial.

Definition cells (l : list Z) (p : nat) : Z := nth p l 0%Z.
Example C72_ex_order : strict_weak Z.ltb.
Proof. split; intros *; rewrite ?Z.ltb_lt, ?Z.ltb_ge; lia. Qed.
(* two by two: the fast path; three in a row: the other *)
Example C72_ex_fast_fits : window_fits [1; 3; 2; 1] [(0, 0); (0, 0); (0, 0); (0, 0)] [1; 1; 1; 1] [1; 2; 2; 1] [1; 1; 1; 1] [1; 1; 1; 1] [1; 2; 1; 1].
Proof. repeat split; destruct a as [|[|[|[|a]]]]; cbn in *; lia. Qed.
Example C72_ex_fast : match argmax Z.ltb 0%Z ([1; 3; 2; 1], cells [1; 9; 4; 7; 8; 2]%Z) [1; 2; 2; 1] [1; 1; 1; 1] [1; 1; 1; 1] [1; 1; 1; 1] [(0, 0); (0, 0); (0, 0); (0, 0)] [1; 2; 1; 1] with
  | Ok (z, m) => fst z = [1; 2; 1; 1] /\ map (snd z) [0; 1] = [9; 8]%Z /\ map (snd m) (seq 0 8) = [false; true; false; false; false; false; true; false]
  | _ => False end.
Proof. vm_compute. repeat split. Qed.
Example C72_ex_row_fits : window_fits [4] [(0, 0)] [1] [3] [1] [1] [2].
Proof. repeat split; destruct a as [|a]; cbn in *; lia. Qed.
Example C72_ex_row : match argmax Z.ltb 0%Z ([4], cells [5; 1; 3; 6]%Z) [3] [1] [1] [1] [(0, 0)] [2] with
  | Ok (z, m) => map (snd z) [0; 1] = [5; 6]%Z /\ map (snd m) (seq 0 6) = [true; false; false; false; false; true]
  | _ => False end.
Proof. vm_compute. repeat split. Qed.

(* what is missing.  Dilated windows of two by two are not dilated *)
Theorem C72_dilation_refuted : exists sh W S D E pads ret (a : nat -> Z), window_fits sh pads E W S D ret /\ Forall (eq (0, 0)) pads /\
  match argmax Z.ltb 0%Z (sh, a) W S D E pads ret with Ok (z, _) => fst z <> ret | _ => False end.
Proof.
  exists [1; 3; 3; 1], [1; 2; 2; 1], [1; 1; 1; 1], [1; 2; 2; 1], [1; 1; 1; 1], [(0, 0); (0, 0); (0, 0); (0, 0)], [1; 1; 1; 1], (fun _ => 0%Z).
  split; [repeat split; destruct a as [|[|[|[|a]]]]; cbn in *; lia|]. split; [repeat constructor|]. vm_compute. discriminate.
Qed.
Print Assumptions C72_dilation_refuted.
(* strides along the first and the last axis of windows of two by two are ignored *)
Theorem C72_stride_refuted : exists sh W S D E pads ret (a : nat -> Z), window_fits sh pads E W S D ret /\ Forall (eq (0, 0)) pads /\ Forall (eq 1) D /\ Forall (eq 1) E /\
  match argmax Z.ltb 0%Z (sh, a) W S D E pads ret with Ok (z, _) => fst z <> ret | _ => False end.
Proof.
  exists [2; 2; 2; 1], [1; 2; 2; 1], [2; 1; 1; 1], [1; 1; 1; 1], [1; 1; 1; 1], [(0, 0); (0, 0); (0, 0); (0, 0)], [1; 1; 1; 1], (fun _ => 0%Z).
  split; [repeat split; destruct a as [|[|[|[|a]]]]; cbn in *; lia|]. split; [repeat constructor|]. split; [repeat constructor|]. split; [repeat constructor|]. vm_compute. discriminate.
Qed.
Print Assumptions C72_stride_refuted.
(* padding is refused, whatever the window *)
Theorem C72_padding {A} (lt : A -> A -> bool) c v W S D E pads ret : ~ Forall (eq (0, 0)) pads -> argmax lt c v W S D E pads ret = Err.
Proof. exact (argmax_padding lt c v W S D E pads ret). Qed.
Print Assumptions C72_padding.
Example C72_ex_padding : argmax Z.ltb 0%Z ([4], cells [5; 1; 3; 6]%Z) [2] [2] [1] [1] [(1, 1)] [3] = Err.
Proof. apply C72_padding. intros F. inversion F as [|x l E]. discriminate E. Qed.
