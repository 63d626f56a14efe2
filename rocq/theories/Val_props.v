(* C43: serialisation of values. *)
From Verif Require Import Ty_model Ty_proof Base Nd_model Nd_spec Nd_proof Ndr_proof Val_model Val_spec Val_proof.
Open Scope list_scope.
Open Scope Z_scope.

(* Any value (real or complex, any shape, any memory layout) of a type that survives its own string (C47), cut into chunks of at
   most [max] bytes; the chunks of the real part and those of the imaginary part may arrive in any order. *)
Theorem C43_round_trip ps junk mk v z max :
  args_ok mk -> construct mk = Ok (vty v) -> tsize (vty v) = Ok z -> registered ps (tcls (vty v)) -> tcls (vty v) <> AbyO -> tcls (vty v) <> SpdzB -> mac (vty v) = false ->
  vdt v <> 0 -> tvisibility (vty v) <> VInvalid -> good_array z (vdata v) ->
  match vimag v with Some im => good_array z im /\ shp im = shp (vdata v) | None => True end ->
  0 < max -> size (shp (vdata v)) * z + max <= 2 ^ 64 ->
  exists re im, to_proto max v = Ok (to_meta v, re ++ im) /\ (vimag v = None -> im = []) /\ Forall (fun c => 0 < clen c <= max) (re ++ im) /\
    forall re' im', Permutation re re' -> Permutation im im' -> exists v', from_proto ps junk (to_meta v, re' ++ im') = Ok v' /\
      vty v' = vty v /\ vdt v' = vdt v /\ same_array (vdata v) (vdata v') /\
      match vimag v, vimag v' with Some a, Some b => same_array a b | None, None => True | _, _ => False end.
Proof. exact (value_round_trip ps junk mk v z max). Qed.
Print Assumptions C43_round_trip.

(* Whatever is accepted: the chunks, put in order, cover the buffer from 0 to its end without gap or overlap, and the value is
   their content.  So missing, overlapping and repeated chunks are rejected. *)
Theorem C43_accepted ps junk m cs t d : from_plain ps junk m cs = Ok (t, d) ->
  exists L z, Permutation cs L /\ tsize t = Ok z /\ consecutive 0 L (numel (mshape m) * z) /\
    d = compact (of_bytes (Z.to_nat z) (Z.to_nat (numel (mshape m))) (flat_map content L)) (mshape m).
Proof. exact (from_plain_inv ps junk m cs t d). Qed.
Print Assumptions C43_accepted.
(* nothing is written outside the buffer as long as the chunks together are not longer than it *)
Theorem C43_safe ps junk m cs t z : from_string ps (mstorage m) = Ok t -> tsize t = Ok z -> 0 <= numel (mshape m) ->
  total_len cs <= numel (mshape m) * z -> from_plain ps junk m cs <> Ub.
Proof. exact (from_plain_safe ps junk m cs t z). Qed.
Print Assumptions C43_safe.

(* ---- a concrete case: a transposed 2x3 array of 4-byte words, chunks of 7 bytes, received in another order ---- *)
Definition ex_ty : ty := set_field (blank SemiA) FM32.
Definition ex_v : value := mkValue ex_ty (mkNd [1; 2; 3; 4; 5; 4294967295] [2; 3] [1; 2] 0) None 4.
Definition ex_chunks : list chunk := match to_proto 7 ex_v with Ok (_, l) => l | _ => [] end.
Example C43_ex : map clen ex_chunks = [7; 7; 7; 3] /\ map content ex_chunks = [[1; 0; 0; 0; 3; 0; 0]; [0; 5; 0; 0; 0; 2; 0]; [0; 0; 4; 0; 0; 0; 255]; [255; 255; 255]] /\
  match from_proto [PSemi] 77 (to_meta ex_v, rev ex_chunks) with Ok v' => buf (vdata v') = [1; 3; 5; 2; 4; 4294967295] /\ shp (vdata v') = [2; 3] /\ vty v' = ex_ty | _ => False end /\
  from_proto [PSemi] 77 (to_meta ex_v, tl ex_chunks) = Err.
Proof. repeat split; vm_compute; reflexivity. Qed.
Example C43_hyps_ex : args_ok (MField SemiA FM32) /\ construct (MField SemiA FM32) = Ok (vty ex_v) /\ tsize (vty ex_v) = Ok 4 /\ registered [PSemi] (tcls (vty ex_v)) /\
  tvisibility (vty ex_v) = VSecret /\ good_array 4 (vdata ex_v).
Proof.
  repeat split; try reflexivity.
  - right. exists PSemi. split; [left; reflexivity|do 2 right; left; reflexivity].
  - repeat constructor; lia.
  - intros idx V. inversion V as [|a ? i1 ? Ha V1]; subst. inversion V1 as [|b ? i2 ? Hb V2]; subst. inversion V2; subst.
    assert (A : a = 0 \/ a = 1) by lia. assert (B : b = 0 \/ b = 1 \/ b = 2) by lia.
    destruct A as [->| ->], B as [->|[->| ->]]; (eexists; split; [reflexivity|split; vm_compute; [discriminate|reflexivity]]).
Qed.

(* Findings.  A chunk longer than what is left of the buffer is copied before any check *)
Theorem C43_oversized_refuted : exists cs, from_proto [PSemi] 0 (to_meta ex_v, cs) = Ub.
Proof. exists [mkChunk 24 0 (repeat 9 25)]. reflexivity. Qed.
Print Assumptions C43_oversized_refuted.
(* toProto with the largest chunk sizes: the number of chunks overflows to 0 and the content is lost *)
Theorem C43_chunk_size_refuted : exists m, to_proto (2 ^ 64 - 1) ex_v = Ok (m, []) /\ from_proto [PSemi] 0 (m, []) = Err.
Proof. eexists. split; reflexivity. Qed.
Print Assumptions C43_chunk_size_refuted.
(* complex values: the order matters, chunks of the two parts swapped are accepted and give another value *)
Theorem C43_complex_order_refuted : exists v m c d, to_proto 100 v = Ok (m, [c; d]) /\
  exists w, from_proto [PSemi] 0 (m, [d; c]) = Ok w /\ get (vdata w) [0] <> get (vdata v) [0].
Proof.
  exists (mkValue ex_ty (compact [1] [1]) (Some (compact [2] [1])) 4). do 3 eexists. split; [reflexivity|]. eexists. split; [reflexivity|]. discriminate.
Qed.
Print Assumptions C43_complex_order_refuted.
