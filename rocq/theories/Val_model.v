(* Serialisation of values: libspu/core/value.cc, core/value.h, spu.proto:136-160.
   Elements are byte strings of elsize bytes, written as numbers (little-endian).  Protobuf messages are records; the enum
   casts between spu and pb enums are the identity. *)
From Verif Require Import Ty_model Base Nd_model.
Open Scope list_scope.
Open Scope Z_scope.

(* the bytes of an element *)
Fixpoint le (n : nat) (z : Z) : list Z := match n with O => [] | S m => z mod 256 :: le m (z / 256) end.
Fixpoint unle (bs : list Z) : Z := match bs with [] => 0 | b :: r => b + 256 * unle r end.
Definition to_bytes (es : nat) (els : list Z) : list Z := flat_map (le es) els.
Definition of_bytes (es n : nat) (bs : list Z) : list Z := map (fun i => unle (firstn es (skipn (i * es) bs))) (seq 0 n).

(* Value: storage type, array (and imaginary part), data type (0 is DT_INVALID) *)
Record value := mkValue { vty : ty; vdata : nd; vimag : option nd; vdt : Z }.
(* ValueChunkProto, ValueMetaProto *)
Record chunk := mkChunk { ctotal : Z; coffset : Z; content : list Z }.
Record meta := mkMeta { mdt : Z; mcomplex : bool; mvis : tvis; mshape : list Z; mstorage : string }.
Definition tvis_eqb (a b : tvis) : bool :=
  match a, b with VSecret, VSecret | VPublic, VPublic | VPrivate, VPrivate | VInvalid, VInvalid => true | _, _ => false end.
Definition clen (c : chunk) : Z := Z.of_nat (length (content c)).

(* value.cc:67-71 chunksCount; size_t arithmetic *)
Definition chunks_count (total max : Z) : Z := wrap 64 (total + max - 1) / max.
(* value.cc:79-97 build_chunk; [mem] is the memory behind [data] *)
Fixpoint chunk_loop (mem : list Z) (size max : Z) (i : Z) (n : nat) : res (list chunk) :=
  match n with
  | O => Ok []
  | S m =>
      let chunk_size := Z.min max (wrap 64 (size - i * max)) in
      let offset := wrap 64 (i * max) in
      if (0 <? chunk_size) && (Z.of_nat (length mem) <? offset + chunk_size) then Ub
      else rbind (chunk_loop mem size max (i + 1) m) (fun r =>
           Ok (mkChunk size offset (firstn (Z.to_nat chunk_size) (skipn (Z.to_nat offset) mem)) :: r))
  end.
Definition build_chunk (mem : list Z) (size max : Z) (n : Z) : res (list chunk) :=
  if size =? 0 then Ok [] else chunk_loop mem size max 0 (Z.to_nat n).
(* ndarray_ref.h:129-134 *)
Definition is_compact (a : nd) : bool := (numel (shp a) <? 2) || list_Z_eqb (str a) (makeCompactStrides (shp a)).
(* value.cc:101-110 array_to_chunks; data() is the buffer from the offset on *)
Definition array_to_chunks (es : nat) (count : Z) (num_chunks max : Z) (a : nd) : res (list chunk) :=
  if is_compact a then
    build_chunk (to_bytes es (if off a <? 0 then [] else skipn (Z.to_nat (off a)) (buf a))) (count * Z.of_nat es) max num_chunks
  else rbind (clone a) (fun c => build_chunk (to_bytes es (buf c)) (Z.of_nat (length (buf c) * es)) max num_chunks).
(* value.cc:122-134 toMetaProto *)
Definition to_meta (v : value) : meta :=
  mkMeta (vdt v) (match vimag v with Some _ => true | None => false end) (tvisibility (vty v)) (shp (vdata v)) (to_string (vty v)).
(* value.cc:73-120 toProto *)
Definition to_proto (max : Z) (v : value) : res (meta * list chunk) :=
  if (max <=? 0) || (vdt v =? 0) || tvis_eqb (tvisibility (vty v)) VInvalid then Err
  else rbind (tsize (vty v)) (fun sz =>
       let es := Z.to_nat sz in
       let count := numel (shp (vdata v)) in
       let num_chunks := chunks_count (count * sz) max in
       rbind (array_to_chunks es count num_chunks max (vdata v)) (fun cs =>
       rbind (match vimag v with Some im => array_to_chunks es count num_chunks max im | None => Ok [] end) (fun cs' =>
       Ok (to_meta v, cs ++ cs')))).

(* value.cc:175-179: std::map ordered by offset; a repeated offset throws *)
Fixpoint insert (c : chunk) (l : list chunk) : res (list chunk) :=
  match l with
  | [] => Ok [c]
  | d :: r => if coffset c <? coffset d then Ok (c :: l)
              else if coffset c =? coffset d then Err
              else rbind (insert c r) (fun r' => Ok (d :: r'))
  end.
Definition order (cs : list chunk) : res (list chunk) := fold_left (fun acc c => rbind acc (insert c)) cs (Ok []).
(* value.cc:186-195: the copies; writing outside the buffer is undefined *)
Fixpoint copy_chunks (mem : list Z) (pos : Z) (cs : list chunk) : res (list Z * Z) :=
  match cs with
  | [] => Ok (mem, pos)
  | c :: r =>
      if negb (coffset c =? pos) then Err
      else if Z.of_nat (length mem) <? pos + clen c then Ub
      else copy_chunks (firstn (Z.to_nat pos) mem ++ content c ++ skipn (Z.to_nat (pos + clen c)) mem) (pos + clen c) r
  end.
(* value.cc:156-200, fromProto of a value that is not complex: storage type, array.  [junk] fills fresh memory.  A shape
   with a negative number of elements is not modelled (Ub) *)
Definition from_plain (ps : list proto) (junk : Z) (m : meta) (cs : list chunk) : res (ty * nd) :=
  rbind (from_string ps (mstorage m)) (fun t =>
  if mdt m =? 0 then Err
  else if negb (tvis_eqb (mvis m) (tvisibility t)) then Err
  else
    let total := match cs with [] => 0 | c :: _ => ctotal c end in
    rbind (order cs) (fun ocs =>
    rbind (tsize t) (fun sz =>
    let n := numel (mshape m) in
    if n <? 0 then Ub
    else if negb (n * sz =? total) then Err
    else rbind (copy_chunks (repeat junk (Z.to_nat (n * sz))) 0 ocs) (fun '(mem, pos) =>
         if negb (total =? pos) then Err
         else Ok (t, compact (of_bytes (Z.to_nat sz) (Z.to_nat n) mem) (mshape m)))))).
(* value.cc:136-154 *)
Definition from_proto (ps : list proto) (junk : Z) (p : meta * list chunk) : res value :=
  let '(m, cs) := p in
  if mcomplex m then
    let n := (length cs / 2)%nat in
    rbind (from_plain ps junk m (firstn n cs)) (fun '(t, re) =>
    rbind (from_plain ps junk m (firstn n (skipn n cs))) (fun '(t', im) =>
    if ty_eqb t t' then Ok (mkValue t re (Some im) (mdt m)) else Err))
  else rbind (from_plain ps junk m cs) (fun '(t, d) => Ok (mkValue t d None (mdt m))).
