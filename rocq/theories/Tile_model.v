(* Tiled dispatch of a kernel: libspu/mpc/utils/tiling_util.h.  The unary and the binary version (lines 30-140 and
   142-258) are the same text up to the second operand; both are the function below, on one or two operands.
   The further arguments of the kernel are constants and are left out.  int64 overflow is not modelled; std::lround of
   an integer quotient is that quotient. *)
From Verif Require Import Base Nd_model.
Open Scope Z_scope.

(* tiling_util.h:42-53: from the last dimension, the first one where the product of the sizes exceeds the block size:
   (slicing_dim, product of the inner sizes).  [rs] are the sizes from the last one on; None: slicing_dim stays -1 *)
Fixpoint find_dim (blk : Z) (rs : list Z) (acc : Z) : option (nat * Z) :=
  match rs with
  | [] => None
  | d :: rs' => let a := acc * d in if blk <? a then Some (length rs', Z.quot a d) else find_dim blk rs' a
  end.
(* tiling_util.h:104-111: the outer dimensions slicing_dim - 1, ..., 0, in this order; left at the first one that does
   not wrap around *)
Fixpoint carry (ds ss es : list Z) : list Z * list Z :=
  match ds, ss, es with
  | d :: ds', s :: ss', e :: es' =>
      let s1 := Z.rem (s + 1) d in
      let e1 := Z.rem e d + 1 in
      if e1 =? 1 then let '(x, y) := carry ds' ss' es' in (s1 :: x, e1 :: y) else (s1 :: ss', e1 :: es')
  | _, _, _ => (ss, es)
  end.
(* tiling_util.h:100-119 *)
Definition advance (shape : list Z) (sd : nat) (stride : Z) (se : list Z * list Z) : list Z * list Z :=
  let '(s, e) := se in
  if nthZ e sd =? nthZ shape sd then
    let '(x, y) := carry (rev (firstn sd shape)) (rev (firstn sd s)) (rev (firstn sd e)) in
    (rev x ++ 0 :: skipn (S sd) s, rev y ++ stride :: skipn (S sd) e)
  else
    let e1 := nthZ e sd + stride in
    (upd s sd (nthZ s sd + stride), upd e sd (if nthZ shape sd <? e1 then nthZ shape sd else e1)).
(* tiling_util.h:78-86: the indices of the first slice; the loop of 88-120 as the list of the slices handed to the tasks *)
Fixpoint slices (n : nat) (shape : list Z) (sd : nat) (stride : Z) (se : list Z * list Z) : list (list Z * list Z) :=
  match n with O => [] | S m => se :: slices m shape sd stride (advance shape sd stride se) end.
Definition first_slice (shape : list Z) (sd : nat) (stride : Z) : list Z * list Z :=
  (map (fun _ => 0) shape, repeat 1 sd ++ stride :: skipn (S sd) shape).

Section Tile.
Variable blk : Z.                                   (* kMinTaskSize, core/parallel_utils.h *)
(* The kernel, run by all parties together: context (None: the caller's, Some i: the i-th fork; the i-th forks of all
   parties communicate with each other), the operands of every party, the party; result: storage type and array *)
Variable fn : option nat -> (nat -> res (list nd)) -> nat -> res (Z * nd).
Variable elsize : Z -> Z.                           (* of a storage type *)
Variable junk : Z.                                  (* content of fresh memory *)

(* tiling_util.h:126-137: raw copies of the results, whose strides are ignored, into the freshly allocated output *)
Definition raw (a : nd) : res (list Z) :=
  rmap (fun i => bufget (buf a) (off a + Z.of_nat i)) (seq 0 (Z.to_nat (numel (shp a)))).
Fixpoint copy_out (t0 : Z) (outs : list (Z * nd)) (room : Z) : res (list Z) :=
  match outs with
  | [] => Ok (repeat junk (Z.to_nat room))
  | (t, o) :: r =>
      if (room <? numel (shp o)) || negb (elsize t =? elsize t0) then Ub
      else rbind (raw o) (fun d => rbind (copy_out t0 r (room - numel (shp o))) (fun d' => Ok (d ++ d')))
  end.
(* std::async, 88-98: the tasks run in the order [ord]; each leaves its result in its own future *)
Definition run_tasks (ord : list nat) (task : nat -> res (Z * nd)) : nat -> option (res (Z * nd)) :=
  fold_left (fun fut i => fun j => if (j =? i)%nat then Some (task i) else fut j) ord (fun _ => None).
(* the slices party q makes of its operands *)
Definition slices_of (xs : list nd) (se : list Z * list Z) : res (list nd) := rmap (fun a => slice a (fst se) (snd se) None) xs.
(* tiling_util.h:55-76: slicing dimension, stride, number of slices, for a shape *)
Definition plan (shape : list Z) : res (option (nat * Z * nat)) :=
  match find_dim blk (rev shape) 1 with
  | None => Ub                                      (* shape[-1] *)
  | Some (sd, inner) =>
      if inner =? 0 then Ub else
      let stride := Z.quot blk inner in
      if stride =? 0 then Ok None else
      let d := nthZ shape sd in
      let n_dim := Z.quot d stride + (if Z.rem d stride =? 0 then 0 else 1) in
      Ok (Some (sd, stride, Z.to_nat (n_dim * numel (firstn sd shape))))
  end.
(* tiling_util.h:30-140 and 142-258, what party p returns; [xs q] the operands of party q, [on]: the feature is enabled
   and the protocol forks cheaply *)
Definition tiled (on : bool) (ord : list nat) (xs : nat -> list nd) (p : nat) : res (Z * nd) :=
  match xs p with
  | [] => Err
  | x :: rest =>
      if negb (forallb (fun y => list_Z_eqb (shp x) (shp y)) rest) then Err
      else if negb on || (numel (shp x) <=? blk) then fn None (fun q => Ok (xs q)) p
      else
        rbind (plan (shp x)) (fun pl =>
        match pl with
        | None => fn None (fun q => Ok (xs q)) p
        | Some (sd, stride, n) =>
            let ses := slices n (shp x) sd stride (first_slice (shp x) sd stride) in
            let task := fun i => fn (Some i) (fun q => match nth_error ses i with Some se => slices_of (xs q) se | None => Ub end) p in
            let fut := run_tasks ord task in
            rbind (rmap (fun i => match fut i with Some r => r | None => Err end) (seq 0 n)) (fun outs =>
            match outs with
            | [] => Ub                              (* out_slices[0] *)
            | (t0, _) :: _ => rbind (copy_out t0 outs (numel (shp x))) (fun d => Ok (t0, compact d (shp x)))
            end)
        end)
  end.
End Tile.
