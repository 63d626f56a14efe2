(* Dynamic slice and dynamic update slice: libspu/kernel/hlo/indexing.cc, on the values of Disp_model.v (any visibility).
   Arrays are lists of elements in row-major order with their shape (views and strides: Nd_model.v, C02-C06); elements keep
   their own share type where concatenate and pad would cast all to a common type (shape_ops.cc:80-135).
   Of the protocols modelled here only aby3 has oblivious-RAM kernels; without them SecretDynamicSliceOramImpl (687-782) does the
   same as SecretDynamicSliceImpl, so only the latter is modelled. *)
From Verif Require Import Base Ring_model Semi_model Disp_model.
Open Scope Z_scope.

(* shape.h numel *)
Fixpoint prod (sh : list nat) : nat := match sh with [] => 1 | d :: sh => d * prod sh end%nat.
(* element at a position; outside the array C++ reads past the buffer *)
Definition at_pos {A} (l : list A) (p : Z) : M A :=
  if p <? 0 then fun _ => Ub else match nth_error l (Z.to_nat p) with Some x => ret x | None => fun _ => Ub end.
(* positions of the box of size sz at start, in row-major order (ndarray_ref.cc:290-319 slice followed by iteration);
   base is the position so far in units of the axes before *)
Fixpoint positions (sh : list nat) (start : list Z) (sz : list nat) (base : Z) : list Z :=
  match sh, start, sz with
  | d :: sh, a :: start, s :: sz => flat_map (fun i => positions sh start sz (base * Z.of_nat d + (a + Z.of_nat i))) (seq 0 s)
  | _, _, _ => [base]
  end.
Definition slice_box {A} (sh : list nat) (start : list Z) (sz : list nat) (data : list A) : M (list A) :=
  mapM (at_pos data) (positions sh start sz 0).
(* ring.h:  hal::slice of one row of a matrix with rows of the given length *)
Definition row {A} (inner i : nat) (data : list A) : list A := firstn inner (skipn (i * inner) data).
(* shape_ops.cc:97-105 concatenate refuses an empty list *)
Definition concat_rows {A} (rs : list (list A)) : M (list A) := match rs with [] => fail | _ => ret (concat rs) end.

Section Dyn.
Variable k : Z.
Variable pr : proto.
Variable others : nat -> Z.
Notation val := (val pr).
Notation const := (const k pr).
Notation hal_add := (hal_add k pr). Notation hal_mul := (hal_mul k pr).
Notation hal_equal := (hal_equal k pr others).

(* one element of a matrix product: the kernels multiply whole matrices; each element of the product is this sum (C10, C32) *)
Fixpoint dotp (ms xs : list val) (acc : val) : M val :=
  match ms, xs with
  | m :: ms, x :: xs => p <- hal_mul m x ;; a <- hal_add acc p ;; dotp ms xs a
  | _, _ => ret acc
  end.
(* 1xD times Dxinner *)
Definition row_matmul (ms data : list val) (D inner : nat) : M (list val) :=
  mapM (fun c => xs <- mapM (fun p => at_pos data (Z.of_nat (p * inner + c))) (seq 0 D) ;; dotp ms xs (const 0)) (seq 0 inner).
(* indexing.cc:588-685 SecretDynamicSliceImpl; the padding is public zeros here, sealed zeros in the code *)
Fixpoint dslice (sh sz : list nat) (st data : list val) : M (list val) :=
  match sh, sz, st with
  | D :: sh, s :: sz, x :: st =>
      let inner := prod sh in
      if (s =? D)%nat then
        match sz with
        | [] => ret data
        | _ => rs <- mapM (fun i => dslice sh sz st (row inner i data)) (seq 0 D) ;; concat_rows rs
        end
      else
        mask <- mapM (fun i => hal_equal x (const (Z.of_nat i))) (seq 0 D) ;;
        let padded := repeat (const 0) s ++ map (setnb1 pr) mask in
        rs <- mapM (fun i => row_matmul (firstn D (skipn (length padded - i - D) padded)) data D inner) (seq 0 s) ;;
        rs <- match sz with [] => ret rs | _ => mapM (fun r => dslice sh sz st r) rs end ;;
        concat_rows rs
  | _, _, _ => fail
  end.
(* polymorphic.cc:476-485 clamp(x, 0, up) = min(max(0, x), up), which selects as ring.cc's _clamp does *)
Definition clamp_start (x : val) (up : Z) : M val := hal_clamp k pr x (const 0) (const up).
Fixpoint clamp_all (st : list val) (sh sz : list nat) : M (list val) :=
  match st, sh, sz with
  | x :: st, D :: sh, s :: sz => c <- clamp_start x (Z.of_nat D - Z.of_nat s) ;; cs <- clamp_all st sh sz ;; ret (c :: cs)
  | _, _, _ => ret []
  end.
Definition is_public (x : val) : bool := match x with VP _ => true | _ => false end.
(* indexing.cc:784-817: public starts are applied by a slice first; they are limited from above only *)
Fixpoint prune (st : list val) (sh sz : list nat) : M (list val * list Z * list nat) :=
  match st, sh, sz with
  | x :: st, D :: sh, s :: sz =>
      r <- prune st sh sz ;;
      let '(st', start, dims) := r in
      match x with
      | VP p => z <- bop pr (fun t => k_p2a pr t 0) (fun a => VA a) ;; ret (z :: st', Z.min (Z.of_nat D - Z.of_nat s) (sgn k p) :: start, s :: dims)
      | _ => ret (x :: st', 0 :: start, D :: dims)
      end
  | _, _, _ => ret ([], [], [])
  end.
(* indexing.cc:818-846: clamp, then select *)
Definition secret_core (sh sz : list nat) (st data : list val) : M (list val) := c <- clamp_all st sh sz ;; dslice sh sz c data.
Definition secret_dynamic_slice (sh sz : list nat) (st data : list val) : M (list val) :=
  if existsb is_public st then
    r <- prune st sh sz ;;
    let '(st', start, dims) := r in
    pruned <- slice_box sh start dims data ;;
    secret_core dims sz st' pruned
  else secret_core sh sz st data.
(* indexing.cc:848-885 DynamicSlice *)
Fixpoint public_starts (st : list val) (sh sz : list nat) : list Z :=
  match st, sh, sz with
  | x :: st, D :: sh, s :: sz =>
      Z.min (Z.max (match x with VP p => sgn k p | _ => 0 end) 0) (Z.of_nat D - Z.of_nat s) :: public_starts st sh sz
  | _, _, _ => []
  end.
Definition dynamic_slice (sh sz : list nat) (st data : list val) : M (list val) :=
  if negb (length sz =? length st)%nat || negb (length sz =? length sh)%nat || (length st =? 0)%nat then fail
  else if forallb is_public st then slice_box sh (public_starts st sh sz) sz data
  else secret_dynamic_slice sh sz st data.

(* ---- dynamic update slice ---- *)
(* polymorphic.cc:151-162 logical_not *)
Definition logical_not (x : val) : M val := match x with VB _ => hal_xor pr others x (const 1) | _ => hal_sub k pr (const 1) x end.
(* indexing.cc:313-341 SecretLinearUpdateIndexing *)
Definition update_linear (data : list val) (upd lin : val) : M (list val) :=
  mask <- mapM (fun i => hal_equal lin (const (Z.of_nat i))) (seq 0 (length data)) ;;
  rev <- mapM logical_not mask ;;
  keep <- mapM (fun '(x, m) => hal_mul x m) (combine data rev) ;;
  put <- mapM (fun m => hal_mul upd m) mask ;;
  mapM (fun '(a, b) => hal_add a b) (combine keep put).
(* indexing.cc:343-419 ClampAndFlattenIndex: the loop runs from the last axis to the first *)
Fixpoint flatten_starts (cs : list val) (sh : list nat) : M (val * Z) :=
  match cs, sh with
  | c :: cs, D :: sh =>
      r <- flatten_starts cs sh ;;
      let '(lin, stride) := r in
      p <- hal_mul c (const stride) ;; a <- hal_add lin p ;; ret (a, stride * Z.of_nat D)
  | _, _ => ret (const 0, 1)
  end.
Definition clamp_and_flatten (st : list val) (sh sz : list nat) : M (list val) :=
  cs <- clamp_all st sh sz ;;
  r <- flatten_starts cs sh ;;
  mapM (fun o => hal_add (fst r) (const o)) (positions sh (map (fun _ => 0) sh) sz 0).
Fixpoint update_loop (data : list val) (us : list (val * val)) : M (list val) :=
  match us with [] => ret data | (u, lin) :: us => d <- update_linear data u lin ;; update_loop d us end.
(* ndarray_ref.cc update_slice: elements of the box are overwritten *)
Fixpoint put_all {A} (data : list A) (us : list (A * Z)) : M (list A) :=
  match us with
  | [] => ret data
  | (u, p) :: us =>
      if (p <? 0) || (Z.of_nat (length data) <=? p) then fun _ => Ub
      else put_all (firstn (Z.to_nat p) data ++ u :: skipn (S (Z.to_nat p)) data) us
  end.
(* what the parties see of a value; public values only, or after reveal *)
Variable reveal : val -> Z.
Fixpoint revealed_starts (st : list val) (sh sz : list nat) : M (list Z) :=
  match st, sh, sz with
  | x :: st, D :: sh, s :: sz =>
      match x with
      | VV _ _ => fail                                        (* getIndices: must be public *)
      | _ => r <- revealed_starts st sh sz ;;
             ret (Z.min (Z.max (sgn k (match x with VP p => p | _ => reveal x end)) 0) (Z.of_nat D - Z.of_nat s) :: r)
      end
  | _, _, _ => ret []
  end.
(* indexing.cc:530-586 DynamicUpdateSlice, UpdateSlice; sz is the shape of the update *)
Definition dynamic_update_slice (sh sz : list nat) (st data upd : list val) : M (list val) :=
  match st with
  | [] => fail
  | x :: _ =>
      if negb (length st =? length sh)%nat || negb (length st =? length sz)%nat then fail
      else match x with
      | VA _ | VB _ => lins <- clamp_and_flatten st sh sz ;; update_loop data (combine upd lins)
      | _ => starts <- revealed_starts st sh sz ;; put_all data (combine upd (positions sh starts sz 0))
      end
  end.
End Dyn.
