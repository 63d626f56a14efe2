(* Matrix products of values of any visibility, their split into tiles, and tensordot:
   libspu/kernel/hal/ring.cc, libspu/mpc/api.cc, with the kernels of semi2k.
   An array is its shape and its elements by row-major position; slice, transpose and reshape renumber positions (how views do it in
   memory: Nd_model.v, C02-C06).  Arrays carry one visibility, as in the code. *)
From Verif Require Import Base Ring_model Semi_model Conv_model Disp_model.
Open Scope Z_scope.

(* elements by position; shares and private copies also by rank *)
Inductive els := EP (f : nat -> Z) | EV (owner : nat) (f : nat -> nat -> Z) | EA (f : nat -> nat -> Z) | EB (nb : Z) (f : nat -> nat -> Z).
Definition value : Type := list nat * els.
Definition renumber (g : nat -> nat) (e : els) : els :=
  match e with
  | EP f => EP (fun p => f (g p))
  | EV o f => EV o (fun p => f (g p))
  | EA f => EA (fun p => f (g p))
  | EB nb f => EB nb (fun p => f (g p))
  end.
Definition total_size (sh : list nat) : nat := fold_right Nat.mul 1%nat sh.
(* ndarray_ref.cc:265-288 reshape: same number of elements *)
Definition reshape (v : value) (sh : list nat) : M value :=
  if (total_size sh =? total_size (fst v))%nat then ret (sh, snd v) else fail.
(* rows [r0, r1) and columns [c0, c1) of a matrix with c columns (prot_wrapper.cc:280-285 _extract_slice) *)
Definition block (e : els) (c r0 r1 c0 c1 : nat) : value :=
  let w := (c1 - c0)%nat in ([(r1 - r0)%nat; w], renumber (fun p => ((r0 + p / w) * c + (c0 + p mod w))%nat) e).
(* transpose of an r x c matrix *)
Definition transpose2 (r c : nat) (e : els) : els := renumber (fun p => ((p mod r) * c + p / r)%nat) e.

(* what kernel call t draws: correlated words and shared random bits for every position, and one matrix
   triple of the dimensions asked for *)
Record mtapes := mkMtapes {
  mt_r : nat -> nat -> nat -> Z;                         (* call, position, rank *)
  mt_bits : nat -> nat -> nat -> nat -> Z;               (* call, position, bit, rank *)
  mt_a : nat -> nat * nat * nat -> nat -> nat -> nat -> Z;   (* call, dimensions, rank, row, column *)
  mt_b : nat -> nat * nat * nat -> nat -> nat -> nat -> Z;
  mt_c : nat -> nat * nat * nat -> nat -> nat -> nat -> Z }.

Section Mm.
Variable k : Z.
Variable n : nat.
Variable T : mtapes.

(* matrices by row and column *)
Definition mx (c : nat) (f : nat -> Z) : nat -> nat -> Z := fun i j => f (i * c + j)%nat.
Definition unmx (c : nat) (m : nat -> nat -> Z) : nat -> Z := fun p => m (p / c)%nat (p mod c)%nat.
(* element-wise conversions of a whole array: api.cc:46-62 _2a, 159-164 v2s; conversion.cc:116-179 B2A_Randbit *)
Definition b2a_el (RB : nat -> nat -> Z) (nb : Z) (x : nat -> Z) : nat -> Z := match b2a_randbit k n RB (nb, x) with Ok s => s | _ => x end.
Definition arr_a (e : els) : M (nat -> nat -> Z) :=
  match e with
  | EB nb f => if k <? nb then fail else call (fun t => Ok (fun p => b2a_el (mt_bits T t p) nb (f p)))
  | EA f => ret f
  | _ => fail
  end.
Definition arr_v2s (o : nat) (f : nat -> nat -> Z) : M (nat -> nat -> Z) := call (fun t => Ok (fun p => v2a_all k n o (mt_r T t p) (f p o))).
(* kernels: pv2k.cc:355-402 MatMulPP, MatMulVVV, MatMulVP; arithmetic.cc:443-461 MatMulAP, MatMulAA *)
Definition mm_plain (K c : nat) (f g : nat -> Z) : nat -> Z := unmx c (ring_mmul k K (mx K f) (mx c g)).
Definition mm_ap (K c : nat) (f : nat -> nat -> Z) (g : nat -> Z) : nat -> nat -> Z := fun p i => unmx c (matmul_ap k K (mx K (fun q => f q i)) (mx c g)) p.
Definition mm_aa (m K c : nat) (f g : nat -> nat -> Z) : M els :=
  r <- call (fun t => Ok (fun p i => unmx c (matmul_aa_all k n K (fun q => mx K (fun s => f s q)) (fun q => mx c (fun s => g s q)) (mt_a T t (m, K, c)) (mt_b T t (m, K, c)) (mt_c T t (m, K, c)) i) p)) ;;
  ret (EA r).
(* api.cc:502-541 mmul_ss, mmul_sv, mmul_sp, mmul_vv, mmul_vp, mmul_pp; semi2k registers no mmul_av and no mmul_vvs *)
Definition mmul_ss (m K c : nat) (x y : els) : M els := xa <- arr_a x ;; ya <- arr_a y ;; mm_aa m K c xa ya.
Definition mmul_sv (m K c : nat) (x : els) (o : nat) (g : nat -> nat -> Z) : M els := y <- arr_v2s o g ;; mmul_ss m K c x (EA y).
Definition mmul_sp (K c : nat) (x : els) (g : nat -> Z) : M els := xa <- arr_a x ;; ret (EA (mm_ap K c xa g)).
Definition mmul_vv (m K c : nat) (o : nat) (f : nat -> nat -> Z) (o' : nat) (g : nat -> nat -> Z) : M els :=
  if (o =? o')%nat then ret (EV o (fun p i => mm_plain K c (fun q => f q i) (fun q => g q i) p))
  else x <- arr_v2s o f ;; y <- arr_v2s o' g ;; mmul_ss m K c (EA x) (EA y).
Definition mmul_vp (K c : nat) (o : nat) (f : nat -> nat -> Z) (g : nat -> Z) : M els := ret (EV o (fun p i => mm_plain K c (fun q => f q i) g p)).
(* ring.cc:169-194 _mmul_impl: x is m x K, y is K x c *)
Definition mmul_impl (m K c : nat) (x y : els) : M els :=
  let tx := transpose2 m K x in let ty := transpose2 K c y in
  match x, y with
  | EP f, EP g => ret (EP (mm_plain K c f g))
  | EV o f, EV o' g => mmul_vv m K c o f o' g
  | (EA _ | EB _ _), EP g => mmul_sp K c x g
  | EP _, (EA _ | EB _ _) => match tx with EP f => r <- mmul_sp K m ty f ;; ret (transpose2 c m r) | _ => fail end
  | EV o f, EP g => mmul_vp K c o f g
  | EP _, EV _ _ => match tx, ty with EP f, EV o g => r <- mmul_vp K m o g f ;; ret (transpose2 c m r) | _, _ => fail end
  | (EA _ | EB _ _), EV o g => mmul_sv m K c x o g
  | EV _ _, (EA _ | EB _ _) => match tx with EV o f => r <- mmul_sv c K m ty o f ;; ret (transpose2 c m r) | _ => fail end
  | _, _ => mmul_ss m K c x y
  end.
(* _add of two products of the same operands' visibilities (Disp_model.v hal_add); mixed visibilities do not arise *)
Definition add_els (x y : els) : M els :=
  match x, y with
  | EP f, EP g => ret (EP (fun p => radd k (f p) (g p)))
  | EV o f, EV o' g => if (o =? o')%nat then ret (EV o (fun p i => if (i =? o)%nat then radd k (f p i) (g p i) else f p i)) else fail
  | EA f, EA g => call (fun _ => Ok (EA (fun p i => add_aa k (f p i) (g p i))))
  | _, _ => fail
  end.

(* ring.cc:249-287 calcMmulTilingSize.  [small] is the outcome of the comparison with the memory limit, [ks] and [ms] the rounded
   floating-point quotients of the branch taken; the theorems hold for any values of these three *)
Definition tiling (small : bool) (ks ms : Z) (m c K : nat) : nat * nat * nat :=
  if (m =? 0)%nat || (c =? 0)%nat || (K =? 0)%nat || small then (m, c, K)
  else
    let k_step := if (8 * (m + c) <? K)%nat then Z.max 1 ks else if (8 * K <? m + c)%nat then Z.of_nat K else Z.max 1 ks in
    let mn := if (8 * (m + c) <? K)%nat then Z.of_nat (m + c) else Z.max 1 ms in
    (Z.to_nat (Z.max (mn * Z.of_nat m / Z.of_nat (m + c)) 1), Z.to_nat (Z.max (mn * Z.of_nat c / Z.of_nat (m + c)) 1), Z.to_nat k_step).
Definition blocks_of (len step : nat) : nat := ((len + step - 1) / step)%nat.

(* ring.cc:341-375: the tiles of one result block are multiplied and added up *)
Fixpoint add_tiles (f : nat -> M els) (acc : els) (is : list nat) : M els :=
  match is with [] => ret acc | i :: is => t <- f i ;; a <- add_els acc t ;; add_tiles f a is end.
Definition result_block (m K c ms ks cs : nat) (x y : els) (r col : nat) : M value :=
  let r0 := (r * ms)%nat in let r1 := Nat.min m (r0 + ms) in let c0 := (col * cs)%nat in let c1 := Nat.min c (c0 + cs) in
  let tile i := let k0 := (i * ks)%nat in let k1 := Nat.min K (k0 + ks) in
    mmul_impl (r1 - r0) (k1 - k0) (c1 - c0) (snd (block x K r0 r1 k0 k1)) (snd (block y c k0 k1 c0 c1)) in
  match seq 0 (blocks_of K ks) with
  | [] => fail
  | i :: is => t <- tile i ;; a <- add_tiles tile t is ;; ret ([(r1 - r0)%nat; (c1 - c0)%nat], a)
  end.
Fixpoint eachM {A B} (f : A -> M B) (l : list A) : M (list B) :=
  match l with [] => ret [] | a :: l => b <- f a ;; bs <- eachM f l ;; ret (b :: bs) end.

(* ring.cc:377-412: blocks are copied into the result buffer, whose content before is arbitrary *)
Section Merge.
Context {E : Type}.
Definition memcpy (buf : nat -> E) (d : nat) (src : nat -> E) (s len : nat) : nat -> E :=
  fun p => if (d <=? p)%nat && (p <? d + len)%nat then src (s + (p - d))%nat else buf p.
Definition copy_block (c ms cs nblocks : nat) (compact : bool) (buf : nat -> E) (r col rows cols : nat) (src : nat -> E) : nat -> E :=
  if compact then
    if (nblocks =? 1)%nat then memcpy buf (r * ms * c) src 0 (rows * cols)
    else fold_left (fun buf i => memcpy buf ((r * ms + i) * c + col * cs) src (i * cols) cols) (seq 0 rows) buf
  else
    fold_left (fun buf i => fold_left (fun buf j => memcpy buf ((r * ms + i) * c + (col * cs + j)) src (i * cols + j) 1) (seq 0 cols) buf) (seq 0 rows) buf.
(* blocks with their row and column number, dimensions and layout *)
Definition merge (c ms cs nblocks : nat) (compact : nat -> nat -> bool) (blocks : list (nat * nat * (nat * nat) * (nat -> E))) (buf : nat -> E) : nat -> E :=
  fold_left (fun buf '(r, col, (rows, cols), src) => copy_block c ms cs nblocks (compact r col) buf r col rows cols src) blocks buf.
End Merge.
(* the element type of the result is that of the first block; blocks of other types would be misread *)
Definition as_p (v : value) : option (nat -> Z) := match snd v with EP f => Some f | _ => None end.
Definition as_v (o : nat) (v : value) : option (nat -> nat -> Z) := match snd v with EV o' f => if (o =? o')%nat then Some f else None | _ => None end.
Definition as_a (v : value) : option (nat -> nat -> Z) := match snd v with EA f => Some f | _ => None end.
Fixpoint all_as {E} (as_ : value -> option (nat -> E)) (bs : list (nat * nat * value)) : option (list (nat * nat * (nat * nat) * (nat -> E))) :=
  match bs with
  | [] => Some []
  | (r, col, v) :: bs =>
      match fst v, as_ v, all_as as_ bs with
      | [rows; cols], Some f, Some rest => Some ((r, col, (rows, cols), f) :: rest)
      | _, _, _ => None
      end
  end.
Variable compact : nat -> nat -> bool.
Variable junk : Z.
Definition merge_blocks (m c ms cs nblocks : nat) (bs : list (nat * nat * value)) : M value :=
  if (nblocks =? 1)%nat && negb (forallb (fun b => match b with (_, _, ([_; cols], _)) => (cols =? c)%nat | _ => false end) bs) then fail else
  match bs with
  | (_, _, (_, EP _)) :: _ => match all_as as_p bs with Some l => ret ([m; c], EP (merge c ms cs nblocks compact l (fun _ => junk))) | None => fun _ => Ub end
  | (_, _, (_, EV o _)) :: _ => match all_as (as_v o) bs with Some l => ret ([m; c], EV o (merge c ms cs nblocks compact l (fun _ _ => junk))) | None => fun _ => Ub end
  | (_, _, (_, EA _)) :: _ => match all_as as_a bs with Some l => ret ([m; c], EA (merge c ms cs nblocks compact l (fun _ _ => junk))) | None => fun _ => Ub end
  | _ => fun _ => Ub
  end.
Definition pairs (a b : nat) : list (nat * nat) := flat_map (fun i => map (pair i) (seq 0 b)) (seq 0 a).
(* ring.cc:228-247 deduceMmulArgs *)
Definition deduce (x y : list nat) : option (nat * nat * nat) :=
  match x, y with
  | [a], [b] => if (a =? b)%nat then Some (1%nat, 1%nat, b) else None
  | [a], [b; c] => if (a =? b)%nat then Some (1%nat, c, b) else None
  | [m; a], [b] => if (a =? b)%nat then Some (m, 1%nat, b) else None
  | [m; a], [b; c] => if (a =? b)%nat then Some (m, c, b) else None
  | _, _ => None
  end.
(* ring.cc:313-415 _mmul; [split] says that splitting is enabled *)
Definition mmul (split small : bool) (ks0 ms0 : Z) (x y : value) : M value :=
  match deduce (fst x) (fst y) with
  | None => fail
  | Some (m, c, K) =>
      x <- reshape x [m; K] ;; y <- reshape y [K; c] ;;
      let '(ms, cs, ks) := tiling small ks0 ms0 m c K in
      if negb split || ((ms =? m)%nat && (cs =? c)%nat && (ks =? K)%nat) then r <- mmul_impl m K c (snd x) (snd y) ;; ret ([m; c], r)
      else
        bs <- eachM (fun '(r, col) => b <- result_block m K c ms ks cs (snd x) (snd y) r col ;; ret (r, col, b)) (pairs (blocks_of m ms) (blocks_of c cs)) ;;
        merge_blocks m c ms cs (blocks_of c cs) bs
  end.

(* ---- tensordot ---- *)
(* index of a position and position of an index, row-major *)
Fixpoint index_of (sh : list nat) (p : nat) : list nat :=
  match sh with [] => [] | _ :: sh => (p / total_size sh)%nat :: index_of sh (p mod total_size sh)%nat end.
Fixpoint position (sh idx : list nat) : nat := match sh, idx with _ :: sh, i :: idx => (i * total_size sh + position sh idx)%nat | _, _ => O end.
(* ndarray_ref.cc:333-347 transpose: axis j of the result is axis perm[j] of the operand; axes outside the shape are not checked for *)
Definition source_index (perm idx : list nat) : list nat :=
  map (fun a => match find (fun '(p, _) => (p =? a)%nat) (combine perm idx) with Some (_, i) => i | None => O end) (seq 0 (length perm)).
Fixpoint distinct (l : list nat) : bool := match l with [] => true | a :: l => negb (existsb (Nat.eqb a) l) && distinct l end.
Definition transpose (v : value) (perm : list nat) : M value :=
  if (length perm =? length (fst v))%nat && distinct perm then
    if negb (forallb (fun a => a <? length (fst v))%nat perm) then fun _ => Ub else
    let sh := map (fun a => nth a (fst v) O) perm in
    ret (sh, renumber (fun p => position (fst v) (source_index perm (index_of sh p))) (snd v))
  else fail.
(* ring.cc:616-626 buildFullIndex, 628-631 product (accumulated in an int), 636-668 _tensordot.
   Simplified: a negative dimension from an overflowed product is refused; the code refuses it unless the array is empty *)
Definition full_index (ix : list nat) (nd : nat) : list nat := ix ++ filter (fun d => negb (existsb (Nat.eqb d) ix)) (seq 0 nd).
Definition int_product (l : list nat) : Z := fold_left (fun acc d => sgn 32 (wrap 32 (acc * Z.of_nat d))) l 1.
Definition rotate {A} (nc : nat) (l : list A) : list A := skipn nc l ++ firstn nc l.
Definition tensordot (split small : bool) (ks0 ms0 : Z) (x y : value) (ix iy : list nat) : M value :=
  if negb (length ix =? length iy)%nat then fail
  else
    let nc := length ix in
    xx <- transpose x (rotate nc (full_index ix (length (fst x)))) ;;
    let xs := fst xx in
    let xa := firstn (length xs - nc) xs in let xb := skipn (length xs - nc) xs in
    if (int_product xa <? 0) || (int_product xb <? 0) then fail else
    xx <- reshape xx [Z.to_nat (int_product xa); Z.to_nat (int_product xb)] ;;
    yy <- transpose y (full_index iy (length (fst y))) ;;
    let ys := fst yy in
    let ya := firstn nc ys in let yb := skipn nc ys in
    if (int_product ya <? 0) || (int_product yb <? 0) then fail else
    yy <- reshape yy [Z.to_nat (int_product ya); Z.to_nat (int_product yb)] ;;
    zz <- mmul split small ks0 ms0 xx yy ;;
    reshape zz (xa ++ yb).
End Mm.
