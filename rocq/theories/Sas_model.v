(* SelectAndScatter and MaxPoolScatter.
   libspu/kernel/hlo/select_and_scatter.cc:27-221
   Arrays as in Redn_model.  The functions select_fn and scatter_fn work elementwise and are modelled by their values on one pair of
   elements; the product of a value and a one-hot entry is the value or zero; the entries of scatter_indices are bits.
   Strides are positive (the interior padding is the stride less one). *)
From Verif Require Import Base Ring_model Perm_model Scan_model Mm_model Redn_model.
Open Scope nat_scope.

Section Sas.
Context {A : Type}.
Variable zero : A.

Definition same_shape (a b : list nat) : bool := if list_eq_dec Nat.eq_dec a b then true else false.
(* select_and_scatter.cc:68-95: the selected values of one position of the windows, spread over the base *)
Definition spread (source : arr A) (hot : nat -> bool) (init : A) (B W S : list nat) (widx : nat) : res (arr A) :=
  let nw := total_size W in
  let sel := (fst source, fun n => if hot (n * nw + widx) then snd source n else zero) in
  let wi := index_of W widx in
  rbind (padded sel init wi (zipWith (fun w i => w - i - 1) W wi) (map (fun s => s - 1) S)) (fun b =>
  if same_shape (fst b) B then Ok b else Err).
(* select_and_scatter.cc:27-115 ScatterWindow; hot_shape and hot are scatter_indices *)
Definition scatter_window (f : A -> A -> A) (source : arr A) (hot_shape : list nat) (hot : nat -> bool) (init : A) (B W S : list nat) : res (arr A) :=
  let N := fst source in
  let nw := total_size W in
  if negb (length N =? length W) || negb (length N =? length S) then Err else
  if negb (same_shape hot_shape (N ++ [nw])) then Err else
  rbind (rmap (spread source hot init B W S) (seq 0 nw)) (fun parts =>
  match parts with
  | [] => Err                                  (* nothing to concatenate *)
  | _ => rbind (rmap (fun p => reduce_row f true init (map (fun part => snd part p) parts)) (seq 0 (total_size B))) (fun l => Ok (from_list init B l))
  end).
(* select_and_scatter.cc:117-142 MaxPoolScatter: padding is refused, the initial value is zero *)
Definition max_pool_scatter (add : A -> A -> A) (hot_shape : list nat) (hot : nat -> bool) (source : arr A) (W B S : list nat) (pads : list (nat * nat)) : res (arr A) :=
  if existsb (fun '(l, h) => negb (l =? 0) || negb (h =? 0)) pads then Err else
  scatter_window add source hot_shape hot zero B W S.

(* select_and_scatter.cc:184-199: a pair of a value and its position *)
Definition keep_better (sel : A -> A -> bool) (a b : A * nat) : A * nat := if sel (fst a) (fst b) then a else b.
(* the row of one window *)
Definition select_row (sel : A -> A -> bool) (nw : nat) (tiled : nat -> A) (n : nat) : res nat :=
  rbind (tree_reduce (keep_better sel) (map (fun w => (tiled (n * nw + w), w)) (seq 0 nw))) (fun out =>
  match out with [x] => Ok (snd x) | _ => Err end).
(* select_and_scatter.cc:144-221 SelectAndScatter *)
Definition select_and_scatter (sel : A -> A -> bool) (f : A -> A -> A) (base source : arr A) (init : A) (W S : list nat) (pads : list (nat * nat)) : res (arr A) :=
  let nd := length (fst base) in
  let N := fst source in
  let nw := total_size W in
  if negb (nd =? length W) || negb (nd =? length S) then Err else
  rbind (expand_padded base W S pads init) (fun tiled =>
  if negb (length (fst tiled) =? 2 * nd) || negb (same_shape N (firstn nd (fst tiled))) || negb (same_shape W (skipn nd (fst tiled))) then Err else
  rbind (rmap (select_row sel nw (snd tiled)) (seq 0 (total_size N))) (fun pos =>
  scatter_window f source (N ++ [nw]) (fun p => nth (p / nw) pos 0 =? p mod nw) init (fst base) W S)).
End Sas.
