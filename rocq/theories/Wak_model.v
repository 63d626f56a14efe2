(* The AS-Waksman permutation network: libspu/mpc/utils/waksman_net.{h,cc}, and its evaluation on shares: libspu/mpc/cheetah/permute.cc.
   Simplified: rows, columns and sizes are natural numbers (below 2^63); columns of the routing and of the topology are found by number without a
   bound (they lie between left and right, below the width, as the two entry points call the recursions); assert is compiled out. *)
From Verif Require Import Base Ring_model Prg_model Perm_model.
Open Scope nat_scope.

(* core/bit_utils.h:28-30 *)
Definition log2_ceil (n : nat) : nat := if n <=? 1 then 0 else S (Nat.log2 (n - 1)).
(* waksman_net.cc:42-44 *)
Definition columns (n : nat) : nat := if 1 <? n then 2 * log2_ceil n - 1 else 0.
(* 49-51 *)
Definition top_height (n : nat) : nat := n / 2.
(* 64-70, 80-84 *)
Definition switch_wire (sz lo r : nat) (top : bool) : res nat :=
  let rel := r - lo in
  if (rel mod 2 =? 0) && (rel + 1 <? sz) then Ok (lo + rel / 2 + (if top then 0 else top_height sz)) else Err.
(* 93-98 *)
Definition row (lo i : nat) : nat := 2 * ((i - lo) / 2) + lo.
(* 111-116 *)
Definition setting_of (lo i : nat) (top : bool) : bool := xorb (i =? row lo i) top.
(* 128-133 *)
Definition decision_of (lo i : nat) (s : bool) : bool := xorb (row lo i =? i) s.
(* 139-144, 150-154 *)
Definition other (lo i : nat) : nat := (1 - (i - row lo i)) + row lo i.

(* vectors addressed from lo: IntegerPermutation::operator[] (waksman_net.h:78-84), lhs_routed[i - lo] *)
Definition rd {A} (lo : nat) (l : list A) (i : nat) : res A := if i <? lo then Ub else read l (i - lo).
Definition wr {A} (lo : nat) (l : list A) (i : nat) (v : A) : res (list A) := if i <? lo then Ub else write l (i - lo) v.
(* waksman_net.h:52-58 *)
Definition iota (lo sz : nat) : list nat := seq lo sz.
(* waksman_net.h:94-106 slice(a, b) of a permutation of lo, lo + 1, ... *)
Definition slice (lo : nat) (p : list nat) (a b : nat) : res (list nat) :=
  if (lo <=? a) && (b <? lo + length p) && (a <=? b) then Ok (firstn (b + 1 - a) (skipn (a - lo) p)) else Err.
(* waksman_net.h:109-115 *)
Definition inverse (lo : nat) (p : list nat) : res (list nat) :=
  loop (fun i inv => rbind (read p i) (fun v => wr lo inv v (i + lo))) (seq 0 (length p)) (iota lo (length p)).

(* AsWaksmanRouting: one hash map per column *)
Definition routing := nat -> nat -> option bool.
Definition set_bit (r : routing) (c w : nat) (b : bool) : routing := fun c' w' => if (c' =? c) && (w' =? w) then Some b else r c' w'.
Definition erase (r : routing) (c w : nat) : routing := fun c' w' => if (c' =? c) && (w' =? w) then None else r c' w'.

(* ---- routing: 170-402 ---- *)
Record rstate := mkR { bits : routing; np : list nat; npi : list nat; routed : list bool; to_route : nat; max_unrouted : nat; route_left : bool }.
Section Route.
Variables (sz left right lo hi : nat) (perm perm_inv : list nat).
(* 221-271 *)
Definition route_init (r : routing) : res rstate :=
  let p0 := iota lo sz in
  let seen0 := repeat false sz in
  if sz mod 2 =? 1 then
    rbind (rd lo perm hi) (fun o =>
    rbind (wr lo seen0 hi true) (fun seen =>
    if o =? hi then
      rbind (wr lo p0 hi hi) (fun p => rbind (wr lo p0 hi hi) (fun q =>
      Ok (mkR r p q seen (hi - 1) (hi - 1) true)))
    else
      let w := row lo o in
      let r1 := set_bit r right w (setting_of lo o false) in
      rbind (switch_wire sz lo w false) (fun t' =>
      rbind (wr lo p0 hi t') (fun p => rbind (wr lo p0 t' hi) (fun q =>
      Ok (mkR r1 p q seen (other lo o) (hi - 1) false))))))
  else Ok (mkR (set_bit r left (hi - 1) false) p0 p0 seen0 hi hi true).
(* 279-327: a packet on the left *)
Definition forward (s : rstate) : res rstate :=
  let i := to_route s in
  let w := row lo i in
  let r1 := match bits s left w with None => set_bit (bits s) left w false | Some _ => bits s end in
  let b := match r1 left w with Some b => b | None => false end in
  let top := decision_of lo i b in
  rbind (switch_wire sz lo w top) (fun t =>
  rbind (rd lo perm i) (fun o =>
  if o =? hi then
    rbind (wr lo (np s) t hi) (fun p => rbind (wr lo (npi s) hi t) (fun q => rbind (wr lo (routed s) i true) (fun seen =>
    Ok (mkR r1 p q seen (max_unrouted s) (max_unrouted s) true))))
  else
    let w' := row lo o in
    let r2 := set_bit r1 right w' (setting_of lo o top) in
    rbind (switch_wire sz lo w' top) (fun t' =>
    rbind (wr lo (np s) t t') (fun p => rbind (wr lo (npi s) t' t) (fun q => rbind (wr lo (routed s) i true) (fun seen =>
    Ok (mkR r2 p q seen (other lo o) (max_unrouted s) false))))))).
(* 328-354: back from the right; operator[] of a hash map inserts false when the key is missing *)
Definition backward (s : rstate) : res rstate :=
  let o := to_route s in
  let w' := row lo o in
  rbind (rd lo perm_inv o) (fun i =>
  let w := row lo i in
  let r1 := match bits s right w' with None => set_bit (bits s) right w' false | Some _ => bits s end in
  let b := match r1 right w' with Some b => b | None => false end in
  let top := decision_of lo o b in
  let r2 := set_bit r1 left w (setting_of lo i top) in
  rbind (switch_wire sz lo w' top) (fun t =>
  rbind (switch_wire sz lo w top) (fun t' =>
  rbind (wr lo (np s) t' t) (fun p => rbind (wr lo (npi s) t t') (fun q => rbind (wr lo (routed s) i true) (fun seen =>
  Ok (mkR r2 p q seen (other lo i) (max_unrouted s) true))))))).
(* 363-365 *)
Fixpoint scan (seen : list bool) (fuel m : nat) : res nat :=
  match fuel with
  | O => Ub
  | S fuel => if m <=? lo then Ok m else rbind (rd lo seen m) (fun b => if b then scan seen fuel (m - 1) else Ok m)
  end.
(* 356-377: the next state, or the end of the loop *)
Definition next (s : rstate) : res (rstate + rstate) :=
  if negb (route_left s) then Ok (inl s)
  else
    rbind (rd lo (routed s) (to_route s)) (fun b =>
    if negb b then Ok (inl s)
    else
      rbind (scan (routed s) (S (length (routed s))) (max_unrouted s)) (fun m =>
      rbind (read (routed s) 0) (fun b0 =>
      let s' := mkR (bits s) (np s) (npi s) (routed s) m m true in
      if (m <? lo) || ((m =? lo) && b0) then Ok (inr s') else Ok (inl s')))).
(* 274-377; Ub when the bound is exceeded (it is not: C24_routing) *)
Fixpoint route_loop (fuel : nat) (s : rstate) : res rstate :=
  match fuel with
  | O => Ub
  | S fuel =>
      rbind (if route_left s then forward s else backward s) (fun s1 =>
      rbind (next s1) (fun x => match x with inl s2 => route_loop fuel s2 | inr s2 => Ok s2 end))
  end.
End Route.
(* 170-402, 'width' levels of recursion at most *)
Fixpoint route_inner (fuel left right lo hi : nat) (perm perm_inv : list nat) (r : routing) : res routing :=
  match fuel with
  | O => Ub
  | S fuel =>
      if right <? left then Ok r
      else
        let sz := hi - lo + 1 in
        let width := columns sz in
        let room := right - left + 1 in
        if room <? width then Err
        else if width <? room then (if right =? 0 then Ub else route_inner fuel (left + 1) (right - 1) lo hi perm perm_inv r)
        else if sz =? 2 then
          rbind (rd lo perm lo) (fun a => rbind (rd lo perm (lo + 1)) (fun b =>
          if ((a =? lo) || (a =? lo + 1)) && ((b =? lo) || (b =? lo + 1)) && negb (a =? b) then Ok (set_bit r left lo (negb (a =? lo))) else Err))
        else
          rbind (route_init sz left right lo hi perm r) (fun s0 =>
          rbind (route_loop sz left right lo hi perm perm_inv (2 * sz + 2) s0) (fun s =>
          let r1 := if sz mod 2 =? 0 then erase (bits s) left (hi - 1) else bits s in
          let d := top_height sz in
          rbind (slice lo (np s) lo (lo + d - 1)) (fun pu =>
          rbind (slice lo (np s) (lo + d) hi) (fun pl =>
          rbind (slice lo (npi s) lo (lo + d - 1)) (fun qu =>
          rbind (slice lo (npi s) (lo + d) hi) (fun ql =>
          rbind (route_inner fuel (left + 1) (right - 1) lo (lo + d - 1) pu qu r1) (fun r2 =>
          route_inner fuel (left + 1) (right - 1) (lo + d) hi pl ql r2)))))))
  end.
(* 542-560; of fewer than two packets the last column, width - 1, wraps around and the routing is read outside its columns *)
Definition get_routing (perm : list nat) : res routing :=
  let n := length perm in
  if n <? 2 then Ub
  else rbind (inverse 0 perm) (fun inv => route_inner (S (columns n)) 0 (columns n - 1) 0 (n - 1) perm inv (fun _ _ => None)).

(* ---- topology: 417-518 ---- *)
(* AsWaksmanTopology: the straight and the crossed destination; None is -1 *)
Definition topology := nat -> nat -> option nat * option nat.
Definition set_pair (g : topology) (c i : nat) (a b : option nat) : topology := fun c' i' => if (c' =? c) && (i' =? i) then (a, b) else g c' i'.
(* 435-440, for the packets in turn *)
Definition wire_straight (left right lo : nat) (dests : list (option nat)) (i : nat) (g : topology) : res topology :=
  rbind (rd lo dests i) (fun d => Ok (set_pair (set_pair g left i (Some i) (Some i)) right i d d)).
(* 469-485: the switch at row i *)
Definition wire_switch (sz left right lo : nat) (dests : list (option nat)) (i : nat) (s : topology * list (option nat)) : res (topology * list (option nat)) :=
  let '(g, nd) := s in
  rbind (switch_wire sz lo i true) (fun a => rbind (switch_wire sz lo i false) (fun b =>
  let g1 := set_pair (set_pair g left i (Some a) (Some b)) left (i + 1) (Some b) (Some a) in
  rbind (wr lo nd a (Some i)) (fun nd1 => rbind (wr lo nd1 b (Some (i + 1))) (fun nd2 =>
  rbind (rd lo dests i) (fun d => rbind (rd lo dests (i + 1)) (fun e =>
  Ok (set_pair (set_pair g1 right i d e) right (i + 1) e d, nd2))))))).
(* 487-508 *)
Definition wire_last (sz left right lo hi : nat) (dests : list (option nat)) (s : topology * list (option nat)) : res (topology * list (option nat)) :=
  let '(g, nd) := s in
  if sz mod 2 =? 1 then
    rbind (rd lo dests hi) (fun d => rbind (wr lo nd hi (Some hi)) (fun nd' =>
    Ok (set_pair (set_pair g left hi (Some hi) (Some hi)) right hi d d, nd')))
  else
    let '(a, _) := g left (hi - 1) in let g1 := set_pair g left (hi - 1) a a in
    let '(b, _) := g1 left hi in Ok (set_pair g1 left hi b b, nd).
Fixpoint construct_inner (fuel left right lo hi : nat) (dests : list (option nat)) (g : topology) : res topology :=
  match fuel with
  | O => Ub
  | S fuel =>
      if right <? left then Ok g
      else
        let sz := hi - lo + 1 in
        if negb (length dests =? sz) then Err
        else
          let width := columns sz in
          let room := right - left + 1 in
          if room <? width then Err
          else if width <? room then
            rbind (loop (wire_straight left right lo dests) (seq lo sz) g) (fun g1 =>
            if right =? 0 then Ub else construct_inner fuel (left + 1) (right - 1) lo hi (map Some (seq lo sz)) g1)
          else if sz =? 2 then
            rbind (rd lo dests lo) (fun a => rbind (rd lo dests (lo + 1)) (fun b =>
            Ok (set_pair (set_pair g left lo a b) left hi b a)))
          else
            rbind (loop (wire_switch sz left right lo dests) (map (fun j => lo + 2 * j) (seq 0 (top_height sz))) (g, repeat None sz)) (fun s1 =>
            rbind (wire_last sz left right lo hi dests s1) (fun '(g2, nd) =>
            let d := top_height sz in
            rbind (construct_inner fuel (left + 1) (right - 1) lo (lo + d - 1) (firstn d nd) g2) (fun g3 =>
            construct_inner fuel (left + 1) (right - 1) (lo + d) hi (skipn d nd) g3)))
  end.
(* 522-540 *)
Definition get_topology (n : nat) : res topology :=
  if n <? 2 then Err else construct_inner (S (columns n)) 0 (columns n - 1) 0 (n - 1) (map Some (seq 0 n)) (fun _ _ => (None, None)).

(* ---- evaluation on shares: cheetah/permute.cc:71-153 SecureInvPerm ---- *)
Record plan := mkPlan { lhs : list nat; rhs : list nat; tops : list (option nat); bots : list (option nat); flags : list bool;
                        straight : list nat; ahead : list (option nat); append_lhs : bool }.
Definition same_dest (a b : option nat) : bool := match a, b with Some a, Some b => a =? b | None, None => true | _, _ => false end.
(* 93-128: the walk over the packets of a column; dereferencing the end iterator is undefined *)
Definition visit (g : topology) (r : routing) (c i : nat) (p : plan) : res plan :=
  let '(a, b) := g c i in
  if same_dest a b then Ok (mkPlan (lhs p) (rhs p) (tops p) (bots p) (flags p) (straight p ++ [i]) (ahead p ++ [a]) (append_lhs p))
  else if append_lhs p then
    match r c i with
    | Some f => Ok (mkPlan (lhs p ++ [i]) (rhs p) (tops p ++ [a]) (bots p ++ [b]) (flags p ++ [f]) (straight p) (ahead p) false)
    | None => Ub
    end
  else Ok (mkPlan (lhs p) (rhs p ++ [i]) (tops p) (bots p) (flags p) (straight p) (ahead p) true).
Definition plan_of (g : topology) (r : routing) (n c : nat) : res plan := loop (visit g r c) (seq 0 n) (mkPlan [] [] [] [] [] [] [] true).
(* NdArrayRef::linear_scatter *)
Fixpoint scatter (y : list Z) (idx : list (option nat)) (vs : list Z) : res (list Z) :=
  match idx, vs with
  | Some d :: idx, v :: vs => rbind (write y d v) (fun y => scatter y idx vs)
  | None :: _, _ :: _ => Ub
  | [], _ => Ok y
  | _, [] => Ok y
  end.
Section Cheetah.
Variable k : Z.
Variable n : nat.   (* parties *)
(* mul_aa: multiplication number t, element j, on the shares of all parties *)
Variable mul : nat -> nat -> (nat -> Z) -> (nat -> Z) -> nat -> Z.
(* 49-69 get_ashr_flag *)
Definition flag_share (rank : nat) (f : bool) (q : nat) : Z := if q =? rank then (if f then 1%Z else 0%Z) else 0%Z.
(* 39-47, 130-149 at party q: the elements for the upper and the lower destinations *)
Definition upper (t rank : nat) (p : plan) (X : nat -> list Z) (q j : nat) : Z :=
  let l q := nth (nth j (lhs p) 0) (X q) 0%Z in
  let r q := nth (nth j (rhs p) 0) (X q) 0%Z in
  radd k (l q) (mul t j (fun q => rsub k (r q) (l q)) (flag_share rank (nth j (flags p) false)) q).
Definition lower (t rank : nat) (p : plan) (X : nat -> list Z) (q j : nat) : Z :=
  let l := nth (nth j (lhs p) 0) (X q) 0%Z in
  let r := nth (nth j (rhs p) 0) (X q) 0%Z in
  rsub k (radd k l r) (upper t rank p X q j).
Definition layer (t rank : nat) (p : plan) (X : nat -> list Z) : res (nat -> list Z) :=
  all_ranks n (fun q =>
    if negb (length (lhs p) =? length (rhs p)) then Err
    else
      let js := seq 0 (length (lhs p)) in
      rbind (scatter (X q) (tops p) (map (upper t rank p X q) js)) (fun y1 =>
      rbind (scatter y1 (bots p) (map (lower t rank p X q) js)) (fun y2 =>
      scatter y2 (ahead p) (map (fun i => nth i (X q) 0%Z) (straight p))))).
(* 71-153; the multiplications are numbered from t *)
Definition secure_inv_perm (t rank : nat) (pv : list nat) (X : nat -> list Z) : res (nat -> list Z) :=
  let m := length pv in
  if m =? 0 then Err
  else
    rbind (get_topology m) (fun g =>
    rbind (get_routing pv) (fun r =>
    loop (fun c X => rbind (plan_of g r m c) (fun p => layer (t + c) rank p X)) (seq 0 (columns m)) X)).
(* 175-187 PermAM: every party's permutation in turn *)
Definition perm_am (m : nat) (P : nat -> list nat) (X : nat -> list Z) : res (nat -> list Z) :=
  loop (fun i X => secure_inv_perm (i * columns m) i (P i) X) (seq 0 n) X.
(* 194-206 InvPermAM; genInversePerm is Perm_model.gen_inverse_perm *)
Definition inv_perm_am (ord : nat -> list nat) (junk : Z) (m : nat) (P : nat -> list nat) (X : nat -> list Z) : res (nat -> list Z) :=
  loop (fun i X => rbind (gen_inverse_perm ord junk (P i)) (fun inv => secure_inv_perm (i * columns m) i inv X)) (rev (seq 0 n)) X.
(* 213-219 InvPermAV *)
Definition inv_perm_av (owner : nat) (pv : list nat) (X : nat -> list Z) : res (nat -> list Z) := secure_inv_perm 0 owner pv X.
End Cheetah.
