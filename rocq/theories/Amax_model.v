(* ArgMax over windows.
   libspu/kernel/hlo/reduce.cc:108-204, 376-526
   Arrays as in Redn_model.  lt is hal::less on one pair of elements; select and the product of bits are their values on elements. *)
From Verif Require Import Base Ring_model Perm_model Scan_model Mm_model Redn_model Sas_model.
Open Scope nat_scope.

Section Amax.
Context {A : Type}.
Variable lt : A -> A -> bool.

(* a binary operation on arrays: refused when the shapes differ *)
Definition zip_arr {X Y C} (g : X -> Y -> C) (x : arr X) (y : arr Y) : res (arr C) :=
  if same_shape (fst x) (fst y) then Ok (fst x, fun p => g (snd x p) (snd y p)) else Err.
(* reshape to shape ++ [1], broadcast to shape ++ [2] *)
Definition doubled {X} (x : arr X) : arr X := (fst x ++ [2], fun p => snd x (p / 2)).
(* concatenation of two arrays of shape s ++ [1] along the last axis, given without that axis *)
Definition paired {X} (x y : arr X) : arr X := (fst x ++ [2], fun p => if p mod 2 =? 0 then snd x (p / 2) else snd y (p / 2)).
(* concatenation of two arrays of shape s ++ [2] along the last axis *)
Definition joined {X} (s : list nat) (x y : arr X) : arr X :=
  (s ++ [4], fun p => if p mod 4 <? 2 then snd x (p / 4 * 2 + p mod 4) else snd y (p / 4 * 2 + (p mod 4 - 2))).

(* reduce.cc:376-479 ArgMax1x2x2x1NoPaddingWithoutDilation.
   Simplified: a slice that would end before an empty axis ends at zero; a list of strides without four entries is reported as undefined *)
Definition argmax_fast (v : arr A) (S : list nat) : res (arr A * arr bool) :=
  match fst v, S with
  | [d0; d1; d2; d3], [_; s1; s2; _] =>
      rbind (sliced v [0; 0; 0; 0] [d0; d1; d2 - 1; d3] [1; 1; s2; 1]) (fun lhs =>
      rbind (sliced v [0; 0; 1; 0] [d0; d1; d2; d3] [1; 1; s2; 1]) (fun rhs =>
      rbind (zip_arr lt rhs lhs) (fun h_comp =>
      rbind (zip_arr (fun l r => if lt r l then l else r) lhs rhs) (fun h_max =>
      let h_idx := paired h_comp (fst h_comp, fun p => negb (snd h_comp p)) in
      match fst h_max with
      | [e0; e1; e2; e3] =>
          rbind (sliced h_max [0; 0; 0; 0] [e0; e1 - 1; e2; e3] [1; s1; 1; 1]) (fun upper =>
          rbind (sliced h_max [0; 1; 0; 0] [e0; e1; e2; e3] [1; s1; 1; 1]) (fun bottom =>
          rbind (zip_arr lt bottom upper) (fun v_comp =>
          rbind (zip_arr (fun u b => if lt b u then u else b) upper bottom) (fun max_ret =>
          rbind (sliced h_idx [0; 0; 0; 0; 0] [e0; e1 - 1; e2; e3; 2] [1; s1; 1; 1; 1]) (fun us =>
          rbind (sliced h_idx [0; 1; 0; 0; 0] [e0; e1; e2; e3; 2] [1; s1; 1; 1; 1]) (fun bs =>
          rbind (zip_arr andb (doubled v_comp) us) (fun us =>
          rbind (zip_arr andb (doubled (fst v_comp, fun p => negb (snd v_comp p))) bs) (fun bs =>
          Ok (max_ret, joined (fst v_comp) us bs)))))))))
      | _ => Ub
      end))))
  | _, _ => Ub
  end.

(* reduce.cc:505-523: the reducer on a value and its row of the mask *)
Definition arg_pair (a b : A * list bool) : A * list bool := if lt (fst b) (fst a) then a else b.
(* xt::eye *)
Definition eye_row (n w : nat) : list bool := map (Nat.eqb w) (seq 0 n).
Definition arg_row (n : nat) (t : nat -> A) (r : nat) : res (A * list bool) :=
  rbind (tree_reduce arg_pair (map (fun w => (t (r * n + w), eye_row n w)) (seq 0 n))) (fun out => match out with [x] => Ok x | _ => Err end).
(* reduce.cc:108-187 with a window mask and without initial values; c is read nowhere.  The value given for padding is empty and has
   no type in common with the operand (hal/shape_ops.cc:80-95): padding is refused *)
Definition argmax_windows (c : A) (v : arr A) (W S : list nat) (pads : list (nat * nat)) (ret : list nat) : res (arr A * arr bool) :=
  let ws := int_product W in
  if negb (length (fst v) =? length pads) then Err else
  if existsb (fun '(l, h) => negb (l =? 0) || negb (h =? 0)) pads then Err else
  rbind (expand_padded v W S pads c) (fun e =>
  if (ws <? 0)%Z then Err else
  let n := Z.to_nat ws in
  if negb (n * n =? total_size W * n) then Err else               (* reshape of the mask *)
  rbind (reshaped e (ret ++ [n])) (fun t =>
  rbind (rmap (arg_row n (snd t)) (seq 0 (total_size ret))) (fun l =>
  Ok (from_list c ret (map fst l), (ret ++ [n], fun p => nth (p mod n) (snd (nth (p / n) l (c, []))) false))))).
(* reduce.cc:481-526 ArgMax with reduce.cc:189-204: dilations with a mask are refused *)
Definition argmax (c : A) (v : arr A) (W S D E : list nat) (pads : list (nat * nat)) (ret : list nat) : res (arr A * arr bool) :=
  if same_shape W [1; 2; 2; 1] && negb (existsb (fun '(l, h) => negb (l =? 0) || negb (h =? 0)) pads) then argmax_fast v S else
  if forallb (Nat.eqb 1) D && forallb (Nat.eqb 1) E then argmax_windows c v W S pads ret else Err.
End Amax.
