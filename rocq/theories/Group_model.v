(* Group-by aggregation of payloads by public or private keys.
   libspu/kernel/hal/group_by_agg.cc *)
From Verif Require Import Base Ring_model Perm_model Scan_model Radix_model Pv_model.
Open Scope nat_scope.

Section Group.
Variable ord : nat -> list nat.
Variable junk : Z.
Variable k : Z.
Variable has_av : bool.
Notation wordsof x := (kwords (pkey x)).

Definition same_vis (a b : vis) : bool := match a, b with Pub, Pub => true | Priv o, Priv o' => o =? o' | Sec, Sec => true | _, _ => false end.
(* permute.cc:1856-1863 apply_inv_permute_1d: MAP_PERM_OP (1259-1296) on a vector of inputs; one shuffle [sh] for all of them *)
Definition apply_inv_permute_1d (inputs : list pval) (perm : pval) (sh : list nat) : res (list pval) :=
  match inputs with
  | [] => Err
  | x0 :: _ => if forallb (fun x => same_vis (pvis x) (pvis x0)) inputs then rmap (fun x => apply_inv_perm1 ord junk k has_av x perm sh) inputs else Err
  end.
(* group_by_agg.cc:38-58 _group_mark *)
Definition group_mark (inputs : list pval) (end_group_mark : bool) : res pval :=
  match inputs with
  | [] => Ub                                                           (* inputs[0] *)
  | x0 :: _ =>
      let go := rbind (group_mark_p (map (fun x => wordsof x) inputs) end_group_mark) (fun w => Ok (mkV (pvis x0) (mkKey w (kbits (pkey x0)) false))) in
      match pvis x0 with
      | Sec => Err
      | v => if forallb (fun x => same_vis (pvis x) v) inputs then go else Err
      end
  end.
(* group_by_agg.cc:62-67 _circular_right_shift_1d *)
Definition right_shift (l : list Z) : res (list Z) := rbind (slice1 l 0 (length l - 1) 1) (fun t => Ok (0%Z :: t)).
(* the random permutations of one call *)
Record grnd := mkG { g_m1 : nat -> mrnd; g_r1 : rnds; g_m2 : nat -> mrnd; g_r2 : rnds; g_keys : list nat; g_out : list nat; g_pay : list nat; g_sum : nat -> list nat }.
(* group_by_agg.cc:84-93, 127-138: sorted keys, marks of the last row of each group, the permutation that moves them to the front *)
Definition group_order (keys : list pval) (G : grnd) : res (pval * list pval * pval * pval) :=
  rbind (gen_inv_perm ord junk k has_av keys true None (g_m1 G) (g_r1 G)) (fun private_perm =>
  rbind (apply_inv_permute_1d keys private_perm (g_keys G)) (fun sorted_keys =>
  rbind (group_mark sorted_keys true) (fun marks =>
  rbind (gen_inv_perm ord junk k has_av [marks] false None (g_m2 G) (g_r2 G)) (fun mark_perm => Ok (private_perm, sorted_keys, marks, mark_perm))))).
(* group_by_agg.cc:104-109, 142-149, 178-185: prefix sums, the ends of groups to the front, differences *)
Definition group_diff (x mark_perm : pval) (sh : list nat) : res pval :=
  rbind (associative_scan (S (length (wordsof x))) k (radd k) (wordsof x)) (fun w =>
  rbind (apply_inv_perm1 ord junk k has_av (like k x (pvis x) w) mark_perm sh) (fun y =>
  rbind (right_shift (wordsof y)) (fun sy =>
  rbind (vec2 (rsub k) (wordsof y) sy) (fun s => Ok (like k x (pvis y) s))))).
(* group_by_agg.cc:79-117 private_groupby_sum_1d *)
Definition groupby_sum (keys payloads : list pval) (G : grnd) : res (list pval) :=
  rbind (group_order keys G) (fun '(private_perm, sorted_keys, marks, mark_perm) =>
  rbind (apply_inv_permute_1d sorted_keys mark_perm (g_out G)) (fun out_keys =>
  rbind (apply_inv_permute_1d payloads private_perm (g_pay G)) (fun permuted =>
  rbind (rmap (fun '(i, x) => group_diff x mark_perm (g_sum G i)) (combine (seq 0 (length permuted)) permuted)) (fun sums => Ok (out_keys ++ sums))))).

(* group_by_agg.cc:170-207: [cut] drops the rows behind the groups, or nothing; [quotient i s c]: dtype casts of payload i and the product
   with the approximate reciprocal of the count (fxp_base.cc, not modelled here) on one element *)
Definition groupby_avg_tail (quotient : nat -> Z -> Z -> Z) (payloads out_keys : list pval) (private_perm mark_perm count : pval) (cut : list Z -> res (list Z)) (G : grnd) : res (list pval) :=
  rbind (cut (wordsof count)) (fun c =>
  rbind (rmap (fun x => rbind (cut (wordsof x)) (fun w => Ok (like k x (pvis x) w))) out_keys) (fun ks =>
  rbind (apply_inv_permute_1d payloads private_perm (g_pay G)) (fun permuted =>
  rbind (rmap (fun '(i, x) =>
    rbind (group_diff x mark_perm (g_sum G i)) (fun s => rbind (cut (wordsof s)) (fun w => rbind (vec2 (quotient i) w c) (fun a => Ok (like k x (pvis s) a)))))
    (combine (seq 0 (length permuted)) permuted)) (fun avgs => Ok (ks ++ avgs))))).
(* group_by_agg.cc:121-210 private_groupby_avg_1d; [one]: the encoding of 1.0; key_count is read as an int64 *)
Definition groupby_avg (one : Z) (quotient : nat -> Z -> Z -> Z) (keys payloads : list pval) (drop_rest : bool) (G : grnd) : res (list pval) :=
  rbind (group_order keys G) (fun '(private_perm, sorted_keys, marks, mark_perm) =>
  rbind (apply_inv_permute_1d sorted_keys mark_perm (g_out G)) (fun out_keys =>
  rbind (group_diff (mkV Pub (mkKey (repeat one (length (wordsof marks))) (Z.to_nat k) false)) mark_perm (g_sum G (length payloads))) (fun count =>
  let tail := fun cut => groupby_avg_tail quotient payloads out_keys private_perm mark_perm count cut G in
  if drop_rest then
    rbind (associative_reduce (radd k) (wordsof marks)) (fun r =>
    rbind (read r 0) (fun c =>
    let key_count := sgn k c in
    if (key_count >? 0)%Z then tail (fun l => if (length l <? Z.to_nat key_count) then Err else slice1 l 0 (Z.to_nat key_count) 1) else Err))
  else tail (fun l => Ok l)))).
End Group.
