(* C32: tiled matrix products and contractions. *)
From Verif Require Import Base Ring_model Ring_spec Ring_proof Share_spec Party Semi_model Semi_proof Conv_spec Disp_model Disp_proof Dyn_spec Dynw_proof Mm_model Mm_spec Mm_proof Mmm_proof Mmt_proof.
Open Scope Z_scope.

Section C32.
Variable w : nat.
Variable n : nat.
Hypothesis W : (5 <= w)%nat /\ (w <= 7)%nat.
Hypothesis N0 : (0 < n)%nat.
Notation k := (2 ^ Z.of_nat w).
Variable T : mtapes.
Hypothesis G : good_mtapes k n T.
(* memory layout of the tiles, content of the new buffer, whether splitting is on, and the three floating-point outcomes of the tile size computation *)
Variables (compact : nat -> nat -> bool) (junk : Z) (split small : bool) (ks ms : Z).

(* operands of any visibility: the result is the product modulo 2^k, however it is tiled *)
Theorem C32_mmul shx shy m K c ex ey a b : left_operand shx m K -> right_operand shy K c -> stands k n (numel shx) ex a -> stands k n (numel shy) ey b ->
  exists z, is_product k m K c a b z /\ yields k n (mmul k n T compact junk split small ks ms (shx, ex) (shy, ey)) [m; c] z.
Proof.
  intros LO RO X Y. exists (prodm k K c a b). split.
  - intros i j I J. unfold prodm. rewrite pos_div, pos_mod by exact J. apply wrap_is_mod. pose proof (k0 w (proj1 W) (proj2 W)). lia.
  - intros t. destruct (wp_run _ _ (mmul_ok w (proj1 W) (proj2 W) n N0 T G compact junk split small ks ms _ _ m K c ex ey a b LO RO X Y) t) as ([sh e] & t' & E & H & S0).
    cbn [fst snd] in *. subst sh. exists e, t'. split; [exact E|]. now rewrite numel2.
Qed.
(* nothing else is multiplied *)
Theorem C32_shapes shx shy ex ey t r : mmul k n T compact junk split small ks ms (shx, ex) (shy, ey) t = Ok r ->
  exists m K c, left_operand shx m K /\ right_operand shy K c.
Proof.
  unfold mmul. cbn [fst]. destruct (deduce shx shy) as [[[m c] K]|] eqn:D; [|discriminate]. intros _. exists m, K, c.
  destruct shx as [|u [|u' [|]]], shy as [|v [|v' [|]]]; try discriminate; cbn in D; match type of D with context [(?p =? ?q)%nat] => destruct (Nat.eqb_spec p q) as [<-|] end; try discriminate;
    injection D as <- <- <-; split; constructor.
Qed.
Theorem C32_tensordot shx shy ix iy ex ey a b : axes_ok ix (length shx) -> axes_ok iy (length shy) -> dims shx ix = dims shy iy ->
  let fx := dims shx (free_axes ix (length shx)) in let fy := dims shy (free_axes iy (length shy)) in
  Z.of_nat (numel fx) < 2 ^ 31 -> Z.of_nat (numel (dims shx ix)) < 2 ^ 31 -> Z.of_nat (numel fy) < 2 ^ 31 ->
  stands k n (numel shx) ex a -> stands k n (numel shy) ey b ->
  exists z, is_contraction k shx shy ix iy a b z /\ yields k n (tensordot k n T compact junk split small ks ms (shx, ex) (shy, ey) ix iy) (fx ++ fy) z.
Proof.
  intros AX AY MA fx fy SM SK SC X Y. eexists. split; [exact (contraction w (proj1 W) (proj2 W) n N0 compact shx shy ix iy AX AY MA a b)|]. intros t.
  destruct (wp_run _ _ (tensordot_ok w (proj1 W) (proj2 W) n N0 T G compact junk shx shy ix iy AX AY MA SM SK SC split small ks ms ex ey a b X Y) t) as ([sh e] & t' & E & H & S0).
  cbn [fst snd] in *. subst sh. exists e, t'. split; [exact E|exact S0].
Qed.
End C32.
(* coordinates along the contracted and the other axes determine one index, which lies inside the array *)
Theorem C32_coords sh ix c i : axes_ok ix (length sh) -> inside (dims sh ix) c -> inside (dims sh (free_axes ix (length sh))) i ->
  exists idx, has_coords ix (length sh) c i idx /\ inside sh idx /\ forall idx', has_coords ix (length sh) c i idx' -> idx' = idx.
Proof.
  intros AX IC II. pose proof (inside_len _ _ IC) as LC. pose proof (inside_len _ _ II) as LI. rewrite dims_len in LC, LI.
  exists (source_index (ix ++ free_axes ix (length sh)) (c ++ i)). pose proof (coords_y ix sh AX c i LC LI) as H. split; [exact H|].
  split; [exact (coords_inside ix sh AX c i _ IC II H)|]. intros idx' H'. exact (coords_unique ix sh AX c i _ _ H' H).
Qed.
Print Assumptions C32_mmul.
Print Assumptions C32_shapes.
Print Assumptions C32_tensordot.
Print Assumptions C32_coords.

(* ---- three parties, FM32 ---- *)
Definition mx_tapes : mtapes := mkMtapes
  (fun t p i => wrap 32 (Z.of_nat (t * 1000 + p * 77 + i * i)))
  (fun t p j i => match i with 0%nat => wrap 32 (Z.b2z (Nat.odd (t + p + j)) - 5) | 1%nat => 5 | _ => 0 end)
  (fun t d i r l => match i with 0%nat => 3 | 1%nat => 4 | _ => 0 end)
  (fun t d i l j => match i with 0%nat => 0 | 1%nat => 4294967295 | _ => 3 end)
  (fun t '(_, K, _) i r j => match i with 0%nat => wrap 32 (14 * Z.of_nat K - 1) | 1%nat => 1 | _ => 0 end).
Lemma mx_is_mod v q r : 0 <= r < 2 ^ 32 -> r = v + q * 2 ^ 32 -> is_mod 32 v r.
Proof. intros R E. split; [exact R|now exists q]. Qed.
Lemma mx_good : good_mtapes 32 3 mx_tapes.
Proof.
  assert (WW : forall v, word 32 (wrap 32 v)) by (intros; apply wrap_is_mod; lia).
  constructor.
  - intros. apply WW.
  - intros t p j J. exists (Nat.odd (t + p + j)). cbn [mt_bits mx_tapes]. split.
    + intros i I. destruct i as [|[|[|]]]; [apply WW|split; lia|split; lia|lia].
    + cbn [total]. destruct (Nat.odd _); apply (mx_is_mod _ (-1)); vm_compute; try split; congruence.
  - intros t m K c. exists (fun _ _ => 7), (fun _ _ => 2), (fun _ _ => wrap 32 (14 * Z.of_nat K)). cbn [mt_a mt_b mt_c mx_tapes]. split; [|split].
    + intros i l _ _. split; [intros [|[|[|]]] I; split; lia|]. apply (mx_is_mod _ 0); cbn; lia.
    + intros l j _ _. split; [intros [|[|[|]]] I; split; lia|]. apply (mx_is_mod _ (-1)); cbn; lia.
    + intros i j _ _. split.
      * split; [intros [|[|[|]]] I; try (split; lia); apply WW|]. split; [apply WW|]. cbn [total].
        destruct (wrap_is_mod 32 (14 * Z.of_nat K) ltac:(lia)) as [_ [q Q]]. destruct (wrap_is_mod 32 (14 * Z.of_nat K - 1) ltac:(lia)) as [_ [q' Q']]. exists (q - q'). lia.
      * replace (dot K (fun _ => 7) (fun _ => 2)) with (14 * Z.of_nat K); [apply wrap_is_mod; lia|]. clear. induction K as [|K IH]; cbn [dot]; lia.
Qed.
(* what every party sees of a result *)
Definition mx_show (len : nat) (m : M value) : option (list nat * list Z) :=
  match m 0%nat with
  | Ok ((sh, e), _) => Some (sh, map (fun p => match e with EP f => f p | EV o f => f p o | EA f => wrap 32 (total 3 (f p)) | EB _ f => xtotal 3 (f p) end) (seq 0 len))
  | _ => None
  end.
Definition mx_x : nat -> Z := fun p => wrap 32 (Z.of_nat p * 1000000007 + 5).
Definition mx_y : nat -> Z := fun p => wrap 32 (4294967290 + Z.of_nat (p * p)).
Definition mx_share (f : nat -> Z) : els := EA (fun p i => match i with 0%nat => wrap 32 (f p - 12345) | 1%nat => 12345 | _ => 0 end).
Definition mx_priv (f : nat -> Z) : els := EV 2 (fun p i => if (i =? 2)%nat then f p else 99).
Lemma mx_stands N f : (forall p, word 32 (f p)) -> stands 32 3 N (EP f) f /\ stands 32 3 N (mx_priv f) f /\ stands 32 3 N (mx_share f) f.
Proof.
  intros F. split; [|split]; (split; [try exact I; cbn; lia|]); intros p _; (split; [apply F|]); [reflexivity|reflexivity|].
  split; [intros [|[|[|]]] I; [apply wrap_is_mod; lia|split; lia|split; lia|lia]|]. split; [apply F|]. cbn [total].
  destruct (wrap_is_mod 32 (f p - 12345) ltac:(lia)) as [_ [q Q]]. exists (- q). lia.
Qed.
Lemma mx_words p : word 32 (mx_x p) /\ word 32 (mx_y p).
Proof. split; apply wrap_is_mod; lia. Qed.
(* a 3x5 by 5x4 product, shared by private, untiled and in tiles of 1x1x2, 1x2x5 and others: the same matrix *)
Example C32_ex : let mm split ks ms x y := mx_show 12 (mmul 32 3 mx_tapes (fun r c => Nat.even (r + c)) 77 split false ks ms ([3; 5]%nat, x) ([5; 4]%nat, y)) in
  exists z, mm false 0 0 (EP mx_x) (EP mx_y) = Some ([3; 4]%nat, z) /\
    mm true 2 3 (EP mx_x) (EP mx_y) = Some ([3; 4]%nat, z) /\ mm true 5 4 (mx_priv mx_x) (EP mx_y) = Some ([3; 4]%nat, z) /\
    mm true 2 4 (EP mx_x) (mx_priv mx_y) = Some ([3; 4]%nat, z) /\ mm true 2 3 (mx_share mx_x) (EP mx_y) = Some ([3; 4]%nat, z) /\
    nth 3 z 0 = wrap 32 (dot 5 (fun l => mx_x l) (fun l => mx_y (l * 4 + 3))) /\ nth 3 z 0 <> 0.
Proof. eexists. split; [vm_compute; reflexivity|]. repeat (split; [vm_compute; reflexivity|]). vm_compute. discriminate. Qed.
Example C32_ex_secret : exists z, is_product 32 3 5 4 mx_x mx_y z /\
  yields 32 3 (mmul 32 3 mx_tapes (fun r c => Nat.even (r + c)) 77 true false 2 3 ([3; 5]%nat, mx_share mx_x) ([5; 4]%nat, mx_priv mx_y)) [3; 4]%nat z.
Proof.
  apply (C32_mmul 5 3 ltac:(lia) ltac:(lia) mx_tapes mx_good (fun r c => Nat.even (r + c)) 77 true false 2 3 [3; 5]%nat [5; 4]%nat 3 5 4); [constructor|constructor| |].
  - apply (mx_stands 15 mx_x). intros. apply mx_words.
  - apply (mx_stands 20 mx_y). intros. apply mx_words.
Qed.
(* contracting axes (2, 0) of a 2x3x4 array with axes (0, 1) of a 4x2x5 array *)
Example C32_ex_tensordot : let x := fun p => Z.of_nat p in let y := fun p => Z.of_nat (p * p) in
  axes_ok [2; 0]%nat 3 /\ axes_ok [0; 1]%nat 3 /\ dims [2; 3; 4]%nat [2; 0]%nat = dims [4; 2; 5]%nat [0; 1]%nat /\
  mx_show 15 (tensordot 32 3 mx_tapes (fun _ _ => true) 0 true false 3 5 ([2; 3; 4]%nat, EP x) ([4; 2; 5]%nat, EP y) [2; 0]%nat [0; 1]%nat)
  = Some ([3; 5]%nat, map (fun p => let r := (p / 5)%nat in let s := (p mod 5)%nat in
      sum_over [4; 2]%nat (fun c => match c with [u; v] => x (v * 12 + r * 4 + u)%nat * y (u * 10 + v * 5 + s)%nat | _ => 0 end)) (seq 0 15)).
Proof.
  split; [|split; [|split; [reflexivity|vm_compute; reflexivity]]]; (split; [repeat constructor; cbn; intuition lia|repeat constructor]).
Qed.

(* 2^31 rows: the row count is computed in 32 bits and the array refused *)
Theorem C32_tensordot_huge_refuted : exists shx shy ix iy, axes_ok ix (length shx) /\ axes_ok iy (length shy) /\ dims shx ix = dims shy iy /\ (0 < numel shx)%nat /\
  forall compact junk split small ks ms ex ey t, tensordot 32 3 mx_tapes compact junk split small ks ms (shx, ex) (shy, ey) ix iy t = Err.
Proof.
  exists [Z.to_nat (2 ^ 31); 1%nat], [1%nat], [1%nat], [0%nat].
  assert (A : axes_ok [1%nat] 2) by (split; [repeat constructor; cbn; intuition lia|repeat constructor]).
  assert (NE : numel [Z.to_nat (2 ^ 31); 1%nat] = Z.to_nat (2 ^ 31)) by (rewrite numel2; lia).
  split; [exact A|]. split; [split; [repeat constructor; cbn; intuition lia|repeat constructor]|]. split; [reflexivity|]. split; [rewrite NE; lia|].
  intros. apply tensordot_huge; [exact A|reflexivity|rewrite NE; lia|].
  change (dims [Z.to_nat (2 ^ 31); 1%nat] (free_axes [1%nat] (length [Z.to_nat (2 ^ 31); 1%nat]))) with [Z.to_nat (2 ^ 31)]. rewrite numel1. lia.
Qed.
Print Assumptions C32_tensordot_huge_refuted.
(* only the number of contracted elements is compared: axes of different sizes are contracted when the products agree *)
Theorem C32_tensordot_mismatch_refuted : exists shx shy ix iy ex ey, axes_ok ix (length shx) /\ axes_ok iy (length shy) /\ dims shx ix <> dims shy iy /\
  mx_show 1 (tensordot 32 3 mx_tapes (fun _ _ => true) 0 true true 1 1 (shx, ex) (shy, ey) ix iy) = Some ([], [55]).
Proof.
  exists [2; 3]%nat, [3; 2]%nat, [0; 1]%nat, [0; 1]%nat, (EP (fun p => Z.of_nat p)), (EP (fun p => Z.of_nat p)).
  assert (A : axes_ok [0; 1]%nat 2) by (split; [repeat constructor; cbn; intuition lia|repeat constructor]).
  split; [exact A|]. split; [exact A|]. split; [discriminate|]. vm_compute. reflexivity.
Qed.
Print Assumptions C32_tensordot_mismatch_refuted.
