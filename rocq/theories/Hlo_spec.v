(* Specification of rounding, and of lists of result arrays. *)
From Verif Require Import Base Ring_spec Share_spec Conv_spec Disp_model Disps_model Disps_spec Hlo_model.
Open Scope Z_scope.

(* a fixed-point number is an integer v that stands for v / 2^f; w is ... *)
(* ... the largest whole number not above v *)
Definition is_floor (f v w : Z) : Prop := (2 ^ f | w) /\ w <= v < w + 2 ^ f.
(* ... the smallest whole number not below v *)
Definition is_ceil (f v w : Z) : Prop := (2 ^ f | w) /\ w - 2 ^ f < v <= w.
(* ... a whole number nearest to v; of two, the one farther from zero *)
Definition is_round_away (f v w : Z) : Prop :=
  (2 ^ f | w) /\ 2 * Z.abs (v - w) <= 2 ^ f /\ (2 * Z.abs (v - w) = 2 ^ f -> Z.abs v < Z.abs w).
(* ... a whole number nearest to v; of two, the even one *)
Definition is_round_even (f v w : Z) : Prop :=
  (2 ^ f | w) /\ 2 * Z.abs (v - w) <= 2 ^ f /\ (2 * Z.abs (v - w) = 2 ^ f -> (2 ^ (f + 1) | w)).
(* the integer q is v / 2^f without its fraction *)
Definition is_trunc (f v q : Z) : Prop := Z.abs q * 2 ^ f <= Z.abs v < (Z.abs q + 1) * 2 ^ f /\ 0 <= q * v.

Section Arrays.
Variable k : Z.
Variable n : nat.
Variable T : tapes.
Notation pr := (semi_proto k n T).
(* an array of the given shape whose elements stand for the given words *)
Definition enc_arr (x : arr pr) (v : list Z * list Z) : Prop := a_sh x = fst v /\ Forall2 (encodes k n T) (a_el x) (snd v).
(* the computation succeeds with one array per item of vs; revealing the elements shows the words *)
Definition results_arrs (m : M (list (arr pr))) (vs : list (list Z * list Z)) : Prop :=
  forall t, exists r t', m t = Ok (r, t') /\ Forall2 enc_arr r vs /\
    forall rank, (rank < n)%nat -> map (fun x => map (reveal k n T rank) (a_el x)) r = map snd vs.
End Arrays.

(* shapes and sizes of a list of results *)
Definition sig (vs : list (list Z * list Z)) : list (list Z * nat) := map (fun v => (fst v, length (snd v))) vs.
(* plaintext control flow: the values of the branch chosen elementwise, the branch number of a case, and a loop *)
Definition pick (bits : list Z) (t f : list Z * list Z) : list Z * list Z :=
  (fst t, map (fun '(c, (x, y)) => if c =? 1 then x else y) (combine bits (combine (snd t) (snd f)))).
Definition branch_no (count v : Z) : Z := if (v <? 0) || (count <=? v) then count - 1 else v.
Inductive loops {S} (cv : S -> bool) (bv : S -> S) : S -> S -> Prop :=
| loop_stop s : cv s = false -> loops cv bv s s
| loop_step s s' : cv s = true -> loops cv bv (bv s) s' -> loops cv bv s s'.
