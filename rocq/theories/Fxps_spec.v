(* What the correlated randomness of the semi2k truncations must satisfy. *)
From Verif Require Import Base Ring_spec Share_spec Semi_model Fxps_model.
Open Scope Z_scope.

(* the dealer's outputs for the two truncations are as C09 says *)
Record good_trunc (k : Z) (n : nat) (TT : trunc_tapes) : Prop := mkGoodT {
  gt_pr : forall t d, 1 <= d <= k - 2 -> exists r, shA k n (tt_r TT t d) r /\
    shA k n (tt_rc TT t d) ((r mod 2 ^ (k - 1)) / 2 ^ d) /\ shA k n (tt_rb TT t d) (r / 2 ^ (k - 1));
  gt_pr2 : forall t d w, trunc_field d = Ok w -> exists c,
    is_mod w (tt_va TT t d 0%nat * tt_va TT t d 1%nat) c /\ is_mod w (tt_vc TT t d 0%nat + tt_vc TT t d 1%nat) c }.
