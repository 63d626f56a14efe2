(* C42: dynamic slice and dynamic update slice read and write exactly the window at the clamped start.
   Elements and starts of any visibility; semi2k protocol, any number of parties. *)
From Verif Require Import Base Ring_model Ring_spec Ring_proof Share_spec Party Semi_model Semi_proof Circ_model Conv_model Conv_spec Conv_props.
From Verif Require Import Disp_model Disp_spec Disp_proof Dispd_proof Disps_model Disps_spec Disps_proof Disp_props Hlo_model Hlo_spec Hlo_proof Hloc_proof Hlo_props Hloc_props.
From Verif Require Import Dyn_model Dyn_spec Dynw_proof Dyn_proof Dynu_proof.
Open Scope Z_scope.
#[local] Existing Instance strict.

Section C42.
Variable w n : nat.
Hypothesis W : (5 <= w <= 7)%nat.   (* FM32, FM64, FM128 *)
Hypothesis N : (0 < n)%nat.
Notation k := (2 ^ Z.of_nat w).
Variable T : tapes.
Hypothesis G : good_tapes k n T.
Variable others : nat -> Z.          (* bit widths of the other elements of public arrays *)
Hypothesis OT : forall t, 0 <= others t <= k.
Notation pr := (semi_proto k n T).
Notation encodes := (encodes k n T).
Notation results_list := (results_list k n T).
Let K1 : 1 < k. Proof. destruct (kpos w (proj1 W) (proj2 W)). lia. Qed.
Let OKP := semi_ok w (proj1 W) (proj2 W) n N T G.
Let WA := sA_word w n.
Lemma list_intro m vs : wp m (fun r => Forall2 encodes r vs) -> results_list m vs.
Proof.
  intros H t. destruct (wp_run _ _ H t) as (r & t' & E & F). exists r, t'. split; [exact E|split; [exact F|]]. intros rank R. clear - F R W N.
  induction F as [|x v xs vs X F IH]; [reflexivity|]. cbn [map]. rewrite IH. f_equal. now apply (reveal_enc w n W N T).
Qed.

(* all starts public, or those that are public not negative *)
Theorem C42_dynamic_slice sh sz st ws vs data xs : sh <> [] -> sized k sh sz ->
  Forall2 encodes st ws -> Forall2 (signed_value k) ws vs -> length vs = length sh ->
  (forallb (is_public pr) st = true \/ Forall2 (pub_ok pr) st vs) -> Forall2 encodes data xs -> length xs = numel sh ->
  exists out, is_window sh sz (clamps sh sz vs) xs out /\ results_list (dynamic_slice k pr others sh sz st data) out.
Proof.
  intros NE SZ ST SV L PO HD LX. exists (win sh sz (clamps sh sz vs) xs). split.
  - apply win_window; [|exact LX]. exact (clamps_fit k sh sz vs SZ L).
  - apply list_intro. eapply (dynamic_slice_ok k K1 n pr _ _ OKP WA others OT); eassumption.
Qed.
(* first start secret, or none private *)
Theorem C42_dynamic_update_slice sh sz st ws vs data xs upd us rank : (rank < n)%nat -> sh <> [] -> sized k sh sz ->
  Forall2 encodes st ws -> Forall2 (signed_value k) ws vs -> length vs = length sh ->
  (match st with x :: _ => secret_start pr x | [] => False end \/ Forall (not_private pr) st) ->
  Forall2 encodes data xs -> length xs = numel sh -> Z.of_nat (numel sh) <= 2 ^ k -> Forall2 encodes upd us -> length us = numel sz ->
  exists out, is_update sh sz (clamps sh sz vs) xs us out /\ results_list (dynamic_update_slice k pr others (reveal k n T rank) sh sz st data upd) out.
Proof.
  intros RK NE SZ ST SV L PO HD LX B HU LU. exists (putw xs (combine us (spots sh (clamps sh sz vs) sz))). split.
  - apply putw_update; [|exact LX|exact LU]. exact (clamps_fit k sh sz vs SZ L).
  - apply list_intro. eapply (dynamic_update_slice_ok k K1 n pr _ _ OKP WA others OT); try eassumption. intros x a X. exact (reveal_enc w n W N T x a rank X RK).
Qed.
(* the clamped window lies inside the operand, so both statements speak about elements that exist *)
Theorem C42_inside sh sz vs : sized k sh sz -> length vs = length sh -> forall idx, inside sz idx -> inside sh (shift (clamps sh sz vs) idx).
Proof. intros SZ L. apply inside_shift. exact (clamps_fit k sh sz vs SZ L). Qed.
End C42.
Print Assumptions C42_dynamic_slice.
Print Assumptions C42_dynamic_update_slice.
Print Assumptions C42_inside.

(* three parties, FM32; a 3x4 array, windows of 2x2 *)
Definition ex_grid : list (val ex_pr) := map (fun i => @VP ex_pr (Z.of_nat i * 10)) (seq 0 12).
Definition ex_sl (m : M (list (val ex_pr))) : option (list Z) := match m 0%nat with Ok (r, _) => Some (map (reveal 32 3 ex_tapes 2) r) | _ => None end.
Definition ex_slice (st : list (val ex_pr)) : option (list Z) := ex_sl (dynamic_slice 32 ex_pr ex_o [3; 4]%nat [2; 2]%nat st ex_grid).
Definition ex_put (st : list (val ex_pr)) : option (list Z) :=
  ex_sl (dynamic_update_slice 32 ex_pr ex_o (reveal 32 3 ex_tapes 2) [3; 4]%nat [2; 2]%nat st ex_grid (map (fun i => VP i) [1; 2; 3; 4])).
Example C42_ex :
  ex_slice [VP 1; VP 1] = Some [50; 60; 90; 100] /\
  ex_slice [VP 13; VP (2 ^ 32 - 5)] = Some [40; 50; 80; 90] /\
  ex_slice [ex_prv 0; ex_prv 2] = Some [20; 30; 60; 70] /\
  ex_slice [ex_prv 13; ex_prv (2 ^ 32 - 5)] = Some [40; 50; 80; 90] /\
  ex_put [VP 13; VP (2 ^ 32 - 5)] = Some [0; 10; 20; 30; 1; 2; 60; 70; 3; 4; 100; 110].
Proof. vm_compute. repeat split; reflexivity. Qed.
(* secret starts 13 and -5 are clamped to 1 and 0 *)
Definition ex_sec : list (val ex_pr) := [@VA ex_pr ex_X; @VA ex_pr ex_neg].
Lemma ex_sec_enc : Forall2 (encodes 32 3 ex_tapes) ex_sec [13; 2 ^ 32 - 5] /\ Forall2 (signed_value 32) [13; 2 ^ 32 - 5] [13; -5].
Proof. split; repeat constructor; try apply ex_enc13; try apply ex_enc_neg; try lia; [exists 0|exists (-1)]; lia. Qed.
Lemma ex_grid_enc : Forall2 (encodes 32 3 ex_tapes) ex_grid (map (fun i => Z.of_nat i * 10) (seq 0 12)).
Proof. repeat constructor; cbn; lia. Qed.
Lemma ex_sized : sized 32 [3; 4]%nat [2; 2]%nat.
Proof. repeat constructor; lia. Qed.
Example C42_ex_secret :
  results_list 32 3 ex_tapes (dynamic_slice 32 ex_pr ex_o [3; 4]%nat [2; 2]%nat ex_sec ex_grid) [40; 50; 80; 90] /\
  exists out, is_update [3; 4]%nat [2; 2]%nat [1; 0]%nat (map (fun i => Z.of_nat i * 10) (seq 0 12)) [1; 2; 3; 4] out /\
    results_list 32 3 ex_tapes (dynamic_update_slice 32 ex_pr ex_o (reveal 32 3 ex_tapes 2) [3; 4]%nat [2; 2]%nat ex_sec ex_grid (map (fun i => VP i) [1; 2; 3; 4])) out.
Proof.
  destruct ex_sec_enc as [E1 E2]. assert (PO : Forall2 (pub_ok ex_pr) ex_sec [13; -5]) by (constructor; [exact I|constructor; [exact I|constructor]]). split.
  - destruct (C42_dynamic_slice 5 3 ltac:(lia) ltac:(lia) ex_tapes ex_tapes_good ex_o ex_o_ok [3; 4]%nat [2; 2]%nat ex_sec _ [13; -5] ex_grid _ ltac:(discriminate) ex_sized E1 E2 eq_refl (or_intror PO) ex_grid_enc eq_refl) as (out & WI & R).
    replace [40; 50; 80; 90] with out; [exact R|].
    rewrite (window_unique _ _ _ _ _ _ WI (win_window [3; 4]%nat [2; 2]%nat (clamps [3; 4]%nat [2; 2]%nat [13; -5]) (map (fun i => Z.of_nat i * 10) (seq 0 12)) (clamps_fit 32 _ _ [13; -5] ex_sized eq_refl) eq_refl)).
    vm_compute. reflexivity.
  - refine (C42_dynamic_update_slice 5 3 ltac:(lia) ltac:(lia) ex_tapes ex_tapes_good ex_o ex_o_ok [3; 4]%nat [2; 2]%nat ex_sec _ [13; -5] ex_grid _ _ _ 2 ltac:(lia) ltac:(discriminate) ex_sized E1 E2 eq_refl _ ex_grid_enc eq_refl _ _ _).
    + left. exact I.
    + cbn. lia.
    + repeat constructor; cbn; lia.
    + reflexivity.
Qed.

Definition ex_ubl (m : M (list (val ex_pr))) : bool := match m 0%nat with Ub => true | _ => false end.
(* a public start below zero next to a secret one is not raised to zero: elements before the array are read ... *)
Theorem C42_mixed_negative_refuted : exists (st data : list (val ex_pr)) ws vs, sized 32 [3; 4]%nat [2; 2]%nat /\
  Forall2 (encodes 32 3 ex_tapes) st ws /\ Forall2 (signed_value 32) ws vs /\
  dynamic_slice 32 ex_pr ex_o [3; 4]%nat [2; 2]%nat st data 0%nat = Ub.
Proof.
  exists [VP (2 ^ 32 - 5); @VA ex_pr ex_X], ex_grid, [2 ^ 32 - 5; 13], [-5; 13]. split; [exact ex_sized|].
  split; [|split].
  - constructor; [split; [split; lia|reflexivity]|]. constructor; [exact ex_enc13|constructor].
  - repeat constructor; try lia; [exists (-1)|exists 0]; lia.
  - assert (B : ex_ubl (dynamic_slice 32 ex_pr ex_o [3; 4]%nat [2; 2]%nat [VP (2 ^ 32 - 5); @VA ex_pr ex_X] ex_grid) = true) by (vm_compute; reflexivity). unfold ex_ubl in B.
    destruct (dynamic_slice 32 ex_pr ex_o [3; 4]%nat [2; 2]%nat [VP (2 ^ 32 - 5); @VA ex_pr ex_X] ex_grid 0%nat); congruence.
Qed.
(* ... or the window of another index *)
Theorem C42_mixed_window_refuted : exists (st data : list (val ex_pr)) ws vs, sized 32 [2; 2; 2]%nat [1; 1; 1]%nat /\
  Forall2 (encodes 32 3 ex_tapes) st ws /\ Forall2 (signed_value 32) ws vs /\ clamps [2; 2; 2]%nat [1; 1; 1]%nat vs = [1; 0; 0]%nat /\
  ex_sl (slice_box [2; 2; 2]%nat [1; 0; 0] [1; 1; 1]%nat data) = Some [40] /\
  ex_sl (dynamic_slice 32 ex_pr ex_o [2; 2; 2]%nat [1; 1; 1]%nat st data) = Some [20].
Proof.
  exists [VP 1; VP (2 ^ 32 - 1); ex_prv 0], (map (fun i => @VP ex_pr (Z.of_nat i * 10)) (seq 0 8)), [1; 2 ^ 32 - 1; 0], [1; -1; 0].
  split; [repeat constructor; lia|]. split; [|split; [|vm_compute; repeat split; reflexivity]].
  - repeat constructor; cbn; lia.
  - repeat constructor; try lia; [exists 0|exists (-1)|exists 0]; lia.
Qed.
(* a private first start is refused by the update *)
Theorem C42_private_update_refuted : exists (st data upd : list (val ex_pr)) ws, Forall2 (encodes 32 3 ex_tapes) st ws /\ Forall2 (signed_value 32) ws ws /\
  dynamic_update_slice 32 ex_pr ex_o (reveal 32 3 ex_tapes 2) [3; 4]%nat [2; 2]%nat st data upd 0%nat = Err.
Proof.
  exists [ex_prv 0; VP 1], ex_grid, (map (fun i => VP i) [1; 2; 3; 4]), [0; 1].
  split; [|split; [|reflexivity]].
  - repeat constructor; cbn; lia.
  - repeat constructor; try lia; exists 0; lia.
Qed.
Print Assumptions C42_mixed_negative_refuted.
Print Assumptions C42_mixed_window_refuted.
Print Assumptions C42_private_update_refuted.
