(* C41: if/else, case and while on secret, private or public conditions return what plaintext control flow returns.
   Branches and loop bodies are arbitrary computations; semi2k protocol, any number of parties. *)
From Verif Require Import Base Ring_model Ring_spec Ring_proof Share_spec Party Semi_model Semi_proof Circ_model Conv_model Conv_spec Conv_props.
From Verif Require Import Disp_model Disp_spec Disp_proof Dispd_proof Disps_model Disps_spec Disps_proof Disp_props Hlo_model Hlo_spec Hlo_proof Hloc_proof Hlo_props.
Open Scope Z_scope.
#[local] Existing Instance strict.

Section C41.
Variable w n : nat.
Hypothesis W : (5 <= w <= 7)%nat.   (* FM32, FM64, FM128 *)
Hypothesis N : (0 < n)%nat.
Notation k := (2 ^ Z.of_nat w).
Variable T : tapes.
Hypothesis G : good_tapes k n T.
Variable others : nat -> Z.          (* bit widths of the other elements of public arrays *)
Hypothesis OT : forall t, 0 <= others t <= k.
Notation pr := (semi_proto k n T).
Notation encodes := (encodes k n T).
Notation enc_arr := (enc_arr k n T).
Notation results_arrs := (results_arrs k n T).
Let K1 : 1 < k. Proof. destruct (kpos w (proj1 W) (proj2 W)). lia. Qed.
Let OKP := semi_ok w (proj1 W) (proj2 W) n N T G.
Let RW := results_wp w (proj1 W) (proj2 W) n N T.
Let WA := sA_word w n.
Lemma reveal_enc x a rank : encodes x a -> (rank < n)%nat -> reveal k n T rank x = a.
Proof.
  intros X R. destruct (RW (ret x) a) with (t := O) as (r & t' & E & _ & RV); [apply wp_ret; exact X|]. injection E as <- <-. now apply RV.
Qed.
Lemma arrs_intro m vs : wp m (fun r => Forall2 enc_arr r vs) -> results_arrs m vs.
Proof.
  intros H t. destruct (wp_run _ _ H t) as (r & t' & E & F). exists r, t'. split; [exact E|split; [exact F|]]. intros rank R. clear - F R RW.
  induction F as [|x v xs vs [_ X] F IH]; [reflexivity|]. cbn [map]. rewrite IH. f_equal. induction X as [|e a es al HE X IX]; [reflexivity|]. cbn [map]. rewrite IX. f_equal.
  now apply reveal_enc.
Qed.
Lemma arrs_elim m vs : results_arrs m vs -> wp m (fun r => Forall2 enc_arr r vs).
Proof. intros H. apply run_wp. intros t. destruct (H t) as (r & t' & E & F & _). now exists r, t'. Qed.

(* a secret condition of the same shape as the results picks elementwise *)
Theorem C41_if_else_secret cond csh bits on_true on_false vts vfs :
  enc_arr cond (csh, bits) -> Forall (fun c => c = 0 \/ c = 1) bits -> (forall c, In c (a_el cond) -> is_secret pr c = true) -> bits <> [] ->
  results_arrs on_true vts -> results_arrs on_false vfs -> length vts = length vfs ->
  Forall (fun v => fst v = csh /\ length (snd v) = length bits) (vts ++ vfs) ->
  results_arrs (if_else k pr cond on_true on_false) (map (fun '(t, f) => pick bits t f) (combine vts vfs)).
Proof.
  intros C B S0 NE HT HF L SH. apply Forall_app in SH. destruct SH as [SH1 SH2]. apply arrs_intro. unfold if_else.
  destruct (a_el cond) as [|c cs] eqn:EC.
  { destruct C as [_ C]. rewrite EC in C. cbn [snd] in C. inversion C. subst. now destruct NE. }
  rewrite (S0 c) by now left. apply wp_bind. eapply wp_mono; [exact (arrs_elim _ _ HT)|]. cbv beta. intros ts FT.
  apply wp_bind. eapply wp_mono; [exact (arrs_elim _ _ HF)|]. cbv beta. intros fs FF.
  rewrite (F2_len _ _ _ FT), (F2_len _ _ _ FF), L, Nat.eqb_refl.
  eapply (select_all_ok k K1 n pr _ _ OKP WA others OT cond bits csh); eassumption.
Qed.
(* one secret bit, results with one element: the results of the selected branch *)
Theorem C41_if_else_scalar cond csh c on_true on_false vts vfs :
  enc_arr cond (csh, [c]) -> c = 0 \/ c = 1 -> (forall e, In e (a_el cond) -> is_secret pr e = true) ->
  results_arrs on_true vts -> results_arrs on_false vfs -> length vts = length vfs ->
  Forall (fun v => fst v = csh /\ length (snd v) = 1%nat) (vts ++ vfs) ->
  results_arrs (if_else k pr cond on_true on_false) (if c =? 1 then vts else vfs).
Proof.
  intros C B S0 HT HF L SH. assert (P : (if c =? 1 then vts else vfs) = map (fun '(t, f) => pick [c] t f) (combine vts vfs)).
  { apply Forall_app in SH. destruct SH as [SH1 SH2]. clear - L B SH1 SH2. revert vfs L SH2.
    induction SH1 as [|[s1 l1] vts [E1 E2] SH1 IH]; intros [|[s2 l2] vfs] L SH2; try discriminate; [now destruct (c =? 1)|].
    inversion SH2 as [|? ? [E3 E4] SH2']; subst. cbn [fst snd] in *. subst s2. cbn in L. specialize (IH vfs ltac:(congruence) SH2').
    destruct l1 as [|x [|? ?]]; try discriminate. destruct l2 as [|y [|? ?]]; try discriminate. cbn [combine map]. rewrite <- IH. unfold pick. cbn. now destruct (c =? 1). }
  rewrite P. apply C41_if_else_secret with (csh := csh); auto. discriminate.
Qed.
(* a public condition runs the selected branch only; the other one may fail *)
Theorem C41_if_else_public sh c on_true on_false vs :
  results_arrs (if c =? 0 then on_false else on_true) vs -> results_arrs (if_else k pr (mkArr sh [VP c]) on_true on_false) vs.
Proof. intros H. unfold if_else. cbn [a_el is_secret]. destruct (c =? 0); exact H. Qed.
(* an index of any visibility; numbers outside the range choose the last branch *)
Theorem C41_case index a v branches v0 vss : encodes index a -> signed_value k a v -> Forall2 results_arrs branches (v0 :: vss) ->
  Forall (fun vs => sig vs = sig v0) vss -> Z.of_nat (length branches) <= 2 ^ (k - 1) ->
  results_arrs (case_ k pr others index branches) (nth (Z.to_nat (branch_no (Z.of_nat (length branches)) v)) (v0 :: vss) []).
Proof.
  intros X V F SG B. apply arrs_intro. eapply (case_ok k K1 n pr _ _ OKP WA others OT); [exact X|exact V| |exact SG| |exact B]; clear SG.
  2:{ generalize dependent (v0 :: vss). clear - RW WA K1. intros vv F. induction F as [|b vs bs vv H F IH]; constructor; [|exact IH].
      destruct (H O) as (r & t' & _ & FR & _). clear - FR WA K1. induction FR as [|a v rs vs [_ X] FR IH]; constructor; [|exact IH].
      exact (words_of k n pr _ _ _ _ X). }
  generalize dependent (v0 :: vss). clear - RW. intros vv F. induction F as [|b vs bs vv H F IH]; constructor; [exact (arrs_elim _ _ H)|exact IH].
Qed.
(* a public index runs only that branch: the others may fail or return other shapes *)
Theorem C41_case_public a v branches b vs : word k a -> signed_value k a v -> branches <> [] ->
  nth_error branches (Z.to_nat (branch_no (Z.of_nat (length branches)) v)) = Some b -> results_arrs b vs ->
  results_arrs (case_ k pr others (VP a) branches) vs.
Proof.
  intros WD V NE NB H. cbn [case_]. assert (EV : sgn k a = v).
  { pose proof K1. apply (Perm_proof.signed_unique k a); [apply signed_sgn; [lia|exact WD]|exact V|lia]. }
  rewrite EV. set (cnt := Z.of_nat (length branches)) in *. assert (0 < cnt) by (unfold cnt; destruct branches; [congruence|cbn [length]; lia]).
  assert (E : (if (v <? 0) || (cnt - 1 <? v) then cnt - 1 else v) = branch_no cnt v).
  { unfold branch_no. destruct (Z.ltb_spec v 0), (Z.ltb_spec (cnt - 1) v), (Z.leb_spec cnt v); cbn [orb]; lia. }
  rewrite E, NB. assert (0 <= branch_no cnt v) by (unfold branch_no; destruct (Z.ltb_spec v 0), (Z.leb_spec cnt v); cbn [orb]; lia).
  destruct (Z.ltb_spec (branch_no cnt v) 0); [lia|]. exact H.
Qed.
(* a loop whose plaintext run ends, on states that satisfy an invariant, ends with the same state *)
Theorem C41_while (cond : list (arr pr) -> M (arr pr)) body (I : list (list Z * list Z) -> Prop) cv bv :
  (forall st vs, Forall2 enc_arr st vs -> I vs -> forall t, exists sh p t', cond st t = Ok (mkArr sh [VP p], t') /\ (p <> 0 <-> cv vs = true)) ->
  (forall vs, I vs -> cv vs = true -> I (bv vs)) ->
  (forall st vs, Forall2 enc_arr st vs -> I vs -> cv vs = true -> results_arrs (body st) (bv vs)) ->
  forall vs vs', loops cv bv vs vs' -> I vs -> exists fuel, forall more st, Forall2 enc_arr st vs ->
    forall t, exists st' t', while_ pr (fuel + more) cond body st t = Ok (Some st', t') /\ Forall2 enc_arr st' vs'.
Proof.
  intros HC HI HB vs vs' L I0. destruct (while_ok k n pr (sA w n) (sB w n) cond body I cv bv) with (vs := vs) (vs' := vs') as [fuel HF].
  - intros st us ST IU. apply run_wp. intros t. destruct (HC st us ST IU t) as (sh & p & t' & E & P). exists (mkArr sh [VP p]), t'. split; [exact E|]. now exists sh, p.
  - exact HI.
  - intros st us ST IU CU. exact (arrs_elim _ _ (HB st us ST IU CU)).
  - exact L.
  - exact I0.
  - exists fuel. intros more st ST t. destruct (wp_run _ _ (HF more st ST) t) as (r & t' & E & st' & -> & F). now exists st', t'.
Qed.
End C41.
Print Assumptions C41_if_else_secret.
Print Assumptions C41_if_else_scalar.
Print Assumptions C41_if_else_public.
Print Assumptions C41_case.
Print Assumptions C41_case_public.
Print Assumptions C41_while.

(* three parties, FM32 *)
Definition ex_arr (sh : list Z) (l : list Z) : M (list (arr ex_pr)) := ret [mkArr sh (map (fun p => VP p) l)].
Definition ex_showl (m : M (list (arr ex_pr))) : option (list (list Z)) :=
  match m 0%nat with Ok (r, _) => Some (map (fun x => map (reveal 32 3 ex_tapes 2) (a_el x)) r) | _ => None end.
(* secret bits 1, 0; a secret 13 used as an index *)
Definition ex_bit1 : val ex_pr := @VB ex_pr (1, fun i => nth i [1; 1; 1] 0).
Definition ex_bit0 : val ex_pr := @VB ex_pr (1, fun i => nth i [1; 0; 1] 0).
Definition ex_branches : list (M (list (arr ex_pr))) := [ex_arr [2] [10; 20]; ex_arr [2] [30; 40]; ex_arr [2] [50; 60]].
Example C41_ex :
  encodes 32 3 ex_tapes ex_bit1 1 /\ encodes 32 3 ex_tapes ex_bit0 0 /\
  ex_showl (if_else 32 ex_pr (mkArr [2] [ex_bit1; ex_bit0]) (ex_arr [2] [10; 20]) (ex_arr [2] [30; 40])) = Some [[10; 40]] /\
  ex_showl (if_else 32 ex_pr (mkArr [] [VP 1]) (ex_arr [2] [10; 20]) (fun _ => Err)) = Some [[10; 20]] /\
  map (fun i => ex_showl (case_ 32 ex_pr ex_o i ex_branches)) [VP 1; ex_prv 1; VP 13; ex_prv 13; ex_prv (2 ^ 32 - 1)] =
    [Some [[30; 40]]; Some [[30; 40]]; Some [[50; 60]]; Some [[50; 60]]; Some [[50; 60]]] /\
  results_arrs 32 3 ex_tapes (case_ 32 ex_pr ex_o (@VA ex_pr ex_X) ex_branches) [([2], [50; 60])].
Proof.
  assert (E0 : forall x, 0 <= x < 2 ^ 32 -> encodes 32 3 ex_tapes (VP x) x) by (intros x X; split; [exact X|reflexivity]).
  split; [split; [split; reflexivity || lia|split; [apply shBb_ok; reflexivity|split; [cbn; lia|reflexivity]]]|].
  split; [split; [split; reflexivity || lia|split; [apply shBb_ok; reflexivity|split; [cbn; lia|reflexivity]]]|].
  split; [vm_compute; reflexivity|]. split; [vm_compute; reflexivity|]. split; [vm_compute; reflexivity|].
  refine (C41_case 5 3 ltac:(lia) ltac:(lia) ex_tapes ex_tapes_good ex_o ex_o_ok _ 13 13 ex_branches [([2], [10; 20])] [[([2], [30; 40])]; [([2], [50; 60])]] ex_enc13 ex_sig13 _ _ _).
  - repeat constructor; apply (arrs_intro 5 3 ltac:(lia) ltac:(lia)); apply wp_ret; repeat constructor; cbn; lia.
  - repeat constructor.
  - cbn. lia.
Qed.
(* doubling until 100 is reached; the state is public *)
Definition ex_cond (st : list (arr ex_pr)) : M (arr ex_pr) :=
  match st with [x] => match a_el x with [VP p] => ret (mkArr [] [VP (if p <? 100 then 1 else 0)]) | _ => fun _ => Err end | _ => fun _ => Err end.
Definition ex_body (st : list (arr ex_pr)) : M (list (arr ex_pr)) :=
  match st with [x] => y <- map2 ex_pr (hal_add 32 ex_pr) x x ;; ret [y] | _ => fun _ => Err end.
Example C41_while_ex :
  match while_ ex_pr 10 ex_cond ex_body [mkArr [] [VP 7]] 0%nat with Ok (Some [x], _) => map (reveal 32 3 ex_tapes 2) (a_el x) | _ => [] end = [112] /\
  loops (fun v : list (list Z * list Z) => nthZ (snd (nth 0%nat v ([], []))) 0 <? 100) (fun v => map (fun x => (fst x, map (fun a => 2 * a) (snd x))) v) [([], [7])] [([], [112])].
Proof. split; [vm_compute; reflexivity|]. do 4 (apply loop_step; [reflexivity|cbn]). apply loop_stop. reflexivity. Qed.
(* a private condition is accepted by case but not by if/else *)
Theorem C41_private_condition_refuted : exists c : val ex_pr, encodes 32 3 ex_tapes c 1 /\
  ex_showl (if_else 32 ex_pr (mkArr [] [c]) (ex_arr [] [10]) (ex_arr [] [20])) = None /\
  ex_showl (case_ 32 ex_pr ex_o c [ex_arr [] [10]; ex_arr [] [20]]) = Some [[20]].
Proof. exists (ex_prv 1). split; [split; [split; reflexivity || lia|split; [lia|reflexivity]]|]. vm_compute. split; reflexivity. Qed.
Print Assumptions C41_private_condition_refuted.
(* a public scalar condition selects arrays; the same condition as a secret is refused: it is not broadcast *)
Theorem C41_scalar_condition_refuted : encodes 32 3 ex_tapes ex_bit1 1 /\
  ex_showl (if_else 32 ex_pr (mkArr [] [ex_bit1]) (ex_arr [2] [10; 20]) (ex_arr [2] [30; 40])) = None /\
  ex_showl (if_else 32 ex_pr (mkArr [] [VP 1]) (ex_arr [2] [10; 20]) (ex_arr [2] [30; 40])) = Some [[10; 20]].
Proof.
  split; [split; [split; reflexivity || lia|split; [apply shBb_ok; reflexivity|split; [cbn; lia|reflexivity]]]|]. vm_compute. split; reflexivity.
Qed.
Print Assumptions C41_scalar_condition_refuted.
