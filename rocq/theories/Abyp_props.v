(* C63: under aby3, ring-level operations, comparison, selection, case and dynamic slices return the plaintext result whatever
   the visibilities and share types of the operands.  C64: the operations that shift boolean shares return it in every run that
   completes, and some runs do not. *)
From Verif Require Import Base Ring_model Ring_spec Ring_proof Aby_model Aby_spec Aby_proof Abyb_proof.
From Verif Require Import Disp_model Disp_spec Disp_proof Dispd_proof Hlo_model Hlo_spec Hlo_proof Hlor_proof Hloc_proof Hlo_props.
From Verif Require Import Dyn_model Dyn_spec Dynw_proof Dyn_proof Dynu_proof Abyp_model Abyp_spec Abyp_proof.
Open Scope Z_scope.

Section Aby3.
Variable w : nat.
Hypothesis W : (5 <= w <= 7)%nat.   (* FM32, FM64, FM128 *)
Notation k := (2 ^ Z.of_nat w).
Variable T : tapes3.
Hypothesis G : good_roles T.
Variable others : nat -> Z.          (* bit widths of the other elements of public arrays *)
Hypothesis OT : forall t, 0 <= others t <= k.
Notation pr := (aby_proto k T).
Notation encodes := (encodes3 k T).
Let K1 : 1 < k. Proof. assert (2 ^ 5 <= k) by (apply Z.pow_le_mono_r; lia). lia. Qed.
Let WA := rA_word w.
Ltac fin := match goal with |- forall r, _ -> _ => intros ? HH; cbv beta in HH; repeat match type of HH with _ /\ _ => destruct HH as [HH _] end; exact HH end.

Section C63.
#[local] Existing Instance shiftless.
Notation results := (results3 k T).
Notation results_list := (results_list3 k T).
Notation enc_arr := (enc_arr3 k T).
Notation results_arrs := (results_arrs3 k T).
Let OKP : proto_ok k 3 pr (rA w) (rB w) := aby_ok w (proj1 W) (proj2 W) T G (md := shiftless) (fun f => match f with end).
Let RW := results3_wp w (proj1 W) (proj2 W) T.

Theorem C63_add_sub x y a b : encodes x a -> encodes y b ->
  results (hal_add k pr x y) ((a + b) mod 2 ^ k) /\ results (hal_sub k pr x y) ((a - b) mod 2 ^ k).
Proof.
  intros X Y. split; apply RW.
  - eapply wp_mono; [eapply (hal_add_ok k K1 3 pr _ _ OKP WA); eassumption|fin].
  - eapply wp_mono; [eapply (hal_sub_ok k K1 3 pr _ _ OKP WA); eassumption|fin].
Qed.
Theorem C63_mul_square x y a b : encodes x a -> encodes y b ->
  results (hal_mul k pr x y) ((a * b) mod 2 ^ k) /\ results (hal_square k pr x) ((a * a) mod 2 ^ k).
Proof.
  intros X Y. split; apply RW.
  - eapply wp_mono; [eapply (hal_mul_ok k K1 3 pr _ _ OKP WA others OT); eassumption|fin].
  - eapply wp_mono; [eapply (hal_square_ok k K1 3 pr _ _ OKP WA others OT); eassumption|fin].
Qed.
Theorem C63_bitwise x y a b : encodes x a -> encodes y b ->
  results (hal_and pr others x y) (Z.land a b) /\ results (hal_xor pr others x y) (Z.lxor a b) /\
  results (hal_or pr others x y) (Z.lor a b) /\ results (hal_not k pr others x) (2 ^ k - 1 - a).
Proof.
  intros X Y. split; [|split; [|split]]; apply RW.
  - eapply wp_mono; [eapply (hal_and_ok k K1 3 pr _ _ OKP WA others OT); eassumption|fin].
  - eapply wp_mono; [eapply (hal_xor_ok k K1 3 pr _ _ OKP WA others OT); eassumption|fin].
  - eapply wp_mono; [eapply (hal_or_ok k K1 3 pr _ _ OKP WA others OT); eassumption|fin].
  - eapply wp_mono; [eapply (hal_not_ok k K1 3 pr _ _ OKP WA others OT); eassumption|fin].
Qed.
Theorem C63_negate x a : encodes x a -> results (hal_negate k pr x) ((- a) mod 2 ^ k).
Proof. intros X. apply RW. eapply wp_mono; [eapply (hal_negate_ok k K1 3 pr _ _ OKP WA); eassumption|fin]. Qed.
Theorem C63_equal x y a b : encodes x a -> encodes y b -> results (hal_equal k pr others x y) (if a =? b then 1 else 0).
Proof. intros X Y. apply RW. eapply wp_mono; [eapply (hal_equal_ok k K1 3 pr _ _ OKP WA others OT); eassumption|fin]. Qed.
(* comparison of signed values whose difference fits *)
Theorem C63_less x y a b u v : encodes x a -> encodes y b -> signed_value k a u -> signed_value k b v ->
  - 2 ^ (k - 1) <= u - v < 2 ^ (k - 1) -> results (hal_less k pr x y) (if u <? v then 1 else 0).
Proof. intros X Y U V R. apply RW. eapply wp_mono; [eapply (hal_less_ok k K1 3 pr _ _ OKP WA others OT); eassumption|fin]. Qed.
(* ... and in general the same word for every visibility *)
Theorem C63_less_any x y a b : encodes x a -> encodes y b -> results (hal_less k pr x y) ((a - b) mod 2 ^ k / 2 ^ (k - 1)).
Proof. intros X Y. apply RW. eapply wp_mono; [eapply (hal_less_raw k K1 3 pr _ _ OKP WA others OT); eassumption|fin]. Qed.
Theorem C63_mux p x y c a b : encodes p c -> c = 0 \/ c = 1 -> encodes x a -> encodes y b -> results (hal_mux k pr p x y) (if c =? 1 then a else b).
Proof. intros P C X Y. apply RW. eapply wp_mono; [eapply (hal_mux_ok k K1 3 pr _ _ OKP WA others OT); eassumption|fin]. Qed.
Theorem C63_clamp x y z a b c u v t : encodes x a -> encodes y b -> encodes z c -> signed_value k a u -> signed_value k b v -> signed_value k c t ->
  - 2 ^ (k - 1) <= u - v < 2 ^ (k - 1) -> - 2 ^ (k - 1) <= Z.max u v - t < 2 ^ (k - 1) ->
  results (hal_clamp k pr x y z) (Z.min (Z.max u v) t mod 2 ^ k).
Proof.
  intros X Y Z0 U V V' R R'. apply RW. eapply wp_mono; [eapply (hal_clamp_ok k K1 3 pr _ _ OKP WA others OT); eassumption|].
  intros r (d & H & [_ [q E]]). eapply holds_eq; [exact H|]. rewrite E. symmetry. rewrite Z.mod_add by (apply Z.pow_nonzero; lia).
  apply Z.mod_small. apply H.
Qed.
Theorem C63_prefer x a : encodes x a -> results (hal_prefer_a k pr x) a /\ results (hal_prefer_b k pr others x) a.
Proof.
  intros X. split; apply RW.
  - eapply wp_mono; [eapply (hal_prefer_a_ok k K1 3 pr _ _ OKP); eassumption|fin].
  - eapply wp_mono; [eapply (hal_prefer_b_ok k K1 3 pr _ _ OKP WA others OT); eassumption|fin].
Qed.
Lemma list_intro3 m vs : wp m (fun r => Forall2 encodes r vs) -> results_list m vs.
Proof.
  intros H t. destruct (wp_run3 _ _ H t) as (r & t' & E & F). exists r, t'. split; [exact E|split; [exact F|]]. intros rank R. clear - F R W.
  induction F as [|x v xs vs X F IH]; [reflexivity|]. cbn [map]. rewrite IH. f_equal. now apply (reveal_ok w (proj1 W) (proj2 W) T).
Qed.
Lemma arrs_intro3 m vs : wp m (fun r => Forall2 enc_arr r vs) -> results_arrs m vs.
Proof.
  intros H t. destruct (wp_run3 _ _ H t) as (r & t' & E & F). exists r, t'. split; [exact E|split; [exact F|]]. intros rank R. clear - F R W.
  induction F as [|x v xs vs [_ X] F IH]; [reflexivity|]. cbn [map]. rewrite IH. f_equal. induction X as [|e a es al HE X IX]; [reflexivity|]. cbn [map]. rewrite IX. f_equal.
  now apply (reveal_ok w (proj1 W) (proj2 W) T).
Qed.
Lemma arrs_elim3 m vs : results_arrs m vs -> wp m (fun r => Forall2 enc_arr r vs).
Proof. intros H. apply run_wp. intros t. destruct (H t) as (r & t' & E & F & _). now exists r, t'. Qed.
(* a secret condition of the same shape as the results picks elementwise *)
Theorem C63_if_else_secret cond csh bits on_true on_false vts vfs :
  enc_arr cond (csh, bits) -> Forall (fun c => c = 0 \/ c = 1) bits -> (forall c, In c (a_el cond) -> is_secret pr c = true) -> bits <> [] ->
  results_arrs on_true vts -> results_arrs on_false vfs -> length vts = length vfs ->
  Forall (fun v => fst v = csh /\ length (snd v) = length bits) (vts ++ vfs) ->
  results_arrs (if_else k pr cond on_true on_false) (map (fun '(t, f) => pick bits t f) (combine vts vfs)).
Proof.
  intros C B S0 NE HT HF L SH. apply Forall_app in SH. destruct SH as [SH1 SH2]. apply arrs_intro3. unfold if_else.
  destruct (a_el cond) as [|c cs] eqn:EC.
  { destruct C as [_ C]. rewrite EC in C. cbn [snd] in C. inversion C. subst. now destruct NE. }
  rewrite (S0 c) by now left. apply wp_bind. eapply wp_mono; [exact (arrs_elim3 _ _ HT)|]. cbv beta. intros ts FT.
  apply wp_bind. eapply wp_mono; [exact (arrs_elim3 _ _ HF)|]. cbv beta. intros fs FF.
  rewrite (F2_len _ _ _ FT), (F2_len _ _ _ FF), L, Nat.eqb_refl.
  eapply (select_all_ok k K1 3 pr _ _ OKP WA others OT cond bits csh); eassumption.
Qed.
(* an index of any visibility; numbers outside the range choose the last branch *)
Theorem C63_case index a v branches v0 vss : encodes index a -> signed_value k a v -> Forall2 results_arrs branches (v0 :: vss) ->
  Forall (fun vs => sig vs = sig v0) vss -> Z.of_nat (length branches) <= 2 ^ (k - 1) ->
  results_arrs (case_ k pr others index branches) (nth (Z.to_nat (branch_no (Z.of_nat (length branches)) v)) (v0 :: vss) []).
Proof.
  intros X V F SG B. apply arrs_intro3. eapply (case_ok k K1 3 pr _ _ OKP WA others OT); [exact X|exact V| |exact SG| |exact B]; clear SG.
  2:{ generalize dependent (v0 :: vss). clear - RW WA K1. intros vv F. induction F as [|b vs bs vv H F IH]; constructor; [|exact IH].
      destruct (H O) as (r & t' & _ & FR & _). clear - FR WA K1. induction FR as [|a v rs vs [_ X] FR IH]; constructor; [|exact IH].
      exact (words_of k 3 pr (rA w) (rB w) _ _ X). }
  generalize dependent (v0 :: vss). clear - RW. intros vv F. induction F as [|b vs bs vv H F IH]; constructor; [exact (arrs_elim3 _ _ H)|exact IH].
Qed.
(* all starts public, or those that are public not negative *)
Theorem C63_dynamic_slice sh sz st ws vs data xs : sh <> [] -> sized k sh sz ->
  Forall2 encodes st ws -> Forall2 (signed_value k) ws vs -> length vs = length sh ->
  (forallb (is_public pr) st = true \/ Forall2 (pub_ok pr) st vs) -> Forall2 encodes data xs -> length xs = numel sh ->
  exists out, is_window sh sz (clamps sh sz vs) xs out /\ results_list (dynamic_slice k pr others sh sz st data) out.
Proof.
  intros NE SZ ST SV L PO HD LX. exists (win sh sz (clamps sh sz vs) xs). split.
  - apply win_window; [|exact LX]. exact (clamps_fit k sh sz vs SZ L).
  - apply list_intro3. eapply (dynamic_slice_ok k K1 3 pr _ _ OKP WA others OT); eassumption.
Qed.
(* first start secret, or none private *)
Theorem C63_dynamic_update_slice sh sz st ws vs data xs upd us rank : (rank < 3)%nat -> sh <> [] -> sized k sh sz ->
  Forall2 encodes st ws -> Forall2 (signed_value k) ws vs -> length vs = length sh ->
  (match st with x :: _ => secret_start pr x | [] => False end \/ Forall (not_private pr) st) ->
  Forall2 encodes data xs -> length xs = numel sh -> Z.of_nat (numel sh) <= 2 ^ k -> Forall2 encodes upd us -> length us = numel sz ->
  exists out, is_update sh sz (clamps sh sz vs) xs us out /\ results_list (dynamic_update_slice k pr others (reveal3 k T rank) sh sz st data upd) out.
Proof.
  intros RK NE SZ ST SV L PO HD LX B HU LU. exists (putw xs (combine us (spots sh (clamps sh sz vs) sz))). split.
  - apply putw_update; [|exact LX|exact LU]. exact (clamps_fit k sh sz vs SZ L).
  - apply list_intro3. eapply (dynamic_update_slice_ok k K1 3 pr _ _ OKP WA others OT); try eassumption. intros x a X. exact (reveal_ok w (proj1 W) (proj2 W) T x a rank X RK).
Qed.
End C63.

Section C64.
#[local] Existing Instance lenient.
Notation if_done := (if_done3 k T).
Let OKP : proto_ok k 3 pr (rA w) (rB w) := aby_ok w (proj1 W) (proj2 W) T G (md := lenient) (fun _ => eq_refl).
Let RW := done3_wp w (proj1 W) (proj2 W) T.
Theorem C64_msb_sign x a v : encodes x a -> signed_value k a v ->
  if_done (hal_msb k pr x) (if v <? 0 then 1 else 0) /\ if_done (hal_sign k pr x) ((if v <? 0 then -1 else 1) mod 2 ^ k).
Proof.
  intros X V. split; apply RW.
  - rewrite <- (msb_sign k K1 a v (proj1 X) V). eapply wp_mono; [eapply (hal_msb_ok k K1 3 pr _ _ OKP WA others OT); eassumption|fin].
  - eapply wp_mono; [eapply (hal_sign_ok k K1 3 pr _ _ OKP WA others OT); eassumption|fin].
Qed.
Theorem C64_shift x a v s : encodes x a -> signed_value k a v -> 0 <= s < k ->
  if_done (hal_lshift k pr x s) ((a * 2 ^ s) mod 2 ^ k) /\ if_done (hal_rshift pr x s) (a / 2 ^ s) /\
  if_done (hal_arshift k pr x s) ((v / 2 ^ s) mod 2 ^ k).
Proof.
  intros X V S0. split; [|split]; apply RW.
  - eapply wp_mono; [eapply (hal_lshift_ok k K1 3 pr _ _ OKP WA); eassumption|fin].
  - eapply wp_mono; [eapply (hal_rshift_ok k K1 3 pr _ _ OKP WA others OT); eassumption|fin].
  - eapply wp_mono; [eapply (hal_arshift_ok k K1 3 pr _ _ OKP WA others OT); eassumption|fin].
Qed.
Theorem C64_bit_parity m x a : encodes x a -> 2 ^ Z.of_nat m <= k -> if_done (hal_bit_parity k pr others m x) (if Z.odd (bit_count (2 ^ m) a) then 1 else 0).
Proof. intros X M. apply RW. eapply wp_mono; [eapply (hal_bit_parity_ok k K1 3 pr _ _ OKP WA others OT); eassumption|fin]. Qed.
Theorem C64_prefix_or x a b : encodes x a -> word k b -> filled a b -> if_done (hal_prefix_or k pr others x) b.
Proof.
  intros X WB F. apply RW. eapply wp_mono; [eapply (hal_prefix_or_ok k K1 3 pr _ _ OKP WA others OT w); [reflexivity|exact X]|].
  intros r (b' & H & F'). eapply holds_eq; [exact H|]. apply Z.bits_inj'. intros i I. apply Bool.eq_iff_eq_true. rewrite (F i I), (F' i I). reflexivity.
Qed.
Theorem C64_eqz x a : encodes x a -> if_done (hal_eqz k pr others x) (if a =? 0 then 1 else 0).
Proof. intros X. apply RW. eapply wp_mono; [eapply (hal_eqz_ok k K1 3 pr _ _ OKP WA others OT w); [reflexivity|exact X]|fin]. Qed.
Theorem C64_popcount x a bits : encodes x a -> (1 <= bits)%nat -> Z.of_nat bits <= k ->
  (bits = 1%nat \/ Nat.Even bits \/ (exists p, x = VP p) \/ exists o f, x = VV o f) ->
  if_done (hal_popcount k pr others bits x) (bit_count bits a).
Proof.
  intros X B1 BK C. apply RW. eapply wp_mono; [eapply (hal_popcount_ok k K1 3 pr _ _ OKP WA others OT); [exact X|exact B1|exact BK|]|fin].
  destruct C as [C | [C | [[p ->] | [o [f ->]]]]]; [now left|right; now left| |]; right; right; intros [].
Qed.
Theorem C64_casts f x a v : 0 <= f < 31 -> encodes x a -> signed_value k a v ->
  if_done (int2fxp k pr f x) ((v * 2 ^ f) mod 2 ^ k) /\ exists q, is_trunc f v q /\ if_done (fxp2int k pr f x) (q mod 2 ^ k).
Proof.
  intros F X V. assert (F' : 0 <= f < k). { assert (2 ^ 5 <= k) by (apply Z.pow_le_mono_r; lia). lia. }
  split; [apply RW|exists (Z.quot v (2 ^ f)); split; [now apply (trunc_quot k f F')|apply RW]].
  - eapply wp_mono; [eapply (int2fxp_ok k K1 3 pr _ _ OKP WA others OT); eassumption|fin].
  - eapply wp_mono; [eapply (fxp2int_ok k K1 3 pr _ _ OKP WA others OT f F'); [exact X|exact V|lia]|fin].
Qed.
Theorem C64_floor f x a v : 0 <= f < k -> encodes x a -> signed_value k a v -> exists u, is_floor f v u /\ if_done (f_floor k pr f x) (u mod 2 ^ k).
Proof. intros F X V. destruct (floor_ok k K1 3 pr _ _ OKP WA others OT f F x a v X V) as (u & U & R & H). exists u. split; [exact U|]. apply RW. exact H. Qed.
Theorem C64_ceil f x a v : 0 <= f < k -> encodes x a -> signed_value k a v -> v + 2 ^ f - 1 < 2 ^ (k - 1) -> exists u, is_ceil f v u /\ if_done (f_ceil k pr f x) (u mod 2 ^ k).
Proof. intros F X V B. destruct (ceil_ok k K1 3 pr _ _ OKP WA others OT f F x a v X V B) as (u & U & R & H). exists u. split; [exact U|]. apply RW. exact H. Qed.
Theorem C64_round_away f x a v : 0 < f < 31 -> encodes x a -> signed_value k a v -> Z.abs v + 2 ^ (f - 1) < 2 ^ (k - 1) ->
  exists u, is_round_away f v u /\ if_done (round_afz k pr f x) (u mod 2 ^ k).
Proof.
  intros F X V B. assert (F' : 0 <= f < k). { assert (2 ^ 5 <= k) by (apply Z.pow_le_mono_r; lia). lia. }
  destruct (afz_ok k K1 3 pr _ _ OKP WA others OT f F' x a v X V F B) as (u & U & R & H). exists u. split; [exact U|]. apply RW. exact H.
Qed.
Theorem C64_power x y a b u v : encodes x a -> encodes y b -> signed_value k a u -> signed_value k b v -> 0 <= v < k ->
  if_done (power k pr others x y) ((u ^ v) mod 2 ^ k).
Proof.
  intros X Y U V R. assert (2 ^ 5 <= k) by (apply Z.pow_le_mono_r; lia).
  apply RW. eapply wp_mono; [eapply (power_ok k K1 3 pr _ _ OKP WA others OT); [exact X|exact Y|exact U|exact V|lia]|].
  cbv beta. intros r H0. eapply holds_eq; [exact H0|]. destruct (Z.ltb_spec v 0); [lia|]. cbn [andb].
  rewrite (y_bits_k w 3 W ltac:(lia) others OT). replace (b mod k) with v; [reflexivity|]. rewrite (wrap_of_signed k b v ltac:(lia) (proj1 Y) V), wrap_small.
  - symmetry. apply Z.mod_small. exact R.
  - assert (k < 2 ^ k) by (apply Z.pow_gt_lin_r; lia). lia.
Qed.
(* shifts by an amount of any visibility below the width of the data type *)
Theorem C64_shift_by width x y a v b : encodes x a -> signed_value k a v -> encodes y b -> 0 <= b < Z.of_nat width -> Z.of_nat width <= k ->
  if_done (shift_impl k pr others ShL width x y) ((a * 2 ^ b) mod 2 ^ k) /\ if_done (shift_impl k pr others ShR width x y) (a / 2 ^ b) /\
  if_done (shift_impl k pr others ShA width x y) ((v / 2 ^ b) mod 2 ^ k).
Proof.
  intros X V Y B WK. split; [|split]; apply RW; (eapply wp_mono; [eapply (shift_impl_ok k K1 3 pr _ _ OKP WA others OT); [exact X|exact V|exact Y|exact B|exact WK]|fin]).
Qed.
End C64.
End Aby3.
Print Assumptions C63_add_sub.
Print Assumptions C63_mul_square.
Print Assumptions C63_bitwise.
Print Assumptions C63_negate.
Print Assumptions C63_equal.
Print Assumptions C63_less.
Print Assumptions C63_less_any.
Print Assumptions C63_mux.
Print Assumptions C63_clamp.
Print Assumptions C63_prefer.
Print Assumptions C63_if_else_secret.
Print Assumptions C63_case.
Print Assumptions C63_dynamic_slice.
Print Assumptions C63_dynamic_update_slice.
Print Assumptions C64_msb_sign.
Print Assumptions C64_shift.
Print Assumptions C64_bit_parity.
Print Assumptions C64_prefix_or.
Print Assumptions C64_eqz.
Print Assumptions C64_popcount.
Print Assumptions C64_casts.
Print Assumptions C64_floor.
Print Assumptions C64_ceil.
Print Assumptions C64_round_away.
Print Assumptions C64_power.
Print Assumptions C64_shift_by.

(* FM32; 13 in every form, the boolean share in four bits *)
Definition T3 : tapes3 := mkTapes3 (fun t => Z.of_nat t * 77) (fun t i j => Z.of_nat (31 * t + 7 * i + 13 * j)) (fun t g i => Z.of_nat (3 * t + g + 5 * i))
  (fun t b i => Z.of_nat (t + 2 * b + 11 * i)) (fun t b i => Z.of_nat (t + 2 * b + 12 * i)) (fun t b i => Z.of_nat (t + 2 * b + 13 * i))
  (fun t c i => c + Z.of_nat (t + i)) (fun t => Z.of_nat t mod 7).
Lemma T3_good : good_roles T3.
Proof. intros t. cbn [T3 t3_piv]. pose proof (Z.mod_pos_bound (Z.of_nat t) 7 ltac:(lia)). lia. Qed.
Definition sh3 (a b c : Z) : shr := fun i => match i with O => (a, b) | 1%nat => (b, c) | _ => (c, a) end.
Definition pr32 := aby_proto 32 T3.
Definition o3 (t : nat) : Z := 7.
Definition show3 (m : M (val pr32)) : option Z := match m 0%nat with Ok (r, _) => Some (reveal3 32 T3 1 r) | _ => None end.
Definition done3 (m : M (val pr32)) : bool := match m 0%nat with Ok _ => true | _ => false end.
Definition va3 : val pr32 := @VA pr32 (sh3 4294967290 7 12).
Definition vb3 : val pr32 := @VB pr32 (mkB 8 4 (sh3 255 1 243)).
Definition vv3 : val pr32 := VV 1%nat (fun i => if (i =? 1)%nat then 13 else 99).
Definition forms : list (val pr32) := [VP 13; vv3; va3; vb3].
Definition bit3 : val pr32 := @VB pr32 (mkB 8 1 (sh3 255 1 255)).
Ltac num3 := first [reflexivity | discriminate | lia | (split; [discriminate|reflexivity])].
Lemma forms_13 : Forall (fun x => encodes3 32 T3 x 13) forms.
Proof.
  repeat (apply Forall_cons || apply Forall_nil); (split; [split; reflexivity || lia|]).
  - reflexivity.
  - split; [lia|reflexivity].
  - apply (repA_intro _ _ _ 4294967290 7 12); num3.
  - apply repBn_intro; [apply (repB_intro _ _ _ 255 1 243); num3|cbn; lia|cbn; lia|cbn; tauto|reflexivity].
Qed.
Example C63_ex : good_roles T3 /\ Forall (fun x => encodes3 32 T3 x 13) forms /\
  map (fun x => map (fun y => show3 (hal_mul 32 pr32 x y)) forms) forms = repeat (repeat (Some 169) 4) 4 /\
  map (fun x => map (fun y => show3 (hal_add 32 pr32 x y)) forms) forms = repeat (repeat (Some 26) 4) 4 /\
  map (fun x => show3 (hal_mux 32 pr32 bit3 x (VP 5))) forms = repeat (Some 13) 4 /\
  map (fun x => show3 (hal_equal 32 pr32 o3 x (VP 13))) (firstn 3 forms) = repeat (Some 1) 3.
Proof. split; [exact T3_good|split; [exact forms_13|]]. vm_compute. repeat split. Qed.
(* runs of the second group that complete *)
Example C64_ex : forallb done3 [hal_msb 32 pr32 va3; hal_sign 32 pr32 vb3; hal_lshift 32 pr32 vb3 20; hal_rshift pr32 vb3 20; hal_arshift 32 pr32 va3 3;
    hal_bit_parity 32 pr32 o3 3 va3; hal_prefix_or 32 pr32 o3 va3; hal_eqz 32 pr32 o3 vb3; hal_popcount 32 pr32 o3 8 vb3; f_floor 32 pr32 2 va3; f_ceil 32 pr32 2 va3] = true /\
  show3 (hal_rshift pr32 vb3 1) = Some 6.
Proof. split; vm_compute; reflexivity. Qed.
(* FM64: the sign bit and an arithmetic shift of a number held as a four-bit boolean share *)
Definition fate {X} (r : res X) : nat := match r with Ok _ => 0 | Err => 1 | Ub => 2 end.
Lemma fate_ub {X} (r : res X) : fate r = 2%nat -> r = Ub. Proof. now destruct r. Qed.
Lemma fate_err {X} (r : res X) : fate r = 1%nat -> r = Err. Proof. now destruct r. Qed.
Theorem C64_narrow_refuted : exists x : val (aby_proto 64 T3), encodes3 64 T3 x 13 /\
  hal_msb 64 (aby_proto 64 T3) x 0%nat = Ub /\ hal_sign 64 (aby_proto 64 T3) x 0%nat = Ub /\ hal_arshift 64 (aby_proto 64 T3) x 3 0%nat = Err /\
  hal_rshift (aby_proto 64 T3) x 40 0%nat = Ub.
Proof.
  exists (@VB (aby_proto 64 T3) (mkB 8 4 (sh3 255 1 243))). split; [|split; [|split; [|split]]].
  - split; [split; reflexivity || lia|]. apply repBn_intro; [apply (repB_intro _ _ _ 255 1 243); num3|cbn; lia|cbn; lia|cbn; tauto|reflexivity].
  - apply fate_ub. vm_compute. reflexivity.
  - apply fate_ub. vm_compute. reflexivity.
  - apply fate_err. vm_compute. reflexivity.
  - apply fate_ub. vm_compute. reflexivity.
Qed.
Print Assumptions C64_narrow_refuted.
