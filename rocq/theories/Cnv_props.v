(* C61: two-dimensional convolution.  C62: batched matrix products. *)
From Coq Require Import ZifyNat ZifyBool.
From Verif Require Import Base Ring_model Ring_spec Ring_proof Share_spec Party Semi_model Semi_proof Conv_spec Disp_model Disp_proof Dyn_spec Dynw_proof Mm_model Mm_spec Mm_proof Mmm_proof Mmt_proof Mm_props Cnv_model Cnv_spec Cnv_proof.
Open Scope Z_scope.

Section C61.
Variable w : nat.
Variable n : nat.
Hypothesis W : (5 <= w)%nat /\ (w <= 7)%nat.
Hypothesis N0 : (0 < n)%nat.
Notation k := (2 ^ Z.of_nat w).
Variable T : mtapes.
Hypothesis G : good_mtapes k n T.
(* as in C32 *)
Variables (compact : nat -> nat -> bool) (junk : Z) (split small : bool) (ks ms : Z).
Notation conv2d := (conv2d k n T compact junk split small ks ms).
Notation dot_general := (dot_general k n T compact junk split small ks ms).

(* image N x H x V x C, filters h x v x C x O, strides sh and sw: hh x ww windows *)
Theorem C61_conv2d N H V C h v O sh sw hh ww ex ef a f : (0 < sh)%nat -> (0 < sw)%nat -> positions H h sh hh -> positions V v sw ww -> (0 < hh)%nat -> (0 < ww)%nat ->
  Z.of_nat (N * hh * ww) < 2 ^ 31 -> Z.of_nat (h * v * C) < 2 ^ 31 -> Z.of_nat O < 2 ^ 31 ->
  stands k n (numel [N; H; V; C]) ex a -> stands k n (numel [h; v; C; O]) ef f ->
  exists z, is_convolution k N H V C h v O sh sw hh ww a f z /\ yields k n (conv2d ([N; H; V; C], ex) ([h; v; C; O], ef) [sh; sw] [N; hh; ww; O]) [N; hh; ww; O] z.
Proof.
  intros SH SW PH PW H0 W0 S1 S2 S3 X Y. exists (conv_at k N H V C h v O sh sw hh ww a f). split; [apply conv_at_ok; pose proof (k0 w (proj1 W) (proj2 W)); lia|]. intros t.
  destruct (wp_run _ _ (conv_ok w (proj1 W) (proj2 W) n N0 T G compact junk split small ks ms N H V C h v O sh sw hh ww SH SW PH PW H0 W0 S1 S2 S3 ex ef a f X Y) t) as ([s e] & t' & E & HS & ST).
  cbn [fst snd] in *. subst s. exists e, t'. now split.
Qed.
(* a window larger than the image is refused *)
Theorem C61_no_window N H V C h v C' O sh sw rs ex ef t : (0 < sh)%nat -> (0 < sw)%nat -> (H < h)%nat \/ (V < v)%nat -> (4 <= length rs)%nat ->
  conv2d ([N; H; V; C], ex) ([h; v; C'; O], ef) [sh; sw] rs t = Err.
Proof.
  intros SH SW L R. destruct rs as [|N' [|hh [|ww [|O' rs]]]]; try (cbn in R; lia). unfold Cnv_model.conv2d. cbn [fst].
  destruct (negb _); [reflexivity|]. destruct (negb _); [reflexivity|]. destruct (negb _); [reflexivity|].
  destruct (Nat.eqb_spec sh 0); [lia|]. destruct (Nat.eqb_spec sw 0); [lia|]. cbn [orb]. destruct (negb _); [reflexivity|]. destruct (negb _); [reflexivity|].
  rewrite prod_nil; [reflexivity|]. destruct L as [L|L]; [left|right]; now apply no_window.
Qed.
(* B products, the right operand having no fewer than the left *)
Theorem C62_dot_general B B' m K c ex ey a b : (0 < B <= B')%nat -> stands k n (numel [B; m; K]) ex a -> stands k n (numel [B'; K; c]) ey b ->
  exists z, is_batched_product k B m K c a b z /\ yields k n (dot_general ([B; m; K], ex) ([B'; K; c], ey)) [B; m; c] z.
Proof.
  intros BB X Y. pose proof (k0 w (proj1 W) (proj2 W)) as K0. exists (fun p => batch_at w m K c a b (p / (m * c)) (p mod (m * c))). split.
  - intros t TB i j I J. assert (L : (i * c + j < m * c)%nat) by (apply pos_lt; assumption). rewrite pos_div, pos_mod by exact L. unfold batch_at, prodm. rewrite pos_div, pos_mod by exact J. apply wrap_is_mod. lia.
  - intros t. destruct (wp_run _ _ (dot_general_ok w (proj1 W) (proj2 W) n N0 T G compact junk split small ks ms B B' m K c (proj1 BB) (proj2 BB) ex ey a b X Y) t) as ([s e] & t' & E & HS & z & ST & HZ).
    cbn [fst snd] in *. subst s. exists e, t'. split; [exact E|]. eapply stands_ext; [exact ST|]. intros p P. cbv beta. change (numel [B; m; c]) with (B * (m * (c * 1)))%nat in P. rewrite Nat.mul_1_r in P.
    assert (MC : (0 < m * c)%nat) by nia. pose proof (Nat.div_mod p (m * c) ltac:(lia)) as D. pose proof (Nat.mod_upper_bound p (m * c) ltac:(lia)) as M.
    rewrite D at 1. rewrite (Nat.mul_comm (m * c)). apply HZ; [apply Nat.div_lt_upper_bound; lia|exact M].
Qed.
End C61.
Print Assumptions C61_conv2d.
Print Assumptions C61_no_window.
Print Assumptions C62_dot_general.

(* two images of 3x4 with 2 channels, 3 filters of 2x2, strides 1 and 2: 2x2 windows, shared image and private filters *)
Definition cx_img : nat -> Z := fun p => wrap 32 (Z.of_nat p * 1000000007 + 5).
Definition cx_flt : nat -> Z := fun p => wrap 32 (4294967290 + Z.of_nat (p * p)).
Example C61_ex_hyps : exists z, is_convolution 32 2 3 4 2 2 2 3 1 2 2 2 cx_img cx_flt z /\
  yields 32 3 (conv2d 32 3 mx_tapes (fun _ _ => true) 0 true false 3 5 ([2; 3; 4; 2]%nat, mx_share cx_img) ([2; 2; 2; 3]%nat, mx_priv cx_flt) [1; 2]%nat [2; 2; 2; 3]%nat) [2; 2; 2; 3]%nat z.
Proof.
  assert (WW : forall v, word 32 (wrap 32 v)) by (intros; apply wrap_is_mod; lia).
  apply (C61_conv2d 5 3 ltac:(lia) ltac:(lia) mx_tapes mx_good (fun _ _ => true) 0 true false 3 5 2 3 4 2 2 2 3 1 2 2 2); try (cbn; lia).
  - intros i. lia.
  - intros i. lia.
  - apply mx_stands. intros. apply WW.
  - apply mx_stands. intros. apply WW.
Qed.
Example C61_ex : mx_show 24 (conv2d 32 3 mx_tapes (fun _ _ => true) 0 true false 3 5 ([2; 3; 4; 2]%nat, EP Z.of_nat) ([2; 2; 2; 3]%nat, EP (fun p => Z.of_nat (p * p))) [1; 2]%nat [2; 2; 2; 3]%nat)
  = Some ([2; 2; 2; 3]%nat, map (fun p => match index_of [2; 2; 2; 3]%nat p with
      | [b; i; j; o] => sum_over [2; 2; 2]%nat (fun c => match c with [x; y; q] =>
          Z.of_nat (((b * 3 + (i + x)) * 4 + (2 * j + y)) * 2 + q) * Z.of_nat ((((x * 2 + y) * 2 + q) * 3 + o) * (((x * 2 + y) * 2 + q) * 3 + o)) | _ => 0 end)
      | _ => 0 end) (seq 0 24)).
Proof. vm_compute. reflexivity. Qed.
Example C62_ex : exists z, is_batched_product 32 2 3 5 4 cx_img cx_flt z /\ 
  yields 32 3 (dot_general 32 3 mx_tapes (fun _ _ => true) 0 true false 3 5 ([2; 3; 5]%nat, mx_share cx_img) ([2; 5; 4]%nat, mx_priv cx_flt)) [2; 3; 4]%nat z.
Proof.
  assert (WW : forall v, word 32 (wrap 32 v)) by (intros; apply wrap_is_mod; lia).
  apply (C62_dot_general 5 3 ltac:(lia) ltac:(lia) mx_tapes mx_good (fun _ _ => true) 0 true false 3 5 2 2 3 5 4); [lia| |].
  - apply mx_stands. intros. apply WW.
  - apply mx_stands. intros. apply WW.
Qed.
(* an empty batch, whose product is the empty array, is refused *)
Theorem C62_empty_batch_refuted m K c ex ey k n T compact junk split small ks ms t : dot_general k n T compact junk split small ks ms ([0%nat; m; K], ex) ([0%nat; K; c], ey) t = Err.
Proof. reflexivity. Qed.
Print Assumptions C62_empty_batch_refuted.
(* a right operand with more batches than the left is accepted and its last batches are ignored *)
Theorem C62_batch_mismatch_refuted : exists shx shy, hd 0%nat shx <> hd 0%nat shy /\
  mx_show 1 (dot_general 32 3 mx_tapes (fun _ _ => true) 0 true true 1 1 (shx, EP (fun _ => 3)) (shy, EP (fun p => Z.of_nat (p + 5)))) = Some ([1; 1; 1]%nat, [15]).
Proof. exists [1; 1; 1]%nat, [2; 1; 1]%nat. split; [discriminate|]. vm_compute. reflexivity. Qed.
Print Assumptions C62_batch_mismatch_refuted.
