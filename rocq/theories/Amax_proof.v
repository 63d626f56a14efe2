(* ArgMax marks a largest cell of every window. *)
From Coq Require Import ZifyNat ZifyBool Permutation.
From Verif Require Import Base Ring_model Perm_model Scan_model Scan_proof Fold Dyn_spec Dynw_proof Mm_model Mm_spec Mm_proof Mmt_proof Redn_model Redn_spec Redn_proof Rednw_proof Sas_model Sas_spec Sas_proof Sasw_proof Sass_proof Amax_model Amax_spec.
Open Scope nat_scope.

(* ---- the windows path ---- *)
Section Rows.
Context {A : Type}.
Variable lt : A -> A -> bool.
Hypothesis SW : strict_weak lt.
Definition largest (x : A * list bool) (l : list (A * list bool)) : Prop := In x l /\ forall y, In y l -> lt (fst x) (fst y) = false.
Lemma lt_irrefl a : lt a a = false.
Proof using SW. destruct SW as [H _]. destruct (lt a a) eqn:E; [|reflexivity]. now rewrite (H a a E) in E. Qed.
Lemma largest_pair x y a b : largest x a -> largest y b -> largest (arg_pair lt x y) (a ++ b).
Proof using SW.
  destruct SW as [AS NT]. intros [I H] [J K]. unfold arg_pair. destruct (lt (fst y) (fst x)) eqn:E; (split; [apply in_or_app; auto|]); intros u U; apply in_app_or in U; destruct U as [U|U]; auto.
  - destruct (lt (fst x) (fst u)) eqn:Q; [|reflexivity]. destruct (NT _ (fst y) _ Q) as [C|C]; [now rewrite (AS _ _ E) in C|now rewrite (K u U) in C].
  - destruct (lt (fst y) (fst u)) eqn:Q; [|reflexivity]. destruct (NT _ (fst x) _ Q) as [C|C]; [congruence|now rewrite (H u U) in C].
Qed.
Lemma arg_row_ok n t r : 0 < n -> exists w, arg_row lt n t r = Ok (t (r * n + w), eye_row n w) /\ w < n /\ forall v, v < n -> lt (t (r * n + w)) (t (r * n + v)) = false.
Proof using SW.
  intros P. unfold arg_row. destruct (tree_reduce_rel (arg_pair lt) largest) with (l := map (fun w => (t (r * n + w), eye_row n w)) (seq 0 n)) as (x & E & I & H).
  - intros y. split; [now left|]. intros z [<-|[]]. apply lt_irrefl.
  - intros. now apply largest_pair.
  - intros x a b PM [I H]. split; [now apply (Permutation_in _ PM)|]. intros y Y. apply H. apply (Permutation_in _ (Permutation_sym PM)). exact Y.
  - destruct n; [lia|discriminate].
  - rewrite E. cbn [rbind]. apply in_map_iff in I. destruct I as (w & <- & I). apply in_seq in I. exists w. split; [reflexivity|]. split; [lia|].
    intros v V. apply (H (t (r * n + v), eye_row n v)). apply in_map_iff. exists v. split; [reflexivity|apply in_seq; lia].
Qed.
Lemma eye_nth n w x : x < n -> nth x (eye_row n w) false = (w =? x).
Proof. intros H. unfold eye_row. rewrite (nth_map_in (Nat.eqb w) (seq 0 n) x 0) by (now rewrite seq_length). now rewrite seq_nth. Qed.
Lemma cell_along o v (S B W : list nat) N : length S = length B -> length N = length B -> length W = length B -> inside N o -> inside W v -> along (zipWith Nat.mul o S) (map (fun _ => 1) B) v = cell S o v.
Proof.
  intros LS LN LW Io Iv. pose proof (inside_len _ _ Iv) as Lv. pose proof (inside_len _ _ Io) as Ln. unfold along, cell. f_equal. apply (nth_ext _ _ 0 0); [rewrite zip_len; rewrite ?map_length; lia|].
  intros a Ha. rewrite zip_len in Ha by (rewrite map_length; lia). rewrite zip_nth by (rewrite ?map_length; lia). rewrite (nth_map_in (fun _ => 1) B a 0) by lia. lia.
Qed.

Theorem argmax_windows_ok c sh (a : nat -> A) W S pads ret : Forall (eq (0, 0)) pads -> window_fits sh pads (map (fun _ => 1) sh) W S (map (fun _ => 1) sh) ret -> 0 < numel ret ->
  (Z.of_nat (numel W) < 2 ^ 31)%Z ->
  exists z m, argmax_windows lt c (sh, a) W S pads ret = Ok ((ret, z), (ret ++ [numel W], m)) /\ is_argmax lt sh ret W S a z m.
Proof using SW.
  intros Z (LP & LE & LW & LS & LD & LR & FIT) RP WB. unfold argmax_windows. cbn [fst]. rewrite LP, Nat.eqb_refl. cbn [negb]. rewrite no_padding by exact Z.
  unfold expand_padded. cbn [fst]. rewrite LP, Nat.eqb_refl. cbn [negb]. rewrite no_padding by exact Z.
  assert (FA : forall x, x < length sh -> 0 < nth x W 0 /\ 0 < nth x S 0 /\ 0 < nth x ret 0 /\ forall i, i < nth x ret 0 <-> i * nth x S 0 + nth x W 0 <= nth x sh 0).
  { intros x Hx. specialize (FIT x Hx). assert (PZ : nth x pads (0, 0) = (0, 0)) by (rewrite Forall_forall in Z; symmetry; apply Z, nth_In; lia). rewrite PZ in FIT. cbn [fst snd] in FIT.
    rewrite (nth_map_in (fun _ => 1) sh x 0) in FIT by exact Hx. destruct FIT as (D0 & _ & W0 & S0 & _ & H). split; [exact W0|]. split; [exact S0|]. split; [apply (numel_nth ret RP); lia|]. intros i. rewrite H. lia. }
  assert (WP : 0 < numel W) by (apply nth_numel; intros x Hx; apply (FA x); lia).
  destruct (expand_ok (fun _ _ => c) (fun _ _ _ => eq_refl) (fun _ _ => eq_refl) c (sh, a) sh (fun idx => a (flat sh idx)) W S ret) as (t & E & HT); [split; [reflexivity|intros; reflexivity]|lia|lia|lia|exact FA|].
  rewrite E. cbn [rbind]. rewrite int_product_small by exact WB. destruct (Z.ltb_spec (Z.of_nat (numel W)) 0); [lia|]. rewrite Nat2Z.id. change (total_size W) with (numel W). rewrite Nat.eqb_refl. cbn [negb].
  unfold reshaped. cbn [fst snd]. change (total_size (ret ++ [numel W])) with (numel (ret ++ [numel W])). change (total_size (ret ++ W)) with (numel (ret ++ W)). rewrite !numel_app.
  replace (numel ret * numel [numel W] =? numel ret * numel W) with true by (symmetry; apply Nat.eqb_eq; f_equal; unfold numel; cbn; lia). cbn [rbind snd]. change (total_size ret) with (numel ret).
  set (n := numel W) in *.
  assert (G : forall l0, exists l, rmap (arg_row lt n t) l0 = Ok l /\ length l = length l0 /\
    forall j, j < length l0 -> exists w, nth j l (c, []) = (t (nth j l0 0 * n + w), eye_row n w) /\ w < n /\ forall v, v < n -> lt (t (nth j l0 0 * n + w)) (t (nth j l0 0 * n + v)) = false).
  { induction l0 as [|r l0 (l & E1 & L1 & H1)]; [exists []; split; [reflexivity|]; split; [reflexivity|]; cbn [length]; intros; lia|]. destruct (arg_row_ok n t r WP) as (w & EW & LTW & HW). exists ((t (r * n + w), eye_row n w) :: l). cbn [rmap]. rewrite EW, E1. cbn [rbind].
    split; [reflexivity|]. split; [cbn; lia|]. intros [|j] J; cbn [nth]; [exists w; split; [reflexivity|split; [exact LTW|exact HW]]|]. apply H1. cbn in J. lia. }
  destruct (G (seq 0 (numel ret))) as (l & EL & LL & HL). rewrite seq_length in LL, HL. rewrite EL. cbn [rbind]. unfold from_list. eexists _, _. split; [reflexivity|].
  intros o Io. pose proof (flat_lt ret o Io) as FO. destruct (HL (flat ret o) FO) as (w & EW & LTW & HW). rewrite seq_nth in EW, HW by exact FO. cbn [Nat.add] in EW, HW.
  destruct (inside_index W w LTW) as [IW FW]. exists (index_of W w). split; [exact IW|].
  assert (VT : forall x, inside W x -> t (flat ret o * n + flat W x) = a (flat sh (cell S o x))) by (intros x Ix; unfold n; rewrite HT by assumption; now rewrite (cell_along o x S sh W ret) by (assumption || lia)).
  cbv beta. split; [|split].
  - rewrite (nth_map_in fst l (flat ret o) (c, [])) by lia. rewrite EW. cbn [fst]. rewrite <- FW at 1. now apply VT.
  - intros x Ix. specialize (HW (flat W x) (flat_lt W x Ix)). rewrite <- FW in HW at 1. rewrite !VT in HW by assumption. exact HW.
  - intros x Ix. pose proof (flat_lt W x Ix) as FX. fold n. rewrite pos_div, pos_mod by exact FX. rewrite EW. cbn [snd]. rewrite eye_nth by exact FX.
    destruct (Nat.eqb_spec w (flat W x)) as [->|Q]; [symmetry; apply same_true; symmetry; now apply index_of_flat|]. destruct (same x _) eqn:SM; [|reflexivity]. apply same_true in SM. exfalso. apply Q. now rewrite SM, FW.
Qed.
End Rows.

(* ---- the path for windows of two by two ---- *)
Lemma slice_dim_slack st stop g w : 0 < w -> 0 < g -> st + ((w - 1) * g + 1) <= stop <= st + w * g -> slice_dim st stop g = Ok w.
Proof.
  intros W G H. destruct w as [|w]; [lia|]. replace (S w - 1) with w in H by lia. assert (SG : S w * g = w * g + g) by (cbn; lia). rewrite SG in H. unfold slice_dim. cbv zeta.
  remember (stop - st - w * g) as q eqn:Q. assert (D : stop - st = w * g + q) by (generalize dependent (w * g); intros; lia). assert (Hq : 1 <= q <= g) by (generalize dependent (w * g); intros; lia). rewrite D. clear D Q H.
  destruct (Nat.eqb_spec (w * g + q) 1) as [E|E]; [f_equal; destruct w; [reflexivity|]; exfalso; cbn in E; lia|]. destruct (Nat.eqb_spec g 0); [lia|]. f_equal.
  destruct (Nat.eq_dec q g) as [->|NQ].
  - replace (w * g + g) with (S w * g) by lia. rewrite Nat.div_mul, Nat.mod_mul by lia. cbn. lia.
  - rewrite pos_div, pos_mod by lia. destruct (Nat.eqb_spec q 0); lia.
Qed.
Lemma slice_dims_slack : forall P st stop g W, length st = length P -> length stop = length P -> length g = length P -> length W = length P ->
  (forall a, a < length P -> nth a st 0 + ((nth a W 0 - 1) * nth a g 0 + 1) <= nth a stop 0 <= nth a st 0 + nth a W 0 * nth a g 0 /\ nth a stop 0 <= nth a P 0 /\ 0 < nth a W 0 /\ 0 < nth a g 0) ->
  slice_dims P st stop g = Ok W.
Proof.
  induction P as [|p P IH]; intros [|s st] [|e stop] [|g gs] [|w W] L1 L2 L3 L4 H; cbn [length] in *; try lia; [reflexivity|].
  apply peel in H. destruct H as [H0 H]. cbn [nth] in H0. destruct H0 as (E & LE & WP & GP). cbn [slice_dims].
  destruct (Nat.leb_spec e p); [|lia]. rewrite (slice_dim_slack s e g w) by assumption. cbn [rbind]. rewrite (IH st stop gs W); try lia; [reflexivity|]. exact H.
Qed.
Lemma sliced_slack {A} (v : arr A) P b st stop g W : reads v P b -> length st = length P -> length stop = length P -> length g = length P -> length W = length P ->
  (forall a, a < length P -> nth a st 0 + ((nth a W 0 - 1) * nth a g 0 + 1) <= nth a stop 0 <= nth a st 0 + nth a W 0 * nth a g 0 /\ nth a stop 0 <= nth a P 0 /\ 0 < nth a W 0 /\ 0 < nth a g 0) ->
  exists w, sliced v st stop g = Ok w /\ reads w W (fun i => b (along st g i)).
Proof.
  intros [F R] L1 L2 L3 L4 H. unfold sliced. rewrite F, (slice_dims_slack P st stop g W L1 L2 L3 L4 H). cbn [rbind]. eexists. split; [reflexivity|]. split; [reflexivity|].
  cbn [snd]. intros i I. rewrite index_of_flat, position_flat by exact I. apply R. pose proof (inside_len _ _ I) as LI.
  apply inside_nth; [rewrite along_len; lia|]. intros a B. rewrite along_nth by lia. destruct (H a B) as (E & LE & WP & GP).
  pose proof (nth_inside W i a I ltac:(lia)). enough (nth a i 0 * nth a g 0 <= (nth a W 0 - 1) * nth a g 0) by lia. apply Nat.mul_le_mono_r. lia.
Qed.
Lemma zip_arr_ok {X Y C} (g : X -> Y -> C) x y P bx by_ : reads x P bx -> reads y P by_ -> exists z, zip_arr g x y = Ok z /\ reads z P (fun i => g (bx i) (by_ i)).
Proof. intros [F1 R1] [F2 R2]. unfold zip_arr. rewrite F1, F2, same_shape_refl. eexists. split; [reflexivity|]. split; [reflexivity|]. cbn [snd]. intros i I. now rewrite R1, R2. Qed.
Lemma last_flat P i k : inside P i -> flat (P ++ [2]) (i ++ [k]) = flat P i * 2 + k.
Proof. intros I. rewrite flat_app by exact I. unfold numel. cbn. lia. Qed.
(* the last coordinate and the others *)
Definition tl_ (i : list nat) : nat := last i 0.
Definition hd_ (i : list nat) : list nat := removelast i.
Lemma inside_snoc P d i : inside (P ++ [d]) i -> exists j k, i = j ++ [k] /\ inside P j /\ k < d.
Proof. intros I. apply Forall2_app_inv_l in I. destruct I as (j & m & I & J & ->). inversion J as [|? k ? ? K J']; subst. inversion J'; subst. exists j, k. auto. Qed.
Lemma doubled_ok {X} (x : arr X) P b : reads x P b -> reads (doubled x) (P ++ [2]) (fun i => b (hd_ i)).
Proof.
  intros [F R]. unfold doubled. rewrite F. split; [reflexivity|]. cbn [snd]. intros i I. destruct (inside_snoc P 2 i I) as (j & k & -> & J & K). rewrite last_flat by exact J. rewrite pos_div by exact K. unfold hd_. rewrite removelast_last. now apply R.
Qed.
Lemma paired_ok {X} (x y : arr X) P bx by_ : reads x P bx -> reads y P by_ -> reads (paired x y) (P ++ [2]) (fun i => if tl_ i =? 0 then bx (hd_ i) else by_ (hd_ i)).
Proof.
  intros [F1 R1] [F2 R2]. unfold paired. rewrite F1. split; [reflexivity|]. cbn [snd]. intros i I. destruct (inside_snoc P 2 i I) as (j & k & -> & J & K). rewrite last_flat by exact J. rewrite pos_div, pos_mod by exact K. unfold hd_, tl_. rewrite removelast_last, last_last. destruct (k =? 0); [now apply R1|now apply R2].
Qed.
Lemma joined_at {X} s (x y : arr X) bx by_ j k : reads x (s ++ [2]) bx -> reads y (s ++ [2]) by_ -> inside s j -> k < 4 -> snd (joined s x y) (flat s j * 4 + k) = if k <? 2 then bx (j ++ [k]) else by_ (j ++ [k - 2]).
Proof.
  intros [_ R1] [_ R2] J K. unfold joined. cbn [snd]. rewrite pos_div, pos_mod by exact K. destruct (Nat.ltb_spec k 2) as [L|L]; rewrite <- last_flat by exact J; [apply R1|apply R2]; (apply inside_app; [exact J|constructor; [lia|constructor]]).
Qed.
Lemma reads_map {X Y} (g : X -> Y) (x : arr X) P b : reads x P b -> reads (fst x, fun p => g (snd x p)) P (fun i => g (b i)).
Proof. intros [F R]. split; [exact F|]. cbn [snd]. intros i I. now rewrite R. Qed.

Section Fast.
Context {A : Type}.
Variable lt : A -> A -> bool.
Hypothesis SW : strict_weak lt.
Ltac axes := let a := fresh "a" in let H := fresh "H" in intros a H; cbn [length] in H; destruct a as [|[|[|[|[|a]]]]]; cbn [nth]; try (exfalso; lia); repeat split; lia.

(* the later of two elements unless the earlier is above it *)
Definition later (x y : A) : A := if lt y x then x else y.
Lemma later_best x y : lt (later x y) x = false /\ lt (later x y) y = false.
Proof using SW. destruct SW as [AS NT]. unfold later. destruct (lt y x) eqn:E; split; auto; apply (lt_irrefl lt); exact SW. Qed.
Lemma not_lt_trans x y z : lt x y = false -> lt y z = false -> lt x z = false.
Proof using SW. destruct SW as [AS NT]. intros H K. destruct (lt x z) eqn:E; [|reflexivity]. destruct (NT x y z E); congruence. Qed.
Lemma four_best p q r s : let m := later (later p q) (later r s) in lt m p = false /\ lt m q = false /\ lt m r = false /\ lt m s = false.
Proof using SW.
  cbv zeta. destruct (later_best p q) as [A1 A2]. destruct (later_best r s) as [A3 A4]. destruct (later_best (later p q) (later r s)) as [A5 A6].
  repeat split; [apply (not_lt_trans _ (later p q))|apply (not_lt_trans _ (later p q))|apply (not_lt_trans _ (later r s))|apply (not_lt_trans _ (later r s))]; assumption.
Qed.
Lemma mask_pick (u : nat -> nat -> A) (z : A) (m : nat -> bool) : z = later (later (u 0 0) (u 0 1)) (later (u 1 0) (u 1 1)) ->
  m 0 = lt (later (u 1 0) (u 1 1)) (later (u 0 0) (u 0 1)) && lt (u 0 1) (u 0 0) -> m 1 = lt (later (u 1 0) (u 1 1)) (later (u 0 0) (u 0 1)) && negb (lt (u 0 1) (u 0 0)) ->
  m 2 = negb (lt (later (u 1 0) (u 1 1)) (later (u 0 0) (u 0 1))) && lt (u 1 1) (u 1 0) -> m 3 = negb (lt (later (u 1 0) (u 1 1)) (later (u 0 0) (u 0 1))) && negb (lt (u 1 1) (u 1 0)) ->
  exists c1 c2, c1 < 2 /\ c2 < 2 /\ z = u c1 c2 /\ forall x1 x2, x1 < 2 -> x2 < 2 -> m (x1 * 2 + x2) = (x1 =? c1) && (x2 =? c2).
Proof.
  unfold later at 1. set (T := later (u 0 0) (u 0 1)). set (B := later (u 1 0) (u 1 1)). assert (ET : T = if lt (u 0 1) (u 0 0) then u 0 0 else u 0 1) by reflexivity. assert (EB : B = if lt (u 1 1) (u 1 0) then u 1 0 else u 1 1) by reflexivity.
  clearbody T B. intros -> M0 M1 M2 M3. destruct (lt B T), (lt (u 0 1) (u 0 0)), (lt (u 1 1) (u 1 0)); cbn [negb andb] in M0, M1, M2, M3; rewrite ?ET, ?EB;
  match goal with |- context [u ?p ?q = _] => exists p, q end; (split; [lia|]); (split; [lia|]); (split; [reflexivity|]); intros [|[|x1]] [|[|x2]] X1 X2; try (exfalso; clear - X1; lia); try (exfalso; clear - X2; lia); cbn [Nat.mul Nat.add Nat.eqb andb]; assumption.
Qed.
Theorem argmax_fast_ok d0 d1 d2 d3 s0 s1 s2 s3 r1 r2 (a : nat -> A) : 0 < d0 -> 0 < d3 -> 0 < s1 -> 0 < s2 -> 0 < r1 -> 0 < r2 ->
  (r1 - 1) * s1 + 2 <= d1 <= r1 * s1 + 1 -> (r2 - 1) * s2 + 2 <= d2 <= r2 * s2 + 1 ->
  exists z m, argmax_fast lt (([d0; d1; d2; d3], a)) [s0; s1; s2; s3] = Ok (([d0; r1; r2; d3], z), ([d0; r1; r2; d3; 4], m)) /\
    is_argmax lt [d0; d1; d2; d3] [d0; r1; r2; d3] [1; 2; 2; 1] [1; s1; s2; 1] a z m.
Proof using SW.
  intros D0 D3 S1 S2 R1 R2 H1 H2. assert (D1 : 0 < d1) by (clear - H1; generalize dependent ((r1 - 1) * s1); intros; lia).
  unfold argmax_fast. cbn [fst]. set (b := fun i => a (flat [d0; d1; d2; d3] i)).
  assert (RV : reads ([d0; d1; d2; d3], a) [d0; d1; d2; d3] b) by (split; [reflexivity|intros; reflexivity]).
  destruct (sliced_slack ([d0; d1; d2; d3], a) [d0; d1; d2; d3] b [0; 0; 0; 0] [d0; d1; d2 - 1; d3] [1; 1; s2; 1] [d0; d1; r2; d3] RV) as (lhs & E1 & RL); try reflexivity; [axes|]. rewrite E1. cbn [rbind].
  destruct (sliced_slack ([d0; d1; d2; d3], a) [d0; d1; d2; d3] b [0; 0; 1; 0] [d0; d1; d2; d3] [1; 1; s2; 1] [d0; d1; r2; d3] RV) as (rhs & E2 & RR); try reflexivity; [axes|]. rewrite E2. cbn [rbind].
  destruct (zip_arr_ok lt rhs lhs _ _ _ RR RL) as (hc & E3 & RC). rewrite E3. cbn [rbind].
  destruct (zip_arr_ok (fun l r => if lt r l then l else r) lhs rhs _ _ _ RL RR) as (hm & E4 & RM). rewrite E4. cbn [rbind].
  pose proof RM as [FM _]. rewrite FM. pose proof (paired_ok hc _ _ _ _ RC (reads_map negb hc _ _ RC)) as RI. cbn [app] in RI.
  destruct (sliced_slack hm _ _ [0; 0; 0; 0] [d0; d1 - 1; r2; d3] [1; s1; 1; 1] [d0; r1; r2; d3] RM) as (up & E5 & RU); try reflexivity; [axes|]. rewrite E5. cbn [rbind].
  destruct (sliced_slack hm _ _ [0; 1; 0; 0] [d0; d1; r2; d3] [1; s1; 1; 1] [d0; r1; r2; d3] RM) as (bo & E6 & RB); try reflexivity; [axes|]. rewrite E6. cbn [rbind].
  destruct (zip_arr_ok lt bo up _ _ _ RB RU) as (vc & E7 & RVC). rewrite E7. cbn [rbind].
  destruct (zip_arr_ok (fun u b => if lt b u then u else b) up bo _ _ _ RU RB) as (mx & E8 & RX). rewrite E8. cbn [rbind].
  destruct (sliced_slack _ _ _ [0; 0; 0; 0; 0] [d0; d1 - 1; r2; d3; 2] [1; s1; 1; 1; 1] [d0; r1; r2; d3; 2] RI) as (us & E9 & RUS); try reflexivity; [axes|]. rewrite E9. cbn [rbind].
  destruct (sliced_slack _ _ _ [0; 1; 0; 0; 0] [d0; d1; r2; d3; 2] [1; s1; 1; 1; 1] [d0; r1; r2; d3; 2] RI) as (bs & E10 & RBS); try reflexivity; [axes|]. rewrite E10. cbn [rbind].
  destruct (zip_arr_ok andb _ us _ _ _ (doubled_ok vc _ _ RVC) RUS) as (us2 & E11 & RU2). rewrite E11. cbn [rbind].
  destruct (zip_arr_ok andb _ bs _ _ _ (doubled_ok _ _ _ (reads_map negb vc _ _ RVC)) RBS) as (bs2 & E12 & RB2). rewrite E12. cbn [rbind].
  pose proof RVC as [FVC _]. rewrite FVC. pose proof RX as [FX RX']. destruct mx as [fx z]. cbn [fst snd] in FX, RX'. subst fx. exists z. eexists. split; [reflexivity|].
  intros o Io. inversion Io as [|? o0 ? l0 I0 J0]; subst. inversion J0 as [|? o1 ? l1 I1 J1]; subst. inversion J1 as [|? o2 ? l2 I2 J2]; subst. inversion J2 as [|? o3 ? l3 I3 J3]; subst. inversion J3; subst. clear J0 J1 J2 J3.
  set (o := [o0; o1; o2; o3]) in *. specialize (RX' o Io).
  assert (MK : forall k, k < 4 -> snd (joined [d0; r1; r2; d3] us2 bs2) (flat [d0; r1; r2; d3] o * 4 + k) = _) by (intros k K; apply (joined_at [d0; r1; r2; d3] us2 bs2 _ _ o k RU2 RB2 Io K)).
  unfold o, along, hd_, tl_ in RX', MK. cbn [zipWith app removelast last] in RX', MK.
  assert (Q : forall c1 c2, [0 + (0 + o0 * 1) * 1; 0 + (c1 + o1 * s1) * 1; c2 + (0 + o2 * 1) * s2; 0 + (0 + o3 * 1) * 1] = cell [1; s1; s2; 1] [o0; o1; o2; o3] [0; c1; c2; 0]).
  { intros c1 c2. unfold cell. cbn [zipWith]. assert (T : (0 + o2 * 1) * s2 = o2 * s2) by (f_equal; lia). rewrite T. f_equal; [lia|]. f_equal; [generalize (o1 * s1); intros; lia|]. f_equal; [generalize (o2 * s2); intros; lia|]. f_equal. lia. }
  rewrite !Q in RX'. assert (M0 := MK 0 ltac:(lia)). assert (M1 := MK 1 ltac:(lia)). assert (M2 := MK 2 ltac:(lia)). assert (M3 := MK 3 ltac:(lia)). clear MK. cbn [Nat.ltb Nat.leb Nat.sub Nat.eqb Nat.mul] in M0, M1, M2, M3.
  rewrite !Q in M0, M1, M2, M3. change (0 + 0 =? 0) with true in M0, M2. change (0 + 1 =? 0) with false in M1, M3. cbv iota in M0, M1, M2, M3. clear Q.
  set (u := fun c1 c2 => b (cell [1; s1; s2; 1] [o0; o1; o2; o3] [0; c1; c2; 0])).
  change (b (cell [1; s1; s2; 1] [o0; o1; o2; o3] [0; 0; 0; 0])) with (u 0 0) in *. change (b (cell [1; s1; s2; 1] [o0; o1; o2; o3] [0; 0; 1; 0])) with (u 0 1) in *.
  change (b (cell [1; s1; s2; 1] [o0; o1; o2; o3] [0; 1; 0; 0])) with (u 1 0) in *. change (b (cell [1; s1; s2; 1] [o0; o1; o2; o3] [0; 1; 1; 0])) with (u 1 1) in *.
  destruct (four_best (u 0 0) (u 0 1) (u 1 0) (u 1 1)) as (B0 & B1 & B2 & B3). unfold later in B0, B1, B2, B3. rewrite <- RX' in B0, B1, B2, B3.
  assert (WH : exists c1 c2, c1 < 2 /\ c2 < 2 /\ z (flat [d0; r1; r2; d3] [o0; o1; o2; o3]) = u c1 c2 /\
    forall x1 x2, x1 < 2 -> x2 < 2 -> snd (joined [d0; r1; r2; d3] us2 bs2) (flat [d0; r1; r2; d3] [o0; o1; o2; o3] * 4 + (x1 * 2 + x2)) = (x1 =? c1) && (x2 =? c2)).
  { exact (mask_pick u (z (flat [d0; r1; r2; d3] [o0; o1; o2; o3])) (fun k => snd (joined [d0; r1; r2; d3] us2 bs2) (flat [d0; r1; r2; d3] [o0; o1; o2; o3] * 4 + k)) RX' M0 M1 M2 M3). }
  destruct WH as (c1 & c2 & L1 & L2 & ZE & MM). clear - L1 L2 ZE MM B0 B1 B2 B3. exists [0; c1; c2; 0]. split; [repeat (constructor; [lia|]); constructor|]. split; [exact ZE|].
  assert (IN : forall x, inside [1; 2; 2; 1] x -> exists x1 x2, x = [0; x1; x2; 0] /\ x1 < 2 /\ x2 < 2).
  { intros x Ix. inversion Ix as [|? y0 ? l0 Y0 K0]; subst. inversion K0 as [|? y1 ? l1 Y1 K1]; subst. inversion K1 as [|? y2 ? l2 Y2 K2]; subst. inversion K2 as [|? y3 ? l3 Y3 K3]; subst. inversion K3; subst. exists y1, y2. split; [|lia]. repeat f_equal; lia. }
  split; intros x Ix; destruct (IN x Ix) as (x1 & x2 & -> & X1 & X2).
  - change (lt (u c1 c2) (u x1 x2) = false). rewrite <- ZE. destruct x1 as [|[|]], x2 as [|[|]]; try lia; assumption.
  - change (numel [1; 2; 2; 1]) with 4. replace (flat [1; 2; 2; 1] [0; x1; x2; 0]) with (x1 * 2 + x2) by (cbn [flat]; unfold numel; cbn [fold_right]; lia). transitivity ((x1 =? c1) && (x2 =? c2)); [exact (MM x1 x2 X1 X2)|].
    destruct (Nat.eqb_spec x1 c1) as [->|N1]; [destruct (Nat.eqb_spec x2 c2) as [->|N2]|]; cbn [andb].
    + symmetry. now apply same_true.
    + destruct (same _ _) eqn:SM; [|reflexivity]. apply same_true in SM. congruence.
    + destruct (same _ _) eqn:SM; [|reflexivity]. apply same_true in SM. congruence.
Qed.

Theorem argmax_ok c sh (a : nat -> A) W S D E pads ret : Forall (eq (0, 0)) pads -> Forall (eq 1) D -> Forall (eq 1) E -> length D = length sh -> length E = length sh ->
  window_fits sh pads E W S D ret -> 0 < numel ret -> (Z.of_nat (numel W) < 2 ^ 31)%Z -> (W = [1; 2; 2; 1] -> nth 0 S 0 = 1 /\ nth 3 S 0 = 1) ->
  exists z m, argmax lt c (sh, a) W S D E pads ret = Ok ((ret, z), (ret ++ [numel W], m)) /\ is_argmax lt sh ret W S a z m.
Proof using SW.
  intros Z OD OE LD LE FIT RP WB ST.
  assert (ones : forall l, Forall (eq 1) l -> length l = length sh -> l = map (fun _ => 1) sh).
  { intros l H. clear - H. revert sh. induction H as [|x l <- H IH]; intros [|d sh] L; cbn in L; try lia; [reflexivity|]. cbn. f_equal. apply IH. lia. }
  assert (allone : forall l, Forall (eq 1) l -> forallb (Nat.eqb 1) l = true) by (intros l H; apply forallb_forall; rewrite Forall_forall in H; intros x X; rewrite <- (H x X); reflexivity).
  unfold argmax. rewrite no_padding by exact Z. cbn [negb]. rewrite andb_true_r. destruct (same_shape W [1; 2; 2; 1]) eqn:SM.
  - apply same_shape_true in SM. subst W. specialize (ST eq_refl). destruct FIT as (LP & _ & LW & LS & _ & LR & FIT). cbn [length] in LW.
    destruct sh as [|d0 [|d1 [|d2 [|d3 [|]]]]]; cbn [length] in LW; try lia. destruct S as [|s0 [|s1 [|s2 [|s3 [|]]]]]; cbn [length] in LS; try lia. destruct ret as [|r0 [|r1 [|r2 [|r3 [|]]]]]; cbn [length] in LR; try lia.
    cbn [nth] in ST. destruct ST as [-> ->]. cbn [length] in LP.
    assert (FA : forall x, x < 4 -> 0 < nth x [d0; d1; d2; d3] 0 /\ 0 < nth x [1; s1; s2; 1] 0 /\ 0 < nth x [r0; r1; r2; r3] 0 /\ forall i, i < nth x [r0; r1; r2; r3] 0 <-> i * nth x [1; s1; s2; 1] 0 + nth x [1; 2; 2; 1] 0 <= nth x [d0; d1; d2; d3] 0).
    { intros x Hx. specialize (FIT x Hx). assert (PZ : nth x pads (0, 0) = (0, 0)) by (rewrite Forall_forall in Z; symmetry; apply Z, nth_In; lia). rewrite PZ in FIT. cbn [fst snd] in FIT.
      rewrite (ones D OD LD), (ones E OE LE) in FIT. rewrite (nth_map_in (fun _ => 1) [d0; d1; d2; d3] x 0) in FIT by (cbn [length]; lia). destruct FIT as (D0 & _ & W0 & S0 & _ & H). split; [exact D0|]. split; [exact S0|]. split; [apply (numel_nth _ RP); cbn [length]; lia|]. intros i. rewrite H. lia. }
    destruct (FA 0 ltac:(lia)) as (P0 & _ & R0 & F0). destruct (FA 1 ltac:(lia)) as (P1 & Q1 & R1 & F1). destruct (FA 2 ltac:(lia)) as (P2 & Q2 & R2 & F2). destruct (FA 3 ltac:(lia)) as (P3 & _ & R3 & F3). cbn [nth] in *.
    assert (r0 = d0) as -> by (pose proof (F0 (d0 - 1)); pose proof (F0 d0); lia). assert (r3 = d3) as -> by (pose proof (F3 (d3 - 1)); pose proof (F3 d3); lia).
    assert (BD : forall r s d, 0 < r -> (forall i, i < r <-> i * s + 2 <= d) -> (r - 1) * s + 2 <= d <= r * s + 1).
    { intros r s d R F. split; [apply F; lia|]. pose proof (F r) as G. destruct (Nat.le_gt_cases (r * s + 2) d) as [C|C]; [apply G in C; lia|]. generalize dependent (r * s). intros. lia. }
    change ([d0; r1; r2; d3] ++ [numel [1; 2; 2; 1]]) with [d0; r1; r2; d3; 4]. apply argmax_fast_ok; auto.
  - rewrite !allone by assumption. cbn [andb]. rewrite (ones D OD LD), (ones E OE LE) in FIT. now apply argmax_windows_ok.
Qed.
End Fast.
Theorem argmax_padding {A} (lt : A -> A -> bool) c v W S D E pads ret : ~ Forall (eq (0, 0)) pads -> argmax lt c v W S D E pads ret = Err.
Proof.
  intros N. assert (H : existsb (fun '(l, h) => negb (l =? 0) || negb (h =? 0)) pads = true).
  { destruct (existsb _ pads) eqn:X; [reflexivity|]. exfalso. apply N. apply Forall_forall. intros [l h] I. destruct (Nat.eq_dec l 0) as [->|L], (Nat.eq_dec h 0) as [->|L']; [reflexivity| | |];
    (rewrite <- not_true_iff_false in X; exfalso; apply X; apply existsb_exists; eexists; split; [exact I|]; cbv beta iota; repeat match goal with |- context [?n =? 0] => destruct (Nat.eqb_spec n 0) end; cbn; congruence). }
  unfold argmax, argmax_windows. rewrite H, andb_false_r. destruct (_ && _); [|reflexivity]. destruct (negb _); reflexivity.
Qed.
