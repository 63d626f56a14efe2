(* C71: SelectAndScatter and MaxPoolScatter (libspu/kernel/hlo/select_and_scatter.cc). *)
From Verif Require Import Base Dyn_spec Redn_model Redn_spec Redn_proof Sas_model Sas_spec Sas_proof Sasw_proof Sass_proof.
Open Scope nat_scope.

Theorem C71_select_and_scatter_partial {A} (sel : A -> A -> bool) (f : A -> A -> A) (e : A) B N W S (base src : nat -> A) pads :
  (forall a b c, as_good sel a b -> as_good sel b c -> as_good sel a c) ->
  (forall a b c, f a (f b c) = f (f a b) c) -> (forall a b, f a b = f b a) -> (forall a, f e a = a) ->
  tiles B N W S -> length pads = length B -> Forall (eq (0, 0)) pads ->
  exists pos z, select_and_scatter e sel f (B, base) (N, src) e W S pads = Ok (B, z) /\
    (forall n, inside N n -> inside W (pos n) /\ forall w, inside W w -> as_good sel (base (flat B (cell S n (pos n)))) (base (flat B (cell S n w)))) /\
    is_scattered f e B N W S src (fun n w => same w (pos n)) z.
Proof. intros G H1 H2 H3. exact (select_and_scatter_ok sel G f e H1 H2 H3 B N W S base src pads). Qed.
Theorem C71_accepts_only_tiled {A} (zero : A) sel f B N W S (base src : nat -> A) init pads z :
  (forall a, a < length W -> 0 < nth a N 0 /\ 0 < nth a W 0 /\ 0 < nth a S 0) ->
  select_and_scatter zero sel f (B, base) (N, src) init W S pads = Ok z -> tiles B N W S.
Proof. exact (accepts_only_tiled zero sel f B N W S base src init pads z). Qed.
Theorem C71_max_pool_scatter {A} (add : A -> A -> A) (zero : A) B N W S (src : nat -> A) hot pads :
  (forall a b c, add a (add b c) = add (add a b) c) -> (forall a b, add a b = add b a) -> (forall a, add zero a = a) ->
  tiles B N W S -> Forall (eq (0, 0)) pads ->
  exists z, max_pool_scatter zero add (N ++ [numel W]) hot (N, src) W B S pads = Ok (B, z) /\
    is_scattered add zero B N W S src (fun n w => hot (flat N n * numel W + flat W w)) z.
Proof. intros H1 H2 H3. exact (max_pool_scatter_ok add zero H1 H2 H3 B N W S src hot pads). Qed.

(* examples: windows of two cells moved by one over three cells, the largest cell selected *)
Definition ge_sel (a b : Z) : bool := (b <=? a)%Z.
Definition l_arr (l : list Z) (p : nat) : Z := nth p l 0%Z.
Example C71_ex_tiles : tiles [3] [2] [2] [1].
Proof. repeat split; destruct a as [|a]; cbn in *; lia. Qed.
Example C71_ex_good (a b c : Z) : as_good ge_sel a b -> as_good ge_sel b c -> as_good ge_sel a c.
Proof. unfold as_good, ge_sel. rewrite !Z.leb_le, !Z.leb_gt. lia. Qed.
Example C71_ex_run : match select_and_scatter 0%Z ge_sel Z.add ([3], l_arr [1; 7; 2]%Z) ([2], l_arr [10; 20]%Z) 0%Z [2] [1] [(0, 0)] with Ok z => map (snd z) [0; 1; 2] = [0; 30; 0]%Z | _ => False end.
Proof. vm_compute. reflexivity. Qed.
Example C71_ex_spec : forall z, is_scattered Z.add 0%Z [3] [2] [2] [1] (l_arr [10; 20]%Z) (fun n w => same (cell [1] n w) [1]) z -> z 0 = 0%Z /\ z 1 = 30%Z /\ z 2 = 0%Z.
Proof.
  intros z H. split; [|split]; [exact (H [0] ltac:(repeat constructor; cbn; lia))|exact (H [1] ltac:(repeat constructor; cbn; lia))|exact (H [2] ltac:(repeat constructor; cbn; lia))].
Qed.

(* padding: windows that lie within the padded base are refused *)
Theorem C71_padding_refuted : exists (B N W S : list nat) pads, window_fits B pads [1] W S [1] N /\
  forall base src z, select_and_scatter 0%Z ge_sel Z.add (B, base) (N, src) 0%Z W S pads <> Ok z.
Proof.
  exists [3], [2], [2], [2], [(0, 1)]. split.
  - repeat split; destruct a as [|a]; cbn in *; lia.
  - intros base src z E. destruct (accepts_only_tiled _ _ _ [3] [2] [2] [2] base src _ _ _ ltac:(intros [|a] Ha; cbn in *; lia) E) as (_ & _ & _ & T). specialize (T 0 ltac:(cbn; lia)). cbn in T. lia.
Qed.
(* an initial value that is not neutral is not combined with the sources *)
Theorem C71_initial_value_refuted : exists (init : Z) (src : nat -> Z) z, tiles [1] [1] [1] [1] /\
  select_and_scatter 0%Z ge_sel Z.add ([1], l_arr [3]%Z) ([1], src) init [1] [1] [(0, 0)] = Ok z /\
  ~ exists pos, (forall n, inside [1] n -> inside [1] (pos n)) /\ is_scattered Z.add init [1] [1] [1] [1] src (fun n w => same w (pos n)) (snd z).
Proof.
  exists 1%Z, (l_arr [5]%Z). eexists. split; [repeat split; destruct a as [|a]; cbn in *; lia|]. split; [cbv - [Z.add l_arr]; reflexivity|].
  intros (pos & I & H). specialize (I [0] ltac:(repeat constructor; cbn; lia)). specialize (H [0] ltac:(repeat constructor; cbn; lia)).
  assert (P : pos [0] = [0]). { inversion I as [|? x ? l LT F]; subst. inversion F; subst. f_equal. cbn in LT. lia. }
  cbn [indices seq flat_map map app list_prod filter fst snd cell zipWith Nat.mul Nat.add] in H. rewrite P in H. vm_compute in H. discriminate H.
Qed.
(* among equal cells the first is not always the one selected *)
Theorem C71_first_of_equals_refuted : exists base : nat -> Z, base 1 = base 2 /\
  match select_and_scatter 0%Z ge_sel Z.add ([4], base) ([1], l_arr [9]%Z) 0%Z [4] [1] [(0, 0)] with Ok z => snd z 1 = 0%Z /\ snd z 2 = 9%Z | _ => False end.
Proof. exists (l_arr [1; 5; 5; 1]%Z). split; [reflexivity|]. vm_compute. split; reflexivity. Qed.

Print Assumptions C71_select_and_scatter_partial.
Print Assumptions C71_accepts_only_tiled.
Print Assumptions C71_max_pool_scatter.
Print Assumptions C71_padding_refuted.
Print Assumptions C71_initial_value_refuted.
Print Assumptions C71_first_of_equals_refuted.
