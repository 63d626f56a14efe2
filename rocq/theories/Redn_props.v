(* C65 and C66: reductions over axes and over windows. *)
From Verif Require Import Base Fold Dyn_spec Mm_model Redn_model Redn_spec Redn_proof Rednw_proof.
Open Scope nat_scope.

(* C65: Reduce returns the shape with the reduced axes of length one, and every element is the combination of exactly the operand
   elements that agree with it on the other axes, and of the initial value unless it is ignored *)
Theorem C65_reduce {A} (f : A -> A -> A) sh ix ign init (a : nat -> A) :
  (forall x y z, f x (f y z) = f (f x y) z) -> (forall x y, f x y = f y x) ->
  Forall (fun d => d < length sh) ix -> (forall d, In d ix -> 0 < nth d sh 0) ->
  exists z, reduce f ign init ix (sh, a) = Ok (reduced_shape sh ix, z) /\ is_reduced f ign init sh ix a z.
Proof. intros AS CO IX P. exact (reduce_ok f sh ix IX AS CO ign init a P). Qed.
(* reducing an empty axis to a non-empty result is refused, also when an initial value is given *)
Theorem C65_empty_axis {A} (f : A -> A -> A) sh ix ign init (a : nat -> A) d :
  Forall (fun d => d < length sh) ix -> In d ix -> nth d sh 0 = 0 -> 0 < numel (reduced_shape sh ix) -> reduce f ign init ix (sh, a) = Err.
Proof. intros IX. exact (reduce_empty f sh ix IX ign init a d). Qed.

(* C66: ReduceWindow combines, for every window position, the elements of the padded and dilated operand under the window; the
   initial value takes part unless ignored, and with a dilation always does *)
Theorem C66_reduce_window {A} (f : A -> A -> A) ign init sh (a : nat -> A) pads E W St D ret b :
  (forall x y z, f x (f y z) = f (f x y) z) -> (forall x y, f x y = f y x) ->
  window_fits sh pads E W St D ret -> 0 < numel ret -> (Z.of_nat (numel W) < 2 ^ 31)%Z ->
  is_padding sh (map fst pads) E a init b ->
  exists z, reduce_window f ign init (sh, a) W St D E pads ret = Ok (ret, z) /\
    is_window_reduced f (ign && (forallb (Nat.eqb 1) D && forallb (Nat.eqb 1) E)) init ret W St D b z.
Proof. intros AS CO. exact (reduce_window_ok f AS CO ign init sh a pads E W St D ret b). Qed.
Theorem C66_padding_exists {A} sh lo E (a : nat -> A) c :
  length lo = length sh -> length E = length sh -> Forall (fun e => 0 < e) E -> exists b, is_padding sh lo E a c b.
Proof. exact (padding_exists sh lo E a c). Qed.
(* a result without elements is never returned: some ENFORCE refuses it *)
Theorem C66_empty_result {A} f ign (init : A) v W St D E pads ret : numel ret = 0 -> 0 < numel W -> (Z.of_nat (numel W) < 2 ^ 31)%Z ->
  forall w, reduce_window f ign init v W St D E pads ret <> Ok w.
Proof. exact (empty_result f ign init v W St D E pads ret). Qed.

(* values of an array, to compare by computation *)
Definition contents {A} (r : res (arr A)) : option (list nat * list A) :=
  match r with Ok (sh, z) => Some (sh, map z (seq 0 (numel sh))) | _ => None end.
Open Scope Z_scope.
Definition cells (p : nat) : Z := Z.of_nat (p * p + 1).
(* a 2 x 3 x 2 array summed over its first and last axes *)
Example C65_sum : contents (reduce Z.add false 100 [2; 0]%nat ([2; 3; 2]%nat, cells)) = Some ([1; 3; 1]%nat, [100 + 1 + 2 + 37 + 50; 100 + 5 + 10 + 65 + 82; 100 + 17 + 26 + 101 + 122]).
Proof. reflexivity. Qed.
Example C65_sum_spec : exists z, reduce Z.add false 100 [2; 0]%nat ([2; 3; 2]%nat, cells) = Ok (reduced_shape [2; 3; 2]%nat [2; 0]%nat, z) /\ is_reduced Z.add false 100 [2; 3; 2]%nat [2; 0]%nat cells z.
Proof. apply C65_reduce; [intros; ring|intros; ring|repeat constructor|]. intros d [<-|[<-|[]]]; cbn; auto with arith. Qed.
Example C65_empty : reduce Z.add false 0 [1]%nat ([2; 0]%nat, cells) = Err.
Proof. reflexivity. Qed.
(* an axis outside the shape writes outside out_shape *)
Example C65_outside : reduce Z.add false 0 [3]%nat ([2; 2]%nat, cells) = Ub.
Proof. reflexivity. Qed.
(* windows of length two, stride two, dilated by two, over a row padded by one cell on the left *)
Example C66_fits : window_fits [4]%nat [(1, 0)]%nat [2]%nat [2]%nat [2]%nat [3]%nat [3]%nat.
Proof. repeat split; cbn in *; try lia; destruct a; cbn in *; try lia. Qed.
Example C66_dilated : contents (reduce_window Z.add false 0 ([4]%nat, cells) [2]%nat [2]%nat [3]%nat [2]%nat [(1, 0)]%nat [3]%nat) = Some ([3]%nat, [2; 5; 10]).
Proof. reflexivity. Qed.
Example C66_plain : contents (reduce_window Z.max true 0 ([3; 3]%nat, cells) [2; 2]%nat [1; 1]%nat [1; 1]%nat [1; 1]%nat [(0, 0); (1, 0)]%nat [2; 3]%nat) = Some ([2; 3]%nat, [10; 17; 26; 37; 50; 65]).
Proof. reflexivity. Qed.
(* with a dilation the caller's request to ignore the initial value has no effect *)
Theorem C66_ignore_init_refuted : exists (a : nat -> Z) z, reduce_window Z.add true 100 ([3]%nat, a) [2]%nat [1]%nat [2]%nat [1]%nat [(0, 0)]%nat [1]%nat = Ok ([1]%nat, z) /\ z 0%nat <> a 0%nat + a 2%nat.
Proof. exists cells. eexists. split; [reflexivity|]. cbn. discriminate. Qed.
Example C66_empty : reduce_window Z.add false 0 ([2]%nat, cells) [3]%nat [1]%nat [1]%nat [1]%nat [(0, 0)]%nat [0]%nat = Err.
Proof. reflexivity. Qed.
Print Assumptions C65_reduce.
Print Assumptions C65_empty_axis.
Print Assumptions C66_reduce_window.
Print Assumptions C66_padding_exists.
Print Assumptions C66_empty_result.
Print Assumptions C66_ignore_init_refuted.
