(* Values and runs of the aby3 protocol. *)
From Verif Require Import Base Ring_spec Aby_model Aby_spec Disp_model Hlo_model Abyp_model.
Open Scope Z_scope.

(* the role draws do not overflow (the others fail: C27_roles_refuted) *)
Definition good_roles (T : tapes3) : Prop := forall t, 0 <= t3_piv T t /\ t3_piv T t + 2 < 2 ^ 64.
(* x is an element, of any visibility and any share type, whose plaintext is the word a *)
Definition encodes3 (k : Z) (T : tapes3) (x : val (aby_proto k T)) (a : Z) : Prop :=
  word k a /\
  match x with
  | VP p => p = a
  | VV o f => (o < 3)%nat /\ f o = a
  | VA s => repA k s a
  | VB s => repBn k (bw s) (bn s) (bx s) a
  end.
(* the computation succeeds, and every party that is shown the result learns a *)
Definition results3 (k : Z) (T : tapes3) (m : M (val (aby_proto k T))) (a : Z) : Prop :=
  forall t, exists r t', m t = Ok (r, t') /\ encodes3 k T r a /\ forall rank, (rank < 3)%nat -> reveal3 k T rank r = a.
(* ... if it succeeds *)
Definition if_done3 (k : Z) (T : tapes3) (m : M (val (aby_proto k T))) (a : Z) : Prop :=
  forall t r t', m t = Ok (r, t') -> encodes3 k T r a /\ forall rank, (rank < 3)%nat -> reveal3 k T rank r = a.
(* lists of elements, and arrays (shape and elements) *)
Definition results_list3 (k : Z) (T : tapes3) (m : M (list (val (aby_proto k T)))) (vs : list Z) : Prop :=
  forall t, exists r t', m t = Ok (r, t') /\ Forall2 (encodes3 k T) r vs /\ forall rank, (rank < 3)%nat -> map (reveal3 k T rank) r = vs.
Definition enc_arr3 (k : Z) (T : tapes3) (x : arr (aby_proto k T)) (v : list Z * list Z) : Prop :=
  a_sh x = fst v /\ Forall2 (encodes3 k T) (a_el x) (snd v).
Definition results_arrs3 (k : Z) (T : tapes3) (m : M (list (arr (aby_proto k T)))) (vs : list (list Z * list Z)) : Prop :=
  forall t, exists r t', m t = Ok (r, t') /\ Forall2 (enc_arr3 k T) r vs /\
    forall rank, (rank < 3)%nat -> map (fun x => map (reveal3 k T rank) (a_el x)) r = map snd vs.
