(* Specification of values and correlated randomness of a semi2k run. *)
From Verif Require Import Base Ring_spec Share_spec Conv_spec Disp_model Disps_model.
Open Scope Z_scope.

(* the dealer's and the generators' outputs are as C09, C12 and C19 say *)
Record good_tapes (k : Z) (n : nat) (T : tapes) : Prop := mkGood {
  gt_r : forall t i, (i < n)%nat -> word k (tp_r T t i);
  gt_mul : forall t, exists a b c, shA k n (tp_a T t) a /\ shA k n (tp_b T t) b /\ shA k n (tp_c T t) c /\ is_mod k (a * b) c;
  gt_sq : forall t, exists a b, shA k n (tp_sa T t) a /\ shA k n (tp_sb T t) b /\ is_mod k (a * a) b;
  gt_vv : forall t, exists c, is_mod k (tp_va T t 0%nat * tp_va T t 1%nat) c /\ is_mod k (tp_vc T t 0%nat + tp_vc T t 1%nat) c;
  gt_and : forall t, good_triples n (tp_ta T t) (tp_tb T t) (tp_tc T t);
  gt_prss : forall t, prss_words k n (tp_prss T t);
  gt_bits : forall t, random_bits k n (tp_bits T t) (Z.to_nat k);
  gt_eq : forall t, exists r, shA k n (tp_ra T t) r /\ shB k n (tp_rb T t) r;
  gt_piv : forall t, (tp_piv T t < n)%nat }.

(* x is an element, of any visibility and any share type, whose plaintext is the word a *)
Definition encodes (k : Z) (n : nat) (T : tapes) (x : val (semi_proto k n T)) (a : Z) : Prop :=
  word k a /\
  match x with
  | VP p => p = a
  | VV o f => (o < n)%nat /\ f o = a
  | VA s => shA k n s a
  | VB s => shBn k n (fst s) (snd s) a
  end.
(* the computation succeeds, and every party that is shown the result learns a *)
Definition results (k : Z) (n : nat) (T : tapes) (m : M (val (semi_proto k n T))) (a : Z) : Prop :=
  forall t, exists r t', m t = Ok (r, t') /\ encodes k n T r a /\ forall rank, (rank < n)%nat -> reveal k n T rank r = a.
