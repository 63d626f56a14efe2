(* Specification of serialised values. *)
From Verif Require Import Ty_model Base Nd_model Nd_spec Val_model.
Open Scope list_scope.
Open Scope Z_scope.

(* an array whose elements are byte strings of length [es] *)
Definition good_array (es : Z) (a : nd) : Prop :=
  wf a /\ forall idx, valid idx (shp a) -> exists v, get a idx = Ok v /\ 0 <= v < 256 ^ es.
Definition same_array (a b : nd) : Prop := shp b = shp a /\ forall idx, valid idx (shp a) -> get b idx = get a idx.
(* chunks that follow each other from [pos] to [fin] *)
Fixpoint consecutive (pos : Z) (cs : list chunk) (fin : Z) : Prop :=
  match cs with [] => pos = fin | c :: r => coffset c = pos /\ consecutive (pos + clen c) r fin end.
