(* Folding a non-empty list with an associative operator: [fold1] is the specification,
   the option-lifted monoid sum is the proof device. *)
From Verif Require Import Base.

Definition fold1 {T} (f : T -> T -> T) (xs : list T) : option T :=
  match xs with [] => None | x :: xs' => Some (fold_left f xs' x) end.

Section Fold.
  Context {T : Type} (f : T -> T -> T).
  Hypothesis assoc : forall a b c, f a (f b c) = f (f a b) c.

  Definition lf (a b : option T) : option T :=
    match a, b with Some x, Some y => Some (f x y) | None, y => y | x, None => x end.
  Lemma lf_assoc a b c : lf a (lf b c) = lf (lf a b) c.
  Proof using assoc. destruct a, b, c; cbn; auto. now rewrite assoc. Qed.
  Lemma lf_none_r a : lf a None = a.
  Proof. now destruct a. Qed.

  Fixpoint msum (xs : list T) : option T :=
    match xs with [] => None | x :: xs' => lf (Some x) (msum xs') end.
  Lemma msum_app a b : msum (a ++ b) = lf (msum a) (msum b).
  Proof using assoc. induction a as [|x a IH]; cbn [app msum]; [now destruct (msum b)|]. now rewrite IH, lf_assoc. Qed.
  Lemma fold1_msum xs : fold1 f xs = msum xs.
  Proof using assoc.
    destruct xs as [|x xs]; [reflexivity|]. cbn [fold1 msum].
    revert x; induction xs as [|y xs IH]; intros x; cbn [fold_left msum]; [reflexivity|].
    rewrite IH. destruct (msum xs); cbn; [now rewrite assoc|reflexivity].
  Qed.

  Hypothesis comm : forall a b, f a b = f b a.
  Lemma lf_comm a b : lf a b = lf b a.
  Proof using comm. destruct a, b; cbn; auto. now rewrite comm. Qed.
  Lemma msum_zip : forall a b, length a = length b -> msum (zipWith f a b) = lf (msum a) (msum b).
  Proof using assoc comm.
    induction a as [|x a IH]; destruct b as [|y b]; cbn [length zipWith msum]; intros L; try lia; [reflexivity|].
    rewrite IH by lia. destruct (msum a) as [u|], (msum b) as [v|]; cbn; auto.
    - f_equal. rewrite !assoc. f_equal. rewrite <- !assoc. f_equal. apply comm.
    - f_equal. rewrite <- !assoc. f_equal. apply comm.
    - f_equal. now rewrite assoc.
  Qed.
  Lemma msum_perm a b : Permutation a b -> msum a = msum b.
  Proof using assoc comm.
    induction 1; cbn [msum]; auto; [now rewrite IHPermutation| |congruence].
    rewrite !lf_assoc. f_equal. apply lf_comm.
  Qed.
End Fold.
