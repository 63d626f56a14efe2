From Coq Require Import ZifyBool ZifyNat.
From Verif Require Import Base Nd_model Ndm_model Fold.

Lemma vreduce_spec {T} (f : T -> T -> T) :
  (forall a b c, f a (f b c) = f (f a b) c) -> (forall a b, f a b = f b a) ->
  forall fuel xs, (length xs <= fuel)%nat -> xs <> [] -> vreduce fuel (zipWith f) xs = fold1 f xs.
Proof.
  intros A C fuel xs HF NE. rewrite (fold1_msum f A).
  revert xs HF NE. induction fuel as [|fuel IH]; intros xs HF NE.
  - destruct xs; [congruence|cbn [length] in HF; lia].
  - destruct xs as [|x [|y xs]]; [congruence|reflexivity|].
    set (l := x :: y :: xs) in *. cbn [vreduce]. unfold l at 1.
    change (vreduce fuel (zipWith f)
      (zipWith f (firstn (length l / 2) l) (firstn (length l / 2) (skipn (length l / 2) l)) ++
       (if (length l mod 2 =? 1)%nat then skipn (length l - 1) l else [])) = msum f l).
    assert (L2 : (2 <= length l)%nat) by (unfold l; cbn [length]; lia).
    set (h := (length l / 2)%nat).
    pose proof (Nat.div_mod (length l) 2 ltac:(lia)) as DM. fold h in DM.
    pose proof (Nat.mod_upper_bound (length l) 2 ltac:(lia)) as MB.
    assert (Hh : (1 <= h)%nat) by lia.
    assert (LA : length (firstn h l) = h) by (rewrite firstn_length; lia).
    assert (LB : length (firstn h (skipn h l)) = h) by (rewrite firstn_length, skipn_length; lia).
    set (tl := if (length l mod 2 =? 1)%nat then skipn (length l - 1) l else []).
    assert (Sp : l = firstn h l ++ firstn h (skipn h l) ++ tl).
    { assert (Et : tl = skipn h (skipn h l)).
      { unfold tl. rewrite skipn_skipn'. destruct (Nat.eqb_spec (length l mod 2) 1).
        - f_equal. lia.
        - rewrite skipn_all2; [reflexivity|lia]. }
      rewrite Et, !firstn_skipn. reflexivity. }
    assert (LT : length tl = (length l mod 2)%nat).
    { unfold tl. destruct (Nat.eqb_spec (length l mod 2) 1); [rewrite skipn_length; lia|cbn [length]; lia]. }
    rewrite IH.
    + rewrite (msum_app f A), (msum_zip f A C) by lia. rewrite Sp at 3.
      rewrite !(msum_app f A). now rewrite (lf_assoc f A).
    + rewrite app_length, zipWith_length, LT. lia.
    + intros E. apply (f_equal (@length T)) in E. rewrite app_length, zipWith_length in E. cbn [length] in E. lia.
Qed.
