(* General definitions and lemmas shared by all topics: machine words as
   integers modulo 2^k, signed readings, finite sums, list helpers.
   Nothing here models code by itself except [wrap] and [sgn], the two readings
   of a two's complement machine word used by every C++ integer cast. *)
From Coq Require Export ZArith List Lia Bool Permutation Arith Setoid Morphisms.
From Coq Require Import ZifyBool ZifyNat ZifyN.
Export ListNotations.
Open Scope Z_scope.

(* [wrap k x]: the unsigned k-bit word congruent to x
   (C++ conversion to an unsigned k-bit type; libspu/core/type_util.h ring2k_t). *)
Definition wrap (k x : Z) : Z := x mod 2 ^ k.

(* [sgn k x]: the signed reading of a k-bit word (two's complement,
   std::make_signed_t<ring2k_t>). *)
Definition sgn (k x : Z) : Z := if x <? 2 ^ (k - 1) then x else x - 2 ^ k.

(* sum of a list of integers *)
Fixpoint sumZ (l : list Z) : Z :=
  match l with [] => 0 | x :: t => x + sumZ t end.

(* bitwise xor of a list of words *)
Fixpoint xorZ (l : list Z) : Z :=
  match l with [] => 0 | x :: t => Z.lxor x (xorZ t) end.

Definition nthZ (l : list Z) (i : nat) : Z := nth i l 0.

(* pointwise operations on equally long lists *)
Fixpoint zipWith {A B C} (f : A -> B -> C) (a : list A) (b : list B) : list C :=
  match a, b with
  | x :: a', y :: b' => f x y :: zipWith f a' b'
  | _, _ => []
  end.

Lemma pow2_pos k : 0 <= k -> 0 < 2 ^ k.
Proof. intros; apply Z.pow_pos_nonneg; lia. Qed.

Lemma pow2_split a b : 0 <= a -> 0 <= b -> 2 ^ (a + b) = 2 ^ a * 2 ^ b.
Proof. intros; apply Z.pow_add_r; lia. Qed.

Lemma pow2_half k : 0 < k -> 2 ^ k = 2 * 2 ^ (k - 1).
Proof.
  intros H. replace k with (1 + (k - 1)) at 1 by lia.
  rewrite Z.pow_add_r by lia. reflexivity.
Qed.

Lemma wrap_range k x : 0 <= k -> 0 <= wrap k x < 2 ^ k.
Proof. intros H. unfold wrap. apply Z.mod_pos_bound. now apply pow2_pos. Qed.

Lemma wrap_small k x : 0 <= x < 2 ^ k -> wrap k x = x.
Proof. intros H. unfold wrap. now apply Z.mod_small. Qed.

Lemma wrap_wrap k x : wrap k (wrap k x) = wrap k x.
Proof.
  unfold wrap. destruct (Z.eq_dec (2 ^ k) 0) as [E|E].
  - rewrite E, !Zmod_0_r. reflexivity.
  - now rewrite Z.mod_mod.
Qed.

Lemma wrap_add_l k x y : wrap k (wrap k x + y) = wrap k (x + y).
Proof.
  unfold wrap. destruct (Z.eq_dec (2 ^ k) 0) as [E|E].
  - rewrite E, !Zmod_0_r. reflexivity.
  - now rewrite Z.add_mod_idemp_l.
Qed.

Lemma wrap_add_r k x y : wrap k (x + wrap k y) = wrap k (x + y).
Proof. rewrite Z.add_comm, wrap_add_l, Z.add_comm. reflexivity. Qed.

Lemma wrap_mul_l k x y : wrap k (wrap k x * y) = wrap k (x * y).
Proof.
  unfold wrap. destruct (Z.eq_dec (2 ^ k) 0) as [E|E].
  - rewrite E, !Zmod_0_r. reflexivity.
  - now rewrite Z.mul_mod_idemp_l.
Qed.

Lemma wrap_mul_r k x y : wrap k (x * wrap k y) = wrap k (x * y).
Proof. rewrite Z.mul_comm, wrap_mul_l, Z.mul_comm. reflexivity. Qed.

Lemma wrap_sub_l k x y : wrap k (wrap k x - y) = wrap k (x - y).
Proof. unfold Z.sub. apply wrap_add_l. Qed.

Lemma wrap_sub_r k x y : wrap k (x - wrap k y) = wrap k (x - y).
Proof.
  unfold wrap. destruct (Z.eq_dec (2 ^ k) 0) as [E|E].
  - rewrite E, !Zmod_0_r. reflexivity.
  - now rewrite Zminus_mod_idemp_r.
Qed.

Lemma wrap_opp k x : wrap k (- wrap k x) = wrap k (- x).
Proof. replace (- wrap k x) with (0 - wrap k x) by lia. now rewrite wrap_sub_r. Qed.

(* congruence modulo 2^k, the workhorse of all share identities *)
Definition eqm (k x y : Z) : Prop := wrap k x = wrap k y.

Lemma eqm_refl k x : eqm k x x. Proof. reflexivity. Qed.
Lemma eqm_sym k x y : eqm k x y -> eqm k y x. Proof. unfold eqm; congruence. Qed.
Lemma eqm_trans k x y z : eqm k x y -> eqm k y z -> eqm k x z.
Proof. unfold eqm; congruence. Qed.

Lemma eqm_wrap k x : eqm k (wrap k x) x.
Proof. apply wrap_wrap. Qed.

Lemma eqm_add k a b c d : eqm k a b -> eqm k c d -> eqm k (a + c) (b + d).
Proof.
  unfold eqm; intros H1 H2.
  rewrite <- wrap_add_l, <- wrap_add_r, H1, H2, wrap_add_r, wrap_add_l. reflexivity.
Qed.

Lemma eqm_mul k a b c d : eqm k a b -> eqm k c d -> eqm k (a * c) (b * d).
Proof.
  unfold eqm; intros H1 H2.
  rewrite <- wrap_mul_l, <- wrap_mul_r, H1, H2, wrap_mul_r, wrap_mul_l. reflexivity.
Qed.

Lemma eqm_opp k a b : eqm k a b -> eqm k (- a) (- b).
Proof. unfold eqm; intros H. rewrite <- wrap_opp, H, wrap_opp. reflexivity. Qed.

Lemma eqm_sub k a b c d : eqm k a b -> eqm k c d -> eqm k (a - c) (b - d).
Proof. intros; unfold Z.sub; apply eqm_add; auto using eqm_opp. Qed.

Lemma eqm_of_eq k a b : a = b -> eqm k a b.
Proof. intros ->; reflexivity. Qed.

Lemma eqm_mult k x q : eqm k (x + q * 2 ^ k) x.
Proof.
  unfold eqm, wrap. destruct (Z.eq_dec (2 ^ k) 0) as [E|E].
  - rewrite E. rewrite Z.mul_0_r, Z.add_0_r. reflexivity.
  - now rewrite Z.mod_add.
Qed.

Lemma eqm_exists k x y : 0 <= k -> eqm k x y -> exists q, x = y + q * 2 ^ k.
Proof.
  unfold eqm, wrap; intros Hk H.
  pose proof (pow2_pos k Hk).
  exists (x / 2 ^ k - y / 2 ^ k).
  pose proof (Z.div_mod x (2 ^ k)). pose proof (Z.div_mod y (2 ^ k)). nia.
Qed.

Add Parametric Relation (k : Z) : Z (eqm k)
  reflexivity proved by (eqm_refl k)
  symmetry proved by (eqm_sym k)
  transitivity proved by (eqm_trans k)
  as eqm_rel.

Add Parametric Morphism (k : Z) : Z.add with signature eqm k ==> eqm k ==> eqm k as eqm_add_mor.
Proof. intros; now apply eqm_add. Qed.
Add Parametric Morphism (k : Z) : Z.mul with signature eqm k ==> eqm k ==> eqm k as eqm_mul_mor.
Proof. intros; now apply eqm_mul. Qed.
Add Parametric Morphism (k : Z) : Z.sub with signature eqm k ==> eqm k ==> eqm k as eqm_sub_mor.
Proof. intros; now apply eqm_sub. Qed.
Add Parametric Morphism (k : Z) : Z.opp with signature eqm k ==> eqm k as eqm_opp_mor.
Proof. intros; now apply eqm_opp. Qed.

(* signed reading *)
Lemma sgn_range k x : 0 < k -> 0 <= x < 2 ^ k -> - 2 ^ (k - 1) <= sgn k x < 2 ^ (k - 1).
Proof.
  intros Hk Hx. pose proof (pow2_half k Hk). unfold sgn.
  destruct (Z.ltb_spec x (2 ^ (k - 1))); lia.
Qed.

Lemma eqm_sgn k x : eqm k (sgn k x) x.
Proof.
  unfold sgn. destruct (x <? 2 ^ (k - 1)); [reflexivity|].
  replace (x - 2 ^ k) with (x + (-1) * 2 ^ k) by lia. apply eqm_mult.
Qed.

Lemma wrap_sgn k x : 0 <= x < 2 ^ k -> wrap k (sgn k x) = x.
Proof. intros H. rewrite (eqm_sgn k x : wrap k _ = wrap k _). now apply wrap_small. Qed.

Lemma sgn_wrap k x : 0 < k -> - 2 ^ (k - 1) <= x < 2 ^ (k - 1) -> sgn k (wrap k x) = x.
Proof.
  intros Hk Hx. pose proof (pow2_half k Hk). unfold sgn, wrap.
  destruct (Z.ltb_spec x 0).
  - assert (E : x mod 2 ^ k = x + 2 ^ k).
    { symmetry. apply Z.mod_unique with (-1); lia. }
    rewrite E. destruct (Z.ltb_spec (x + 2 ^ k) (2 ^ (k - 1))); lia.
  - rewrite Z.mod_small by lia. destruct (Z.ltb_spec x (2 ^ (k - 1))); lia.
Qed.

(* sums *)
Lemma sumZ_app l1 l2 : sumZ (l1 ++ l2) = sumZ l1 + sumZ l2.
Proof. induction l1; cbn [sumZ app]; lia. Qed.

Lemma sumZ_map_add {A} (f g : A -> Z) l :
  sumZ (map (fun a => f a + g a) l) = sumZ (map f l) + sumZ (map g l).
Proof. induction l; cbn [sumZ map]; lia. Qed.

Lemma sumZ_map_mul_l {A} c (f : A -> Z) l :
  sumZ (map (fun a => c * f a) l) = c * sumZ (map f l).
Proof. induction l; cbn [sumZ map]; lia. Qed.

Lemma sumZ_eqm_map {A} k (f g : A -> Z) l :
  (forall a, In a l -> eqm k (f a) (g a)) -> eqm k (sumZ (map f l)) (sumZ (map g l)).
Proof.
  induction l as [|a l IH]; cbn [sumZ map]; intros H; [reflexivity|].
  apply eqm_add; [apply H; left; reflexivity|]. apply IH; intros; apply H; now right.
Qed.

Lemma sumZ_perm l1 l2 : Permutation l1 l2 -> sumZ l1 = sumZ l2.
Proof. induction 1; cbn [sumZ]; lia. Qed.

Lemma xorZ_app l1 l2 : xorZ (l1 ++ l2) = Z.lxor (xorZ l1) (xorZ l2).
Proof. induction l1; cbn [xorZ app]; [now rewrite Z.lxor_0_l|]. now rewrite IHl1, Z.lxor_assoc. Qed.

Lemma zipWith_length {A B C} (f : A -> B -> C) a b :
  length (zipWith f a b) = Nat.min (length a) (length b).
Proof. revert b; induction a; destruct b; cbn [zipWith length]; auto. now rewrite IHa. Qed.

Lemma nth_zipWith {A B C} (f : A -> B -> C) a b i da db dc :
  (i < length a)%nat -> (i < length b)%nat ->
  nth i (zipWith f a b) dc = f (nth i a da) (nth i b db).
Proof.
  revert b i; induction a as [|x a IH]; destruct b as [|y b]; cbn [length]; intros i Ha Hb; try lia.
  destruct i; cbn [zipWith nth]; [reflexivity|]. apply IH; lia.
Qed.

Lemma nth_map_lt {A B} (f : A -> B) l i da db :
  (i < length l)%nat -> nth i (map f l) db = f (nth i l da).
Proof.
  intros H. rewrite nth_indep with (d' := f da) by now rewrite map_length.
  apply map_nth.
Qed.

Lemma list_eq_nth {A} (l1 l2 : list A) d :
  length l1 = length l2 ->
  (forall i, (i < length l1)%nat -> nth i l1 d = nth i l2 d) -> l1 = l2.
Proof.
  revert l2; induction l1 as [|x l1 IH]; destruct l2 as [|y l2]; cbn [length]; intros HL H; try lia; auto.
  f_equal; [exact (H 0%nat ltac:(lia))|].
  apply IH; [lia|]. intros i Hi. exact (H (S i) ltac:(lia)).
Qed.

Lemma seq_nth_map {A} (l : list A) d : map (fun i => nth i l d) (seq 0 (length l)) = l.
Proof.
  apply list_eq_nth with d; rewrite map_length, seq_length; [reflexivity|].
  intros i Hi. rewrite nth_map_lt with (da := 0%nat) by now rewrite seq_length.
  now rewrite seq_nth.
Qed.

(* Outcome of a modelled C++ function: normal result, an exception
   (SPU_ENFORCE / SPU_THROW / std::exception), or undefined behaviour. *)
Inductive res (A : Type) : Type := Ok (a : A) | Err | Ub.
Arguments Ok {A} a. Arguments Err {A}. Arguments Ub {A}.

Definition rbind {A B} (r : res A) (f : A -> res B) : res B :=
  match r with Ok a => f a | Err => Err | Ub => Ub end.

(* run f over a list left to right, stopping at the first failure *)
Fixpoint rmap {A B} (f : A -> res B) (l : list A) : res (list B) :=
  match l with
  | [] => Ok []
  | x :: t => rbind (f x) (fun y => rbind (rmap f t) (fun ys => Ok (y :: ys)))
  end.

Lemma rmap_ok {A B} (f : A -> res B) g l :
  (forall x, In x l -> f x = Ok (g x)) -> rmap f l = Ok (map g l).
Proof.
  induction l as [|x t IH]; cbn [rmap map]; intros H; [reflexivity|].
  rewrite (H x (or_introl eq_refl)); cbn [rbind].
  rewrite IH by (intros; apply H; now right). reflexivity.
Qed.

Lemma NoDup_map_in {A B} (f : A -> B) l :
  (forall x y, In x l -> In y l -> f x = f y -> x = y) -> NoDup l -> NoDup (map f l).
Proof.
  intros Hf ND. induction ND as [|x l Hx ND IH]; cbn [map]; constructor.
  - intros C. apply in_map_iff in C as [y [E Hy]]. assert (y = x) by (apply Hf; [now right|now left|exact E]).
    subst. contradiction.
  - apply IH. intros a b Ha Hb. apply Hf; now right.
Qed.
Lemma sumZ_cons x l : sumZ (x :: l) = x + sumZ l.
Proof. reflexivity. Qed.
Lemma skipn_skipn' {A} (l : list A) a b : skipn a (skipn b l) = skipn (a + b) l.
Proof.
  revert b; induction l as [|x l IH]; intros b; [now rewrite !skipn_nil|].
  destruct b; [now rewrite Nat.add_0_r|]. rewrite Nat.add_succ_r. cbn [skipn]. apply IH.
Qed.
