(* Primality of the Mersenne numbers used by the code: Fermat's little theorem and Pocklington's criterion. *)
From Coq Require Import Znumtheory Zpow_facts.
From Verif Require Import Base.
Open Scope Z_scope.

Definition prodZ (l : list Z) : Z := fold_right Z.mul 1 l.
Lemma prod_perm a b : Permutation a b -> prodZ a = prodZ b.
Proof. unfold prodZ. induction 1 as [|x l l' H IH|x y l|l l' l'' H IH H' IH']; cbn [fold_right]; [reflexivity|rewrite IH; reflexivity|ring|congruence]. Qed.
Lemma prod_rel_prime r l : prime r -> (forall x, In x l -> ~ (r | x)) -> ~ (r | prodZ l).
Proof.
  intros P. induction l as [|x l IH]; cbn; intros A D.
  - destruct P as (P & _). apply Z.divide_pos_le in D; lia.
  - apply prime_mult in D; [|exact P]. destruct D as [D|D]; [apply (A x); auto|apply IH; auto].
Qed.
Section Fermat.
Context (r a : Z) (P : prime r) (NA : ~ (r | a)).
Definition below : list Z := map Z.of_nat (seq 1 (Z.to_nat (r - 1))).
Lemma below_in x : In x below <-> 1 <= x < r.
Proof using P.
  pose proof (prime_ge_2 _ P). unfold below. rewrite in_map_iff. split.
  - intros (i & <- & I). apply in_seq in I. lia.
  - intros H1. exists (Z.to_nat x). rewrite in_seq. lia.
Qed.
Lemma below_nodup : NoDup below.
Proof. unfold below. apply FinFun.Injective_map_NoDup; [intros x y; lia|apply seq_NoDup]. Qed.
Lemma mul_inj x y : 1 <= x < r -> 1 <= y < r -> (a * x) mod r = (a * y) mod r -> x = y.
Proof using P NA.
  pose proof (prime_ge_2 _ P) as G. intros X Y E.
  assert (D : (r | a * (x - y))).
  { apply Z.mod_divide; [lia|]. rewrite Z.mul_sub_distr_l, Zminus_mod, E, Z.sub_diag. apply Zmod_0_l. }
  apply prime_mult in D; [|exact P]. destruct D as [D|D]; [contradiction|].
  destruct (Z.eq_dec x y) as [|NE]; [assumption|exfalso].
  destruct (Z.lt_ge_cases x y).
  - apply Z.divide_opp_r in D. apply Z.divide_pos_le in D; lia.
  - apply Z.divide_pos_le in D; lia.
Qed.
Lemma mul_perm : Permutation (map (fun x => (a * x) mod r) below) below.
Proof using P NA.
  pose proof (prime_ge_2 _ P) as G. apply NoDup_Permutation_bis.
  - clear - P NA. assert (H : forall l, NoDup l -> (forall x, In x l -> 1 <= x < r) -> NoDup (map (fun x => (a * x) mod r) l)).
    { induction l as [|x l IH]; cbn; intros N R; [constructor|]. inversion N; subst. constructor; [|apply IH; auto].
      rewrite in_map_iff. intros (y & E & I). apply mul_inj in E; auto. subst. contradiction. }
    apply H; [apply below_nodup|]. intros x. apply below_in.
  - rewrite map_length. apply le_n.
  - intros x. rewrite in_map_iff. intros (y & <- & I). apply below_in. apply below_in in I.
    pose proof (Z.mod_pos_bound (a * y) r ltac:(lia)). assert ((a * y) mod r <> 0); [|lia].
    intros E. apply Z.mod_divide in E; [|lia]. apply prime_mult in E; [|exact P]. destruct E as [E|E]; [contradiction|].
    apply Z.divide_pos_le in E; lia.
Qed.
Lemma prod_map l : 1 < r -> prodZ (map (fun x => (a * x) mod r) l) mod r = (a ^ Z.of_nat (length l) * prodZ l) mod r.
Proof.
  intros R. induction l as [|x l IH]; cbn [map prodZ fold_right length]; [reflexivity|].
  fold (prodZ l). fold (prodZ (map (fun x => (a * x) mod r) l)).
  rewrite Z.mul_mod_idemp_l by lia. rewrite Z.mul_mod, IH, <- Z.mul_mod by lia.
  rewrite Nat2Z.inj_succ, Z.pow_succ_r by lia. f_equal. ring.
Qed.
Lemma fermat : a ^ (r - 1) mod r = 1.
Proof using P NA.
  pose proof (prime_ge_2 _ P) as G. pose proof (prod_map below ltac:(lia)) as E.
  rewrite (prod_perm _ _ mul_perm) in E. unfold below in E at 2. rewrite map_length, seq_length in E.
  replace (Z.of_nat (Z.to_nat (r - 1))) with (r - 1) in E by lia.
  assert (D : (r | (a ^ (r - 1) - 1) * prodZ below)).
  { apply Z.mod_divide; [lia|]. rewrite Z.mul_sub_distr_r, Z.mul_1_l, Zminus_mod, <- E, Z.sub_diag. apply Zmod_0_l. }
  apply prime_mult in D; [|exact P]. destruct D as [D|D].
  - replace (a ^ (r - 1)) with ((a ^ (r - 1) - 1) + 1) by ring. rewrite Z.add_mod by lia.
    apply Z.mod_divide in D; [|lia]. rewrite D. cbn. rewrite Z.mod_mod by lia. apply Z.mod_small. lia.
  - exfalso. revert D. apply prod_rel_prime; [exact P|]. intros x I D. apply below_in in I. apply Z.divide_pos_le in D; lia.
Qed.
End Fermat.

Lemma prime_factor m : 1 < m -> exists r, prime r /\ (r | m).
Proof.
  intros H. assert (Z0 : 0 <= m) by lia. revert H. pattern m. apply Zlt_0_ind; [|exact Z0]. clear m Z0. intros m IH _ H.
  destruct (prime_dec m) as [P|NP]; [exists m; split; [exact P|apply Z.divide_refl]|].
  destruct (not_prime_divide m H NP) as (d & D1 & D2). destruct (IH d) as (r & R & RD); [lia|lia|].
  exists r. split; [exact R|]. eapply Z.divide_trans; eauto.
Qed.
(* a composite number has a prime factor whose square is at most it *)
Lemma composite_factor m : 1 < m -> ~ prime m -> exists r, prime r /\ (r | m) /\ r * r <= m.
Proof.
  intros H NP. destruct (not_prime_divide m H NP) as (d & D1 & (c & D2)).
  assert (E : exists b, 1 < b /\ (b | m) /\ b * b <= m).
  { destruct (Z.le_ge_cases d c).
    - exists d. repeat split; [lia|exists c; lia|nia].
    - exists c. repeat split; [nia|exists d; lia|nia]. }
  destruct E as (b & B1 & B2 & B3). destruct (prime_factor b B1) as (r & R & RD). exists r. split; [exact R|].
  split; [eapply Z.divide_trans; eauto|]. apply Z.divide_pos_le in RD; [|lia]. pose proof (prime_ge_2 _ R). nia.
Qed.

(* trial division *)
Definition trial (q : Z) (B : nat) : bool :=
  (1 <? q) && forallb (fun d => negb (q mod Z.of_nat d =? 0)) (seq 2 B) && (q <? (Z.of_nat B + 2) * (Z.of_nat B + 2)).
Lemma trial_prime q B : trial q B = true -> prime q.
Proof.
  unfold trial. rewrite !andb_true_iff. intros ((Q & F) & L). apply Z.ltb_lt in Q, L.
  destruct (prime_dec q) as [P|NP]; [exact P|exfalso].
  destruct (composite_factor q Q NP) as (r & R & D & S0). pose proof (prime_ge_2 _ R).
  rewrite forallb_forall in F. specialize (F (Z.to_nat r)).
  assert (I : In (Z.to_nat r) (seq 2 B)) by (apply in_seq; nia). specialize (F I).
  rewrite Z2Nat.id in F by lia. apply Z.mod_divide in D; [|lia]. rewrite D in F. discriminate.
Qed.

(* Pocklington's criterion, as a check *)
Definition pock1 (N : Z) (c : Z * Z * Z * nat) : bool :=
  let '(q, k, a, B) := c in
  trial q B && (0 <? k) && ((N - 1) mod q ^ k =? 0) && (Zpow_mod a (N - 1) N =? 1) &&
  (Z.gcd (Zpow_mod a ((N - 1) / q) N - 1) N =? 1).
Fixpoint factored (cs : list (Z * Z * Z * nat)) : Z :=
  match cs with [] => 1 | (q, k, _, _) :: r => q ^ k * factored r end.
Fixpoint coprimes (cs : list (Z * Z * Z * nat)) : bool :=
  match cs with [] => true | (q, k, _, _) :: r => (Z.gcd (q ^ k) (factored r) =? 1) && coprimes r end.
Definition pock (N : Z) (cs : list (Z * Z * Z * nat)) : bool :=
  (1 <? N) && forallb (pock1 N) cs && coprimes cs && ((0 <? factored cs) && (N <? (factored cs + 1) * (factored cs + 1))).

Section Pock.
Context (N : Z) (N1 : 1 < N) (r : Z) (R : prime r) (RN : (r | N)).
Lemma mod_r x y : x mod N = y mod N -> x mod r = y mod r.
Proof using N1 R RN.
  pose proof (prime_ge_2 _ R). destruct RN as (c & E). intros H0. rewrite E in H0.
  assert (D : (r | c * r)) by (exists c; reflexivity). assert (CP : 0 < c * r) by lia.
  pose proof (Zmod_div_mod r (c * r) x ltac:(lia) CP D) as X. pose proof (Zmod_div_mod r (c * r) y ltac:(lia) CP D) as Y. congruence.
Qed.
Lemma pow_mod_1 a m k : 0 <= m -> 0 <= k -> a ^ m mod r = 1 -> a ^ (m * k) mod r = 1.
Proof using R.
  pose proof (prime_ge_2 _ R). intros M K E. rewrite Z.pow_mul_r by lia. rewrite Zpower_mod, E by lia.
  rewrite Z.pow_1_l by lia. apply Z.mod_small. lia.
Qed.
(* the exponents that give 1 are closed under gcd *)
Lemma pow_gcd a m n : 0 < m -> 0 < n -> ~ (r | a) -> a ^ m mod r = 1 -> a ^ n mod r = 1 -> a ^ (Z.gcd m n) mod r = 1.
Proof using R.
  intros M0 N0 NA M2 N2. pose proof (prime_ge_2 _ R) as G.
  destruct (Zis_gcd_bezout m n (Z.gcd m n) (Zgcd_is_gcd m n)) as [u v B].
  (* choose non-negative coefficients: (u + n t) m - (m t - v) n = g for large t *)
  set (t := Z.abs u + Z.abs v + 1). set (U := u + n * t). set (W := m * t - v).
  assert (HU : 0 <= U) by (unfold U, t; nia). assert (HW : 0 <= W) by (unfold W, t; nia).
  assert (EQ : m * U = n * W + Z.gcd m n) by (unfold U, W; nia).
  pose proof (pow_mod_1 a m U ltac:(lia) HU M2) as E1. rewrite EQ in E1.
  pose proof (Z.gcd_nonneg m n). assert (NW : 0 <= n * W) by (apply Z.mul_nonneg_nonneg; lia). rewrite Z.pow_add_r in E1 by assumption.
  pose proof (pow_mod_1 a n W ltac:(lia) HW N2) as E2. rewrite Z.mul_mod, E2, Z.mul_1_l, Z.mod_mod in E1 by lia. exact E1.
Qed.
Lemma pock1_div c : pock1 N c = true -> let '(q, k, _, _) := c in (q ^ k | r - 1).
Proof using N1 R RN.
  destruct c as (((q & k) & a) & B). unfold pock1. rewrite !andb_true_iff. intros ((((T & K) & D) & E) & G).
  apply trial_prime in T. apply Z.ltb_lt in K. apply Z.eqb_eq in D, E, G. pose proof (prime_ge_2 _ T) as Q2.
  pose proof (prime_ge_2 _ R) as R2.
  assert (QK : 0 < q ^ k) by (apply Z.pow_pos_nonneg; lia).
  apply Z.mod_divide in D; [|lia]. rewrite Zpow_mod_correct in E, G by lia.
  assert (QN : (q | N - 1)).
  { apply (Z.divide_trans _ (q ^ k)); [|exact D]. exists (q ^ (k - 1)). rewrite Z.mul_comm, <- Z.pow_succ_r by lia. f_equal. lia. }
  assert (NA : ~ (r | a)).
  { intros DA. assert (a ^ (N - 1) mod r = 1 mod r).
    { apply mod_r. rewrite E. symmetry. apply Z.mod_small. lia. }
    rewrite (Z.mod_small 1 r) in H by lia. apply Z.mod_divide in DA; [|lia].
    rewrite Zpower_mod, DA in H by lia. rewrite Z.pow_0_l in H by lia. rewrite Zmod_0_l in H. discriminate. }
  assert (F : a ^ (r - 1) mod r = 1) by (apply fermat; assumption).
  assert (E1 : a ^ (N - 1) mod r = 1).
  { assert (X : a ^ (N - 1) mod r = 1 mod r) by (apply mod_r; rewrite E; symmetry; apply Z.mod_small; lia).
    rewrite X. apply Z.mod_small. lia. }
  pose proof (pow_gcd a (N - 1) (r - 1) ltac:(lia) ltac:(lia) NA E1 F) as PG.
  set (g := Z.gcd (N - 1) (r - 1)) in *.
  destruct (Z.gcd_divide_l (N - 1) (r - 1)) as (h & H). fold g in H.
  assert (G0 : 0 <= g) by apply Z.gcd_nonneg.
  assert (GP : 0 < g).
  { destruct (Z.eq_dec g 0) as [Z0|]; [|lia]. rewrite Z0, Z.mul_0_r in H. lia. }
  assert (HP : 0 < h).
  { clear - H GP N1. destruct (Z.lt_ge_cases 0 h) as [|HN]; [assumption|exfalso].
    pose proof (Z.mul_nonpos_nonneg h g HN ltac:(lia)). lia. }
  assert (NQ : ~ (q | h)).
  { intros (j & J). assert (JP : 0 <= j).
    { clear - J HP Q2. destruct (Z.lt_ge_cases j 0) as [HN|]; [|lia]. pose proof (Z.mul_neg_pos j q HN ltac:(lia)). lia. }
    assert (X : a ^ ((N - 1) / q) mod r = 1).
    { replace ((N - 1) / q) with (g * j); [apply pow_mod_1; auto; lia|].
      rewrite H, J. replace (j * q * g) with (g * j * q) by ring. rewrite Z.div_mul by lia. reflexivity. }
    assert (Y : (r | a ^ ((N - 1) / q) mod N - 1)).
    { apply Z.mod_divide; [lia|].
      assert (a ^ ((N - 1) / q) mod N mod r = 1).
      { rewrite <- (Zmod_div_mod r N); [exact X|lia|lia|exact RN]. }
      rewrite Zminus_mod, H0, (Z.mod_small 1 r), Z.sub_diag by lia. apply Zmod_0_l. }
    assert (Z1 : (r | 1)). { rewrite <- G. apply Z.gcd_greatest; [exact Y|exact RN]. }
    apply Z.divide_pos_le in Z1; lia. }
  assert (QG : (q ^ k | g)).
  { rewrite H in D. apply (Gauss _ h); [exact D|]. apply rel_prime_sym, rel_prime_Zpower_r; [lia|].
    apply rel_prime_sym, prime_rel_prime; assumption. }
  eapply Z.divide_trans; [exact QG|]. apply Z.gcd_divide_r.
Qed.
Lemma pock_div cs : forallb (pock1 N) cs = true -> coprimes cs = true -> (factored cs | r - 1).
Proof using N1 R RN.
  induction cs as [|(((q & k) & a) & B) cs IH]; cbn [forallb coprimes factored]; [intros; apply Z.divide_1_l|].
  rewrite !andb_true_iff. intros (P & Ps) (C & Cs). apply Z.eqb_eq in C.
  pose proof (pock1_div _ P) as D. cbv beta iota in D. destruct (IH Ps Cs) as (m & M).
  rewrite M in D. rewrite Z.mul_comm in D. apply Gauss in D; [|apply Zgcd_1_rel_prime; exact C].
  destruct D as (j & J). exists j. rewrite M, J. ring.
Qed.
End Pock.
Lemma pock_prime N cs : pock N cs = true -> prime N.
Proof.
  unfold pock. rewrite !andb_true_iff. intros (((N1 & F) & C) & FP & L). apply Z.ltb_lt in N1, L, FP.
  destruct (prime_dec N) as [P|NP]; [exact P|exfalso].
  destruct (composite_factor N N1 NP) as (r & R & D & S0). pose proof (prime_ge_2 _ R).
  pose proof (pock_div N N1 r R D cs F C) as X. apply Z.divide_pos_le in X; [|lia].
  nia.
Qed.

Lemma m31_prime : prime (2 ^ 31 - 1).
Proof. apply (pock_prime _ [(2, 1, 3, 0%nat); (3, 2, 5, 0%nat); (7, 1, 3, 1%nat); (11, 1, 3, 2%nat); (31, 1, 2, 4%nat); (151, 1, 3, 11%nat)]). vm_compute. reflexivity. Qed.
Lemma m61_prime : prime (2 ^ 61 - 1).
Proof. apply (pock_prime _ [(2, 1, 3, 0%nat); (3, 2, 5, 0%nat); (5, 2, 3, 1%nat); (7, 1, 3, 1%nat); (11, 1, 3, 2%nat); (13, 1, 3, 2%nat); (31, 1, 3, 4%nat); (41, 1, 3, 5%nat); (61, 1, 2, 6%nat)]). vm_compute. reflexivity. Qed.
Lemma m127_prime : prime (2 ^ 127 - 1).
Proof. apply (pock_prime _ [(2, 1, 3, 0%nat); (3, 3, 5, 0%nat); (7, 2, 3, 1%nat); (19, 1, 3, 3%nat); (43, 1, 3, 5%nat); (73, 1, 3, 7%nat); (127, 1, 2, 10%nat); (337, 1, 3, 17%nat); (5419, 1, 3, 72%nat); (92737, 1, 3, 303%nat)]). vm_compute. reflexivity. Qed.
