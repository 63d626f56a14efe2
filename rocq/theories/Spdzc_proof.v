(* How many (coin, key) pairs let a deviation through. *)
From Coq Require Import Znumtheory Zpow_facts.
From Verif Require Import Base Ring_spec Share_spec Ring_model Party Semi_model Semi_proof Spdz_model Spdz_spec Spdz_proof.
Open Scope Z_scope.

(* ---- divisibility by powers of two ---- *)
Lemma odd_gauss b x y : 0 <= b -> Z.odd x = true -> (2 ^ b | x * y) -> (2 ^ b | y).
Proof.
  intros B O D. apply (Gauss (2 ^ b) x y D). apply rel_prime_sym. apply rel_prime_Zpower_r; [exact B|].
  apply rel_prime_sym. apply Zis_gcd_intro; [apply Z.divide_1_l|apply Z.divide_1_l|].
  intros d D1 D2. destruct D2 as [q E]. apply Z.odd_spec in O. destruct O as [h Eh].
  assert (Hd : (d | x - 2 * h)). { apply Z.divide_sub_r; [exists q; lia|]. now apply Z.divide_mul_l. }
  replace (x - 2 * h) with 1 in Hd by lia. exact Hd.
Qed.
Lemma val_gauss b : 0 <= b -> forall a, 0 <= a -> forall x y, (2 ^ (a + b) | x * y) -> ~ (2 ^ (a + 1) | x) -> (2 ^ b | y).
Proof.
  intros B. apply (natlike_ind (fun a => forall x y, (2 ^ (a + b) | x * y) -> ~ (2 ^ (a + 1) | x) -> (2 ^ b | y))).
  - intros x y D N. apply (odd_gauss b x y B); [|exact D]. destruct (Z.odd x) eqn:O; [reflexivity|]. exfalso. apply N.
    rewrite <- Z.negb_even in O. apply negb_false_iff in O. apply Z.even_spec in O. destruct O as [h E]. exists h. change (2 ^ (0 + 1)) with 2. lia.
  - intros a Pa IH x y D N. destruct (Z.odd x) eqn:O.
    + apply (odd_gauss b x y B O). apply (Z.divide_trans _ (2 ^ (Z.succ a + b))); [|exact D].
      exists (2 ^ Z.succ a). rewrite Z.pow_add_r by lia. lia.
    + rewrite <- Z.negb_even in O. apply negb_false_iff in O. apply Z.even_spec in O. destruct O as [h E]. apply (IH h y).
      * destruct D as [q Q]. exists q. replace (Z.succ a + b) with (1 + (a + b)) in Q by lia. rewrite Z.pow_add_r in Q by lia. change (2 ^ 1) with 2 in Q. nia.
      * intros [q Q]. apply N. exists q. replace (Z.succ a + 1) with (1 + (a + 1)) by lia. rewrite (Z.pow_add_r 2 1) by lia. change (2 ^ 1) with 2. nia.
Qed.
Lemma pow_divide a b x : 0 <= a <= b -> (2 ^ b | x) -> (2 ^ a | x).
Proof. intros H D. apply (Z.divide_trans _ (2 ^ b)); [|exact D]. exists (2 ^ (b - a)). rewrite <- Z.pow_add_r by lia. f_equal. lia. Qed.

(* ---- counting ---- *)
Definition cnt (P : Z -> bool) (l : list Z) : Z := Z.of_nat (length (filter P l)).
Lemma in_upto m x : 0 <= m -> In x (upto m) <-> 0 <= x < m.
Proof.
  intros M. unfold upto. rewrite in_map_iff. split.
  - intros [i [<- I]]. apply in_seq in I. lia.
  - intros X. exists (Z.to_nat x). split; [lia|]. apply in_seq. lia.
Qed.
Lemma nodup_upto m : NoDup (upto m).
Proof. unfold upto. apply FinFun.Injective_map_NoDup; [intros a b; lia|apply seq_NoDup]. Qed.
Lemma length_upto m : 0 <= m -> Z.of_nat (length (upto m)) = m.
Proof. intros M. unfold upto. rewrite map_length, seq_length. lia. Qed.
Lemma nodup_map_in (f : Z -> Z) l : NoDup l -> (forall x y, In x l -> In y l -> f x = f y -> x = y) -> NoDup (map f l).
Proof.
  induction 1 as [|a l N ND IH]; intros I; cbn [map]; constructor.
  - intros H. apply in_map_iff in H. destruct H as [b [E B]]. apply N. replace a with b; [exact B|]. apply I; [now right|now left|exact E].
  - apply IH. intros x y X Y. apply I; now right.
Qed.
(* at most 2^(s-m) of the numbers below 2^s lie in one class modulo 2^m *)
Lemma class_count s m P : 0 <= m <= s -> (forall x y, P x = true -> P y = true -> (2 ^ m | x - y)) -> cnt P (upto (2 ^ s)) <= 2 ^ (s - m).
Proof.
  intros M D. pose proof (pow2_pos s ltac:(lia)) as Ps. pose proof (pow2_pos m ltac:(lia)) as Pm. pose proof (pow2_pos (s - m) ltac:(lia)) as Pd.
  unfold cnt. rewrite <- (map_length (fun x => x / 2 ^ m)). rewrite <- (length_upto (2 ^ (s - m))) by lia. apply inj_le. apply NoDup_incl_length.
  - apply nodup_map_in; [apply NoDup_filter, nodup_upto|]. intros x y X Y E. apply filter_In in X. apply filter_In in Y. destruct X as [X PX]. destruct Y as [Y PY].
    destruct (D x y PX PY) as [q Q]. pose proof (Z.div_mod x (2 ^ m) ltac:(lia)). pose proof (Z.div_mod y (2 ^ m) ltac:(lia)).
    pose proof (Z.mod_pos_bound x (2 ^ m) Pm). pose proof (Z.mod_pos_bound y (2 ^ m) Pm).
    assert (x mod 2 ^ m = y mod 2 ^ m); [|lia]. replace x with (y + q * 2 ^ m) by lia. apply Z.mod_add. lia.
  - intros z Z0. apply in_map_iff in Z0. destruct Z0 as [x [<- X]]. apply filter_In in X. destruct X as [X _]. apply in_upto in X; [|lia]. apply in_upto; [lia|].
    split; [apply Z.div_pos; lia|]. apply Z.div_lt_upper_bound; [lia|]. rewrite <- Z.pow_add_r by lia. replace (m + (s - m)) with s by lia. lia.
Qed.
Lemma cnt_all P l : cnt P l <= Z.of_nat (length l).
Proof. unfold cnt. apply inj_le. induction l as [|a l IH]; cbn [filter length]; [lia|]. destruct (P a); cbn [length]; lia. Qed.

Section Count.
Variables k s : Z.
Hypothesis Hk : 0 < k.
Hypothesis Hs : 0 <= s.
Definition dvd (u E : Z) : bool := E mod 2 ^ (k + u) =? 0.
Lemma dvd_ok u E : 0 <= u -> dvd u E = true <-> (2 ^ (k + u) | E).
Proof. intros U. unfold dvd. rewrite Z.eqb_eq. apply Z.mod_divide. pose proof (pow2_pos (k + u) ltac:(lia)). lia. Qed.
(* sum over i < m of 2^i when 2^(k+i+1) divides E *)
Fixpoint G (E : Z) (m : nat) : Z := match m with O => 0 | S m' => G E m' + (if dvd (Z.of_nat m) E then 2 ^ Z.of_nat m' else 0) end.
Lemma G_full E m : (forall i, (0 < i <= m)%nat -> (2 ^ (k + Z.of_nat i) | E)) -> G E m = 2 ^ Z.of_nat m - 1.
Proof.
  induction m as [|m IH]; intros D; cbn [G]; [reflexivity|]. rewrite IH by (intros; apply D; lia).
  assert (dvd (Z.of_nat (S m)) E = true) as -> by (apply dvd_ok; [lia|apply D; lia]).
  replace (Z.of_nat (S m)) with (Z.of_nat m + 1) by lia. rewrite Z.pow_add_r by lia. change (2 ^ 1) with 2. lia.
Qed.
Lemma G_mono E m m' : (m <= m')%nat -> G E m <= G E m'.
Proof. induction 1 as [|m' L IH]; [lia|]. cbn [G]. pose proof (pow2_pos (Z.of_nat m') ltac:(lia)). destruct (dvd _ _); lia. Qed.
(* for fixed combined error E and response D: keys that pass *)
Definition keyok (E D g : Z) : bool := (E * g - D) mod 2 ^ (k + s) =? 0.
Lemma keys_u E D u : 0 <= u <= s -> (u = s \/ ~ (2 ^ (k + u + 1) | E)) -> cnt (keyok E D) (upto (2 ^ s)) <= 2 ^ u.
Proof.
  intros U [->|N]; [etransitivity; [apply cnt_all|]; rewrite length_upto; [lia|pose proof (pow2_pos s); lia]|].
  assert (EU : 2 ^ u = 2 ^ (s - (s - u))) by (f_equal; lia). rewrite EU. apply class_count; [lia|]. intros x y X Y. unfold keyok in X, Y. apply Z.eqb_eq in X. apply Z.eqb_eq in Y.
  pose proof (pow2_pos (k + s) ltac:(lia)). apply Z.mod_divide in X; [|lia]. apply Z.mod_divide in Y; [|lia].
  apply (val_gauss (s - u) ltac:(lia) (k + u) ltac:(lia) E); [|exact N].
  replace (k + u + (s - u)) with (k + s) by lia. replace (E * (x - y)) with ((E * x - D) - (E * y - D)) by ring. now apply Z.divide_sub_r.
Qed.
Lemma keys_bound E D : cnt (keyok E D) (upto (2 ^ s)) <= 1 + G E (Z.to_nat s).
Proof.
  assert (IND : forall d u, (u + d = Z.to_nat s)%nat -> (forall i, (0 < i <= u)%nat -> (2 ^ (k + Z.of_nat i) | E)) -> cnt (keyok E D) (upto (2 ^ s)) <= 1 + G E (Z.to_nat s)).
  { induction d as [|d IH]; intros u U DV.
    - replace (Z.to_nat s) with u by lia. rewrite (G_full E u DV). replace (1 + (2 ^ Z.of_nat u - 1)) with (2 ^ Z.of_nat u) by lia. apply keys_u; [lia|left; lia].
    - destruct (dvd (Z.of_nat (S u)) E) eqn:Q.
      + apply (IH (S u)); [lia|]. intros i I. destruct (Nat.eq_dec i (S u)) as [->|]; [apply dvd_ok; [lia|exact Q]|apply DV; lia].
      + etransitivity; [apply (keys_u E D (Z.of_nat u)); [lia|right]|].
        * intros DD. replace (k + Z.of_nat u + 1) with (k + Z.of_nat (S u)) in DD by lia. apply dvd_ok in DD; [congruence|lia].
        * pose proof (G_full E u DV). pose proof (G_mono E u (Z.to_nat s) ltac:(lia)). lia. }
  apply (IND (Z.to_nat s) O); [lia|]. intros i I. lia.
Qed.

(* the combined error is A + c * e with c the coin *)
Variables A e : Z.
Hypothesis He : e mod 2 ^ k <> 0.
Lemma coin_class i : 0 <= i -> forall x y, dvd (i + 1) (A + x * e) = true -> dvd (i + 1) (A + y * e) = true -> (2 ^ (i + 2) | x - y).
Proof.
  intros I x y X Y. apply dvd_ok in X; [|lia]. apply dvd_ok in Y; [|lia]. apply (val_gauss (i + 2) ltac:(lia) (k - 1) ltac:(lia) e).
  - replace (k - 1 + (i + 2)) with (k + (i + 1)) by lia. replace (e * (x - y)) with ((A + x * e) - (A + y * e)) by ring. now apply Z.divide_sub_r.
  - replace (k - 1 + 1) with k by lia. intros D. apply He. apply Z.mod_divide; [pose proof (pow2_pos k ltac:(lia)); lia|exact D].
Qed.
Lemma coin_count i : 0 <= i < s -> 4 * (2 ^ i * cnt (fun c => dvd (i + 1) (A + c * e)) (upto (2 ^ s))) <= (if i + 1 =? s then 2 * 2 ^ s else 2 ^ s).
Proof.
  intros I. set (P := fun c => dvd (i + 1) (A + c * e)). pose proof (pow2_pos i ltac:(lia)).
  destruct (Z.eqb_spec (i + 1) s) as [E|E].
  - assert (C : cnt P (upto (2 ^ s)) <= 2 ^ (s - s)) by (apply class_count; [lia|]; intros x y X Y; apply (pow_divide s (i + 2)); [lia|]; now apply (coin_class i ltac:(lia))).
    replace (s - s) with 0 in C by lia. change (2 ^ 0) with 1 in C. set (V := cnt P _) in *. rewrite <- E, Z.pow_add_r by lia. change (2 ^ 1) with 2. nia.
  - assert (C : cnt P (upto (2 ^ s)) <= 2 ^ (s - (i + 2))) by (apply class_count; [lia|]; intros x y X Y; now apply (coin_class i ltac:(lia))).
    assert (E2 : 2 ^ s = 4 * (2 ^ i * 2 ^ (s - (i + 2)))) by (change 4 with (2 ^ 2); rewrite <- !Z.pow_add_r by lia; f_equal; lia).
    set (V := cnt P _) in *. rewrite E2. nia.
Qed.
Lemma sum_ind (P : Z -> bool) v l : sumZ (map (fun c => if P c then v else 0) l) = v * cnt P l.
Proof. unfold cnt. induction l as [|a l IH]; cbn [map sumZ filter length]; [lia|]. rewrite IH. destruct (P a); cbn [length]; lia. Qed.
Lemma sum_G m : (Z.of_nat m < s) -> 4 * sumZ (map (fun c => G (A + c * e) m) (upto (2 ^ s))) <= Z.of_nat m * 2 ^ s.
Proof.
  induction m as [|m IH]; intros M; cbn [G].
  - rewrite (map_ext _ (fun _ => 0 * 0)) by reflexivity. rewrite sumZ_map_mul_l. lia.
  - rewrite (sumZ_map_add (fun c => G (A + c * e) m)). rewrite (sum_ind (fun c => dvd (Z.of_nat (S m)) (A + c * e))).
    pose proof (coin_count (Z.of_nat m) ltac:(lia)) as C. replace (Z.of_nat m + 1 =? s) with false in C by lia.
    replace (Z.of_nat m + 1) with (Z.of_nat (S m)) in C by lia. specialize (IH ltac:(lia)).
    set (T := sumZ _) in *. set (V := 2 ^ Z.of_nat m * _) in *. lia.
Qed.
Lemma sum_G_s : 4 * sumZ (map (fun c => G (A + c * e) (Z.to_nat s)) (upto (2 ^ s))) <= (s + 1) * 2 ^ s.
Proof.
  pose proof (pow2_pos s Hs) as Ps. destruct (Z.eq_dec s 0) as [E|E].
  - replace (Z.to_nat s) with O by lia. cbn [G]. rewrite (map_ext _ (fun _ => 0 * 0)) by reflexivity. rewrite sumZ_map_mul_l. lia.
  - replace (Z.to_nat s) with (S (Z.to_nat (s - 1))) by lia. cbn [G].
    rewrite (sumZ_map_add (fun c => G (A + c * e) (Z.to_nat (s - 1)))). rewrite (sum_ind (fun c => dvd (Z.of_nat (S (Z.to_nat (s - 1)))) (A + c * e))).
    pose proof (sum_G (Z.to_nat (s - 1)) ltac:(lia)) as I. pose proof (coin_count (s - 1) ltac:(lia)) as C. replace (s - 1 + 1 =? s) with true in C by lia.
    replace (Z.of_nat (S (Z.to_nat (s - 1)))) with (s - 1 + 1) by lia. replace (Z.of_nat (Z.to_nat (s - 1))) with (s - 1) in * by lia.
    set (T := sumZ _) in *. set (V := 2 ^ (s - 1) * _) in *. lia.
Qed.
Lemma sum_le {T} (f g : T -> Z) l : (forall c, In c l -> f c <= g c) -> sumZ (map f l) <= sumZ (map g l).
Proof. induction l as [|a l IH]; cbn [map sumZ]; intros H; [lia|]. pose proof (H a (or_introl eq_refl)). assert (sumZ (map f l) <= sumZ (map g l)) by (apply IH; intros; apply H; now right). lia. Qed.
Lemma pairs_bound (P : Z -> Z -> bool) (D : Z -> Z) : (forall c g, 0 <= c < 2 ^ s -> 0 <= g < 2 ^ s -> P c g = true -> keyok (A + c * e) (D c) g = true) ->
  4 * pairs s P <= (s + 5) * 2 ^ s.
Proof.
  intros H. pose proof (pow2_pos s Hs) as Ps. unfold pairs.
  assert (L : sumZ (map (fun c => Z.of_nat (length (filter (P c) (upto (2 ^ s))))) (upto (2 ^ s))) <= sumZ (map (fun c => 1 + G (A + c * e) (Z.to_nat s)) (upto (2 ^ s)))).
  { apply sum_le. intros c C. apply in_upto in C; [|lia]. etransitivity; [|apply (keys_bound _ (D c))]. unfold cnt. apply inj_le.
    assert (FL : forall l, (forall g, In g l -> 0 <= g < 2 ^ s) -> (length (filter (P c) l) <= length (filter (keyok (A + c * e) (D c)) l))%nat).
    { induction l as [|a l IH]; intros B; cbn [filter length]; [lia|]. specialize (IH (fun g I => B g (or_intror I))). pose proof (H c a C (B a (or_introl eq_refl))) as HH.
      destruct (P c a); [rewrite HH by reflexivity; cbn [length]; lia|]. destruct (keyok _ _ _); cbn [length]; lia. }
    apply FL. intros g. apply in_upto. lia. }
  rewrite (sumZ_map_add (fun _ => 1)) in L. pose proof sum_G_s as S1.
  assert (S2 : sumZ (map (fun _ : Z => 1) (upto (2 ^ s))) = 2 ^ s).
  { assert (SL : forall l : list Z, sumZ (map (fun _ : Z => 1) l) = Z.of_nat (length l)) by (induction l as [|a l IH]; cbn [map sumZ length]; lia). rewrite SL. apply length_upto. lia. }
  rewrite S2 in L. set (T := sumZ (map (fun c => G _ _) _)) in *. lia.
Qed.
End Count.

Lemma dot_coin N j0 c coins e s : (j0 < N)%nat ->
  dot N (fun j => coin_at j0 c coins j mod 2 ^ s) e = dot N (fun j => if (j =? j0)%nat then 0 else coins j mod 2 ^ s) e + (c mod 2 ^ s) * e j0.
Proof.
  intros J. induction N as [|N IH]; [lia|]. cbn [dot]. unfold coin_at at 2. destruct (Nat.eqb_spec N j0) as [->|NE].
  - assert (ID : forall m, (m <= j0)%nat -> dot m (fun j => coin_at j0 c coins j mod 2 ^ s) e = dot m (fun j => if (j =? j0)%nat then 0 else coins j mod 2 ^ s) e).
    { induction m as [|m IHm]; intros M; cbn [dot]; [reflexivity|]. rewrite IHm by lia. unfold coin_at. now replace (m =? j0)%nat with false by lia. }
    rewrite ID by lia. lia.
  - rewrite IH by lia. lia.
Qed.
Lemma detect k s N j0 coins e resp (P : Z -> Z -> bool) : 0 < k -> 0 <= s -> (j0 < N)%nat -> e j0 mod 2 ^ k <> 0 ->
  (forall c g, 0 <= g < 2 ^ s -> P c g = true -> passed k s g N (coin_at j0 c coins) e (resp c)) -> 4 * pairs s P <= (s + 5) * 2 ^ s.
Proof.
  intros Hk Hs J He H. apply (pairs_bound k s Hk Hs (dot N (fun j => if (j =? j0)%nat then 0 else coins j mod 2 ^ s) e) (e j0) He P resp).
  intros c g C Gg T. apply (H c g Gg) in T. unfold passed in T. rewrite dot_coin in T by exact J. rewrite (Z.mod_small c) in T by exact C.
  apply eqm_exists in T; [|lia]. destruct T as [q Q]. unfold keyok. apply Z.eqb_eq.
  replace ((dot N (fun j => if (j =? j0)%nat then 0 else coins j mod 2 ^ s) e + c * e j0) * g - resp c) with (q * 2 ^ (k + s)) by lia. apply Z.mod_mul.
  pose proof (pow2_pos (k + s) ltac:(lia)). lia.
Qed.
Lemma pairs_none s P : 0 <= s -> (forall c g, 0 <= g < 2 ^ s -> P c g = false) -> pairs s P = 0.
Proof.
  intros Hs H. unfold pairs. assert (F : forall c, filter (P c) (upto (2 ^ s)) = []).
  { intros c. assert (B : forall g, In g (upto (2 ^ s)) -> 0 <= g < 2 ^ s) by (intros g; apply in_upto; pose proof (pow2_pos s Hs); lia).
    induction (upto (2 ^ s)) as [|a l IH]; [reflexivity|]. cbn [filter]. rewrite H by (apply B; now left). apply IH. intros; apply B; now right. }
  assert (SL : forall l, sumZ (map (fun c => Z.of_nat (length (filter (P c) (upto (2 ^ s))))) l) = 0) by (induction l as [|a l IH]; cbn [map sumZ]; [reflexivity|]; rewrite F, IH; reflexivity).
  apply SL.
Qed.

Section Detect.
Variables K k s : Z.
Variable n : nat.
Hypothesis Hk : 0 < k.
Hypothesis Hs : 0 <= s.
Hypothesis HK : k + s <= K.
Hypothesis Hn : (0 < n)%nat.
Lemma low_zero v e : e mod 2 ^ k = 0 -> wrap k (v + e) = v mod 2 ^ k.
Proof. intros E. apply Z.mod_divide in E; [|pose proof (pow2_pos k ltac:(lia)); lia]. destruct E as [q ->]. apply eqm_mult. Qed.
Lemma a2p_detects N j0 KS x cn v r coins e resp : (j0 < N)%nat ->
  (forall g, 0 <= g < 2 ^ s -> shA K n (KS g) g /\ forall j, (j < N)%nat -> authentic K n g (x g j) (v j) /\ authentic K n g (cn g j) (r g j)) ->
  4 * pairs s (fun c g => wrong (a2p_s K k s n (KS g) N (x g) (cn g) (coin_at j0 c coins) e (resp c)) j0 (v j0 mod 2 ^ k)) <= (s + 5) * 2 ^ s.
Proof.
  intros J H. pose proof (pow2_pos s Hs).
  assert (GEN : forall c g, 0 <= g < 2 ^ s -> wrong (a2p_s K k s n (KS g) N (x g) (cn g) (coin_at j0 c coins) e (resp c)) j0 (v j0 mod 2 ^ k) = true ->
     passed k s g N (coin_at j0 c coins) e (resp c) /\ e j0 mod 2 ^ k <> 0).
  { intros c g Gg T. destruct (H g Gg) as [HKS HX].
    destruct (a2p_gen K k s n (KS g) g ltac:(lia) Hn (shA_eqm K _ _ _ ltac:(lia) HKS) Hk Hs HK N (x g) (cn g) v (r g) (coin_at j0 c coins) e (resp c) HX) as [[E _]|[f [E [P F]]]]; rewrite E in T; cbn [wrong] in T; [discriminate|].
    split; [exact P|]. intros Z0. rewrite (F j0 J), (low_zero _ _ Z0), Z.eqb_refl in T. discriminate. }
  destruct (Z.eq_dec (e j0 mod 2 ^ k) 0) as [E0|N0].
  - rewrite pairs_none; [nia|exact Hs|]. intros c g Gg. destruct (wrong _ _ _) eqn:T; [|reflexivity]. now destruct (GEN c g Gg T).
  - apply (detect k s N j0 coins e resp); auto. intros c g Gg T. now apply (GEN c g Gg).
Qed.
Lemma a2v_detects rank N j0 KS x cn cn' v r r' R M rr coins e resp : (rank < n)%nat -> (j0 < N)%nat -> (forall j, word K (rr j)) ->
  (forall g, 0 <= g < 2 ^ s -> shA K n (KS g) g /\ forall j, (j < N)%nat -> authentic K n g (x g j) (v j) /\ authentic K n g (cn g j) (r g j) /\ authentic K n g (cn' g j) (r' g j)) ->
  4 * pairs s (fun c g => wrong (a2v_s K k s n (KS g) g rank N (x g) (cn g) (cn' g) R M rr (coin_at j0 c coins) e (resp c)) j0 (v j0 mod 2 ^ k)) <= (s + 5) * 2 ^ s.
Proof.
  intros RK J WR H. pose proof (pow2_pos s Hs).
  assert (GEN : forall c g, 0 <= g < 2 ^ s -> wrong (a2v_s K k s n (KS g) g rank N (x g) (cn g) (cn' g) R M rr (coin_at j0 c coins) e (resp c)) j0 (v j0 mod 2 ^ k) = true ->
     passed k s g N (coin_at j0 c coins) e (resp c) /\ e j0 mod 2 ^ k <> 0).
  { intros c g Gg T. destruct (H g Gg) as [HKS HX].
    assert (HX' : forall j, (j < N)%nat -> authentic K n g (x g j) (v j) /\ authentic K n g (cn g j) (r g j) /\ authentic K n g (cn' g j) (r' g j) /\ word K (rr j)).
    { intros j L. destruct (HX j L) as (?&?&?). auto. }
    destruct (a2v_gen K k s n (KS g) g ltac:(lia) Hn (shA_eqm K _ _ _ ltac:(lia) HKS) Hk Hs HK rank N (x g) (cn g) (cn' g) v (r g) (r' g) R M rr (coin_at j0 c coins) e (resp c) RK HX') as [[E _]|[f [E [P F]]]]; rewrite E in T; cbn [wrong] in T; [discriminate|].
    split; [exact P|]. intros Z0. rewrite (F j0 J), (low_zero _ _ Z0), Z.eqb_refl in T. discriminate. }
  destruct (Z.eq_dec (e j0 mod 2 ^ k) 0) as [E0|N0].
  - rewrite pairs_none; [nia|exact Hs|]. intros c g Gg. destruct (wrong _ _ _) eqn:T; [|reflexivity]. now destruct (GEN c g Gg T).
  - apply (detect k s N j0 coins e resp); auto. intros c g Gg T. now apply (GEN c g Gg).
Qed.
Lemma mul_detects N j0 KS x y tr v w va vb vc coins1 coins2 e f resp1 resp2 : (j0 < N)%nat ->
  (forall g, 0 <= g < 2 ^ s -> shA K n (KS g) g /\ forall j, (j < N)%nat -> authentic K n g (x g j) (v j) /\ authentic K n g (y g j) (w j) /\
     authentic K n g (fst (fst (tr g j))) (va g j) /\ authentic K n g (snd (fst (tr g j))) (vb g j) /\ authentic K n g (snd (tr g j)) (vc g j) /\ is_mod K (va g j * vb g j) (vc g j)) ->
  (e j0 mod 2 ^ k <> 0 -> 4 * pairs s (fun c g => returns (mul_aa_s K k s n (KS g) N (x g) (y g) (tr g) (coin_at j0 c coins1) coins2 e f (resp1 c) (resp2 c))) <= (s + 5) * 2 ^ s) /\
  (f j0 mod 2 ^ k <> 0 -> 4 * pairs s (fun c g => returns (mul_aa_s K k s n (KS g) N (x g) (y g) (tr g) coins1 (coin_at j0 c coins2) e f (resp1 c) (resp2 c))) <= (s + 5) * 2 ^ s).
Proof.
  intros J H. split; intros N0.
  - apply (detect k s N j0 coins1 e resp1); auto. intros c g Gg T. destruct (H g Gg) as [HKS HX].
    destruct (mul_gen K k s n (KS g) g ltac:(lia) Hn (shA_eqm K _ _ _ ltac:(lia) HKS) Hk Hs HK N _ _ _ _ _ _ _ _ (coin_at j0 c coins1) coins2 e f (resp1 c) (resp2 c) HX) as [[E _]|[z [E [[P _] _]]]]; [rewrite E in T; discriminate|exact P].
  - apply (detect k s N j0 coins2 f resp2); auto. intros c g Gg T. destruct (H g Gg) as [HKS HX].
    destruct (mul_gen K k s n (KS g) g ltac:(lia) Hn (shA_eqm K _ _ _ ltac:(lia) HKS) Hk Hs HK N _ _ _ _ _ _ _ _ coins1 (coin_at j0 c coins2) e f (resp1 c) (resp2 c) HX) as [[E _]|[z [E [[_ P] _]]]]; [rewrite E in T; discriminate|exact P].
Qed.
Lemma trunc_detects d N j0 KS x tr cn v r cc coins e resp : 0 <= d < k -> (j0 < N)%nat -> e j0 mod 2 ^ k <> 0 ->
  (forall g, 0 <= g < 2 ^ s -> shA K n (KS g) g /\ forall j, (j < N)%nat -> authentic K n g (x g j) (v j) /\ word k (r g j) /\
     authentic K n g (fst (tr g j)) (r g j) /\ authentic K n g (snd (tr g j)) (wrap k (sgn k (r g j) / 2 ^ d)) /\ authentic K n g (cn g j) (cc g j)) ->
  4 * pairs s (fun c g => returns (trunc_s K k s n (KS g) d N (x g) (tr g) (cn g) (coin_at j0 c coins) e (resp c))) <= (s + 5) * 2 ^ s.
Proof.
  intros D J N0 H. apply (detect k s N j0 coins e resp); auto. intros c g Gg T. destruct (H g Gg) as [HKS HX].
  destruct (trunc_gen K k s n (KS g) g ltac:(lia) Hn (shA_eqm K _ _ _ ltac:(lia) HKS) Hk Hs HK d N _ _ _ _ _ _ (coin_at j0 c coins) e (resp c) D HX) as [[E _]|[z [E [P _]]]]; [rewrite E in T; discriminate|exact P].
Qed.
End Detect.
