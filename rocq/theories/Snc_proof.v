(* Proofs about the SecureNN comparison. *)
From Verif Require Import Base Ring_model Ring_spec Ring_proof Share_spec Party Semi_model Semi_proof Trunc_proof Conv_proof Snn_model Snn_spec Snn_proof.
From Coq Require Import Lia ZifyBool ZifyNat.
Open Scope Z_scope.

(* ---- modulo 131 ---- *)
Lemma unit131 s : 1 <= s <= 130 -> exists t, (t * s) mod 131 = 1.
Proof.
  intros S. assert (A : forallb (fun i => existsb (fun t => (Z.of_nat t * Z.of_nat i) mod 131 =? 1) (seq 1 130)) (seq 1 130) = true) by (vm_compute; reflexivity).
  rewrite forallb_forall in A. specialize (A (Z.to_nat s)). rewrite in_seq in A. specialize (A ltac:(lia)). rewrite existsb_exists in A.
  destruct A as [t [_ E]]. exists (Z.of_nat t). rewrite Z2Nat.id in E by lia. now apply Z.eqb_eq.
Qed.
Lemma mul_zero131 s c : 1 <= s <= 130 -> 0 <= c < 131 -> ((s * c) mod 131 =? 0) = (c =? 0).
Proof.
  intros S C. destruct (Z.eqb_spec c 0) as [-> | N]; [rewrite Z.mul_0_r; reflexivity|]. apply Z.eqb_neq. intros E. apply N.
  destruct (unit131 s S) as [t T]. assert (c mod 131 = 0).
  { replace c with (1 * c) by lia. rewrite <- T, Z.mul_mod_idemp_l by lia. rewrite <- Z.mul_assoc, <- Z.mul_mod_idemp_r, E by lia. rewrite Z.mul_0_r. reflexivity. }
  rewrite Z.mod_small in H; lia.
Qed.
Lemma bitof_b2z x i : bitof x i = Z.b2z (Z.testbit x (Z.of_nat i)).
Proof. unfold bitof, rshr. change 1 with (Z.ones 1). rewrite Z.land_ones by lia. change (2 ^ 1) with 2. rewrite <- Z.bit0_mod, Z.div_pow2_bits by lia. reflexivity. Qed.
Lemma mod_S x i : x mod 2 ^ Z.of_nat (S i) = bitof x i * 2 ^ Z.of_nat i + x mod 2 ^ Z.of_nat i.
Proof.
  rewrite bitof_b2z. pose proof (pow2_pos (Z.of_nat i) ltac:(lia)) as P. replace (Z.of_nat (S i)) with (Z.of_nat i + 1) by lia. rewrite Z.pow_add_r by lia. change (2 ^ 1) with 2.
  rewrite Z.rem_mul_r by lia. rewrite <- Z.testbit_spec' by lia. lia.
Qed.

Section C.
Variable k : Z.
Hypothesis K1 : 15 <= k.
Hypothesis K2 : k <= 128.

Lemma big : 17161 < 2 ^ k.
Proof. apply Z.lt_le_trans with (2 ^ 15); [reflexivity|apply Z.pow_le_mono_r; lia]. Qed.
Lemma wrap_id x : 0 <= x < 2 ^ k -> wrap k x = x. Proof. intros H. apply wrap_small. exact H. Qed.

(* one comparison round *)
Definition bound (sel r t : Z) : Z := if sel =? 0 then r else t.
Definition gap (sel x b : Z) : Z := if sel =? 0 then b - x + 1 else x - b + 1.
Definition below (sel x b : Z) : bool := if sel =? 0 then b <? x else x <? b.

Lemma mod_sum s e0 e1 C j : e0 + e1 = C + 131 * j -> ((s * (e0 mod 131)) mod 131 + (s * (e1 mod 131)) mod 131) mod 131 = (s * C) mod 131.
Proof.
  intros E. rewrite <- Z.add_mod by lia. rewrite <- Z.mul_add_distr_l, <- Z.mul_mod_idemp_r by lia. rewrite <- Z.add_mod by lia. rewrite Z.mul_mod_idemp_r by lia.
  rewrite E. rewrite Z.mul_add_distr_l. replace (s * (131 * j)) with (s * j * 131) by lia. apply Z.mod_add. lia.
Qed.
Lemma pc_step sel r t x (u s rz : nat -> Z) i wt0 wt1 W : (sel = 0 \/ (sel = 1 /\ r <> L_1 k)) -> 0 <= rz i < 131 -> 0 <= s i ->
  0 <= wt0 < 131 -> 0 <= wt1 < 131 -> (wt0 + wt1) mod 131 = W -> 0 <= W <= k - 1 ->
  let b := bitof (bound sel r t) i in let xi := bitof x i in
  let c0 := pc_c k 0 sel r (bitof r i) (bitof t i) (rz i) (u i) wt0 i in
  let c1 := pc_c k 1 sel r (bitof r i) (bitof t i) (dp1 k x rz i) (u i) wt1 i in
  let f c := rmul k (s i mod (pz - 1) + 1) c mod pz in
  (radd k (f c0) (f c1) mod pz =? 0) = (gap sel xi b + W =? 0).
Proof.
  intros SEL RZ SI H0 H1 HW WK b xi c0 c1 f. pose proof big as BIG.
  assert (BX : 0 <= xi <= 1) by (unfold xi; rewrite bitof_b2z; destruct (Z.testbit _ _); cbn; lia).
  assert (BB : 0 <= b <= 1) by (unfold b; rewrite bitof_b2z; destruct (Z.testbit _ _); cbn; lia).
  set (s' := s i mod (pz - 1) + 1) in *. assert (S' : 1 <= s' <= 130). { unfold s'. pose proof (Z.mod_pos_bound (s i) (pz - 1) ltac:(unfold pz; lia)) as M. unfold pz in *. lia. }
  assert (DP : dp1 k x rz i = xi + 131 - rz i). { unfold dp1, rsub. fold xi. unfold pz. apply wrap_id. lia. }
  set (G := gap sel xi b + W). assert (GB : 0 <= G < 131) by (unfold G, gap; destruct (sel =? 0); lia).
  assert (FC : exists e0 e1 j, c0 = e0 mod 131 /\ c1 = e1 mod 131 /\ e0 + e1 = G + 131 * j).
  { assert (WD : exists j, wt0 + wt1 = W + 131 * j) by (exists ((wt0 + wt1) / 131); rewrite <- HW; pose proof (Z.div_mod (wt0 + wt1) 131); lia). destruct WD as [j J].
    destruct SEL as [-> | [-> NR]]; unfold c0, c1, pc_c, G, gap, b, bound; cbn [Z.eqb].
    - exists (pz + 0 * bitof r i - rz i + 0 + wt0), (pz + 1 * bitof r i - dp1 k x rz i + 1 + wt1), (j + 1). conj; [reflexivity|reflexivity|]. rewrite DP. unfold pz. fold xi. lia.
    - destruct (Z.eqb_spec r (L_1 k)) as [E|_]; [contradiction|]. cbn [negb].
      exists (pz - 0 * bitof t i + rz i + 0 + wt0), (pz - 1 * bitof t i + dp1 k x rz i + 1 + wt1), (j + 3). conj; [reflexivity|reflexivity|]. rewrite DP. unfold pz. fold xi. lia. }
  destruct FC as (e0 & e1 & j & E0 & E1 & EJ).
  assert (R0 : forall e, rmul k s' (e mod 131) = s' * (e mod 131)).
  { intros e. unfold rmul. apply wrap_id. pose proof (Z.mod_pos_bound e 131 ltac:(lia)). nia. }
  unfold f. rewrite E0, E1, !R0. change pz with 131.
  assert (RA : forall a b', radd k (a mod 131) (b' mod 131) = a mod 131 + b' mod 131).
  { intros a b'. unfold radd. apply wrap_id. pose proof (Z.mod_pos_bound a 131 ltac:(lia)). pose proof (Z.mod_pos_bound b' 131 ltac:(lia)). lia. }
  rewrite RA, (mod_sum s' e0 e1 G j EJ). rewrite mul_zero131 by lia. reflexivity.
Qed.
Lemma pc_w_sum b xi rz : 0 <= b <= 1 -> 0 <= xi <= 1 -> exists j, (pz + rz + 0 * b - 2 * b * rz) + (pz + (xi + 131 - rz) + 1 * b - 2 * b * (xi + 131 - rz)) = (xi + b - 2 * b * xi) + 131 * j.
Proof. intros B X. exists (3 - 2 * b). unfold pz. lia. Qed.

Lemma pc_zero_cons a l b m : pc_zero k (a :: l) (b :: m) = b2i ((radd k a b mod pz =? 0) || (pc_zero k l m =? 1)).
Proof. unfold pc_zero. cbn [combine map existsb]. destruct (radd k a b mod pz =? 0); [reflexivity|]. cbn [orb]. destruct (existsb _ _); reflexivity. Qed.

Lemma pc_loop sel r t x (u s rz : nat -> Z) : (sel = 0 \/ (sel = 1 /\ r <> L_1 k)) -> (forall i, 0 <= rz i < 131) -> (forall i, 0 <= s i) ->
  forall m wt0 wt1 W, Z.of_nat m <= k -> 0 <= wt0 < 131 -> 0 <= wt1 < 131 -> (wt0 + wt1) mod 131 = W -> 0 <= W <= k - Z.of_nat m ->
  pc_zero k (pc k 0 sel r t (dp0 rz) u s m wt0) (pc k 1 sel r t (dp1 k x rz) u s m wt1)
  = b2i ((W =? 0) && below sel (x mod 2 ^ Z.of_nat m) (bound sel r t mod 2 ^ Z.of_nat m)).
Proof.
  intros SEL RZ SI. induction m as [|i IH]; intros wt0 wt1 W MK H0 H1 HW WK.
  - cbn [pc]. change (Z.of_nat 0) with 0. change (2 ^ 0) with 1. rewrite !Z.mod_1_r. unfold below. destruct (sel =? 0); cbn; now rewrite andb_false_r.
  - cbn [pc]. rewrite pc_zero_cons. pose proof (pc_step sel r t x u s rz i wt0 wt1 W SEL (RZ i) (SI i) H0 H1 HW ltac:(lia)) as ST. cbv zeta in ST.
    unfold dp0 at 1. rewrite ST. clear ST.
    set (w0 := if sel =? 0 then pc_w 0 (dp0 rz i) (bitof r i) else if negb (r =? L_1 k) then pc_w 0 (dp0 rz i) (bitof t i) else 0).
    set (w1 := if sel =? 0 then pc_w 1 (dp1 k x rz i) (bitof r i) else if negb (r =? L_1 k) then pc_w 1 (dp1 k x rz i) (bitof t i) else 0).
    set (b := bitof (bound sel r t) i). set (xi := bitof x i).
    assert (BX : 0 <= xi <= 1) by (unfold xi; rewrite bitof_b2z; destruct (Z.testbit _ _); cbn; lia).
    assert (BB : 0 <= b <= 1) by (unfold b; rewrite bitof_b2z; destruct (Z.testbit _ _); cbn; lia).
    assert (DP : dp1 k x rz i = xi + 131 - rz i). { unfold dp1, rsub. fold xi. unfold pz. apply wrap_id. pose proof big. specialize (RZ i). lia. }
    set (W' := W + (xi + b - 2 * b * xi)).
    assert (E01 : w0 = pc_w 0 (rz i) b /\ w1 = pc_w 1 (xi + 131 - rz i) b).
    { unfold w0, w1, b, bound. rewrite DP. destruct SEL as [-> | [-> NR]]; cbn [Z.eqb]; [split; reflexivity|]. destruct (Z.eqb_spec r (L_1 k)); [contradiction|]. split; reflexivity. }
    destruct E01 as [E0 E1].
    assert (W2 : ((wt0 + w0) mod pz + (wt1 + w1) mod pz) mod 131 = W').
    { change pz with 131. rewrite <- Z.add_mod by lia. rewrite E0, E1. unfold pc_w, pz.
      replace (wt0 + (131 + rz i + 0 * b - 2 * b * rz i) mod 131 + (wt1 + (131 + (xi + 131 - rz i) + 1 * b - 2 * b * (xi + 131 - rz i)) mod 131))
        with ((wt0 + wt1) + ((131 + rz i + 0 * b - 2 * b * rz i) mod 131 + (131 + (xi + 131 - rz i) + 1 * b - 2 * b * (xi + 131 - rz i)) mod 131)) by lia.
      rewrite Z.add_mod, <- (Z.add_mod (131 + rz i + _ - _)), HW by lia.
      destruct (pc_w_sum b xi (rz i) BB BX) as [j J]. unfold pz in J. rewrite J. rewrite (Z.mul_comm 131 j), Z.mod_add by lia. rewrite Z.add_mod_idemp_r by lia. unfold W'. apply Z.mod_small. nia. }
    assert (WB : 0 <= W' <= k - Z.of_nat i) by (assert (xi = 0 \/ xi = 1) as [-> | ->] by (clear - BX; lia); unfold W'; clear - WK BB; lia).
    assert (MK' : Z.of_nat i <= k) by (clear - MK; lia).
    pose proof (IH ((wt0 + w0) mod pz) ((wt1 + w1) mod pz) W' MK' (Z.mod_pos_bound _ pz eq_refl) (Z.mod_pos_bound _ pz eq_refl) W2 WB) as R. rewrite R. clear R.
    rewrite (mod_S x i), (mod_S (bound sel r t) i). fold xi. fold b. clear IH W2 E0 E1 DP.
    pose proof (pow2_pos (Z.of_nat i) ltac:(lia)) as P. set (P2 := 2 ^ Z.of_nat i) in *.
    pose proof (Z.mod_pos_bound x P2 P) as MX. pose proof (Z.mod_pos_bound (bound sel r t) P2 P) as MB.
    set (xm := x mod P2) in *. set (bm := bound sel r t mod P2) in *. clearbody xm bm P2 xi b.
    assert (CX : xi = 0 \/ xi = 1) by lia. assert (CB : b = 0 \/ b = 1) by lia. replace (b2i (_ && _) =? 1) with ((W' =? 0) && below sel xm bm) by (destruct ((W' =? 0) && below sel xm bm); reflexivity). f_equal. unfold W', gap, below.
    destruct SEL as [-> | [-> _]]; cbn [Z.eqb]; destruct CX as [-> | ->], CB as [-> | ->];
      repeat match goal with |- context[?p =? ?q] => destruct (Z.eqb_spec p q) | |- context[?p <? ?q] => destruct (Z.ltb_spec p q) end; cbn [orb andb]; try reflexivity; exfalso; lia.
Qed.

Lemma compare_ok sel r t x (u s rz : nat -> Z) : (sel = 0 \/ (sel = 1 /\ r <> L_1 k)) -> (forall i, 0 <= rz i < 131) -> (forall i, 0 <= s i) -> word k x -> word k (bound sel r t) ->
  pc_zero k (pc k 0 sel r t (dp0 rz) u s (Z.to_nat k) 0) (pc k 1 sel r t (dp1 k x rz) u s (Z.to_nat k) 0) = b2i (below sel x (bound sel r t)).
Proof.
  intros SEL RZ SI WX WB. rewrite (pc_loop sel r t x u s rz SEL RZ SI (Z.to_nat k) 0 0 0) by (try reflexivity; lia). cbn [Z.eqb andb].
  rewrite Z2Nat.id by lia. rewrite !Z.mod_small by assumption. reflexivity.
Qed.

(* ---- words with an explicit modulus ---- *)
Lemma radd_case a b : word k a -> word k b -> radd k a b = if a + b <? 2 ^ k then a + b else a + b - 2 ^ k.
Proof.
  intros A B. unfold word in *. unfold radd. destruct (Z.ltb_spec (a + b) (2 ^ k)); [apply wrap_id; lia|].
  transitivity (wrap k (a + b - 2 ^ k)); [|apply wrap_id; lia]. unfold wrap. replace (a + b) with (a + b - 2 ^ k + 1 * 2 ^ k) at 1 by lia. apply Z.mod_add. lia.
Qed.
Lemma rsub_case a b : word k a -> word k b -> rsub k a b = if b <=? a then a - b else a - b + 2 ^ k.
Proof.
  intros A B. unfold word in *. unfold rsub. destruct (Z.leb_spec b a); [apply wrap_id; lia|].
  transitivity (wrap k (a - b + 2 ^ k)); [|apply wrap_id; lia]. unfold wrap. replace (a - b + 2 ^ k) with (a - b + 1 * 2 ^ k) by lia. symmetry. apply Z.mod_add. lia.
Qed.
Lemma rneg_case a : word k a -> rneg k a = if a =? 0 then 0 else 2 ^ k - a.
Proof.
  intros A. unfold word in *. rewrite rneg_wrap. destruct (Z.eqb_spec a 0) as [-> | N]; [reflexivity|].
  transitivity (wrap k (2 ^ k - a)); [|apply wrap_id; lia]. unfold wrap. replace (2 ^ k - a) with (- a + 1 * 2 ^ k) by lia. symmetry. apply Z.mod_add. lia.
Qed.
Lemma word_lit c : 0 <= c <= 1 -> word k c. Proof. pose proof big. unfold word. lia. Qed.
Ltac cases := repeat match goal with |- context[?p =? ?q] => destruct (Z.eqb_spec p q) | |- context[?p <? ?q] => destruct (Z.ltb_spec p q) | |- context[?p <=? ?q] => destruct (Z.leb_spec p q) end.

Lemma add1_case a b : word k a -> word k b -> add1 k a b = if a + b <? 2 ^ k then a + b else a + b - (2 ^ k - 1).
Proof.
  intros A B. pose proof big. unfold add1. rewrite (radd_case a b A B). unfold word in *. destruct (Z.ltb_spec (a + b) (2 ^ k)).
  - destruct (Z.ltb_spec (a + b) a); [lia|reflexivity].
  - destruct (Z.ltb_spec (a + b - 2 ^ k) a); [|lia]. rewrite radd_case by (unfold word; lia). cases; lia.
Qed.
Lemma sub1_case a b : word k a -> word k b -> sub1 k a b = if b <=? a then a - b else a - b + (2 ^ k - 1).
Proof.
  intros A B. pose proof big. unfold sub1. rewrite (rsub_case a b A B). unfold word in *. destruct (Z.leb_spec b a).
  - destruct (Z.ltb_spec a b); [lia|reflexivity].
  - destruct (Z.ltb_spec a b); [|lia]. rewrite rsub_case by (unfold word; lia). cases; lia.
Qed.
Lemma add1_ok a b : word k a -> word k b -> word k (add1 k a b) /\ exists q, add1 k a b = a + b + q * (2 ^ k - 1).
Proof. intros A B. rewrite add1_case by assumption. unfold word in *. split; [cases; lia|]. destruct (a + b <? 2 ^ k); [exists 0|exists (-1)]; lia. Qed.
Lemma sub1_ok a b : word k a -> word k b -> word k (sub1 k a b) /\ exists q, sub1 k a b = a - b + q * (2 ^ k - 1).
Proof. intros A B. rewrite sub1_case by assumption. unfold word in *. split; [cases; lia|]. destruct (b <=? a); [exists 0|exists 1]; lia. Qed.

Lemma theta0_ok sel alpha beta delta e : sel = 0 \/ sel = 1 -> 0 <= alpha <= 1 -> 0 <= beta <= 1 -> word k delta -> 0 <= e <= 2 ^ k - 2 ->
  ~ (sel = 1 /\ e = 1 /\ beta = 1) ->
  word k (conv_theta k 0 sel alpha beta delta e) /\ exists q, conv_theta k 0 sel alpha beta delta e = delta + (if sel =? 0 then e else 1 - e) + beta - alpha - 1 + q * (2 ^ k - 1).
Proof.
  intros SEL A B WD WE BAD. pose proof big as BIG. unfold conv_theta.
  set (eta := if sel =? 0 then e else if e =? 0 then 1 - 0 else radd k (rsub k (L_1 k) e) (1 - 0)).
  assert (HE : word k eta /\ ~ (eta = 2 ^ k - 1 /\ beta = 1) /\ exists q, eta = (if sel =? 0 then e else 1 - e) + q * (2 ^ k - 1)).
  { unfold eta. destruct SEL as [-> | ->]; cbn [Z.eqb].
    - conj; [unfold word; lia|lia|exists 0; lia].
    - destruct (Z.eqb_spec e 0) as [-> | NZ]; [conj; [apply word_lit; lia|lia|exists 0; lia]|].
      unfold L_1. rewrite (rsub_case (2 ^ k - 1) e) by (unfold word; lia). destruct (Z.leb_spec e (2 ^ k - 1)); [|lia].
      rewrite radd_case by (unfold word; lia). destruct (Z.ltb_spec (2 ^ k - 1 - e + (1 - 0)) (2 ^ k)); [|lia]. conj; [unfold word; lia|lia|exists 1; lia]. }
  destruct HE as (WE' & NB & q1 & E1). clearbody eta. set (v := if sel =? 0 then e else 1 - e) in *. clearbody v.
  set (t := radd k (radd k delta eta) beta). set (t1 := if t <? delta then radd k t 1 else t).
  assert (HT : word k t1 /\ exists q, t1 = delta + eta + beta + q * (2 ^ k - 1)).
  { unfold t1, t. rewrite (radd_case delta eta WD WE'). unfold word in *. 
    destruct (Z.ltb_spec (delta + eta) (2 ^ k)).
    - rewrite radd_case by (unfold word; lia). destruct (Z.ltb_spec (delta + eta + beta) (2 ^ k)).
      + destruct (Z.ltb_spec (delta + eta + beta) delta); [lia|]. split; [lia|exists 0; lia].
      + destruct (Z.ltb_spec (delta + eta + beta - 2 ^ k) delta); [|lia]. rewrite radd_case by (unfold word; lia). destruct (Z.ltb_spec (delta + eta + beta - 2 ^ k + 1) (2 ^ k)); [|lia]. split; [lia|exists (-1); lia].
    - rewrite radd_case by (unfold word; lia). destruct (Z.ltb_spec (delta + eta - 2 ^ k + beta) (2 ^ k)); [|lia].
      destruct (Z.ltb_spec (delta + eta - 2 ^ k + beta) delta); [|lia]. rewrite radd_case by (unfold word; lia). destruct (Z.ltb_spec (delta + eta - 2 ^ k + beta + 1) (2 ^ k)); [|lia]. split; [lia|exists (-1); lia]. }
  destruct HT as (WT & q2 & E2). clearbody t1. clear t.
  assert (EA : (1 - 0) * rsub k (rneg k alpha) 1 = 2 ^ k - alpha - 1).
  { rewrite (rneg_case alpha (word_lit _ A)). destruct (Z.eqb_spec alpha 0) as [-> | NZ]; rewrite rsub_case by (unfold word; lia); cases; lia. }
  rewrite EA. unfold word in *. rewrite radd_case by (unfold word; lia).
  destruct (Z.ltb_spec (t1 + (2 ^ k - alpha - 1)) (2 ^ k)).
  - destruct (Z.ltb_spec t1 (t1 + (2 ^ k - alpha - 1))); [|lia]. rewrite rsub_case by (unfold word; lia). destruct (Z.leb_spec 1 (t1 + (2 ^ k - alpha - 1))); [|lia]. split; [lia|]. exists (q1 + q2 + 1). lia.
  - destruct (Z.ltb_spec t1 (t1 + (2 ^ k - alpha - 1) - 2 ^ k)); [lia|]. split; [lia|]. exists (q1 + q2). lia.
Qed.
Lemma theta1_ok sel alpha beta delta e : sel = 0 \/ sel = 1 -> 0 <= beta <= 1 -> word k delta -> 0 <= e <= 2 ^ k - 2 ->
  word k (conv_theta k 1 sel alpha beta delta e) /\ exists q, conv_theta k 1 sel alpha beta delta e = delta + (if sel =? 0 then e else - e) + beta + q * (2 ^ k - 1).
Proof.
  intros SEL B WD WE. pose proof big as BIG. unfold conv_theta.
  set (eta := if sel =? 0 then e else if e =? 0 then 1 - 1 else radd k (rsub k (L_1 k) e) (1 - 1)).
  assert (HE : 0 <= eta <= 2 ^ k - 2 /\ exists q, eta = (if sel =? 0 then e else - e) + q * (2 ^ k - 1)).
  { unfold eta. destruct SEL as [-> | ->]; cbn [Z.eqb].
    - split; [lia|exists 0; lia].
    - destruct (Z.eqb_spec e 0) as [-> | NZ]; [split; [lia|exists 0; lia]|].
      unfold L_1. rewrite (rsub_case (2 ^ k - 1) e) by (unfold word; lia). destruct (Z.leb_spec e (2 ^ k - 1)); [|lia].
      rewrite radd_case by (unfold word; lia). destruct (Z.ltb_spec (2 ^ k - 1 - e + (1 - 1)) (2 ^ k)); [|lia]. split; [lia|exists 1; lia]. }
  destruct HE as (WE' & q1 & E1). clearbody eta. set (v := if sel =? 0 then e else - e) in *. clearbody v.
  set (t := radd k (radd k delta eta) beta). set (t1 := if t <? delta then radd k t 1 else t).
  assert (HT : word k t1 /\ exists q, t1 = delta + eta + beta + q * (2 ^ k - 1)).
  { unfold t1, t. rewrite (radd_case delta eta WD) by (unfold word; lia). unfold word in *. 
    destruct (Z.ltb_spec (delta + eta) (2 ^ k)).
    - rewrite radd_case by (unfold word; lia). destruct (Z.ltb_spec (delta + eta + beta) (2 ^ k)).
      + destruct (Z.ltb_spec (delta + eta + beta) delta); [lia|]. split; [lia|exists 0; lia].
      + destruct (Z.ltb_spec (delta + eta + beta - 2 ^ k) delta); [|lia]. rewrite radd_case by (unfold word; lia). destruct (Z.ltb_spec (delta + eta + beta - 2 ^ k + 1) (2 ^ k)); [|lia]. split; [lia|exists (-1); lia].
    - rewrite radd_case by (unfold word; lia). destruct (Z.ltb_spec (delta + eta - 2 ^ k + beta) (2 ^ k)); [|lia].
      destruct (Z.ltb_spec (delta + eta - 2 ^ k + beta) delta); [|lia]. rewrite radd_case by (unfold word; lia). destruct (Z.ltb_spec (delta + eta - 2 ^ k + beta + 1) (2 ^ k)); [|lia]. split; [lia|exists (-1); lia]. }
  destruct HT as (WT & q2 & E2). clearbody t1. clear t. replace ((1 - 1) * rsub k (rneg k alpha) 1) with 0 by lia.
  rewrite radd_case by (try exact WT; apply word_lit; lia). unfold word in *. destruct (Z.ltb_spec (t1 + 0) (2 ^ k)); [|lia]. destruct (Z.ltb_spec t1 (t1 + 0)); [lia|].
  split; [lia|]. exists (q1 + q2). lia.
Qed.

Lemma land1 z : Z.land z 1 = 0 \/ Z.land z 1 = 1.
Proof. assert (E : Z.land z 1 = z mod 2) by (change 1 with (Z.ones 1); rewrite Z.land_ones by lia; reflexivity). rewrite E. pose proof (Z.mod_pos_bound z 2 ltac:(lia)). lia. Qed.
Lemma radd_carry a b : word k a -> word k b -> let m := radd k a b in let c := b2i (m <? a) in word k m /\ 0 <= c <= 1 /\ m = a + b - 2 ^ k * c /\ c = b2i (m <? b).
Proof. intros A B. cbv zeta. rewrite (radd_case a b A B). unfold word, b2i in *. destruct (Z.ltb_spec (a + b) (2 ^ k)); cases; lia. Qed.

Definition conv_words (R : conv_draw) : Prop := word k (zr R) /\ word k (cr0 R) /\ word k (cr1 R) /\ forall i, 0 <= cs R i.
Definition conv_ranges (H : conv_help) : Prop := 0 <= delta0 H <= 2 ^ k - 2 /\ 0 <= eta0 H <= 2 ^ k - 2 /\ forall i, 0 <= crz H i < 131.

Lemma share_convert_ok R H a0 a1 : conv_words R -> conv_ranges H -> word k a0 -> word k a1 ->
  (cr0 R + cr1 R) mod 2 ^ k <> 0 -> ~ (Z.odd (er R) = true /\ eta0 H = 1 /\ 2 ^ k <= a0 + cr0 R) ->
  let y := share_convert k R R H a0 a1 in word k (fst y) /\ word k (snd y) /\ cong1 k (fst y + snd y) ((a0 + a1) mod 2 ^ k).
Proof.
  intros (WZ & W0 & W1 & WS) (HD & HE & HZ) A0 A1 NR BAD. pose proof big as BIG. cbv zeta. unfold share_convert. cbn [fst snd].
  set (sel := Z.land (er R) 1). assert (SEL : sel = 0 \/ sel = 1) by apply land1.
  set (m0 := conv_mask0 k R a0). set (m1 := conv_mask1 k R a1). set (x := radd k m0 m1). set (r := conv_r k R) in *.
  assert (NR' : r <> 0) by exact NR.
  destruct (radd_carry a0 (cr0 R) A0 W0) as (Wm0 & Cb0 & Eb0 & Fb0). fold (conv_mask0 k R a0) in *. fold m0 in Wm0, Cb0, Eb0, Fb0 |- *. set (b0 := b2i (m0 <? a0)) in *.
  destruct (radd_carry a1 (cr1 R) A1 W1) as (Wm1 & Cb1 & Eb1 & _). fold (conv_mask1 k R a1) in *. fold m1 in Wm1, Cb1, Eb1 |- *. set (b1 := b2i (m1 <? a1)) in *.
  destruct (radd_carry m0 m1 Wm0 Wm1) as (Wx & Cd & Ed & _). fold x in Wx, Cd, Ed |- *. set (dl := b2i (x <? m0)) in *.
  destruct (radd_carry (cr0 R) (cr1 R) W0 W1) as (Wr & Ca & Ea & _). fold (conv_r k R) in *. fold r in Wr, Ca, Ea |- *. set (al := b2i (r <? cr0 R)) in *.
  assert (R1 : rsub k r 1 = r - 1). { rewrite rsub_case by (try exact Wr; apply word_lit; lia). unfold word in Wr. destruct (Z.leb_spec 1 r); lia. }
  rewrite R1.
  set (e := pc_zero k _ _).
  assert (HC : e = if sel =? 0 then b2i (r <=? x) else 1 - b2i (r <=? x)).
  { unfold e. rewrite (compare_ok sel (r - 1) r x (cu R) (cs R) (crz H)); [| |exact HZ|exact WS|exact Wx|].
    - unfold below, bound. destruct SEL as [-> | ->]; cbn [Z.eqb]; unfold b2i; cases; lia.
    - destruct SEL as [-> | ->]; [left; reflexivity|right]. split; [reflexivity|]. unfold L_1. unfold word in Wr. lia.
    - unfold bound, word in *. destruct (sel =? 0); lia. }
  assert (CE : 0 <= e <= 1) by (rewrite HC; unfold b2i; cases; lia). clearbody e.
  assert (E1 : 0 <= sub1 k e (eta0 H) <= 2 ^ k - 2 /\ exists q, sub1 k e (eta0 H) = e - eta0 H + q * (2 ^ k - 1)).
  { destruct (sub1_ok e (eta0 H) (word_lit _ CE) ltac:(unfold word; lia)) as [_ Q]. split; [|exact Q]. rewrite sub1_case by (unfold word; lia). cases; lia. }
  destruct E1 as (B1 & q1 & Q1). set (e1 := sub1 k e (eta0 H)) in *. clearbody e1.
  destruct (sub1_ok dl (delta0 H) (word_lit _ Cd) ltac:(unfold word; lia)) as [WD1 [q2 Q2]]. set (dl1 := sub1 k dl (delta0 H)) in *. clearbody dl1.
  destruct (theta0_ok sel al b0 (delta0 H) (eta0 H) SEL Ca Cb0 ltac:(unfold word; lia) HE) as [WT0 [q3 Q3]].
  { intros (S1 & S2 & S3). apply BAD. split; [|split; [exact S2|]].
    - unfold sel in S1. change 1 with (Z.ones 1) in S1 at 1. rewrite Z.land_ones in S1 by lia. rewrite Zodd_mod. change (2 ^ 1) with 2 in S1. rewrite S1. reflexivity.
    - unfold word in *. nia. }
  set (th0 := conv_theta k 0 sel al b0 (delta0 H) (eta0 H)) in *. clearbody th0.
  destruct (theta1_ok sel (b2i (r <? cr1 R)) b1 dl1 e1 SEL Cb1 WD1 B1) as [WT1 [q4 Q4]].
  set (th1 := conv_theta k 1 sel (b2i (r <? cr1 R)) b1 dl1 e1) in *. clearbody th1.
  destruct (sub1_ok a0 th0 A0 WT0) as [WY0 [q5 Q5]]. destruct (sub1_ok a1 th1 A1 WT1) as [WY1 [q6 Q6]].
  set (y0 := sub1 k a0 th0) in *. set (y1 := sub1 k a1 th1) in *. clearbody y0 y1.
  assert (EY : (if radd k y0 (zr R) <? zr R then radd k (radd k y0 (zr R)) 1 else radd k y0 (zr R)) = add1 k (zr R) y0).
  { unfold add1. assert (C : radd k y0 (zr R) = radd k (zr R) y0) by (unfold radd; f_equal; lia). rewrite C. reflexivity. }
  rewrite EY. destruct (add1_ok (zr R) y0 WZ WY0) as [WU0 [q7 Q7]]. destruct (sub1_ok y1 (zr R) WY1 WZ) as [WU1 [q8 Q8]].
  conj; [exact WU0|exact WU1|]. unfold cong1. rewrite Q7, Q8, Q5, Q6, Q3, Q4.
  set (eta := b2i (r <=? x)) in *.
  assert (ET : (if sel =? 0 then eta0 H else 1 - eta0 H) + (if sel =? 0 then e1 else - e1) = eta + (if sel =? 0 then q1 else - q1) * (2 ^ k - 1)).
  { rewrite Q1, HC. destruct SEL as [-> | ->]; cbn [Z.eqb]; lia. }
  (* the integer identity *)
  set (w := (a0 + a1) / 2 ^ k). pose proof (Z.div_mod (a0 + a1) (2 ^ k) ltac:(lia)) as DM. fold w in DM. set (a := (a0 + a1) mod 2 ^ k) in *.
  assert (AB : 0 <= a < 2 ^ k) by (apply Z.mod_pos_bound; lia). clearbody a w.
  assert (WI : w = b0 + b1 + dl - al + eta - 1).
  { assert (X : x = a + r + 2 ^ k * (w - b0 - b1 - dl + al)) by lia. unfold word in Wx, Wr. 
    assert (ETA : eta = 1 /\ r <= x \/ eta = 0 /\ x < r) by (unfold eta, b2i; destruct (Z.leb_spec r x); lia). clearbody eta.
    set (j := w - b0 - b1 - dl + al) in *. assert (j = eta - 1); [|lia]. clearbody j. clear - X ETA AB Wx Wr BIG. destruct ETA as [[-> T] | [-> T]]; nia. }
  clearbody eta. exists (w + q5 + q6 + q7 + q8 - q3 - q4 - q2 - (if sel =? 0 then q1 else - q1)).
  rewrite Q2. clear - DM WI ET. destruct (sel =? 0); nia.
Qed.

Lemma msb_y_ok a : word k a -> word k (msb_y k a) /\ exists q, msb_y k a = 2 * a + q * (2 ^ k - 1).
Proof.
  intros A. unfold msb_y. assert (E : rmul k a 2 = radd k a a) by (unfold rmul, radd; f_equal; lia). rewrite E. cbv zeta.
  change (if radd k a a <? a then radd k (radd k a a) 1 else radd k a a) with (add1 k a a). destruct (add1_ok a a A A) as [W [q Q]]. split; [exact W|]. exists q. lia.
Qed.
Lemma add1_comm a b : word k a -> word k b -> add1 k a b = add1 k b a.
Proof. intros A B. rewrite !add1_case by assumption. cases; lia. Qed.
Lemma xor_pub_sum v0 v1 p : eqm k (xor_pub k 0 v0 p + xor_pub k 1 v1 p) (v0 + v1 + p - 2 * p * (v0 + v1)).
Proof. unfold xor_pub. change (0 =? 1) with false. change (1 =? 1) with true. cbv zeta iota. rewrite eqm_radd, !eqm_rsub, !eqm_rmul. apply eqm_eq. lia. Qed.
Lemma splits_sum x l : nthZ (additive_splits k x [l]) 0 = rsub k x l /\ nthZ (additive_splits k x [l]) 1 = l.
Proof. split; reflexivity. Qed.

Definition msb_ranges (H : msb_help) : Prop := 0 <= mx H <= 2 ^ k - 2 /\ 0 <= mx0 H <= 2 ^ k - 2 /\ (forall i, 0 <= mrz H i < 131).
Definition same_draws (R0 R1 : msb_draw) : Prop := bt R0 = bt R1 /\ mu R0 = mu R1 /\ ms R0 = ms R1 /\ mz R0 = mz R1 /\ (forall i, 0 <= ms R0 i) /\
  eqm k (mc R0 + mc R1) ((ma R0 + ma R1) * (mb R0 + mb R1)).

Lemma msb_r_ok H a0 a1 : msb_ranges H -> word k a0 -> word k a1 -> word k (msb_r0 k H a0 a1) /\ msb_r1 k H a0 a1 = msb_r0 k H a0 a1 /\ exists q, msb_r0 k H a0 a1 = 2 * (a0 + a1) + mx H + q * (2 ^ k - 1).
Proof.
  intros (HX & HX0 & _) A0 A1. destruct (msb_y_ok a0 A0) as [WY0 [q0 Q0]]. destruct (msb_y_ok a1 A1) as [WY1 [q1 Q1]].
  destruct (sub1_ok (mx H) (mx0 H) ltac:(unfold word; lia) ltac:(unfold word; lia)) as [WX1 [q2 Q2]]. fold (msb_x1 k H) in WX1, Q2.
  destruct (add1_ok (msb_y k a0) (mx0 H) WY0 ltac:(unfold word; lia)) as [WU [q3 Q3]]. destruct (add1_ok (msb_y k a1) (msb_x1 k H) WY1 WX1) as [WV [q4 Q4]].
  unfold msb_r0, msb_r1. destruct (add1_ok _ _ WU WV) as [WR [q5 Q5]]. conj; [exact WR|now apply add1_comm|].
  exists (q0 + q1 + q2 + q3 + q4 + q5). rewrite Q5, Q3, Q4, Q0, Q1, Q2. lia.
Qed.

Lemma msb3_ok R0 R1 H a0 a1 a : same_draws R0 R1 -> msb_ranges H -> word k a0 -> word k a1 -> cong1 k (a0 + a1) a -> 0 <= a < 2 ^ k - 1 ->
  msb_r0 k H a0 a1 <> 2 ^ k - 1 \/ (Z.odd (bt R0) = false /\ mx H <> 0) ->
  let z := msb3 k R0 R1 H a0 a1 in word k (fst z) /\ word k (snd z) /\ eqm k (fst z + snd z) (if 2 ^ (k - 1) <=? a then 1 else 0).
Proof.
  intros (E1 & E2 & E3 & E4 & WS & TR) RG A0 A1 [qa CA] AR OK. pose proof big as BIG. destruct RG as (HX & HX0 & HZ).
  destruct (msb_r_ok H a0 a1 (conj HX (conj HX0 HZ)) A0 A1) as (Wr & Er & qr & Qr). cbv zeta. unfold msb3. rewrite Er, <- E1, <- E2, <- E3, <- E4.
  set (r := msb_r0 k H a0 a1) in *. set (sel := Z.land (bt R0) 1). assert (SEL : sel = 0 \/ sel = 1) by apply land1.
  assert (SO : Z.odd (bt R0) = false -> sel = 0).
  { intros O. unfold sel. assert (E : Z.land (bt R0) 1 = bt R0 mod 2) by (change 1 with (Z.ones 1); rewrite Z.land_ones by lia; reflexivity). rewrite E, Zmod_odd, O. reflexivity. }
  set (bq := pc_zero k _ _). set (w := b2i (r <? mx H)).
  assert (HB : bq = sel + w - 2 * sel * w).
  { unfold bq. rewrite (compare_ok sel r (radd k r 1) (mx H) (mu R0) (ms R0) (mrz H)); [| |exact HZ|exact WS|unfold word; lia|].
    - unfold below, bound, w. destruct SEL as [-> | S1]; [cbn [Z.eqb]; unfold b2i; cases; lia|]. rewrite S1. cbn [Z.eqb]. assert (RN : r <> 2 ^ k - 1) by (destruct OK as [O | [O _]]; [exact O|specialize (SO O); lia]).
      rewrite radd_case by (try exact Wr; apply word_lit; lia). unfold word in Wr. destruct (Z.ltb_spec (r + 1) (2 ^ k)); [|lia]. unfold b2i. cases; lia.
    - destruct SEL as [-> | S1]; [left; reflexivity|right]. split; [exact S1|]. unfold L_1. destruct OK as [O | [O _]]; [exact O|specialize (SO O); lia].
    - unfold bound. destruct (sel =? 0); [exact Wr|apply radd_word; lia]. }
  clearbody bq. destruct (splits_sum (bitof (mx H) 0) (ml H)) as [-> ->]. destruct (splits_sum bq (mbs H)) as [-> ->].
  set (G0 := xor_pub k 0 (rsub k bq (mbs H)) sel). set (G1 := xor_pub k 1 (mbs H) sel).
  set (D0 := xor_pub k 0 (rsub k (bitof (mx H) 0) (ml H)) (bitof r 0)). set (D1 := xor_pub k 1 (ml H) (bitof r 0)).
  assert (GS : eqm k (G0 + G1) w).
  { unfold G0, G1. rewrite xor_pub_sum, eqm_rsub. apply eqm_eq. rewrite HB. destruct SEL as [-> | ->]; lia. }
  set (lx := bitof (mx H) 0) in *. set (lr := bitof r 0) in *.
  assert (DS : eqm k (D0 + D1) (lx + lr - 2 * lr * lx)).
  { unfold D0, D1. rewrite xor_pub_sum, eqm_rsub. apply eqm_eq. lia. }
  clearbody G0 G1 D0 D1.
  pose proof (open_finish_ok k (fun a b i => a i * b i) 1 1 1 (mul_m k) (fun p _ => per3 G0 G1 0 p) (fun p _ => per3 D0 D1 0 p) (fun _ => ma R0) (fun _ => mb R0) (fun _ => mc R0) (fun _ => ma R1) (fun _ => mb R1) (fun _ => mc R1)
    (fun _ => w) (fun _ => lx + lr - 2 * lr * lx) 0%nat (mul_bilin k ltac:(lia) 1) ltac:(lia) (fun _ _ => GS) (fun _ _ => DS)) as OF.
  specialize (OF ltac:(unfold mul_m, opened; rewrite eqm_rmul, !eqm_radd; exact TR)). cbv zeta in OF.
  destruct (open_finish k (mul_m k) _ _ _ _ _ _ _ _) as [t0 t1]. cbn [fst snd] in OF |- *.
  conj; [apply rsub_word; lia|apply radd_word; lia|]. cbv zeta. repeat (rewrite eqm_radd || rewrite eqm_rsub).
  transitivity ((G0 + G1) + (D0 + D1) - 2 * (t0 0%nat + t1 0%nat)); [apply eqm_eq; lia|]. rewrite GS, DS, OF. unfold mul_m. rewrite eqm_rmul. apply eqm_eq.
  (* the integer identity *)
  assert (P2 : 2 ^ k = 2 * 2 ^ (k - 1)) by (replace k with (1 + (k - 1)) at 1 by lia; rewrite Z.pow_add_r by lia; lia). set (h := 2 ^ (k - 1)) in *.
  set (v := if h <=? a then 1 else 0). assert (V : v = 0 /\ a < h \/ v = 1 /\ h <= a) by (unfold v; destruct (Z.leb_spec h a); lia).
  assert (W : w = 0 /\ mx H <= r \/ w = 1 /\ r < mx H) by (unfold w, b2i; destruct (Z.ltb_spec r (mx H)); lia).
  assert (RE : r = 2 * a - v * (2 ^ k - 1) + mx H - w * (2 ^ k - 1)).
  { assert (RQ : exists q, r = 2 * a + mx H + q * (2 ^ k - 1)) by (exists (qr + 2 * qa); rewrite Qr, CA; lia). destruct RQ as [q RQ]. unfold word in Wr.
    assert (OK' : r <> 2 ^ k - 1 \/ mx H <> 0) by tauto. assert (q = - v - w); [|lia]. clear - RQ V W OK' Wr HX AR P2 BIG. destruct V as [[-> V] | [-> V]], W as [[-> W] | [-> W]]; nia. }
  clearbody v w. assert (LX : lx = mx H mod 2) by (unfold lx; rewrite bitof_b2z; change (Z.of_nat 0) with 0; now rewrite Z.bit0_mod).
  assert (LR : lr = r mod 2) by (unfold lr; rewrite bitof_b2z; change (Z.of_nat 0) with 0; now rewrite Z.bit0_mod).
  rewrite P2 in RE. clear - RE V W LX LR. clearbody lx lr h r.
  pose proof (Z.div_mod (mx H) 2 ltac:(lia)) as DX. pose proof (Z.div_mod r 2 ltac:(lia)) as DR. pose proof (Z.mod_pos_bound (mx H) 2 ltac:(lia)) as BX. pose proof (Z.mod_pos_bound r 2 ltac:(lia)) as BR. rewrite <- LX in DX, BX. rewrite <- LR in DR, BR.
  set (u0 := mx H / 2) in *. set (u1 := r / 2) in *. clearbody u0 u1. set (xx := mx H) in *. clearbody xx. clear LX LR.
  assert (lx = 0 \/ lx = 1) as [-> | ->] by lia; assert (lr = 0 \/ lr = 1) as [-> | ->] by lia; destruct V as [[-> V] | [-> V]], W as [[-> W] | [-> W]]; lia.
Qed.

(* ---- whole arrays ---- *)
Variable F : nat -> list nat -> arr.
Hypothesis WF : generates k F.
(* what P0 and P1 draw for element i when the common generator has produced arrays of the sizes in h *)
Definition conv_draws (n : nat) (h : list nat) (i : nat) : conv_draw :=
  let nk := (n * Z.to_nat k)%nat in
  {| zr := F 1 h i; er := F 1 (h ++ [n]) i; cr0 := F 1 (h ++ [n; n]) i; cr1 := F 1 (h ++ [n; n; n]) i;
     cs := at_ k (F 1%nat (h ++ [n; n; n; n])) i; cu := at_ k (F 1%nat (h ++ [n; n; n; n; nk])) i |}.
Lemma fst_push n g : fst (push3 n g 1%nat) = fst (g 1%nat) ++ [n]. Proof. reflexivity. Qed.
Definition conv_gens (n : nat) (g : gens) : gens := let nk := (n * Z.to_nat k)%nat in push3 nk (push3 nk (push3 n (push3 n (push3 n (push3 n g))))).
Lemma share_convert3_eq n g H A : in_step g -> let D i := conv_draws n (fst (g 1%nat)) i in
  share_convert3 k F n g H A = (per3 (fun i => fst (share_convert k (D i) (D i) (H i) (A 0%nat i) (A 1%nat i))) (fun i => snd (share_convert k (D i) (D i) (H i) (A 0%nat i) (A 1%nat i))) (fun _ => 0), conv_gens n g).
Proof.
  intros S D. unfold share_convert3, conv_gens.
  repeat (rewrite draw3_ok by (repeat apply push3_step; exact S)). rewrite !fst_push, <- !app_assoc. cbn [app]. reflexivity.
Qed.
Definition conv_lucky (n : nat) (h : list nat) (H : nat -> conv_help) (a : arr) : Prop := forall i, (i < n)%nat ->
  let D := conv_draws n h i in (cr0 D + cr1 D) mod 2 ^ k <> 0 /\ ~ (Z.odd (er D) = true /\ eta0 (H i) = 1 /\ 2 ^ k <= a i + cr0 D).
Lemma conv_draws_words n h i : conv_words (conv_draws n h i).
Proof. unfold conv_words. cbn. conj; try apply WF. intros j. apply WF. Qed.
Lemma share_convert3_ok n g H A v : in_step g -> (forall i, (i < n)%nat -> conv_ranges (H i)) -> shares3 k n A v -> conv_lucky n (fst (g 1%nat)) H (A 0%nat) ->
  let B := fst (share_convert3 k F n g H A) in
  (forall i, (i < n)%nat -> word k (B 0%nat i) /\ word k (B 1%nat i) /\ cong1 k (B 0%nat i + B 1%nat i) (v i)) /\ in_step (snd (share_convert3 k F n g H A)).
Proof.
  intros S RG SA LK B. split; [|unfold B; rewrite share_convert3_eq by exact S; unfold conv_gens; cbn [snd]; repeat apply push3_step; exact S].
  intros i I. unfold B. rewrite share_convert3_eq by exact S. cbn [fst per3].
  destruct (sh3_elim k ltac:(lia) n A v i SA I) as (W0 & W1 & _ & Wv & E). destruct (LK i I) as [L1 L2].
  destruct (share_convert_ok (conv_draws n (fst (g 1%nat)) i) (H i) _ _ (conv_draws_words _ _ _) (RG i I) W0 W1 L1 L2) as (C0 & C1 & C2).
  conj; [exact C0|exact C1|]. replace (v i) with ((A 0%nat i + A 1%nat i) mod 2 ^ k); [exact C2|]. change (wrap k (A 0%nat i + A 1%nat i) = v i). rewrite E. apply wrap_id. exact Wv.
Qed.

Lemma msb_all3_ok n g H B v : in_step g -> (forall i, (i < n)%nat -> msb_ranges (H i)) ->
  (forall i, (i < n)%nat -> word k (B 0%nat i) /\ word k (B 1%nat i) /\ cong1 k (B 0%nat i + B 1%nat i) (v i) /\ 0 <= v i < 2 ^ k - 1) ->
  (forall i, (i < n)%nat -> msb_r0 k (H i) (B 0%nat i) (B 1%nat i) <> 2 ^ k - 1 \/ (Z.odd (F 1 (fst (g 1%nat)) i) = false /\ mx (H i) <> 0)) ->
  shares3 k n (fst (msb_all3 k F n g H B)) (fun i => if 2 ^ (k - 1) <=? v i then 1 else 0) /\ in_step (snd (msb_all3 k F n g H B)).
Proof.
  intros S RG HB LK. unfold msb_all3. rewrite !draw3_ok by (repeat apply push3_step; exact S). set (nk := (n * Z.to_nat k)%nat).
  set (g3 := push3 nk (push3 nk (push3 n g))). assert (S3 : in_step g3) by (unfold g3; repeat apply push3_step; exact S).
  pose proof (deal_ok k ltac:(lia) F WF (fun a b i => a i * b i) n n n (mul_m k) g3 (mul_bilin k ltac:(lia) n) S3) as DL.
  destruct (deal k F (mul_m k) n n n g3) as [[[[a0 b0] c0] [[a1 b1] c1]] g4]. destruct DL as (HC & S4 & _). rewrite draw3_ok by exact S4. cbn [fst snd].
  split; [|apply push3_step; exact S4]. apply sh3_intro; [lia|]. intros i I. cbn [per3]. destruct (HB i I) as (W0 & W1 & CG & VR).
  match goal with |- context[msb3 k ?r0 ?r1 _ _ _] => pose proof (msb3_ok r0 r1 (H i) (B 0%nat i) (B 1%nat i) (v i)) as M end.
  specialize (M ltac:(unfold same_draws; cbn; conj; try reflexivity; [intros; apply WF|]; rewrite (HC i); unfold mul_m, opened; rewrite eqm_rmul, !eqm_radd; reflexivity) (RG i I) W0 W1 CG VR (LK i I)).
  destruct M as (M0 & M1 & M2). conj; [exact M0|exact M1|reflexivity| |exact M2]. apply word_lit. destruct (_ <=? _); lia.
Qed.
Lemma bit_double v : word k v -> 0 <= (v + v) mod 2 ^ k < 2 ^ k - 1 /\ (if 2 ^ (k - 1) <=? (v + v) mod 2 ^ k then 1 else 0) = Z.b2z (bit v (k - 2)).
Proof.
  intros V. pose proof big as BIG. assert (P1 : 2 ^ k = 2 * 2 ^ (k - 1)) by (replace k with (1 + (k - 1)) at 1 by lia; rewrite Z.pow_add_r by lia; lia).
  assert (P2 : 2 ^ (k - 1) = 2 * 2 ^ (k - 2)) by (replace (k - 1) with (1 + (k - 2)) by lia; rewrite Z.pow_add_r by lia; lia).
  assert (E : (v + v) mod 2 ^ k = 2 * (v mod 2 ^ (k - 1))). { rewrite P1. replace (v + v) with (2 * v) by lia. apply Z.mul_mod_distr_l; lia. }
  pose proof (mod_S v (Z.to_nat (k - 2))) as M. rewrite bitof_b2z in M. replace (Z.of_nat (S (Z.to_nat (k - 2)))) with (k - 1) in M by lia. replace (Z.of_nat (Z.to_nat (k - 2))) with (k - 2) in M by lia.
  rewrite E, M. pose proof (Z.mod_pos_bound v (2 ^ (k - 2)) ltac:(lia)) as B. unfold bit. destruct (Z.testbit v (k - 2)); cbn [Z.b2z]; (split; [lia|]);
    match goal with |- context[?p <=? ?q] => destruct (Z.leb_spec p q) end; lia.
Qed.

Definition msb_lucky (n : nat) (h : list nat) (H : nat -> msb_help) (B : sharing) : Prop := forall i, (i < n)%nat ->
  msb_r0 k (H i) (B 0%nat i) (B 1%nat i) <> 2 ^ k - 1 \/ (Z.odd (F 1 h i) = false /\ mx (H i) <> 0).
Lemma msb_arith_ok n g Hc Hm A v : in_step g -> (forall i, (i < n)%nat -> conv_ranges (Hc i) /\ msb_ranges (Hm i)) -> shares3 k n A v ->
  let A2 : sharing := fun p i => radd k (A p i) (A p i) in
  let B := share_convert3 k F n g Hc A2 in
  conv_lucky n (fst (g 1%nat)) Hc (A2 0%nat) -> msb_lucky n (fst (snd B 1%nat)) Hm (fst B) ->
  shares3 k n (fst (msb_arith k F n g Hc Hm A)) (fun i => Z.b2z (bit (v i) (k - 2))) /\ in_step (snd (msb_arith k F n g Hc Hm A)).
Proof.
  intros S RG SA A2 B L1 L2. unfold msb_arith. fold A2. fold B.
  assert (S2 : shares3 k n A2 (fun i => (v i + v i) mod 2 ^ k)).
  { apply sh3_intro; [lia|]. intros i I. destruct (sh3_elim k ltac:(lia) n A v i SA I) as (W0 & W1 & E2 & Wv & E). unfold A2. conj; [apply radd_word; lia|apply radd_word; lia| |apply (word_wrap k); lia|].
    - rewrite E2. unfold radd. apply wrap_0. lia.
    - rewrite !eqm_radd. change ((v i + v i) mod 2 ^ k) with (wrap k (v i + v i)). rewrite eqm_wrap, <- E. apply eqm_eq. lia. }
  destruct (share_convert3_ok n g Hc A2 _ S (fun i I => proj1 (RG i I)) S2 L1) as [HB SB]. fold B in HB, SB. destruct B as [B g']. cbn [fst snd] in *.
  destruct (msb_all3_ok n g' Hm B (fun i => (v i + v i) mod 2 ^ k) SB (fun i I => proj2 (RG i I))) as [M1 M2].
  - intros i I. destruct (HB i I) as (C0 & C1 & C2). destruct (sh3_elim k ltac:(lia) n A v i SA I) as (_ & _ & _ & Wv & _). conj; [exact C0|exact C1|exact C2|apply bit_double; exact Wv|apply bit_double; exact Wv].
  - exact L2.
  - split; [|exact M2]. apply (shares3_ext k n _ _ _) with (2 := M1). intros i I. destruct (sh3_elim k ltac:(lia) n A v i SA I) as (_ & _ & _ & Wv & _). apply bit_double. exact Wv.
Qed.
End C.
