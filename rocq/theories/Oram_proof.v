(* The two-party distributed point function of the oblivious reads. *)
From Coq Require Import Btauto.
From Verif Require Import Base Ring_model Ring_spec Semi_model Aby_model Oram_model Oram_spec.
Open Scope Z_scope.

Ltac zbits := apply Z.bits_inj'; let i := fresh "i" in intros i _; rewrite ?Z.lxor_spec, ?Z.land_spec, ?Z.lor_spec, ?Z.bits_0;
  repeat rewrite ?Z.lxor_spec, ?Z.land_spec, ?Z.lor_spec, ?Z.bits_0.

Lemma and_open x x' y y' a a' b b' c c' :
  let m0 := Z.lxor (Z.lxor x a) (Z.lxor x' a') in let m1 := Z.lxor (Z.lxor y b) (Z.lxor y' b') in
  let cD := Z.lxor c (Z.lxor (Z.land (Z.lxor a' a) (Z.lxor b' b)) (Z.lxor c' c)) in
  Z.lxor (Z.lxor (Z.lxor (Z.lxor cD (Z.land m0 b)) (Z.land m1 a)) (Z.land m0 m1)) (Z.lxor (Z.lxor c' (Z.land m0 b')) (Z.land m1 a'))
  = Z.land (Z.lxor x x') (Z.lxor y y').
Proof. cbv zeta. zbits. btauto. Qed.

Lemma xor4 a b c d : Z.lxor (Z.lxor a b) (Z.lxor c d) = Z.lxor (Z.lxor a c) (Z.lxor b d).
Proof. zbits. btauto. Qed.

Lemma computecw_ok num QD QE i j tbD tbE LD LE RD RE :
  let lD := and_triple_d num QD QE i in let rD := and_triple_d num QD QE j in
  let lE := triple_e num QE i in let rE := triple_e num QE j in
  let m := open4 (cw_mask true tbD LD RD lD rD) (cw_mask false tbE LE RE lE rE) in
  Z.lxor (cw_share true m lD rD) (cw_share false m lE rE)
  = Z.lxor (Z.land (Z.lxor tbD tbE) (Z.lxor LD LE)) (Z.land (Z.lxor (Z.lxor tbD tbE) ones128) (Z.lxor RD RE)).
Proof.
  cbv zeta. unfold and_triple_d, triple_e, cw_mask, open4, cw_share. cbv beta iota zeta.
  rewrite xor4. f_equal.
  - apply (and_open tbD tbE LD LE).
  - replace (Z.lxor (Z.lxor tbD tbE) ones128) with (Z.lxor (Z.lxor tbD ones128) tbE) by (zbits; btauto).
    apply (and_open (Z.lxor tbD ones128) tbE RD RE).
Qed.

(* ---- lists of pairs ---- *)
Lemma nth_pairs {A} (f g : A -> Z) l d q : (q < length l)%nat ->
  nthZ (flat_map (fun a => [f a; g a]) l) (2 * q) = f (nth q l d) /\ nthZ (flat_map (fun a => [f a; g a]) l) (2 * q + 1) = g (nth q l d).
Proof.
  revert q. induction l as [|a l IH]; intros q Hq; [cbn in Hq; lia|]. destruct q as [|q]; [split; reflexivity|].
  cbn [length] in Hq. destruct (IH q) as [E1 E2]; [lia|].
  replace (2 * S q)%nat with (S (S (2 * q))) by lia. replace (S (S (2 * q)) + 1)%nat with (S (S (2 * q + 1))) by lia. split; assumption.
Qed.
Lemma len_pairs {A} (f g : A -> Z) l : length (flat_map (fun a => [f a; g a]) l) = (2 * length l)%nat.
Proof. induction l; cbn [flat_map app length]; lia. Qed.
Lemma nth_pairs_seq (f g : nat -> Z) n q : (q < n)%nat ->
  nthZ (flat_map (fun a => [f a; g a]) (seq 0 n)) (2 * q) = f q /\ nthZ (flat_map (fun a => [f a; g a]) (seq 0 n)) (2 * q + 1) = g q.
Proof.
  intros Hq. destruct (nth_pairs f g (seq 0 n) 0%nat q) as [E1 E2]; [rewrite seq_length; lia|].
  rewrite E1, E2, seq_nth by lia. split; reflexivity.
Qed.

(* ---- exclusive-or sums that differ in one place ---- *)
Definition xsum (f : nat -> Z) (n : nat) : Z := fold_left (fun s i => Z.lxor s (f i)) (seq 0 n) 0.
Lemma xsum_S f n : xsum f (S n) = Z.lxor (xsum f n) (f n).
Proof. unfold xsum. rewrite seq_S, fold_left_app. reflexivity. Qed.
Lemma xsum_diff f g n p : (forall i, (i < n)%nat -> i <> p -> f i = g i) ->
  Z.lxor (xsum f n) (xsum g n) = if (p <? n)%nat then Z.lxor (f p) (g p) else 0.
Proof.
  induction n as [|n IH]; intros H; [reflexivity|]. rewrite !xsum_S, xor4, IH by (intros; apply H; lia).
  destruct (Nat.eq_dec n p) as [->|Hn].
  - destruct (Nat.ltb_spec p p); [lia|]. destruct (Nat.ltb_spec p (S p)); [|lia]. apply Z.lxor_0_l.
  - rewrite (H n) by lia. rewrite Z.lxor_nilpotent, Z.lxor_0_r.
    destruct (Nat.ltb_spec p n), (Nat.ltb_spec p (S n)); lia || reflexivity.
Qed.

(* ---- 128-bit words and bits ---- *)
Definition w128 (x : Z) : Prop := Z.land x ones128 = x.
Definition isbit (x : Z) : Prop := x = 0 \/ x = 1.
Lemma w128_mod x : w128 (x mod 2 ^ 128).
Proof. unfold w128, ones128. rewrite Z.land_ones by lia. apply Z.mod_mod. lia. Qed.
Lemma w128_xor x y : w128 x -> w128 y -> w128 (Z.lxor x y).
Proof.
  unfold w128. intros Hx Hy. rewrite <- Hx, <- Hy at 2.
  generalize ones128. intros o. zbits. btauto.
Qed.
Lemma w128_0 : w128 0. Proof. reflexivity. Qed.
Lemma w128_1 : w128 1. Proof. reflexivity. Qed.
Lemma w128_land x y : w128 y -> w128 (Z.land x y).
Proof. unfold w128. intros Hy. rewrite <- Z.land_assoc, Hy. reflexivity. Qed.
Lemma lsb_bit x : isbit (get_lsb x).
Proof. unfold isbit, get_lsb. assert (E : Z.land x 1 = x mod 2) by exact (Z.land_ones x 1 ltac:(lia)). rewrite E. pose proof (Z.mod_pos_bound x 2). lia. Qed.
Lemma lsb_xor x y : get_lsb (Z.lxor x y) = Z.lxor (get_lsb x) (get_lsb y).
Proof. unfold get_lsb. zbits. btauto. Qed.
Lemma isbit_xor x y : isbit x -> isbit y -> isbit (Z.lxor x y).
Proof. intros [->| ->] [->| ->]; cbv; auto. Qed.
Lemma isbit_and x y : isbit x -> isbit y -> isbit (Z.land x y).
Proof. intros [->| ->] [->| ->]; cbv; auto. Qed.
Lemma child_l_w enc key v : w128 v -> w128 (child_l enc key v).
Proof. intros. apply w128_xor; [apply w128_mod|assumption]. Qed.
Lemma child_r_w enc key v : w128 v -> w128 (child_r enc key v).
Proof. intros. apply w128_xor; [apply w128_mod|]. apply w128_xor; [assumption|apply w128_1]. Qed.

(* ---- one layer ---- *)
(* off the path to the target the parties agree; on it their flags differ *)
Definition agree (p n : nat) (D E : nodes) : Prop :=
  length (fst D) = n /\ length (fst E) = n /\ (n <= length (snd D))%nat /\ (n <= length (snd E))%nat /\
  forall i, (i < n)%nat -> isbit (nthZ (snd D) i) /\ isbit (nthZ (snd E) i) /\ w128 (nthZ (fst D) i) /\ w128 (nthZ (fst E) i) /\
    if (i =? p)%nat then Z.lxor (nthZ (snd D) i) (nthZ (snd E) i) = 1
    else nthZ (fst D) i = nthZ (fst E) i /\ nthZ (snd D) i = nthZ (snd E) i.
Definition maskbit (b : bool) : Z := if b then ones128 else 0.

(* the two children of a node, with the correction words of the layer *)
Lemma node_ok (b onp : bool) eD eE cD cE dL dR L R cw t0 t1 :
  isbit eD -> isbit eE ->
  (if onp then Z.lxor eD eE = 1 /\ Z.lxor cD cE = L /\ Z.lxor dL dR = R /\ w128 L /\ w128 R else cD = cE /\ dL = dR /\ eD = eE) ->
  cw = Z.lxor (Z.land (maskbit b) L) (Z.land (Z.lxor (maskbit b) ones128) R) ->
  t0 = Z.lxor (Z.lxor (get_lsb L) (if b then 1 else 0)) 1 -> t1 = Z.lxor (get_lsb R) (if b then 1 else 0) ->
  let xD := if eD =? 0 then 0 else ones128 in let xE := if eE =? 0 then 0 else ones128 in
  let vl := Z.lxor cD (Z.land xD cw) in let vl' := Z.lxor cE (Z.land xE cw) in
  let vr := Z.lxor dL (Z.land xD cw) in let vr' := Z.lxor dR (Z.land xE cw) in
  let fl := Z.lxor (get_lsb cD) (Z.land eD t0) in let fl' := Z.lxor (get_lsb cE) (Z.land eE t0) in
  let fr := Z.lxor (get_lsb dL) (Z.land eD t1) in let fr' := Z.lxor (get_lsb dR) (Z.land eE t1) in
  (if onp && negb b then Z.lxor fl fl' = 1 else vl = vl' /\ fl = fl') /\
  (if onp && b then Z.lxor fr fr' = 1 else vr = vr' /\ fr = fr').
Proof.
  intros HD HE H Hcw Ht0 Ht1. cbv zeta.
  destruct onp; cbn [andb].
  2: { destruct H as (-> & -> & ->). cbn [andb]. repeat split. }
  destruct H as (Hx & HL & HR & WL & WR).
  assert (Et : isbit t0 /\ isbit t1).
  { subst t0 t1. split; repeat apply isbit_xor; try apply lsb_bit; destruct b; cbv; auto. }
  destruct Et as [Et0 Et1].
  (* the difference of the children *)
  assert (Hv : forall c c', Z.lxor (Z.lxor c (Z.land (if eD =? 0 then 0 else ones128) cw)) (Z.lxor c' (Z.land (if eE =? 0 then 0 else ones128) cw))
               = Z.lxor (Z.lxor c c') (Z.land cw ones128)).
  { intros c c'. rewrite xor4. f_equal. destruct HD as [->| ->], HE as [->| ->]; cbn in Hx; try discriminate Hx; cbn [Z.eqb];
      rewrite ?Z.land_0_l, ?Z.lxor_0_l, ?Z.lxor_0_r; apply Z.land_comm. }
  assert (Hf : forall c c' t, isbit t -> Z.lxor (Z.lxor (get_lsb c) (Z.land eD t)) (Z.lxor (get_lsb c') (Z.land eE t)) = Z.lxor (get_lsb (Z.lxor c c')) t).
  { intros c c' t Ht. rewrite xor4, lsb_xor. f_equal. destruct HD as [->| ->], HE as [->| ->]; cbn in Hx; try discriminate Hx; destruct Ht as [->| ->]; reflexivity. }
  assert (HWcw : Z.land cw ones128 = if b then L else R).
  { subst cw. destruct b; cbn [maskbit].
    - rewrite Z.lxor_nilpotent, Z.land_0_l, Z.lxor_0_r, (Z.land_comm ones128). rewrite WL. exact WL.
    - rewrite Z.land_0_l, !Z.lxor_0_l, (Z.land_comm ones128). rewrite WR. exact WR. }
  pose proof (Hv cD cE) as VL. pose proof (Hv dL dR) as VR. pose proof (Hf cD cE t0 Et0) as FL. pose proof (Hf dL dR t1 Et1) as FR.
  rewrite HL in VL, FL. rewrite HR in VR, FR. rewrite HWcw in VL, VR.
  assert (BL := lsb_bit L). assert (BR := lsb_bit R).
  destruct b; cbn [negb].
  - split.
    + split; [apply Z.lxor_eq; rewrite VL; apply Z.lxor_nilpotent|]. apply Z.lxor_eq. rewrite FL, Ht0. destruct BL as [->| ->]; reflexivity.
    + rewrite FR, Ht1. destruct BR as [->| ->]; reflexivity.
  - split.
    + rewrite FL, Ht0. destruct BL as [->| ->]; reflexivity.
    + split; [apply Z.lxor_eq; rewrite VR; apply Z.lxor_nilpotent|]. apply Z.lxor_eq. rewrite FR, Ht1. destruct BR as [->| ->]; reflexivity.
Qed.

Lemma doubling_l enc key vs q : (q < length vs)%nat -> nthZ (length_doubling enc key vs) (2 * q) = child_l enc key (nthZ vs q).
Proof. intros. apply (nth_pairs (child_l enc key) (child_r enc key) vs 0 q). assumption. Qed.
Lemma doubling_r enc key vs q : (q < length vs)%nat -> nthZ (length_doubling enc key vs) (2 * q + 1) = child_r enc key (nthZ vs q).
Proof. intros. apply (nth_pairs (child_l enc key) (child_r enc key) vs 0 q). assumption. Qed.
Lemma doubling_len enc key vs : length (length_doubling enc key vs) = (2 * length vs)%nat.
Proof. apply len_pairs. Qed.

Lemma correct_ok half cw t0 t1 cur e : length cur = (2 * half)%nat -> (half <= length e)%nat ->
  exists v' e', correct half cw t0 t1 cur e = Ok (v', e') /\ length v' = (2 * half)%nat /\ length e' = (2 * half)%nat /\
  forall i, (i < half)%nat -> let x := if nthZ e i =? 0 then 0 else ones128 in
    nthZ v' (2 * i) = Z.lxor (nthZ cur (2 * i)) (Z.land x cw) /\ nthZ v' (2 * i + 1) = Z.lxor (nthZ cur (2 * i + 1)) (Z.land x cw) /\
    nthZ e' (2 * i) = Z.lxor (get_lsb (nthZ cur (2 * i))) (Z.land (nthZ e i) t0) /\
    nthZ e' (2 * i + 1) = Z.lxor (get_lsb (nthZ cur (2 * i + 1))) (Z.land (nthZ e i) t1).
Proof.
  intros Hc He. unfold correct. destruct (Nat.ltb_spec (length cur) (2 * half)); [lia|]. destruct (Nat.ltb_spec (length e) half); [lia|].
  cbn [orb]. eexists _, _. split; [reflexivity|].
  set (f := fun i : nat => Z.lxor (nthZ cur (2 * i)) (Z.land (if nthZ e i =? 0 then 0 else ones128) cw)).
  set (g := fun i : nat => Z.lxor (nthZ cur (2 * i + 1)) (Z.land (if nthZ e i =? 0 then 0 else ones128) cw)).
  set (f' := fun i : nat => Z.lxor (get_lsb (nthZ cur (2 * i))) (Z.land (nthZ e i) t0)).
  set (g' := fun i : nat => Z.lxor (get_lsb (nthZ cur (2 * i + 1))) (Z.land (nthZ e i) t1)).
  split; [rewrite (len_pairs f g), seq_length; reflexivity|]. split; [rewrite (len_pairs f' g'), seq_length; reflexivity|].
  intros i Hi. cbv zeta.
  destruct (nth_pairs_seq f g half i Hi) as [E1 E2]. destruct (nth_pairs_seq f' g' half i Hi) as [E3 E4].
  repeat split; assumption.
Qed.

Lemma isbit_flip t : isbit t -> isbit (Z.lxor t 1). Proof. intros [->| ->]; cbv; auto. Qed.
Lemma w128_mask x : isbit x -> w128 (if x =? 0 then 0 else ones128).
Proof. intros [->| ->]; reflexivity. Qed.

Lemma layer_ok enc key half num QD QE i j (b : bool) tbD tbE D E p :
  agree p half D E -> Z.lxor tbD tbE = maskbit b ->
  exists D' E', layer enc key key half tbD tbE (and_triple_d num QD QE i) (and_triple_d num QD QE j) (triple_e num QE i) (triple_e num QE j) D E = Ok (D', E') /\
    agree (2 * p + (if b then 1 else 0)) (2 * half) D' E'.
Proof.
  intros (LD & LE & LeD & LeE & H) Hb. unfold layer. cbv zeta.
  set (curD := length_doubling enc key (fst D)). set (curE := length_doubling enc key (fst E)).
  rewrite computecw_ok. rewrite (Z.lxor_comm (cw_share false _ _ _)). rewrite computecw_ok. rewrite Hb.
  set (SL := Z.lxor (sum_of 0 half curD) (sum_of 0 half curE)). set (SR := Z.lxor (sum_of 1 half curD) (sum_of 1 half curE)).
  set (cw := Z.lxor (Z.land (maskbit b) SL) (Z.land (Z.lxor (maskbit b) ones128) SR)).
  assert (Hlb : Z.lxor (get_lsb tbD) (get_lsb tbE) = if b then 1 else 0).
  { rewrite <- lsb_xor, Hb. destruct b; reflexivity. }
  assert (T0 : forall x y u v : Z, Z.lxor (Z.lxor x u) (Z.lxor (Z.lxor y v) 1) = Z.lxor (Z.lxor (Z.lxor x y) (Z.lxor u v)) 1) by (intros; zbits; btauto).
  set (t0 := Z.lxor (Z.lxor (get_lsb SL) (if b then 1 else 0)) 1).
  set (t1 := Z.lxor (get_lsb SR) (if b then 1 else 0)).
  rewrite !T0, (Z.lxor_comm (get_lsb (sum_of 0 half curE))), (Z.lxor_comm (get_lsb tbE)), <- lsb_xor, Hlb. fold SL t0.
  rewrite (xor4 (get_lsb (sum_of 1 half curD))), (xor4 (get_lsb (sum_of 1 half curE))).
  rewrite (Z.lxor_comm (get_lsb (sum_of 1 half curE))), (Z.lxor_comm (get_lsb tbE)), <- lsb_xor, Hlb. fold SR t1.
  destruct (correct_ok half cw t0 t1 curD (snd D)) as (vD & eD & ED & LvD' & LeD' & ND); [unfold curD; rewrite doubling_len, LD; reflexivity|exact LeD|].
  destruct (correct_ok half cw t0 t1 curE (snd E)) as (vE & eE & EE & LvE' & LeE' & NE); [unfold curE; rewrite doubling_len, LE; reflexivity|exact LeE|].
  rewrite ED. cbn [rbind]. rewrite EE. cbn [rbind]. eexists (vD, eD), (vE, eE). split; [reflexivity|].
  clear ED EE T0.
  assert (CD : forall q, (q < half)%nat -> nthZ curD (2 * q) = child_l enc key (nthZ (fst D) q) /\ nthZ curD (2 * q + 1) = child_r enc key (nthZ (fst D) q)).
  { intros q Hq. split; [apply doubling_l|apply doubling_r]; rewrite LD; exact Hq. }
  assert (CE : forall q, (q < half)%nat -> nthZ curE (2 * q) = child_l enc key (nthZ (fst E) q) /\ nthZ curE (2 * q + 1) = child_r enc key (nthZ (fst E) q)).
  { intros q Hq. split; [apply doubling_l|apply doubling_r]; rewrite LE; exact Hq. }
  assert (Eq : forall q, (q < half)%nat -> q <> p -> nthZ (fst D) q = nthZ (fst E) q).
  { intros q Hq Hp. destruct (H q Hq) as (_ & _ & _ & _ & H'). destruct (Nat.eqb_spec q p); [contradiction|]. exact (proj1 H'). }
  assert (HSL : SL = if (p <? half)%nat then Z.lxor (nthZ curD (2 * p)) (nthZ curE (2 * p)) else 0).
  { unfold SL. change (sum_of 0 half curD) with (xsum (fun i => nthZ curD (2 * i + 0)%nat) half). change (sum_of 0 half curE) with (xsum (fun i => nthZ curE (2 * i + 0)%nat) half).
    rewrite (xsum_diff _ _ half p); [replace (2 * p + 0)%nat with (2 * p)%nat by lia; reflexivity|].
    intros q Hq Hp. replace (2 * q + 0)%nat with (2 * q)%nat by lia. rewrite (proj1 (CD q Hq)), (proj1 (CE q Hq)), Eq by assumption. reflexivity. }
  assert (HSR : SR = if (p <? half)%nat then Z.lxor (nthZ curD (2 * p + 1)) (nthZ curE (2 * p + 1)) else 0).
  { unfold SR. change (sum_of 1 half curD) with (xsum (fun i => nthZ curD (2 * i + 1)%nat) half). change (sum_of 1 half curE) with (xsum (fun i => nthZ curE (2 * i + 1)%nat) half).
    rewrite (xsum_diff _ _ half p); [reflexivity|].
    intros q Hq Hp. rewrite (proj2 (CD q Hq)), (proj2 (CE q Hq)), Eq by assumption. reflexivity. }
  assert (WD : forall q, (q < half)%nat -> w128 (nthZ curD (2 * q)) /\ w128 (nthZ curD (2 * q + 1)) /\ w128 (nthZ curE (2 * q)) /\ w128 (nthZ curE (2 * q + 1))).
  { intros q Hq. destruct (CD q Hq) as [-> ->]. destruct (CE q Hq) as [-> ->]. destruct (H q Hq) as (_ & _ & W1 & W2 & _).
    split; [apply child_l_w; assumption|]. split; [apply child_r_w; assumption|]. split; [apply child_l_w; assumption|]. apply child_r_w; assumption. }
  assert (WSL : w128 SL).
  { rewrite HSL. destruct (Nat.ltb_spec p half) as [Hp|]; [|apply w128_0]. apply w128_xor; apply WD; exact Hp. }
  assert (WSR : w128 SR).
  { rewrite HSR. destruct (Nat.ltb_spec p half) as [Hp|]; [|apply w128_0]. apply w128_xor; apply WD; exact Hp. }
  assert (Wcw : w128 cw) by (unfold cw; apply w128_xor; apply w128_land; assumption).
  assert (Bt0 : isbit t0) by (unfold t0; repeat apply isbit_xor; try apply lsb_bit; destruct b; cbv; auto).
  assert (Bt1 : isbit t1) by (unfold t1; apply isbit_xor; [apply lsb_bit|destruct b; cbv; auto]).
  split; [exact LvD'|]. split; [exact LvE'|]. cbn [fst snd]. split; [lia|]. split; [lia|].
  intros x Hx. destruct (Nat.Even_or_Odd x) as [[q ->]|[q ->]]; assert (Hq : (q < half)%nat) by lia;
    specialize (ND q Hq); specialize (NE q Hq); cbv zeta in ND, NE;
    destruct ND as (D1 & D2 & D3 & D4), NE as (E1 & E2 & E3 & E4); destruct (H q Hq) as (B1 & B2 & W1 & W2 & H');
    destruct (WD q Hq) as (U1 & U2 & U3 & U4);
    (assert (P := node_ok b (q =? p)%nat (nthZ (snd D) q) (nthZ (snd E) q) (nthZ curD (2 * q)) (nthZ curE (2 * q)) (nthZ curD (2 * q + 1)) (nthZ curE (2 * q + 1)) SL SR cw t0 t1 B1 B2);
     lapply P; clear P; [intros P; specialize (P eq_refl eq_refl eq_refl)|
       destruct (Nat.eqb_spec q p) as [->|Hqp];
       [split; [exact H'|]; rewrite (proj2 (Nat.ltb_lt p half) Hq) in HSL, HSR; split; [symmetry; exact HSL|]; split; [symmetry; exact HSR|]; split; assumption
       |destruct (CD q Hq) as [-> ->]; destruct (CE q Hq) as [-> ->]; destruct H' as [-> ->]; repeat split]]; cbv zeta in P; destruct P as [P1 P2]).
  - rewrite D1, D3, E1, E3.
    split; [apply isbit_xor; [apply lsb_bit|apply isbit_and; assumption]|]. split; [apply isbit_xor; [apply lsb_bit|apply isbit_and; assumption]|].
    split; [apply w128_xor; [assumption|apply w128_land; assumption]|]. split; [apply w128_xor; [assumption|apply w128_land; assumption]|].
    replace (2 * q =? 2 * p + (if b then 1 else 0))%nat with ((q =? p)%nat && negb b) by (clear; destruct b, (Nat.eqb_spec q p); cbn [andb negb]; symmetry; (apply Nat.eqb_eq; lia) || (apply Nat.eqb_neq; lia)).
    exact P1.
  - rewrite D2, D4, E2, E4.
    split; [apply isbit_xor; [apply lsb_bit|apply isbit_and; assumption]|]. split; [apply isbit_xor; [apply lsb_bit|apply isbit_and; assumption]|].
    split; [apply w128_xor; [assumption|apply w128_land; assumption]|]. split; [apply w128_xor; [assumption|apply w128_land; assumption]|].
    replace (2 * q + 1 =? 2 * p + (if b then 1 else 0))%nat with ((q =? p)%nat && b) by (clear; destruct b, (Nat.eqb_spec q p); cbn [andb]; symmetry; (apply Nat.eqb_eq; lia) || (apply Nat.eqb_neq; lia)).
    exact P2.
Qed.
