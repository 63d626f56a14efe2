(* The radix sort is a stable sort: the bits of the keys, and the whole sort. *)
From Coq Require Import ZifyBool ZifyNat ZifyN Sorting.Sorted.
From Verif Require Import Base Ring_model Ring_spec Party Perm_model Perm_spec Perm_proof Fold Scan_model Scan_proof Radix_model Radix_spec Radix_proof Radixs_proof.
Open Scope nat_scope.

Definition bitZ (w : Z) (j : nat) : Z := Z.land (Z.shiftr w (Z.of_nat j)) 1.
Lemma bitZ_val w j : bitZ w j = ((w / 2 ^ Z.of_nat j) mod 2)%Z.
Proof. unfold bitZ. rewrite Z.shiftr_div_pow2 by lia. change 1%Z with (Z.ones 1). now rewrite Z.land_ones by lia. Qed.
Lemma bitZ_01 w j : (0 <= bitZ w j <= 1)%Z.
Proof. rewrite bitZ_val. pose proof (Z.mod_pos_bound (w / 2 ^ Z.of_nat j) 2). lia. Qed.
Lemma mod_split w j : (w mod 2 ^ Z.of_nat (S j) = 2 ^ Z.of_nat j * bitZ w j + w mod 2 ^ Z.of_nat j)%Z.
Proof.
  rewrite bitZ_val. replace (Z.of_nat (S j)) with (Z.of_nat j + 1)%Z by lia. rewrite Z.pow_add_r by lia. assert (0 < 2 ^ Z.of_nat j)%Z by (apply Z.pow_pos_nonneg; lia).
  rewrite Z.rem_mul_r by lia. change (2 ^ 1)%Z with 2%Z. lia.
Qed.
Lemma bitn_map f l i : i < length l -> bitn (map f l) i = Z.to_nat (f (nth i l 0%Z)).
Proof. intros H. unfold bitn. rewrite (nth_indep _ 0%Z (f 0%Z)) by (now rewrite map_length). now rewrite map_nth. Qed.

Section Keys.
Variables (k : Z) (n : nat).
Hypothesis K : (0 < k)%Z.
Lemma flip_bit w j : rsub k 1 (bitZ w j) = (1 - bitZ w j)%Z.
Proof. unfold rsub. apply wrap01; [exact K|]. pose proof (bitZ_01 w j). lia. Qed.

(* the low m bits *)
Lemma low_bits (desc : bool) (l : list Z) m i j : i < length l -> j < length l ->
  let bs := map (fun b => map (fun v => if desc then rsub k 1 (bitZ v b) else bitZ v b) l) (seq 0 m) in
  let wi := (nth i l 0 mod 2 ^ Z.of_nat m)%Z in let wj := (nth j l 0 mod 2 ^ Z.of_nat m)%Z in
  (blt (rev bs) i j <-> if desc then (wj < wi)%Z else (wi < wj)%Z) /\ (beq (rev bs) i j <-> wi = wj).
Proof.
  intros I J. induction m as [|m IH]; cbn zeta.
  - cbn [seq map rev blt]. change (2 ^ Z.of_nat 0)%Z with 1%Z. rewrite !Z.mod_1_r. split; [split; [intros []|destruct desc; lia]|]. split; [reflexivity|intros _ c []].
  - cbn zeta in IH. destruct IH as [IH1 IH2]. rewrite seq_S, map_app, rev_app_distr. cbn [map rev app Nat.add blt]. rewrite beq_cons, IH1, IH2.
    rewrite !bitn_map by assumption. rewrite !mod_split.
    pose proof (bitZ_01 (nth i l 0%Z) m). pose proof (bitZ_01 (nth j l 0%Z) m). assert (P : (0 < 2 ^ Z.of_nat m)%Z) by (apply Z.pow_pos_nonneg; lia).
    pose proof (Z.mod_pos_bound (nth i l 0%Z) _ P). pose proof (Z.mod_pos_bound (nth j l 0%Z) _ P).
    assert (bitZ (nth i l 0%Z) m = 0 \/ bitZ (nth i l 0%Z) m = 1)%Z as A by lia. assert (bitZ (nth j l 0%Z) m = 0 \/ bitZ (nth j l 0%Z) m = 1)%Z as B by lia.
    destruct desc; rewrite ?flip_bit; destruct A as [-> | ->], B as [-> | ->]; rewrite ?Z.mul_0_r, ?Z.mul_1_r; lia.
Qed.

(* one key *)
Lemma key_bits (desc : bool) (vb : option nat) (key : skey) nb : nb = match vb with Some v => v | None => kbits key end ->
  Forall (word k) (kwords key) -> (Z.of_nat nb <= k)%Z -> 0 < nb -> length (kwords key) = n -> key_fits k nb key ->
  exists bs, key_bv k desc vb key = Ok bs /\ length bs = nb /\ Forall (fun b => length b = n /\ is_bit b) bs /\
    forall i j, i < n -> j < n ->
    (blt (rev bs) i j <-> if desc then (key_value k key j < key_value k key i)%Z else (key_value k key i < key_value k key j)%Z) /\
    (beq (rev bs) i j <-> key_value k key i = key_value k key j).
Proof.
  intros Enb W NB P L F. unfold key_bv, bit_decompose. rewrite <- Enb. set (l := kwords key) in *.
  set (t := map (fun bit => map (fun v => Z.land (Z.shiftr v (Z.of_nat bit)) 1) l) (seq 0 nb)).
  assert (Lt : length t = nb) by (unfold t; now rewrite map_length, seq_length). rewrite Lt.
  destruct (Nat.eqb_spec nb 0) as [Q|_]; [lia|]. destruct nb as [|m]; [lia|]. replace (S m - 1) with m by lia.
  assert (Tt : nth m t [] = map (fun v => bitZ v m) l) by (unfold t; rewrite map_seq_nth by lia; reflexivity).
  assert (Tl : firstn m t = map (fun bit => map (fun v => bitZ v bit) l) (seq 0 m)) by (unfold t; rewrite seq_S, map_app, firstn_app, map_length, seq_length, Nat.sub_diag; cbn [firstn]; rewrite app_nil_r, firstn_all2 by (rewrite map_length, seq_length; lia); reflexivity).
  rewrite Tt, Tl. set (top := map (fun v => bitZ v m) l).
  assert (Lo : map (fun b => if desc then map (fun b0 => rsub k 1 b0) b else b) (map (fun bit => map (fun v => bitZ v bit) l) (seq 0 m)) =
               map (fun b => map (fun v => if desc then rsub k 1 (bitZ v b) else bitZ v b) l) (seq 0 m)).
  { rewrite map_map. apply map_ext. intros b. destruct desc; [now rewrite map_map|reflexivity]. }
  rewrite Lo. set (low := map _ (seq 0 m)).
  set (fl := if kuns key then desc else negb desc).
  assert (To : (if kuns key then if desc then map (fun b => rsub k 1 b) top else top else if desc then top else map (fun b => rsub k 1 b) top) = map (fun v => if fl then rsub k 1 (bitZ v m) else bitZ v m) l).
  { unfold fl, top. destruct (kuns key), desc; cbn [negb]; rewrite ?map_map; reflexivity. }
  rewrite To. eexists. split; [reflexivity|]. split; [rewrite app_length; unfold low; rewrite map_length, seq_length; cbn; lia|]. split.
  - apply Forall_app. split.
    + apply Forall_forall. intros b B. unfold low in B. apply in_map_iff in B. destruct B as [c [<- _]]. split; [now rewrite map_length|]. apply Forall_forall. intros x X. apply in_map_iff in X. destruct X as [v [<- _]].
      pose proof (bitZ_01 v c). destruct desc; [rewrite flip_bit|]; lia.
    + constructor; [|constructor]. split; [now rewrite map_length|]. apply Forall_forall. intros x X. apply in_map_iff in X. destruct X as [v [<- _]]. pose proof (bitZ_01 v m). destruct fl; [rewrite flip_bit|]; lia.
  - intros i j I J. rewrite rev_app_distr. cbn [rev app blt]. rewrite beq_cons. rewrite <- L in I, J.
    destruct (low_bits desc l m i j I J) as [B1 B2]. fold low in B1, B2. rewrite B1, B2. rewrite !bitn_map by assumption.
    assert (V : forall i, i < length l -> exists b, bitZ (nth i l 0%Z) m = b /\ (b = 0 \/ b = 1)%Z /\ key_value k key i = ((if kuns key then 1 else -1) * (2 ^ Z.of_nat m * b) + nth i l 0 mod 2 ^ Z.of_nat m)%Z).
    { clear - F W K NB. intros i I. exists (bitZ (nth i l 0%Z) m). split; [reflexivity|]. pose proof (bitZ_01 (nth i l 0%Z) m). split; [lia|]. specialize (F i I).
      assert (Wi : word k (nth i l 0%Z)) by (rewrite Forall_forall in W; apply W; now apply nth_In). unfold word in Wi.
      assert (P : (0 < 2 ^ Z.of_nat m)%Z) by (apply Z.pow_pos_nonneg; lia). pose proof (mod_split (nth i l 0%Z) m) as MS. pose proof (Z.mod_pos_bound (nth i l 0%Z) _ P).
      destruct (kuns key) eqn:U.
      - unfold key_value in *. rewrite U in *. change (nthZ (kwords key) i) with (nth i l 0%Z) in *. rewrite Z.mod_small in MS by lia. lia.
      - destruct F as [_ F]. replace (Z.of_nat (S m) - 1)%Z with (Z.of_nat m) in F by lia.
        assert (E : exists q, (nth i l 0 = key_value k key i + q * 2 ^ Z.of_nat (S m))%Z).
        { unfold key_value. rewrite U. change (nthZ (kwords key) i) with (nth i l 0%Z). destruct (nth i l 0 <? 2 ^ (k - 1))%Z; [exists 0%Z; lia|]. exists (2 ^ (k - Z.of_nat (S m)))%Z. rewrite <- Z.pow_add_r by lia. replace (k - Z.of_nat (S m) + Z.of_nat (S m))%Z with k by lia. lia. }
        destruct E as [q E]. set (v := key_value k key i) in *. assert (PS : (2 ^ Z.of_nat (S m) = 2 * 2 ^ Z.of_nat m)%Z) by (rewrite Nat2Z.inj_succ, Z.pow_succ_r; lia).
        assert (M1 : (nth i l 0 mod 2 ^ Z.of_nat (S m) = v mod 2 ^ Z.of_nat (S m))%Z) by (rewrite E; apply Z.mod_add; lia).
        rewrite M1 in MS. assert (bitZ (nth i l 0%Z) m = 0 \/ bitZ (nth i l 0%Z) m = 1)%Z as BB by lia. destruct (Z.lt_ge_cases v 0) as [G|G].
        + assert (v mod 2 ^ Z.of_nat (S m) = v + 2 ^ Z.of_nat (S m))%Z as Q by (symmetry; apply Z.mod_unique with (q := (-1)%Z); lia). rewrite Q, PS in MS. destruct BB as [BB|BB]; rewrite BB in *; lia.
        + rewrite Z.mod_small in MS by lia. destruct BB as [BB|BB]; rewrite BB in *; lia. }
    destruct (V i I) as [a [-> [A ->]]]. destruct (V j J) as [b [-> [B ->]]]. 
    assert (P2 : (0 < 2 ^ Z.of_nat m)%Z) by (apply Z.pow_pos_nonneg; lia). pose proof (Z.mod_pos_bound (nth i l 0%Z) _ P2). pose proof (Z.mod_pos_bound (nth j l 0%Z) _ P2).
    set (q := (2 ^ Z.of_nat m)%Z) in *. set (x := (nth i l 0 mod q)%Z) in *. set (y := (nth j l 0 mod q)%Z) in *.
    assert (R : forall c, (c = 0 \/ c = 1)%Z -> rsub k 1 c = (1 - c)%Z) by (intros c C; unfold rsub; apply wrap01; [exact K|lia]).
    unfold fl. destruct (kuns key), desc; cbn [negb]; rewrite ?R by assumption; destruct A as [-> | ->], B as [-> | ->]; rewrite ?Z.mul_0_r, ?Z.mul_1_r; lia.
Qed.

Lemma bv_vector_ok desc vb keys : Forall (key_ok k n vb) keys -> keys <> [] -> exists bv, gen_bv_vector k keys desc vb = Ok bv /\ bv <> [] /\ Forall (fun b => length b = n /\ is_bit b) bv /\
  forall i j, i < n -> j < n -> (blt (rev bv) i j <-> row_before desc (map (key_value k) keys) i j) /\ (beq (rev bv) i j <-> forall v, In v (map (key_value k) keys) -> v i = v j).
Proof.
  intros F NE. unfold gen_bv_vector.
  assert (H : exists ls, rmap (key_bv k desc vb) (rev keys) = Ok (rev ls) /\ Forall2 (fun key bs => bs <> [] /\ Forall (fun b => length b = n /\ is_bit b) bs /\ forall i j, i < n -> j < n ->
    (blt (rev bs) i j <-> if desc then (key_value k key j < key_value k key i)%Z else (key_value k key i < key_value k key j)%Z) /\ (beq (rev bs) i j <-> key_value k key i = key_value k key j)) keys ls).
  { clear NE. assert (A : forall l, Forall (key_ok k n vb) l -> exists ls, Forall2 (fun key bs => key_bv k desc vb key = Ok bs) l ls /\ Forall2 (fun key bs => bs <> [] /\ Forall (fun b => length b = n /\ is_bit b) bs /\ forall i j, i < n -> j < n ->
    (blt (rev bs) i j <-> if desc then (key_value k key j < key_value k key i)%Z else (key_value k key i < key_value k key j)%Z) /\ (beq (rev bs) i j <-> key_value k key i = key_value k key j)) l ls).
    { clear - K. intros l. induction l as [|x l IH]; intros F; [exists []; split; constructor|]. destruct (Forall_inv F) as [W [B [P [L Fi]]]]. pose proof (Forall_inv_tail F) as F'. destruct (IH F') as [ls [A1 A2]].
      destruct (key_bits desc vb x (nbits_of vb x) eq_refl W B P L Fi) as [bs [E [Lb [Fb Hb]]]]. exists (bs :: ls). split; constructor; auto. split; [intros ->; cbn in Lb; lia|]. auto. }
    destruct (A keys F) as [ls [A1 A2]]. exists ls. split; [|exact A2]. clear - A1.
    assert (R : forall a b u v, Forall2 (fun key bs => key_bv k desc vb key = Ok bs) a u -> rmap (key_bv k desc vb) b = Ok v -> rmap (key_bv k desc vb) (rev a ++ b) = Ok (rev u ++ v)).
    { intros a b u v H. revert b v. induction H as [|x y a u E H IH]; intros b v R; [exact R|]. cbn [rev]. rewrite <- !app_assoc. apply IH. cbn [app rmap]. rewrite E, R. reflexivity. }
    specialize (R keys [] ls [] A1 eq_refl). rewrite !app_nil_r in R. exact R. }
  destruct H as [ls [E A]]. rewrite E. cbn [rbind]. exists (concat (rev ls)). split; [reflexivity|].
  assert (C : rev (concat (rev ls)) = concat (map (@rev _) ls)).
  { clear. induction ls as [|x ls IH]; [reflexivity|]. cbn [rev map concat]. rewrite concat_app, rev_app_distr. cbn [concat]. rewrite app_nil_r, IH. reflexivity. }
  split; [|split].
  - intros Q. apply (f_equal (@rev _)) in Q. rewrite C in Q. cbn [rev] in Q. inversion A as [|? ? ? ? [B _] _]; subst; [easy|]. cbn [map concat] in Q. apply app_eq_nil in Q. destruct Q as [Q _]. apply (f_equal (@rev _)) in Q. rewrite rev_involutive in Q. now apply B.
  - apply Forall_forall. intros b B. apply in_concat in B. destruct B as [bs [B1 B2]]. apply in_rev in B1. clear - A B1 B2. induction A as [|x y l l' [_ [H _]] A IH]; [easy|]. destruct B1 as [-> |B1]; [|auto]. rewrite Forall_forall in H. auto.
  - intros i j I J. rewrite C. clear - A I J. induction A as [|x y l l' [_ [_ H]] A IH].
    + cbn. split; [tauto|]. split; [intros _ v []|intros _ b []].
    + cbn [map concat row_before]. rewrite blt_app, beq_app. destruct (H i j I J) as [H1 H2]. destruct IH as [IH1 IH2]. rewrite H1, H2, IH1, IH2. split.
      * destruct desc; tauto.
      * split; [intros [Q1 Q2] v [<-|V]; auto|intros Q; split; [apply Q; now left|intros v V; apply Q; now right]].
Qed.
End Keys.

Section Sort.
Variables (ord : nat -> list nat) (junk : Z).
Hypothesis ORD : forall m, Permutation (ord m) (seq 0 m).
Variables (k : Z) (n : nat).
Hypothesis K : (0 < k)%Z.
Hypothesis N : (Z.of_nat n < 2 ^ k)%Z.
Theorem gen_inv_perm_ok keys desc vb rand : keys <> [] -> Forall (key_ok k n vb) keys -> (forall t, is_perm n (rand t)) ->
  exists pn, gen_inv_perm_s ord junk k keys desc vb rand = Ok (map Z.of_nat pn) /\ is_perm n pn /\
    forall i j, i < n -> j < n -> (nth i pn 0 < nth j pn 0 <-> row_before desc (map (key_value k) keys) i j \/ ((forall v, In v (map (key_value k) keys) -> v i = v j) /\ i < j)).
Proof using All.
  intros NE F R. unfold gen_inv_perm_s. destruct (bv_vector_ok k n K desc vb keys F NE) as [bv [E [B [FB H]]]]. rewrite E. cbn [rbind].
  destruct keys as [|key0 keys0]; [easy|]. assert (L0 : length (kwords key0) = n) by (inversion F as [|? ? [_ [_ [_ [L _]]]] _]; exact L).
  destruct (Nat.eqb_spec (length bv) 0) as [Q|_]; [destruct bv; [easy|cbn in Q; lia]|]. rewrite L0.
  destruct (inv_perm_loop_ok ord junk ORD k n K N rand R (length bv) bv 0 (seq 0 n) []) as [pn [EP [P I]]]; [lia|exact FB| |].
  - split; [apply perm_seq|]. intros i j Hi Hj. rewrite !seq_nth by assumption. cbn [blt Nat.add]. split; [intros L; right; split; [intros b []|exact L]|intros [[]|[_ L]]; exact L].
  - exists pn. split; [exact EP|]. split; [exact P|]. intros i j Hi Hj. rewrite I by assumption. rewrite app_nil_r. destruct (H i j Hi Hj) as [H1 H2]. rewrite H1, H2. reflexivity.
Qed.
Theorem radix_sort_ok keys payload desc vb rand shuffle : keys <> [] -> Forall (key_ok k n vb) keys -> Forall (fun x => length x = n) payload ->
  (forall t, is_perm n (rand t)) -> is_perm n shuffle ->
  exists q out, radix_sort ord junk k keys payload desc vb rand shuffle = Ok out /\ stable_order n desc (map (key_value k) keys) q /\ Forall2 (fun x y => gathered x q y) (map kwords keys ++ payload) out.
Proof using All.
  intros NE F FP R S. unfold radix_sort. destruct (gen_inv_perm_ok keys desc vb rand NE F R) as [pn [E [P I]]]. rewrite E. cbn [rbind]. unfold apply_inv_perm_ss.
  assert (FL : Forall (fun x => length x = n) (map kwords keys ++ payload)).
  { apply Forall_app. split; [|exact FP]. apply Forall_forall. intros x X. apply in_map_iff in X. destruct X as [key [<- X]]. rewrite Forall_forall in F. apply (F key X). }
  destruct (opt_inv_ok ord junk ORD k n K N (map kwords keys ++ payload) pn shuffle P S FL) as [vs [m [E2 [F2 _]]]]. rewrite E2. cbn [rbind].
  destruct (gen_inverse_perm_ok ord ORD junk n pn P) as [q [_ IQ]]. exists q, vs. split; [reflexivity|]. split.
  - split; [apply IQ|]. intros a b i j AB A B. apply (proj2 IQ) in A. apply (proj2 IQ) in B. pose proof (nth_error_Some_lt _ _ _ A) as LA. pose proof (nth_error_Some_lt _ _ _ B) as LB. rewrite (perm_length _ _ P) in LA, LB.
    apply (I i j LA LB). now rewrite (nth_of_error _ _ _ 0 A), (nth_of_error _ _ _ 0 B).
  - clear - F2 FL IQ P. induction F2 as [|x v xs vs Sv F2 IH]; [constructor|]. inversion FL; subst. constructor; [|auto]. now apply (scattered_inverse (length x) x pn q).
Qed.
Lemma before_irr desc vs i : ~ row_before desc vs i i.
Proof. clear. induction vs as [|v vs IH]; cbn; [auto|]. destruct desc; intros [H|[_ H]]; lia || auto. Qed.
Lemma before_asym desc vs i j : row_before desc vs i j -> row_before desc vs j i -> False.
Proof. clear. induction vs as [|v vs IH]; cbn; [auto|]. destruct desc; intros [H|[H1 H]] [G|[G1 G]]; try lia; auto. Qed.
Lemma before_neq desc vs i j : (forall v, In v vs -> v i = v j) -> row_before desc vs i j -> False.
Proof. clear. induction vs as [|v vs IH]; cbn; [auto|]. intros H [G|[_ G]]; [rewrite (H v) in G by auto; destruct desc; lia|]. apply IH; auto. Qed.
(* at most one order is stable and sorted *)
Lemma stable_order_unique desc vs q q' : stable_order n desc vs q -> stable_order n desc vs q' -> q = q'.
Proof.
  clear. intros [P H] [P' H'].
  set (bf := fun i j => row_before desc vs i j \/ ((forall v, In v vs -> v i = v j) /\ i < j)).
  assert (AS : forall i j, bf i j -> bf j i -> False).
  { intros i j [A|[A A']] [B|[B B']]; [exact (before_asym _ _ _ _ A B)|apply (before_neq desc vs i j); [intros; symmetry; auto|exact A]|apply (before_neq desc vs j i); [intros; symmetry; auto|exact B]|lia]. }
  assert (SS : forall q0, is_perm n q0 -> (forall a b i j, a < b -> nth_error q0 a = Some i -> nth_error q0 b = Some j -> bf i j) -> StronglySorted bf q0).
  { clear. intros q0 _. induction q0 as [|x q0 IH]; intros H; [constructor|]. constructor.
    - apply IH. intros a b i j AB A B. apply (H (S a) (S b)); auto. lia.
    - apply Forall_forall. intros y Y. apply In_nth_error in Y. destruct Y as [b B]. apply (H 0 (S b)); auto. lia. }
  pose proof (SS q P H) as S1. pose proof (SS q' P' H') as S2. assert (PP : Permutation q q') by (eapply Permutation_trans; [exact P|apply Permutation_sym, P']).
  clear - S1 S2 PP AS. revert q' S2 PP. induction S1 as [|x q S1 IH F]; intros q' S2 PP; [apply Permutation_nil in PP; now subst|].
  destruct S2 as [|y q' S2 F2]; [apply Permutation_sym, Permutation_nil in PP; discriminate|].
  assert (x = y) as ->.
  { assert (X : In x (y :: q')) by (apply (Permutation_in _ PP); now left). assert (Y : In y (x :: q)) by (apply (Permutation_in _ (Permutation_sym PP)); now left).
    destruct X as [X|X]; [auto|]. destruct Y as [Y|Y]; [auto|]. exfalso. rewrite Forall_forall in F, F2. exact (AS x y (F y Y) (F2 x X)). }
  f_equal. apply IH; [exact S2|]. now apply Permutation_cons_inv in PP.
Qed.
End Sort.
