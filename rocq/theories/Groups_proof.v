(* Group-by aggregation: the whole computation. *)
From Coq Require Import ZifyBool ZifyNat ZifyN Sorting.Sorted.
From Verif Require Import Base Ring_model Ring_spec Party Perm_model Perm_spec Perm_proof Fold Scan_model Scan_proof Radix_model Radix_spec Radix_proof Radixs_proof Radixk_proof Pv_model Pv_spec Pv_proof Pvg_proof Pvm_proof Pvs_proof Pva_proof Group_model Group_spec Group_proof.
Open Scope nat_scope.
Notation wordsof x := (kwords (pkey x)).

Lemma same_vis_refl v : same_vis v v = true.
Proof. destruct v; cbn; auto using Nat.eqb_refl. Qed.
Lemma map_by_nth {A} (f : nat -> A) (q : list nat) : map f q = map (fun b => f (nth b q 0)) (seq 0 (length q)).
Proof. rewrite <- (map_map (fun b => nth b q 0) f). f_equal. exact (tab_eta q 0). Qed.
Lemma psum_perm (f : nat -> Z) n q : is_perm n q -> psum (fun b => f (nth b q 0)) n = psum f n.
Proof. intros P. unfold psum. rewrite <- (perm_length _ _ P) at 1. rewrite <- map_by_nth. apply sumZ_perm, Permutation_map, P. Qed.
Lemma nth_firstn_ {A} (l : list A) d : forall m i, i < m -> nth i (firstn m l) d = nth i l d.
Proof. induction l as [|x l IH]; intros [|m] [|i] I; cbn; try lia; auto. apply IH. lia. Qed.
Lemma scan_sum k x : (0 < k)%Z -> Forall (word k) x -> exists w, associative_scan (S (length x)) k (radd k) x = Ok w /\ length w = length x /\ Forall (word k) w /\
  forall i, i < length x -> nthZ w i = wrap k (psum (nthZ x) (S i)).
Proof.
  intros K F. destruct (scan_ok k (radd k) (radd_assoc k) (fun x y _ _ => wrap_word k K _) ltac:(lia) (S (length x)) x) as [w [E [L [W H]]]]; [lia|lia|exact F|].
  exists w. split; [exact E|]. split; [exact L|]. split; [exact W|]. intros i I. specialize (H i I). rewrite msum_radd in H.
  - apply (f_equal (fun o => match o with Some v => v | None => 0%Z end)) in H. cbv beta iota in H. unfold nthZ at 1. rewrite H. unfold psum. enough (EF : firstn (S i) x = map (nthZ x) (seq 0 (S i))) by (now rewrite EF). apply (nth_ext _ _ 0%Z 0%Z).
    + rewrite firstn_length, map_length, seq_length. lia.
    + intros j J. rewrite firstn_length in J. rewrite nth_firstn_ by lia. change (map (nthZ x) (seq 0 (S i))) with (tab (S i) (nthZ x)). rewrite tab_nth by lia. reflexivity.
  - intros Q. apply (f_equal (@length Z)) in Q. rewrite firstn_length in Q. cbn [length] in Q. lia.
  - apply Forall_forall. intros y Y. rewrite Forall_forall in F. apply F. rewrite <- (firstn_skipn (S i) x). apply in_or_app. now left.
Qed.
Lemma right_shift_ok l : 0 < length l -> right_shift l = Ok (tab (length l) (fun r => match r with O => 0%Z | S r' => nthZ l r' end)).
Proof.
  intros N. unfold right_shift. rewrite (slice1_ok l 0 (length l - 1) 1 0%Z) by lia. cbn [rbind]. rewrite Nat.div_1_r. replace (length l - 1 - 0 + 1 - 1) with (length l - 1) by lia.
  f_equal. unfold tab. replace (length l) with (S (length l - 1)) at 2 by lia. cbn [seq map]. f_equal. rewrite <- seq_shift, map_map. apply map_ext. intros j. rewrite Nat.mul_1_l. reflexivity.
Qed.

Lemma group_mark_ok v inputs e m : inputs <> [] -> v <> Sec -> Forall (fun x => pvis x = v) inputs -> group_mark_p (map (fun y => wordsof y) inputs) e = Ok m ->
  group_mark inputs e = Ok (mkV v (mkKey m (kbits (pkey (hd (mkV Pub (mkKey [] 0 false)) inputs))) false)).
Proof.
  intros NE VS F E. destruct inputs as [|y0 r]; [easy|]. unfold group_mark. rewrite E. rewrite (Forall_inv F). cbn [rbind hd].
  assert (FB : forallb (fun x => same_vis (pvis x) v) (y0 :: r) = true) by (apply forallb_forall; intros x X; rewrite Forall_forall in F; rewrite (F x X); apply same_vis_refl). destruct v; [rewrite FB; reflexivity|rewrite FB; reflexivity|easy].
Qed.

Lemma Forall2_impl_ {A B} (P Q : A -> B -> Prop) l l' : (forall x y, P x y -> Q x y) -> Forall2 P l l' -> Forall2 Q l l'.
Proof. intros H. induction 1; constructor; auto. Qed.
Lemma nth_error_repeat_ {A} (x : A) m : forall i, i < m -> nth_error (repeat x m) i = Some x.
Proof. induction m as [|m IH]; intros [|i] I; cbn; try lia; auto. apply IH. lia. Qed.
Section All.
Variables (ord : nat -> list nat) (junk : Z).
Hypothesis ORD : forall m, Permutation (ord m) (seq 0 m).
Variables (k : Z) (n : nat) (has_av : bool).
Hypothesis K : (0 < k)%Z.
Hypothesis N0 : 0 < n.
Hypothesis N1 : (Z.of_nat n < 2 ^ (k - 1))%Z.

Lemma apply_1d_ok v inputs perm pn sh : inputs <> [] -> Forall (fun x => pvis x = v /\ length (wordsof x) = n) inputs -> wordsof perm = map Z.of_nat pn -> is_perm n pn -> is_perm n sh ->
  exists ys, apply_inv_permute_1d ord junk k has_av inputs perm sh = Ok ys /\ Forall2 (fun x y => scattered (wordsof x) pn (wordsof y) /\ pvis y = vjoin v (pvis perm)) inputs ys.
Proof using All.
  intros NE F W P S0. unfold apply_inv_permute_1d. destruct inputs as [|x0 r] eqn:EI; [easy|]. rewrite <- EI in *. destruct (forallb _ inputs) eqn:FB.
  - clear FB EI NE. induction F as [|x l [V L] F IH]; [exists []; split; [reflexivity|constructor]|]. cbn [rmap]. destruct (apply_inv_perm1_ok ord junk ORD k n has_av K N0 N1 x perm pn sh L W P S0) as [w [-> G]].
    destruct IH as [ys [-> F2]]. eexists. split; [reflexivity|]. constructor; [|exact F2]. cbn [like pvis pkey kwords]. rewrite V. split; [exact G|reflexivity].
  - exfalso. assert (FB' : forallb (fun x => same_vis (pvis x) (pvis x0)) inputs = true); [|congruence]. apply forallb_forall. intros x X. rewrite Forall_forall in F. destruct (F x X) as [-> _].
    assert (X0 : In x0 inputs) by (rewrite EI; now left). destruct (F x0 X0) as [-> _]. apply same_vis_refl.
Qed.
Definition good_g (G : grnd) : Prop :=
  (forall i, good_m n (g_m1 G i)) /\ good_rnds n (g_r1 G) /\ (forall i, good_m n (g_m2 G i)) /\ good_rnds n (g_r2 G) /\ is_perm n (g_keys G) /\ is_perm n (g_out G) /\ is_perm n (g_pay G) /\ forall i, is_perm n (g_sum G i).
Lemma gathered_row q cols outs : is_perm n q -> Forall2 (fun x y => length x = n /\ gathered x q y) cols outs -> forall r, r < n -> row_of outs r = row_of cols (nth r q 0).
Proof using.
  clear. intros P F r R. unfold row_of. induction F as [|x y cols outs [L G] F IH]; [reflexivity|]. cbn [map]. f_equal; [|exact IH]. unfold nthZ. exact (gathered_nth n x q y 0%Z P L G r R).
Qed.
(* rows of the sorted keys, marks and the two permutations *)
Lemma group_order_ok keys G v : keys <> [] -> v <> Sec -> Forall (fun x => pvis x = v) keys -> Forall (fun x => sort_key k n None v (pkey x)) keys -> good_g G ->
  exists pp pn q sorted marks mp pm is_end, group_order ord junk k has_av keys G = Ok (pp, sorted, marks, mp) /\
    wordsof pp = map Z.of_nat pn /\ is_perm n pn /\ inverse_of n pn q /\ wordsof mp = map Z.of_nat pm /\ is_perm n pm /\
    Forall2 (fun x y => length (wordsof x) = n /\ gathered (wordsof x) q (wordsof y)) keys sorted /\ Forall (fun y => pvis y = v /\ length (wordsof y) = n) sorted /\ 
    sorted_rows n false (map (sval k) (map (fun y => wordsof y) sorted)) /\
    (forall i t j, i <= t <= j -> j < n -> row_of (map (fun y => wordsof y) sorted) i = row_of (map (fun y => wordsof y) sorted) j -> row_of (map (fun y => wordsof y) sorted) i = row_of (map (fun y => wordsof y) sorted) t) /\
    (forall a, a < n -> (is_end a = true <-> a = n - 1 \/ row_of (map (fun y => wordsof y) sorted) (a + 1) <> row_of (map (fun y => wordsof y) sorted) a)) /\
    length (wordsof marks) = n /\ (forall a, a < n -> nthZ (wordsof marks) a = if is_end a then 1%Z else 0%Z) /\
    inverse_of n pm (ends n is_end ++ filter (fun a => negb (is_end a)) (seq 0 n)).
Proof using All.
  intros NE VS FV FK [G1 [G2 [G3 [G4 [G5 [G6 [G7 G8]]]]]]]. unfold group_order.
  assert (NS : forall l, Forall (fun x => pvis x = v) l -> owners_ok (map pvis l)).
  { intros l F a o m o' b E. exfalso. assert (I : In Sec (map pvis l)) by (rewrite E; apply in_or_app; right; right; apply in_or_app; right; right; now left). apply in_map_iff in I. destruct I as [x [Q X]]. rewrite Forall_forall in F. rewrite (F x X) in Q. easy. }
  assert (FK' : Forall (fun x => sort_key k n None (pvis x) (pkey x)) keys) by (rewrite Forall_forall in FK, FV |- *; intros x X; rewrite (FV x X); auto).
  destruct (gen_inv_perm_any_ok ord junk ORD k n has_av K N0 N1 keys true None (g_m1 G) (g_r1 G) NE (NS _ FV) FK' G1 G2) as [pp [pn [E1 [W1 [P1 [VP1 VO1]]]]]]. rewrite E1. cbn [rbind].
  assert (VV : vjoin v (pvis pp) = v).
  { destruct v as [|o|]; [|  |easy].
    - destruct (VO1 0) as [Q|Q]; [eapply Forall_impl; [|exact FV]; auto|now rewrite Q|]. destruct (VO1 1) as [Q'|Q']; [eapply Forall_impl; [|exact FV]; auto|now rewrite Q'|]. congruence.
    - destruct (VO1 o) as [Q|Q]; [eapply Forall_impl; [|exact FV]; auto|rewrite Q; reflexivity|rewrite Q; cbn; now rewrite Nat.eqb_refl]. }
  assert (FL : Forall (fun x => pvis x = v /\ length (wordsof x) = n) keys) by (rewrite Forall_forall in FK, FV |- *; intros x X; split; [auto|apply (FK x X)]).
  destruct (apply_1d_ok v keys pp pn (g_keys G) NE FL W1 (proj1 P1) G5) as [sorted [E2 F2]]. rewrite E2. cbn [rbind]. rewrite VV in F2.
  destruct (inverse_exists n pn (proj1 P1)) as [q IQ].
  assert (FS : Forall2 (fun x y => length (wordsof x) = n /\ gathered (wordsof x) q (wordsof y)) keys sorted).
  { clear - F2 FL IQ P1. pose proof (proj1 P1) as PP. clear P1. induction F2 as [|x y keys sorted [S0 _] F IH]; [constructor|]. destruct (Forall_inv FL) as [_ L]. constructor; [|apply IH; exact (Forall_inv_tail FL)]. split; [exact L|]. exact (scattered_inverse n _ pn q _ PP IQ L S0). }
  assert (FY : Forall (fun y => pvis y = v /\ length (wordsof y) = n) sorted).
  { clear - F2 FL. induction F2 as [|x y keys sorted [S0 V] F IH]; [constructor|]. destruct (Forall_inv FL) as [_ L]. constructor; [|apply IH; exact (Forall_inv_tail FL)]. split; [exact V|]. destruct S0; lia. }
  set (cols := map (fun y => wordsof y) sorted).
  assert (SNE : sorted <> []) by (intros Q; apply Forall2_length in FS; rewrite Q in FS; apply NE, length_zero_iff_nil; exact FS).
  assert (CNE : cols <> []) by (intros Q; apply map_eq_nil in Q; easy).
  assert (CL : Forall (fun c => length c = n) cols) by (apply Forall_map; eapply Forall_impl; [|exact FY]; intros y [_ L]; exact L).
  assert (CW : Forall (Forall (word k)) cols).
  { unfold cols. apply Forall_map. clear - F2 FK P1. pose proof (proj1 P1) as PP. clear P1. induction F2 as [|x y keys sorted [S0 V] F IH]; [constructor|]. destruct (Forall_inv FK) as [W [L _]]. constructor; [|apply IH; exact (Forall_inv_tail FK)]. exact (scatter_words (wordsof x) pn (wordsof y) n PP L S0 _ W). }
  destruct (end_mark_ok n cols CNE CL N0) as [m [EM [Lm HM]]].
  assert (EG : group_mark sorted true = Ok (mkV v (mkKey m (kbits (pkey (hd (mkV Pub (mkKey [] 0 false)) sorted))) false))).
  { apply group_mark_ok; [exact SNE|exact VS|eapply Forall_impl; [|exact FY]; intros y [Q _]; exact Q|exact EM]. }
  rewrite EG. cbn [rbind]. set (marks := mkV v (mkKey m _ false)).
  assert (MW : Forall (word k) m).
  { apply Forall_forall. intros w I. apply (In_nth _ _ 0%Z) in I. destruct I as [a [A <-]]. destruct (HM a ltac:(lia)) as [[Q|Q] _]; unfold nthZ in Q; rewrite Q; [apply Party.word_0; lia|]. unfold word. pose proof (one_small k K). lia. }
  assert (SM : sort_key k n None v (pkey marks)) by (split; [exact MW|]; split; [exact Lm|]; destruct v; [discriminate|discriminate|easy]).
  destruct (gen_inv_perm_any_ok ord junk ORD k n has_av K N0 N1 [marks] false None (g_m2 G) (g_r2 G) ltac:(discriminate) (NS [marks] ltac:(repeat constructor)) ltac:(repeat constructor; apply SM) G3 G4) as [mp [pm [E3 [W3 [P3 _]]]]].
  rewrite E3. cbn [rbind].
  set (is_end := fun a => (nthZ m a =? 1)%Z).
  assert (ADJ : forall a, a < n -> (is_end a = true <-> a = n - 1 \/ row_of cols (a + 1) <> row_of cols a)).
  { intros a A. unfold is_end. rewrite Z.eqb_eq. destruct (HM a A) as [_ ->]. split.
    - intros H. destruct (Nat.eq_dec a (n - 1)) as [->|D]; [now left|right]. destruct (H (a + 1) ltac:(lia)) as [t [T Q]]. replace (a + 1) with t by lia. exact Q.
    - intros [->|Q] j J; [lia|]. exists (a + 1). split; [lia|exact Q]. }
  assert (SR : sorted_rows n false (map (sval k) cols)).
  { assert (TR : Forall2 (fun u v : nat -> Z => forall i, i < n -> u (nth i pn 0) = v i) (map (sval k) cols) (map (fun x => key_value k (pkey x)) keys)).
    { unfold cols. clear - F2 FK VS P1. pose proof (proj1 P1) as PP. clear P1. induction F2 as [|x y keys sorted [S0 V] F IH]; [constructor|]. pose proof (Forall_inv FK) as SK. cbv beta in SK. cbn [map]. constructor; [|apply IH; exact (Forall_inv_tail FK)].
      intros i I. rewrite (value_signed k n None v (pkey x) SK VS i I). unfold sval, nthZ. destruct SK as [_ [L _]]. now rewrite (scattered_nth n _ pn (wordsof y) 0%Z PP L S0 i I). }
    intros a b AB B. destruct (perm_onto n pn a (proj1 P1) ltac:(lia)) as [i [I <-]]. destruct (perm_onto n pn b (proj1 P1) B) as [j [J <-]]. apply (proj2 P1 i j I J) in AB. destruct (transfer n false pn _ _ TR i j I J) as [T1 T2]. rewrite T1, T2. cbn [negb] in AB. tauto. }
  assert (CONT : forall i t j, i <= t <= j -> j < n -> row_of cols i = row_of cols j -> row_of cols i = row_of cols t).
  { intros i t j T J Q. apply (proj2 (row_vals k n K cols CNE CL CW N0 i t ltac:(lia) ltac:(lia))). pose proof (proj1 (row_vals k n K cols CNE CL CW N0 i j ltac:(lia) ltac:(lia)) Q) as Q'. exact (sorted_mid n false _ i t j SR T J Q'). }
  exists pp, pn, q, sorted, marks, mp, pm, is_end. split; [reflexivity|]. split; [exact W1|]. split; [exact (proj1 P1)|]. split; [exact IQ|]. split; [exact W3|]. split; [exact (proj1 P3)|]. split; [exact FS|]. split; [exact FY|]. split; [exact SR|]. split; [exact CONT|]. split; [exact ADJ|]. split; [exact Lm|]. split.
  - intros a A. unfold is_end. cbn [marks pkey kwords]. destruct (HM a A) as [[Q|Q] _]; rewrite Q; reflexivity.
  - destruct (inverse_exists n pm (proj1 P3)) as [q2 IQ2].
    assert (SO : stable_order n true (map (fun x => key_value k (pkey x)) [marks]) q2) by exact (order_of_places n _ _ pm q2 P3 IQ2).
    replace (ends n is_end ++ filter (fun a => negb (is_end a)) (seq 0 n)) with q2; [exact IQ2|]. apply (stable_order_unique n true [key_value k (pkey marks)]); [exact SO|]. apply marks_order. intros a A. unfold key_value, is_end. cbn [marks pkey kwords kuns].
    assert (P2 : (1 <= 2 ^ (k - 1))%Z) by (pose proof (pow2_pos (k - 1) ltac:(lia)); lia). destruct (HM a A) as [[Q|Q] _]; rewrite Q.
    + destruct (Z.ltb_spec 0 (2 ^ (k - 1))); [reflexivity|lia].
    + destruct (Z.ltb_spec 1 (2 ^ (k - 1))); [reflexivity|lia].
Qed.
Lemma group_diff_ok x mp pm q2 sh : length (wordsof x) = n -> Forall (word k) (wordsof x) -> wordsof mp = map Z.of_nat pm -> is_perm n pm -> inverse_of n pm q2 -> is_perm n sh ->
  exists s v, group_diff ord junk k has_av x mp sh = Ok (like k x v s) /\ length s = n /\
    forall r, r < n -> nthZ s r = wrap k (psum (nthZ (wordsof x)) (S (nth r q2 0)) - match r with O => 0%Z | S r' => psum (nthZ (wordsof x)) (S (nth r' q2 0)) end).
Proof using All.
  intros L W EM PM IQ S0. unfold group_diff. rewrite L. pose proof (scan_sum k (wordsof x) K W) as SC. rewrite L in SC. destruct SC as [w [-> [Lw [Ww H]]]]. cbn [rbind].
  destruct (apply_inv_perm1_ok ord junk ORD k n has_av K N0 N1 (like k x (pvis x) w) mp pm sh Lw EM PM S0) as [y [-> GY]]. cbn [rbind like pkey kwords pvis] in *.
  assert (Ly : length y = n) by (destruct GY; lia). rewrite right_shift_ok by lia. cbn [rbind]. rewrite Ly. assert (EY : tab n (fun i => nth i y 0%Z) = y) by (rewrite <- Ly; symmetry; apply tab_eta).
  match goal with |- context [vec2 ?f y ?t] => replace (vec2 f y t) with (vec2 f (tab n (fun i => nth i y 0%Z)) t) by (now rewrite EY) end. rewrite vec2_tab. cbn [rbind]. do 2 eexists. split; [reflexivity|]. split; [apply tab_length|].
  pose proof (scattered_inverse n w pm q2 y PM IQ Lw GY) as GG. assert (YN : forall r, r < n -> nth r y 0%Z = wrap k (psum (nthZ (wordsof x)) (S (nth r q2 0)))).
  { intros r R. rewrite (gathered_nth n w q2 y 0%Z (proj1 IQ) Lw GG r R). apply H. apply (pv_lt n q2 (proj1 IQ) r R). }
  intros r R. unfold nthZ at 1. rewrite tab_nth by exact R. rewrite YN by exact R. unfold rsub. destruct r as [|r'].
  - match goal with |- wrap k ?u = wrap k ?v => change (eqm k u v) end. rewrite ?eqm_wrap. reflexivity.
  - unfold nthZ at 2. rewrite YN by lia. match goal with |- wrap k ?u = wrap k ?v => change (eqm k u v) end. rewrite ?eqm_wrap. reflexivity.
Qed.

(* the output key columns: rows of the sorted keys at the ends of the groups *)
Lemma distinct_ok keys sorted out q q2 is_end rest : is_perm n q -> is_perm n q2 -> q2 = ends n is_end ++ rest ->
  Forall2 (fun x y => length x = n /\ gathered x q y) keys sorted -> Forall2 (fun x y => length x = n /\ gathered x q2 y) sorted out ->
  sorted <> [] -> Forall (Forall (word k)) sorted -> sorted_rows n false (map (sval k) sorted) ->
  (forall i t j, i <= t <= j -> j < n -> row_of sorted i = row_of sorted j -> row_of sorted i = row_of sorted t) ->
  (forall a, a < n -> (is_end a = true <-> a = n - 1 \/ row_of sorted (a + 1) <> row_of sorted a)) ->
  distinct_rows k n keys out (length (ends n is_end)).
Proof using N0 K.
  clear - N0 K. intros Pq P2 EQ FS FO NE CW SR CONT END. assert (LE : length (ends n is_end) <= n) by (pose proof (perm_length _ _ P2) as Q; rewrite EQ, app_length in Q; clear - Q; lia).
  assert (RO : forall r, r < length (ends n is_end) -> row_of out r = row_of sorted (nth r (ends n is_end) 0)) by (intros r R; rewrite (gathered_row q2 sorted out P2 FO r ltac:(lia)); rewrite EQ, app_nth1 by exact R; reflexivity).
  pose proof (ends_at n is_end) as EA.
  assert (AF := end_after n (row_of sorted) is_end END).
  split; [|split; [|split]].
  - destruct (AF 0 N0) as [r [R _]]. clear - R LE. lia.
  - intros i I. destruct (perm_onto n q i Pq I) as [a [A <-]]. destruct (AF a A) as [r [R Q]]. exists r. split; [exact R|]. rewrite RO by exact R. rewrite Q. apply (gathered_row q keys sorted Pq FS a A).
  - intros r R. destruct (EA r R) as [N _]. exists (nth (nth r (ends n is_end) 0) q 0). split; [apply (pv_lt n q Pq _ N)|]. rewrite RO by exact R. apply (gathered_row q keys sorted Pq FS _ N).
  - intros r r' RR R'. pose proof (ends_lt n is_end r r' RR R') as LT. destruct (EA r ltac:(lia)) as [N E], (EA r' R') as [N' E'].
    assert (NEQ : row_of out r <> row_of out r') by (rewrite !RO by lia; apply (end_split n (row_of sorted) is_end CONT END _ _ LT N' E)).
    split; [exact NEQ|].
    assert (TR : Forall2 (fun u v : nat -> Z => forall i, i < n -> u (nth i q2 0) = v i) (map (sval k) sorted) (map (sval k) out)).
    { clear - FO P2. induction FO as [|x y sorted out [L G] F IH]; cbn [map]; constructor; [|exact IH]. intros i I. unfold sval, nthZ. now rewrite (gathered_nth n x q2 y 0%Z P2 L G i I). }
    destruct (transfer n false q2 _ _ TR r r' ltac:(lia) ltac:(lia)) as [T1 T2]. apply T1. rewrite EQ, !app_nth1 by lia. destruct (SR _ _ LT N') as [H|H]; [exact H|exfalso]. apply NEQ. rewrite !RO by lia.
    apply (row_vals k n K sorted NE); [|exact CW|exact N0|exact N|exact N'|exact H]. clear - FO. induction FO as [|x y sorted out [L _] F IH]; constructor; assumption.
Qed.

Lemma group_value keys sorted out q q2 is_end rest x x' r : is_perm n q -> is_perm n q2 -> q2 = ends n is_end ++ rest ->
  Forall2 (fun x y => length x = n /\ gathered x q y) keys sorted -> Forall2 (fun x y => length x = n /\ gathered x q2 y) sorted out ->
  (forall i t j, i <= t <= j -> j < n -> row_of sorted i = row_of sorted j -> row_of sorted i = row_of sorted t) ->
  (forall a, a < n -> (is_end a = true <-> a = n - 1 \/ row_of sorted (a + 1) <> row_of sorted a)) ->
  length x = n -> gathered x q x' -> r < length (ends n is_end) ->
  (psum (nthZ x') (S (nth r q2 0%nat)) - match r with O => 0%Z | S r' => psum (nthZ x') (S (nth r' q2 0%nat)) end)%Z = sum_of_group keys (row_of out r) x.
Proof using.
  clear. intros Pq P2 EQ FS FO CONT END L G R. assert (LE : length (ends n is_end) <= n) by (pose proof (perm_length _ _ P2) as Q; rewrite EQ, app_length in Q; clear - Q; lia).
  assert (N2 : forall t, t <= r -> nth t q2 0 = nth t (ends n is_end) 0) by (intros t T; rewrite EQ, app_nth1 by lia; reflexivity).
  assert (RO : row_of out r = row_of sorted (nth r (ends n is_end) 0)) by (rewrite (gathered_row q2 sorted out P2 FO r ltac:(lia)); now rewrite N2).
  pose proof (group_total n (row_of sorted) is_end CONT END (nthZ x') r R) as T. unfold before in T. rewrite N2 by lia.
  assert (T' : (psum (nthZ x') (S (nth r (ends n is_end) 0%nat)) - match r with O => 0%Z | S r' => psum (nthZ x') (S (nth r' q2 0%nat)) end)%Z = Z.sub (psum (nthZ x') (S (nth r (ends n is_end) 0))) (match r with O => 0%Z | S r' => psum (nthZ x') (S (nth r' (ends n is_end) 0)) end)) by (destruct r as [|r']; [reflexivity|]; rewrite N2 by lia; reflexivity).
  rewrite T', <- T. clear T T'. unfold sum_of_group. rewrite L. rewrite <- RO. fold (psum (fun i => if list_eq_dec Z.eq_dec (row_of keys i) (row_of out r) then nthZ x i else 0%Z) n).
  rewrite <- (psum_perm (fun i => if list_eq_dec Z.eq_dec (row_of keys i) (row_of out r) then nthZ x i else 0%Z) n q Pq). apply psum_ext. intros b B. rewrite (gathered_row q keys sorted Pq FS b B). unfold nthZ. rewrite (gathered_nth n x q x' 0%Z Pq L G b B). reflexivity.
Qed.
Lemma gathers_map q (xs ys : list pval) : Forall2 (fun x y => length (wordsof x) = n /\ gathered (wordsof x) q (wordsof y)) xs ys ->
  Forall2 (fun x y => length x = n /\ gathered x q y) (map (fun y => wordsof y) xs) (map (fun y => wordsof y) ys).
Proof using. clear. induction 1; cbn [map]; constructor; auto. Qed.
Lemma apply_1d_gathers v inputs perm pn q sh : inputs <> [] -> Forall (fun x => pvis x = v /\ length (wordsof x) = n) inputs -> wordsof perm = map Z.of_nat pn -> is_perm n pn -> inverse_of n pn q -> is_perm n sh ->
  exists ys, apply_inv_permute_1d ord junk k has_av inputs perm sh = Ok ys /\ Forall2 (fun x y => length (wordsof x) = n /\ gathered (wordsof x) q (wordsof y)) inputs ys.
Proof using All.
  intros NE F W P IQ S0. destruct (apply_1d_ok v inputs perm pn sh NE F W P S0) as [ys [E F2]]. exists ys. split; [exact E|]. clear - F F2 P IQ. induction F2 as [|x y xs ys [G _] F2 IH]; constructor; [|apply IH; exact (Forall_inv_tail F)].
  destruct (Forall_inv F) as [_ L]. split; [exact L|]. exact (scattered_inverse n _ pn q _ P IQ L G).
Qed.
Lemma gathers_words q xs ys : is_perm n q -> Forall (fun x => Forall (word k) (wordsof x)) xs -> Forall2 (fun x y => length (wordsof x) = n /\ gathered (wordsof x) q (wordsof y)) xs ys -> Forall (fun y => length (wordsof y) = n /\ Forall (word k) (wordsof y)) ys.
Proof using.
  clear. intros P F F2. induction F2 as [|x y xs ys [L G] F2 IH]; constructor; [|apply IH; exact (Forall_inv_tail F)]. split; [destruct G as [G _]; rewrite G; now apply perm_length|]. exact (gather_words _ q _ n P L G _ (Forall_inv F)).
Qed.
Lemma compose2 q xs zs (R : pval -> pval -> Prop) : forall ys, Forall2 (fun x y => length (wordsof x) = n /\ gathered (wordsof x) q (wordsof y)) xs ys -> Forall2 R ys zs ->
  Forall2 (fun x z => exists y, length (wordsof x) = n /\ gathered (wordsof x) q (wordsof y) /\ R y z) xs zs.
Proof using. clear. intros ys F. revert zs. induction F as [|x y xs ys [L G] F IH]; intros zs F2; inversion F2; subst; constructor; eauto. Qed.
Theorem groupby_sum_ok keys payloads G v vp : keys <> [] -> payloads <> [] -> v <> Sec -> Forall (fun x => pvis x = v) keys -> Forall (fun x => sort_key k n None v (pkey x)) keys ->
  Forall (fun x => pvis x = vp /\ length (wordsof x) = n /\ Forall (word k) (wordsof x)) payloads -> good_g G ->
  exists g out sums, groupby_sum ord junk k has_av keys payloads G = Ok (out ++ sums) /\ length out = length keys /\ Forall (fun y => length (wordsof y) = n) out /\
    distinct_rows k n (map (fun x => wordsof x) keys) (map (fun x => wordsof x) out) g /\
    Forall2 (fun x s => length (wordsof s) = n /\ forall r, r < g -> nthZ (wordsof s) r = wrap k (sum_of_group (map (fun x => wordsof x) keys) (row_of (map (fun x => wordsof x) out) r) (wordsof x))) payloads sums.
Proof using All.
  intros NE PNE VS FV FK FP GG. unfold groupby_sum.
  destruct (group_order_ok keys G v NE VS FV FK GG) as [pp [pn [q [sorted [marks [mp [pm [is_end [E [W1 [P1 [IQ [W3 [P3 [FS [FY [SR [CONT [END [LM [MV IQ2]]]]]]]]]]]]]]]]]]]]]. rewrite E. cbn [rbind]. clear E.
  destruct GG as [_ [_ [_ [_ [_ [G6 [G7 G8]]]]]]]. set (q2 := ends n is_end ++ filter (fun a => negb (is_end a)) (seq 0 n)) in *.
  assert (SNE : sorted <> []) by (intros Q; apply Forall2_length in FS; rewrite Q in FS; apply NE, length_zero_iff_nil; exact FS).
  destruct (apply_1d_gathers v sorted mp pm q2 (g_out G) SNE FY W3 P3 IQ2 G6) as [out [EO FO]]. rewrite EO. cbn [rbind].
  assert (FP1 : Forall (fun x => pvis x = vp /\ length (wordsof x) = n) payloads) by (eapply Forall_impl; [|exact FP]; intros x [A [B _]]; auto).
  destruct (apply_1d_gathers vp payloads pp pn q (g_pay G) PNE FP1 W1 P1 IQ G7) as [perm [EP FPP]]. rewrite EP. cbn [rbind].
  assert (FW : Forall (fun y => length (wordsof y) = n /\ Forall (word k) (wordsof y)) perm) by (apply (gathers_words q payloads); [apply IQ|eapply Forall_impl; [|exact FP]; intros x [_ [_ B]]; exact B|exact FPP]).
  destruct (rmap_index (fun i x => group_diff ord junk k has_av x mp (g_sum G i)) (fun x s => length (wordsof s) = n /\ forall r, r < n -> nthZ (wordsof s) r = wrap k (psum (nthZ (wordsof x)) (S (nth r q2 0)) - match r with O => 0%Z | S r' => psum (nthZ (wordsof x)) (S (nth r' q2 0)) end)) perm 0) as [sums [ES F2]].
  { intros i x X. rewrite Forall_forall in FW. destruct (FW x X) as [L W]. destruct (group_diff_ok x mp pm q2 (g_sum G i) L W W3 P3 IQ2 (G8 i)) as [s [vs [EQ [Ls H]]]]. rewrite EQ. eexists. split; [reflexivity|]. cbn [like pkey kwords]. split; [exact Ls|exact H]. }
  rewrite ES. cbn [rbind]. exists (length (ends n is_end)), out, sums. split; [reflexivity|].
  assert (FSm := gathers_map q _ _ FS). assert (FOm := gathers_map q2 _ _ FO).
  assert (CW : Forall (Forall (word k)) (map (fun y => wordsof y) sorted)).
  { apply Forall_map. assert (H : Forall (fun y => length (wordsof y) = n /\ Forall (word k) (wordsof y)) sorted) by (apply (gathers_words q keys); [apply IQ|eapply Forall_impl; [|exact FK]; intros x [B _]; exact B|exact FS]). eapply Forall_impl; [|exact H]. intros y [_ B]; exact B. }
  split; [apply Forall2_length in FO; apply Forall2_length in FS; congruence|]. split; [|split].
  - clear - FO IQ2. induction FO as [|x y xs ys [L [GL _]] FO IH]; constructor; [rewrite GL; apply perm_length, IQ2|exact IH].
  - apply (distinct_ok _ (map (fun y => wordsof y) sorted) _ q q2 is_end (filter (fun a => negb (is_end a)) (seq 0 n)) (proj1 IQ) (proj1 IQ2) eq_refl FSm FOm); [intros Q; apply map_eq_nil in Q; easy|exact CW|exact SR|exact CONT|exact END].
  - pose proof (compose2 q payloads sums _ perm FPP F2) as FC. eapply Forall2_impl_; [|exact FC]. intros x s [y [L [GY [Ls H]]]]. split; [exact Ls|]. intros r R.
    assert (LE : length (ends n is_end) <= n) by (pose proof (perm_length _ _ (proj1 IQ2)) as Q; unfold q2 in Q; rewrite app_length in Q; clear - Q; lia).
    rewrite H by lia. f_equal. exact (group_value _ _ _ q q2 is_end _ (wordsof x) (wordsof y) r (proj1 IQ) (proj1 IQ2) eq_refl FSm FOm CONT END L GY R).
Qed.

Lemma repeat_nth_sum keys c r : (forall i, i < n -> nthZ (repeat c n) i = c) -> sum_of_group keys r (repeat c n) = (c * size_of_group keys r n)%Z.
Proof using.
  clear. intros H. unfold sum_of_group, size_of_group. rewrite repeat_length. rewrite <- sumZ_map_mul_l. f_equal. apply map_ext_in. intros i I. apply in_seq in I. rewrite H by lia. destruct (list_eq_dec _ _ _); lia.
Qed.
Lemma repeat_nthZ c i : i < n -> nthZ (repeat c n) i = c.
Proof using. clear. unfold nthZ. revert i. induction n as [|m IH]; intros [|i] I; cbn; try lia; auto. apply IH. lia. Qed.
Definition cuts (g m : nat) (cut : list Z -> res (list Z)) : Prop :=
  g <= m /\ forall l, length l = n -> exists l', cut l = Ok l' /\ length l' = m /\ forall r, r < g -> nthZ l' r = nthZ l r.
Lemma rmap_all {A B} (f : A -> res B) (P : A -> B -> Prop) l : (forall x, In x l -> exists y, f x = Ok y /\ P x y) -> exists ys, rmap f l = Ok ys /\ Forall2 P l ys.
Proof using.
  clear. induction l as [|x l IH]; intros H; [exists []; split; [reflexivity|constructor]|]. cbn [rmap]. destruct (H x ltac:(now left)) as [y [-> Py]]. destruct IH as [ys [-> F]]; [intros; apply H; now right|]. exists (y :: ys). split; [reflexivity|]. now constructor.
Qed.
Lemma rmap_index2 {A B} (f : nat -> A -> res B) (P : nat -> A -> B -> Prop) l : forall s, (forall i x, In x l -> exists y, f i x = Ok y /\ P i x y) ->
  exists ys, rmap (fun '(i, x) => f i x) (combine (seq s (length l)) l) = Ok ys /\ length ys = length l /\ forall i dx dy, i < length l -> P (s + i) (nth i l dx) (nth i ys dy).
Proof using.
  clear. induction l as [|x l IH]; intros s H; [exists []; split; [reflexivity|]; split; [reflexivity|]; cbn; lia|]. cbn [length seq combine rmap].
  destruct (H s x ltac:(now left)) as [y [-> Py]]. destruct (IH (S s)) as [ys [-> [L F]]]; [intros; apply H; now right|]. exists (y :: ys). split; [reflexivity|]. split; [cbn; lia|]. intros [|i] dx dy I; cbn [nth]; [rewrite Nat.add_0_r; exact Py|]. rewrite Nat.add_succ_r. apply (F i dx dy). cbn [length] in I. lia.
Qed.
Lemma count_ends (is_end : nat -> bool) (w : list Z) : length w = n -> (forall a, a < n -> nthZ w a = if is_end a then 1%Z else 0%Z) -> sumZ w = Z.of_nat (length (ends n is_end)).
Proof using.
  clear. intros L H. assert (E : w = map (fun a => if is_end a then 1%Z else 0%Z) (seq 0 n)).
  { rewrite (tab_eta w 0%Z), L. unfold tab. apply map_ext_in. intros a A. apply in_seq in A. apply H. lia. }
  rewrite E. unfold ends. clear. induction (seq 0 n) as [|a l IH]; [reflexivity|]. cbn [map sumZ filter]. rewrite sumZ_cons, IH || rewrite IH. destruct (is_end a); cbn [length]; lia.
Qed.
Definition dummy : pval := mkV Pub (mkKey [] 0 false).
Theorem groupby_avg_ok one quotient keys payloads drop G v vp : keys <> [] -> payloads <> [] -> v <> Sec -> Forall (fun x => pvis x = v) keys -> Forall (fun x => sort_key k n None v (pkey x)) keys -> word k one ->
  Forall (fun x => pvis x = vp /\ length (wordsof x) = n /\ Forall (word k) (wordsof x)) payloads -> good_g G ->
  exists g out avgs, groupby_avg ord junk k has_av one quotient keys payloads drop G = Ok (out ++ avgs) /\ length out = length keys /\ length avgs = length payloads /\
    distinct_rows k n (map (fun x => wordsof x) keys) (map (fun x => wordsof x) out) g /\
    Forall (fun y => length (wordsof y) = if drop then g else n) (out ++ avgs) /\
    forall i r, i < length payloads -> r < g -> nthZ (wordsof (nth i avgs dummy)) r =
      quotient i (wrap k (sum_of_group (map (fun x => wordsof x) keys) (row_of (map (fun x => wordsof x) out) r) (wordsof (nth i payloads dummy))))
                 (wrap k (one * size_of_group (map (fun x => wordsof x) keys) (row_of (map (fun x => wordsof x) out) r) n)).
Proof using All.
  intros NE PNE VS FV FK WO FP GG. unfold groupby_avg.
  destruct (group_order_ok keys G v NE VS FV FK GG) as [pp [pn [q [sorted [marks [mp [pm [is_end [E [W1 [P1 [IQ [W3 [P3 [FS [FY [SR [CONT [END [LM [MV IQ2]]]]]]]]]]]]]]]]]]]]]. rewrite E. cbn [rbind]. clear E.
  destruct GG as [_ [_ [_ [_ [_ [G6 [G7 G8]]]]]]]. set (q2 := ends n is_end ++ filter (fun a => negb (is_end a)) (seq 0 n)) in *.
  assert (SNE : sorted <> []) by (intros Q; apply Forall2_length in FS; rewrite Q in FS; apply NE, length_zero_iff_nil; exact FS).
  destruct (apply_1d_gathers v sorted mp pm q2 (g_out G) SNE FY W3 P3 IQ2 G6) as [out [EO FO]]. rewrite EO. cbn [rbind]. rewrite LM.
  assert (FSm := gathers_map q _ _ FS). assert (FOm := gathers_map q2 _ _ FO).
  assert (CW : Forall (Forall (word k)) (map (fun y => wordsof y) sorted)).
  { apply Forall_map. assert (H : Forall (fun y => length (wordsof y) = n /\ Forall (word k) (wordsof y)) sorted) by (apply (gathers_words q keys); [apply IQ|eapply Forall_impl; [|exact FK]; intros x [B _]; exact B|exact FS]). eapply Forall_impl; [|exact H]. intros y [_ B]; exact B. }
  assert (DR : distinct_rows k n (map (fun x => wordsof x) keys) (map (fun x => wordsof x) out) (length (ends n is_end))).
  { apply (distinct_ok _ (map (fun y => wordsof y) sorted) _ q q2 is_end (filter (fun a => negb (is_end a)) (seq 0 n)) (proj1 IQ) (proj1 IQ2) eq_refl FSm FOm); [intros Q; apply map_eq_nil in Q; easy|exact CW|exact SR|exact CONT|exact END]. }
  assert (LE : 0 < length (ends n is_end) <= n) by apply DR.
  destruct (group_diff_ok (mkV Pub (mkKey (repeat one n) (Z.to_nat k) false)) mp pm q2 (g_sum G (length payloads)) (repeat_length _ _)) as [cnt [vc [EC [LC HC]]]]; [apply Forall_forall; intros w Hw; apply repeat_spec in Hw; subst w; exact WO|exact W3|exact P3|exact IQ2|apply G8|].
  rewrite EC. cbn [rbind]. set (count := like k (mkV Pub (mkKey (repeat one n) (Z.to_nat k) false)) vc cnt).
  assert (GC : gathered (repeat one n) q (repeat one n)).
  { split; [rewrite repeat_length; symmetry; apply perm_length, IQ|]. intros i p w A B. pose proof (nth_error_In _ _ B) as I1. apply repeat_spec in I1. subst w. apply nth_error_repeat_. pose proof (nth_error_Some_lt _ _ _ A) as I. rewrite (perm_length _ _ (proj1 IQ)) in I. exact I. }
  assert (HC' : forall r, r < length (ends n is_end) -> nthZ cnt r = wrap k (one * size_of_group (map (fun x => wordsof x) keys) (row_of (map (fun x => wordsof x) out) r) n)).
  { intros r R. rewrite HC by lia. cbn [pkey kwords]. rewrite (group_value _ _ _ q q2 is_end _ (repeat one n) (repeat one n) r (proj1 IQ) (proj1 IQ2) eq_refl FSm FOm CONT END (repeat_length _ _) GC R). f_equal. apply repeat_nth_sum. intros; now apply repeat_nthZ. }
  assert (FP1 : Forall (fun x => pvis x = vp /\ length (wordsof x) = n) payloads) by (eapply Forall_impl; [|exact FP]; intros x [A [B _]]; auto).
  destruct (apply_1d_gathers vp payloads pp pn q (g_pay G) PNE FP1 W1 P1 IQ G7) as [perm [EP FPP]].
  assert (FW : Forall (fun y => length (wordsof y) = n /\ Forall (word k) (wordsof y)) perm) by (apply (gathers_words q payloads); [apply IQ|eapply Forall_impl; [|exact FP]; intros x [_ [_ B]]; exact B|exact FPP]).
  assert (LO : Forall (fun y => length (wordsof y) = n) out) by (clear - FO IQ2; induction FO as [|x y xs ys [L [GL _]] FO IH]; constructor; [rewrite GL; apply perm_length, IQ2|exact IH]).
  (* whatever is cut off *)
  assert (TAIL : forall m cut, cuts (length (ends n is_end)) m cut -> exists out' avgs, groupby_avg_tail ord junk k has_av quotient payloads out pp mp count cut G = Ok (out' ++ avgs) /\ length out' = length keys /\ length avgs = length payloads /\
    (forall r, r < length (ends n is_end) -> row_of (map (fun x => wordsof x) out') r = row_of (map (fun x => wordsof x) out) r) /\
    (forall r r', r < length (ends n is_end) -> r' < length (ends n is_end) -> row_before false (map (sval k) (map (fun x => wordsof x) out)) r r' -> row_before false (map (sval k) (map (fun x => wordsof x) out')) r r') /\
    Forall (fun y => length (wordsof y) = m) (out' ++ avgs) /\
    forall i r, i < length payloads -> r < length (ends n is_end) -> nthZ (wordsof (nth i avgs dummy)) r =
      quotient i (wrap k (sum_of_group (map (fun x => wordsof x) keys) (row_of (map (fun x => wordsof x) out) r) (wordsof (nth i payloads dummy)))) (nthZ cnt r)).
  { intros m cut [GM CUT]. unfold groupby_avg_tail. destruct (CUT (wordsof count) LC) as [c [E1 [Lc Hc]]]. rewrite E1. cbn [rbind].
    destruct (rmap_all (fun x => rbind (cut (wordsof x)) (fun w => Ok (like k x (pvis x) w))) (fun x y => length (wordsof y) = m /\ forall r, r < length (ends n is_end) -> nthZ (wordsof y) r = nthZ (wordsof x) r) out) as [ks [E2 F2]].
    { intros x X. rewrite Forall_forall in LO. destruct (CUT (wordsof x) (LO x X)) as [w [-> [Lw Hw]]]. cbn [rbind]. eexists. split; [reflexivity|]. cbn [like pkey kwords]. auto. }
    rewrite E2. cbn [rbind]. rewrite EP. cbn [rbind].
    destruct (rmap_index2 (fun i x => rbind (group_diff ord junk k has_av x mp (g_sum G i)) (fun s => rbind (cut (wordsof s)) (fun w => rbind (vec2 (quotient i) w c) (fun a => Ok (like k x (pvis s) a)))))
      (fun i x y => length (wordsof y) = m /\ forall r, r < length (ends n is_end) -> nthZ (wordsof y) r = quotient i (wrap k (psum (nthZ (wordsof x)) (S (nth r q2 0%nat)) - match r with O => 0%Z | S r' => psum (nthZ (wordsof x)) (S (nth r' q2 0%nat)) end)) (nthZ cnt r)) perm 0) as [avgs [E3 [LA F3]]].
    { intros i x X. rewrite Forall_forall in FW. destruct (FW x X) as [L W]. destruct (group_diff_ok x mp pm q2 (g_sum G i) L W W3 P3 IQ2 (G8 i)) as [s [vs [EQ [Ls H]]]]. rewrite EQ. cbn [rbind]. destruct (CUT (wordsof (like k x vs s)) Ls) as [w [-> [Lw Hw]]]. cbn [rbind].
      unfold vec2. rewrite Lw, Lc, Nat.eqb_refl. cbn [rbind]. eexists. split; [reflexivity|]. cbn [like pkey kwords] in *. split; [rewrite zip_length by lia; exact Lw|]. intros r R. unfold nthZ at 1. rewrite nth_zip by lia. fold (nthZ w r). fold (nthZ c r). rewrite Hw, Hc by exact R. rewrite H by lia. reflexivity. }
    rewrite E3. cbn [rbind]. exists ks, avgs. split; [reflexivity|]. split; [apply Forall2_length in F2; apply Forall2_length in FO; apply Forall2_length in FS; congruence|].
    pose proof (Forall2_length _ _ _ FPP) as LP. split; [lia|]. split; [|split; [|split]].
    - intros r R. clear - F2 R. induction F2 as [|x y xs ys [_ H] F2 IH]; [reflexivity|]. unfold row_of in *. cbn [map]. f_equal; [now apply H|exact IH].
    - intros r r' R R'. clear - F2 R R'. induction F2 as [|x y xs ys [_ H] F2 IH]; [auto|]. cbn [map row_before]. unfold sval at 1 3 5 7 in IH || idtac. intros HB. assert (Q : sval k (wordsof y) r = sval k (wordsof x) r /\ sval k (wordsof y) r' = sval k (wordsof x) r') by (unfold sval; rewrite !H by assumption; auto). destruct Q as [-> ->]. destruct HB as [HB|[HB1 HB2]]; [now left|right; split; [exact HB1|now apply IH]].
    - apply Forall_app. split; [clear - F2; induction F2 as [|x y xs ys [H _] F2 IH]; constructor; auto|]. apply Forall_forall. intros y Y. apply (In_nth _ _ dummy) in Y. destruct Y as [i [I <-]]. apply (F3 i dummy dummy). lia.
    - intros i r I R. destruct (F3 i dummy dummy ltac:(lia)) as [_ F4]. rewrite F4 by exact R. f_equal. f_equal.
      assert (GI : length (wordsof (nth i payloads dummy)) = n /\ gathered (wordsof (nth i payloads dummy)) q (wordsof (nth i perm dummy))).
      { clear - FPP I. revert i I. induction FPP as [|x y xs ys H F IH]; intros i I; [cbn in I; lia|]. destruct i as [|i]; [exact H|]. apply IH. cbn in I. lia. }
      destruct GI as [L GY]. exact (group_value _ _ _ q q2 is_end _ _ _ r (proj1 IQ) (proj1 IQ2) eq_refl FSm FOm CONT END L GY R). }
  assert (FIN : forall m cut, cuts (length (ends n is_end)) m cut -> exists g out' avgs, groupby_avg_tail ord junk k has_av quotient payloads out pp mp count cut G = Ok (out' ++ avgs) /\ g = length (ends n is_end) /\ length out' = length keys /\ length avgs = length payloads /\
    distinct_rows k n (map (fun x => wordsof x) keys) (map (fun x => wordsof x) out') g /\ Forall (fun y => length (wordsof y) = m) (out' ++ avgs) /\
    forall i r, i < length payloads -> r < g -> nthZ (wordsof (nth i avgs dummy)) r =
      quotient i (wrap k (sum_of_group (map (fun x => wordsof x) keys) (row_of (map (fun x => wordsof x) out') r) (wordsof (nth i payloads dummy))))
                 (wrap k (one * size_of_group (map (fun x => wordsof x) keys) (row_of (map (fun x => wordsof x) out') r) n))).
  { intros m cut C. destruct (TAIL m cut C) as [out' [avgs [E1 [L1 [L2 [RO [RB [FL HV]]]]]]]]. exists (length (ends n is_end)), out', avgs. split; [exact E1|]. split; [reflexivity|]. split; [exact L1|]. split; [exact L2|]. split; [|split; [exact FL|]].
    - destruct DR as [D1 [D2 [D3 D4]]]. split; [exact D1|]. split; [|split].
      + intros i I. destruct (D2 i I) as [r [R Q]]. exists r. split; [exact R|]. now rewrite RO.
      + intros r R. rewrite RO by exact R. now apply D3.
      + intros r r' RR R'. rewrite !RO by lia. destruct (D4 r r' RR R') as [A B]. split; [exact A|]. apply RB; [lia|exact R'|exact B].
    - intros i r I R. rewrite RO by exact R. rewrite HV by assumption. now rewrite HC'. }
  destruct drop.
  - assert (RA : forall a b, radd k a b = radd k b a) by (intros; unfold radd; f_equal; lia).
    assert (MNE : wordsof marks <> []) by (intros Q; rewrite Q in LM; cbn in LM; clear - LM N0; lia).
    destruct (associative_reduce_ok (radd k) (radd_assoc k) RA (wordsof marks) MNE) as [c [ER FC]]. rewrite ER. cbn [rbind read nth_error].
    assert (MW : Forall (word k) (wordsof marks)).
    { apply Forall_forall. intros w I. apply (In_nth _ _ 0%Z) in I. destruct I as [a [A <-]]. fold (nthZ (wordsof marks) a). rewrite MV by lia. pose proof (one_small k K). unfold word. destruct (is_end a); lia. }
    assert (EC' : c = Z.of_nat (length (ends n is_end))).
    { rewrite fold1_msum in FC by exact (radd_assoc k). rewrite (msum_radd k) in FC; [|exact MNE|exact MW]. apply (f_equal (fun o => match o with Some v => v | None => 0%Z end)) in FC. cbv beta iota in FC. rewrite <- FC. rewrite (count_ends is_end (wordsof marks) LM MV).
      apply wrap_small. assert ((2 ^ k = 2 * 2 ^ (k - 1))%Z) by (rewrite <- Z.pow_succ_r by lia; f_equal; lia). lia. }
    rewrite EC'. assert (SG : sgn k (Z.of_nat (length (ends n is_end))) = Z.of_nat (length (ends n is_end))) by (unfold sgn; destruct (Z.ltb_spec (Z.of_nat (length (ends n is_end))) (2 ^ (k - 1))); lia). rewrite SG.
    destruct (Z.gtb_spec (Z.of_nat (length (ends n is_end))) 0); [|lia]. rewrite Nat2Z.id.
    destruct (FIN (length (ends n is_end)) (fun l => if length l <? length (ends n is_end) then Err else slice1 l 0 (length (ends n is_end)) 1)) as [g [out' [avgs [E1 [EG [L1 [L2 [D [FL HV]]]]]]]]].
    { split; [lia|]. intros l L. destruct (Nat.ltb_spec (length l) (length (ends n is_end))); [lia|]. rewrite (slice1_ok l 0 (length (ends n is_end)) 1 0%Z) by lia. eexists. split; [reflexivity|]. rewrite Nat.div_1_r. replace (length (ends n is_end) - 0 + 1 - 1) with (length (ends n is_end)) by lia. split; [now rewrite map_length, seq_length|].
      intros r R. unfold nthZ. fold (tab (length (ends n is_end)) (fun j => nth (0 + 1 * j) l 0%Z)). rewrite tab_nth by exact R. f_equal. lia. }
    exists g, out', avgs. rewrite <- EG in FL. auto 10.
  - destruct (FIN n (fun l => Ok l)) as [g [out' [avgs [E1 [EG [L1 [L2 [D [FL HV]]]]]]]]].
    { split; [lia|]. intros l L. exists l. auto. }
    exists g, out', avgs. auto 10.
Qed.
End All.
