From Verif Require Import Base Ring_model Ring_spec Ring_proof Share_spec Party Semi_model Semi_proof Trunc_proof Beaver_model Beaver_spec.
Open Scope Z_scope.

(* ---- congruence ---- *)
Lemma cong_eqm k a b : 0 <= k -> eqm k b a -> cong k a b.
Proof. intros K E. apply eqm_exists in E; [|lia]. destruct E as [q E]. exists q. exact E. Qed.
Lemma eqm_cong k a b : cong k a b -> eqm k b a.
Proof. intros [q ->]. apply eqm_mult. Qed.
Lemma is_mod_eqm k v w : is_mod k v w -> eqm k w v /\ word k w.
Proof. intros [W [q ->]]. split; [apply eqm_mult|exact W]. Qed.

(* shares of which party 0's element is adjusted *)
Definition adj0 (op : Z -> Z -> Z) (d : Z) (X : nat -> Z) (p : nat) : Z := if (p =? 0)%nat then op (X p) d else X p.
Lemma total_adj k n X d : (0 < n)%nat -> eqm k (total n (adj0 (radd k) d X)) (total n X + d).
Proof.
  intros N. rewrite <- total_rank0 by exact N. apply total_eqm. intros i I. unfold adj0.
  destruct (i =? 0)%nat; [apply eqm_radd|now rewrite Z.add_0_r].
Qed.
Lemma xtotal_adj n X d : (0 < n)%nat -> xtotal n (adj0 rxor d X) = Z.lxor (xtotal n X) d.
Proof.
  intros N. rewrite <- (xtotal_delta n 0 d N) at 2. rewrite <- xtotal_xor. apply xtotal_ext. intros i I. unfold adj0, rxor.
  destruct (i =? 0)%nat; [reflexivity|now rewrite Z.lxor_0_r].
Qed.

(* draws that follow each other in the stream, from position c to c' *)
Fixpoint chain (c : Z) (l : list draw) (c' : Z) : Prop :=
  match l with [] => c <= c' | (s, b) :: l' => c <= s /\ 0 <= b /\ chain (s + b) l' c' end.
Lemma chain_app c l1 c1 l2 c2 : chain c l1 c1 -> chain c1 l2 c2 -> chain c (l1 ++ l2) c2.
Proof.
  revert c. induction l1 as [|[s b] l1 IH]; intros c; cbn [app chain].
  - intros H H2. destruct l2 as [|[s b] l2]; cbn [chain] in *; [lia|]. destruct H2 as [A B]. split; [lia|exact B].
  - intros [A [B C]] H. split; [exact A|]. split; [exact B|]. now apply IH.
Qed.
Lemma chain_le c l c' : chain c l c' -> c <= c'.
Proof. revert c. induction l as [|[s b] l IH]; intros c; cbn; [lia|]. intros [A [B C]]. apply IH in C. lia. Qed.
(* positions of a chain never overlap *)
Lemma chain_start c l c' i d : chain c l c' -> nth_error l i = Some d -> c <= fst d /\ fst d + snd d <= c'.
Proof.
  revert c i. induction l as [|[s b] l IH]; intros c i C E; [destruct i; discriminate|]. cbn [chain] in C. destruct C as [A [B C]].
  destruct i as [|i]; cbn in E; [inversion E; subst; cbn; apply chain_le in C; lia|]. specialize (IH (s + b) i C E). lia.
Qed.
Lemma chain_disjoint l : forall c c' i j d e, chain c l c' -> (i < j)%nat -> nth_error l i = Some d -> nth_error l j = Some e -> fst d + snd d <= fst e.
Proof.
  induction l as [|[s b] l IH]; intros c c' i j d e C L E1 E2; [destruct i; discriminate|]. destruct C as [A [B C]].
  destruct j as [|j]; [lia|]. cbn in E2. destruct i as [|i]; cbn in E1.
  - inversion E1; subst. cbn. eapply chain_start; eauto.
  - apply (IH (s + b) c' i j); auto; lia.
Qed.
Lemma find_pos_nth pv : forall j, NoDup pv -> (j < length pv)%nat -> find_pos pv (nth j pv O) = j.
Proof.
  induction pv as [|v pv IH]; intros j ND L; [cbn in L; lia|]. inversion ND as [|? ? N1 N2]; subst.
  destruct j as [|j]; cbn; [now rewrite Nat.eqb_refl|]. cbn in L.
  destruct (Nat.eqb_spec v (nth j pv O)) as [E|_]; [exfalso; apply N1; rewrite E; apply nth_In; lia|]. f_equal. apply IH; [exact N2|lia].
Qed.
Section B.
Variable prg : Z -> Z -> Z -> nat -> Z.
Hypothesis prg_word : forall w s c i, 0 <= w -> word w (prg w s c i).
Variable seeds : list Z.
Notation n := (length seeds).
Hypothesis n_pos : (0 < n)%nat.
Definition sd (p : nat) : Z := nth p seeds 0.
Definition tbl (p : nat) : list Z := if (p =? 0)%nat then seeds else [].
Definition mkp (p : nat) (c : Z) : bst := mkBst (sd p) c (tbl p).
(* the element every party draws *)
Definition pa (w c : Z) (i : nat) (p : nat) : Z := prg w (sd p) c i.

(* ---- reduce ---- *)
Lemma seeds_cons : exists s0 ss, seeds = s0 :: ss.
Proof. destruct seeds as [|s0 ss]; [cbn in n_pos; lia|]. now exists s0, ss. Qed.
Lemma map_pa w c i : map (fun p => pa w c i p) (seq 0 n) = map (fun s => prg w s c i) seeds.
Proof.
  transitivity (map (fun s => prg w s c i) (map (fun p => nth p seeds 0) (seq 0 n))); [now rewrite map_map|]. now rewrite seq_nth_map.
Qed.
Lemma fold_map {A B} (f : A -> B -> A) (g : Z -> B) l a : fold_left (fun x s => f x (g s)) l a = fold_left f (map g l) a.
Proof. revert a. induction l as [|s l IH]; intros a; cbn; auto. Qed.
Lemma reduce_add k w c tr i : 0 <= k <= w -> reduce prg (radd k) (mkOp seeds c w tr) i = wrap k (total n (pa w c i)) \/ n = 1%nat.
Proof.
  intros K. destruct (Nat.eq_dec n 1) as [N1|N1]; [now right|left]. destruct seeds_cons as [s0 [ss E]].
  unfold reduce. cbn [o_seeds]. rewrite <- (sumZ_total n (pa w c i)), map_pa, E. cbn [map]. unfold replay. cbn [o_field o_ctr].
  rewrite (fold_map (radd k) (fun s => prg w s c i)). cbn [sumZ]. rewrite <- fold_radd.
  destruct ss as [|s1 ss]; [rewrite E in N1; cbn in N1; lia|]. cbn [map fold_left].
  symmetry. apply wrap_small. apply fold_radd_word; [lia|]. apply radd_word; lia.
Qed.
Lemma reduce_add_eqm k c tr i : 0 <= k -> eqm k (reduce prg (radd k) (mkOp seeds c k tr) i) (total n (pa k c i)) /\ word k (reduce prg (radd k) (mkOp seeds c k tr) i).
Proof.
  intros K. destruct seeds_cons as [s0 [ss E]]. destruct (reduce_add k k c tr i ltac:(lia)) as [R|R].
  - rewrite R. split; [apply eqm_wrap|now apply word_wrap].
  - assert (E1 : ss = []) by (rewrite E in R; destruct ss; [reflexivity|cbn in R; lia]). subst ss.
    unfold reduce. cbn [o_seeds]. rewrite E. cbn [fold_left length total]. unfold replay, pa, sd. rewrite E. cbn [nth o_field o_ctr].
    split; [reflexivity|now apply prg_word].
Qed.
Lemma reduce_xor w c tr i : reduce prg rxor (mkOp seeds c w tr) i = xtotal n (pa w c i).
Proof.
  destruct seeds_cons as [s0 [ss E]]. unfold reduce. cbn [o_seeds]. rewrite <- (xorZ_total n (pa w c i)), map_pa, E.
  cbn [map]. unfold replay. cbn [o_field o_ctr]. rewrite (fold_map rxor (fun s => prg w s c i)), fold_rxor. reflexivity.
Qed.
Lemma prodZ_snoc X m : prodZ (S m) X = prodZ m X * X m. Proof. reflexivity. Qed.
Lemma fold_rmul k l : forall a, eqm k (fold_left (rmul k) l a) (a * fold_right Z.mul 1 l).
Proof.
  induction l as [|x l IH]; intros a; cbn [fold_left fold_right]; [apply eqm_of_eq; ring|]. rewrite IH, eqm_rmul. apply eqm_of_eq; ring.
Qed.
Lemma prodZ_list m X : prodZ m X = fold_right Z.mul 1 (map X (seq 0 m)).
Proof.
  induction m as [|m IH]; [reflexivity|]. rewrite seq_S, map_app, fold_right_app. cbn [map fold_right]. rewrite prodZ_snoc, IH.
  generalize (map X (seq 0 m)) as l. cbn [Nat.add]. induction l as [|y l IHl]; cbn [fold_right]; [ring|]. rewrite <- IHl. ring.
Qed.
Lemma reduce_mul k c tr i : 0 <= k -> eqm k (reduce prg (rmul k) (mkOp seeds c k tr) i) (prodZ n (pa k c i)).
Proof.
  intros K. destruct seeds_cons as [s0 [ss E]]. unfold reduce. cbn [o_seeds]. rewrite prodZ_list, map_pa, E. cbn [map].
  unfold replay. cbn [o_field o_ctr]. rewrite (fold_map (rmul k) (fun s => prg k s c i)), fold_rmul. reflexivity.
Qed.

(* ---- abstract descriptors: what all parties agree on ---- *)
Record ad := mkAd { a_status : status; a_ctr : Z; a_size : Z; a_field : Z }.
Definition conc (p : nat) (a : ad) : desc := mkDesc (a_status a) (a_ctr a) (sd p) (tbl p) (a_size a) (a_field a).
Definition drel (p : nat) (a : option ad) (d : option desc) : Prop :=
  match a with
  | None => d = None
  | Some a' => match a_status a' with
               | SInit => exists d', d = Some d' /\ d_status d' = SInit
               | _ => d = Some (conc p a')
               end
  end.
Definition afill (k c size : Z) (a : option ad) : option ad :=
  match a with Some (mkAd SInit _ _ _) => Some (mkAd SInit c size k) | a => a end.
Lemma fill_ok k p c size a d : drel p a d -> fill_desc k d (mkp p c) size = option_map (conc p) (afill k c size a).
Proof.
  destruct a as [[s c0 z f]|]; cbn [drel a_status].
  - destruct s.
    + intros [d' [-> D]]. destruct d'; cbn in D; subst. reflexivity.
    + intros ->. reflexivity.
    + intros ->. reflexivity.
  - intros ->. reflexivity.
Qed.
Definition a_if (k c : Z) (a : option ad) (size : Z) : res (Z * Z * list draw) :=
  match a with
  | Some (mkAd SReplay c0 sz fd) => if (fd =? k) && (sz =? size) then Ok (c0, c, []) else Err
  | _ => Ok (c, c + blocks k size, [(c, blocks k size)])
  end.
Lemma if_ok k p c a size : if_replay prg k (mkp p c) (option_map (conc p) a) size =
  match a_if k c a size with
  | Ok (ca, c', l) => Ok (prg k (sd p) ca, mkOp (tbl p) ca k false, mkp p c', l)
  | Err => Err | Ub => Ub
  end.
Proof.
  destruct a as [[s c0 z f]|]; [|reflexivity]. destruct s; try reflexivity. cbn. destruct ((f =? k) && (z =? size)); reflexivity.
Qed.
Definition a_if_dot (k c : Z) (a : option ad) (size : Z) : res (Z * bool * Z * list draw) :=
  match a with
  | None => Ok (c, false, c + blocks k size, [(c, blocks k size)])
  | Some (mkAd s c0 _ fd) =>
      if fd =? k then Ok (c0, match s with STransposeReplay => true | _ => false end, c, match s with SInit => [(c0, blocks k size)] | _ => [] end)
      else Err
  end.
Lemma if_dot_ok k p c a rows cols :
  match a_if_dot k c a (Z.of_nat rows * Z.of_nat cols) with
  | Ok (ca, tr, c', l) => exists arr, if_replay_dot prg k (mkp p c) (option_map (conc p) a) rows cols = Ok (arr, mkOp (tbl p) ca k tr, mkp p c', l) /\
       forall i j, (j < cols)%nat -> arr (i * cols + j)%nat = as_matrix (mkOp (tbl p) ca k tr) rows cols (prg k (sd p) ca) i j
  | Err => if_replay_dot prg k (mkp p c) (option_map (conc p) a) rows cols = Err
  | Ub => False
  end.
Proof.
  destruct a as [[s c0 z f]|]; cbn [a_if_dot].
  - unfold if_replay_dot. cbn [option_map conc d_field d_status d_seeds d_ctr d_seed a_field a_status a_ctr]. destruct (f =? k); [|reflexivity].
    eexists. split; [reflexivity|]. intros i j J. cbn beta.
    rewrite Nat.div_add_l by lia. rewrite (Nat.div_small j cols J), Nat.add_0_r.
    rewrite Nat.add_comm, Nat.mod_add by lia. rewrite (Nat.mod_small j cols J). reflexivity.
  - unfold if_replay_dot. eexists. split; [reflexivity|]. intros i j J. reflexivity.
Qed.

(* ---- the requests, one party ---- *)
Lemma tbl0 : tbl 0 = seeds. Proof. reflexivity. Qed.
Definition aresM := res (Z * Z * Z * Z * list draw * option ad * option ad).
Definition a_mul (k c size : Z) (ax ay : option ad) : aresM :=
  let ax' := afill k c size ax in
  rbind (a_if k c ax' size) (fun '(ca, c1, l1) =>
  let ay' := afill k c1 size ay in
  rbind (a_if k c1 ay' size) (fun '(cb, c2, l2) =>
  Ok (ca, cb, c2, c2 + blocks k size, l1 ++ l2 ++ [(c2, blocks k size)], ax', ay'))).
Lemma tfp_mul_ok k p c size ax ay xd yd : drel p ax xd -> drel p ay yd ->
  tfp_mul prg k p (mkp p c) size xd yd =
  match a_mul k c size ax ay with
  | Ok (ca, cb, cc, c', l, ax', ay') =>
      Ok (mkOut (mkTriple (prg k (sd p) ca) (prg k (sd p) cb)
            (if (p =? 0)%nat then fun i => radd k (prg k (sd p) cc i) (adjust_mul prg k (mkOp (tbl p) ca k false) (mkOp (tbl p) cb k false) (mkOp (tbl p) cc k false) i)
             else prg k (sd p) cc)) (mkp p c') (option_map (conc p) ax') (option_map (conc p) ay') l)
  | Err => Err | Ub => Ub
  end.
Proof.
  intros RX RY. unfold tfp_mul, a_mul. rewrite (fill_ok k p c size ax xd RX), if_ok.
  destruct (a_if k c (afill k c size ax) size) as [[[ca c1] l1]| |]; cbn [rbind]; try reflexivity.
  rewrite (fill_ok k p c1 size ay yd RY), if_ok.
  destruct (a_if k c1 (afill k c1 size ay) size) as [[[cb c2] l2]| |]; cbn [rbind]; reflexivity.
Qed.
Definition a_square (k c size : Z) (ax : option ad) : res (Z * Z * Z * list draw * option ad) :=
  let ax' := afill k c size ax in
  rbind (a_if k c ax' size) (fun '(ca, c1, l1) => Ok (ca, c1, c1 + blocks k size, l1 ++ [(c1, blocks k size)], ax')).
Lemma tfp_square_ok k p c size ax xd : drel p ax xd ->
  tfp_square prg k p (mkp p c) size xd =
  match a_square k c size ax with
  | Ok (ca, cb, c', l, ax') =>
      Ok (mkOut (prg k (sd p) ca,
            (if (p =? 0)%nat then fun i => radd k (prg k (sd p) cb i) (adjust_square prg k (mkOp (tbl p) ca k false) (mkOp (tbl p) cb k false) i)
             else prg k (sd p) cb)) (mkp p c') (option_map (conc p) ax') None l)
  | Err => Err | Ub => Ub
  end.
Proof.
  intros RX. unfold tfp_square, a_square. rewrite (fill_ok k p c size ax xd RX), if_ok.
  destruct (a_if k c (afill k c size ax) size) as [[[ca c1] l1]| |]; cbn [rbind]; reflexivity.
Qed.
Definition a_dot (k c : Z) (m nn kk : nat) (ax ay : option ad) : res (Z * bool * Z * bool * Z * Z * list draw * option ad * option ad) :=
  let ax' := afill k c (Z.of_nat m * Z.of_nat kk) ax in
  rbind (a_if_dot k c ax' (Z.of_nat m * Z.of_nat kk)) (fun '(ca, ta, c1, l1) =>
  let ay' := afill k c1 (Z.of_nat nn * Z.of_nat kk) ay in
  rbind (a_if_dot k c1 ay' (Z.of_nat kk * Z.of_nat nn)) (fun '(cb, tb, c2, l2) =>
  Ok (ca, ta, cb, tb, c2, c2 + blocks k (Z.of_nat m * Z.of_nat nn), l1 ++ l2 ++ [(c2, blocks k (Z.of_nat m * Z.of_nat nn))], ax', ay'))).
Lemma tfp_dot_ok k p c m nn kk ax ay xd yd : drel p ax xd -> drel p ay yd ->
  match a_dot k c m nn kk ax ay with
  | Ok (ca, ta, cb, tb, cc, c', l, ax', ay') => exists A B C,
      tfp_dot prg k p (mkp p c) m nn kk xd yd = Ok (mkOut (mkTriple A B C) (mkp p c') (option_map (conc p) ax') (option_map (conc p) ay') l) /\
      (forall i j, (j < kk)%nat -> A (i * kk + j)%nat = as_matrix (mkOp (tbl p) ca k ta) m kk (prg k (sd p) ca) i j) /\
      (forall i j, (j < nn)%nat -> B (i * nn + j)%nat = as_matrix (mkOp (tbl p) cb k tb) kk nn (prg k (sd p) cb) i j) /\
      (forall i j, (j < nn)%nat -> C (i * nn + j)%nat = if (p =? 0)%nat
          then radd k (prg k (sd p) cc (i * nn + j)%nat) (adjust_dot prg k m nn kk (mkOp seeds ca k ta) (mkOp seeds cb k tb) (mkOp seeds cc k false) i j)
          else prg k (sd p) cc (i * nn + j)%nat)
  | Err => tfp_dot prg k p (mkp p c) m nn kk xd yd = Err
  | Ub => False
  end.
Proof.
  intros RX RY. unfold tfp_dot, a_dot. rewrite (fill_ok k p c _ ax xd RX).
  pose proof (if_dot_ok k p c (afill k c (Z.of_nat m * Z.of_nat kk) ax) m kk) as IA.
  destruct (a_if_dot k c (afill k c (Z.of_nat m * Z.of_nat kk) ax) (Z.of_nat m * Z.of_nat kk)) as [[[[ca ta] c1] l1]| |]; [|now rewrite IA|contradiction].
  destruct IA as [arrA [-> HA]]. cbn [rbind]. rewrite (fill_ok k p c1 _ ay yd RY).
  pose proof (if_dot_ok k p c1 (afill k c1 (Z.of_nat nn * Z.of_nat kk) ay) kk nn) as IB.
  destruct (a_if_dot k c1 (afill k c1 (Z.of_nat nn * Z.of_nat kk) ay) (Z.of_nat kk * Z.of_nat nn)) as [[[[cb tb] c2] l2]| |]; [|now rewrite IB|contradiction].
  destruct IB as [arrB [-> HB]]. cbn [rbind].
  exists arrA, arrB. eexists. split; [reflexivity|]. split; [exact HA|]. split; [exact HB|].
  intros i j J. destruct (Nat.eqb_spec p 0) as [->|Np]; [|reflexivity]. rewrite tbl0. f_equal. f_equal.
  - rewrite Nat.div_add_l, (Nat.div_small j nn J) by lia. lia.
  - rewrite Nat.add_comm, Nat.mod_add by lia. now apply Nat.mod_small.
Qed.

(* ---- validity of the correlations ---- *)
Lemma if_arr {A} (b : bool) (f g : nat -> A) i : (if b then f else g) i = if b then f i else g i.
Proof. now destruct b. Qed.
Lemma mul_valid k ca cb cc : 0 <= k ->
  mul_triple k n (fun p => prg k (sd p) ca) (fun p => prg k (sd p) cb)
    (fun p => if (p =? 0)%nat then fun i => radd k (prg k (sd p) cc i) (adjust_mul prg k (mkOp (tbl p) ca k false) (mkOp (tbl p) cb k false) (mkOp (tbl p) cc k false) i)
             else prg k (sd p) cc).
Proof.
  intros K i. apply cong_eqm; [exact K|]. unfold tot.
  rewrite (total_ext n _ (adj0 (radd k) (adjust_mul prg k (mkOp seeds ca k false) (mkOp seeds cb k false) (mkOp seeds cc k false) i) (pa k cc i))).
  2:{ intros p P. rewrite if_arr. unfold adj0, pa. destruct (Nat.eqb_spec p 0) as [->|]; reflexivity. }
  rewrite total_adj by exact n_pos. unfold adjust_mul.
  destruct (reduce_add_eqm k ca false i K) as [RA _]. destruct (reduce_add_eqm k cb false i K) as [RB _]. destruct (reduce_add_eqm k cc false i K) as [RC _].
  rewrite eqm_rsub, eqm_rmul, RA, RB, RC. unfold pa. apply eqm_of_eq. ring.
Qed.
Lemma square_valid k ca cb : 0 <= k ->
  square_pair k n (fun p => prg k (sd p) ca)
    (fun p => if (p =? 0)%nat then fun i => radd k (prg k (sd p) cb i) (adjust_square prg k (mkOp (tbl p) ca k false) (mkOp (tbl p) cb k false) i)
             else prg k (sd p) cb).
Proof.
  intros K i. apply cong_eqm; [exact K|]. unfold tot.
  rewrite (total_ext n _ (adj0 (radd k) (adjust_square prg k (mkOp seeds ca k false) (mkOp seeds cb k false) i) (pa k cb i))).
  2:{ intros p P. rewrite if_arr. unfold adj0, pa. destruct (Nat.eqb_spec p 0) as [->|]; reflexivity. }
  rewrite total_adj by exact n_pos. unfold adjust_square.
  destruct (reduce_add_eqm k ca false i K) as [RA _]. destruct (reduce_add_eqm k cb false i K) as [RB _].
  rewrite eqm_rsub, eqm_rmul, RA, RB. unfold pa. apply eqm_of_eq. ring.
Qed.
Lemma as_matrix_total k tr c rows cols i j (o o' : operand) : o_tr o = tr -> o_tr o' = tr ->
  eqm k (as_matrix o rows cols (reduce prg (radd k) o') i j) (reduce prg (radd k) o' (if tr then j * rows + i else i * cols + j)%nat) /\
  (forall p, as_matrix o rows cols (prg k (sd p) c) i j = pa k c (if tr then j * rows + i else i * cols + j)%nat p).
Proof. intros E _. unfold as_matrix, pa. rewrite E. destruct tr; split; reflexivity. Qed.
Lemma dot_valid k m nn kk ca ta cb tb cc (A B C : nat -> nat -> Z) : 0 <= k ->
  (forall p, (p < n)%nat -> forall i j, (i < m)%nat -> (j < kk)%nat -> A p (i * kk + j)%nat = as_matrix (mkOp (tbl p) ca k ta) m kk (prg k (sd p) ca) i j) ->
  (forall p, (p < n)%nat -> forall i j, (i < kk)%nat -> (j < nn)%nat -> B p (i * nn + j)%nat = as_matrix (mkOp (tbl p) cb k tb) kk nn (prg k (sd p) cb) i j) ->
  (forall p, (p < n)%nat -> forall i j, (i < m)%nat -> (j < nn)%nat -> C p (i * nn + j)%nat = if (p =? 0)%nat
          then radd k (prg k (sd p) cc (i * nn + j)%nat) (adjust_dot prg k m nn kk (mkOp seeds ca k ta) (mkOp seeds cb k tb) (mkOp seeds cc k false) i j)
          else prg k (sd p) cc (i * nn + j)%nat) ->
  dot_triple k n m nn kk A B C.
Proof.
  intros K HA HB HC i j I J. apply cong_eqm; [exact K|]. unfold tot.
  rewrite (total_ext n (fun p => C p (i * nn + j)%nat) (adj0 (radd k) (adjust_dot prg k m nn kk (mkOp seeds ca k ta) (mkOp seeds cb k tb) (mkOp seeds cc k false) i j) (pa k cc (i * nn + j)))).
  2:{ intros p P. rewrite HC by auto. unfold adj0, pa. destruct (Nat.eqb_spec p 0) as [->|]; reflexivity. }
  rewrite total_adj by exact n_pos. unfold adjust_dot.
  destruct (reduce_add_eqm k cc false (i * nn + j) K) as [RC _]. rewrite eqm_rsub, RC, eqm_mmul by exact K.
  match goal with |- eqm k (?T + (?D - ?T)) ?R => transitivity D; [apply eqm_of_eq; ring|] end.
  apply dot_eqm. intros l L. split.
  - unfold as_matrix at 1. cbn [o_tr]. rewrite (total_ext n _ (pa k ca (if ta then l * m + i else i * kk + l)%nat)).
    2:{ intros p P. rewrite HA by auto. unfold as_matrix, pa. cbn [o_tr]. now destruct ta. }
    destruct ta; now apply reduce_add_eqm.
  - unfold as_matrix at 1. cbn [o_tr]. rewrite (total_ext n _ (pa k cb (if tb then j * kk + l else l * nn + j)%nat)).
    2:{ intros p P. rewrite HB by auto. unfold as_matrix, pa. cbn [o_tr]. now destruct tb. }
    destruct tb; now apply reduce_add_eqm.
Qed.

(* ---- the machine ---- *)
Variable shuffle : Z -> Z -> nat -> list nat * Z.
Definition mrel (c : Z) (sl : nat -> option ad) (s : nat -> mst) : Prop :=
  forall p, (p < n)%nat -> m_b (s p) = mkp p c /\ forall j, m_d (s p) j = option_map (conc p) (sl j).
Definition aarg (sl : nat -> option ad) (x : option nat) : option ad :=
  match x with None => None | Some i => Some (match sl i with Some a => a | None => mkAd SInit 0 0 0 end) end.
Definition aset (sl : nat -> option ad) (x : option nat) (v : option ad) : nat -> option ad :=
  match x with None => sl | Some i => fun j => if (j =? i)%nat then v else sl j end.
Lemma slot_rel p sl d x : (forall j, d j = option_map (conc p) (sl j)) -> drel p (aarg sl x) (slot_arg d x).
Proof.
  intros H. destruct x as [i|]; [|reflexivity]. unfold aarg, slot_arg. rewrite H. destruct (sl i) as [[s c z f]|]; cbn.
  - destruct s; [eexists; split; reflexivity|reflexivity|reflexivity].
  - eexists; split; reflexivity.
Qed.
Lemma slot_set_rel p sl d x v v' : (forall j, d j = option_map (conc p) (sl j)) -> v = option_map (conc p) v' ->
  forall j, slot_set d x v j = option_map (conc p) (aset sl x v' j).
Proof. intros H -> j. destruct x as [i|]; cbn; [|apply H]. destruct (j =? i)%nat; [reflexivity|apply H]. Qed.

(* array t that party p receives for request q *)
Definition arr (q : req) (s : nat -> mst) (t p : nat) : nat -> Z :=
  match mstep prg shuffle q s p with Ok (_, a) => nth t (an_arr a) (fun _ => 0) | _ => fun _ => 0 end.
Definition perm_of (q : req) (s : nat -> mst) (p : nat) : list nat :=
  match mstep prg shuffle q s p with Ok (_, a) => an_perm a | _ => [] end.
Definition req_ok (q : req) : Prop :=
  match q with
  | QMul k size _ _ | QMulPriv k size | QSquare k size _ | QRandBit k size _ | QEqz k size => 0 < k /\ 0 <= size
  | QDot k _ _ _ _ _ => 0 < k
  | QAnd size => 0 <= size
  | QTrunc k size bits | QTruncPr k size bits => (0 < k /\ 0 <= size) /\ 0 <= bits < k
  | QPerm k pr _ => 0 < k /\ (pr < n)%nat
  | QStatus _ _ => True
  end.
Definition valid (q : req) (s : nat -> mst) : Prop :=
  match q with
  | QMul k _ _ _ => mul_triple k n (arr q s 0) (arr q s 1) (arr q s 2)
  | QMulPriv k _ => priv_pair k n (arr q s 0) (arr q s 1)
  | QSquare k _ _ => square_pair k n (arr q s 0) (arr q s 1)
  | QDot k m c kk _ _ => dot_triple k n m c kk (arr q s 0) (arr q s 1) (arr q s 2)
  | QAnd _ => and_triple n (arr q s 0) (arr q s 1) (arr q s 2)
  | QTrunc k _ bits => trunc_pair k bits n (arr q s 0) (arr q s 1)
  | QTruncPr k _ bits => truncpr_triple k bits n (arr q s 0) (arr q s 1) (arr q s 2)
  | QRandBit k _ rb => shared_bits k n rb (arr q s 0)
  | QEqz k _ => dual_pair k n (arr q s 0) (arr q s 1)
  | QPerm k pr size => perm_pair k n size pr (arr q s 0) (arr q s 1) (perm_of q s)
  | QStatus _ _ => True
  end.
Hypothesis shuffle_perm : forall s c m, Permutation (fst (shuffle s c m)) (seq 0 m).


Hypothesis shuffle_ctr : forall s c m, c <= snd (shuffle s c m).
Lemma blocks_nonneg w z : 0 <= w -> 0 <= z -> 0 <= blocks w z.
Proof. intros W Z0. unfold blocks. apply Z.div_pos; [|lia]. assert (0 <= w / 8) by (apply Z.div_pos; lia). nia. Qed.
Lemma chain1 w c z : 0 <= w -> 0 <= z -> chain c [(c, blocks w z)] (c + blocks w z).
Proof. intros W Z0. cbn. pose proof (blocks_nonneg w z W Z0). lia. Qed.

(* what each party computes, from the shared abstract state *)
Definition all_err (q : req) (s : nat -> mst) := forall p, (p < n)%nat -> mstep prg shuffle q s p = Err.
Definition dot_init (q : req) (d : nat -> option desc) : Prop :=
  match q with
  | QDot _ _ _ _ x y => (exists dd, slot_arg d x = Some dd /\ d_status dd = SInit) \/ (exists dd, slot_arg d y = Some dd /\ d_status dd = SInit)
  | _ => False
  end.
Definition all_ok (q : req) (s : nat -> mst) (c : Z) (c' : Z) (sl' : nat -> option ad) :=
  forall p, (p < n)%nat -> exists s' a, mstep prg shuffle q s p = Ok (s', a) /\ m_b s' = mkp p c' /\
     (forall j, m_d s' j = option_map (conc p) (sl' j)) /\ (~ dot_init q (m_d (s p)) -> chain c (an_draws a) c').

Lemma tot_adj k c d i : 0 <= k -> eqm k (tot n (fun p => if (p =? 0)%nat then fun i => radd k (prg k (sd p) c i) (d p i) else prg k (sd p) c) i)
   (total n (pa k c i) + d O i).
Proof.
  intros K. unfold tot.
  rewrite (total_ext n _ (adj0 (radd k) (d O i) (pa k c i))).
  - now apply total_adj.
  - intros p P. rewrite if_arr. unfold adj0, pa. destruct (Nat.eqb_spec p 0) as [->|]; reflexivity.
Qed.
Lemma xtot_adj k c d i : xtot n (fun p => if (p =? 0)%nat then fun i => rxor (prg k (sd p) c i) (d p i) else prg k (sd p) c) i
   = Z.lxor (xtotal n (pa k c i)) (d O i).
Proof.
  unfold xtot. rewrite (xtotal_ext n _ (adj0 rxor (d O i) (pa k c i))).
  - now apply xtotal_adj.
  - intros p P. rewrite if_arr. unfold adj0, pa. destruct (Nat.eqb_spec p 0) as [->|]; reflexivity.
Qed.
Lemma tot_pa k c i : tot n (fun p => prg k (sd p) c) i = total n (pa k c i). Proof. reflexivity. Qed.

Lemma priv_valid k ca cc : 0 <= k ->
  priv_pair k n (fun p => prg k (sd p) ca)
    (fun p => if (p =? 0)%nat then fun i => radd k (prg k (sd p) cc i) (adjust_mul_priv prg k (mkOp (tbl p) ca k false) (mkOp (tbl p) cc k false) i) else prg k (sd p) cc).
Proof.
  intros K i. apply cong_eqm; [exact K|]. rewrite tot_adj by exact K. unfold adjust_mul_priv. rewrite tbl0.
  destruct (reduce_add_eqm k cc false i K) as [RC _]. rewrite eqm_rsub, RC, reduce_mul by exact K. unfold pa. apply eqm_of_eq. ring.
Qed.
Lemma and_valid ca cb cc : 
  and_triple n (fun p => prg 128 (sd p) ca) (fun p => prg 128 (sd p) cb)
    (fun p => if (p =? 0)%nat then fun i => rxor (prg 128 (sd p) cc i) (adjust_and prg (mkOp (tbl p) ca 128 false) (mkOp (tbl p) cb 128 false) (mkOp (tbl p) cc 128 false) i) else prg 128 (sd p) cc).
Proof.
  intros i. rewrite xtot_adj. unfold adjust_and. rewrite tbl0, !reduce_xor. unfold rxor, rand_, xtot, pa.
  rewrite Z.lxor_comm, Z.lxor_assoc, Z.lxor_nilpotent, Z.lxor_0_r. reflexivity.
Qed.
Lemma reduce_is_mod k c tr i r : 0 <= k -> is_mod k (total n (pa k c i)) r -> reduce prg (radd k) (mkOp seeds c k tr) i = r.
Proof.
  intros K M. destruct (reduce_add_eqm k c tr i K) as [E W]. apply (is_mod_unique k (total n (pa k c i))); auto.
  split; [exact W|]. apply eqm_exists; [lia|]. exact E.
Qed.
Lemma sgn_of_signed k r v : 0 < k -> word k r -> signed_value k r v -> sgn k r = v.
Proof.
  intros K W [B [q E]]. destruct (signed_sgn k r K W) as [B' [q' E']]. pose proof (pow2_half k ltac:(lia)).
  assert (q = q') by nia. subst. lia.
Qed.
Lemma trunc_valid k bits ca cb : 0 < k ->
  trunc_pair k bits n (fun p => prg k (sd p) ca)
    (fun p => if (p =? 0)%nat then fun i => radd k (prg k (sd p) cb i) (adjust_trunc prg k bits (mkOp (tbl p) ca k false) (mkOp (tbl p) cb k false) i) else prg k (sd p) cb).
Proof.
  intros K i r v M S. assert (K' : 0 <= k) by lia. apply cong_eqm; [exact K'|]. rewrite tot_adj by exact K'. unfold adjust_trunc. rewrite tbl0.
  rewrite tot_pa in M. rewrite (reduce_is_mod k ca false i r K' M). destruct (reduce_add_eqm k cb false i K') as [RB _].
  rewrite eqm_rsub, RB, eqm_rsar. rewrite (sgn_of_signed k r v K (proj1 M) S). apply eqm_of_eq. ring.
Qed.
Lemma hat_ok k d r : 0 < k -> 0 <= d < k -> word k r -> rshr (d + 1) (rshl k 1 r) = r mod 2 ^ (k - 1) / 2 ^ d.
Proof.
  intros K D W. unfold rshr, rshl, wrap. pose proof (pow2_half k ltac:(lia)) as H. pose proof (pow2_pos (k - 1) ltac:(lia)). pose proof (pow2_pos d ltac:(lia)).
  rewrite H, Z.add_comm, pow2_split by lia. change (2 ^ 1) with 2. rewrite (Z.mul_comm r 2), Z.mul_mod_distr_l by lia. now rewrite Z.div_mul_cancel_l by lia.
Qed.
Lemma top_ok k r : 0 < k -> word k r -> rshr (k - 1) r = if bit r (k - 1) then 1 else 0.
Proof.
  intros K W. unfold rshr, bit. pose proof (pow2_half k ltac:(lia)) as H. pose proof (pow2_pos (k - 1) ltac:(lia)).
  rewrite Z.testbit_eqb by lia. unfold word in W. assert (0 <= r / 2 ^ (k - 1) < 2) by (split; [apply Z.div_pos; lia|apply Z.div_lt_upper_bound; lia]).
  destruct (Z.eqb_spec (r / 2 ^ (k - 1) mod 2) 1) as [E|E]; rewrite Z.mod_small in E by lia; lia.
Qed.
Lemma truncpr_valid k bits ca cb cc : 0 < k -> 0 <= bits < k ->
  truncpr_triple k bits n (fun p => prg k (sd p) ca)
    (fun p => if (p =? 0)%nat then fun i => radd k (prg k (sd p) cb i) (fst (adjust_truncpr prg k bits (mkOp (tbl p) ca k false) (mkOp (tbl p) cb k false) (mkOp (tbl p) cc k false) i)) else prg k (sd p) cb)
    (fun p => if (p =? 0)%nat then fun i => radd k (prg k (sd p) cc i) (snd (adjust_truncpr prg k bits (mkOp (tbl p) ca k false) (mkOp (tbl p) cb k false) (mkOp (tbl p) cc k false) i)) else prg k (sd p) cc).
Proof.
  intros K D i r M. assert (K' : 0 <= k) by lia. rewrite tot_pa in M.
  destruct (reduce_add_eqm k cb false i K') as [RB _]. destruct (reduce_add_eqm k cc false i K') as [RC _].
  split; apply cong_eqm; try exact K'; rewrite tot_adj by exact K'; unfold adjust_truncpr; rewrite tbl0; cbn [fst snd];
    rewrite (reduce_is_mod k ca false i r K' M).
  - rewrite eqm_rsub, RB, hat_ok by (auto; apply M). apply eqm_of_eq. ring.
  - rewrite eqm_rsub, RC, top_ok by (auto; apply M). apply eqm_of_eq. ring.
Qed.
Lemma randbit_valid k rb ca : 0 <= k ->
  shared_bits k n rb (fun p => if (p =? 0)%nat then fun i => radd k (prg k (sd p) ca i) (adjust_randbit prg k rb (mkOp (tbl p) ca k false) i) else prg k (sd p) ca).
Proof.
  intros K i. apply cong_eqm; [exact K|]. rewrite tot_adj by exact K. unfold adjust_randbit. rewrite tbl0.
  destruct (reduce_add_eqm k ca false i K) as [RA _]. rewrite eqm_rsub, RA. apply eqm_of_eq. ring.
Qed.
Lemma eqz_valid k ca cb : 0 <= k ->
  dual_pair k n (fun p => prg k (sd p) ca)
    (fun p => if (p =? 0)%nat then fun i => rxor (prg k (sd p) cb i) (adjust_eqz prg k (mkOp (tbl p) ca k false) (mkOp (tbl p) cb k false) i) else prg k (sd p) cb).
Proof.
  intros K i. rewrite xtot_adj, tot_pa. unfold adjust_eqz. rewrite tbl0, reduce_xor. unfold rxor.
  rewrite Z.lxor_comm, Z.lxor_assoc, Z.lxor_nilpotent, Z.lxor_0_r. destruct (reduce_add_eqm k ca false i K) as [E W].
  split; [exact W|]. apply eqm_exists; [lia|exact E].
Qed.
Lemma perm_valid k pv ca cb j : 0 <= k -> NoDup pv -> (j < length pv)%nat ->
  cong k (tot n (fun p => prg k (sd p) ca) j)
    (tot n (fun p => if (p =? 0)%nat then fun i => radd k (prg k (sd p) cb i) (adjust_perm prg k pv (mkOp (tbl p) ca k false) (mkOp (tbl p) cb k false) i) else prg k (sd p) cb) (nth j pv O)).
Proof.
  intros K ND J. apply cong_eqm; [exact K|]. rewrite tot_adj by exact K. unfold adjust_perm, apply_inv. rewrite tbl0, find_pos_nth by auto.
  destruct (reduce_add_eqm k ca false j K) as [RA _]. destruct (reduce_add_eqm k cb false (nth j pv O) K) as [RB _].
  rewrite eqm_rsub, RA, RB, tot_pa. apply eqm_of_eq. ring.
Qed.

(* transporting a relation to the arrays the machine returns *)
Lemma tot_cong (A A' : nat -> nat -> Z) i : (forall p, (p < n)%nat -> A p = A' p) -> tot n A i = tot n A' i.
Proof. intros H. unfold tot. apply total_ext. intros p P. now rewrite H. Qed.
Lemma xtot_cong (A A' : nat -> nat -> Z) i : (forall p, (p < n)%nat -> A p = A' p) -> xtot n A i = xtot n A' i.
Proof. intros H. unfold xtot. apply xtotal_ext. intros p P. now rewrite H. Qed.
Lemma prodZ_ext m X Y : (forall p, (p < m)%nat -> X p = Y p) -> prodZ m X = prodZ m Y.
Proof. induction m as [|m IH]; intros H; [reflexivity|]. cbn. rewrite IH, H by (intros; auto; apply H; lia). reflexivity. Qed.
Notation same A A' := (forall p, (p < n)%nat -> A p = A' p).
Lemma mul_ext k A A' B B' C C' : mul_triple k n A' B' C' -> same A A' -> same B B' -> same C C' -> mul_triple k n A B C.
Proof. intros H HA HB HC i. rewrite (tot_cong A A' i HA), (tot_cong B B' i HB), (tot_cong C C' i HC). apply H. Qed.
Lemma square_ext k A A' B B' : square_pair k n A' B' -> same A A' -> same B B' -> square_pair k n A B.
Proof. intros H HA HB i. rewrite (tot_cong A A' i HA), (tot_cong B B' i HB). apply H. Qed.
Lemma priv_ext k A A' B B' : priv_pair k n A' B' -> same A A' -> same B B' -> priv_pair k n A B.
Proof. intros H HA HB i. rewrite (tot_cong B B' i HB), (prodZ_ext n (fun p => A p i) (fun p => A' p i)) by (intros p P; now rewrite HA). apply H. Qed.
Lemma and_ext A A' B B' C C' : and_triple n A' B' C' -> same A A' -> same B B' -> same C C' -> and_triple n A B C.
Proof. intros H HA HB HC i. rewrite (xtot_cong A A' i HA), (xtot_cong B B' i HB), (xtot_cong C C' i HC). apply H. Qed.
Lemma trunc_ext k b A A' B B' : trunc_pair k b n A' B' -> same A A' -> same B B' -> trunc_pair k b n A B.
Proof. intros H HA HB i. rewrite (tot_cong A A' i HA), (tot_cong B B' i HB). apply H. Qed.
Lemma truncpr_ext k b A A' B B' C C' : truncpr_triple k b n A' B' C' -> same A A' -> same B B' -> same C C' -> truncpr_triple k b n A B C.
Proof. intros H HA HB HC i. rewrite (tot_cong A A' i HA), (tot_cong B B' i HB), (tot_cong C C' i HC). apply H. Qed.
Lemma bits_ext k rb A A' : shared_bits k n rb A' -> same A A' -> shared_bits k n rb A.
Proof. intros H HA i. rewrite (tot_cong A A' i HA). apply H. Qed.
Lemma dual_ext k A A' B B' : dual_pair k n A' B' -> same A A' -> same B B' -> dual_pair k n A B.
Proof. intros H HA HB i. rewrite (tot_cong A A' i HA), (xtot_cong B B' i HB). apply H. Qed.
Lemma a_if_chain k c a size r c' l : 0 <= k -> 0 <= size -> a_if k c a size = Ok (r, c', l) -> chain c l c'.
Proof.
  intros K Z0. destruct a as [[st c0 z f]|]; [destruct st|]; cbn [a_if]; try destruct (_ && _); intros E; inversion E; subst; try (now apply chain1).
  cbn; lia.
Qed.
Lemma a_if_noub k c a size : a_if k c a size <> Ub.
Proof. destruct a as [[st c0 z f]|]; [destruct st|]; cbn [a_if]; try destruct (_ && _); discriminate. Qed.
Lemma a_if_dot_chain k c a size r t c' l : 0 <= k -> 0 <= size -> (forall a', a = Some a' -> a_status a' <> SInit) ->
  a_if_dot k c a size = Ok (r, t, c', l) -> chain c l c'.
Proof.
  intros K Z0 NI. destruct a as [[st c0 z f]|]; cbn [a_if_dot].
  - specialize (NI _ eq_refl). cbn in NI. destruct (_ =? _); [|discriminate]. intros E. inversion E; subst. destruct st; [congruence| |]; cbn; lia.
  - intros E; inversion E; subst. now apply chain1.
Qed.

Lemma a_if_dot_mono k c a size r t c' l : 0 <= k -> 0 <= size -> a_if_dot k c a size = Ok (r, t, c', l) -> c <= c'.
Proof.
  intros K Z0. pose proof (blocks_nonneg k size K Z0). destruct a as [[st c0 z f]|]; cbn [a_if_dot]; [destruct (_ =? _); [|discriminate]|]; intros E; inversion E; subst; lia.
Qed.
Lemma not_init p sl d x k c z : (forall j, d j = option_map (conc p) (sl j)) ->
  ~ (exists dd, slot_arg d x = Some dd /\ d_status dd = SInit) -> forall a', afill k c z (aarg sl x) = Some a' -> a_status a' <> SInit.
Proof.
  intros H NI a' E S. apply NI. destruct x as [i|]; [|discriminate]. cbn [slot_arg]. rewrite H. cbn [aarg] in E.
  destruct (sl i) as [[st c0 z0 f]|]; cbn in E.
  - destruct st; inversion E; subst; cbn in S; try discriminate. eexists; split; reflexivity.
  - eexists; split; reflexivity.
Qed.

Lemma step_all q s c sl : req_ok q -> mrel c sl s ->
  (all_err q s \/ exists c' sl', c <= c' /\ all_ok q s c c' sl' /\ valid q s).
Proof.
  intros OK R.
  assert (FST : forall p, (p < n)%nat -> m_b (s p) = mkp p c) by (intros p P; apply R, P).
  assert (FSD : forall p, (p < n)%nat -> forall j, m_d (s p) j = option_map (conc p) (sl j)) by (intros p P; apply R, P).
  destruct q as [k size x y|k size|k size x|k m c0 kk x y|size|k size bits|k size bits|k size rb|k size|k pr size|i stt]; cbn [req_ok] in OK.
  - (* Mul *)
    destruct OK as [K Z0]. assert (K' : 0 <= k) by lia.
    assert (RUN : forall p, (p < n)%nat -> tfp_mul prg k p (m_b (s p)) size (slot_arg (m_d (s p)) x) (slot_arg (m_d (s p)) y) = _)
      by (intros p P; rewrite FST by exact P; apply (tfp_mul_ok k p c size (aarg sl x) (aarg sl y)); apply slot_rel, FSD, P).
    cbn beta in RUN. unfold a_mul in RUN.
    destruct (a_if k c (afill k c size (aarg sl x)) size) as [[[ca c1] l1]| |] eqn:E1; cbn [rbind] in RUN; [|left; intros p P; cbn [mstep]; now rewrite RUN|now apply a_if_noub in E1].
    destruct (a_if k c1 (afill k c1 size (aarg sl y)) size) as [[[cb c2] l2]| |] eqn:E2; cbn [rbind] in RUN; [|left; intros p P; cbn [mstep]; now rewrite RUN|now apply a_if_noub in E2].
    assert (CH : chain c (l1 ++ l2 ++ [(c2, blocks k size)]) (c2 + blocks k size))
      by (eapply chain_app; [exact (a_if_chain _ _ _ _ _ _ _ K' Z0 E1)|]; eapply chain_app; [exact (a_if_chain _ _ _ _ _ _ _ K' Z0 E2)|now apply chain1]).
    right. exists (c2 + blocks k size), (aset (aset sl x (afill k c size (aarg sl x))) y (afill k c1 size (aarg sl y))).
    split; [now apply chain_le in CH|]. split.
    + intros p P. cbn [mstep]. rewrite RUN by exact P. cbn [rbind]. do 2 eexists. split; [reflexivity|]. cbn [r_st r_xd r_yd r_draws m_b m_d an_draws].
      split; [reflexivity|]. split; [|intros _; exact CH]. apply slot_set_rel; [|reflexivity]. apply slot_set_rel; [|reflexivity]. apply FSD, P.
    + cbn [valid]. eapply mul_ext; [exact (mul_valid k ca cb c2 K')|..]; intros p P; unfold arr; cbn [mstep]; rewrite RUN by exact P; reflexivity.
  - (* MulPriv *)
    destruct OK as [K Z0]. assert (K' : 0 <= k) by lia.
    assert (CH : chain c [(c, blocks k size); (c + blocks k size, blocks k size)] (c + blocks k size + blocks k size))
      by (apply (chain_app c [(c, blocks k size)] (c + blocks k size)); now apply chain1).
    right. exists (c + blocks k size + blocks k size), sl. split; [now apply chain_le in CH|]. split.
    + intros p P. cbn [mstep]. rewrite FST by exact P. do 2 eexists. split; [reflexivity|]. split; [reflexivity|]. split; [apply FSD, P|intros _; exact CH].
    + cbn [valid]. eapply priv_ext; [exact (priv_valid k c (c + blocks k size) K')|..]; intros p P; unfold arr; cbn [mstep]; rewrite FST by exact P; reflexivity.
  - (* Square *)
    destruct OK as [K Z0]. assert (K' : 0 <= k) by lia.
    assert (RUN : forall p, (p < n)%nat -> tfp_square prg k p (m_b (s p)) size (slot_arg (m_d (s p)) x) = _)
      by (intros p P; rewrite FST by exact P; apply (tfp_square_ok k p c size (aarg sl x)); apply slot_rel, FSD, P).
    cbn beta in RUN. unfold a_square in RUN.
    destruct (a_if k c (afill k c size (aarg sl x)) size) as [[[ca c1] l1]| |] eqn:E1; cbn [rbind] in RUN; [|left; intros p P; cbn [mstep]; now rewrite RUN|now apply a_if_noub in E1].
    assert (CH : chain c (l1 ++ [(c1, blocks k size)]) (c1 + blocks k size))
      by (eapply chain_app; [exact (a_if_chain _ _ _ _ _ _ _ K' Z0 E1)|now apply chain1]).
    right. exists (c1 + blocks k size), (aset sl x (afill k c size (aarg sl x))).
    split; [now apply chain_le in CH|]. split.
    + intros p P. cbn [mstep]. rewrite RUN by exact P. cbn [rbind]. do 2 eexists. split; [reflexivity|]. cbn [r_st r_xd r_yd r_draws m_b m_d an_draws].
      split; [reflexivity|]. split; [|intros _; exact CH]. apply slot_set_rel; [|reflexivity]. apply FSD, P.
    + cbn [valid]. eapply square_ext; [exact (square_valid k ca c1 K')|..]; intros p P; unfold arr; cbn [mstep]; rewrite RUN by exact P; reflexivity.
  - (* Dot *)
    assert (K' : 0 <= k) by lia.
    assert (RUN : forall p, (p < n)%nat -> match a_dot k c m c0 kk (aarg sl x) (aarg sl y) with _ => _ end)
      by (intros p P; exact (tfp_dot_ok k p c m c0 kk (aarg sl x) (aarg sl y) _ _ (slot_rel p sl (m_d (s p)) x (FSD p P)) (slot_rel p sl (m_d (s p)) y (FSD p P)))).
    cbn beta in RUN. unfold a_dot in RUN.
    destruct (a_if_dot k c (afill k c (Z.of_nat m * Z.of_nat kk) (aarg sl x)) (Z.of_nat m * Z.of_nat kk)) as [[[[ca ta] c1] l1]| |] eqn:E1; cbn [rbind] in RUN;
      [|left; intros p P; cbn [mstep]; rewrite FST, RUN by exact P; reflexivity|exfalso; exact (RUN O n_pos)].
    destruct (a_if_dot k c1 (afill k c1 (Z.of_nat c0 * Z.of_nat kk) (aarg sl y)) (Z.of_nat kk * Z.of_nat c0)) as [[[[cb tb] c2] l2]| |] eqn:E2; cbn [rbind] in RUN;
      [|left; intros p P; cbn [mstep]; rewrite FST, RUN by exact P; reflexivity|exfalso; exact (RUN O n_pos)].
    right. exists (c2 + blocks k (Z.of_nat m * Z.of_nat c0)), (aset (aset sl x (afill k c (Z.of_nat m * Z.of_nat kk) (aarg sl x))) y (afill k c1 (Z.of_nat c0 * Z.of_nat kk) (aarg sl y))).
    split; [apply a_if_dot_mono in E1, E2; try lia; pose proof (blocks_nonneg k (Z.of_nat m * Z.of_nat c0)); lia|]. split.
    + intros p P. destruct (RUN p P) as [A [B [C [E _]]]]. cbn [mstep]. rewrite FST, E by exact P. cbn [rbind]. do 2 eexists. split; [reflexivity|].
      cbn [r_st r_xd r_yd r_draws m_b m_d an_draws]. split; [reflexivity|]. split.
      * apply slot_set_rel; [|reflexivity]. apply slot_set_rel; [|reflexivity]. apply FSD, P.
      * intros ND. cbn [dot_init] in ND. eapply chain_app; [eapply a_if_dot_chain; [exact K'| | |exact E1]; [lia|]|eapply chain_app; [eapply a_if_dot_chain; [exact K'| | |exact E2]; [lia|]|apply chain1; lia]].
        -- eapply (not_init p sl); [apply FSD, P|]. intros G; apply ND; now left.
        -- eapply (not_init p sl); [apply FSD, P|]. intros G; apply ND; now right.
    + cbn [valid].
      assert (AR : forall p, (p < n)%nat -> exists A B C, arr (QDot k m c0 kk x y) s 0 p = A /\ arr (QDot k m c0 kk x y) s 1 p = B /\ arr (QDot k m c0 kk x y) s 2 p = C /\
           tfp_dot prg k p (mkp p c) m c0 kk (slot_arg (m_d (s p)) x) (slot_arg (m_d (s p)) y) = tfp_dot prg k p (mkp p c) m c0 kk (slot_arg (m_d (s p)) x) (slot_arg (m_d (s p)) y) /\
        (forall i j, (j < kk)%nat -> A (i * kk + j)%nat = as_matrix (mkOp (tbl p) ca k ta) m kk (prg k (sd p) ca) i j) /\
        (forall i j, (j < c0)%nat -> B (i * c0 + j)%nat = as_matrix (mkOp (tbl p) cb k tb) kk c0 (prg k (sd p) cb) i j) /\
        (forall i j, (j < c0)%nat -> C (i * c0 + j)%nat = if (p =? 0)%nat
          then radd k (prg k (sd p) c2 (i * c0 + j)%nat) (adjust_dot prg k m c0 kk (mkOp seeds ca k ta) (mkOp seeds cb k tb) (mkOp seeds c2 k false) i j)
          else prg k (sd p) c2 (i * c0 + j)%nat)).
      { intros p P. destruct (RUN p P) as [A [B [C [E [HA [HB HC]]]]]]. exists A, B, C.
        unfold arr. cbn [mstep]. rewrite FST, E by exact P. repeat (split; [reflexivity|]). auto. }
      apply (dot_valid k m c0 kk ca ta cb tb c2); [exact K'| | |]; intros p P i j _ J; destruct (AR p P) as [A [B [C [EA [EB [EC [_ [HA [HB HC]]]]]]]]].
      * rewrite EA. now apply HA.
      * rewrite EB. now apply HB.
      * rewrite EC. now apply HC.
  - (* And *)
    set (z := (size + 15) / 16). assert (Z0 : 0 <= z) by (apply Z.div_pos; lia).
    assert (CH : chain c [(c, blocks 128 z); (c + blocks 128 z, blocks 128 z); (c + blocks 128 z + blocks 128 z, blocks 128 z)] (c + blocks 128 z + blocks 128 z + blocks 128 z))
      by (apply (chain_app c [(c, blocks 128 z)] (c + blocks 128 z)); [now apply chain1|]; apply (chain_app (c + blocks 128 z) [(c + blocks 128 z, blocks 128 z)] (c + blocks 128 z + blocks 128 z)); now apply chain1).
    right. exists (c + blocks 128 z + blocks 128 z + blocks 128 z), sl. split; [now apply chain_le in CH|]. split.
    + intros p P. cbn [mstep]. rewrite FST by exact P. do 2 eexists. split; [reflexivity|]. split; [reflexivity|]. split; [apply FSD, P|intros _; exact CH].
    + cbn [valid]. eapply and_ext; [exact (and_valid c (c + blocks 128 z) (c + blocks 128 z + blocks 128 z))|..]; intros p P; unfold arr; cbn [mstep]; rewrite FST by exact P; reflexivity.
  - (* Trunc *)
    destruct OK as [[K Z0] D]. assert (K' : 0 <= k) by lia.
    assert (CH : chain c [(c, blocks k size); (c + blocks k size, blocks k size)] (c + blocks k size + blocks k size))
      by (apply (chain_app c [(c, blocks k size)] (c + blocks k size)); now apply chain1).
    right. exists (c + blocks k size + blocks k size), sl. split; [now apply chain_le in CH|]. split.
    + intros p P. cbn [mstep]. rewrite FST by exact P. do 2 eexists. split; [reflexivity|]. split; [reflexivity|]. split; [apply FSD, P|intros _; exact CH].
    + cbn [valid]. eapply trunc_ext; [exact (trunc_valid k bits c (c + blocks k size) K)|..]; intros p P; unfold arr; cbn [mstep]; rewrite FST by exact P; reflexivity.
  - (* TruncPr *)
    destruct OK as [[K Z0] D]. assert (K' : 0 <= k) by lia.
    assert (CH : chain c [(c, blocks k size); (c + blocks k size, blocks k size); (c + blocks k size + blocks k size, blocks k size)] (c + blocks k size + blocks k size + blocks k size))
      by (apply (chain_app c [(c, blocks k size)] (c + blocks k size)); [now apply chain1|]; apply (chain_app (c + blocks k size) [(c + blocks k size, blocks k size)] (c + blocks k size + blocks k size)); now apply chain1).
    right. exists (c + blocks k size + blocks k size + blocks k size), sl. split; [now apply chain_le in CH|]. split.
    + intros p P. cbn [mstep]. rewrite FST by exact P. do 2 eexists. split; [reflexivity|]. split; [reflexivity|]. split; [apply FSD, P|intros _; exact CH].
    + cbn [valid]. eapply truncpr_ext; [exact (truncpr_valid k bits c (c + blocks k size) (c + blocks k size + blocks k size) K D)|..]; intros p P; unfold arr; cbn [mstep]; rewrite FST by exact P; reflexivity.
  - (* RandBit *)
    destruct OK as [K Z0]. assert (K' : 0 <= k) by lia.
    right. exists (c + blocks k size), sl. split; [pose proof (blocks_nonneg k size K' Z0); lia|]. split.
    + intros p P. cbn [mstep]. rewrite FST by exact P. do 2 eexists. split; [reflexivity|]. split; [reflexivity|]. split; [apply FSD, P|intros _; now apply chain1].
    + cbn [valid]. eapply bits_ext; [exact (randbit_valid k rb c K')|..]; intros p P; unfold arr; cbn [mstep]; rewrite FST by exact P; reflexivity.
  - (* Eqz *)
    destruct OK as [K Z0]. assert (K' : 0 <= k) by lia.
    assert (CH : chain c [(c, blocks k size); (c + blocks k size, blocks k size)] (c + blocks k size + blocks k size))
      by (apply (chain_app c [(c, blocks k size)] (c + blocks k size)); now apply chain1).
    right. exists (c + blocks k size + blocks k size), sl. split; [now apply chain_le in CH|]. split.
    + intros p P. cbn [mstep]. rewrite FST by exact P. do 2 eexists. split; [reflexivity|]. split; [reflexivity|]. split; [apply FSD, P|intros _; exact CH].
    + cbn [valid]. eapply dual_ext; [exact (eqz_valid k c (c + blocks k size) K')|..]; intros p P; unfold arr; cbn [mstep]; rewrite FST by exact P; reflexivity.
  - (* Perm *)
    destruct OK as [K PR]. assert (K' : 0 <= k) by lia. set (z := Z.of_nat size). assert (Z0 : 0 <= z) by (unfold z; lia).
    set (c2 := c + blocks k z + blocks k z). set (pv := fst (shuffle (sd pr) c2 size)). set (c3 := snd (shuffle (sd pr) c2 size)).
    assert (LOC : forall p, (p < n)%nat -> exists c', tfp_perm_local prg k shuffle p pr (mkp p c) size =
       (prg k (sd p) c, (if (p =? 0)%nat then fun i => radd k (prg k (sd p) (c + blocks k z) i) (adjust_perm prg k pv (mkOp (tbl p) c k false) (mkOp (tbl p) (c + blocks k z) k false) i) else prg k (sd p) (c + blocks k z)),
        (if (p =? pr)%nat then pv else []), mkp p c', [(c, blocks k z); (c + blocks k z, blocks k z)] ++ (if (p =? pr)%nat then [(c2, c3 - c2)] else [])) /\ (p = pr -> c' = c3)).
    { intros p P. unfold tfp_perm_local. cbn [fresh create mkp b_seed b_ctr b_seeds]. fold z c2.
      destruct (Nat.eqb_spec p pr) as [->|NE].
      - fold (sd pr). unfold pv, c3. destruct (shuffle (sd pr) c2 size) as [pi c1]; cbn [fst snd].
        destruct (Nat.eqb_spec pr 0) as [E0|N0]; eexists; (split; [reflexivity|reflexivity]).
      - destruct (Nat.eqb_spec p 0) as [->|N0].
        + destruct (Nat.eqb_spec pr 0) as [E0|N1]; [congruence|]. rewrite tbl0. fold (sd pr). unfold pv, c3. destruct (shuffle (sd pr) c2 size) as [pi c1]; cbn [fst snd].
          eexists; (split; [reflexivity|congruence]).
        + eexists; (split; [reflexivity|congruence]). }
    assert (RUN : forall p, (p < n)%nat -> mstep prg shuffle (QPerm k pr size) s p = Ok (mkMst (mkp p c3) (m_d (s p)),
       mkAns [prg k (sd p) c; (if (p =? 0)%nat then fun i => radd k (prg k (sd p) (c + blocks k z) i) (adjust_perm prg k pv (mkOp (tbl p) c k false) (mkOp (tbl p) (c + blocks k z) k false) i) else prg k (sd p) (c + blocks k z))]
         (if (p =? pr)%nat then pv else []) ([(c, blocks k z); (c + blocks k z, blocks k z)] ++ (if (p =? pr)%nat then [(c2, c3 - c2)] else [])))).
    { intros p P. cbn [mstep]. unfold tfp_perm_all. rewrite !FST by auto.
      destruct (LOC p P) as [c' [-> _]]. destruct (LOC pr PR) as [c'' [-> E]]. rewrite (E eq_refl). reflexivity. }
    assert (C3 : c2 <= c3) by apply shuffle_ctr.
    assert (CH : chain c [(c, blocks k z); (c + blocks k z, blocks k z)] c2)
      by (apply (chain_app c [(c, blocks k z)] (c + blocks k z)); now apply chain1).
    right. exists c3, sl. split; [apply chain_le in CH; lia|]. split.
    + intros p P. rewrite RUN by exact P. do 2 eexists. split; [reflexivity|]. split; [reflexivity|]. split; [apply FSD, P|]. intros _. cbn [an_draws].
      eapply chain_app; [exact CH|]. destruct (p =? pr)%nat; cbn; lia.
    + cbn [valid]. assert (PP : perm_of (QPerm k pr size) s pr = pv) by (unfold perm_of; rewrite RUN, Nat.eqb_refl by exact PR; reflexivity).
      split; [rewrite PP; apply shuffle_perm|]. split.
      * intros p P NP. unfold perm_of. rewrite RUN by exact P. cbn. destruct (Nat.eqb_spec p pr); congruence.
      * intros j J. rewrite PP. assert (PM : Permutation pv (seq 0 size)) by apply shuffle_perm.
        assert (ND : NoDup pv) by (apply (Permutation_NoDup (Permutation_sym PM)), seq_NoDup).
        assert (LN : length pv = size) by (rewrite (Permutation_length PM); apply seq_length).
        pose proof (perm_valid k pv c (c + blocks k z) j K' ND ltac:(lia)) as G.
        match type of G with cong _ (tot n ?A _) (tot n ?B _) => rewrite (tot_cong (arr (QPerm k pr size) s 0) A), (tot_cong (arr (QPerm k pr size) s 1) B) end;
          [exact G|..]; intros p P; unfold arr; rewrite RUN by exact P; reflexivity.
  - (* status *)
    right. exists c, (fun j => if (j =? i)%nat then option_map (fun a => mkAd stt (a_ctr a) (a_size a) (a_field a)) (sl i) else sl j). split; [lia|]. split; [|exact I].
    intros p P. do 2 eexists. split; [reflexivity|]. split; [apply FST, P|]. split; [|intros _; cbn; lia]. intros j. cbn [m_d].
    destruct (j =? i)%nat; [|apply FSD, P]. rewrite FSD by exact P. destruct (sl i); reflexivity.
Qed.

Lemma mrel_init : mrel 0 (fun _ => None) (minit seeds).
Proof. intros p P. split; reflexivity. Qed.
Lemma mnext_rel q s c sl : req_ok q -> mrel c sl s -> exists c' sl', c <= c' /\ mrel c' sl' (mnext prg shuffle q s) /\
   (forall p, (p < n)%nat -> ~ dot_init q (m_d (s p)) -> chain c (match mstep prg shuffle q s p with Ok (_, a) => an_draws a | _ => [] end) c').
Proof.
  intros OK R. destruct (step_all q s c sl OK R) as [E|[c' [sl' [LE [A _]]]]].
  - exists c, sl. split; [lia|]. split; [intros p P; specialize (E p P); unfold mnext; rewrite E; apply R, P|]. intros p P _. specialize (E p P). rewrite E. cbn; lia.
  - exists c', sl'. split; [exact LE|]. split.
    + intros p P. destruct (A p P) as [s' [a [E [B [D _]]]]]. unfold mnext. rewrite E. now split.
    + intros p P NI. destruct (A p P) as [s' [a [E [_ [_ C]]]]]. rewrite E. now apply C.
Qed.
Lemma mrun_rel qs : forall s c sl, Forall req_ok qs -> mrel c sl s -> exists c' sl', mrel c' sl' (mrun prg shuffle qs s).
Proof.
  induction qs as [|q qs IH]; intros s c sl F R; [now exists c, sl|]. inversion F; subst. cbn [mrun].
  destruct (mnext_rel q s c sl) as [c' [sl' [_ [R' _]]]]; auto. eapply IH; eauto.
Qed.
(* the program never hands Dot a default or Init descriptor *)
Fixpoint no_dot_init (qs : list req) (s : nat -> mst) (p : nat) : Prop :=
  match qs with [] => True | q :: qs' => ~ dot_init q (m_d (s p)) /\ no_dot_init qs' (mnext prg shuffle q s) p end.
Lemma mdraws_chain qs : forall s c sl p, (p < n)%nat -> Forall req_ok qs -> mrel c sl s -> no_dot_init qs s p ->
  exists c', chain c (mdraws prg shuffle qs s p) c'.
Proof.
  induction qs as [|q qs IH]; intros s c sl p P F R ND; [exists c; cbn; lia|]. inversion F; subst. destruct ND as [ND1 ND2]. cbn [mdraws].
  destruct (mnext_rel q s c sl) as [c1 [sl' [_ [R' CH]]]]; auto. destruct (IH _ c1 sl' p P H2 R' ND2) as [c' CH']. exists c'.
  eapply chain_app; [apply CH; auto|exact CH'].
Qed.
End B.
