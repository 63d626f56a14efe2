(* The network of all packets, and its evaluation on shares. *)
From Verif Require Import Base Ring_model Ring_spec Ring_proof Share_spec Party Prg_model Beaver_spec Perm_model Perm_spec Perm_proof Wak_model Wak_spec Wak_proof Wakn_proof.
From Coq Require Import ZifyBool ZifyNat.
Open Scope nat_scope.

Lemma perm_nth m pv i : is_perm m pv -> i < m -> nth_error pv i = Some (nth i pv 0) /\ nth i pv 0 < m.
Proof. intros H I. pose proof (perm_length _ _ H). destruct (nth_error_lt pv i ltac:(lia)) as [v V]. rewrite (nth_of_error _ _ _ 0 V). split; [exact V|]. exact (perm_bound _ _ _ _ H V). Qed.
Lemma inverse_ok m pv : is_perm m pv -> exists q, inverse 0 pv = Ok q /\ length q = m /\ forall i, i < m -> nth_error q (nth i pv 0) = Some i.
Proof.
  intros H. pose proof (perm_length _ _ H) as L. unfold inverse.
  destruct (loop_writes (fun i inv => rbind (read pv i) (fun v => wr 0 inv v (i + 0))) (fun i => nth i pv 0) (fun i => i) m (seq 0 (length pv))) with (y := iota 0 (length pv)) as (q & E & LQ & K & _).
  - intros i y I LY. apply in_seq in I. destruct (perm_nth m pv i H ltac:(lia)) as [E B]. unfold read. rewrite E. cbn [rbind]. unfold wr, write. rewrite (proj2 (Nat.ltb_ge _ 0)) by lia. rewrite Nat.sub_0_r, Nat.add_0_r.
    now rewrite (proj2 (Nat.ltb_lt _ _)) by lia.
  - intros i I. apply in_seq in I. apply perm_nth; [exact H|lia].
  - apply nodup_map_inj; [apply seq_NoDup|]. intros a b A B EQ. apply in_seq in A, B. destruct (perm_nth m pv a H ltac:(lia)) as [EA _]. destruct (perm_nth m pv b H ltac:(lia)) as [EB _]. rewrite <- EQ in EB. exact (perm_inj _ _ _ _ _ H EA EB).
  - unfold iota. now rewrite seq_length.
  - exists q. split; [exact E|]. split; [exact LQ|]. intros i I. apply K, in_seq. lia.
Qed.
Lemma rep_nth m (l : list nat) : 1 <= m -> length l = m -> rep m 0 l (fun i => nth i l 0).
Proof. intros M L. split; [exact L|]. intros i Hi. unfold inside in Hi. rewrite Nat.sub_0_r. apply nth_error_nth'. lia. Qed.
Lemma get_net m pv : 2 <= m -> is_perm m pv -> exists g r, get_topology m = Ok g /\ get_routing pv = Ok r /\ net g r 0 (columns m - 1) 0 m (fun i => i) (fun i => nth i pv 0).
Proof.
  intros M H. pose proof (perm_length _ _ H) as L. unfold get_topology, get_routing. rewrite L. rewrite (proj2 (Nat.ltb_ge m 2)) by lia. destruct (inverse_ok m pv H) as (q & E & LQ & K). rewrite E. cbn [rbind].
  destruct (columns_odd m M) as [kk HK]. assert (IN : forall i, inside m 0 i <-> i < m) by (intros; unfold inside; lia).
  assert (QP : forall i, i < m -> nth (nth i pv 0) q 0 = i) by (intros i I; apply nth_of_error; auto).
  assert (SUR : forall o, o < m -> exists i, i < m /\ nth i pv 0 = o) by (intros o O; destruct (perm_surj m pv o H O) as (i & I & EI); exists i; split; [exact I|]; now apply nth_of_error).
  destruct (net_ok (S (columns m)) 0 (columns m - 1) 0 m (fun i => nth i pv 0) (fun i => nth i q 0) (fun i => i) pv q (fun _ _ => None) (map Some (seq 0 m)) (fun _ _ => (None, None))) as (r & g & ER & EG & _ & _ & N); try lia.
  - intros i I. apply IN in I. apply IN. now apply perm_nth.
  - intros o O. apply IN in O. apply IN. destruct (SUR o O) as (i & I & <-). now rewrite QP.
  - intros o O. apply IN in O. destruct (SUR o O) as (i & I & <-). now rewrite QP.
  - intros i I. apply IN in I. now apply QP.
  - apply rep_nth; [lia|exact L].
  - apply rep_nth; [lia|exact LQ].
  - reflexivity.
  - split; [now rewrite map_length, seq_length|]. intros i I. apply IN in I. apply map_nth_error. rewrite Nat.sub_0_r. now apply nth_error_seq.
  - exists g, r. change (0 + m - 1) with (m - 1) in *. auto.
Qed.
(* ---- following packets ---- *)
Lemma col_moves g r c m n lo : col g r c m lo n -> forall i, lo <= i < lo + n -> moves g r c i (m i).
Proof.
  induction 1 as [lo|lo n E C IH|lo n u v s E1 E2 N ES M1 M2 C IH]; intros i Hi.
  - lia.
  - destruct (Nat.eq_dec i lo) as [->|]; [now apply on_wire|]. apply IH. lia.
  - replace (S lo) with (lo + 1) in * by lia. destruct (Nat.eq_dec i lo) as [->|]; [rewrite M1; now apply (on_top _ _ _ lo u v s)|]. destruct (Nat.eq_dec i (lo + 1)) as [->|]; [rewrite M2; now apply (on_bottom _ _ _ lo u v s)|]. apply IH. lia.
Qed.
Lemma net_travels g r m F : 2 <= m -> net g r 0 (columns m - 1) 0 m (fun i => i) F -> forall i, i < m -> travels g r 0 (columns m) i (F i).
Proof.
  intros M (MM & MC & MI & MD & MT) i Hi. destruct (columns_odd m M) as [kk HK]. assert (IN : forall i, inside m 0 i <-> i < m) by (intros; unfold inside; lia).
  rewrite <- MT by now apply IN. replace (columns m - 1 + 1 - 0) with (columns m) by lia.
  assert (G : forall len c x, c + len = columns m -> x < m -> travels g r c len x (through MM c len x)).
  { induction len as [|len IH]; intros c x HC HX; [constructor|]. cbn [through]. econstructor; [apply (col_moves g r c (MM c) m 0); [apply MC; lia|lia]|]. apply IH; [lia|]. apply IN.
    destruct (Nat.eq_dec c (columns m - 1)) as [->|]; [|apply MI; [lia|now apply IN]]. destruct (MD x ltac:(now apply IN)) as (j & Hj & ->). exact Hj. }
  apply G; [lia|exact Hi].
Qed.
(* every column is a bijection *)
Lemma inj_surj m (f : nat -> nat) : (forall i, i < m -> f i < m) -> (forall i j, i < m -> j < m -> f i = f j -> i = j) -> forall y, y < m -> exists x, x < m /\ f x = y.
Proof.
  intros B J y Y. assert (IN : In y (map f (seq 0 m))); [|apply in_map_iff in IN; destruct IN as (x & <- & X); apply in_seq in X; exists x; split; [lia|reflexivity]].
  assert (ND : NoDup (map f (seq 0 m))) by (apply nodup_map_inj; [apply seq_NoDup|]; intros a b A C; apply in_seq in A, C; apply J; lia).
  apply (NoDup_length_incl ND (l' := seq 0 m)); [rewrite map_length; lia| |apply in_seq; lia]. intros z Z. apply in_map_iff in Z. destruct Z as (x & <- & X). apply in_seq in X. apply in_seq. specialize (B x ltac:(lia)). lia.
Qed.
Lemma surj_inj m (f : nat -> nat) : (forall i, i < m -> f i < m) -> (forall y, y < m -> exists x, x < m /\ f x = y) -> forall i j, i < m -> j < m -> f i = f j -> i = j.
Proof.
  intros B SJ. assert (ND : NoDup (map f (seq 0 m))).
  { apply (NoDup_incl_NoDup (l := seq 0 m)); [apply seq_NoDup|rewrite map_length; lia|]. intros y Y. apply in_seq in Y. destruct (SJ y ltac:(lia)) as (x & X & <-). apply in_map, in_seq. lia. }
  intros i j I J E. rewrite NoDup_nth_error in ND. apply ND; [rewrite map_length, seq_length; exact I|]. rewrite !nth_error_map, !nth_error_seq by assumption. cbn. now rewrite E.
Qed.
Lemma columns_bij m M F : 1 <= columns m -> (forall c i, c < columns m -> i < m -> M c i < m) -> (forall i, i < m -> through M 0 (columns m) i = F i) -> (forall i j, i < m -> j < m -> F i = F j -> i = j) ->
  forall c, c < columns m -> forall i j, i < m -> j < m -> M c i = M c j -> i = j.
Proof.
  intros W B T J c C.
  assert (SP : forall a b c0 x, through M c0 (a + b) x = through M (c0 + a) b (through M c0 a x)).
  { induction a as [|a IH]; intros b c0 x; [cbn; now rewrite Nat.add_0_r|]. cbn [plus through]. rewrite IH. f_equal. lia. }
  assert (BT : forall len c0 x, c0 + len <= columns m -> x < m -> through M c0 len x < m).
  { induction len as [|len IH]; intros c0 x HC HX; [exact HX|]. cbn [through]. apply IH; [lia|]. apply B; [lia|exact HX]. }
  (* the first c columns are injective, hence surjective; so are the first c + 1 *)
  assert (PI : forall a, a <= columns m -> forall i j, i < m -> j < m -> through M 0 a i = through M 0 a j -> i = j).
  { intros a A i j I K E. apply J; auto. rewrite <- !T by assumption. replace (columns m) with (a + (columns m - a)) by lia. rewrite !SP. now rewrite E. }
  apply surj_inj; [intros i I; now apply B|]. intros y Y.
  destruct (inj_surj m (through M 0 (S c)) (fun i I => BT (S c) 0 i ltac:(lia) I) (PI (S c) ltac:(lia)) y Y) as (x & X & E). rewrite through_last in E. exists (through M 0 c x). split; [apply BT; [lia|exact X]|exact E].
Qed.

(* ---- the plan of a column ---- *)
Definition sdata := (nat * nat * nat * bool)%type.
Record planned (p0 p : plan) (m : nat -> nat) (lo len : nat) (L : list sdata) (S : list nat) : Prop := mkPlanned {
  pl_lhs : lhs p = lhs p0 ++ map (fun '(i, u, v, s) => i) L;
  pl_rhs : rhs p = rhs p0 ++ map (fun '(i, u, v, s) => i + 1) L;
  pl_tops : tops p = tops p0 ++ map (fun '(i, u, v, s) => Some u) L;
  pl_bots : bots p = bots p0 ++ map (fun '(i, u, v, s) => Some v) L;
  pl_flags : flags p = flags p0 ++ map (fun '(i, u, v, s) => s) L;
  pl_straight : straight p = straight p0 ++ S;
  pl_ahead : ahead p = ahead p0 ++ map (fun i => Some (m i)) S;
  pl_app : append_lhs p = true;
  pl_sw : forall i u v s, In (i, u, v, s) L -> lo <= i /\ i + 1 < lo + len /\ m i = (if s then v else u) /\ m (i + 1) = (if s then u else v);
  pl_in : forall i, In i S -> lo <= i < lo + len;
  pl_targets : Permutation (map (fun '(i, u, v, s) => u) L ++ map (fun '(i, u, v, s) => v) L ++ map m S) (map m (seq lo len)) }.
Lemma plan_ok g r c m n lo : col g r c m lo n -> forall p0, append_lhs p0 = true -> exists p L S, loop (visit g r c) (seq lo n) p0 = Ok p /\ planned p0 p m lo n L S.
Proof.
  induction 1 as [lo|lo n E C IH|lo n u v s E1 E2 N ES M1 M2 C IH]; intros p0 A.
  - exists p0, [], []. split; [reflexivity|]. constructor; cbn; rewrite ?app_nil_r; auto; try easy.
  - cbn [seq loop]. unfold visit at 1. rewrite E. cbn [same_dest]. rewrite Nat.eqb_refl. cbn [rbind].
    destruct (IH (mkPlan (lhs p0) (rhs p0) (tops p0) (bots p0) (flags p0) (straight p0 ++ [lo]) (ahead p0 ++ [Some (m lo)]) (append_lhs p0)) A) as (p & L & S0 & EL & PL). exists p, L, (lo :: S0). split; [exact EL|].
    destruct PL as [A1 A2 A3 A4 A5 A6 A7 A8 A9 A10 A11]. cbn [lhs rhs tops bots flags straight ahead] in *. constructor; auto.
    + rewrite A6, <- app_assoc. reflexivity.
    + rewrite A7, <- app_assoc. reflexivity.
    + intros i u v s I. destruct (A9 i u v s I) as (B1 & B2 & B3). split; [lia|]. split; [lia|exact B3].
    + intros i [<-|I]; [lia|]. specialize (A10 i I). lia.
    + cbn [seq map]. rewrite <- A11. rewrite app_assoc. symmetry. rewrite app_assoc. apply Permutation_middle.
  - cbn [seq loop]. unfold visit at 1. rewrite E1. cbn [same_dest]. rewrite (proj2 (Nat.eqb_neq u v)) by exact N. rewrite A, ES. cbn [rbind loop]. unfold visit at 1. rewrite E2. cbn [same_dest append_lhs]. rewrite (proj2 (Nat.eqb_neq v u)) by auto. cbn [rbind lhs rhs tops bots flags straight ahead].
    destruct (IH (mkPlan (lhs p0 ++ [lo]) (rhs p0 ++ [S lo]) (tops p0 ++ [Some u]) (bots p0 ++ [Some v]) (flags p0 ++ [s]) (straight p0) (ahead p0) true) eq_refl) as (p & L & S0 & EL & PL). exists p, ((lo, u, v, s) :: L), S0. split; [exact EL|].
    destruct PL as [A1 A2 A3 A4 A5 A6 A7 A8 A9 A10 A11]. cbn [lhs rhs tops bots flags straight ahead] in *. constructor; auto; cbn [map].
    + rewrite A1, <- app_assoc. reflexivity.
    + rewrite A2, <- app_assoc. now replace (S lo) with (lo + 1) by lia.
    + rewrite A3, <- app_assoc. reflexivity.
    + rewrite A4, <- app_assoc. reflexivity.
    + rewrite A5, <- app_assoc. reflexivity.
    + intros i u' v' s' [I|I]; [injection I as <- <- <- <-; replace (lo + 1) with (S lo) by lia; split; [lia|]; split; [lia|auto]|]. destruct (A9 i u' v' s' I) as (B1 & B2 & B3). split; [lia|]. split; [lia|exact B3].
    + intros i I. specialize (A10 i I). lia.
    + cbn [seq map]. rewrite <- A11. rewrite M1, M2. cbn [app].
      assert (K : forall a b l1 l2 : list nat, forall x y : nat, a = l1 -> b = l2 -> Permutation (x :: a ++ y :: b) (x :: y :: l1 ++ l2)) by (intros a b l1 l2 x y -> ->; apply perm_skip; symmetry; apply Permutation_middle).
      destruct s; [eapply perm_trans; [apply K; reflexivity|apply perm_swap]|apply K; reflexivity].
Qed.

(* ---- scattering ---- *)
Lemma scatter_ok : forall (T : list nat) (vs y : list Z), length vs = length T -> NoDup T -> (forall t, In t T -> t < length y) ->
  exists y', scatter y (map Some T) vs = Ok y' /\ length y' = length y /\ (forall j, j < length T -> nth_error y' (nth j T 0) = nth_error vs j) /\ (forall q, ~ In q T -> nth_error y' q = nth_error y q).
Proof.
  induction T as [|t T IH]; intros [|v vs] y L ND B; cbn [length] in L; try lia.
  - exists y. cbn. split; [reflexivity|]. split; [reflexivity|]. split; [intros; lia|reflexivity].
  - cbn [map scatter]. unfold write. rewrite (proj2 (Nat.ltb_lt _ _)) by (apply B; now left). cbn [rbind]. inversion ND as [|? ? N1 N2]; subst.
    destruct (IH vs (set_nth y t v) ltac:(lia) N2) as (y' & E & LY & K & O); [intros q Q; rewrite set_nth_length; apply B; now right|]. exists y'. split; [exact E|]. rewrite set_nth_length in LY. split; [exact LY|]. split.
    + intros [|j] J; cbn [nth nth_error length] in *; [rewrite O by exact N1; apply set_nth_at, B; now left|apply K; lia].
    + intros q Q. cbn [In] in Q. rewrite O by tauto. apply set_nth_ne. tauto.
Qed.
Lemma scatter_app : forall T1 T2 v1 v2 y, length v1 = length T1 -> scatter y (map Some (T1 ++ T2)) (v1 ++ v2) = rbind (scatter y (map Some T1) v1) (fun y => scatter y (map Some T2) v2).
Proof.
  induction T1 as [|t T1 IH]; intros T2 [|v v1] v2 y L; cbn [length] in L; try lia; [reflexivity|]. cbn [map app scatter]. destruct (write y t v); cbn [rbind]; auto.
Qed.
Section Layer.
Variables (k : Z) (n : nat).
Hypothesis K : (0 <= k)%Z.
Variable mul : nat -> nat -> (nat -> Z) -> (nat -> Z) -> nat -> Z.
Hypothesis MUL : multiplies k n mul.
Open Scope Z_scope.
Lemma flag_ok rank f : (rank < n)%nat -> (0 < k) -> shA k n (flag_share rank f) (if f then 1 else 0).
Proof.
  intros R K1. assert (W : forall b : bool, word k (if b then 1 else 0)) by (intros b; split; [destruct b; lia|]; pose proof (Z.pow_le_mono_r 2 1 k ltac:(lia) ltac:(lia)); destruct b; lia).
  apply shA_of; [exact K| |apply W|].
  - intros i I. unfold flag_share. destruct (i =? rank)%nat; [apply W|exact (W false)].
  - unfold flag_share. rewrite total_delta by exact R. reflexivity.
Qed.
Definition upper_at t rank j (l r : nat -> Z) (f : bool) (q : nat) : Z := radd k (l q) (mul t j (fun q => rsub k (r q) (l q)) (flag_share rank f) q).
Lemma upper_ok t rank j l r x y f : (rank < n)%nat -> 0 < k -> shA k n l x -> shA k n r y -> shA k n (upper_at t rank j l r f) (if f then y else x).
Proof.
  intros R K1 L Y. assert (WX := shA_word _ _ _ _ L). assert (WY := shA_word _ _ _ _ Y).
  assert (D : shA k n (fun q => rsub k (r q) (l q)) (rsub k y x)).
  { apply shA_of; [exact K|intros; now apply rsub_word|now apply rsub_word|]. rewrite (total_eqm k n _ (fun q => r q - l q)) by (intros; apply eqm_rsub). rewrite total_sub, (shA_eqm k n l x K L), (shA_eqm k n r y K Y). symmetry. apply eqm_rsub. }
  assert (M := MUL t j _ _ _ _ D (flag_ok rank f R K1)). apply shA_of; [exact K|intros; now apply radd_word|now destruct f|].
  unfold upper_at. rewrite (total_eqm k n _ (fun q => l q + mul t j (fun q => rsub k (r q) (l q)) (flag_share rank f) q)) by (intros; apply eqm_radd). rewrite total_add, (shA_eqm k n l x K L), (shA_eqm k n _ _ K M).
  change ((rsub k y x * (if f then 1 else 0)) mod 2 ^ k) with (wrap k (rsub k y x * (if f then 1 else 0))). rewrite (eqm_wrap k (rsub k y x * _)), (eqm_rsub k y x). destruct f; [replace (x + (y - x) * 1) with y by lia|replace (x + (y - x) * 0) with x by lia]; reflexivity.
Qed.
Lemma lower_ok t rank j l r x y f : (rank < n)%nat -> 0 < k -> shA k n l x -> shA k n r y -> shA k n (fun q => rsub k (radd k (l q) (r q)) (upper_at t rank j l r f q)) (if f then x else y).
Proof.
  intros R K1 L Y. assert (WX := shA_word _ _ _ _ L). assert (WY := shA_word _ _ _ _ Y). assert (U := upper_ok t rank j l r x y f R K1 L Y).
  apply shA_of; [exact K|intros; now apply rsub_word|now destruct f|].
  rewrite (total_eqm k n _ (fun q => l q + r q - upper_at t rank j l r f q)). 2:{ intros i I. rewrite (eqm_rsub k), (eqm_radd k). reflexivity. }
  rewrite total_sub, total_add, (shA_eqm k n l x K L), (shA_eqm k n r y K Y), (shA_eqm k n _ _ K U). destruct f; [replace (x + y - y) with x by lia|replace (x + y - x) with y by lia]; reflexivity.
Qed.

Lemma shA_ext X Y x : (forall i, (i < n)%nat -> Y i = X i) -> shA k n X x -> shA k n Y x.
Proof.
  intros E H. assert (W := shA_word _ _ _ _ H). apply shA_of; [exact K|intros i I; rewrite E by exact I; now apply (proj1 H)|exact W|]. rewrite <- (shA_eqm k n X x K H). rewrite (total_ext n Y X) by exact E. reflexivity.
Qed.
Lemma shV_app A a B b : shV k n A a -> shV k n B b -> shV k n (fun q => A q ++ B q) (a ++ b).
Proof.
  intros [LA HA] [LB HB]. split; [intros i I; rewrite !app_length, LA, LB by exact I; reflexivity|]. intros e E. rewrite app_length in E. destruct (Nat.lt_ge_cases e (length a)) as [LT|GE].
  - rewrite app_nth1 by exact LT. apply (shA_ext (fun i => nth e (A i) 0)); [|now apply HA]. intros i I. rewrite app_nth1; [reflexivity|]. now rewrite LA.
  - rewrite app_nth2 by exact GE. apply (shA_ext (fun i => nth (e - length a) (B i) 0)); [|apply HB; lia]. intros i I. rewrite app_nth2; [now rewrite LA|]. now rewrite LA.
Qed.
Lemma shV_map {A} (l : list A) d f h : (forall j, (j < length l)%nat -> shA k n (fun q => f q j) (h (nth j l d))) -> shV k n (fun q => map (f q) (seq 0 (length l))) (map h l).
Proof.
  intros H. split; [intros; now rewrite !map_length, seq_length|]. intros e E. rewrite map_length in E. rewrite (nth_indep _ 0 (h d)) by now rewrite map_length. rewrite map_nth. apply (shA_ext (fun i => f i e)); [|now apply H].
  intros i I. rewrite (nth_indep _ 0 (f i O)) by now rewrite map_length, seq_length. now rewrite map_nth, seq_nth.
Qed.
Lemma Forall2_maps {A B C} (P : B -> C -> Prop) (f : A -> B) (g : A -> C) l : (forall a, In a l -> P (f a) (g a)) -> Forall2 P (map f l) (map g l).
Proof. induction l; cbn; intros H; constructor; auto. Qed.
Lemma Forall2_at {B C} (P : B -> C -> Prop) a b (d : B) (e : C) : Forall2 P a b -> length a = length b /\ forall j, (j < length a)%nat -> P (nth j a d) (nth j b e).
Proof. induction 1 as [|x y a b H F [L IH]]; cbn [length]; [split; [reflexivity|lia]|]. split; [lia|]. intros [|j] J; cbn [nth]; [exact H|]. apply IH. lia. Qed.
Lemma map_nth_in {A B} (f : A -> B) l j d e : (j < length l)%nat -> nth j (map f l) e = f (nth j l d).
Proof. intros J. rewrite (nth_indep _ e (f d)) by now rewrite map_length. apply map_nth. Qed.
Lemma layer_ok t rank g r c mm X x : (rank < n)%nat -> 0 < k -> col g r c mm 0 (length x) ->
  (forall i, (i < length x)%nat -> (mm i < length x)%nat) -> (forall i j, (i < length x)%nat -> (j < length x)%nat -> mm i = mm j -> i = j) -> shV k n X x ->
  exists p Y y, plan_of g r (length x) c = Ok p /\ layer k n mul t rank p X = Ok Y /\ shV k n Y y /\ length y = length x /\ forall i, (i < length x)%nat -> nth_error y (mm i) = nth_error x i.
Proof.
  intros R K1 C B J [LX HX]. set (m := length x) in *.
  destruct (plan_ok g r c mm m 0 C (mkPlan [] [] [] [] [] [] [] true) eq_refl) as (p & L & S0 & EP & PL). destruct PL as [A1 A2 A3 A4 A5 A6 A7 _ A9 A10 A11]. cbn [lhs rhs tops bots flags straight ahead app] in *.
  set (us := map (fun '(i, u, v, s) => u) L : list nat) in *. set (vs := map (fun '(i, u, v, s) => v) L : list nat) in *.
  set (T := us ++ vs ++ map mm S0).
  assert (ND : NoDup T). { apply (Permutation_NoDup (Permutation_sym A11)). apply nodup_map_inj; [apply seq_NoDup|]. intros a b IA IB. apply in_seq in IA, IB. apply J; lia. }
  assert (BT : forall e, In e T <-> (e < m)%nat).
  { intros e. split.
    - intros I. apply (Permutation_in _ A11) in I. apply in_map_iff in I. destruct I as (i & <- & I). apply in_seq in I. apply B. lia.
    - intros I. apply (Permutation_in _ (Permutation_sym A11)). destruct (inj_surj m mm B J e I) as (i & II & <-). apply in_map, in_seq. lia. }
  set (at_ := fun i => nth i x 0).
  set (hu := fun d : sdata => let '(i, u, v, s) := d in if s then at_ (i + 1)%nat else at_ i). set (hl := fun d : sdata => let '(i, u, v, s) := d in if s then at_ i else at_ (i + 1)%nat).
  set (V := map hu L ++ map hl L ++ map at_ S0).
  (* every value lands where its column sends it *)
  assert (TV : Forall2 (fun e w => exists i, (i < m)%nat /\ e = mm i /\ w = at_ i) T V).
  { unfold T, V, us, vs. apply Forall2_app; [|apply Forall2_app]; apply Forall2_maps.
    - intros [[[i u] v] s] I. destruct (A9 i u v s I) as (B1 & B2 & B3 & B4). cbn. destruct s; [exists (i + 1)%nat|exists i]; (split; [lia|]; split; [congruence|reflexivity]).
    - intros [[[i u] v] s] I. destruct (A9 i u v s I) as (B1 & B2 & B3 & B4). cbn. destruct s; [exists i|exists (i + 1)%nat]; (split; [lia|]; split; [congruence|reflexivity]).
    - intros i I. specialize (A10 i I). exists i. split; [lia|]. split; reflexivity. }
  destruct (Forall2_at _ T V O 0 TV) as [LTV AT].
  set (Vq := fun q => map (upper k mul t rank p X q) (seq 0 (length L)) ++ map (lower k mul t rank p X q) (seq 0 (length L)) ++ map (fun i => nth i (X q) 0) S0).
  assert (LVq : forall q, length (Vq q) = length T) by (intros q; unfold Vq, T, us, vs; rewrite !app_length, !map_length, seq_length; reflexivity).
  assert (LL : length (lhs p) = length L) by now rewrite A1, map_length.
  assert (SV : shV k n Vq V).
  { assert (D0 : sdata) by exact (O, O, O, false).
    assert (UP : forall q j, (j < length L)%nat -> let '(i, u, v, s) := nth j L D0 in
      upper k mul t rank p X q j = upper_at t rank j (fun q => nth i (X q) 0) (fun q => nth (i + 1) (X q) 0) s q /\
      lower k mul t rank p X q j = rsub k (radd k (nth i (X q) 0) (nth (i + 1) (X q) 0)) (upper_at t rank j (fun q => nth i (X q) 0) (fun q => nth (i + 1) (X q) 0) s q)).
    { intros q j HJ. destruct (nth j L D0) as [[[i u] v] s] eqn:EJ. assert (E1 : nth j (lhs p) O = i) by (rewrite A1, (map_nth_in _ L j D0) by exact HJ; now rewrite EJ).
      assert (E2 : nth j (rhs p) O = (i + 1)%nat) by (rewrite A2, (map_nth_in _ L j D0) by exact HJ; now rewrite EJ).
      assert (E3 : nth j (flags p) false = s) by (rewrite A5, (map_nth_in _ L j D0) by exact HJ; now rewrite EJ).
      unfold lower, upper, upper_at. rewrite E1, E2, E3. split; reflexivity. }
    apply shV_app; [|apply shV_app].
    - apply (shV_map L D0). intros j HJ. assert (U := fun q => UP q j HJ). assert (IN := nth_In L D0 HJ). destruct (nth j L D0) as [[[i u] v] s]. destruct (A9 i u v s IN) as (B1 & B2 & _). apply (shA_ext (upper_at t rank j (fun q => nth i (X q) 0) (fun q => nth (i + 1) (X q) 0) s)); [intros q Q; apply U|]. unfold hu. apply upper_ok; auto; apply HX; lia.
    - apply (shV_map L D0). intros j HJ. assert (U := fun q => UP q j HJ). assert (IN := nth_In L D0 HJ). destruct (nth j L D0) as [[[i u] v] s]. destruct (A9 i u v s IN) as (B1 & B2 & _).
      apply (shA_ext (fun q => rsub k (radd k (nth i (X q) 0) (nth (i + 1) (X q) 0)) (upper_at t rank j (fun q => nth i (X q) 0) (fun q => nth (i + 1) (X q) 0) s q))); [intros q Q; apply U|]. unfold hl. apply (lower_ok t rank j (fun q => nth i (X q) 0) (fun q => nth (i + 1) (X q) 0)); auto; apply HX; lia.
    - split; [intros; now rewrite !map_length|]. intros e E. rewrite map_length in E. rewrite (map_nth_in _ S0 e O) by exact E. apply (shA_ext (fun q => nth (nth e S0 O) (X q) 0)); [intros q Q; now rewrite (map_nth_in _ S0 e O) by exact E|]. apply HX. specialize (A10 _ (nth_In S0 O E)). lia. }
  destruct SV as [_ SV].
  destruct (scatter_ok T V x (eq_sym LTV) ND) as (y & _ & LY & KY & _); [intros e I; now apply BT|].
  assert (Q : forall q, (q < n)%nat -> exists yq, scatter (X q) (map Some T) (Vq q) = Ok yq /\ length yq = m /\ forall j, (j < length T)%nat -> nth_error yq (nth j T O) = nth_error (Vq q) j).
  { intros q I. destruct (scatter_ok T (Vq q) (X q) (LVq q) ND) as (yq & E & LYq & KYq & _); [intros e IE; rewrite LX by exact I; now apply BT|]. exists yq. split; [exact E|]. split; [rewrite LYq; now apply LX|exact KYq]. }
  set (gq := fun q => match scatter (X q) (map Some T) (Vq q) with Ok yq => yq | _ => [] end).
  assert (GQ : forall q, (q < n)%nat -> scatter (X q) (map Some T) (Vq q) = Ok (gq q) /\ length (gq q) = m /\ forall j, (j < length T)%nat -> nth_error (gq q) (nth j T O) = nth_error (Vq q) j).
  { intros q I. destruct (Q q I) as (yq & E & H). unfold gq. rewrite E. split; [reflexivity|exact H]. }
  assert (FIND : forall e, (e < m)%nat -> exists j, (j < length T)%nat /\ nth j T O = e) by (intros e E; apply BT in E; apply In_nth; exact E).
  exists p. unfold layer. rewrite LL. replace (length (rhs p)) with (length L) by now rewrite A2, map_length. rewrite Nat.eqb_refl. cbn [negb].
  edestruct (all_ranks_ok n) with (g := gq) as (Y & EY & YQ); [|exists Y, y; split; [exact EP|]; split; [exact EY|]; split; [|split; [exact LY|]]].
  - intros q I. cbn beta. destruct (GQ q I) as (E & _). rewrite <- E. unfold T, Vq. rewrite !map_app.
    assert (E3 : tops p = map Some us) by (rewrite A3; unfold us; rewrite map_map; apply map_ext; now intros [[[? ?] ?] ?]).
    assert (E4 : bots p = map Some vs) by (rewrite A4; unfold vs; rewrite map_map; apply map_ext; now intros [[[? ?] ?] ?]).
    assert (E7 : ahead p = map Some (map mm S0)) by (rewrite A7, map_map; reflexivity).
    rewrite <- !map_app. rewrite scatter_app by (unfold us; now rewrite !map_length, seq_length). rewrite E3, E4, E7, A6. destruct (scatter (X q) (map Some us) _); cbn [rbind]; [|reflexivity..].
    rewrite scatter_app by (unfold vs; now rewrite !map_length, seq_length). reflexivity.
  - split; [intros q I; rewrite YQ by exact I; rewrite LY; now apply GQ|]. intros e E. rewrite LY in E. destruct (FIND e E) as (j & JT & <-). assert (JV : (j < length V)%nat) by lia.
    rewrite (nth_of_error _ _ (nth j V 0) 0) by (rewrite KY by exact JT; now apply nth_error_nth'). apply (shA_ext (fun q => nth j (Vq q) 0)); [|now apply SV].
    intros q I. rewrite YQ by exact I. apply nth_of_error. destruct (GQ q I) as (_ & _ & H). rewrite H by exact JT. apply nth_error_nth'. now rewrite LVq.
  - intros i I. destruct (FIND (mm i) (B i I)) as (j & JT & EJ). rewrite <- EJ, KY by exact JT. destruct (AT j JT) as (i' & I' & E1 & E2). rewrite EJ in E1. apply J in E1; [|exact I|exact I']. subst i'.
    rewrite (nth_error_nth' V 0) by lia. rewrite E2. unfold at_. symmetry. apply nth_error_nth'. exact I.
Qed.
Open Scope nat_scope.
Lemma secure_inv_perm_ok t rank pv X x : rank < n -> (0 < k)%Z -> 2 <= length x -> is_perm (length x) pv -> shV k n X x ->
  exists Y y, secure_inv_perm k n mul t rank pv X = Ok Y /\ shV k n Y y /\ scattered x pv y.
Proof.
  intros R K1 M H SX. pose proof (perm_length _ _ H) as LP. unfold secure_inv_perm. rewrite LP. rewrite (proj2 (Nat.eqb_neq (length x) 0)) by lia.
  destruct (get_net (length x) pv M H) as (g & r & E1 & E2 & N). rewrite E1, E2. cbn [rbind]. destruct N as (MM & MC & MI & MD & MT). destruct (columns_odd (length x) M) as [kk HK].
  assert (IN : forall i, inside (length x) 0 i <-> i < length x) by (intros; unfold inside; lia).
  set (m := length x) in *. set (W := columns m) in *.
  assert (B : forall c i, c < W -> i < m -> MM c i < m).
  { intros c i C I. apply IN. destruct (Nat.eq_dec c (W - 1)) as [->|]; [|apply MI; [lia|now apply IN]]. destruct (MD i ltac:(now apply IN)) as (j & Hj & ->). exact Hj. }
  assert (T : forall i, i < m -> through MM 0 W i = nth i pv 0) by (intros i I; rewrite <- MT by (now apply IN); f_equal; lia).
  assert (BIJ := columns_bij m MM (fun i => nth i pv 0) ltac:(fold W; lia) B T).
  assert (PI : forall i j, i < m -> j < m -> nth i pv 0 = nth j pv 0 -> i = j).
  { intros i j I J E. destruct (perm_nth m pv i H I) as [EA _]. destruct (perm_nth m pv j H J) as [EB _]. rewrite <- E in EB. exact (perm_inj _ _ _ _ _ H EA EB). }
  specialize (BIJ PI).
  assert (G : forall c, c <= W -> exists Y y, loop (fun c X => rbind (plan_of g r m c) (fun p => layer k n mul (t + c) rank p X)) (seq 0 c) X = Ok Y /\ shV k n Y y /\ length y = m /\ forall i, i < m -> nth_error y (through MM 0 c i) = nth_error x i).
  { induction c as [|c IH]; intros C; [exists X, x; split; [reflexivity|]; split; [exact SX|]; split; [reflexivity|]; reflexivity|].
    destruct (IH ltac:(lia)) as (Y & y & EY & SY & LY & KY). rewrite seq_S, loop_app, EY. cbn [rbind loop plus].
    destruct (layer_ok (t + c) rank g r c (MM c) Y y R K1) as (p & Z & z & EP & EZ & SZ & LZ & KZ); [rewrite LY; apply MC; lia|rewrite LY; intros; apply B; [lia|assumption]|rewrite LY; apply BIJ; lia|exact SY|].
    rewrite LY in EP. rewrite EP. cbn [rbind]. rewrite EZ. cbn [rbind]. exists Z, z. split; [reflexivity|]. split; [exact SZ|]. split; [congruence|]. intros i I. rewrite through_last. cbn [plus].
    assert (BT : forall len c0 x0, c0 + len <= W -> x0 < m -> through MM c0 len x0 < m). { induction len as [|len IHl]; intros c0 x0 HC HX; [exact HX|]. cbn [through]. apply IHl; [lia|]. apply B; [lia|exact HX]. }
    rewrite KZ by (rewrite LY; apply BT; [lia|exact I]). now apply KY. }
  destruct (G W (le_n _)) as (Y & y & EY & SY & LY & KY). exists Y, y. split; [exact EY|]. split; [exact SY|]. split; [exact LY|]. intros i p v EP EV. assert (I : i < m) by (apply nth_error_Some_lt in EP; lia).
  rewrite <- EV, <- KY by exact I. f_equal. rewrite T by exact I. symmetry. now apply nth_of_error.
Qed.
Lemma secure_loop_ok (t : nat -> nat) P rs : (0 < k)%Z -> forall X x, 2 <= length x -> (forall r, In r rs -> r < n /\ is_perm (length x) (P r)) -> shV k n X x ->
  exists Y y, loop (fun i X => secure_inv_perm k n mul (t i) i (P i) X) rs X = Ok Y /\ shV k n Y y /\ scattered_by P rs x y.
Proof.
  intros K1. induction rs as [|q rs IH]; intros X x M H SX; [exists X, x; split; [reflexivity|]; split; [exact SX|constructor]|].
  destruct (H q (or_introl eq_refl)) as [Q1 Q2]. destruct (secure_inv_perm_ok (t q) q (P q) X x Q1 K1 M Q2 SX) as (Y & y & E & SY & SC). cbn [loop]. rewrite E. cbn [rbind]. assert (LY : length y = length x) by apply SC.
  destruct (IH Y y) as (Z & z & EZ & SZ & CZ); [lia|intros r I; rewrite LY; apply H; now right|exact SY|]. exists Z, z. split; [exact EZ|]. split; [exact SZ|]. econstructor; eassumption.
Qed.
End Layer.
