(* SelectAndScatter selects a best position of every window and scatters the sources to the selected cells. *)
From Coq Require Import ZifyNat ZifyBool Permutation.
From Verif Require Import Base Ring_model Perm_model Scan_model Scan_proof Fold Dyn_spec Dynw_proof Mm_model Mm_spec Mm_proof Mmt_proof Redn_model Redn_spec Redn_proof Rednw_proof Sas_model Sas_spec.
Open Scope nat_scope.

(* ---- tree reduction with any function ---- *)
Section Tree.
Context {A : Type}.
Variable f : A -> A -> A.
Variable R : A -> list A -> Prop.
Hypothesis R1 : forall x, R x [x].
Hypothesis R2 : forall x y a b, R x a -> R y b -> R (f x y) (a ++ b).
Hypothesis R3 : forall x a b, Permutation a b -> R x a -> R x b.
Lemma zip_rel : forall a la, Forall2 R a la -> forall b lb, Forall2 R b lb -> length a = length b ->
  exists m, Forall2 R (zipWith f a b) m /\ Permutation (concat m) (concat la ++ concat lb).
Proof using R1 R2 R3.
  intros a la H. induction H as [|x u a la X H IH]; intros b lb K L; inversion K as [|y v b' lb' Y K']; subst; cbn in L; try lia; [exists []; split; constructor|].
  destruct (IH b' lb' K' ltac:(lia)) as (m & F & P). exists ((u ++ v) :: m). cbn. split; [constructor; [now apply R2|exact F]|].
  rewrite P. rewrite <- !app_assoc. apply Permutation_app_head. rewrite !app_assoc. apply Permutation_app_tail. apply Permutation_app_comm.
Qed.
Lemma tree_down_rel : forall fuel l Ls tails Ts, l <> [] -> length l <= fuel -> Forall2 R l Ls -> Forall2 (fun t T => exists x, t = [x] /\ R x T) tails Ts ->
  exists v L tails' Ts', tree_down f fuel l tails = Ok ([v], tails') /\ R v L /\ Forall2 (fun t T => exists x, t = [x] /\ R x T) tails' Ts' /\ Permutation (L ++ concat Ts') (concat Ls ++ concat Ts).
Proof using R1 R2 R3.
  induction fuel as [|fu IH]; intros l Ls tails Ts NE L F T; [destruct l; [easy|cbn in L; lia]|]. cbn [tree_down].
  destruct (Nat.ltb_spec 1 (length l)) as [G|G].
  - set (h := length l / 2). assert (Hh : 2 * h <= length l <= 2 * h + 1) by (unfold h; lia). assert (0 < h) by lia.
    rewrite slice1_firstn, slice1_mid by lia. cbn [rbind]. replace (2 * h - h) with h by lia.
    pose proof (cut3 l h (2 * h) ltac:(lia)) as C. replace (2 * h - h) with h in C by lia.
    set (a := firstn h l) in *. set (b := firstn h (skipn h l)) in *. set (t := skipn (2 * h) l) in *.
    assert (La : length a = h) by (unfold a; rewrite firstn_length; lia). assert (Lb : length b = h) by (unfold b; rewrite firstn_length, skipn_length; lia).
    rewrite C in F. apply Forall2_app_inv_l in F. destruct F as (Fa & Fr & F1 & F2 & ->). apply Forall2_app_inv_l in F2. destruct F2 as (Fb & Ft & F2 & F3 & ->).
    destruct (zip_rel a Fa F1 b Fb F2 ltac:(lia)) as (m & FM & PM). unfold vec2. rewrite La, Lb, Nat.eqb_refl. cbn [rbind].
    assert (LZ : length (zipWith f a b) = h) by (rewrite zip_len; [exact La|congruence]). assert (NZ : zipWith f a b <> []) by (intros ZZ; rewrite ZZ in LZ; change (0 = h) in LZ; lia).
    destruct (Nat.odd (length l)) eqn:O.
    + rewrite slice1_mid by lia. cbn [rbind]. assert (Ht : firstn (length l - 2 * h) (skipn (2 * h) l) = t) by (unfold t; apply firstn_all2; rewrite skipn_length; lia). rewrite Ht.
      assert (Lt : length t = 1). { unfold t. rewrite skipn_length. apply Nat.odd_spec in O. destruct O as [q O]. lia. }
      clear C Ht. clearbody a b t. destruct t as [|x [|]]; cbn in Lt; try lia. inversion F3 as [|? Lx ? Fn X F4]; subst. inversion F4; subst.
      destruct (IH (zipWith f a b) m ([x] :: tails) (Lx :: Ts)) as (v & L' & tails' & Ts' & E & RV & TT & PP); auto; [lia|constructor; [exists x; split; [reflexivity|exact X]|exact T]|].
      exists v, L', tails', Ts'. split; [exact E|]. split; [exact RV|]. split; [exact TT|]. rewrite PP. cbn [concat]. rewrite PM, !concat_app. cbn [concat]. rewrite app_nil_r, <- !app_assoc. reflexivity.
    + cbn [rbind]. assert (length l = 2 * h). { rewrite <- Nat.negb_even in O. apply negb_false_iff, Nat.even_spec in O. destruct O as [q O]. lia. }
      assert (t = []) as T0 by (unfold t; apply skipn_all2; lia). rewrite T0 in F3. clear C T0. clearbody a b t. inversion F3; subst.
      destruct (IH (zipWith f a b) m tails Ts) as (v & L' & tails' & Ts' & E & RV & TT & PP); auto; [lia|].
      exists v, L', tails', Ts'. split; [exact E|]. split; [exact RV|]. split; [exact TT|]. rewrite PP, PM, !concat_app. cbn [concat]. rewrite app_nil_r. reflexivity.
  - destruct l as [|v [|]]; cbn in G; try lia; [easy|]. inversion F as [|? L0 ? F0 X F']; subst. inversion F'; subst. exists v, L0, tails, Ts. split; [reflexivity|]. split; [exact X|]. split; [exact T|]. cbn. now rewrite app_nil_r.
Qed.
Lemma tree_up_rel : forall tails Ts, Forall2 (fun t T => exists x, t = [x] /\ R x T) tails Ts -> forall v L, R v L -> exists w, tree_up f [v] tails = Ok [w] /\ R w (L ++ concat Ts).
Proof using R1 R2 R3.
  intros tails Ts H. induction H as [|t T tails Ts (x & -> & X) H IH]; intros v L V; cbn [tree_up concat]; [exists v; rewrite app_nil_r; split; [reflexivity|exact V]|].
  unfold vec2. cbn [length Nat.eqb zipWith rbind]. destruct (IH (f v x) (L ++ T)) as (w & E & W); [now apply R2|]. exists w. split; [exact E|]. now rewrite app_assoc.
Qed.
Lemma tree_reduce_rel l : l <> [] -> exists v, tree_reduce f l = Ok [v] /\ R v l.
Proof using R1 R2 R3.
  intros NE. unfold tree_reduce. destruct (tree_down_rel (S (length l)) l (map (fun x => [x]) l) [] []) as (v & L & tails & Ts & E & RV & TT & P); auto.
  { clear NE. induction l; cbn; constructor; auto. }
  rewrite E. cbn [rbind]. destruct (tree_up_rel tails Ts TT v L RV) as (w & EW & RW). exists w. split; [exact EW|]. apply (R3 w (L ++ concat Ts)); [|exact RW].
  rewrite P. cbn [concat]. rewrite app_nil_r. clear. induction l as [|x l IH]; cbn; [constructor|]. now constructor.
Qed.
End Tree.

(* ---- sums ---- *)
Section Sum.
Context {A : Type}.
Variables (f : A -> A -> A) (e : A).
Hypothesis assoc : forall a b c, f a (f b c) = f (f a b) c.
Hypothesis comm : forall a b, f a b = f b a.
Hypothesis unit : forall a, f e a = a.
Lemma total_app a b : total f e (a ++ b) = f (total f e a) (total f e b).
Proof using assoc comm unit. unfold total. induction a as [|x a IH]; cbn; [now rewrite unit|]. now rewrite IH, assoc. Qed.
Lemma total_fold1 l v : fold1 f l = Some v -> total f e l = v.
Proof using assoc comm unit. 
  destruct l as [|x l]; [discriminate|]. intros E. injection E as <-. unfold total. revert x. induction l as [|y l IH]; intros x; cbn; [now rewrite comm|]. rewrite <- IH. cbn. apply assoc.
Qed.
Lemma total_map2 {X} (g h : X -> A) l : total f e (map (fun x => f (g x) (h x)) l) = f (total f e (map g l)) (total f e (map h l)).
Proof using assoc comm unit. 
  unfold total. induction l as [|x l IH]; cbn; [now rewrite unit|]. rewrite IH, <- !assoc. f_equal. rewrite !assoc. f_equal. apply comm.
Qed.
Lemma total_const {X} (l : list X) : total f e (map (fun _ => e) l) = e.
Proof using assoc comm unit. unfold total. induction l as [|x l IH]; cbn; [reflexivity|]. now rewrite IH. Qed.
Lemma total_swap {X Y} (h : X -> Y -> A) lx ly : total f e (map (fun x => total f e (map (h x) ly)) lx) = total f e (map (fun y => total f e (map (fun x => h x y) lx)) ly).
Proof using assoc comm unit. 
  induction lx as [|x lx IH]; cbn; [symmetry; apply total_const|]. unfold total at 1. cbn. fold (total f e (map (fun x => total f e (map (h x) ly)) lx)). rewrite IH.
  change (fun y => fold_right f e (h x y :: map (fun x0 => h x0 y) lx)) with (fun y => f (h x y) (total f e (map (fun x0 => h x0 y) lx))). symmetry. apply total_map2.
Qed.
Lemma total_prod {X Y} (h : X * Y -> A) lx ly : total f e (map h (list_prod lx ly)) = total f e (map (fun x => total f e (map (fun y => h (x, y)) ly)) lx).
Proof using assoc comm unit. induction lx as [|x lx IH]; [reflexivity|]. cbn [list_prod map]. rewrite map_app, total_app, IH, map_map. reflexivity. Qed.
Lemma total_filter {X} (g : X -> A) (p : X -> bool) l : total f e (map g (filter p l)) = total f e (map (fun x => if p x then g x else e) l).
Proof using assoc comm unit. unfold total. induction l as [|x l IH]; [reflexivity|]. cbn. destruct (p x); cbn; now rewrite IH, ?unit. Qed.
Lemma total_zero {X} (h : X -> A) l : (forall x, In x l -> h x = e) -> total f e (map h l) = e.
Proof using assoc comm unit. intros H. transitivity (total f e (map (fun _ => e) l)); [|apply total_const]. f_equal. apply map_ext_in. exact H. Qed.
Lemma total_one {X} (h : X -> A) l x0 : NoDup l -> In x0 l -> (forall x, In x l -> x <> x0 -> h x = e) -> total f e (map h l) = h x0.
Proof using assoc comm unit. 
  intros N I H. apply in_split in I. destruct I as (a & b & ->). apply NoDup_remove_2 in N. rewrite map_app, total_app. cbn [map]. unfold total at 2. cbn [fold_right]. fold (total f e (map h b)).
  rewrite !total_zero.
  - now rewrite unit, comm, unit.
  - intros x I. apply H; [apply in_or_app; right; now right|]. intros ->. apply N, in_or_app. now right.
  - intros x I. apply H; [apply in_or_app; now left|]. intros ->. apply N, in_or_app. now left.
Qed.
End Sum.

(* ---- cells ---- *)
Lemma same_true a b : same a b = true <-> a = b.
Proof. unfold same. destruct (list_eq_dec Nat.eq_dec a b); split; congruence. Qed.
Lemma cell_len S n w : length n = length S -> length w = length S -> length (cell S n w) = length S.
Proof. intros A B. unfold cell. rewrite zip_len; rewrite zip_len; lia. Qed.
Lemma cell_nth S n w a : length n = length S -> length w = length S -> a < length S -> nth a (cell S n w) 0 = nth a n 0 * nth a S 0 + nth a w 0.
Proof. intros A B C. unfold cell. rewrite zip_nth by (try rewrite zip_len; lia). rewrite zip_nth by lia. reflexivity. Qed.
Lemma cell_inj S n m w : (forall a, a < length S -> 0 < nth a S 0) -> length n = length S -> length m = length S -> length w = length S -> cell S n w = cell S m w -> n = m.
Proof.
  intros P Ln Lm Lw E. apply (nth_ext _ _ 0 0); [lia|]. intros a Ha. pose proof (f_equal (fun l => nth a l 0) E) as Q. cbv beta in Q. rewrite !cell_nth in Q by lia. pose proof (P a ltac:(lia)). nia.
Qed.
Lemma cell_pad S n w : length n = length S -> length w = length S -> zipWith Nat.add w (zipWith Nat.mul n S) = cell S n w.
Proof.
  intros A B. apply (nth_ext _ _ 0 0); [rewrite cell_len, zip_len by (try rewrite zip_len; lia); lia|]. intros a Ha. rewrite zip_len in Ha by (rewrite zip_len; lia).
  rewrite cell_nth by lia. rewrite zip_nth by (try rewrite zip_len; lia). rewrite zip_nth by lia. lia.
Qed.
