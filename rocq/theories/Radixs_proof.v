(* The radix sort is a stable sort: the loop over bit vectors, and the keys. *)
From Coq Require Import ZifyBool ZifyNat ZifyN.
From Verif Require Import Base Ring_model Ring_spec Party Perm_model Perm_spec Perm_proof Fold Scan_model Scan_proof Radix_model Radix_spec Radix_proof.
Open Scope nat_scope.

Section Nth.
Context {A : Type} (n : nat) (x : list A) (pv : list nat) (y : list A) (d : A).
Hypothesis P : is_perm n pv.
Hypothesis L : length x = n.
Lemma pv_at i : i < n -> nth_error pv i = Some (nth i pv 0).
Proof using P. intros I. apply nth_error_nth'. now rewrite (perm_length _ _ P). Qed.
Lemma pv_lt i : i < n -> nth i pv 0 < n.
Proof using P. intros I. exact (perm_bound _ _ _ _ P (pv_at i I)). Qed.
Lemma gathered_nth : gathered x pv y -> forall i, i < n -> nth i y d = nth (nth i pv 0) x d.
Proof using P L. intros [_ G] i I. apply nth_of_error. eapply G; [now apply pv_at|]. apply nth_error_nth'. rewrite L. now apply pv_lt. Qed.
Lemma scattered_nth : scattered x pv y -> forall i, i < n -> nth (nth i pv 0) y d = nth i x d.
Proof using P L. intros [_ G] i I. apply nth_of_error. eapply G; [now apply pv_at|]. apply nth_error_nth'. now rewrite L. Qed.
End Nth.
Lemma perm_onto n pv j : is_perm n pv -> j < n -> exists i, i < n /\ nth i pv 0 = j.
Proof. intros P J. destruct (perm_surj n pv j P J) as [i [I E]]. exists i. split; [exact I|]. now apply nth_of_error. Qed.

Section Loop.
Variables (ord : nat -> list nat) (junk : Z).
Hypothesis ORD : forall m, Permutation (ord m) (seq 0 m).
Variables (k : Z) (n : nat).
Hypothesis K : (0 < k)%Z.
Hypothesis N : (Z.of_nat n < 2 ^ k)%Z.

Lemma opt_inv_ok xs pn sg : is_perm n pn -> is_perm n sg -> Forall (fun x => length x = n) xs ->
  exists vs m, opt_apply_inv_perm_ss ord junk xs (map Z.of_nat pn) sg = Ok (vs, m) /\ Forall2 (fun x v => scattered x pn v) xs vs /\ is_perm n m /\
    (forall i, i < n -> nth i m 0 = nth (nth i sg 0) pn 0).
Proof using All.
  intros P S F. pose proof (perm_length _ _ P) as LP. pose proof (perm_length _ _ S) as LS. unfold opt_apply_inv_perm_ss.
  destruct (apply_perm_ok ord ORD junk n (map Z.of_nat pn) sg S) as [sp [E [_ G]]]; [now rewrite map_length|]. rewrite E. cbn [rbind].
  set (m := ring2pv sp). assert (Em : m = map (fun i => nth i pn 0) sg).
  { unfold m, ring2pv. apply nth_error_ext_; [rewrite !map_length; destruct G; lia|]. rewrite map_length. destruct G as [Ls G']. rewrite Ls, LS. intros i I.
    rewrite (map_nth_error Z.to_nat i sp (d := Z.of_nat (nth (nth i sg 0) pn 0))).
    - rewrite (map_nth_error _ i sg (d := nth i sg 0)) by (apply (pv_at n sg S); exact I). now rewrite Nat2Z.id.
    - apply (G' i (nth i sg 0)); [apply (pv_at n sg S); exact I|]. apply map_nth_error. apply (pv_at n pn P). now apply (pv_lt n sg S). }
  assert (Pm : is_perm n m) by (rewrite Em; now apply compose_perm).
  assert (Nm : forall i, i < n -> nth i m 0 = nth (nth i sg 0) pn 0).
  { intros i I. rewrite Em. rewrite (nth_indep _ 0 ((fun j => nth j pn 0) 0)) by (rewrite map_length; lia). now rewrite (map_nth (fun j => nth j pn 0)). }
  assert (H : exists sx vs, rmap (fun xi => apply_perm ord junk xi sg) xs = Ok sx /\ rmap (fun s => apply_inv_perm ord junk s m) sx = Ok vs /\ Forall2 (fun x v => scattered x pn v) xs vs).
  { clear E. induction F as [|x xs Lx F IH]; [exists [], []; repeat split; constructor|]. destruct IH as [sx [vs [E1 [E2 E3]]]].
    destruct (apply_perm_ok ord ORD junk n x sg S Lx) as [s [Es [_ Gs]]]. assert (Ls : length s = n) by (destruct Gs; lia).
    destruct (apply_inv_perm_ok ord ORD junk n s m Pm Ls) as [v [Ev [_ Sv]]].
    exists (s :: sx), (v :: vs). cbn [rmap]. rewrite Es, E1. cbn [rbind]. split; [reflexivity|]. rewrite Ev, E2. cbn [rbind]. split; [reflexivity|]. constructor; [|exact E3].
    destruct Sv as [Lv Sv]. split; [lia|]. intros j p w Ej Ew. pose proof (nth_error_Some_lt _ _ _ Ej) as J. rewrite LP in J. destruct (perm_surj n sg j S J) as [i [I Ei]].
    apply (Sv i); [|apply (proj2 Gs i j); assumption]. rewrite Em. rewrite (map_nth_error _ i sg Ei). f_equal. now apply nth_of_error. }
  destruct H as [sx [vs [E1 [E2 E3]]]]. rewrite E1. cbn [rbind]. rewrite E2. cbn [rbind]. exists vs, m. auto.
Qed.
Lemma opt_perm_ok (rk : list Z) pn sg m : length rk = n -> is_perm n pn -> is_perm n sg -> is_perm n m -> (forall i, i < n -> nth i m 0 = nth (nth i sg 0) pn 0) ->
  opt_apply_perm_ss ord junk rk m sg = Ok (tab n (fun j => nth (nth j pn 0) rk 0%Z)).
Proof using All.
  intros L P S Pm Nm. unfold opt_apply_perm_ss. destruct (apply_perm_ok ord ORD junk n rk m Pm L) as [sm [E [_ G]]]. rewrite E. cbn [rbind].
  assert (Ls : length sm = n) by (destruct G; rewrite (perm_length _ _ Pm) in *; lia).
  destruct (apply_inv_perm_ok ord ORD junk n sm sg S Ls) as [r [Er [_ Sr]]]. rewrite Er. f_equal. assert (Lr : length r = n) by (destruct Sr; lia).
  rewrite (tab_eta r 0%Z), Lr. apply tab_ext. intros j J. destruct (perm_onto n sg j S J) as [i [I <-]].
  rewrite (scattered_nth n sm sg r 0%Z S Ls Sr i I). rewrite (gathered_nth n rk m sm 0%Z Pm L G i I). now rewrite Nm.
Qed.

(* order by the bits, most significant first *)
Fixpoint blt (l : list (list Z)) (i j : nat) : Prop := match l with [] => False | b :: r => bitn b i < bitn b j \/ (bitn b i = bitn b j /\ blt r i j) end.
Definition beq (l : list (list Z)) (i j : nat) : Prop := forall b, In b l -> bitn b i = bitn b j.
Definition Inv (l : list (list Z)) (pn : list nat) : Prop :=
  is_perm n pn /\ forall i j, i < n -> j < n -> (nth i pn 0 < nth j pn 0 <-> blt l i j \/ (beq l i j /\ i < j)).
Lemma beq_cons b l i j : beq (b :: l) i j <-> bitn b i = bitn b j /\ beq l i j.
Proof. unfold beq. split; [intros H; split; [apply H; now left|intros c C; apply H; now right]|intros [H1 H2] c [<-|C]; auto]. Qed.

Lemma rank_step (dg : nat -> nat) (pn : list nat) : is_perm n pn -> is_perm n (tab n (fun j => rank n dg (nth j pn 0))) /\
  forall i j, i < n -> j < n -> (rank n dg (nth i pn 0) < rank n dg (nth j pn 0) <-> dg (nth i pn 0) < dg (nth j pn 0) \/ (dg (nth i pn 0) = dg (nth j pn 0) /\ nth i pn 0 < nth j pn 0)).
Proof.
  intros P. split.
  - assert (E : tab n (fun j => rank n dg (nth j pn 0)) = map (fun i => nth i (tab n (rank n dg)) 0) pn).
    { transitivity (map (fun i => nth i (tab n (rank n dg)) 0) (tab n (fun i => nth i pn 0))); [|f_equal; symmetry; rewrite (tab_eta pn 0) at 1; now rewrite (perm_length _ _ P)].
      unfold tab at 1 3. rewrite map_map. apply map_ext_in. intros j J. apply in_seq in J. rewrite tab_nth; [reflexivity|]. apply (pv_lt n pn P). lia. }
    rewrite E. apply compose_perm; [apply rank_perm|exact P].
  - intros i j I J. apply rank_iff; now apply (pv_lt n pn P).
Qed.
Lemma of_nat_tab (f : nat -> nat) : map Z.of_nat (tab n f) = tab n (fun i => Z.of_nat (f i)).
Proof. unfold tab. now rewrite map_map. Qed.
Lemma is_bit_scattered x pn v : is_perm n pn -> length x = n -> is_bit x -> scattered x pn v -> is_bit v /\ length v = n.
Proof.
  intros P L B [Lv S]. split; [|lia]. apply Forall_forall. intros b H. apply (In_nth _ _ 0%Z) in H. destruct H as [p [Hp <-]]. rewrite Lv, L in Hp.
  destruct (perm_onto n pn p P Hp) as [i [I <-]]. rewrite (scattered_nth n x pn v 0%Z P L (conj Lv S) i I). now apply bit_any.
Qed.
Lemma inv_perm_loop_ok (rand : nat -> list nat) : (forall t, is_perm n (rand t)) -> forall fuel bv t pn done, length bv <= fuel -> Forall (fun b => length b = n /\ is_bit b) bv -> Inv done pn ->
  exists pn', inv_perm_loop ord junk k bv rand t (map Z.of_nat pn) = Ok (map Z.of_nat pn') /\ Inv (rev bv ++ done) pn'.
Proof using All.
  intros R. induction fuel as [|fu IH]; intros bv t pn done Lf F [P I]; destruct bv as [|b [|c bv]].
  1: { exists pn. split; [reflexivity|split; assumption]. }
  1-2: cbn in Lf; lia.
  - exists pn. split; [reflexivity|split; assumption].
  - inversion F as [|? ? [Lb Bb] _]; subst. destruct (opt_inv_ok [b] pn (rand t) P (R t)) as [vs [m [E [F2 [Pm Nm]]]]]; [repeat constructor; exact Lb|].
    inversion F2 as [|? v ? vs' Sv F2']; subst. inversion F2'; subst. cbn [inv_perm_loop]. rewrite E. cbn [rbind]. unfold read at 1. cbn [nth_error rbind].
    destruct (is_bit_scattered b pn v P Lb Bb Sv) as [Bv Lv]. rewrite (by_bv1_ok k K n v Lv Bv N). cbn [rbind].
    rewrite (opt_perm_ok _ pn (rand t) m) by (auto; apply tab_length). 
    exists (tab n (fun j => rank n (bitn v) (nth j pn 0))). split; [f_equal; rewrite of_nat_tab; apply tab_ext; intros j J; rewrite tab_nth; [reflexivity|now apply (pv_lt n pn P)]|].
    destruct (rank_step (bitn v) pn P) as [RP RI]. split; [exact RP|]. intros i j Hi Hj. rewrite !tab_nth by assumption. cbn [rev app]. rewrite RI by assumption.
    assert (bitn v (nth i pn 0) = bitn b i) as -> by (unfold bitn; now rewrite (scattered_nth n b pn v 0%Z P Lb Sv)).
    assert (bitn v (nth j pn 0) = bitn b j) as -> by (unfold bitn; now rewrite (scattered_nth n b pn v 0%Z P Lb Sv)).
    rewrite I, beq_cons by assumption. cbn [blt]. tauto.
  - inversion F as [|? ? [Lb Bb] F']; subst. inversion F' as [|? ? [Lc Bc] F'']; subst.
    destruct (opt_inv_ok [b; c] pn (rand t) P (R t)) as [vs [m [E [F2 [Pm Nm]]]]]; [repeat constructor; assumption|].
    inversion F2 as [|? v ? vs' Sv F2']; subst. inversion F2' as [|? w ? vs'' Sw F2'']; subst. inversion F2''; subst. cbn [inv_perm_loop]. rewrite E. cbn [rbind]. unfold read at 1 2. cbn [nth_error rbind].
     destruct (is_bit_scattered b pn v P Lb Bb Sv) as [Bv Lv]. destruct (is_bit_scattered c pn w P Lc Bc Sw) as [Bw Lw].
    rewrite (by_bv2_ok k K n v w Lv Lw Bv Bw N). cbn [rbind]. rewrite (opt_perm_ok _ pn (rand t) m) by (auto; apply tab_length). cbn [rbind].
    set (dg := fun i => bitn v i + 2 * bitn w i).
    assert (Et : tab n (fun j => nth (nth j pn 0) (tab n (fun a => Z.of_nat (rank n dg a))) 0%Z) = map Z.of_nat (tab n (fun j => rank n dg (nth j pn 0)))).
    { rewrite of_nat_tab. apply tab_ext. intros j J. rewrite tab_nth; [reflexivity|now apply (pv_lt n pn P)]. }
    rewrite Et. destruct (IH bv (S t) (tab n (fun j => rank n dg (nth j pn 0))) (c :: b :: done)) as [pn' [E' I']]; [cbn in Lf; lia|exact F''| |].
    + destruct (rank_step dg pn P) as [RP RI]. split; [exact RP|]. intros i j Hi Hj. rewrite !tab_nth by assumption. rewrite RI by assumption. unfold dg.
      assert (bitn v (nth i pn 0) = bitn b i) as -> by (unfold bitn; now rewrite (scattered_nth n b pn v 0%Z P Lb Sv)).
      assert (bitn v (nth j pn 0) = bitn b j) as -> by (unfold bitn; now rewrite (scattered_nth n b pn v 0%Z P Lb Sv)).
      assert (bitn w (nth i pn 0) = bitn c i) as -> by (unfold bitn; now rewrite (scattered_nth n c pn w 0%Z P Lc Sw)).
      assert (bitn w (nth j pn 0) = bitn c j) as -> by (unfold bitn; now rewrite (scattered_nth n c pn w 0%Z P Lc Sw)).
      rewrite I, !beq_cons by assumption. cbn [blt].
      assert (bitn b i < 2 /\ bitn b j < 2 /\ bitn c i < 2 /\ bitn c j < 2) as B4.
      { destruct (bit_cases b i Bb) as [[_ ->]|[_ ->]], (bit_cases b j Bb) as [[_ ->]|[_ ->]], (bit_cases c i Bc) as [[_ ->]|[_ ->]], (bit_cases c j Bc) as [[_ ->]|[_ ->]]; lia. }
      generalize dependent (bitn b i). generalize dependent (bitn b j). generalize dependent (bitn c i). generalize dependent (bitn c j). intros c2 c1 b2 b1 B4.
      assert (b1 + 2 * c1 < b2 + 2 * c2 <-> c1 < c2 \/ (c1 = c2 /\ b1 < b2)) as -> by lia. assert (b1 + 2 * c1 = b2 + 2 * c2 <-> c1 = c2 /\ b1 = b2) as -> by lia. tauto.
    + exists pn'. split; [exact E'|]. cbn [rev]. rewrite <- !app_assoc. exact I'.
Qed.
Lemma blt_app a b i j : blt (a ++ b) i j <-> blt a i j \/ (beq a i j /\ blt b i j).
Proof.
  induction a as [|x a IH]; cbn [app blt].
  - split; [intros H; right; split; [intros c []|exact H]|intros [[]|[_ H]]; exact H].
  - rewrite IH, beq_cons. tauto.
Qed.
Lemma beq_app a b i j : beq (a ++ b) i j <-> beq a i j /\ beq b i j.
Proof. unfold beq. split; [intros H; split; intros c C; apply H; apply in_or_app; auto|intros [H1 H2] c C; apply in_app_or in C; destruct C; auto]. Qed.
End Loop.
