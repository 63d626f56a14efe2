(* The sort of keys of any visibility. *)
From Coq Require Import ZifyBool ZifyNat ZifyN.
From Verif Require Import Base Ring_model Ring_spec Party Perm_model Perm_spec Perm_proof Fold Scan_model Scan_proof Radix_model Radix_spec Radix_proof Radixs_proof Radixk_proof Pv_model Pv_spec Pv_proof Pvg_proof Pvm_proof.
Open Scope nat_scope.

(* visibility of a result *)
Definition vjoin (a b : vis) : vis :=
  match a, b with Pub, v => v | v, Pub => v | Priv o, Priv o' => if o =? o' then Priv o else Sec | _, _ => Sec end.
Lemma vjoin_absorb a b : vjoin (vjoin a b) b = vjoin a b.
Proof. destruct a as [|o|], b as [|o'|]; cbn; rewrite ?Nat.eqb_refl; auto. destruct (Nat.eqb_spec o o') as [->|]; cbn; now rewrite ?Nat.eqb_refl. Qed.
Lemma ring2pv_of_nat pn : ring2pv (map Z.of_nat pn) = pn.
Proof. unfold ring2pv. rewrite map_map. rewrite <- (map_id pn) at 2. apply map_ext. intros. apply Nat2Z.id. Qed.
Lemma gather_words x pv y n : is_perm n pv -> length x = n -> gathered x pv y -> forall P : Z -> Prop, Forall P x -> Forall P y.
Proof.
  intros Pp L G P F. apply Forall_forall. intros v V. apply (In_nth _ _ 0%Z) in V. destruct V as [i [I <-]]. assert (Ly : length y = n) by (destruct G as [G _]; rewrite G; now apply perm_length).
  rewrite (gathered_nth n x pv y 0%Z Pp L G i) by lia. rewrite Forall_forall in F. apply F, nth_In. rewrite L. apply (pv_lt n pv Pp). lia.
Qed.
Lemma scatter_words x pv y n : is_perm n pv -> length x = n -> scattered x pv y -> forall P : Z -> Prop, Forall P x -> Forall P y.
Proof.
  intros Pp L G P F. apply Forall_forall. intros v V. apply (In_nth _ _ 0%Z) in V. destruct V as [p [I <-]]. assert (Ly : length y = n) by (destruct G; lia).
  destruct (perm_onto n pv p Pp ltac:(lia)) as [i [Hi <-]]. rewrite (scattered_nth n x pv y 0%Z Pp L G i) by lia. rewrite Forall_forall in F. apply F, nth_In. lia.
Qed.

Section Any.
Variables (ord : nat -> list nat) (junk : Z).
Hypothesis ORD : forall m, Permutation (ord m) (seq 0 m).
Variables (k : Z) (n : nat) (has_av : bool).
Hypothesis K : (0 < k)%Z.
Hypothesis N0 : 0 < n.
Hypothesis N1 : (Z.of_nat n < 2 ^ (k - 1))%Z.
Notation wordsof x := (kwords (pkey x)).
Lemma Nk : (Z.of_nat n < 2 ^ k)%Z.
Proof using All. assert (2 ^ (k - 1) <= 2 ^ k)%Z by (apply Z.pow_le_mono_r; lia). lia. Qed.
Lemma seq_ord m : Permutation (seq 0 m) (seq 0 m). Proof using. reflexivity. Qed.

(* ---- permuting ---- *)
Lemma inv_ss_ok x pn sh : length x = n -> is_perm n pn -> is_perm n sh -> exists w, apply_inv_perm_ss ord junk [x] (map Z.of_nat pn) sh = Ok [w] /\ scattered x pn w.
Proof using All.
  intros L P S. unfold apply_inv_perm_ss. destruct (opt_inv_ok ord junk ORD k n K Nk [x] pn sh P S ltac:(repeat constructor; exact L)) as [vs [m [E [F _]]]]. rewrite E. cbn [rbind].
  inversion F as [|? w ? ws Fw F']; subst. inversion F'; subst. exists w. auto.
Qed.
Lemma inv_sv_ok x pn sh : length x = n -> is_perm n pn -> is_perm n sh -> exists w, apply_inv_perm_sv ord junk has_av x (map Z.of_nat pn) sh = Ok w /\ scattered x pn w.
Proof using All.
  intros L P S. unfold apply_inv_perm_sv. destruct has_av.
  - rewrite ring2pv_of_nat. destruct (apply_inv_perm_ok ord ORD junk n x pn P L) as [y [E [_ G]]]. rewrite E. eauto.
  - destruct (inv_ss_ok x pn sh L P S) as [w [E G]]. rewrite E. cbn. eauto.
Qed.
Lemma apply_inv_perm1_ok x perm pn sh : length (wordsof x) = n -> wordsof perm = map Z.of_nat pn -> is_perm n pn -> is_perm n sh ->
  exists w, apply_inv_perm1 ord junk k has_av x perm sh = Ok (like k x (vjoin (pvis x) (pvis perm)) w) /\ scattered (wordsof x) pn w.
Proof using All.
  intros L E P S. unfold apply_inv_perm1. rewrite E.
  assert (LOC : exists w, inv_perm_pp junk (wordsof x) (map Z.of_nat pn) = Ok w /\ scattered (wordsof x) pn w).
  { unfold inv_perm_pp. rewrite ring2pv_of_nat. destruct (apply_inv_perm_ok (seq 0) seq_ord junk n (wordsof x) pn P L) as [y [E1 [_ G]]]. rewrite E1. eauto. }
  destruct LOC as [wl [-> GL]]. destruct (inv_ss_ok (wordsof x) pn sh L P S) as [ws [-> GS]]. destruct (inv_sv_ok (wordsof x) pn sh L P S) as [wv [-> GV]].
  destruct (apply_inv_perm_ok ord ORD junk n (wordsof x) pn P L) as [wp [EP [_ GP]]]. rewrite ring2pv_of_nat, EP. cbn [rbind read nth_error].
  destruct (pvis x) as [|o|], (pvis perm) as [|o'|]; cbn [vjoin]; try destruct (o =? o'); eauto.
Qed.
Lemma inverse_words_ok pn : is_perm n pn -> exists q, inverse_words junk k (map Z.of_nat pn) = Ok (map Z.of_nat q) /\ inverse_of n pn q.
Proof using All.
  intros P. unfold inverse_words, inv_perm_pp. rewrite ring2pv_of_nat, map_length, (perm_length _ _ P).
  assert (Q : map (fun i => wrap k (Z.of_nat i)) (seq 0 n) = map Z.of_nat (seq 0 n)) by (apply map_ext_in; intros i I; apply in_seq in I; pose proof Nk; apply wrap_small; lia). rewrite Q.
  destruct (apply_inv_perm_ok (seq 0) seq_ord junk n (map Z.of_nat (seq 0 n)) pn P ltac:(now rewrite map_length, seq_length)) as [y [E [_ G]]]. rewrite E.
  assert (F : Forall (fun v => 0 <= v)%Z y) by (apply (scatter_words _ pn y n P ltac:(now rewrite map_length, seq_length) G); apply Forall_forall; intros v V; apply in_map_iff in V; destruct V as [i [<- _]]; lia).
  exists (map Z.to_nat y). split; [f_equal; now apply map_of_nat_inv|]. apply scattered_seq_inverse; [exact P|]. destruct G as [G1 G2]. rewrite map_length, seq_length in G1. split; [now rewrite map_length, seq_length|].
  intros i p v A B. rewrite nth_error_map. rewrite (G2 i p (Z.of_nat v) A); [cbn; f_equal; lia|]. rewrite nth_error_map, B. reflexivity.
Qed.
Lemma apply_perm1_ok x perm pn sh : length (wordsof x) = n -> wordsof perm = map Z.of_nat pn -> is_perm n pn -> is_perm n sh ->
  exists w, apply_perm1 ord junk k has_av x perm sh = Ok (like k x (vjoin (pvis x) (pvis perm)) w) /\ gathered (wordsof x) pn w.
Proof using All.
  intros L E P S. unfold apply_perm1. rewrite E.
  assert (LOC : exists w, perm_pp junk (wordsof x) (map Z.of_nat pn) = Ok w /\ gathered (wordsof x) pn w).
  { unfold perm_pp. rewrite ring2pv_of_nat. destruct (apply_perm_ok (seq 0) seq_ord junk n (wordsof x) pn P L) as [y [E1 [_ G]]]. rewrite E1. eauto. }
  assert (SS : exists w, apply_perm_ss ord junk (wordsof x) (map Z.of_nat pn) sh = Ok w /\ gathered (wordsof x) pn w).
  { unfold apply_perm_ss. destruct (apply_perm_ok ord ORD junk n (map Z.of_nat pn) sh S ltac:(rewrite map_length; now apply perm_length)) as [sp [E1 [_ G]]]. rewrite E1. cbn [rbind].
    assert (Lp : length (map Z.of_nat pn) = n) by (rewrite map_length; now apply perm_length).
    assert (Lsp : length sp = n) by (destruct G as [G _]; rewrite G; now apply perm_length).
    assert (M : forall i, i < n -> nth i (ring2pv sp) 0 = nth (nth i sh 0) pn 0).
    { intros i I. unfold ring2pv. change 0 with (Z.to_nat 0) at 1. rewrite map_nth. rewrite (gathered_nth n (map Z.of_nat pn) sh sp 0%Z S Lp G i I).
      change 0%Z with (Z.of_nat 0). rewrite map_nth. apply Nat2Z.id. }
    assert (Pm : is_perm n (ring2pv sp)).
    { assert (E2 : ring2pv sp = map (fun i => nth i pn 0) sh).
      { rewrite (tab_eta (ring2pv sp) 0). unfold ring2pv at 1. rewrite map_length, Lsp. transitivity (map (fun i => nth i pn 0) (tab n (fun i => nth i sh 0))).
        - unfold tab. rewrite map_map. apply tab_ext. exact M.
        - f_equal. rewrite <- (perm_length _ _ S). symmetry. apply tab_eta. }
      rewrite E2. now apply Perm_proof.compose_perm. }
    rewrite (opt_perm_ok ord junk ORD k n K Nk (wordsof x) pn sh (ring2pv sp) L P S Pm M). eexists. split; [reflexivity|].
    split; [rewrite tab_length; symmetry; now apply perm_length|]. intros i p v A B. pose proof (nth_error_Some_lt _ _ _ A) as I. rewrite (perm_length _ _ P) in I.
    rewrite (nth_error_nth' _ 0%Z) by (now rewrite tab_length). f_equal. rewrite tab_nth by exact I. rewrite (nth_of_error _ _ _ 0 A). now apply nth_of_error. }
  assert (SV : exists w, rbind (inverse_words junk k (map Z.of_nat pn)) (fun inv => rbind (apply_inv_perm_sv ord junk has_av (wordsof x) inv sh) (fun w => Ok (like k x Sec w))) = Ok (like k x Sec w) /\ gathered (wordsof x) pn w).
  { destruct (inverse_words_ok pn P) as [q [-> IQ]]. cbn [rbind]. destruct (inv_sv_ok (wordsof x) q sh L (proj1 IQ) S) as [w [-> G]]. exists w. split; [reflexivity|].
    apply (scattered_inverse n (wordsof x) q pn w (proj1 IQ)); [now apply inverse_sym|exact L|exact G]. }
  destruct LOC as [wl [-> GL]]. destruct SS as [ws [-> GS]]. destruct SV as [wv [-> GV]].
  destruct (apply_perm_ok ord ORD junk n (wordsof x) pn P L) as [wp [EP [_ GP]]]. rewrite ring2pv_of_nat, EP. cbn [rbind].
  destruct (pvis x) as [|o|], (pvis perm) as [|o'|]; cbn [vjoin]; try destruct (o =? o'); eauto.
Qed.

(* ---- one key ---- *)
Definition nb (vb : option nat) : nat := match vb with Some v => v | None => Z.to_nat k end.
(* a key that the loop can handle, whether or not it has become secret by then *)
Definition kok (vb : option nat) (x : pval) : Prop :=
  Forall (word k) (wordsof x) /\ length (wordsof x) = n /\ (pvis x = Sec \/ forall i, i < n -> key_value k (pkey x) i = sval k (wordsof x) i) /\
  0 < nb vb /\ (Z.of_nat (nb vb) <= k)%Z /\ key_fits k (nb vb) (pkey x).
Definition kok_last (vb : option nat) (x : pval) : Prop :=
  Forall (word k) (wordsof x) /\ length (wordsof x) = n /\
  match pvis x with Sec => key_ok k n vb (pkey x) | _ => forall i, i < n -> key_value k (pkey x) i = sval k (wordsof x) i end.
Definition pv_words (p : pval) (pn : list nat) : Prop := wordsof p = map Z.of_nat pn.
Lemma gen1_ok x asc vb rand : kok_last vb x -> (forall t, is_perm n (rand t)) ->
  exists p pn, gen_inv_perm1 ord junk k x asc vb rand = Ok p /\ pvis p = pvis x /\ pv_words p pn /\ places n (negb asc) [key_value k (pkey x)] pn.
Proof using All.
  intros [W [L H]] R. unfold gen_inv_perm1.
  assert (LOC : (forall i, i < n -> key_value k (pkey x) i = sval k (wordsof x) i) -> exists pn, gen_inv_perm_p junk k (wordsof x) asc = Ok (map Z.of_nat pn) /\ places n (negb asc) [key_value k (pkey x)] pn).
  { intros V. destruct (gen_inv_perm_p_ok junk k n K Nk (wordsof x) asc L) as [pn [E P]]. exists pn. split; [exact E|]. eapply places_ext; [|exact P]. constructor; [|constructor]. intros i I. symmetry. now apply V. }
  destruct (pvis x) as [|o|].
  - destruct (LOC H) as [pn [-> P]]. cbn [rbind]. eexists _, pn. split; [reflexivity|]. split; [reflexivity|]. split; [reflexivity|exact P].
  - destruct (LOC H) as [pn [-> P]]. cbn [rbind]. eexists _, pn. split; [reflexivity|]. split; [reflexivity|]. split; [reflexivity|exact P].
  - destruct (gen_inv_perm_ok ord junk ORD k n K Nk [pkey x] (negb asc) vb rand ltac:(easy) ltac:(repeat constructor; apply H) R) as [pn [-> [P Q]]]. cbn [rbind]. eexists _, pn. split; [reflexivity|]. split; [reflexivity|]. split; [reflexivity|]. split; [exact P|exact Q].
Qed.
(* the same key, permuted *)
Lemma scattered_value x pn v w : is_perm n pn -> length (wordsof x) = n -> scattered (wordsof x) pn w -> forall i, i < n -> key_value k (pkey (like k x v w)) (nth i pn 0) = key_value k (pkey x) i.
Proof using All. intros P L G i I. unfold key_value, like. cbn [pkey kwords kuns]. unfold nthZ. rewrite (scattered_nth n _ pn w 0%Z P L G i I). reflexivity. Qed.
Lemma kok_hat vb x pn v w : kok vb x -> is_perm n pn -> scattered (wordsof x) pn w -> (v = Sec \/ pvis x <> Sec) -> kok_last vb (like k x v w).
Proof using All.
  intros [W [L [V [B1 [B2 F]]]]] P G HV. assert (Lw : length w = n) by (destruct G; lia). assert (Ww : Forall (word k) w) by (now apply (scatter_words (wordsof x) pn w n P L G)).
  pose proof (scattered_value x pn v w P L G) as SV.
  assert (FF : key_fits k (nb vb) (pkey (like k x v w))).
  { intros p Hp. cbn [like pkey kwords] in Hp. rewrite Lw in Hp. destruct (perm_onto n pn p P Hp) as [i [I <-]]. rewrite SV by exact I. cbn [like pkey kuns]. apply F. now rewrite L. }
  split; [exact Ww|]. split; [exact Lw|]. cbn [like pvis]. destruct v as [|o|].
  1, 2: destruct HV as [HV|HV]; [discriminate|]; destruct V as [V|V]; [contradiction|]; intros p Hp; destruct (perm_onto n pn p P Hp) as [i [I <-]]; unfold like in SV; rewrite SV by exact I; rewrite V by exact I;
    unfold sval; cbn [like pkey kwords]; unfold nthZ; now rewrite (scattered_nth n _ pn w 0%Z P L G i I).
  cbn [like pkey]. unfold key_ok, nbits_of. cbn [kwords kbits]. split; [exact Ww|]. fold (nb vb). repeat split; auto.
Qed.
Lemma vjoin_vis a b : vjoin a b = Sec \/ a <> Sec.
Proof using. destruct a as [|o|], b as [|o'|]; cbn; auto; right; discriminate. Qed.

(* ---- the loop over the keys ---- *)
Definition good_rnds (R : rnds) : Prop := (forall t u, is_perm n (r_gen R t u)) /\ (forall t, is_perm n (r_key R t)) /\ (forall t, is_perm n (r_comp R t)).
Lemma perm_loop_ok asc bits R : good_rnds R -> forall below t inv pn vs, Forall (fun x => kok (bits x) x) below -> pv_words inv pn -> places n (negb asc) vs pn ->
  exists p pn', perm_loop ord junk k has_av below asc bits R t inv = Ok p /\ pvis p = fold_left (fun acc x => vjoin (pvis x) acc) below (pvis inv) /\ pv_words p pn' /\
    places n (negb asc) (rev (map (fun x => key_value k (pkey x)) below) ++ vs) pn'.
Proof using All.
  intros [RG [RK RC]]. induction below as [|cur below IH]; intros t inv pn vs F PW PL.
  { exists inv, pn. split; [reflexivity|]. split; [reflexivity|]. split; [exact PW|exact PL]. }
  cbn [perm_loop]. inversion F as [|? ? Fc F']; subst. destruct Fc as [W [L Rest]] eqn:EF. clear EF. pose proof (Forall_inv F) as Kc.
  destruct (apply_inv_perm1_ok cur inv pn (r_key R t) L PW (proj1 PL) (RK t)) as [w [-> G]]. cbn [rbind].
  pose proof (kok_hat (bits cur) cur pn (vjoin (pvis cur) (pvis inv)) w Kc (proj1 PL) G (vjoin_vis _ _)) as KL.
  destruct (gen1_ok (like k cur (vjoin (pvis cur) (pvis inv)) w) asc (bits cur) (r_gen R t) KL (RG t)) as [cp [pc [-> [Vc [Wc Pc]]]]]. cbn [rbind]. unfold compose_perm.
  destruct (apply_perm1_ok cp inv pn (r_comp R t)) as [w2 [-> G2]]; [rewrite Wc, map_length; apply perm_length, Pc|exact PW|apply PL|apply RC|]. cbn [rbind].
  assert (Lc : length (wordsof cp) = n) by (rewrite Wc, map_length; apply perm_length, Pc).
  assert (W2 : w2 = map Z.of_nat (tab n (fun i => nth (nth i pn 0) pc 0))).
  { assert (L2 : length w2 = n) by (destruct G2 as [G2 _]; rewrite G2; apply perm_length, PL). rewrite of_nat_tab. rewrite (tab_eta w2 0%Z), L2. apply tab_ext. intros i I.
    rewrite (gathered_nth n (wordsof cp) pn w2 0%Z (proj1 PL) Lc G2 i I). rewrite Wc. change 0%Z with (Z.of_nat 0). apply map_nth. }
  destruct (IH (Datatypes.S t) (like k cp (vjoin (pvis cp) (pvis inv)) w2) (tab n (fun i => nth (nth i pn 0) pc 0)) (key_value k (pkey cur) :: vs)) as [p [pn' [E [V [PW' PL']]]]].
  - exact F'.
  - exact W2.
  - apply (places_compose n (negb asc) vs (key_value k (pkey cur)) pn (key_value k (pkey (like k cur (vjoin (pvis cur) (pvis inv)) w))) pc PL); [|exact Pc]. apply scattered_value; [apply PL|exact L|exact G].
  - exists p, pn'. split; [exact E|]. split; [rewrite V; cbn [fold_left like pvis]; rewrite Vc; cbn [like pvis]; now rewrite vjoin_absorb|]. split; [exact PW'|].
    cbn [map rev]. rewrite <- app_assoc. exact PL'.
Qed.
Lemma perm_of_keys_ok keys last asc lb bits R : good_rnds R -> Forall (fun x => kok (bits x) x) keys -> kok_last lb last ->
  exists p pn, perm_of_keys ord junk k has_av (keys ++ [last]) asc lb bits R = Ok p /\ pvis p = fold_left (fun acc x => vjoin (pvis x) acc) (rev keys) (pvis last) /\ pv_words p pn /\
    places n (negb asc) (map (fun x => key_value k (pkey x)) (keys ++ [last])) pn.
Proof using All.
  intros G F KL. unfold perm_of_keys. rewrite rev_app_distr. cbn [rev app].
  destruct (gen1_ok last asc lb (r_gen R 0) KL (proj1 G 0)) as [p0 [pn0 [-> [V0 [W0 P0]]]]]. cbn [rbind].
  destruct (perm_loop_ok asc bits R G (rev keys) 1 p0 pn0 [key_value k (pkey last)]) as [p [pn [E [V [PW PL]]]]]; [now apply Forall_rev|exact W0|exact P0|].
  exists p, pn. split; [exact E|]. split; [now rewrite V, V0|]. split; [exact PW|]. rewrite map_rev, rev_involutive in PL. rewrite map_app. exact PL.
Qed.
End Any.
