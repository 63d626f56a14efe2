(* The sort of keys of any visibility: merging and the whole sort. *)
From Coq Require Import ZifyBool ZifyNat ZifyN.
From Verif Require Import Base Ring_model Ring_spec Party Perm_model Perm_spec Perm_proof Fold Scan_model Scan_proof Radix_model Radix_spec Radix_proof Radixs_proof Radixk_proof Pv_model Pv_spec Pv_proof Pvg_proof Pvm_proof Pvs_proof.
Open Scope nat_scope.
Notation wordsof x := (kwords (pkey x)).

Lemma fold_vjoin_owner o l : Forall (fun x => pvis x = Pub \/ pvis x = Priv o) l -> forall v, v = Pub \/ v = Priv o ->
  let V := fold_left (fun acc x => vjoin (pvis x) acc) l v in (V = Pub \/ V = Priv o) /\ (V = Pub -> v = Pub /\ Forall (fun x => pvis x = Pub) l).
Proof.
  induction 1 as [|x l H F IH]; intros v Hv; cbn [fold_left]; [auto|].
  assert (A : vjoin (pvis x) v = Pub \/ vjoin (pvis x) v = Priv o) by (destruct H as [-> | ->], Hv as [-> | ->]; cbn; rewrite ?Nat.eqb_refl; auto).
  destruct (IH _ A) as [B C]. split; [exact B|]. intros E. destruct (C E) as [C1 C2]. destruct H as [H | H], Hv as [-> | ->]; rewrite H in C1; cbn in C1; rewrite ?Nat.eqb_refl in C1; try discriminate. split; [reflexivity|]. constructor; auto.
Qed.
Lemma fold_vjoin_pub l : forall v, fold_left (fun acc x => vjoin (pvis x) acc) l v = Pub -> v = Pub /\ Forall (fun x => pvis x = Pub) l.
Proof.
  induction l as [|x l IH]; intros v H; cbn [fold_left] in H; [auto|]. destruct (IH _ H) as [A B]. destruct (pvis x) as [|o|] eqn:E, v as [|o'|]; cbn in A; try destruct (o =? o'); try discriminate. split; [reflexivity|]. constructor; auto.
Qed.
Lemma transfer n desc (pn : list nat) us vs : Forall2 (fun u v : nat -> Z => forall i, i < n -> u (nth i pn 0) = v i) us vs -> forall i j, i < n -> j < n ->
  (row_before desc us (nth i pn 0) (nth j pn 0) <-> row_before desc vs i j) /\ ((forall u, In u us -> u (nth i pn 0) = u (nth j pn 0)) <-> forall v, In v vs -> v i = v j).
Proof.
  intros F i j I J. induction F as [|u v us vs H F [IH1 IH2]]; [split; [reflexivity|]; split; intros _ w []|]. split.
  - cbn [row_before]. rewrite !H by assumption. rewrite IH1. reflexivity.
  - split; intros A w [<-|W].
    + rewrite <- !H by assumption. apply A. now left.
    + apply (proj1 IH2); [intros z Z; apply A; now right|exact W].
    + rewrite !H by assumption. apply A. now left.
    + apply (proj2 IH2); [intros z Z; apply A; now right|exact W].
Qed.
Lemma rmap_index {A B} (f : nat -> A -> res B) (P : A -> B -> Prop) l : forall s, (forall i x, In x l -> exists y, f i x = Ok y /\ P x y) ->
  exists ys, rmap (fun '(i, x) => f i x) (combine (seq s (length l)) l) = Ok ys /\ Forall2 P l ys.
Proof.
  induction l as [|x l IH]; intros s H; [exists []; split; [reflexivity|constructor]|]. cbn [length seq combine rmap].
  destruct (H s x ltac:(now left)) as [y [-> Py]]. destruct (IH (S s)) as [ys [-> F]]; [intros; apply H; now right|]. exists (y :: ys). split; [reflexivity|]. now constructor.
Qed.

Lemma Forall2_length {A B} (P : A -> B -> Prop) l l' : Forall2 P l l' -> length l = length l'.
Proof. induction 1; cbn; congruence. Qed.
Section All.
Variables (ord : nat -> list nat) (junk : Z).
Hypothesis ORD : forall m, Permutation (ord m) (seq 0 m).
Variables (k : Z) (n : nat) (has_av : bool).
Hypothesis K : (0 < k)%Z.
Hypothesis N0 : 0 < n.
Hypothesis N1 : (Z.of_nat n < 2 ^ (k - 1))%Z.

Lemma fits_full key : Forall (word k) (kwords key) -> key_fits k (Z.to_nat k) key.
Proof using K.
  clear - K. intros W i I. assert (Wi : word k (nthZ (kwords key) i)) by (rewrite Forall_forall in W; apply W; now apply nth_In). unfold word in Wi. unfold key_value. rewrite Z2Nat.id by lia.
  assert (P : (2 ^ k = 2 * 2 ^ (k - 1))%Z) by (rewrite <- Z.pow_succ_r by lia; f_equal; lia). destruct (kuns key); [lia|]. split; [lia|]. destruct (Z.ltb_spec (nthZ (kwords key) i) (2 ^ (k - 1))); lia.
Qed.
Lemma value_signed vb v key : sort_key k n vb v key -> v <> Sec -> forall i, i < n -> key_value k key i = sval k (kwords key) i.
Proof using.
  clear. intros [W [L H]] V i I. unfold key_value, sval. destruct (kuns key) eqn:U; [|reflexivity]. destruct v; [| |easy]; specialize (H eq_refl); rewrite Forall_forall in H; specialize (H (nthZ (kwords key) i) ltac:(apply nth_In; lia));
  destruct (Z.ltb_spec (nthZ (kwords key) i) (2 ^ (k - 1))); lia.
Qed.
Lemma sort_key_kok vb x : sort_key k n vb (pvis x) (pkey x) -> pvis x <> Sec -> kok k n None x.
Proof using K.
  clear - K. intros H V. pose proof (value_signed vb (pvis x) (pkey x) H V) as S. destruct H as [W [L _]]. unfold kok, nb. repeat split; auto; try lia. now apply fits_full.
Qed.
Definition good_m (R : mrnd) : Prop := good_rnds n (m_loop R) /\ (forall t, is_perm n (m_key R t)) /\ is_perm n (m_last R).
(* what a merged key is good for *)
Definition merges (asc : bool) (g : list pval) (m : pval) : Prop :=
  Forall (word k) (wordsof m) /\ length (wordsof m) = n /\ (pvis m <> Sec /\ (pvis m = Pub -> Forall (fun x => pvis x = Pub) g)) /\ kuns (pkey m) = false /\
  (forall i, i < n -> (- Z.of_nat n < key_value k (pkey m) i < Z.of_nat n)%Z) /\ merged n (negb asc) (map (fun x => key_value k (pkey x)) g) (key_value k (pkey m)).
Lemma merge_pub_pri_ok vb o g asc R : g <> [] -> Forall (fun x => pvis x = Pub \/ pvis x = Priv o) g -> Forall (fun x => sort_key k n vb (pvis x) (pkey x)) g -> good_m R ->
  exists m, merge_pub_pri_keys ord junk k has_av g asc (m_loop R) (m_key R) (m_last R) = Ok m /\ merges asc g m /\ (pvis m = Pub \/ pvis m = Priv o).
Proof using All.
  intros NE FO FK [RL [RK RM]]. unfold merge_pub_pri_keys.
  assert (NS : existsb is_sec g = false).
  { clear - FO. induction FO as [|x g H F IH]; [reflexivity|]. cbn. rewrite IH. unfold is_sec. destruct H as [-> | ->]; reflexivity. }
  rewrite NS. destruct (Nat.eqb_spec (length g) 0) as [Q|_]; [destruct g; [easy|cbn in Q; lia]|].
  destruct (exists_last NE) as [ks [last Eg]].
  assert (FL : Forall (fun x => kok k n None x) g).
  { apply Forall_forall. intros x X. rewrite Forall_forall in FO, FK. apply (sort_key_kok vb x (FK x X)). destruct (FO x X) as [-> | ->]; discriminate. }
  assert (KL : kok_last k n None last).
  { assert (In last g) as IL by (rewrite Eg; apply in_or_app; right; now left). rewrite Forall_forall in FL, FO. destruct (FL last IL) as [W [L [V _]]]. split; [exact W|]. split; [exact L|]. destruct (FO last IL) as [E|E]; rewrite E in *; destruct V as [V|V]; (discriminate || exact V). }
  destruct (perm_of_keys_ok ord junk ORD k n has_av K N0 N1 ks last asc None (fun _ => None) (m_loop R) RL) as [ip [pn [EP [VP [WP PP]]]]].
  { rewrite Eg in FL. apply Forall_app in FL. apply FL. }
  { exact KL. }
  rewrite <- Eg in EP, PP. rewrite EP. cbn [rbind].
  assert (VO : (pvis ip = Pub \/ pvis ip = Priv o) /\ (pvis ip = Pub -> Forall (fun x => pvis x = Pub) g)).
  { rewrite VP. rewrite Eg in FO. apply Forall_app in FO. destruct FO as [FO1 FO2]. destruct (fold_vjoin_owner o (rev ks) ltac:(now apply Forall_rev) (pvis last) (Forall_inv FO2)) as [A B]. split; [exact A|]. intros E. destruct (B E) as [B1 B2]. rewrite Eg. apply Forall_app. split; [|constructor; auto].
    apply Forall_rev in B2. now rewrite rev_involutive in B2. }
  destruct VO as [VO VPub]. set (V := pvis ip) in *.
  assert (VJ : forall x, In x g -> vjoin (pvis x) V = V).
  { intros x X. rewrite Forall_forall in FO. destruct VO as [E|E].
    - rewrite E. specialize (VPub E). rewrite Forall_forall in VPub. rewrite (VPub x X). reflexivity.
    - rewrite E. destruct (FO x X) as [-> | ->]; cbn; rewrite ?Nat.eqb_refl; reflexivity. }
  destruct (rmap_index (fun i key => apply_inv_perm1 ord junk k has_av key ip (m_key R i)) (fun x y => exists w, y = like k x V w /\ scattered (wordsof x) pn w) g 0) as [permed [ER FP]].
  { intros i x X. rewrite Forall_forall in FL. destruct (FL x X) as [_ [L _]]. destruct (apply_inv_perm1_ok ord junk ORD k n has_av K N0 N1 x ip pn (m_key R i) L WP (proj1 PP) (RK i)) as [w [E G]]. rewrite E. fold V. rewrite (VJ x X). eauto. }
  rewrite ER. cbn [rbind].
  set (cols := map (fun x => wordsof x) permed).
  assert (FC : Forall2 (fun x c => scattered (wordsof x) pn c) g cols) by (unfold cols; clear - FP; induction FP as [|x y g permed [w [-> G]] FP IH]; cbn [map]; constructor; auto).
  assert (FVis : Forall (fun y => pvis y = V) permed) by (clear - FP; induction FP as [|x y g permed [w [-> G]] FP IH]; constructor; auto).
  assert (CNE : cols <> []) by (intros Q; apply Forall2_length in FC; rewrite Q in FC; cbn [length] in FC; apply NE, length_zero_iff_nil; exact FC).
  assert (CL : Forall (fun c => length c = n) cols).
  { clear - FC FL. induction FC as [|x c g cols H FC IH]; [constructor|]. inversion FL as [|? ? [_ [L _]] FL']; subst. constructor; [destruct H; lia|auto]. }
  assert (CW : Forall (Forall (word k)) cols).
  { pose proof (proj1 PP) as P1. clear - FC FL P1. induction FC as [|x c g cols H FC IH]; [constructor|]. inversion FL as [|? ? [W [L _]] FL']; subst. constructor; [|auto]. apply (scatter_words (wordsof x) pn c (length (wordsof x)) P1 eq_refl H _ W). }
  assert (TR : Forall2 (fun u v : nat -> Z => forall i, i < n -> u (nth i pn 0) = v i) (map (sval k) cols) (map (fun x => key_value k (pkey x)) g)).
  { assert (FK2 : Forall (fun x => forall i, i < n -> key_value k (pkey x) i = sval k (wordsof x) i) g) by (apply Forall_forall; intros x X; rewrite Forall_forall in FK, FO; apply (value_signed vb (pvis x) (pkey x) (FK x X)); destruct (FO x X) as [-> | ->]; discriminate).
    pose proof (proj1 PP) as P1. clear - FC FL FK2 P1. induction FC as [|x c g cols H FC IH]; [constructor|]. inversion FL as [|? ? [W [L _]] FL']; subst. inversion FK2; subst. constructor; [|auto]. intros i I. rewrite H2 by exact I. unfold sval, nthZ. now rewrite (scattered_nth (length (wordsof x)) _ pn c 0%Z P1 eq_refl H i I). }
  assert (SR : sorted_rows n (negb asc) (map (sval k) cols)).
  { intros a b AB B. destruct (perm_onto n pn a (proj1 PP) ltac:(lia)) as [i [I <-]]. destruct (perm_onto n pn b (proj1 PP) B) as [j [J <-]]. apply (proj2 PP i j I J) in AB. destruct (transfer n (negb asc) pn _ _ TR i j I J) as [T1 T2]. rewrite T1, T2. tauto. }
  destruct (merge_keys_merged k n K cols CNE CL CW N0 asc ltac:(lia) SR) as [m [EM [Lm [Wm [Rm Mm]]]]].
  unfold merge_keys. destruct permed as [|y0 permed'] eqn:EPm; [easy|].
  assert (VY0 : pvis y0 = V) by exact (Forall_inv FVis). rewrite VY0.
  assert (GO : match V with
    | Pub => if forallb is_pub (y0 :: permed') then rbind (merge_keys_p k (map (fun x => wordsof x) (y0 :: permed')) asc) (fun w => Ok (mkV Pub (mkKey w (kbits (pkey y0)) false))) else Err
    | Priv o => if forallb (fun x => match pvis x with Priv o' => o' =? o | _ => false end) (y0 :: permed') then rbind (merge_keys_p k (map (fun x => wordsof x) (y0 :: permed')) asc) (fun w => Ok (mkV (Priv o) (mkKey w (kbits (pkey y0)) false))) else Err
    | Sec => Err end = Ok (mkV V (mkKey m (kbits (pkey y0)) false))).
  { change (map (fun x => wordsof x) (y0 :: permed')) with cols. rewrite EM. cbn [rbind]. destruct VO as [E|E]; rewrite E in *.
    - replace (forallb is_pub (y0 :: permed')) with true; [reflexivity|]. symmetry. apply forallb_forall. intros y Y. rewrite Forall_forall in FVis. unfold is_pub. now rewrite (FVis y Y).
    - replace (forallb _ (y0 :: permed')) with true; [reflexivity|]. symmetry. apply forallb_forall. intros y Y. rewrite Forall_forall in FVis. rewrite (FVis y Y). apply Nat.eqb_refl. }
  rewrite GO. cbn [rbind]. clear GO.
  destruct (apply_perm1_ok ord junk ORD k n has_av K N0 N1 (mkV V (mkKey m (kbits (pkey y0)) false)) ip pn (m_last R) Lm WP (proj1 PP) RM) as [w [EW GW]]. rewrite EW. fold V. cbn [pvis].
  assert (VV : vjoin V V = V) by (destruct VO as [-> | ->]; cbn; rewrite ?Nat.eqb_refl; reflexivity). rewrite VV. eexists. split; [reflexivity|]. cbn [pkey kwords] in GW.
  assert (KV : forall i, i < n -> key_value k (pkey (like k (mkV V (mkKey m (kbits (pkey y0)) false)) V w)) i = sval k m (nth i pn 0)).
  { intros i I. unfold key_value, like, sval. cbn [pkey kwords kuns]. unfold nthZ. now rewrite (gathered_nth n m pn w 0%Z (proj1 PP) Lm GW i I). }
  split; [|cbn [like pvis]; exact VO]. unfold merges. split; [|split; [|split; [|split; [|split]]]].
  - cbn [like pkey kwords]. exact (gather_words m pn w n (proj1 PP) Lm GW _ Wm).
  - cbn [like pkey kwords]. destruct GW as [GW _]. rewrite GW. apply perm_length, PP.
  - cbn [like pvis]. split; [destruct VO as [-> | ->]; discriminate|exact VPub].
  - reflexivity.
  - intros i I. rewrite KV by exact I. apply Rm. apply (pv_lt n pn (proj1 PP) i I).
  - intros i j I J. destruct (transfer n (negb asc) pn _ _ TR i j I J) as [T1 T2]. destruct (Mm _ _ (pv_lt n pn (proj1 PP) i I) (pv_lt n pn (proj1 PP) j J)) as [M1 M2].
    cbn [row_before] in *. rewrite !KV by assumption. rewrite <- T1, <- T2. split; [exact M1|exact M2].
Qed.
Definition bits_of (vb : option nat) (cur : pval) : option nat := if is_sec cur then vb else Some (Nat.log2 (length (wordsof cur)) + 2).
Lemma merges_kok vb asc g m : merges asc g m -> kok k n (bits_of vb m) m.
Proof using K N0 N1.
  clear - K N0 N1. intros [W [L [[V _] [U [R M]]]]]. unfold bits_of, is_sec. destruct (pvis m) eqn:E; [| |easy]; rewrite L;
  (assert (B : (Z.of_nat (Nat.log2 n + 2) <= k)%Z);
   [pose proof (Nat.log2_spec n N0) as [B1 _]; assert (B2 : (2 ^ Z.of_nat (Nat.log2 n) < 2 ^ (k - 1))%Z) by (apply (Nat2Z.inj_le) in B1; rewrite Nat2Z.inj_pow in B1; change (Z.of_nat 2) with 2%Z in B1; lia); apply Z.pow_lt_mono_r_iff in B2; lia|]);
  unfold kok, nb; rewrite E; (split; [exact W|]); (split; [exact L|]); (split; [right; intros i I; unfold key_value, sval; now rewrite U|]); (split; [lia|]); (split; [exact B|]);
  intros i I; rewrite U; (split; [lia|]); pose proof (Nat.log2_spec n N0) as [_ B1]; apply (Nat2Z.inj_lt) in B1; rewrite Nat2Z.inj_pow in B1; change (Z.of_nat 2) with 2%Z in B1;
  replace (Z.of_nat (Nat.log2 n + 2) - 1)%Z with (Z.of_nat (S (Nat.log2 n))) by lia; specialize (R i ltac:(lia)); lia.
Qed.
Lemma merges_last vb asc g m : merges asc g m -> kok_last k n vb m.
Proof using. clear. intros [W [L [[V _] [U [R M]]]]]. split; [exact W|]. split; [exact L|]. destruct (pvis m) eqn:E; [| |easy]; intros i I; unfold key_value, sval; now rewrite U. Qed.
Lemma sec_kok vb x : pvis x = Sec -> sort_key k n vb Sec (pkey x) -> kok k n (bits_of vb x) x /\ kok_last k n vb x.
Proof using K.
  clear - K. intros V [W [L [_ [B [B0 [_ F]]]]]]. unfold bits_of, is_sec, kok, kok_last. rewrite V. unfold nbits_of in *. split; [|repeat (split; [assumption|]); assumption].
  split; [exact W|]. split; [exact L|]. split; [now left|]. unfold nb. destruct vb as [v|]; [repeat split; assumption|]. split; [lia|]. split; [lia|]. now apply fits_full.
Qed.
Lemma merged_one desc v : merged n desc [v] v.
Proof using. clear. intros i j I J. split; [reflexivity|]. split; [intros E u [<- | []]; exact E|intros H; apply H; now left]. Qed.
Definition usable (vb : option nat) (asc : bool) (g : list pval) (m : pval) : Prop :=
  kok k n (bits_of vb m) m /\ kok_last k n vb m /\ merged n (negb asc) (map (fun x => key_value k (pkey x)) g) (key_value k (pkey m)) /\ (pvis m = Pub -> Forall (fun x => pvis x = Pub) g) /\
  (forall o, Forall (fun x => pvis x = Pub \/ pvis x = Priv o) g -> pvis m = Pub \/ pvis m = Priv o).
Lemma merge_group_ok vb g asc R : one_group (map pvis g) -> Forall (fun x => sort_key k n vb (pvis x) (pkey x)) g -> good_m R ->
  exists m, merge_group ord junk k has_av g asc R = Ok m /\ usable vb asc g m.
Proof using All.
  intros [G|[NE [o G]]] FK RM.
  - destruct g as [|x [|? ?]]; try discriminate. injection G as V. pose proof (Forall_inv FK) as S0. cbv beta in S0. rewrite V in S0. cbn [merge_group]. unfold is_sec at 1. rewrite V. exists x. split; [reflexivity|]. destruct (sec_kok vb x V S0) as [A B].
    split; [exact A|]. split; [exact B|]. split; [apply merged_one|]. split; [rewrite V; discriminate|]. intros o F. destruct (Forall_inv F) as [Q|Q]; rewrite V in Q; discriminate.
  - assert (FO : Forall (fun x => pvis x = Pub \/ pvis x = Priv o) g) by (apply Forall_map in G; exact G). assert (NE' : g <> []) by (intros ->; easy).
    destruct (merge_pub_pri_ok vb o g asc R NE' FO FK RM) as [m [E [M VM]]].
    assert (E' : merge_group ord junk k has_av g asc R = Ok m).
    { rewrite <- E. destruct g as [|x [|? ?]]; try reflexivity. cbn [merge_group]. unfold is_sec. destruct (Forall_inv FO) as [-> | ->]; reflexivity. }
    exists m. split; [exact E'|]. split; [now apply (merges_kok vb asc g)|]. split; [now apply (merges_last vb asc g)|]. split; [apply M|]. split; [apply M|]. intros o' FO'. destruct (merge_pub_pri_ok vb o' g asc R NE' FO' FK RM) as [m' [E2 [_ V2]]]. rewrite E in E2. injection E2 as <-. exact V2.
Qed.
Lemma places_groups asc vb gs ms p : Forall2 (usable vb asc) gs ms -> forall vs,
  places n (negb asc) (vs ++ map (fun x => key_value k (pkey x)) ms) p -> places n (negb asc) (vs ++ map (fun x => key_value k (pkey x)) (concat gs)) p.
Proof using.
  clear. induction 1 as [|g m gs ms U F IH]; intros vs H; [exact H|]. cbn [concat map] in *. rewrite map_app.
  rewrite app_assoc. apply IH. rewrite <- app_assoc. destruct U as [_ [_ [M _]]].
  destruct H as [P H]. split; [exact P|]. intros i j I J. rewrite (H i j I J). destruct (M i j I J) as [M1 M2]. cbn [row_before] in M1.
  set (tl := map (fun x => key_value k (pkey x)) ms). set (gv := map (fun x => key_value k (pkey x)) g) in *. set (mv := key_value k (pkey m)) in *.
  assert (E2 : forall us, (forall v, In v (us ++ mv :: tl) -> v i = v j) <-> forall v, In v (us ++ gv ++ tl) -> v i = v j).
  { intros us. split; intros A v V; apply in_app_or in V; destruct V as [V|V].
    - apply A, in_or_app. now left.
    - apply in_app_or in V. destruct V as [V|V]; [apply (proj1 M2); [apply A, in_or_app; right; now left|exact V]|apply A, in_or_app; right; now right].
    - apply A, in_or_app. now left.
    - destruct V as [<-|V]; [apply (proj2 M2); intros w W; apply A, in_or_app; right; apply in_or_app; now left|apply A, in_or_app; right; apply in_or_app; now right]. }
  rewrite (E2 vs). rewrite !before_app. cbn [row_before]. tauto.
Qed.
Lemma gen_inv_perm_any_ok keys asc vb MR R : keys <> [] -> owners_ok (map pvis keys) -> Forall (fun x => sort_key k n vb (pvis x) (pkey x)) keys -> (forall i, good_m (MR i)) -> good_rnds n R ->
  exists p pn, gen_inv_perm ord junk k has_av keys asc vb MR R = Ok p /\ pv_words p pn /\ places n (negb asc) (map (fun x => key_value k (pkey x)) keys) pn /\ (pvis p = Pub -> Forall (fun x => pvis x = Pub) keys) /\
    (forall o, Forall (fun x => pvis x = Pub \/ pvis x = Priv o) keys -> pvis p = Pub \/ pvis p = Priv o).
Proof using All.
  intros NE OK FK GM GR. unfold gen_inv_perm. destruct (forallb is_sec keys) eqn:AS.
  - rewrite forallb_forall in AS. destruct (gen_inv_perm_ok ord junk ORD k n K ltac:(assert ((2 ^ k = 2 * 2 ^ (k - 1))%Z) by (rewrite <- Z.pow_succ_r by lia; f_equal; lia); lia) (map pkey keys) (negb asc) vb (r_gen R 0)) as [pn [E P]].
    { intros Q. apply map_eq_nil in Q. easy. }
    { apply Forall_map. apply Forall_forall. intros x X. specialize (AS x X). rewrite Forall_forall in FK. destruct (FK x X) as [_ [_ H]]. unfold is_sec in AS. destruct (pvis x); try discriminate. exact H. }
    { intros t. apply (proj1 GR). }
    rewrite E. cbn [rbind]. eexists. exists pn. split; [reflexivity|]. split; [reflexivity|]. rewrite map_map in P. split; [exact P|]. split; [discriminate|]. intros o FO. destruct keys as [|x0 keys]; [easy|]. specialize (AS x0 ltac:(now left)). unfold is_sec in AS. destruct (Forall_inv FO) as [Q|Q]; rewrite Q in AS; discriminate.
  - clear AS. unfold merge_sorting_keys. destruct (find_mergeable_ok (map pvis keys)) as [ends [E [C G]]]; [intros Q; apply map_eq_nil in Q; easy|exact OK|]. rewrite E. cbn [rbind].
    rewrite cut_map in C, G. set (gs := cut 0 ends keys) in *.
    assert (CC : concat gs = keys).
    { assert (LL : length (concat gs) = length keys) by (apply (f_equal (@length _)) in C; rewrite <- concat_map, !map_length in C; exact C).
      assert (PRE : forall es b (l : list pval), exists r, l = concat (cut b es l) ++ r).
      { clear. intros es. induction es as [|e es IH]; intros b l; [exists l; reflexivity|]. cbn [cut concat]. destruct (IH e (skipn (e - b) l)) as [r R]. exists r. rewrite <- app_assoc, <- R. symmetry. apply firstn_skipn. }
      destruct (PRE ends 0 keys) as [r R0]. fold gs in R0. assert (r = []) by (apply length_zero_iff_nil; apply (f_equal (@length _)) in R0; rewrite app_length in R0; lia). subst r. rewrite app_nil_r in R0. now symmetry. }
    destruct (rmap_index (fun i g => merge_group ord junk k has_av g asc (MR i)) (usable vb asc) gs 0) as [ms [EM FM]].
    { intros i g Hg. apply merge_group_ok; [|  |apply GM].
      - rewrite Forall_forall in G. apply G. now apply in_map.
      - rewrite Forall_forall in FK |- *. intros x X. apply FK. rewrite <- CC. apply in_concat. eauto. }
    rewrite EM. cbn [rbind].
    assert (MNE : ms <> []). { intros Q. apply Forall2_length in FM. rewrite Q in FM. cbn [length] in FM. apply length_zero_iff_nil in FM. rewrite FM in CC. cbn in CC. now symmetry in CC. }
    destruct (exists_last MNE) as [ms' [last EL]].
    assert (FK1 : Forall (fun m => kok k n (bits_of vb m) m /\ kok_last k n vb m) ms) by (clear - FM; induction FM as [|g m gs ms U F IH]; constructor; auto; split; apply U).
    destruct (perm_of_keys_ok ord junk ORD k n has_av K N0 N1 ms' last asc vb (bits_of vb) R GR) as [p [pn [EP [VP [WP PP]]]]].
    { rewrite EL in FK1. apply Forall_app in FK1. destruct FK1 as [FK1 _]. eapply Forall_impl; [|exact FK1]. intros ? [? _]; assumption. }
    { rewrite EL in FK1. apply Forall_app in FK1. destruct FK1 as [_ FK1]. apply (Forall_inv FK1). }
    rewrite <- EL in EP, PP. exists p, pn. split; [exact EP|]. split; [exact WP|]. split; [rewrite <- CC; exact (places_groups asc vb gs ms pn FM [] PP)|]. split; [intros Q; rewrite VP in Q|].
    2: { intros o FO. assert (FO' : Forall (fun m => pvis m = Pub \/ pvis m = Priv o) ms).
         { rewrite <- CC in FO. clear - FM FO. induction FM as [|g m gs ms U F IH]; [constructor|]. cbn [concat] in FO. apply Forall_app in FO. destruct FO as [F1 F2]. constructor; [now apply U|now apply IH]. }
         rewrite EL in FO'. apply Forall_app in FO'. destruct FO' as [F1 F2]. rewrite VP. apply (fold_vjoin_owner o (rev ms')); [now apply Forall_rev|exact (Forall_inv F2)]. }
    destruct (fold_vjoin_pub (rev ms') (pvis last) Q) as [Q1 Q2]. assert (QM : Forall (fun m => pvis m = Pub) ms) by (rewrite EL; apply Forall_app; split; [rewrite <- (rev_involutive ms'); now apply Forall_rev|constructor; auto]).
    rewrite <- CC. clear - QM FM. induction FM as [|g m gs ms U F IH]; [constructor|]. cbn [concat]. apply Forall_app. split; [apply U; exact (Forall_inv QM)|apply IH; exact (Forall_inv_tail QM)].
Qed.
Lemma inverse_exists pn : is_perm n pn -> exists q, inverse_of n pn q.
Proof using.
  clear. intros P. destruct (scatter_loop (seq 0) (fun m => Permutation_refl _) (seq 0 n) pn (repeat 0 n) n P (seq_length _ _) (repeat_length _ _)) as [q [_ G]]. exists q. exact (scattered_seq_inverse n pn q P G).
Qed.
Lemma radix_sort_any_ok keys payload asc vb MR R sh : keys <> [] -> owners_ok (map pvis keys) -> Exists (fun x => pvis x <> Pub) keys -> Forall (fun x => sort_key k n vb (pvis x) (pkey x)) keys ->
  Forall (fun x => length (wordsof x) = n) payload -> (forall i, good_m (MR i)) -> good_rnds n R -> is_perm n sh ->
  exists q out, radix_sort_any ord junk k has_av keys payload asc vb MR R sh = Ok out /\
    stable_order n (negb asc) (map (fun x => key_value k (pkey x)) keys) q /\ Forall2 (fun x y => gathered (wordsof x) q (wordsof y)) (keys ++ payload) out.
Proof using All.
  intros NE OK EX FK FP GM GR GS. unfold radix_sort_any. destruct (gen_inv_perm_any_ok keys asc vb MR R NE OK FK GM GR) as [p [pn [E [W [P [V _]]]]]]. rewrite E. cbn [rbind].
  assert (VN : pvis p <> Pub). { intros Q. specialize (V Q). apply Exists_exists in EX. destruct EX as [x [X Nx]]. rewrite Forall_forall in V. exact (Nx (V x X)). }
  destruct (inverse_exists pn (proj1 P)) as [q IQ]. exists q.
  assert (FA : Forall (fun x => length (wordsof x) = n) (keys ++ payload)) by (apply Forall_app; split; [eapply Forall_impl; [|exact FK]; intros x [_ [H _]]; exact H|exact FP]).
  assert (ONE : forall x, length (wordsof x) = n -> exists y, apply_inv_perm_any ord junk k has_av x p sh = Ok y /\ scattered (wordsof x) pn (wordsof y)).
  { intros x L. unfold apply_inv_perm_any.
    assert (SS : exists y, rbind (apply_inv_perm_ss ord junk [wordsof x] (wordsof p) sh) (fun v => rbind (read v 0) (fun w => Ok (like k x Sec w))) = Ok y /\ scattered (wordsof x) pn (wordsof y)).
    { rewrite W. destruct (inv_ss_ok ord junk ORD k n has_av K N0 N1 (wordsof x) pn sh L (proj1 P) GS) as [w [-> G]]. cbn. eexists. split; [reflexivity|]. exact G. }
    destruct (pvis p) as [|o|]; [easy| |exact SS]. destruct has_av eqn:EH; [|exact SS]. rewrite <- EH.
    destruct (apply_inv_perm1_ok ord junk ORD k n has_av K N0 N1 x p pn sh L W (proj1 P) GS) as [w [-> G]]. eexists. split; [reflexivity|]. exact G. }
  assert (ALL : exists out, rmap (fun x => apply_inv_perm_any ord junk k has_av x p sh) (keys ++ payload) = Ok out /\ Forall2 (fun x y => gathered (wordsof x) q (wordsof y)) (keys ++ payload) out).
  { induction FA as [|x l L F IH]; [exists []; split; [reflexivity|constructor]|]. cbn [rmap]. destruct (ONE x L) as [y [-> G]]. destruct IH as [out [-> F2]]. exists (y :: out). split; [reflexivity|]. constructor; [|exact F2].
    exact (scattered_inverse n (wordsof x) pn q (wordsof y) (proj1 P) IQ L G). }
  destruct ALL as [out [EO F2]]. exists out. split; [exact EO|]. split; [|exact F2]. exact (order_of_places n _ _ pn q P IQ).
Qed.
End All.
