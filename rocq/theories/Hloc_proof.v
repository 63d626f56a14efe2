(* Proofs about the control-flow operations: lists of arrays. *)
From Verif Require Import Base Ring_model Ring_spec Ring_proof Share_spec Party Semi_model Semi_proof.
From Verif Require Import Perm_proof Disp_model Disp_spec Disp_proof Dispd_proof Hlo_model Hlo_spec Hlo_proof.
Open Scope Z_scope.

Section Lists.
Context {A B C D : Type}.
Lemma F2_len (R : A -> B -> Prop) l m : Forall2 R l m -> length l = length m.
Proof. induction 1; cbn; congruence. Qed.
Lemma F2_map (R : A -> B -> Prop) (f : C -> B) l m : Forall2 (fun a c => R a (f c)) l m -> Forall2 R l (map f m).
Proof. induction 1; cbn; constructor; auto. Qed.
End Lists.
Lemma mapM_wp {md : Mode} {X Y W} (op : X -> M Y) (R : X -> W -> Prop) (S0 : Y -> W -> Prop) :
  (forall x w, R x w -> wp (op x) (fun y => S0 y w)) -> forall xs ws, Forall2 R xs ws -> wp (mapM op xs) (fun ys => Forall2 S0 ys ws).
Proof.
  intros H xs ws F. induction F as [|x w xs ws RX F IH]; cbn [mapM].
  - apply wp_ret. constructor.
  - apply wp_bind. eapply wp_mono; [apply (H x w RX)|]. cbv beta. intros y Y0.
    apply wp_bind. eapply wp_mono; [apply IH|]. cbv beta. intros ys YS. apply wp_ret. now constructor.
Qed.
Lemma combine_F2 {X Y V W} (R : X -> V -> Prop) (Q : Y -> W -> Prop) : forall xs ys vs ws, Forall2 R xs vs -> Forall2 Q ys ws ->
  Forall2 (fun p q => R (fst p) (fst q) /\ Q (snd p) (snd q)) (combine xs ys) (combine vs ws).
Proof.
  intros xs ys vs ws F. revert ys ws. induction F as [|x v xs vs RX F IH]; intros ys ws H; [constructor|].
  destruct H; [constructor|]. cbn. constructor; [now split|]. now apply IH.
Qed.

Lemma F2_nth_error {X Y} (R : X -> Y -> Prop) (d : Y) : forall l m, Forall2 R l m -> forall j, (j < length m)%nat -> exists x, nth_error l j = Some x /\ R x (nth j m d).
Proof. induction 1 as [|a b l m H F IH]; intros j J; cbn in *; [lia|]. destruct j; [now exists a|]. apply IH. lia. Qed.

Section Proof.
Context {md : Mode} {HS : Shifts}.
Variable k : Z.
Hypothesis K1 : 1 < k.
Variable n : nat.
Variable pr : proto.
Variable isA : ash pr -> Z -> Prop.
Variable isB : bsh pr -> Z -> Prop.
Hypothesis HO : proto_ok k n pr isA isB.
Hypothesis wordA : forall a x, isA a x -> word k x.
Variable others : nat -> Z.
Hypothesis OT : forall t, 0 <= others t <= k.
Notation val := (val pr).
Notation holds := (holds k n pr isA isB).
Notation arr := (arr pr).
Definition harr (x : arr) (v : list Z * list Z) : Prop := a_sh x = fst v /\ Forall2 holds (a_el x) (snd v).

Lemma shape_eqb_refl s : shape_eqb s s = true.
Proof. induction s as [|a s IH]; [reflexivity|]. cbn. now rewrite Z.eqb_refl, IH. Qed.
Lemma map2_ok op g x y v : (forall a b u1 u2, holds a u1 -> holds b u2 -> wp (op a b) (fun r => holds r (g u1 u2))) ->
  forall u, harr x u -> harr y v -> fst u = fst v -> wp (map2 pr op x y) (fun r => harr r (fst u, map (fun '(a, b) => g a b) (combine (snd u) (snd v)))).
Proof.
  intros H u [X1 X2] [Y1 Y2] E. unfold map2. rewrite X1, Y1, E, shape_eqb_refl. apply wp_bind.
  eapply wp_mono; [apply (mapM_wp _ (fun p q => holds (fst p) (fst q) /\ holds (snd p) (snd q)) (fun r q => holds r (g (fst q) (snd q))))|].
  - intros [a b] [u1 u2] [HA HB]. now apply H.
  - apply combine_F2; [exact X2|exact Y2].
  - cbv beta. intros r F. apply wp_ret. split; [reflexivity|]. cbn [a_el snd]. clear -F.
    induction F as [|r0 [u1 u2] rs us H F IH]; cbn; constructor; auto.
Qed.
Lemma words_of x ws : Forall2 holds x ws -> Forall (word k) ws.
Proof. induction 1 as [|a b l m H F IH]; constructor; [exact (proj1 H)|exact IH]. Qed.
Lemma select_ok p a b cs u v sh : harr p (sh, cs) -> harr a (sh, u) -> harr b (sh, v) -> Forall (fun c => c = 0 \/ c = 1) cs -> length cs = length u -> length u = length v ->
  wp (select k pr p a b) (fun r => harr r (pick cs (sh, u) (sh, v))).
Proof.
  intros P A B C L1 L2. unfold select.
  apply wp_bind. eapply wp_mono; [eapply (map2_ok _ (fun x y => wrap k (x - y)) _ _ _); [|exact A|exact B|reflexivity]|].
  { intros. eapply wp_mono; [eapply (hal_sub_ok k K1 n pr _ _ HO wordA); eassumption|]. cbv beta. intros r R. exact R. }
  cbv beta. intros d D. cbn [fst snd] in D.
  apply wp_bind. eapply wp_mono; [eapply (map2_ok _ (fun x y => wrap k (x * y)) _ _ _); [|exact P|exact D|reflexivity]|].
  { intros. eapply wp_mono; [eapply (hal_mul_ok k K1 n pr _ _ HO wordA others OT); eassumption|]. cbv beta. intros r [R _]. exact R. }
  cbv beta. intros m M0. cbn [fst snd] in M0.
  eapply wp_mono; [eapply (map2_ok _ (fun x y => wrap k (x + y)) _ _ _); [|exact B|exact M0|reflexivity]|].
  { intros. eapply wp_mono; [eapply (hal_add_ok k K1 n pr _ _ HO wordA); eassumption|]. cbv beta. intros r [R _]. exact R. }
  cbv beta. intros r R. cbn [fst snd] in R. unfold pick. cbn [fst snd].
  match goal with _ : harr r (_, ?x) |- harr r (_, ?y) => replace y with x; [exact R|] end.
  pose proof (words_of _ _ (proj2 A)) as WU. pose proof (words_of _ _ (proj2 B)) as WV. cbn [snd] in WU, WV. clear - K1 WU WV C L1 L2.
  revert u v WU WV L1 L2. induction C as [|c cs C0 C IH]; intros [|x u] [|y v] WU WV L1 L2; try discriminate; [reflexivity|].
  cbn. inversion WU; subst. inversion WV; subst. f_equal; [|apply IH; auto; cbn in *; congruence].
  destruct C0 as [-> | ->]; cbn [Z.eqb Pos.eqb].
  - rewrite Z.mul_0_l. rewrite (wrap_small k 0) by (split; [lia|apply pow2_pos; lia]). rewrite Z.add_0_r. now apply wrap_small.
  - rewrite <- (wrap_small k x) at 2 by assumption.
    match goal with |- wrap k ?u = wrap k ?v => change (eqm k u v) end. rewrite !eqm_wrap. apply eqm_of_eq. lia.
Qed.
Lemma select_all_ok p cs csh : harr p (csh, cs) -> Forall (fun c => c = 0 \/ c = 1) cs -> forall ts fs us vs,
  Forall2 harr ts us -> Forall2 harr fs vs -> length us = length vs ->
  Forall (fun v => fst v = csh /\ length (snd v) = length cs) us -> Forall (fun v => fst v = csh /\ length (snd v) = length cs) vs ->
  wp (select_all k pr p ts fs) (fun rs => Forall2 harr rs (map (fun '(t, f) => pick cs t f) (combine us vs))).
Proof.
  intros P C ts fs us vs F. revert fs vs. induction F as [|t u ts us H F IH]; intros fs vs F2 L S1 S2.
  - destruct vs; [|discriminate]. inversion F2; subst. cbn [select_all combine map]. apply wp_ret. constructor.
  - destruct vs as [|v vs]; [discriminate|]. inversion F2 as [|g ? fs' ? G F2']; subst. inversion S1 as [|? ? [SA SB] S1']; subst. inversion S2 as [|? ? [SC SD] S2']; subst.
    cbn [select_all]. apply wp_bind. destruct u as [us0 uw]. destruct v as [vs0 vw]. cbn [fst snd] in *. subst vs0.
    eapply wp_mono; [apply (select_ok p t g cs uw vw us0 P H G C); congruence|]. cbv beta. intros r R.
    apply wp_bind. eapply wp_mono; [apply (IH fs' vs F2'); cbn in L; auto; congruence|]. cbv beta. intros rs RS. apply wp_ret. cbn. now constructor.
Qed.

(* ---- case ---- *)
Definition masked (m : Z) (v : list Z * list Z) : list Z * list Z := (fst v, map (fun x => wrap k (x * m)) (snd v)).
Lemma scale_ok m x v c : holds m c -> harr x v -> wp (scale k pr m x) (fun r => harr r (masked c v)).
Proof.
  intros M0 [X1 X2]. unfold scale. apply wp_bind.
  eapply wp_mono; [apply (mapM_wp _ holds (fun r x => holds r (wrap k (x * c)))); [|exact X2]|].
  - intros e u E. eapply wp_mono; [eapply (hal_mul_ok k K1 n pr _ _ HO wordA others OT); eassumption|]. cbv beta. intros r [R _]. exact R.
  - cbv beta. intros r F. apply wp_ret. split; [exact X1|]. cbn [a_el masked snd]. now apply F2_map.
Qed.
Lemma run_masked_ok : forall bs vss, Forall2 (fun b vs => wp b (fun r => Forall2 harr r vs)) bs vss -> forall ms cs, Forall2 holds ms cs -> length bs = length ms ->
  wp (run_masked k pr bs ms) (fun r => Forall2 (Forall2 harr) r (map (fun '(c, vs) => map (masked c) vs) (combine cs vss))).
Proof.
  intros bs vss F. induction F as [|b vs bs vss H F IH]; intros ms cs FM L.
  - destruct ms; [|discriminate]. inversion FM; subst. cbn. apply wp_ret. constructor.
  - destruct ms as [|m ms]; [discriminate|]. inversion FM as [|? c ? cs' HM FM']; subst. cbn [run_masked].
    apply wp_bind. eapply wp_mono; [exact H|]. cbv beta. intros r R. apply wp_bind.
    eapply wp_mono; [apply (mapM_wp _ harr (fun y v => harr y (masked c v))); [intros; now apply scale_ok|exact R]|]. cbv beta. intros r' R'.
    apply wp_bind. eapply wp_mono; [apply (IH ms cs' FM'); cbn in L; congruence|]. cbv beta. intros rs RS. apply wp_ret. cbn. constructor; [|exact RS].
    now apply F2_map.
Qed.
Definition addw (a b : list Z) : list Z := map (fun '(x, y) => wrap k (x + y)) (combine a b).
Lemma add_rest_ok j : forall rest wss, Forall2 (fun r w => exists x, nth_error r j = Some x /\ harr x w) rest wss -> forall acc sh ws, harr acc (sh, ws) ->
  Forall (fun w => fst w = sh) wss -> wp (add_rest k pr acc j rest) (fun r => harr r (sh, fold_left addw (map snd wss) ws)).
Proof.
  intros rest wss F. induction F as [|r w rest wss [x [E X]] F IH]; intros acc sh ws A S0.
  - cbn. now apply wp_ret.
  - cbn [add_rest]. rewrite E. inversion S0 as [|? ? S1 S2]; subst. apply wp_bind.
    eapply wp_mono; [eapply (map2_ok _ (fun x y => wrap k (x + y)) _ _ _); [|exact A|exact X|reflexivity]|].
    { intros. eapply wp_mono; [eapply (hal_add_ok k K1 n pr _ _ HO wordA); eassumption|]. cbv beta. intros r0 [R _]. exact R. }
    cbv beta. intros a A'. cbn [map fold_left]. apply IH; auto.
Qed.

(* ---- sums of masked words ---- *)
Notation d0 := (([], []) : list Z * list Z).
Definition mk (c : Z) (W : list Z) : list Z := map (fun x => wrap k (x * c)) W.
Lemma mk0 W : mk 0 W = repeat 0 (length W).
Proof using K1. clear - K1. induction W as [|x W IH]; [reflexivity|]. cbn. unfold mk in IH. rewrite IH, Z.mul_0_r. reflexivity. Qed.
Lemma mk1 W : Forall (word k) W -> mk 1 W = W.
Proof using K1. clear - K1. induction 1 as [|x W H F IH]; [reflexivity|]. cbn. unfold mk in IH. rewrite IH, Z.mul_1_r. f_equal. now apply wrap_small. Qed.
Lemma addw_0_r : forall W, Forall (word k) W -> addw W (repeat 0 (length W)) = W.
Proof using K1. clear - K1. induction 1 as [|x W H F IH]; [reflexivity|]. unfold addw in *. cbn. rewrite IH, Z.add_0_r. f_equal. now apply wrap_small. Qed.
Lemma addw_0_l : forall W, Forall (word k) W -> addw (repeat 0 (length W)) W = W.
Proof using K1. clear - K1. induction 1 as [|x W H F IH]; [reflexivity|]. unfold addw in *. cbn. rewrite IH. f_equal. now apply wrap_small. Qed.
Notation bitof i i0 := (if (i =? i0)%nat then 1 else 0).
Lemma fold_none i0 L ws : length ws = L -> Forall (word k) ws -> forall Ws start, Forall (fun W => length W = L) Ws -> (i0 < start)%nat ->
  fold_left addw (map (fun '(i, W) => mk (bitof i i0) W) (combine (seq start (length Ws)) Ws)) ws = ws.
Proof using K1. clear - K1.
  intros LW WW Ws. induction Ws as [|W Ws IH]; intros start F LT; [reflexivity|]. inversion F; subst. cbn [length seq combine map fold_left].
  destruct (Nat.eqb_spec start i0); [lia|]. rewrite mk0, H1, addw_0_r by exact WW. apply IH; [assumption|lia].
Qed.
Lemma fold_some i0 L : forall Ws start, Forall (fun W => length W = L /\ Forall (word k) W) Ws -> (start <= i0 < start + length Ws)%nat ->
  fold_left addw (map (fun '(i, W) => mk (bitof i i0) W) (combine (seq start (length Ws)) Ws)) (repeat 0 L) = nth (i0 - start) Ws [].
Proof using K1. clear - K1.
  intros Ws. induction Ws as [|W Ws IH]; intros start F LT; [cbn in LT; lia|]. inversion F as [|? ? [LW WW] F']; subst. cbn [length seq combine map fold_left] in *.
  destruct (Nat.eqb_spec start i0).
  - subst start. rewrite Nat.sub_diag. cbn [nth]. rewrite mk1, addw_0_l by exact WW. apply fold_none with (L := length W); auto.
    eapply Forall_impl; [|exact F']. intros a [H _]. exact H.
  - rewrite mk0. rewrite <- (repeat_length 0 (length W)) at 2. rewrite addw_0_r.
    + rewrite IH; [|exact F'|lia]. replace (i0 - start)%nat with (S (i0 - S start)) by lia. reflexivity.
    + apply Forall_forall. intros x X. apply repeat_spec in X. subst x. split; [lia|apply pow2_pos; lia].
Qed.
Lemma fold_pick i0 L W Ws : Forall (fun W => length W = L /\ Forall (word k) W) (W :: Ws) -> (i0 < length (W :: Ws))%nat ->
  fold_left addw (map (fun '(i, W) => mk (bitof i i0) W) (combine (seq 1 (length Ws)) Ws)) (mk (bitof O i0) W) = nth i0 (W :: Ws) [].
Proof using K1. clear - K1.
  intros F LT. inversion F as [|? ? [LW WW] F']; subst. destruct i0 as [|i0].
  - cbn [Nat.eqb nth]. rewrite mk1 by exact WW. apply fold_none with (L := length W); auto. eapply Forall_impl; [|exact F']. intros a [H _]. exact H.
  - change (0 =? S i0)%nat with false. cbn match. rewrite mk0. rewrite fold_some; [|exact F'|cbn [length] in LT; lia]. cbn [nth]. f_equal. lia.
Qed.

Lemma collect_ok values V0 Vs : Forall2 (Forall2 harr) values (V0 :: Vs) -> Forall (fun V => sig V = sig V0) Vs ->
  wp (collect k pr values) (fun rs => Forall2 harr rs
    (map (fun '(j, v) => (fst v, fold_left addw (map (fun V => snd (nth j V d0)) Vs) (snd v))) (combine (seq 0 (length V0)) V0))).
Proof.
  intros F SG. inversion F as [|first ? rest ? F0 FR]; subst. cbn [collect].
  eapply wp_mono; [apply (mapM_wp _ (fun p q => fst p = fst q /\ harr (snd p) (snd q) /\ (fst q < length V0)%nat /\ nth (fst q) V0 d0 = snd q)
    (fun y q => harr y (fst (snd q), fold_left addw (map (fun V => snd (nth (fst q) V d0)) Vs) (snd (snd q)))))|].
  - intros [j x] [j' v] (E & X & LT & NT). cbn [fst snd] in *. subst j'. destruct v as [sh ws]. cbn [fst snd].
    rewrite <- (map_map (fun V => nth j V d0) snd). apply add_rest_ok with (rest := rest); [|exact X|].
    + clear - FR SG LT. induction FR as [|r V rest Vs R FR IH]; [constructor|]. inversion SG as [|? ? S1 S2]; subst. cbn. constructor; [|now apply IH].
      apply (F2_nth_error harr d0 r V R). apply (f_equal (@length _)) in S1. unfold sig in S1. rewrite !map_length in S1. lia.
    + clear - SG LT NT. induction SG as [|V Vs S1 SG IH]; [constructor|]. cbn. constructor; [|exact IH].
      assert (Q : nth j (sig V) (fst d0, length (snd d0)) = nth j (sig V0) (fst d0, length (snd d0))) by now rewrite S1.
      unfold sig in Q. rewrite !(map_nth (fun v => (fst v, length (snd v)))) in Q. rewrite NT in Q. cbn [fst] in Q. congruence.
  - clear - F0.
    assert (G : forall fs us pre, Forall2 harr fs us -> V0 = pre ++ us ->
      Forall2 (fun p q => fst p = fst q /\ harr (snd p) (snd q) /\ (fst q < length V0)%nat /\ nth (fst q) V0 d0 = snd q)
        (combine (seq (length pre) (length fs)) fs) (combine (seq (length pre) (length us)) us)).
    { intros fs us pre H. revert pre. induction H as [|f0 u fs us H HF IH]; intros pre E; [constructor|]. cbn [length seq combine]. constructor.
      - cbn [fst snd]. split; [reflexivity|split; [exact H|]]. rewrite E, app_length. cbn. split; [lia|]. rewrite app_nth2, Nat.sub_diag by lia. reflexivity.
      - specialize (IH (pre ++ [u])). rewrite app_length in IH. cbn [length] in IH. rewrite Nat.add_1_r in IH. apply IH. rewrite <- app_assoc. exact E. }
    apply (G first V0 [] F0 eq_refl).
  - cbv beta. intros rs H. clear - H. cbn [length] in H. generalize dependent (combine (seq 0 (length V0)) V0). intros qs0 H. induction H as [|y [j v] ys qs H F IH]; cbn; constructor; auto.
Qed.
Lemma sig_len vs vs' : sig vs = sig vs' -> length vs = length vs'.
Proof. intros E. apply (f_equal (@length _)) in E. unfold sig in E. now rewrite !map_length in E. Qed.
Lemma sig_nth vs vs' j : sig vs = sig vs' -> fst (nth j vs d0) = fst (nth j vs' d0) /\ length (snd (nth j vs d0)) = length (snd (nth j vs' d0)).
Proof.
  intros E. assert (Q : nth j (sig vs) (fst d0, length (snd d0)) = nth j (sig vs') (fst d0, length (snd d0))) by now rewrite E.
  unfold sig in Q. rewrite !(map_nth (fun v => (fst v, length (snd v)))) in Q. injection Q. auto.
Qed.
Lemma sig_masked c vs : sig (map (masked c) vs) = sig vs.
Proof. unfold sig. rewrite map_map. apply map_ext. intros [sh ws]. unfold masked. cbn. now rewrite map_length. Qed.
Lemma nth_masked c vs j : nth j (map (masked c) vs) d0 = masked c (nth j vs d0).
Proof. exact (map_nth (masked c) vs d0 j). Qed.
Lemma pick_branch i0 : forall v0 vss, Forall (fun vs => sig vs = sig v0) vss -> Forall (Forall (fun v => Forall (word k) (snd v))) (v0 :: vss) -> (i0 < S (length vss))%nat ->
  map (fun '(j, v) => (fst v, fold_left addw (map (fun V => snd (nth j V d0)) (map (fun '(i, vs) => map (masked (bitof i i0)) vs) (combine (seq 1 (length vss)) vss))) (snd v)))
    (combine (seq 0 (length (map (masked (bitof O i0)) v0))) (map (masked (bitof O i0)) v0)) = nth i0 (v0 :: vss) [].
Proof using K1. clear - K1.
  intros v0 vss SG WD LT.
  assert (SI : sig (nth i0 (v0 :: vss) []) = sig v0).
  { destruct i0 as [|i0]; [reflexivity|]. cbn [nth]. rewrite Forall_forall in SG. apply SG. apply nth_In. lia. }
  apply nth_ext with (d := d0) (d' := d0).
  - rewrite map_length, combine_length, seq_length, !map_length. rewrite (sig_len _ _ SI). apply Nat.min_id.
  - intros j J. rewrite map_length, combine_length, seq_length, !map_length, Nat.min_id in J.
    set (V := map (masked (bitof O i0)) v0). set (f := fun '(j, v) => _).
    rewrite (nth_indep _ d0 (f (O, d0))) by (rewrite map_length, combine_length, seq_length; unfold V; rewrite map_length, Nat.min_id; exact J).
    rewrite (map_nth f), combine_nth by (rewrite seq_length; reflexivity). rewrite seq_nth by (unfold V; rewrite map_length; exact J). cbn [Nat.add]. unfold f, V.
    rewrite nth_masked. cbn [masked fst snd].
    rewrite (surjective_pairing (nth j (nth i0 (v0 :: vss) []) d0)). destruct (sig_nth _ _ j SI) as [S1 _]. rewrite S1. f_equal.
    assert (E : map (fun V => snd (nth j V d0)) (map (fun '(i, vs) => map (masked (bitof i i0)) vs) (combine (seq 1 (length vss)) vss)) =
      map (fun '(i, W) => mk (bitof i i0) W) (combine (seq 1 (length (map (fun vs => snd (nth j vs d0)) vss))) (map (fun vs => snd (nth j vs d0)) vss))).
    { rewrite map_length. generalize 1%nat. clear. induction vss as [|vs vss IH]; intros s; [reflexivity|]. cbn [length seq combine map]. rewrite IH. f_equal.
      rewrite nth_masked. reflexivity. }
    rewrite E. change (map (fun x => wrap k (x * bitof O i0)) (snd (nth j v0 d0))) with (mk (bitof O i0) (snd (nth j v0 d0))).
    rewrite fold_pick with (L := length (snd (nth j v0 d0))).
    + change (snd (nth j v0 d0) :: map (fun vs => snd (nth j vs d0)) vss) with (map (fun vs => snd (nth j vs d0)) (v0 :: vss)).
      rewrite (nth_indep _ [] (snd (nth j [] d0))) by (rewrite map_length; exact LT). now rewrite (map_nth (fun vs => snd (nth j vs d0))).
    + change (snd (nth j v0 d0) :: map (fun vs => snd (nth j vs d0)) vss) with (map (fun vs => snd (nth j vs d0)) (v0 :: vss)). apply Forall_map.
      apply Forall_forall. intros vs IN. rewrite Forall_forall in WD. pose proof (WD vs IN) as WV.
      assert (SV : sig vs = sig v0) by (destruct IN as [<-|IN]; [reflexivity|rewrite Forall_forall in SG; now apply SG]). split.
      * apply (sig_nth _ _ j SV).
      * rewrite Forall_forall in WV. apply WV. apply nth_In. rewrite (sig_len _ _ SV). exact J.
    + cbn [length]. rewrite map_length. exact LT.
Qed.

Notation lessk := (hal_less_ok k K1 n pr isA isB HO wordA others OT).
Notation cok := (const_ok k K1 n pr isA isB).
Notation heq := (holds_eq k n pr isA isB).
Lemma wrap_id x : 0 <= x < 2 ^ k -> wrap k x = x. Proof. apply wrap_small. Qed.
Lemma signed_self x : 0 <= x < 2 ^ (k - 1) -> signed_value k x x.
Proof. intros X. split; [lia|exists 0; lia]. Qed.
Lemma masks_ok norm i0 : holds norm (Z.of_nat i0) -> forall count start, Z.of_nat (start + count) <= 2 ^ (k - 1) ->
  wp (mapM (fun i => hal_equal k pr others (const k pr (Z.of_nat i)) norm) (seq start count)) (fun ms => Forall2 holds ms (map (fun i => bitof i i0) (seq start count))).
Proof.
  intros NM. pose proof (ph k K1) as PH. pose proof (ph0 k K1). induction count as [|c IH]; intros start B; cbn [seq mapM map].
  - apply wp_ret. constructor.
  - apply wp_bind. eapply wp_mono; [eapply (hal_equal_ok k K1 n pr isA isB HO wordA others OT); [apply cok|exact NM]|]. cbv beta. intros m M0.
    apply wp_bind. eapply wp_mono; [apply (IH (S start)); lia|]. cbv beta. intros ms MS. apply wp_ret. constructor; [|exact MS].
    rewrite wrap_id in M0 by lia. eapply heq; [exact M0|]. destruct (Z.eqb_spec (Z.of_nat start) (Z.of_nat i0)), (Nat.eqb_spec start i0); lia.
Qed.
Lemma case_ok index a v branches v0 vss : holds index a -> signed_value k a v ->
  Forall2 (fun b vs => wp b (fun r => Forall2 harr r vs)) branches (v0 :: vss) -> Forall (fun vs => sig vs = sig v0) vss ->
  Forall (Forall (fun v => Forall (word k) (snd v))) (v0 :: vss) -> Z.of_nat (length branches) <= 2 ^ (k - 1) ->
  wp (case_ k pr others index branches) (fun r => Forall2 harr r (nth (Z.to_nat (branch_no (Z.of_nat (length branches)) v)) (v0 :: vss) [])).
Proof.
  intros X V F SG WD CB. pose proof (ph k K1) as PH. pose proof (ph0 k K1) as PH0.
  assert (LB : length branches = S (length vss)) by (rewrite (F2_len _ _ _ F); reflexivity).
  set (cnt := Z.of_nat (length branches)) in *. set (i0 := Z.to_nat (branch_no cnt v)).
  assert (BN : 0 <= branch_no cnt v < cnt) by (unfold branch_no; destruct (Z.ltb_spec v 0), (Z.leb_spec cnt v); cbn [orb]; lia).
  assert (I0 : (i0 < S (length vss))%nat) by (unfold i0; lia).
  assert (L : wp (lo <- hal_less k pr index (const k pr 0) ;; hi <- hal_less k pr (const k pr (cnt - 1)) index ;; p <- hal_or pr others lo hi ;;
      norm <- hal_mux k pr p (const k pr (cnt - 1)) index ;;
      masks <- mapM (fun i => hal_equal k pr others (const k pr (Z.of_nat i)) norm) (seq 0 (length branches)) ;;
      values <- run_masked k pr branches masks ;; collect k pr values) (fun r => Forall2 harr r (nth i0 (v0 :: vss) []))).
  { apply wp_bind. eapply wp_mono; [eapply (lessk _ _ a _ v 0); [exact X|apply cok|exact V|rewrite wrap_id by lia; apply signed_self; lia|destruct V; lia]|].
    cbv beta. intros lo LO. apply wp_bind.
    assert (HI : wp (hal_less k pr (const k pr (cnt - 1)) index) (fun hi => exists h, holds hi h /\ (h = 0 \/ h = 1) /\ (0 <= v -> h = if cnt - 1 <? v then 1 else 0))).
    { destruct (Z.le_gt_cases 0 v) as [V0|V0].
      - eapply wp_mono; [eapply (lessk _ _ _ a (cnt - 1) v); [apply cok|exact X|rewrite wrap_id by lia; apply signed_self; lia|exact V|destruct V; lia]|].
        cbv beta. intros hi H. exists (if cnt - 1 <? v then 1 else 0). split; [exact H|]. split; [destruct (cnt - 1 <? v); lia|reflexivity].
      - eapply wp_mono; [eapply (hal_less_raw k K1 n pr isA isB HO wordA others OT); [apply cok|exact X]|]. cbv beta. intros hi H.
        eexists. split; [exact H|]. split; [|lia]. destruct H as [_ _].
        match goal with |- ?q / _ = 0 \/ _ => pose proof (word_wrap' k K1 (wrap k (cnt - 1) - a)) as [B1 B2]; change (wrap k (wrap k (cnt - 1) - a)) with q in B1, B2 end.
        match type of B2 with ?q < _ => destruct (Z.lt_ge_cases q (2 ^ (k - 1))) as [C0|C0];
          [left; apply Z.div_small; lia|right; symmetry; apply (Z.div_unique q (2 ^ (k - 1)) 1 (q - 2 ^ (k - 1))); lia] end. }
    eapply wp_mono; [exact HI|]. cbv beta. intros hi (h & H & HB & HV). apply wp_bind.
    eapply wp_mono; [eapply (hal_or_ok k K1 n pr isA isB HO wordA others OT); [exact LO|exact H]|]. cbv beta. intros p P0.
    set (pc := Z.lor (if v <? 0 then 1 else 0) h) in *.
    assert (PC : pc = if (v <? 0) || (cnt <=? v) then 1 else 0).
    { unfold pc. destruct (Z.ltb_spec v 0) as [L0|L0]; cbn [orb]; [destruct HB as [-> | ->]; reflexivity|]. rewrite HV by lia.
      destruct (Z.ltb_spec (cnt - 1) v), (Z.leb_spec cnt v); try lia; reflexivity. }
    assert (HP : holds p pc) by (repeat match type of P0 with _ /\ _ => destruct P0 as [P0 ?] end; first [exact P0 | split; assumption]).
    apply wp_bind. eapply wp_mono; [eapply (hal_mux_ok k K1 n pr isA isB HO wordA others OT); [exact HP|rewrite PC; destruct ((v <? 0) || (cnt <=? v)); auto|apply cok|exact X]|].
    cbv beta. intros norm NM0. assert (NM : holds norm (Z.of_nat i0)).
    { eapply heq; [first [exact NM0|exact (proj1 NM0)]|]. rewrite wrap_id by lia. unfold i0. rewrite Z2Nat.id by lia. unfold branch_no. rewrite PC.
      destruct (Z.ltb_spec v 0) as [L0|L0]; cbn [orb]; [reflexivity|]. destruct (cnt <=? v); [reflexivity|]. cbn [Z.eqb].
      destruct V as [VR [q E]], X as [[X1 X2] _]. assert (q = 0) by nia. subst q. lia. }
    apply wp_bind. eapply wp_mono; [apply (masks_ok norm i0 NM); fold cnt; lia|]. cbv beta. intros ms MS.
    apply wp_bind. eapply wp_mono; [eapply run_masked_ok; [exact F|exact MS|]|].
    { rewrite (F2_len _ _ _ MS), map_length, seq_length. reflexivity. }
    cbv beta. intros values VL. rewrite LB in VL. cbn [seq map combine] in VL.
    replace (map (fun '(c, vs) => map (masked c) vs) (combine (map (fun i => bitof i i0) (seq 1 (length vss))) vss)) with
      (map (fun '(i, vs) => map (masked (bitof i i0)) vs) (combine (seq 1 (length vss)) vss)) in VL.
    2: { generalize 1%nat. clear. induction vss as [|vs vss IH]; intros s; [reflexivity|]. cbn. f_equal. apply IH. }
    eapply wp_mono; [eapply collect_ok; [exact VL|]|].
    - clear - SG. generalize 1%nat. induction SG as [|vs vss S1 SG IH]; intros s; [constructor|]. cbn. constructor; [now rewrite !sig_masked|apply IH].
    - cbv beta. intros rs RS. rewrite (pick_branch i0 v0 vss SG WD I0) in RS. exact RS. }
  destruct index as [p|o g|s|s]; cbn [case_]; try exact L.
  destruct X as [XW XE]. cbn in XE. subst p. rewrite (signed_unique k a (sgn k a) v (signed_sgn k a ltac:(lia) XW) V ltac:(lia)). fold cnt.
  assert (E : (if (v <? 0) || (cnt - 1 <? v) then cnt - 1 else v) = branch_no cnt v).
  { unfold branch_no. destruct (Z.ltb_spec v 0), (Z.ltb_spec (cnt - 1) v), (Z.leb_spec cnt v); cbn [orb]; lia. }
  rewrite E. fold i0. destruct (F2_nth_error _ [] _ _ F i0 ltac:(cbn [length]; lia)) as (b & NE & HB). rewrite NE. destruct (Z.ltb_spec (branch_no cnt v) 0); [lia|]. exact HB.
Qed.
Lemma while_ok (cond : list arr -> M arr) (body : list arr -> M (list arr)) (I : list (list Z * list Z) -> Prop) cv bv :
  (forall st vs, Forall2 harr st vs -> I vs -> wp (cond st) (fun c => exists sh p, c = mkArr sh [VP p] /\ (p <> 0 <-> cv vs = true))) ->
  (forall vs, I vs -> cv vs = true -> I (bv vs)) ->
  (forall st vs, Forall2 harr st vs -> I vs -> cv vs = true -> wp (body st) (fun r => Forall2 harr r (bv vs))) ->
  forall vs vs', loops cv bv vs vs' -> I vs -> exists fuel, forall more st, Forall2 harr st vs ->
    wp (while_ pr (fuel + more) cond body st) (fun r => exists st', r = Some st' /\ Forall2 harr st' vs').
Proof.
  intros HC HI HB vs vs' L. induction L as [vs E|vs vs' E L IH]; intros I0.
  - exists 1%nat. intros more st ST. cbn [Nat.add while_]. apply wp_bind. eapply wp_mono; [apply (HC st vs ST I0)|]. cbv beta.
    intros c (sh & p & -> & HP). cbn [a_el]. destruct (Z.eqb_spec p 0) as [->|NP]; [|apply HP in NP; congruence]. apply wp_ret. now exists st.
  - destruct (IH (HI vs I0 E)) as [fuel HF]. exists (S fuel). intros more st ST. cbn [Nat.add while_]. apply wp_bind. eapply wp_mono; [apply (HC st vs ST I0)|]. cbv beta.
    intros c (sh & p & -> & HP). cbn [a_el]. destruct (Z.eqb_spec p 0) as [->|NP]; [apply HP in E; congruence|].
    apply wp_bind. eapply wp_mono; [apply (HB st vs ST I0 E)|]. cbv beta. intros st' ST'. now apply HF.
Qed.
End Proof.
