(* Proofs about dynamic slice and dynamic update slice for any protocol meeting proto_ok. *)
From Verif Require Import Base Ring_model Ring_spec Ring_proof Share_spec Party Semi_model Semi_proof.
From Verif Require Import Perm_proof Disp_model Disp_spec Disp_proof Dispd_proof Hlo_model Hlo_spec Hlo_proof Hloc_proof Dyn_model Dyn_spec Dynw_proof.
Open Scope Z_scope.

Lemma mapM_seq {md : Mode} {Y W} (op : nat -> M Y) (R : Y -> W -> Prop) (g : nat -> W) m :
  (forall i, (i < m)%nat -> wp (op i) (fun y => R y (g i))) -> wp (mapM op (seq 0 m)) (fun ys => Forall2 R ys (map g (seq 0 m))).
Proof.
  intros H. eapply wp_mono; [apply (mapM_wp op (fun i j => i = j /\ (i < m)%nat) (fun y j => R y (g j)))|].
  - intros i j [<- LT]. now apply H.
  - assert (G : forall l, (forall i, In i l -> (i < m)%nat) -> Forall2 (fun i j => i = j /\ (i < m)%nat) l l).
    { induction l as [|a l IH]; intros B; constructor; [split; [reflexivity|apply B; now left]|apply IH; intros; apply B; now right]. }
    apply G. intros i I. apply in_seq in I. lia.
  - cbv beta. intros ys F. now apply F2_map.
Qed.
Lemma F2_concat {X Y} (R : X -> Y -> Prop) : forall l m, Forall2 (Forall2 R) l m -> Forall2 R (concat l) (concat m).
Proof. induction 1 as [|a b l m H F IH]; cbn; [constructor|]. now apply Forall2_app. Qed.
Lemma F2_firstn {X Y} (R : X -> Y -> Prop) j : forall l m, Forall2 R l m -> Forall2 R (firstn j l) (firstn j m).
Proof. induction j as [|j IH]; intros l m F; [constructor|]. destruct F; [constructor|]. cbn. constructor; auto. Qed.
Lemma F2_skipn {X Y} (R : X -> Y -> Prop) j : forall l m, Forall2 R l m -> Forall2 R (skipn j l) (skipn j m).
Proof. induction j as [|j IH]; intros l m F; [exact F|]. destruct F; [constructor|]. cbn. auto. Qed.
Lemma F2_repeat {X Y} (R : X -> Y -> Prop) x y j : R x y -> Forall2 R (repeat x j) (repeat y j).
Proof. intros H. induction j; cbn; constructor; auto. Qed.
Lemma nth_ext_error {A} : forall l m : list A, (forall p, nth_error l p = nth_error m p) -> l = m.
Proof.
  induction l as [|a l IH]; intros [|b m] E; auto; try (now specialize (E O)).
  f_equal; [specialize (E O); cbn in E; congruence|]. apply IH. intros p. exact (E (S p)).
Qed.

Section Proof.
Context {md : Mode} {HS : Shifts}.
Variable k : Z.
Hypothesis K1 : 1 < k.
Variable n : nat.
Variable pr : proto.
Variable isA : ash pr -> Z -> Prop.
Variable isB : bsh pr -> Z -> Prop.
Hypothesis HO : proto_ok k n pr isA isB.
Hypothesis wordA : forall a x, isA a x -> word k x.
Variable others : nat -> Z.
Hypothesis OT : forall t, 0 <= others t <= k.
Notation val := (val pr).
Notation holds := (holds k n pr isA isB).
Notation sized := (sized k). Notation pub_ok := (pub_ok pr).
Notation onehot j0 m := (map (fun j => if (j0 =? j)%nat then 1 else 0) (seq 0 m)).

Lemma holds_word' (x : val) a : holds x a -> word k a.
Proof. intros H. exact (proj1 H). Qed.
Lemma words' (xs : list val) vs : Forall2 holds xs vs -> Forall (word k) vs.
Proof. induction 1; constructor; auto. eapply holds_word'; eassumption. Qed.
Lemma small_word j : Z.of_nat j < 2 ^ k -> wrap k (Z.of_nat j) = Z.of_nat j.
Proof using. clear. intros H. apply wrap_small. lia. Qed.

Lemma at_pos_ok (xs : list val) vs p : Forall2 holds xs vs -> (p < length vs)%nat -> wp (at_pos xs (Z.of_nat p)) (fun x => holds x (nth p vs 0)).
Proof.
  intros F L. unfold at_pos. destruct (Z.ltb_spec (Z.of_nat p) 0); [lia|]. rewrite Nat2Z.id.
  destruct (F2_nth_error holds 0 xs vs F p L) as (x & E & H'). rewrite E. now apply wp_ret.
Qed.

(* ---- selection by a one-hot mask ---- *)
Fixpoint dotw (ms xs : list Z) (acc : Z) : Z := match ms, xs with m :: ms, x :: xs => dotw ms xs (wrap k (acc + wrap k (m * x))) | _, _ => acc end.
Lemma dotp_ok : forall ms mw, Forall2 holds ms mw -> forall xs xw, Forall2 holds xs xw -> forall acc a, holds acc a ->
  wp (dotp k pr ms xs acc) (fun r => holds r (dotw mw xw a)).
Proof.
  intros ms mw F. induction F as [|m v ms mw HM F IH]; intros xs xw FX acc a HA; [now apply wp_ret|]. inversion FX as [|x u xs' xw' HX FX']; subst; [now apply wp_ret|].
  cbn [dotp dotw]. apply wp_bind. eapply wp_mono; [eapply (hal_mul_ok k K1 n pr _ _ HO wordA others OT); eassumption|]. cbv beta. intros p [P _].
  apply wp_bind. eapply wp_mono; [eapply (hal_add_ok k K1 n pr _ _ HO wordA); eassumption|]. cbv beta. intros r [R _]. now apply IH.
Qed.
Lemma dotw_hot j0 : forall xs s a, word k a -> Forall (word k) xs ->
  dotw (map (fun j => if (j0 =? j)%nat then 1 else 0) (seq s (length xs))) xs a =
  if (s <=? j0)%nat && (j0 <? s + length xs)%nat then wrap k (a + nth (j0 - s) xs 0) else a.
Proof using K1. clear - K1.
  induction xs as [|x xs IH]; intros s a A F.
  - cbn [length seq map dotw]. replace ((s <=? j0)%nat && (j0 <? s + 0)%nat) with false; [reflexivity|]. symmetry. apply andb_false_iff. destruct (Nat.leb_spec s j0); [right; apply Nat.ltb_ge; lia|now left].
  - inversion F as [|? ? X F']; subst. cbn [length seq map dotw]. rewrite IH; [|apply word_wrap; lia|exact F'].
    destruct (Nat.eqb_spec j0 s) as [->|NE].
    + rewrite Z.mul_1_l, (wrap_small k x) by exact X. replace (S s <=? s)%nat with false by (symmetry; apply Nat.leb_gt; lia).
      rewrite Nat.leb_refl. replace (s <? s + S (length xs))%nat with true by (symmetry; apply Nat.ltb_lt; lia). cbn [andb]. rewrite Nat.sub_diag. reflexivity.
    + rewrite Z.mul_0_l, (wrap_small k 0), Z.add_0_r, (wrap_small k a) by (first [exact A|split; [lia|apply pow2_pos; lia]]).
      destruct (Nat.leb_spec (S s) j0), (Nat.leb_spec s j0); try lia; cbn [andb]; [|reflexivity].
      replace (j0 <? S s + length xs)%nat with (j0 <? s + S (length xs))%nat by (f_equal; lia).
      destruct (j0 <? s + S (length xs))%nat; [|reflexivity]. replace (j0 - s)%nat with (S (j0 - S s)) by lia. reflexivity.
Qed.
Lemma row_matmul_ok ms data vs D inner j0 : Forall2 holds ms (onehot j0 D) -> Forall2 holds data vs -> length vs = (D * inner)%nat -> (j0 < D)%nat ->
  wp (row_matmul k pr ms data D inner) (fun r => Forall2 holds r (row inner j0 vs)).
Proof.
  intros HM HD LV LJ. assert (ER : row inner j0 vs = map (fun c => nth (j0 * inner + c) vs 0) (seq 0 inner)).
  { apply nth_ext_error. intros p. destruct (Nat.lt_ge_cases p inner) as [P|P].
    - rewrite nth_row by exact P. rewrite nth_seq_map by exact P. cbn [Nat.add]. apply nth_error_nth'. nia.
    - rewrite (proj2 (nth_error_None _ _)); [symmetry; apply nth_error_None; rewrite map_length, seq_length; exact P|]. rewrite row_len by nia. exact P. }
  rewrite ER. unfold row_matmul. apply mapM_seq. intros c LC.
  apply wp_bind. eapply wp_mono; [apply (mapM_seq _ holds (fun p => nth (p * inner + c) vs 0))|].
  - intros p LP. apply at_pos_ok; [exact HD|]. nia.
  - cbv beta. intros xs XS. eapply wp_mono; [eapply dotp_ok; [exact HM|exact XS|apply (const0 k K1 n pr isA isB wordA others OT)]|]. cbv beta. intros r R.
    match goal with _ : holds r ?u |- holds r ?v => replace v with u; [exact R|] end.
    pose proof (dotw_hot j0 (map (fun p => nth (p * inner + c) vs 0) (seq 0 D)) 0 0) as Q. rewrite map_length, seq_length in Q.
    rewrite Q; [|split; [lia|apply pow2_pos; lia]|exact (words' _ _ XS)]. cbn [Nat.leb Nat.add andb]. rewrite (proj2 (Nat.ltb_lt j0 D) LJ), Z.add_0_l, Nat.sub_0_r.
    assert (EN : nth j0 (map (fun p => nth (p * inner + c) vs 0) (seq 0 D)) 0 = nth (j0 * inner + c) vs 0).
    { apply nth_error_nth with (d := 0). rewrite nth_seq_map by exact LJ. reflexivity. }
    rewrite EN. apply wrap_small. pose proof (words' _ _ HD) as WV. rewrite Forall_forall in WV. apply WV. apply nth_In. nia.
Qed.
Lemma mask_shift c s D i : (i < s)%nat -> (c + s <= D)%nat ->
  firstn D (skipn (s + D - i - D) (repeat 0 s ++ onehot c D)) = onehot (c + i) D.
Proof using. clear.
  intros LI LC. apply nth_ext_error. intros p. destruct (Nat.lt_ge_cases p D) as [P|P].
  - rewrite nth_firstn', nth_skipn' by exact P. rewrite nth_seq_map by exact P. cbn [Nat.add].
    destruct (Nat.lt_ge_cases (s + D - i - D + p) s) as [Q|Q].
    + rewrite nth_error_app1 by (rewrite repeat_length; exact Q). rewrite nth_error_repeat by exact Q. destruct (Nat.eqb_spec (c + i) p); [lia|reflexivity].
    + rewrite nth_error_app2 by (rewrite repeat_length; exact Q). rewrite repeat_length, nth_seq_map by lia. cbn [Nat.add]. f_equal.
      destruct (Nat.eqb_spec c (s + D - i - D + p - s)), (Nat.eqb_spec (c + i) p); try reflexivity; lia.
  - rewrite !(proj2 (nth_error_None _ _)); [reflexivity| |].
    + rewrite map_length, seq_length. exact P.
    + rewrite firstn_length. lia.
Qed.
Lemma concat_rows_ok (rs : list (list val)) ws : rs <> [] -> Forall2 (Forall2 holds) rs ws -> wp (concat_rows rs) (fun r => Forall2 holds r (concat ws)).
Proof. intros NE F. destruct rs; [congruence|]. apply wp_ret. now apply F2_concat. Qed.
Lemma concat_singles {A} inner : forall (l : list A), inner = 1%nat -> concat (map (fun i => row inner i l) (seq 0 (length l))) = l.
Proof using. clear.
  intros l ->. apply nth_ext_error. intros p.
  assert (RL : Forall (fun r => length r = 1%nat) (map (fun i => row 1 i l) (seq 0 (length l)))).
  { apply Forall_map, Forall_forall. intros i I. apply in_seq in I. apply row_len. lia. }
  destruct (Nat.lt_ge_cases p (length l)) as [P|P].
  - replace p with (p * 1 + 0)%nat at 1 by lia. rewrite (nth_concat 1) by (auto; lia). rewrite nth_seq_map by exact P. rewrite nth_row by lia. f_equal. lia.
  - rewrite !(proj2 (nth_error_None _ _)); [reflexivity|exact P|]. rewrite (concat_len 1), map_length, seq_length by exact RL. lia.
Qed.
Lemma dslice_ok : forall sh sz cs st data vs, sh <> [] -> fits sh sz cs -> Forall (fun s => (0 < s)%nat) sz -> Forall (fun D => Z.of_nat D < 2 ^ k) sh ->
  Forall2 (fun x c => holds x (Z.of_nat c)) st cs -> Forall2 holds data vs -> length vs = numel sh ->
  wp (dslice k pr others sh sz st data) (fun r => Forall2 holds r (win sh sz cs vs)).
Proof.
  induction sh as [|D sh IH]; intros [|s sz] [|c cs] st data vs NE (F & L1 & L2) SP DB ST HD LV; try discriminate; [congruence|].
  cbn in F. inversion F as [|? ? ? ? F0 F1]; subst. cbn [fst snd] in F0. cbn [length] in L1, L2.
  inversion ST as [|x ? st' ? HX ST']; subst. inversion SP as [|? ? SP0 SP']; subst. inversion DB as [|? ? DB0 DB']; subst.
  assert (FT : fits sh sz cs) by (repeat split; auto; lia).
  change (numel (D :: sh)) with (D * numel sh)%nat in LV. cbn [dslice win]. rewrite prod_numel.
  (* what happens to each row *)
  assert (DEEP : forall rows ws, Forall2 (Forall2 holds) rows ws -> Forall (fun w => length w = numel sh) ws ->
    wp (match sz with [] => ret rows | _ => mapM (fun r => dslice k pr others sh sz st' r) rows end) (fun rs => Forall2 (Forall2 holds) rs (map (win sh sz cs) ws))).
  { intros rows ws FR WL. destruct sz as [|s' sz].
    - destruct sh; [|discriminate]. apply wp_ret. rewrite (map_ext _ (fun w => w)); [now rewrite map_id|]. intros w. reflexivity.
    - eapply wp_mono; [apply (mapM_wp _ (fun r w => Forall2 holds r w /\ length w = numel sh) (fun r w => Forall2 holds r (win sh (s' :: sz) cs w)))|].
      + intros r w [R W]. apply IH; auto; destruct sh; [discriminate|congruence].
      + clear - FR WL. induction FR as [|r0 w0 rs0 ws0 H0 FR0 IH0]; [constructor|]. inversion WL; subst. constructor; [now split|auto].
      + cbv beta. intros rs RS. now apply F2_map. }
  assert (RWS : forall i, (i < D)%nat -> length (row (numel sh) i vs) = numel sh) by (intros i LI; apply row_len; rewrite LV; nia).
  destruct (Nat.eqb_spec s D) as [E|NEQ].
  - subst s. assert (c = 0%nat) by lia. subst c. destruct sz as [|s' sz].
    + destruct sh; [|discriminate]. apply wp_ret. cbn [Nat.add win]. rewrite <- (concat_singles 1 vs eq_refl) in HD at 1.
      change (numel []) with 1%nat in *. rewrite LV, Nat.mul_1_r in HD. exact HD.
    + apply wp_bind. eapply wp_mono; [apply (mapM_seq _ (Forall2 holds) (fun i => win sh (s' :: sz) cs (row (numel sh) i vs)))|].
      * intros i LI. apply IH; auto; first [now apply RWS|unfold row; now apply F2_firstn, F2_skipn|destruct sh; [discriminate|congruence]].
      * cbv beta. intros rs RS. cbn [Nat.add]. apply concat_rows_ok; [|exact RS]. intros ->. inversion RS as [E|]. destruct D; [lia|discriminate].
  - apply wp_bind. eapply wp_mono; [apply (mapM_seq _ (fun r b => holds r b) (fun j => if (c =? j)%nat then 1 else 0))|].
    { intros j LJ. eapply wp_mono; [eapply (hal_equal_ok k K1 n pr _ _ HO wordA others OT); [exact HX|apply (const_ok k K1 n pr isA isB)]|]. cbv beta. intros r R.
      rewrite small_word in R by lia. replace (Z.of_nat c =? Z.of_nat j) with (c =? j)%nat in R; [exact R|].
      destruct (Nat.eqb_spec c j), (Z.eqb_spec (Z.of_nat c) (Z.of_nat j)); try reflexivity; lia. }
    cbv beta. intros mask MK.
    assert (LM : length mask = D) by (rewrite (F2_len _ _ _ MK), map_length, seq_length; reflexivity).
    assert (MK' : Forall2 holds (map (setnb1 pr) mask) (onehot c D)).
    { assert (B : Forall (fun b => 0 <= b <= 1) (onehot c D)) by (apply Forall_map, Forall_forall; intros j _; destruct (c =? j)%nat; lia).
      clear - MK B HO wordA K1 OT. induction MK; inversion B; subst; cbn; constructor; auto. eapply (setnb1_ok k n pr isA isB HO wordA others OT); eassumption. }
    assert (PD : Forall2 holds (repeat (const k pr 0) s ++ map (setnb1 pr) mask) (repeat 0 s ++ onehot c D)) by (apply Forall2_app; [apply F2_repeat, (const0 k K1 n pr isA isB wordA others OT)|exact MK']).
    apply wp_bind. eapply wp_mono; [apply (mapM_seq _ (Forall2 holds) (fun i => row (numel sh) (c + i) vs))|].
    { intros i LI. rewrite app_length, repeat_length, map_length, LM. apply row_matmul_ok; auto; [|lia].
      rewrite <- (mask_shift c s D i) by lia. apply F2_firstn, F2_skipn. exact PD. }
    cbv beta. intros rows RS. apply wp_bind. eapply wp_mono; [apply (DEEP rows _ RS)|].
    { apply Forall_map, Forall_forall. intros i I. apply in_seq in I. apply RWS. lia. }
    cbv beta. intros rs RS'. rewrite map_map in RS'. apply concat_rows_ok; [|exact RS']. intros ->. inversion RS' as [E|]. destruct s; [lia|discriminate].
Qed.

(* ---- clamping ---- *)
Lemma clamp_start_ok x a v up : holds x a -> signed_value k a v -> 0 <= up < 2 ^ (k - 1) ->
  wp (clamp_start k pr x up) (fun r => holds r (Z.min (Z.max v 0) up)).
Proof.
  intros X V U. pose proof (pow2_half k ltac:(lia)) as PH. pose proof (pow2_pos (k - 1) ltac:(lia)) as PP. pose proof (proj1 V) as VR. unfold clamp_start.
  eapply wp_mono; [eapply (hal_clamp_ok k K1 n pr _ _ HO wordA others OT) with (v := 0) (w := up); [exact X|apply (const0 k K1 n pr isA isB wordA others OT)|apply (const_ok k K1 n pr isA isB)|exact V| | |lia|lia]|].
  - split; [lia|]. exists 0. lia.
  - apply signed_of_range; lia.
  - cbv beta. intros r (d & D & SV). assert (E : d = wrap k (Z.min (Z.max v 0) up)) by (apply wrap_of_signed; [lia|exact (holds_word' _ _ D)|exact SV]).
    rewrite E, wrap_small in D by lia. exact D.
Qed.
Lemma clamp_all_ok : forall sh sz st ws vs, sized sh sz -> Forall2 holds st ws -> Forall2 (signed_value k) ws vs -> length vs = length sh ->
  wp (clamp_all k pr st sh sz) (fun r => Forall2 (fun x c => holds x (Z.of_nat c)) r (clamps sh sz vs)).
Proof.
  intros sh sz st ws vs SZ. revert st ws vs. induction SZ as [|D s sh sz [H B] SZ IH]; intros st ws vs ST SV L.
  - destruct vs; [|discriminate]. inversion SV; subst. inversion ST; subst. cbn. apply wp_ret. constructor.
  - destruct vs as [|v vs]; [discriminate|]. inversion SV as [|w ? ws' ? V SV']; subst. inversion ST as [|x ? st' ? X ST']; subst. cbn [clamp_all clamps].
    apply wp_bind. eapply wp_mono; [eapply clamp_start_ok; [exact X|exact V|lia]|]. cbv beta. intros c C.
    apply wp_bind. eapply wp_mono; [eapply IH; [exact ST'|exact SV'|cbn in L; lia]|]. cbv beta. intros cs CS. apply wp_ret. constructor; [|exact CS].
    unfold clamped. rewrite Z2Nat.id by lia. exact C.
Qed.
Lemma clamps_fit : forall sh sz vs, sized sh sz -> length vs = length sh -> fits sh sz (clamps sh sz vs).
Proof using. clear.
  intros sh sz vs SZ. revert vs. induction SZ as [|D s sh sz [H B] SZ IH]; intros [|v vs] L; try discriminate; [repeat split; constructor|].
  cbn in L. destruct (IH vs ltac:(lia)) as (F & L1 & L2). cbn. repeat split; cbn; try lia. constructor; [|exact F]. cbn. unfold clamped. lia.
Qed.
Lemma sized_pos sh sz : sized sh sz -> Forall (fun s => (0 < s)%nat) sz.
Proof using. clear. induction 1 as [|D s sh sz [H _] F IH]; constructor; [lia|exact IH]. Qed.
Lemma sized_lt sh sz : sized sh sz -> Forall (fun D => Z.of_nat D < 2 ^ k) sh.
Proof using K1. clear - K1.
  intros F. pose proof (pow2_half k ltac:(lia)). pose proof (pow2_pos (k - 1) ltac:(lia)). induction F as [|D s sh sz [_ B] F IH]; constructor; [lia|exact IH].
Qed.
Lemma secret_core_ok sh sz st ws vs data xs : sh <> [] -> sized sh sz -> Forall2 holds st ws -> Forall2 (signed_value k) ws vs -> length vs = length sh ->
  Forall2 holds data xs -> length xs = numel sh -> wp (secret_core k pr others sh sz st data) (fun r => Forall2 holds r (win sh sz (clamps sh sz vs) xs)).
Proof.
  intros NE SZ ST SV L HD LX. unfold secret_core. apply wp_bind. eapply wp_mono; [eapply clamp_all_ok; eassumption|]. cbv beta. intros c C.
  apply dslice_ok; auto; [now apply clamps_fit|now apply (sized_pos sh)|now apply (sized_lt sh sz)].
Qed.

(* ---- plain slices ---- *)
Lemma slice_box_ok sh sz cs data xs : fits sh sz cs -> Forall2 holds data xs -> length xs = numel sh ->
  wp (slice_box sh (map Z.of_nat cs) sz data) (fun r => Forall2 holds r (win sh sz cs xs)).
Proof.
  intros F HD LX. pose proof F as (_ & L1 & L2).
  assert (E : win sh sz cs xs = map (fun p => nth (Z.to_nat p) xs 0) (positions sh (map Z.of_nat cs) sz 0)).
  { apply (window_unique sh sz cs xs); [now apply win_window|]. split.
    - rewrite map_length. apply len_positions; rewrite ?map_length; auto.
    - intros idx I. rewrite nth_error_map, nth_positions by auto. cbn [option_map]. rewrite Z.mul_0_l, Z.add_0_l, Nat2Z.id. symmetry. apply nth_error_nth'.
      rewrite LX. apply flat_lt. now apply (inside_shift sh sz cs). }
  rewrite E. unfold slice_box.
  eapply wp_mono; [apply (mapM_wp _ (fun p q => p = q /\ 0 <= q /\ (Z.to_nat q < length xs)%nat) (fun r q => holds r (nth (Z.to_nat q) xs 0))) with (ws := positions sh (map Z.of_nat cs) sz 0)|].
  - intros p q (<- & Q0 & Q1). rewrite <- (Z2Nat.id p) at 1 by exact Q0. now apply at_pos_ok.
  - assert (B : forall p, In p (positions sh (map Z.of_nat cs) sz 0) -> 0 <= p /\ (Z.to_nat p < length xs)%nat).
    { intros p P. destruct (in_positions _ _ _ _ L1 L2 P) as (idx & I & ->). split; [lia|]. rewrite Nat2Z.id, LX. apply flat_lt. now apply (inside_shift sh sz cs). }
    revert B. generalize (positions sh (map Z.of_nat cs) sz 0). clear. induction l as [|p l IH]; intros B; constructor; [split; [reflexivity|apply B; now left]|]. apply IH. intros q Q. apply B. now right.
  - cbv beta. intros r R. now apply F2_map.
Qed.

(* ---- mixed visibility ---- *)
(* the two-step window of a mixed slice *)
Fixpoint pub_starts (st : list val) (sh sz : list nat) (vs : list Z) : list nat :=
  match st, sh, sz, vs with
  | x :: st, D :: sh, s :: sz, v :: vs => (if is_public pr x then clamped D s v else O) :: pub_starts st sh sz vs
  | _, _, _, _ => []
  end.
Fixpoint pub_dims (st : list val) (sh sz : list nat) : list nat :=
  match st, sh, sz with x :: st, D :: sh, s :: sz => (if is_public pr x then s else D) :: pub_dims st sh sz | _, _, _ => [] end.
Definition sec_vals (st : list val) (vs : list Z) : list Z := map (fun '(x, v) => if is_public pr x then 0 else v) (combine st vs).
Lemma sgn_of a v : word k a -> signed_value k a v -> sgn k a = v.
Proof using K1. clear - K1. intros W V. apply (Perm_proof.signed_unique k a); [apply signed_sgn; [lia|exact W]|exact V|lia]. Qed.
Lemma prune_ok : forall sh sz st ws vs, sized sh sz -> Forall2 holds st ws -> Forall2 (signed_value k) ws vs -> length vs = length sh -> Forall2 pub_ok st vs ->
  wp (prune k pr st sh sz) (fun r => let '(st', start, dims) := r in
    start = map Z.of_nat (pub_starts st sh sz vs) /\ dims = pub_dims st sh sz /\
    exists ws', Forall2 holds st' ws' /\ Forall2 (signed_value k) ws' (sec_vals st vs)).
Proof.
  intros sh sz st ws vs SZ. revert st ws vs. induction SZ as [|D s sh sz [H B] SZ IH]; intros st ws vs ST SV L PO.
  - destruct vs; [|discriminate]. inversion SV; subst. inversion ST; subst. cbn. apply wp_ret. repeat split. exists []. split; constructor.
  - destruct vs as [|v vs]; [discriminate|]. inversion SV as [|w ? ws' ? V SV']; subst. inversion ST as [|x ? st' ? X ST']; subst. inversion PO as [|? ? ? ? P0 PO']; subst.
    cbn [prune]. apply wp_bind. eapply wp_mono; [eapply IH; [exact ST'|exact SV'|cbn in L; lia|exact PO']|]. cbv beta.
    intros [[st'' start] dims] (E1 & E2 & ws'' & S1 & S2). subst start dims.
    destruct x as [p|o f|sa|sb].
    2-4: apply wp_ret; cbn [pub_starts pub_dims is_public map]; repeat split; exists (w :: ws''); split; [now constructor|unfold sec_vals; cbn; now constructor].
    apply wp_bind. unfold bop. apply wp_bind. eapply wp_mono.
    { apply (wp_call (fun t => k_p2a pr t 0) (fun a => isA a 0)). intros t. apply (ok_p2a _ _ _ _ _ HO). split; [lia|apply pow2_pos; lia]. }
    cbv beta. intros a A. apply wp_ret. apply wp_ret. cbn [pub_starts pub_dims is_public map]. cbn in P0. destruct X as [WD <-]. rewrite (sgn_of _ _ WD V). repeat split.
    + f_equal. unfold clamped. lia.
    + exists (0 :: ws''). split; [constructor; [|exact S1]; split; [split; [lia|apply pow2_pos; lia]|exact A]|].
      unfold sec_vals. cbn. constructor; [|exact S2]. pose proof (pow2_pos (k - 1) ltac:(lia)). split; [lia|]. exists 0. lia.
Qed.
Lemma mixed_window : forall sh sz st vs, sized sh sz -> length st = length sh -> length vs = length sh ->
  let d := pub_dims st sh sz in let c2 := clamps d sz (sec_vals st vs) in
  fits sh d (pub_starts st sh sz vs) /\ sized d sz /\ length (sec_vals st vs) = length d /\
  shift (pub_starts st sh sz vs) c2 = clamps sh sz vs.
Proof using. clear.
  intros sh sz st vs SZ. revert st vs. induction SZ as [|D s sh sz [H B] SZ IH]; intros [|x st] [|v vs] L1 L2; try discriminate.
  - repeat split; constructor.
  - cbn in L1, L2. destruct (IH st vs ltac:(lia) ltac:(lia)) as ((F & G1 & G2) & S1 & S2 & S3). cbn. cbn in S3. unfold sec_vals in *. cbn.
    destruct (is_public pr x).
    + repeat split; cbn; try lia.
      * constructor; [|exact F]. cbn. unfold clamped. lia.
      * constructor; [split; lia|exact S1].
      * unfold shift in *. cbn. f_equal; [unfold clamped; lia|exact S3].
    + repeat split; cbn; try lia.
      * constructor; [|exact F]. cbn. lia.
      * constructor; [split; lia|exact S1].
      * unfold shift in *. cbn. f_equal. exact S3.
Qed.
Theorem secret_dynamic_slice_ok sh sz st ws vs data xs : sh <> [] -> sized sh sz -> Forall2 holds st ws -> Forall2 (signed_value k) ws vs -> length vs = length sh ->
  Forall2 pub_ok st vs -> Forall2 holds data xs -> length xs = numel sh ->
  wp (secret_dynamic_slice k pr others sh sz st data) (fun r => Forall2 holds r (win sh sz (clamps sh sz vs) xs)).
Proof.
  intros NE SZ ST SV L PO HD LX. unfold secret_dynamic_slice. destruct (existsb (is_public pr) st) eqn:EP; [|eapply secret_core_ok; eassumption].
  apply wp_bind. eapply wp_mono; [eapply prune_ok; eassumption|]. cbv beta. intros [[st' start] dims] (-> & -> & ws' & S1 & S2).
  assert (LS : length st = length sh) by (rewrite (F2_len _ _ _ ST), (F2_len _ _ _ SV); exact L).
  destruct (mixed_window sh sz st vs SZ LS L) as (M1 & M2 & M3 & M4). pose proof M1 as (_ & LD & LC).
  apply wp_bind. eapply wp_mono; [eapply slice_box_ok; [exact M1|exact HD|exact LX]|]. cbv beta. intros pd PD.
  pose proof (win_window _ _ _ xs M1 LX) as W1.
  eapply wp_mono; [eapply secret_core_ok; [|exact M2|exact S1|exact S2|exact M3|exact PD|exact (proj1 W1)]|].
  { destruct sh; [congruence|]. destruct (pub_dims st (n0 :: sh) sz); [discriminate|congruence]. }
  cbv beta. intros r R.
  match goal with _ : Forall2 holds r ?u |- Forall2 holds r ?v => replace v with u; [exact R|] end.
  pose proof (clamps_fit _ _ _ M2 M3) as F2. eapply window_unique; [|apply win_window; [now apply clamps_fit|exact LX]].
  rewrite <- M4. eapply window_trans; [exact F2| |exact W1|apply win_window; [exact F2|exact (proj1 W1)]]. destruct F2 as (_ & _ & ->). lia.
Qed.
Lemma public_starts_eq : forall sh sz st ws vs, sized sh sz -> Forall2 holds st ws -> Forall2 (signed_value k) ws vs -> length vs = length sh ->
  forallb (is_public pr) st = true -> public_starts k pr st sh sz = map Z.of_nat (clamps sh sz vs).
Proof.
  intros sh sz st ws vs SZ. revert st ws vs. induction SZ as [|D s sh sz [H B] SZ IH]; intros st ws vs ST SV L AP.
  - destruct vs; [|discriminate]. inversion SV; subst. inversion ST; subst. reflexivity.
  - destruct vs as [|v vs]; [discriminate|]. inversion SV as [|w ? ws' ? V SV']; subst. inversion ST as [|x ? st' ? X ST']; subst. cbn in AP. apply andb_true_iff in AP. destruct AP as [AP0 AP].
    cbn [public_starts clamps map]. f_equal; [|eapply IH; eauto; cbn in L; lia]. destruct x as [p|o f|sa|sb]; try discriminate. destruct X as [WD <-]. rewrite (sgn_of _ _ WD V). unfold clamped. lia.
Qed.
Theorem dynamic_slice_ok sh sz st ws vs data xs : sh <> [] -> sized sh sz -> Forall2 holds st ws -> Forall2 (signed_value k) ws vs -> length vs = length sh ->
  (forallb (is_public pr) st = true \/ Forall2 pub_ok st vs) -> Forall2 holds data xs -> length xs = numel sh ->
  wp (dynamic_slice k pr others sh sz st data) (fun r => Forall2 holds r (win sh sz (clamps sh sz vs) xs)).
Proof.
  intros NE SZ ST SV L PO HD LX. unfold dynamic_slice.
  assert (LS : length st = length sh) by (rewrite (F2_len _ _ _ ST), (F2_len _ _ _ SV); exact L). pose proof (F2_len _ _ _ SZ) as LZ.
  replace (length sz =? length st)%nat with true by (symmetry; apply Nat.eqb_eq; lia). replace (length sz =? length sh)%nat with true by (symmetry; apply Nat.eqb_eq; lia).
  replace (length st =? 0)%nat with false by (symmetry; apply Nat.eqb_neq; destruct sh; [congruence|cbn in LS; lia]). cbn [negb orb].
  destruct (forallb (is_public pr) st) eqn:AP.
  - rewrite (public_starts_eq sh sz st ws vs) by auto. apply slice_box_ok; auto. now apply clamps_fit.
  - destruct PO as [PO|PO]; [discriminate|]. eapply secret_dynamic_slice_ok; eassumption.
Qed.
End Proof.
