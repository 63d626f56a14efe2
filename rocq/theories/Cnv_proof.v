(* Slices, concatenation, convolution through the contraction of stacked windows, batched products. *)
From Coq Require Import ZifyNat ZifyBool.
From Verif Require Import Base Ring_model Ring_spec Ring_proof Share_spec Conv_spec Disp_model Disp_spec Disp_proof Dyn_spec Dynw_proof Mm_model Mm_spec Mm_proof Mmm_proof Mmt_proof Cnv_model Cnv_spec.
Open Scope nat_scope.
#[local] Existing Instance strict.

(* ---- arrays by storage type ---- *)
Definition owner_ok (k : Z) (n : nat) (s : storage) : Prop := match s with SV o => o < n | SB nb => (0 <= nb <= k)%Z | _ => True end.
Definition el_ok (k : Z) (n : nat) (s : storage) (f : nat -> Z) (v : Z) : Prop :=
  match s with SP => f O = v | SV o => f o = v | SA => shA k n f v | SB nb => shBn k n nb f v end.
Lemma stands_el k n N e a : stands k n N e a <-> owner_ok k n (storage_of e) /\ forall p, p < N -> word k (a p) /\ el_ok k n (storage_of e) (elem e p) (a p).
Proof. unfold stands. destruct e; cbn; split; intros [H1 H2]; (split; [exact H1|exact H2]). Qed.
Lemma storage_build s f : storage_of (build s f) = s. Proof. now destruct s. Qed.
Lemma stands_build k n N s f a : owner_ok k n s -> (forall p, p < N -> word k (a p) /\ el_ok k n s (f p) (a p)) -> stands k n N (build s f) a.
Proof. intros O H. apply stands_el. rewrite storage_build. split; [exact O|]. intros p P. destruct (H p P) as [H1 H2]. split; [exact H1|]. now destruct s. Qed.
Lemma same_storage_refl s : same_storage s s = true.
Proof. destruct s; cbn; [reflexivity|apply Nat.eqb_refl|reflexivity|apply Z.eqb_refl]. Qed.
Lemma storage_renumber g e : storage_of (renumber g e) = storage_of e. Proof. now destruct e. Qed.

(* ---- slices ---- *)
Lemma combine_shift s idx : map (fun '(a, b) => a + b) (combine s idx) = shift s idx.
Proof. revert idx. induction s as [|a s IH]; intros [|b idx]; cbn; try reflexivity. f_equal. apply IH. Qed.
Lemma inside_slice sh s e : length s = length sh -> Forall2 (fun d e => e <= d) sh e -> forall idx, inside (map (fun '(s, e) => e - s) (combine s e)) idx -> inside sh (shift s idx).
Proof.
  intros L F. revert s L. induction F as [|d e sh es D F IH]; intros [|a s] L idx I; try discriminate; cbn in *; inversion I; subst; [constructor|].
  constructor; [lia|]. apply (IH s); [lia|assumption].
Qed.
Section Cnv.
Variable k : Z.
Variable n : nat.
Notation stands := (stands k n).

Lemma slice_ok sh el a s e : length s = length sh -> Forall2 (fun d e => e <= d) sh e -> stands (numel sh) el a ->
  let sh' := map (fun '(s, e) => e - s) (combine s e) in
  wp (slice (sh, el) s e) (fun v => fst v = sh' /\ storage_of (snd v) = storage_of el /\ kind_of (snd v) = kind_of el /\ stands (numel sh') (snd v) (fun p => a (flat sh (shift s (index_of sh' p))))).
Proof.
  intros L F S sh'. unfold slice. cbn [fst snd]. rewrite L, Nat.eqb_refl. assert (LE : length e = length sh) by (clear - F; induction F; cbn; congruence). rewrite LE, Nat.eqb_refl. cbn [andb].
  assert (B : forallb (fun '(d, e) => e <=? d) (combine sh e) = true) by (clear - F; induction F; cbn; [reflexivity|]; destruct (Nat.leb_spec y x); [assumption|lia]).
  rewrite B. apply wp_ret. cbn [fst snd]. fold sh'. split; [reflexivity|]. split; [apply storage_renumber|]. split; [apply kind_renumber|].
  eapply stands_ext; [eapply stands_renumber; [exact S|]|].
  - intros p P. rewrite combine_shift, position_flat. apply flat_lt. apply (inside_slice sh s e L F). now apply inside_index.
  - intros p P. cbv beta. now rewrite combine_shift, position_flat.
Qed.
Lemma reshape_ok v sh (Q : value -> Prop) : numel sh = numel (fst v) -> Q (sh, snd v) -> wp (reshape v sh) Q.
Proof. intros E H. unfold reshape. change total_size with numel. rewrite E, Nat.eqb_refl. now apply wp_ret. Qed.

(* ---- concatenation of arrays with one element along the axis ---- *)
Lemma set_at_app pre x post v : set_at (pre ++ x :: post) (length pre) v = pre ++ v :: post.
Proof. induction pre as [|a pre IH]; cbn; [reflexivity|]. now rewrite IH. Qed.
Lemma nth_app pre (x : nat) post : nth (length pre) (pre ++ x :: post) 0 = x.
Proof. rewrite app_nth2 by lia. now rewrite Nat.sub_diag. Qed.
Definition unit_piece {X} (pre post : list nat) (s : storage) (A : X -> nat -> Z) (x : X) (v : value) : Prop :=
  fst v = pre ++ 1 :: post /\ storage_of (snd v) = s /\ stands (numel (pre ++ 1 :: post)) (snd v) (A x).
Lemma locate_unit {X} pre post s (A : X -> nat -> Z) d l vs : Forall2 (unit_piece pre post s A) l vs -> forall c, c < length l ->
  exists v, locate (length pre) c vs = Some (v, 0) /\ unit_piece pre post s A (nth c l d) v.
Proof.
  induction 1 as [|x v l vs H F IH]; intros c C; cbn in C; [lia|]. cbn [locate]. destruct (H) as (E & _ & _). rewrite E, nth_app. destruct c as [|c].
  - exists v. split; [reflexivity|exact H].
  - cbn -[nth]. rewrite Nat.sub_0_r. destruct (IH c ltac:(lia)) as (v' & E' & H'). exists v'. split; [exact E'|exact H'].
Qed.
Lemma sum_unit {X} pre post s (A : X -> nat -> Z) l vs : Forall2 (unit_piece pre post s A) l vs -> fold_right (fun v' t => nth (length pre) (fst v') 0 + t) 0 vs = length l.
Proof. induction 1 as [|x v l vs (E & _) F IH]; [reflexivity|]. cbn [fold_right]. rewrite IH, E, nth_app. reflexivity. Qed.
Lemma inside_mid pre m post idx : inside (pre ++ m :: post) idx -> exists i j l, idx = i ++ j :: l /\ inside pre i /\ j < m /\ inside post l.
Proof.
  revert idx. induction pre as [|d pre IH]; intros idx I; inversion I; subst.
  - exists [], y, l'. repeat split; [constructor|assumption|assumption].
  - destruct (IH l' H3) as (i & j & l & -> & A & B & C). exists (y :: i), j, l. repeat split; [|assumption|assumption]. now constructor.
Qed.
Lemma inside_intro pre m post i j l : inside pre i -> j < m -> inside post l -> inside (pre ++ m :: post) (i ++ j :: l).
Proof. intros A B C. apply inside_app; [exact A|]. constructor; [exact B|exact C]. Qed.
Lemma concat_ok {X} pre post s (A : X -> nat -> Z) d l vs : l <> [] -> Forall2 (unit_piece pre post s A) l vs ->
  let sh := pre ++ length l :: post in
  wp (concatenate vs (length pre)) (fun v => fst v = sh /\ storage_of (snd v) = s /\
    exists z, stands (numel sh) (snd v) z /\ forall i j l', inside pre i -> j < length l -> inside post l' ->
      z (flat sh (i ++ j :: l')) = A (nth j l d) (flat (pre ++ 1 :: post) (i ++ 0 :: l'))).
Proof.
  intros NE F sh. pose proof (locate_unit pre post s A d l vs F) as LOC. pose proof (sum_unit pre post s A l vs F) as SUM.
  destruct F as [|x v l vs H F]; [congruence|]. destruct F as [|x' v' l vs H' F].
  - cbn [concatenate]. apply wp_ret. destruct H as (E & S & ST). cbn [length] in *. split; [exact E|]. split; [exact S|]. exists (A x). split; [exact ST|].
    intros i j l' I J L'. assert (j = 0) by lia. subst j. reflexivity.
  - set (l2 := x' :: l) in *. set (v2 := v' :: vs) in *. assert (F' : Forall2 (unit_piece pre post s A) l2 v2) by (constructor; assumption).
    assert (EQ : concatenate (v :: v2) (length pre) =
      if negb (forallb (fun v' => same_storage (storage_of (snd v)) (storage_of (snd v'))) v2) then fail else
      if negb (length pre <? length (fst v))%nat then fun _ => Ub else
      if negb (forallb (fun v' => same_dims (length pre) (fst v) (fst v')) v2) then fail else
      let sh := set_at (fst v) (length pre) (fold_right (fun v' s => (nth (length pre) (fst v') O + s)%nat) O (v :: v2)) in
      ret (sh, build (storage_of (snd v)) (fun p => at_index (length pre) (v :: v2) (index_of sh p)))) by reflexivity.
    rewrite EQ. clear EQ. clearbody l2 v2. clear H' F x' v' l vs. destruct H as (E & S & ST). rewrite SUM, E, S.
    assert (C1 : forallb (fun v' => same_storage s (storage_of (snd v'))) v2 = true).
    { clear - F'. induction F' as [|? ? ? ? (_ & S & _) F IH]; [reflexivity|]. cbn [forallb]. now rewrite S, same_storage_refl, IH. }
    assert (C2 : forallb (fun v' => same_dims (length pre) (pre ++ 1 :: post) (fst v')) v2 = true).
    { clear - F'. induction F' as [|? ? ? ? (E & _) F IH]; [reflexivity|]. cbn [forallb]. rewrite E, IH. unfold same_dims. destruct (list_eq_dec _ _ _); [reflexivity|congruence]. }
    rewrite C1, C2. assert (C3 : length pre <? length (pre ++ 1 :: post) = true) by (apply Nat.ltb_lt; rewrite app_length; cbn; lia). rewrite C3. cbn [negb]. cbv zeta.
    rewrite set_at_app. fold sh. apply wp_ret. cbn [fst snd]. split; [reflexivity|]. split; [apply storage_build|].
    exists (fun p => let idx := index_of sh p in A (nth (nth (length pre) idx 0) (x :: l2) d) (flat (pre ++ 1 :: post) (set_at idx (length pre) 0))). split.
    + apply stands_build; [rewrite <- S; now apply stands_el in ST|]. intros p P. cbv zeta. destruct (inside_index sh p P) as [I _]. destruct (inside_mid _ _ _ _ I) as (i & j & l' & EI & I1 & J & I2).
      pose proof (inside_len _ _ I1) as LI. rewrite EI. unfold at_index. rewrite <- LI, nth_app, set_at_app, LI. destruct (LOC j J) as (u & EU & (U1 & U2 & U3)). rewrite EU.
      replace (position (fst u) _) with (flat (pre ++ 1 :: post) (i ++ 0 :: l')). 2: { rewrite <- LI, set_at_app, (position_flat (fst u)). now rewrite U1. }
      apply stands_el in U3. rewrite U2 in U3. apply U3. apply flat_lt. apply inside_intro; [exact I1|lia|exact I2].
    + intros i j l' I1 J I2. rewrite index_of_flat by (now apply inside_intro). pose proof (inside_len _ _ I1) as LI. cbv zeta. rewrite <- LI, nth_app, set_at_app. reflexivity.
Qed.
End Cnv.

(* ---- positions of windows ---- *)
Lemma for_upto_map last step : 0 < step -> forall fuel x, last < x + fuel * step -> x <= last -> for_upto fuel x (Z.of_nat last) step = map (fun i => x + i * step) (seq 0 ((last - x) / step + 1)).
Proof.
  intros S0. induction fuel as [|fuel IH]; intros x F X; [lia|]. cbn [for_upto]. destruct (Z.leb_spec (Z.of_nat x) (Z.of_nat last)); [|lia].
  destruct (Nat.le_gt_cases (x + step) last) as [L|L].
  - rewrite IH by (cbn in F; lia). replace ((last - x) / step) with (S ((last - (x + step)) / step)).
    + cbn [seq map Nat.add]. f_equal; [lia|]. rewrite <- seq_shift, map_map. apply map_ext. intros i. lia.
    + replace (last - x) with ((last - (x + step)) + 1 * step) by lia. rewrite Nat.div_add by lia. lia.
  - rewrite Nat.div_small by lia. cbn. f_equal; [lia|]. destruct fuel; [reflexivity|]. cbn. destruct (Z.leb_spec (Z.of_nat (x + step)) (Z.of_nat last)); [lia|reflexivity].
Qed.
Lemma windows_map len win step : 0 < step -> win <= len -> windows len win step = map (fun i => i * step) (seq 0 ((len - win) / step + 1)).
Proof.
  intros S0 L. unfold windows. replace (Z.of_nat len - Z.of_nat win)%Z with (Z.of_nat (len - win)) by lia. rewrite for_upto_map by nia. rewrite Nat.sub_0_r. now apply map_ext.
Qed.
Lemma out_dim_nat len win step : 0 < step -> win <= len -> out_dim len win step = Z.of_nat ((len - win) / step + 1).
Proof. intros S L. unfold out_dim. rewrite Z.quot_div_nonneg by lia. rewrite <- Nat2Z.inj_sub by lia. rewrite <- Nat2Z.inj_div. lia. Qed.
Lemma positions_count len win step cnt : 0 < step -> positions len win step cnt -> 0 < cnt -> win <= len /\ cnt = (len - win) / step + 1.
Proof.
  intros S0 P C. assert (L : win <= len) by (apply (P 0) in C; lia). split; [exact L|]. set (q := (len - win) / step).
  pose proof (Nat.div_mod (len - win) step ltac:(lia)) as D. pose proof (Nat.mod_upper_bound (len - win) step ltac:(lia)) as M. fold q in D.
  assert (q < cnt) by (apply P; nia). assert (~ q + 1 < cnt) by (rewrite (P (q + 1)); nia). lia.
Qed.
Lemma no_window len win step : len < win -> windows len win step = [].
Proof. intros L. unfold windows. cbn [for_upto]. destruct (Z.leb_spec (Z.of_nat 0) (Z.of_nat len - Z.of_nat win)); [lia|reflexivity]. Qed.
Lemma prod_nil {A B} (l : list A) (l' : list B) : l = [] \/ l' = [] -> list_prod l l' = [].
Proof. intros [->| ->]; [reflexivity|]. induction l; [reflexivity|exact IHl]. Qed.
Lemma nth_prod {A B} (l : list A) (l' : list B) d d' : forall i j, i < length l -> j < length l' -> nth (i * length l' + j) (list_prod l l') (d, d') = (nth i l d, nth j l' d').
Proof.
  induction l as [|a l IH]; intros i j I J; cbn in I; [lia|]. cbn [list_prod]. destruct i as [|i].
  - rewrite app_nth1 by (rewrite map_length; cbn; lia). cbn [Nat.mul Nat.add nth]. change (d, d') with (d, d'). rewrite (nth_indep _ _ (a, d')) by (now rewrite map_length). now rewrite (map_nth (pair a)).
  - rewrite app_nth2 by (rewrite map_length; cbn; lia). rewrite map_length. replace (S i * length l' + j - length l') with (i * length l' + j) by (cbn; lia). apply IH; lia.
Qed.

(* ---- the result of a convolution, by position ---- *)
Definition conv_sum (N H W C h v O sh sw : nat) (a f : nat -> Z) (b i j o : nat) : Z :=
  sumZ (map (fun x => sumZ (map (fun y => sumZ (map (fun q =>
    (a (flat [N; H; W; C] [b; i * sh + x; j * sw + y; q]%nat) * f (flat [h; v; C; O] [x; y; q; o]))%Z) (seq 0 C))) (seq 0 v))) (seq 0 h)).
Definition conv_at (k : Z) (N H W C h v O sh sw hh ww : nat) (a f : nat -> Z) (p : nat) : Z :=
  match index_of [N; hh; ww; O] p with [b; i; j; o] => wrap k (conv_sum N H W C h v O sh sw a f b i j o) | _ => 0%Z end.
Lemma inside4 a b c d i j l m : i < a -> j < b -> l < c -> m < d -> inside [a; b; c; d] [i; j; l; m].
Proof. intros. repeat constructor; assumption. Qed.
Lemma conv_at_ok k N H W C h v O sh sw hh ww a f : (0 <= k)%Z -> is_convolution k N H W C h v O sh sw hh ww a f (conv_at k N H W C h v O sh sw hh ww a f).
Proof. intros K b i j o B I J P. unfold conv_at. rewrite index_of_flat by (now apply inside4). apply wrap_is_mod. exact K. Qed.
Lemma conv_at_unique k N H W C h v O sh sw hh ww a f z p : (0 <= k)%Z -> is_convolution k N H W C h v O sh sw hh ww a f z -> p < numel [N; hh; ww; O] -> z p = conv_at k N H W C h v O sh sw hh ww a f p.
Proof.
  intros K Z0 P. destruct (inside_index _ _ P) as [I E]. unfold conv_at. set (idx := index_of _ p) in *. clearbody idx.
  inversion I as [|? b ? ? HB I1]; subst. inversion I1 as [|? i ? ? HI I2]; subst. inversion I2 as [|? j ? ? HJ I3]; subst. inversion I3 as [|? o ? ? HO I4]; subst. inversion I4; subst.
  specialize (Z0 b i j o HB HI HJ HO). fold (conv_sum N H W C h v O sh sw a f b i j o) in Z0.
  apply (is_mod_unique k (conv_sum N H W C h v O sh sw a f b i j o)); [exact K|exact Z0|now apply wrap_is_mod].
Qed.

Section Conv2d.
Variable w : nat.
Hypothesis W5 : (5 <= w)%nat.
Hypothesis W7 : (w <= 7)%nat.
Notation k := (2 ^ Z.of_nat w)%Z.
Variable n : nat.
Hypothesis N0 : (0 < n)%nat.
Variable T : mtapes.
Hypothesis G : good_mtapes k n T.
Variable compact : nat -> nat -> bool.
Variable junk : Z.
Variables split small : bool.
Variables ks ms : Z.
Notation stands := (stands k n).
Variables N H W C h v O sh sw hh ww : nat.
Hypothesis SH : 0 < sh.
Hypothesis SW : 0 < sw.
Hypothesis PH : positions H h sh hh.
Hypothesis PW : positions W v sw ww.
Hypothesis HH0 : 0 < hh.
Hypothesis WW0 : 0 < ww.
Hypothesis SZ1 : (Z.of_nat (N * hh * ww) < 2 ^ 31)%Z.
Hypothesis SZ2 : (Z.of_nat (h * v * C) < 2 ^ 31)%Z.
Hypothesis SZ3 : (Z.of_nat O < 2 ^ 31)%Z.
Variables ei ek : els.
Variables a f : nat -> Z.
Hypothesis X : stands (numel [N; H; W; C]) ei a.
Hypothesis Y : stands (numel [h; v; C; O]) ek f.

(* the window at (x, y), as [N; 1; h; v; C] *)
Definition window_at (xy : nat * nat) (p : nat) : Z := a (flat [N; H; W; C] (shift [0; fst xy; snd xy; 0] (index_of [N; h; v; C] p))).
Definition image_ok := unit_piece k n [N] [h; v; C] (storage_of ei) window_at.
Lemma image_of x y : x + h <= H -> y + v <= W ->
  wp (u <- slice ([N; H; W; C], ei) [0; x; y; 0] [N; x + h; y + v; C] ;; reshape u [N; 1; h; v; C]) (image_ok (x, y)).
Proof.
  intros XH YW. apply wp_bind. eapply wp_mono; [apply (slice_ok k n [N; H; W; C] ei a [0; x; y; 0] [N; x + h; y + v; C] eq_refl); [repeat constructor; lia|exact X]|].
  cbn [combine map]. rewrite !Nat.sub_0_r. replace (x + h - x) with h by lia. replace (y + v - y) with v by lia.
  intros [s e] (E & S & _ & ST). cbn [fst snd] in *. subst s. apply reshape_ok; [cbn; lia|]. split; [reflexivity|]. split; [exact S|].
  replace (numel ([N] ++ 1 :: [h; v; C])) with (numel [N; h; v; C]) by (cbn; lia). exact ST.
Qed.
Lemma windows_H x : In x (windows H h sh) -> x + h <= H.
Proof. 
  destruct (positions_count _ _ _ _ SH PH HH0) as [L E]. rewrite windows_map by assumption. intros I. apply in_map_iff in I. destruct I as (i & <- & I). apply in_seq in I. apply PH. lia.
Qed.
Lemma windows_W x : In x (windows W v sw) -> x + v <= W.
Proof. 
  destruct (positions_count _ _ _ _ SW PW WW0) as [L E]. rewrite windows_map by assumption. intros I. apply in_map_iff in I. destruct I as (i & <- & I). apply in_seq in I. apply PW. lia.
Qed.
Lemma windows_len : length (windows H h sh) = hh /\ length (windows W v sw) = ww.
Proof.
  destruct (positions_count _ _ _ _ SH PH HH0) as [L E]. destruct (positions_count _ _ _ _ SW PW WW0) as [L' E']. rewrite !windows_map by assumption. rewrite !map_length, !seq_length. lia.
Qed.
Lemma nth_window i j : i < hh -> j < ww -> nth (i * ww + j) (list_prod (windows H h sh) (windows W v sw)) (0, 0) = (i * sh, j * sw).
Proof.
  intros I J. destruct windows_len as [LH LW]. pose proof (nth_prod (windows H h sh) (windows W v sw) 0 0 i j) as NP. rewrite LH, LW in NP. rewrite NP by assumption.
  destruct (positions_count _ _ _ _ SH PH HH0) as [L E]. destruct (positions_count _ _ _ _ SW PW WW0) as [L' E']. rewrite !windows_map by assumption. rewrite <- E, <- E'.
  rewrite (nth_indep _ 0 (0 * sh)) by (now rewrite map_length, seq_length). rewrite (nth_indep (map _ (seq 0 ww)) 0 (0 * sw)) by (now rewrite map_length, seq_length).
  rewrite (map_nth (fun i => i * sh)), (map_nth (fun i => i * sw)). now rewrite !seq_nth.
Qed.
Let shx := [N; hh; ww; h; v; C].
Let shk := [h; v; C; O].
Lemma coords_x6 c b i j idx : inside [h; v; C] c -> has_coords [3; 4; 5] 6 c [b; i; j] idx -> idx = [b; i; j] ++ c.
Proof.
  intros I (L & E1 & E2). destruct idx as [|i0 [|i1 [|i2 [|i3 [|i4 [|i5 [|]]]]]]]; cbn in L; try discriminate. cbn in E1, E2. injection E2 as -> -> ->. now rewrite <- E1.
Qed.
Lemma coords_k4 c o idx : inside [h; v; C] c -> has_coords [0; 1; 2] 4 c [o] idx -> idx = c ++ [o].
Proof.
  intros I (L & E1 & E2). destruct idx as [|i0 [|i1 [|i2 [|i3 [|]]]]]; cbn in L; try discriminate. cbn in E1, E2. injection E2 as ->. now rewrite <- E1.
Qed.
Lemma sum3 (F : list nat -> Z) : sum_over [h; v; C] F = sumZ (map (fun x => sumZ (map (fun y => sumZ (map (fun q => F [x; y; q]) (seq 0 C))) (seq 0 v))) (seq 0 h)).
Proof. reflexivity. Qed.
Lemma sum_is_conv z1 b i j o : b < N -> i < hh -> j < ww ->
  (forall i0 j0 l', inside [N] i0 -> j0 < hh * ww -> inside [h; v; C] l' ->
     z1 (flat [N; hh * ww; h; v; C] (i0 ++ j0 :: l')) = window_at (nth j0 (list_prod (windows H h sh) (windows W v sw)) (0, 0)) (flat ([N] ++ 1 :: [h; v; C]) (i0 ++ 0 :: l'))) ->
  sum_over [h; v; C] (fun c => z1 (flat shx ([b; i; j] ++ c)) * f (flat shk (c ++ [o])))%Z = conv_sum N H W C h v O sh sw a f b i j o.
Proof.
  intros B I J HZ. unfold conv_sum. rewrite sum3. apply sum_ext. intros x XI. apply in_seq in XI. apply sum_ext. intros y YI. apply in_seq in YI. apply sum_ext. intros q QI. apply in_seq in QI. f_equal.
  assert (IN : inside [h; v; C] [x; y; q]) by (repeat constructor; lia).
  assert (JJ : i * ww + j < hh * ww) by nia.
  replace (flat shx ([b; i; j] ++ [x; y; q])) with (flat [N; hh * ww; h; v; C] ([b] ++ (i * ww + j) :: [x; y; q])) by (unfold shx; cbn; nia).
  rewrite HZ by (try assumption; repeat constructor; assumption). rewrite nth_window by assumption. unfold window_at. cbn [fst snd].
  replace (flat ([N] ++ 1 :: [h; v; C]) ([b] ++ 0 :: [x; y; q])) with (flat [N; h; v; C] [b; x; y; q]) by (cbn; lia).
  rewrite index_of_flat by (apply inside4; lia). unfold shift. cbn [zipWith]. rewrite Nat.add_0_l. reflexivity.
Qed.
Lemma conv_ok : wp (conv2d k n T compact junk split small ks ms ([N; H; W; C], ei) ([h; v; C; O], ek) [sh; sw] [N; hh; ww; O])
  (fun r => fst r = [N; hh; ww; O] /\ stands (numel [N; hh; ww; O]) (snd r) (conv_at k N H W C h v O sh sw hh ww a f)).
Proof.
  assert (K0 : (32 <= k)%Z) by (apply k0; assumption).
  destruct (positions_count _ _ _ _ SH PH HH0) as [LH EH]. destruct (positions_count _ _ _ _ SW PW WW0) as [LW EW]. destruct windows_len as [NH NW].
  unfold conv2d. cbn [fst]. rewrite !Nat.eqb_refl. cbn [negb]. destruct (Nat.eqb_spec sh 0); [lia|]. destruct (Nat.eqb_spec sw 0); [lia|]. cbn [orb].
  rewrite !out_dim_nat by assumption. rewrite <- EH, <- EW, !Z.eqb_refl. cbn [negb].
  apply wp_bind. eapply wp_mono.
  { apply (eachM_ok _ image_ok). intros [x y] I. apply in_prod_iff in I. destruct I as [IX IY]. apply image_of; [now apply windows_H|now apply windows_W]. }
  intros images F. cbv beta in F. apply wp_bind.
  assert (LL : length (list_prod (windows H h sh) (windows W v sw)) = hh * ww) by (rewrite prod_length, NH, NW; reflexivity).
  eapply wp_mono.
  { apply (concat_ok k n [N] [h; v; C] (storage_of ei) window_at (0, 0) (list_prod (windows H h sh) (windows W v sw)) images); [|exact F]. intros E. rewrite E in LL. cbn in LL. nia. }
  intros [s1 e1] (E1 & _ & z1 & S1 & Z1). cbn [fst snd] in *. rewrite LL in *. subst s1. cbn [nth app]. rewrite Nat.eqb_refl. cbn [negb].
  apply wp_bind. apply reshape_ok; [cbn; lia|]. cbn [snd]. apply wp_bind. apply reshape_ok; [cbn; lia|]. cbn [snd]. fold shx. fold shk.
  assert (S2 : stands (numel shx) e1 z1) by (replace (numel shx) with (numel ([N] ++ hh * ww :: [h; v; C])) by (cbn; lia); exact S1).
  assert (AX : axes_ok [3; 4; 5] (length shx)) by (split; [repeat constructor; cbn; lia|repeat constructor; cbn; lia]).
  assert (AY : axes_ok [0; 1; 2] (length shk)) by (split; [repeat constructor; cbn; lia|repeat constructor; cbn; lia]).
  apply wp_bind. eapply wp_mono.
  { apply (tensordot_ok w W5 W7 n N0 T G compact junk shx shk [3; 4; 5] [0; 1; 2] AX AY eq_refl) with (a := z1) (b := f);
      [cbn -[Z.of_nat Z.pow]; clear - SZ1; replace (N * (hh * (ww * 1))) with (N * hh * ww) by lia; exact SZ1
      |cbn -[Z.of_nat Z.pow]; clear - SZ2; replace (h * (v * (C * 1))) with (h * v * C) by lia; exact SZ2
      |cbn -[Z.of_nat Z.pow]; clear - SZ3; rewrite Nat.mul_1_r; exact SZ3|exact S2|exact Y]. }
  pose proof (contraction w W5 W7 n N0 compact shx shk [3; 4; 5] [0; 1; 2] AX AY eq_refl z1 f) as CT.
  intros [s3 e3] [E3 S3]. cbn [fst snd] in *. change (s3 = [N; hh; ww; O]) in E3. subst s3. unfold shape_is. cbn [fst length firstn]. destruct (list_eq_dec _ _ _); [|congruence]. cbn [negb]. apply wp_ret. cbn [fst snd].
  split; [reflexivity|]. eapply stands_ext; [exact S3|]. intros p P. apply conv_at_unique; [lia| |exact P]. intros b i j o B I J O0.
  fold (conv_sum N H W C h v O sh sw a f b i j o). rewrite <- (sum_is_conv z1 b i j o B I J Z1).
  apply (CT [b; i; j] [o]).
  - repeat constructor; assumption.
  - repeat constructor; assumption.
  - intros c idx IC HC. now rewrite (coords_x6 c b i j idx IC HC).
  - intros c idx IC HC. now rewrite (coords_k4 c o idx IC HC).
Qed.
End Conv2d.

Section Batch.
Variable w : nat.
Hypothesis W5 : (5 <= w)%nat.
Hypothesis W7 : (w <= 7)%nat.
Notation k := (2 ^ Z.of_nat w)%Z.
Variable n : nat.
Hypothesis N0 : (0 < n)%nat.
Variable T : mtapes.
Hypothesis G : good_mtapes k n T.
Variable compact : nat -> nat -> bool.
Variable junk : Z.
Variables split small : bool.
Variables ks ms : Z.
Notation stands := (stands k n).
Variables B B' m K c : nat.
Hypothesis B0 : 0 < B.
Hypothesis BB : B <= B'.
Variables ex ey : els.
Variables a b : nat -> Z.
Hypothesis X : stands (numel [B; m; K]) ex a.
Hypothesis Y : stands (numel [B'; K; c]) ey b.
Definition batch_at (t p : nat) : Z := prodm k K c (fun q => a (t * (m * K) + q)) (fun q => b (t * (K * c) + q)) p.
Definition kind_storage (q : kind) : storage := match q with KP => SP | KV o => SV o | KS => SA end.
Lemma has_storage e q : has_kind e q -> storage_of e = kind_storage q.
Proof. destruct e, q; cbn; try contradiction; congruence. Qed.
Lemma one_batch L M1 M2 el (z : nat -> Z) t : t < L -> stands (numel [L; M1; M2]) el z ->
  wp (l <- slice ([L; M1; M2], el) [t; 0; 0] [t + 1; M1; M2] ;; reshape l [M1; M2])
     (fun v => exists e, v = ([M1; M2], e) /\ kind_of e = kind_of el /\ stands (numel [M1; M2]) e (fun p => z (t * (M1 * M2) + p))).
Proof.
  intros TL S. apply wp_bind. eapply wp_mono; [apply (slice_ok k n [L; M1; M2] el z [t; 0; 0] [t + 1; M1; M2] eq_refl); [repeat constructor; lia|exact S]|].
  cbn [combine map]. rewrite !Nat.sub_0_r. replace (t + 1 - t) with 1 by lia. intros [s e] (E & _ & KE & ST). cbn [fst snd] in *. subst s.
  apply reshape_ok; [cbn; lia|]. exists e. split; [reflexivity|]. split; [exact KE|]. replace (numel [1; M1; M2]) with (numel [M1; M2]) in ST by (cbn; lia).
  eapply stands_ext; [exact ST|]. intros p P. cbv beta. destruct (inside_index [M1; M2] p P) as [I E]. set (idx := index_of [M1; M2] p) in *. rewrite <- E in *. clearbody idx. clear E p P.
  inversion I as [|? i ? ? HI I1]; subst. inversion I1 as [|? j ? ? HJ I2]; subst. inversion I2; subst.
  replace (flat [M1; M2] [i; j]) with (flat [1; M1; M2] [0; i; j]) by (cbn; lia). rewrite index_of_flat by (repeat constructor; assumption). f_equal. cbn. lia.
Qed.
Lemma dot_general_ok : wp (dot_general k n T compact junk split small ks ms ([B; m; K], ex) ([B'; K; c], ey))
  (fun r => fst r = [B; m; c] /\ exists z, stands (numel [B; m; c]) (snd r) z /\ forall t p, t < B -> p < m * c -> z (t * (m * c) + p) = batch_at t p).
Proof.
  assert (K0 : (32 <= k)%Z) by (apply k0; assumption). set (q := rkind (kind_of ex) (kind_of ey)).
  unfold dot_general. cbn [fst tl]. apply wp_bind. eapply wp_mono.
  { apply (eachM_ok _ (unit_piece k n [] [m; c] (kind_storage q) batch_at)). intros t IT. apply in_seq in IT.
    assert (R : forall A0 D0 (m1 : M A0) (f1 : A0 -> M D0) D1 (f2 : D0 -> M D1) (Q : D1 -> Prop), wp (x <- (y <- m1 ;; f1 y) ;; f2 x) Q -> wp (y <- m1 ;; x <- f1 y ;; f2 x) Q).
    { intros. intros t0. specialize (H t0). unfold bind in *. unfold rbind in *. destruct (m1 t0) as [[? ?]| |]; exact H. }
    apply R. apply wp_bind. eapply wp_mono; [apply (one_batch B m K ex a t); [lia|exact X]|]. intros l (el & -> & KL & SL).
    apply R. apply wp_bind. eapply wp_mono; [apply (one_batch B' K c ey b t); [lia|exact Y]|]. intros r (er & -> & KR & SR).
    apply wp_bind. eapply wp_mono.
    { apply (mmul_kind w W5 W7 n N0 T G compact junk split small ks ms [m; K] [K; c] m K c el er); [constructor|constructor|exact SL|exact SR]. }
    intros [s e] (E & S & HK). cbn [fst snd] in *. subst s. apply reshape_ok; [cbn; lia|]. split; [reflexivity|]. cbn [snd]. rewrite KL, KR in HK. split; [now apply has_storage|].
    replace (numel ([] ++ 1 :: [m; c])) with (m * c) by (cbn; lia). exact S. }
  intros rs F. cbv beta in F. change 0 with (length (@nil nat)). eapply wp_mono; [apply (concat_ok k n [] [m; c] (kind_storage q) batch_at 0 (seq 0 B) rs); [|exact F]|].
  { destruct B; [lia|discriminate]. }
  intros [s e] (E & _ & z & SZ & HZ). cbn [fst snd] in *. rewrite seq_length in *. split; [exact E|]. exists z. split; [exact SZ|]. intros t p TB P.
  assert (NP : p < numel [m; c]) by (cbn; lia). destruct (inside_index _ _ NP) as [I FI]. specialize (HZ [] t (index_of [m; c] p) ltac:(constructor) TB I). rewrite seq_nth in HZ by exact TB.
  cbn [app flat] in HZ. change (numel [m; c]) with (m * (c * 1)) in HZ. rewrite Nat.mul_1_r in HZ.
  set (idx := index_of [m; c] p) in *. change (z (t * (m * c) + flat [m; c] idx) = batch_at (0 + t) (0 * (m * c) + flat [m; c] idx)) in HZ. rewrite FI in HZ. rewrite HZ. reflexivity.
Qed.
End Batch.
