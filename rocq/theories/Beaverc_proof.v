From Verif Require Import Base Ring_model Ring_spec Ring_proof Share_spec Party Semi_model Semi_proof Trunc_proof Beaver_model Beaver_spec Beaver_proof.
Open Scope Z_scope.

Lemma view_eqb_eq x y : view_eqb x y = true <-> x = y.
Proof.
  unfold view_eqb. rewrite !andb_true_iff, !Nat.eqb_eq, !Z.eqb_eq. destruct x, y; cbn. split; [intros [[[[[-> ->] ->] ->] ->] ->]; reflexivity|intros E; inversion E; auto 10].
Qed.
Section C.
Variable prg : Z -> Z -> Z -> nat -> Z.
Hypothesis prg_word : forall w s c i, 0 <= w -> word w (prg w s c i).
Variable seeds : list Z.
Notation n := (length seeds).
Hypothesis n_pos : (0 < n)%nat.
Variable k : Z.
Hypothesis k_pos : 0 < k.
Variable mem : nat -> nat -> Z -> Z.
Notation sd := (sd seeds). Notation tbl := (tbl seeds). Notation mkp := (mkp seeds). Notation pa := (pa prg seeds). Notation conc := (conc seeds).

Definition plain (x : view) (i j : nat) : Z := total n (fun p => vget (mem p) x i j).
Definition idx (tr : bool) (x : view) (i j : nat) : nat := (if tr then j * v_r x + i else i * v_c x + j)%nat.
Definition inr (x : view) (i j : nat) : Prop := (i < v_r x)%nat /\ (j < v_c x)%nat.
Record aent := mkAe { ae_view : view; ae_ctr : Z }.
Definition erel (p : nat) (a : aent) (e : entry) : Prop :=
  e_view e = ae_view a /\ e_desc e = conc p (mkAd SInit (ae_ctr a) (vsize (ae_view a)) k) /\
  forall i j, inr (ae_view a) i j -> eqm k (e_open e (idx false (ae_view a) i j)) (plain (ae_view a) i j - total n (pa k (ae_ctr a) (idx false (ae_view a) i j))).
Definition crel (c : Z) (on : list nat) (es : list aent) (s : nat -> pst) : Prop :=
  forall p, (p < n)%nat -> p_b (s p) = mkp p c /\ ch_on (p_c (s p)) = on /\ Forall2 (erel p) es (ch_ent (p_c (s p))).
Definition afind (es : list aent) (x : view) : option aent := find (fun e => view_eqb (ae_view e) x) es.
Lemma find_rel p es l x : Forall2 (erel p) es l ->
  match afind es x with
  | Some a => ae_view a = x /\ exists e, find (fun e => view_eqb (e_view e) x) l = Some e /\ erel p a e
  | None => find (fun e => view_eqb (e_view e) x) l = None
  end.
Proof.
  induction 1 as [|a e es l R F IH]; [reflexivity|]. unfold afind in *. cbn [find]. destruct R as [V R]. rewrite V.
  destruct (view_eqb (ae_view a) x) eqn:E; [|exact IH]. apply view_eqb_eq in E. split; [exact E|]. exists e. split; [reflexivity|]. now split.
Qed.
(* what all parties see in the cache: enabled flag and hit (status, counter) *)
Definition aget (on : list nat) (es : list aent) (x : view) (tr : bool) : bool * option (status * Z) :=
  if existsb (Nat.eqb (v_buf x)) on then
    (true, match afind es x with
           | Some a => Some (SReplay, ae_ctr a)
           | None => if tr then match afind es (vtranspose x) with Some a => Some (STransposeReplay, ae_ctr a) | None => None end else None
           end)
  else (false, None).
Definition is_tr (s : status) : bool := match s with STransposeReplay => true | _ => false end.
Definition grel (p : nat) (x : view) (ag : bool * option (status * Z)) (g : got) : Prop :=
  g_on g = fst ag /\
  match snd ag with
  | None => d_status (g_desc g) = SInit
  | Some (st, c) => g_desc g = conc p (mkAd st c (vsize x) k) /\
      forall i j, inr x i j -> eqm k (g_open g i j) (plain x i j - total n (pa k c (idx (is_tr st) x i j)))
  end.
Lemma vsize_tr x : vsize (vtranspose x) = vsize x. Proof. unfold vsize. cbn. lia. Qed.
Lemma get_ok c on es s p x tr : crel c on es s -> (p < n)%nat ->
  exists g, get_cache k (p_c (s p)) x tr = Ok g /\ grel p x (aget on es x tr) g.
Proof.
  intros R P. destruct (R p P) as [_ [ON F]]. unfold get_cache, aget. rewrite ON.
  destruct (existsb (Nat.eqb (v_buf x)) on); [|eexists; split; [reflexivity|]; split; reflexivity].
  unfold find_entry. pose proof (find_rel p es _ x F) as FX. destruct (afind es x) as [a|].
  - destruct FX as [VA [e [-> [V [D O]]]]]. rewrite D. cbn [conc d_field d_size a_field a_size]. rewrite VA, !Z.eqb_refl. cbn [andb].
    eexists; split; [reflexivity|]. split; [reflexivity|]. cbn [snd]. split; [reflexivity|]. cbn [g_open]. intros i j I. cbn [is_tr].
    rewrite VA in O. apply (O i j I).
  - rewrite FX. destruct tr; [|eexists; split; [reflexivity|]; split; reflexivity].
    pose proof (find_rel p es _ (vtranspose x) F) as FT. destruct (afind es (vtranspose x)) as [a|].
    + destruct FT as [VA [e [-> [V [D O]]]]]. rewrite D. cbn [conc d_field d_size a_field a_size]. rewrite VA, vsize_tr, !Z.eqb_refl. cbn [andb].
      eexists; split; [reflexivity|]. split; [reflexivity|]. cbn [snd]. split; [reflexivity|]. cbn [g_open is_tr]. intros i j [I J].
      rewrite VA in O. specialize (O j i). unfold idx in O. cbn [vtranspose v_r v_c] in O. unfold idx.
      replace (plain x i j) with (plain (vtranspose x) j i).
      * apply O. split; cbn; assumption.
      * unfold plain. apply total_ext. intros q Q. unfold vget. cbn. f_equal. lia.
    + rewrite FT. eexists; split; [reflexivity|]. split; reflexivity.
Qed.
(* the descriptor handed to Beaver *)
Definition adesc (x : view) (ag : bool * option (status * Z)) : option ad :=
  if fst ag then Some (match snd ag with Some (st, c) => mkAd st c (vsize x) k | None => mkAd SInit 0 0 0 end) else None.
Lemma adesc_rel p x ag g : grel p x ag g -> (forall st c, snd ag = Some (st, c) -> st <> SInit) -> drel seeds p (adesc x ag) (opt g).
Proof.
  intros [ON G] NI. unfold adesc, opt. rewrite ON. destruct (fst ag); [|reflexivity]. cbn [drel].
  destruct (snd ag) as [[st c]|]; cbn [a_status].
  - destruct G as [-> _]. specialize (NI st c eq_refl). destruct st; [congruence|reflexivity|reflexivity].
  - eexists; split; [reflexivity|exact G].
Qed.
Lemma aget_status on es x tr st c : snd (aget on es x tr) = Some (st, c) -> st <> SInit /\ (tr = false -> st = SReplay) /\ fst (aget on es x tr) = true.
Proof.
  unfold aget. destruct (existsb _ _); [|discriminate]. cbn [fst snd]. destruct (afind es x).
  - intros E; inversion E; subst. repeat split; congruence.
  - destruct tr; [|discriminate]. destruct (afind es (vtranspose x)); [|discriminate]. intros E; inversion E; subst. repeat split; congruence.
Qed.

(* an operand after Beaver filled its descriptor: mask at counter c *)
Definition orel (p : nat) (x : view) (on init tr : bool) (c : Z) (g : got) (a : nat -> nat -> Z) : Prop :=
  g_on g = on /\ is_init (g_desc g) = init /\ (forall i j, inr x i j -> a i j = pa k c (idx tr x i j) p) /\
  (on = true -> init = true -> tr = false /\ g_desc g = conc p (mkAd SInit c (vsize x) k)) /\
  (init = false -> forall i j, inr x i j -> eqm k (g_open g i j) (plain x i j - total n (pa k c (idx tr x i j)))).
Definition ainit (ag : bool * option (status * Z)) : bool := match snd ag with None => true | _ => false end.
Definition atr (ag : bool * option (status * Z)) : bool := match snd ag with Some (st, _) => is_tr st | None => false end.
Lemma orel_of p x ag g a c f : grel p x ag g -> (forall st c', snd ag = Some (st, c') -> st <> SInit /\ fst ag = true /\ c = c') ->
  (fst ag = true -> ainit ag = true -> f = Some (mkAd SInit c (vsize x) k)) -> (ainit ag = false -> f = adesc x ag) -> (fst ag = false -> f = None) ->
  (forall i j, inr x i j -> a i j = pa k c (idx (atr ag) x i j) p) ->
  orel p x (fst ag) (ainit ag) (atr ag) c (upd_desc g (option_map (conc p) f)) a.
Proof.
  intros [ON G] ST F1 F2 F3 A. unfold orel, ainit, atr in *. destruct ag as [on o]. cbn [fst snd] in *.
  destruct o as [[st c']|].
  - destruct (ST st c' eq_refl) as [NI [-> <-]]. rewrite F2 by reflexivity. unfold adesc. cbn [fst snd option_map upd_desc].
    destruct G as [_ GO]. cbn [g_on g_desc g_open is_init]. split; [exact ON|]. split; [destruct st; [congruence|reflexivity|reflexivity]|].
    split; [exact A|]. split; [discriminate|]. intros _. exact GO.
  - destruct on.
    + rewrite F1 by reflexivity. cbn. split; [exact ON|]. split; [reflexivity|]. split; [exact A|]. split; [intros; split; reflexivity|discriminate].
    + rewrite F3 by reflexivity. cbn. split; [exact ON|]. split; [unfold is_init; now rewrite G|]. split; [exact A|]. split; [discriminate|discriminate].
Qed.
Lemma afill_cases c ag x : (fst ag = true -> ainit ag = true -> afill k c (vsize x) (adesc x ag) = Some (mkAd SInit c (vsize x) k)) /\
  ((forall st c', snd ag = Some (st, c') -> st <> SInit) -> ainit ag = false -> afill k c (vsize x) (adesc x ag) = adesc x ag) /\ (fst ag = false -> afill k c (vsize x) (adesc x ag) = None).
Proof.
  destruct ag as [on o]. unfold ainit, adesc. cbn [fst snd]. destruct on; split; [|split| |split]; intros; try discriminate; try reflexivity.
  - destruct o; [discriminate|reflexivity].
  - destruct o as [[st c']|]; [|discriminate]. specialize (H st c' eq_refl). cbn. destruct st; congruence.
Qed.
(* element-wise product: descriptor lookups of Beaver *)
Lemma a_if_get c ag x : (forall st c', snd ag = Some (st, c') -> st = SReplay /\ fst ag = true) ->
  exists ca c' l, a_if k c (afill k c (vsize x) (adesc x ag)) (vsize x) = Ok (ca, c', l) /\
    (ainit ag = true -> ca = c) /\ (forall st c'', snd ag = Some (st, c'') -> ca = c'').
Proof.
  destruct ag as [on o]. unfold adesc, ainit. cbn [fst snd]. intros ST. destruct o as [[st c0]|].
  - destruct (ST st c0 eq_refl) as [-> ->]. cbn. rewrite !Z.eqb_refl. cbn. do 3 eexists. split; [reflexivity|]. split; [discriminate|]. intros ? ? E; now inversion E.
  - destruct on; cbn; do 3 eexists; (split; [reflexivity|]); split; auto; discriminate.
Qed.
Lemma a_if_dot_get c ag x : (forall st c', snd ag = Some (st, c') -> st <> SInit /\ fst ag = true) ->
  exists ca c' l, a_if_dot k c (afill k c (vsize x) (adesc x ag)) (vsize x) = Ok (ca, atr ag, c', l) /\
    (ainit ag = true -> ca = c) /\ (forall st c'', snd ag = Some (st, c'') -> ca = c'').
Proof.
  destruct ag as [on o]. unfold adesc, ainit, atr. cbn [fst snd]. intros ST. destruct o as [[st c0]|].
  - destruct (ST st c0 eq_refl) as [NI ->]. destruct st; [congruence| |]; cbn; rewrite !Z.eqb_refl; do 3 eexists; (split; [reflexivity|]); (split; [discriminate|]); intros ? ? E; now inversion E.
  - destruct on; cbn; rewrite ?Z.eqb_refl; do 3 eexists; (split; [reflexivity|]); split; auto; discriminate.
Qed.

(* the y == x rule *)
Definition ayrule (x y : view) (ax ay : bool * option (status * Z)) : bool * option (status * Z) :=
  if view_eqb x y && fst ax && ainit ax then (false, snd ay) else ay.
Lemma is_init_grel p x ag g : grel p x ag g -> (forall st c, snd ag = Some (st, c) -> st <> SInit) -> is_init (g_desc g) = ainit ag.
Proof.
  intros [_ G] NI. unfold is_init, ainit. destruct (snd ag) as [[st c]|]; [|now rewrite G]. destruct G as [-> _]. cbn. specialize (NI st c eq_refl). destruct st; congruence.
Qed.

Lemma choose {A} (F : nat -> res A) (Q : nat -> A -> Prop) (d : A) : (forall p, (p < n)%nat -> exists a, F p = Ok a /\ Q p a) ->
  exists M, forall p, (p < n)%nat -> F p = Ok (M p) /\ Q p (M p).
Proof.
  intros H. exists (fun p => match F p with Ok a => a | _ => d end). intros p P. destruct (H p P) as [a [E Q1]]. rewrite E. now split.
Qed.
(* the value every party opens or finds in its cache *)
Lemma masked_total x' (A : nat -> nat -> nat -> Z) i j p : (p < n)%nat ->
  eqm k (allreduce (radd k) n (fun q => masked k (mem q) x' (A q) i j) p) (plain x' i j - total n (fun q => A q i j)).
Proof.
  intros P. rewrite allreduce_add by (try lia; apply rsub_word; lia). rewrite eqm_wrap. unfold plain. rewrite <- total_sub. apply total_eqm. intros q Q. apply eqm_rsub.
Qed.
Lemma allreduce_ext op m X Y p : (p < m)%nat -> (forall q, (q < m)%nat -> X q = Y q) -> allreduce op m X p = allreduce op m Y p.
Proof.
  intros P H. unfold allreduce. rewrite (H p P). f_equal. apply map_ext_in. intros q Q. apply H. apply filter_In in Q. destruct Q as [Q _]. apply in_seq in Q. lia.
Qed.
Definition stored (b : bool) (x : view) (c : Z) (es : list aent) : list aent := if b then mkAe x c :: es else es.
Lemma store_ok p on' es' x' o i0 tr c0 g a l (ox : nat -> nat -> Z) :
  orel p x' o i0 tr c0 g a -> Forall2 (erel p) es' l ->
  (o = true -> existsb (Nat.eqb (v_buf x')) on' = true) -> (o = true -> i0 = true -> afind es' x' = None) ->
  (forall i j, inr x' i j -> eqm k (ox i j) (plain x' i j - total n (pa k c0 (idx tr x' i j)))) ->
  exists l', store (mkCache on' l) x' g ox = Ok (mkCache on' l') /\ Forall2 (erel p) (stored (o && i0) x' c0 es') l'.
Proof.
  intros [ON [IN [_ [D _]]]] F E1 E2 O. unfold store, stored. rewrite ON, IN. destruct o, i0; cbn [andb]; try (eexists; split; [reflexivity|exact F]).
  destruct (D eq_refl eq_refl) as [-> ED]. unfold set_cache. cbn [ch_on ch_ent]. rewrite E1 by reflexivity. unfold find_entry. cbn [ch_ent].
  pose proof (find_rel p es' l x' F) as FR. rewrite E2 in FR by reflexivity. rewrite FR. eexists. split; [reflexivity|]. constructor; [|exact F].
  split; [reflexivity|]. split; [exact ED|]. cbn [ae_view ae_ctr e_open]. intros i j IJ. unfold idx.
  assert (J : (j < v_c x')%nat) by apply IJ.
  rewrite Nat.div_add_l, (Nat.div_small j) by lia. rewrite Nat.add_0_r. rewrite (Nat.add_comm (i * v_c x') j), Nat.mod_add, (Nat.mod_small j) by lia. rewrite (Nat.add_comm j).
  apply O, IJ.
Qed.
Lemma aget_miss on' es' x' tr : fst (aget on' es' x' tr) = true -> ainit (aget on' es' x' tr) = true -> existsb (Nat.eqb (v_buf x')) on' = true /\ afind es' x' = None.
Proof.
  unfold aget, ainit. destruct (existsb _ _); [|discriminate]. cbn [fst snd]. destruct (afind es' x'); [discriminate|]. auto.
Qed.
Lemma aget_on on' es' x' tr : fst (aget on' es' x' tr) = true -> existsb (Nat.eqb (v_buf x')) on' = true.
Proof. unfold aget. now destruct (existsb _ _). Qed.

Section Mul.
Variable s : nat -> pst.
Variable c : Z.
Variable on : list nat.
Variable es : list aent.
Hypothesis R : crel c on es s.
Variable x y : view.
Variable mmul : bool.
Notation ax := (aget on es x mmul).
Notation ay := (ayrule x y ax (aget on es y mmul)).
Definition shapes : Prop := if mmul then v_c x = v_r y else v_r x = v_r y /\ v_c x = v_c y.
Lemma ax_st st c' : snd ax = Some (st, c') -> st <> SInit /\ (mmul = false -> st = SReplay) /\ fst ax = true.
Proof. apply aget_status. Qed.
Lemma ay_st st c' : snd ay = Some (st, c') -> st <> SInit /\ (mmul = false -> st = SReplay) /\ fst ay = true.
Proof.
  unfold ayrule. destruct (view_eqb x y && fst ax && ainit ax) eqn:E; [|apply aget_status].
  cbn [snd fst]. rewrite !andb_true_iff in E. destruct E as [[V O] I0]. apply view_eqb_eq in V. subst y. unfold ainit in I0. intros E. rewrite E in I0. discriminate.
Qed.
(* the caches agree; lookups at party p *)
Lemma gets p : (p < n)%nat -> exists gx gy, grel p x ax gx /\ grel p y ay gy /\
  forall A (f : got -> got -> res A), rbind (get_cache k (p_c (s p)) x mmul) (fun xc => rbind (get_cache k (p_c (s p)) y mmul) (fun yc0 =>
     f xc (if view_eqb x y && g_on xc && is_init (g_desc xc) then mkGot false (g_desc yc0) (g_open yc0) else yc0))) = f gx gy.
Proof.
  intros P. destruct (get_ok c on es s p x mmul R P) as [gx [EX GX]]. destruct (get_ok c on es s p y mmul R P) as [gy [EY GY]].
  exists gx, (if view_eqb x y && fst ax && ainit ax then mkGot false (g_desc gy) (g_open gy) else gy). split; [exact GX|].
  assert (II : is_init (g_desc gx) = ainit ax) by (apply (is_init_grel p x ax gx GX); intros st c' E; now apply ax_st in E).
  assert (OO : g_on gx = fst ax) by apply GX. split.
  - unfold ayrule. destruct (view_eqb x y && fst ax && ainit ax); [|exact GY]. destruct GY as [_ GY]. split; [reflexivity|]. exact GY.
  - intros A f. rewrite EX, EY. cbn [rbind]. now rewrite OO, II.
Qed.
Definition mpre p := mulopen_pre prg k p (s p) x y mmul.
Definition tripled (M : nat -> mo) : Prop :=
  if mmul then forall i j, (i < v_r x)%nat -> (j < v_c y)%nat ->
    eqm k (dot (v_c x) (fun l => total n (fun p => mo_a (M p) i l)) (fun l => total n (fun p => mo_b (M p) l j))) (total n (fun p => mo_c (M p) i j))
  else forall i j, inr x i j -> eqm k (total n (fun p => mo_a (M p) i j) * total n (fun p => mo_b (M p) i j)) (total n (fun p => mo_c (M p) i j)).
Definition mo0 : mo := mkMo (got0 false) (got0 false) (fun _ _ => 0) (fun _ _ => 0) (fun _ _ => 0) (mkBst 0 0 []) [].
Lemma pre_ok : shapes -> exists M ca cb c', tripled M /\ forall p, (p < n)%nat -> mpre p = Ok (M p) /\
  orel p x (fst ax) (ainit ax) (atr ax) ca (mo_x (M p)) (mo_a (M p)) /\
  orel p y (fst ay) (ainit ay) (atr ay) cb (mo_y (M p)) (mo_b (M p)) /\ mo_st (M p) = mkp p c'.
Proof.
  pose proof ax_st as SX. pose proof ay_st as SY. pose proof gets as GETS. unfold shapes, mpre, tripled in *.
  remember ay as AY eqn:EAY. remember ax as AX eqn:EAX. clear EAX EAY.
  revert SX SY GETS. destruct mmul; intros SX SY GETS SH.
  all: destruct (afill_cases c AX x) as [FX1 [FX2 FX3]].
  all: assert (NX : forall st c', snd AX = Some (st, c') -> st <> SInit) by (intros; now apply (SX st c')).
  all: assert (NY : forall st c', snd AY = Some (st, c') -> st <> SInit) by (intros; now apply (SY st c')).
  all: specialize (FX2 NX).
  - destruct (a_if_dot_get c AX x) as [ca [c1 [l1 [E1 [A1 B1]]]]]; [intros st c' E; apply SX in E; tauto|].
    destruct (a_if_dot_get c1 AY y) as [cb [c2 [l2 [E2 [A2 B2]]]]]; [intros st c' E; apply SY in E; tauto|].
    destruct (afill_cases c1 AY y) as [FY1 [FY2 FY3]]. specialize (FY2 NY).
    assert (HH : forall p, (p < n)%nat -> exists m, mulopen_pre prg k p (s p) x y true = Ok m /\
      (orel p x (fst AX) (ainit AX) (atr AX) ca (mo_x m) (mo_a m) /\ orel p y (fst AY) (ainit AY) (atr AY) cb (mo_y m) (mo_b m) /\
       mo_st m = mkp p (c2 + blocks k (Z.of_nat (v_r x) * Z.of_nat (v_c y))) /\
       (forall i j, (j < v_c y)%nat -> mo_c m i j = if (p =? 0)%nat
          then radd k (prg k (sd p) c2 (i * v_c y + j)%nat) (adjust_dot prg k (v_r x) (v_c y) (v_c x) (mkOp seeds ca k (atr AX)) (mkOp seeds cb k (atr AY)) (mkOp seeds c2 k false) i j)
          else prg k (sd p) c2 (i * v_c y + j)%nat))).
    { intros p P. destruct (GETS p P) as [gx [gy [GX [GY RUN]]]]. unfold mulopen_pre.
      pose proof (RUN _ (fun xc yc => if true then if (v_c x =? v_r y)%nat then
         rbind (tfp_dot prg k p (p_b (s p)) (v_r x) (v_c y) (v_c x) (opt xc) (opt yc)) (fun o =>
           Ok (mkMo (upd_desc xc (r_xd o)) (upd_desc yc (r_yd o)) (fun i j => t_a (r_val o) (i * v_c x + j)%nat) (fun i j => t_b (r_val o) (i * v_c y + j)%nat) (fun i j => t_c (r_val o) (i * v_c y + j)%nat) (r_st o) (r_draws o))) else Err else Err)) as RUN'.
      cbv zeta in RUN' |- *. cbn match in RUN'. rewrite RUN'. clear RUN RUN'. rewrite SH, Nat.eqb_refl.
      rewrite (proj1 (R p P)).
      pose proof (tfp_dot_ok prg prg_word seeds n_pos k p c (v_r x) (v_c y) (v_r y) (adesc x AX) (adesc y AY) (opt gx) (opt gy)
         (adesc_rel p x AX gx GX NX) (adesc_rel p y AY gy GY NY)) as T.
      unfold a_dot in T.
      replace (Z.of_nat (v_r x) * Z.of_nat (v_r y)) with (vsize x) in T by (unfold vsize; rewrite SH; reflexivity).
      replace (Z.of_nat (v_c y) * Z.of_nat (v_r y)) with (vsize y) in T by (unfold vsize; lia).
      replace (Z.of_nat (v_r y) * Z.of_nat (v_c y)) with (vsize y) in T by (unfold vsize; lia).
      rewrite E1 in T. cbn [rbind] in T. rewrite E2 in T. cbn [rbind] in T.
      destruct T as [A [B [C [ET [HA [HB HC]]]]]]. rewrite ET. cbn [rbind]. eexists. split; [reflexivity|].
      cbn [mo_x mo_y mo_a mo_b mo_c mo_st r_val r_st r_xd r_yd t_a t_b t_c].
      split; [|split; [|split; [reflexivity|]]].
      - apply orel_of; auto.
        + intros st c' E. destruct (SX st c' E) as [S1 [S2 S3]]. split; [exact S1|]. split; [exact S3|]. eapply B1; eauto.
        + intros Q1 Q2. rewrite (A1 Q2). auto.
        + intros i j [I J]. rewrite SH in *. rewrite HA by exact J. unfold as_matrix, Beaver_proof.pa, idx. cbn [o_tr]. rewrite ?SH. destruct (atr AX), (atr AY); reflexivity.
      - apply orel_of; auto.
        + intros st c' E. destruct (SY st c' E) as [S1 [S2 S3]]. split; [exact S1|]. split; [exact S3|]. eapply B2; eauto.
        + intros Q1 Q2. rewrite (A2 Q2). auto.
        + intros i j [I J]. rewrite HB by exact J. unfold as_matrix, Beaver_proof.pa, idx. cbn [o_tr]. destruct (atr AY); reflexivity.
      - intros i j J. rewrite HC by exact J. destruct (p =? 0)%nat; reflexivity. }
    destruct (choose _ _ mo0 HH) as [M HM]. exists M, ca, cb, (c2 + blocks k (Z.of_nat (v_r x) * Z.of_nat (v_c y))). split.
    + intros i j I J.
      set (A := fun p f => mo_a (M p) (f / v_c x)%nat (f mod v_c x)%nat). set (B := fun p f => mo_b (M p) (f / v_c y)%nat (f mod v_c y)%nat).
      set (C := fun p f => mo_c (M p) (f / v_c y)%nat (f mod v_c y)%nat).
      assert (DM : forall w i j, (j < w)%nat -> ((i * w + j) / w = i /\ (i * w + j) mod w = j)%nat).
      { intros w i' j' J'. split; [rewrite Nat.div_add_l, Nat.div_small by lia; lia|rewrite Nat.add_comm, Nat.mod_add by lia; now apply Nat.mod_small]. }
      assert (D : dot_triple k n (v_r x) (v_c y) (v_c x) A B C).
      { apply (dot_valid prg prg_word seeds n_pos k (v_r x) (v_c y) (v_c x) ca (atr AX) cb (atr AY) c2); [lia| | |];
          intros p P i' j' I' J'; destruct (HM p P) as [_ [O1 [O2 [_ O3]]]]; destruct (DM _ i' j' J') as [D1 D2]; unfold A, B, C; rewrite D1, D2.
        - destruct O1 as [_ [_ [O1 _]]]. rewrite O1 by now split. unfold as_matrix, Beaver_proof.pa, idx. cbn [o_tr]. destruct (atr AX), (atr AY); reflexivity.
        - destruct O2 as [_ [_ [O2 _]]]. rewrite O2 by (split; lia). unfold as_matrix, Beaver_proof.pa, idx. cbn [o_tr]. rewrite ?SH. destruct (atr AX), (atr AY); reflexivity.
        - now apply O3. }
      specialize (D i j I J). apply eqm_cong in D. symmetry in D. unfold tot, A, B, C in D.
      destruct (DM _ i j J) as [D1 D2]. rewrite D1, D2 in D. rewrite <- D. apply dot_eqm. intros l L. destruct (DM _ i l L) as [D3 D4]. destruct (DM _ l j J) as [D5 D6].
      split; apply eqm_of_eq, total_ext; intros p P; [now rewrite D3, D4|now rewrite D5, D6].
    + intros p P. destruct (HM p P) as [E [O1 [O2 [O3 _]]]]. auto.
  - destruct SH as [SHr SHc].
    destruct (a_if_get c AX x) as [ca [c1 [l1 [E1 [A1 B1]]]]]; [intros st c' E; apply SX in E; destruct E as [Q1 [Q2 Q3]]; auto|].
    destruct (a_if_get c1 AY y) as [cb [c2 [l2 [E2 [A2 B2]]]]]; [intros st c' E; apply SY in E; destruct E as [Q1 [Q2 Q3]]; auto|].
    destruct (afill_cases c1 AY y) as [FY1 [FY2 FY3]]. specialize (FY2 NY).
    assert (TX : atr AX = false) by (unfold atr; destruct (snd AX) as [[st c']|] eqn:E; [destruct (SX st c' eq_refl) as [_ [-> _]]; auto|reflexivity]).
    assert (TY : atr AY = false) by (unfold atr; destruct (snd AY) as [[st c']|] eqn:E; [destruct (SY st c' eq_refl) as [_ [-> _]]; auto|reflexivity]).
    assert (HH : forall p, (p < n)%nat -> exists m, mulopen_pre prg k p (s p) x y false = Ok m /\
      (orel p x (fst AX) (ainit AX) (atr AX) ca (mo_x m) (mo_a m) /\ orel p y (fst AY) (ainit AY) (atr AY) cb (mo_y m) (mo_b m) /\
       mo_st m = mkp p (c2 + blocks k (vsize x)) /\
       (forall i j, inr x i j -> mo_c m i j = (if (p =? 0)%nat then fun i => radd k (prg k (sd p) c2 i) (adjust_mul prg k (mkOp (tbl p) ca k false) (mkOp (tbl p) cb k false) (mkOp (tbl p) c2 k false) i)
             else prg k (sd p) c2) (idx false x i j)))).
    { intros p P. destruct (GETS p P) as [gx [gy [GX [GY RUN]]]]. unfold mulopen_pre.
      pose proof (RUN _ (fun xc yc => if (v_r x =? v_r y)%nat && (v_c x =? v_c y)%nat then
         rbind (tfp_mul prg k p (p_b (s p)) (vsize x) (opt xc) (opt yc)) (fun o =>
           Ok (mkMo (upd_desc xc (r_xd o)) (upd_desc yc (r_yd o)) (fun i j => t_a (r_val o) (i * v_c x + j)%nat) (fun i j => t_b (r_val o) (i * v_c x + j)%nat) (fun i j => t_c (r_val o) (i * v_c x + j)%nat) (r_st o) (r_draws o))) else Err)) as RUN'.
      cbv zeta in RUN' |- *. rewrite RUN'. clear RUN RUN'. rewrite SHr, SHc, !Nat.eqb_refl. cbn [andb].
      rewrite (proj1 (R p P)).
      pose proof (tfp_mul_ok prg seeds k p c (vsize x) (adesc x AX) (adesc y AY) (opt gx) (opt gy)
         (adesc_rel p x AX gx GX NX) (adesc_rel p y AY gy GY NY)) as T.
      unfold a_mul in T. assert (VS : vsize x = vsize y) by (unfold vsize; congruence).
      rewrite E1 in T. cbn [rbind] in T. rewrite VS in T. rewrite E2 in T. cbn [rbind] in T. rewrite VS.
      rewrite T. cbn [rbind]. eexists. split; [reflexivity|].
      cbn [mo_x mo_y mo_a mo_b mo_c mo_st r_val r_st r_xd r_yd t_a t_b t_c]. rewrite <- VS.
      split; [|split; [|split; [reflexivity|]]].
      - apply orel_of; auto.
        + intros st c' E. destruct (SX st c' E) as [S1 [S2 S3]]. split; [exact S1|]. split; [exact S3|]. eapply B1; eauto.
        + intros Q1 Q2. rewrite (A1 Q2). auto.
        + intros i j [I J]. rewrite TX, <- SHc. reflexivity.
      - rewrite VS. apply orel_of; auto.
        + intros st c' E. destruct (SY st c' E) as [S1 [S2 S3]]. split; [exact S1|]. split; [exact S3|]. eapply B2; eauto.
        + intros Q1 Q2. rewrite (A2 Q2). auto.
        + intros i j [I J]. rewrite TY. reflexivity.
      - intros i j J. rewrite <- SHc. reflexivity. }
    destruct (choose _ _ mo0 HH) as [M HM]. exists M, ca, cb, (c2 + blocks k (vsize x)). split.
    + intros i j IJ. pose proof (mul_valid prg prg_word seeds n_pos k ca cb c2 ltac:(lia) (idx false x i j)) as G. apply eqm_cong in G. symmetry in G. unfold tot in G.
      rewrite (total_ext n (fun p => mo_a (M p) i j) (fun p => prg k (sd p) ca (idx false x i j))).
      2:{ intros p P. destruct (HM p P) as [_ [[_ [_ [O _]]] _]]. rewrite O, TX by exact IJ. reflexivity. }
      rewrite (total_ext n (fun p => mo_b (M p) i j) (fun p => prg k (sd p) cb (idx false x i j))).
      2:{ intros p P. destruct (HM p P) as [_ [_ [[_ [_ [O _]]] _]]]. rewrite O, TY by (destruct IJ; split; lia). unfold Beaver_proof.pa, idx. rewrite SHc. reflexivity. }
      rewrite G. apply eqm_of_eq, total_ext.
      intros p P. destruct (HM p P) as [_ [_ [_ [_ O]]]]. rewrite O by exact IJ. reflexivity.
    + intros p P. destruct (HM p P) as [E [O1 [O2 [O3 _]]]]. auto.
Qed.


Definition prod_of (i j : nat) : Z := if mmul then dot (v_c x) (fun l => plain x i l) (fun l => plain y l j) else plain x i j * plain y i j.
Definition out_range (i j : nat) : Prop := (i < v_r x)%nat /\ (j < v_c y)%nat.
Lemma step_mul_ok : shapes -> exists c' es', exists Z0 : nat -> nat -> nat -> Z, exists S' : nat -> pst,
  (forall p, (p < n)%nat -> step_mul prg k n mem mmul s x y p = Ok (S' p, Z0 p)) /\
  crel c' on es' S' /\
  forall i j, out_range i j -> exists z, is_mod k (prod_of i j) z /\ shA k n (fun p => Z0 p i j) z.
Proof.
  intros SH. destruct (pre_ok SH) as [M [ca [cb [c' [T HM]]]]].
  set (ox := fun p => open_val (mo_x (M p)) (fun i j => allreduce (radd k) n (fun q => match mpre q with Ok m' => masked k (mem q) x (mo_a m') i j | _ => 0 end) p)).
  set (oy := fun p => open_val (mo_y (M p)) (fun i j => allreduce (radd k) n (fun q => match mpre q with Ok m' => masked k (mem q) y (mo_b m') i j | _ => 0 end) p)).
  assert (OX : forall p, (p < n)%nat -> forall i j, inr x i j -> eqm k (ox p i j) (plain x i j - total n (pa k ca (idx (atr ax) x i j))) /\
               total n (pa k ca (idx (atr ax) x i j)) = total n (fun q => mo_a (M q) i j)).
  { intros p P i j IJ.
    assert (TT : total n (pa k ca (idx (atr ax) x i j)) = total n (fun q => mo_a (M q) i j)).
    { apply total_ext. intros q Q. destruct (HM q Q) as [_ [[_ [_ [O _]]] _]]. now rewrite O. }
    split; [|exact TT]. unfold ox, open_val. destruct (HM p P) as [_ [[_ [I0 [_ [_ H]]]] _]]. rewrite I0. destruct (ainit ax); [|apply H; auto].
    rewrite TT, (allreduce_ext _ n _ (fun q => masked k (mem q) x (mo_a (M q)) i j) p P).
    - apply (masked_total x (fun q => mo_a (M q)) i j p P).
    - intros q Q. destruct (HM q Q) as [-> _]. reflexivity. }
  assert (OY : forall p, (p < n)%nat -> forall i j, inr y i j -> eqm k (oy p i j) (plain y i j - total n (pa k cb (idx (atr ay) y i j))) /\
               total n (pa k cb (idx (atr ay) y i j)) = total n (fun q => mo_b (M q) i j)).
  { intros p P i j IJ.
    assert (TT : total n (pa k cb (idx (atr ay) y i j)) = total n (fun q => mo_b (M q) i j)).
    { apply total_ext. intros q Q. destruct (HM q Q) as [_ [_ [[_ [_ [O _]]] _]]]. now rewrite O. }
    split; [|exact TT]. unfold oy, open_val. destruct (HM p P) as [_ [_ [[_ [I0 [_ [_ H]]]] _]]]. rewrite I0. destruct (ainit ay); [|apply H; auto].
    rewrite TT, (allreduce_ext _ n _ (fun q => masked k (mem q) y (mo_b (M q)) i j) p P).
    - apply (masked_total y (fun q => mo_b (M q)) i j p P).
    - intros q Q. destruct (HM q Q) as [-> _]. reflexivity. }
  assert (STO : forall p, (p < n)%nat -> exists l2, rbind (store (p_c (s p)) x (mo_x (M p)) (ox p)) (fun c1 => store c1 y (mo_y (M p)) (oy p)) = Ok (mkCache on l2) /\
     Forall2 (erel p) (stored (fst ay && ainit ay) y cb (stored (fst ax && ainit ax) x ca es)) l2).
  { intros p P. destruct (R p P) as [_ [ON F]]. destruct (p_c (s p)) as [on0 l0]. cbn [ch_on ch_ent] in ON, F. subst on0.
    destruct (HM p P) as [_ [O1 [O2 _]]].
    destruct (store_ok p on es x _ _ _ ca _ _ l0 (ox p) O1 F) as [l1 [E1 F1]].
    - apply aget_on.
    - intros A B. now apply (aget_miss on es x mmul).
    - intros i j IJ. now apply OX.
    - rewrite E1. cbn [rbind].
      apply (store_ok p on _ y _ _ _ cb _ _ l1 (oy p) O2 F1).
      + unfold ayrule. destruct (view_eqb x y && fst ax && ainit ax); [cbn [fst]; discriminate|]. apply aget_on.
      + unfold ayrule, stored. destruct (view_eqb x y && fst ax && ainit ax) eqn:EV; [cbn [fst]; discriminate|]. intros A B. destruct (aget_miss on es y mmul A B) as [_ FN].
        destruct (fst ax && ainit ax) eqn:EA; [|exact FN]. unfold afind. cbn [find ae_view]. rewrite <- andb_assoc, EA, andb_true_r in EV. now rewrite EV.
      + intros i j IJ. now apply OY. }
  set (Z0 := fun p => if mmul then matmul_aa k (v_c x) p (mo_a (M p)) (mo_b (M p)) (mo_c (M p)) (ox p) (oy p)
      else fun i j => mul_aa k p (mo_a (M p) i j) (mo_b (M p) i j) (mo_c (M p) i j) (ox p i j) (oy p i j)).
  destruct (choose (fun p => rbind (store (p_c (s p)) x (mo_x (M p)) (ox p)) (fun c1 => store c1 y (mo_y (M p)) (oy p)))
     (fun p cc => ch_on cc = on /\ Forall2 (erel p) (stored (fst ay && ainit ay) y cb (stored (fst ax && ainit ax) x ca es)) (ch_ent cc)) cache0) as [CC HC].
  { intros p P. destruct (STO p P) as [l2 [E F]]. eexists. split; [exact E|]. now split. }
  exists c', (stored (fst ay && ainit ay) y cb (stored (fst ax && ainit ax) x ca es)), Z0, (fun p => mkPst (mkp p c') (CC p)).
  split; [|split].
  - intros p P. unfold step_mul. destruct (HM p P) as [E [_ [_ ES]]]. unfold mpre in E. rewrite E. cbn [rbind].
    change (open_val (mo_x (M p)) _) with (ox p). change (open_val (mo_y (M p)) _) with (oy p).
    destruct (HC p P) as [EC _]. destruct (store (p_c (s p)) x (mo_x (M p)) (ox p)) as [c1| |]; cbn [rbind] in *; try discriminate.
    rewrite EC. cbn [rbind]. rewrite ES. unfold Z0. destruct mmul; reflexivity.
  - intros p P. cbn [p_b p_c]. destruct (HC p P) as [_ [A B]]. auto.
  - intros i j [I J]. unfold Z0, prod_of, tripled, shapes in *. assert (K' : 0 <= k) by lia.
    (* opened values agree modulo 2^k at all parties: use party 0's *)
    destruct mmul.
    + exists (ring_mmul k (v_c x) (plain x) (plain y) i j). split; [unfold ring_mmul; now apply dot_loop_ok|].
      split; [intros p P; unfold matmul_aa; destruct (_ =? _)%nat; now apply radd_word|].
      assert (G : shA k n (fun p => matmul_aa k (v_c x) p (mo_a (M p)) (mo_b (M p)) (mo_c (M p)) (ox O) (oy O) i j) (ring_mmul k (v_c x) (plain x) (plain y) i j)).
      { apply (matmul_correct k n (v_c x) (fun p => mo_a (M p)) (fun p => mo_b (M p)) (fun p => mo_c (M p)) (plain x) (plain y) (ox O) (oy O) i j K' n_pos).
        - now apply T.
        - intros l L. destruct (OX O n_pos i l) as [E1 E2]; [now split|]. destruct (OY O n_pos l j) as [E3 E4]; [split; lia|]. rewrite E1, E2, E3, E4. split; reflexivity. }
      apply (shA_eqm k n _ _ K') in G. split; [now apply mmul_word|]. apply eqm_exists; [exact K'|]. rewrite <- G.
      apply total_eqm. intros p P. unfold matmul_aa.
      assert (EX : forall l, (l < v_c x)%nat -> eqm k (ox O i l) (ox p i l)) by (intros l L; destruct (OX p P i l) as [-> _]; [now split|]; destruct (OX O n_pos i l) as [-> _]; [now split|reflexivity]).
      assert (EY : forall l, (l < v_c x)%nat -> eqm k (oy O l j) (oy p l j)) by (intros l L; destruct (OY p P l j) as [-> _]; [split; lia|]; destruct (OY O n_pos l j) as [-> _]; [split; lia|reflexivity]).
      destruct (_ =? _)%nat; repeat rewrite eqm_radd; repeat rewrite eqm_mmul by exact K'.
      * rewrite (dot_eqm k (v_c x) (ox O i) (fun l => mo_b (M p) l j) (ox p i) (fun l => mo_b (M p) l j)) by (intros l L; split; [now apply EX|reflexivity]).
        rewrite (dot_eqm k (v_c x) (mo_a (M p) i) (fun l => oy O l j) (mo_a (M p) i) (fun l => oy p l j)) by (intros l L; split; [reflexivity|now apply EY]).
        rewrite (dot_eqm k (v_c x) (ox O i) (fun l => oy O l j) (ox p i) (fun l => oy p l j)) by (intros l L; split; [now apply EX|now apply EY]). reflexivity.
      * rewrite (dot_eqm k (v_c x) (ox O i) (fun l => mo_b (M p) l j) (ox p i) (fun l => mo_b (M p) l j)) by (intros l L; split; [now apply EX|reflexivity]).
        rewrite (dot_eqm k (v_c x) (mo_a (M p) i) (fun l => oy O l j) (mo_a (M p) i) (fun l => oy p l j)) by (intros l L; split; [reflexivity|now apply EY]). reflexivity.
    + destruct SH as [SHr SHc]. assert (IX : inr x i j) by (split; lia). assert (IY : inr y i j) by (split; lia).
      exists (rmul k (plain x i j) (plain y i j)). split; [now apply wrap_is_mod|].
      split; [intros p P; now apply mul_aa_word|].
      assert (G : shA k n (fun p => mul_aa k p (mo_a (M p) i j) (mo_b (M p) i j) (mo_c (M p) i j) (ox O i j) (oy O i j)) (rmul k (plain x i j) (plain y i j))).
      { apply (mul_aa_correct k n (fun p => mo_a (M p) i j) (fun p => mo_b (M p) i j) (fun p => mo_c (M p) i j)); auto.
        - destruct (OX O n_pos i j IX) as [E1 E2]. now rewrite E1, E2.
        - destruct (OY O n_pos i j IY) as [E1 E2]. now rewrite E1, E2. }
      apply (shA_eqm k n _ _ K') in G. split; [now apply rmul_word|]. apply eqm_exists; [exact K'|]. rewrite <- G.
      apply total_eqm. intros p P. unfold mul_aa.
      assert (EX : eqm k (ox O i j) (ox p i j)) by (destruct (OX p P i j IX) as [-> _]; destruct (OX O n_pos i j IX) as [-> _]; reflexivity).
      assert (EY : eqm k (oy O i j) (oy p i j)) by (destruct (OY p P i j IY) as [-> _]; destruct (OY O n_pos i j IY) as [-> _]; reflexivity).
      destruct (_ =? _)%nat; repeat rewrite ?eqm_radd, ?eqm_rmul; rewrite EX, EY; reflexivity.
Qed.
End Mul.

Lemma step_square_ok s c on es x : crel c on es s -> exists c' es', exists Z0 : nat -> nat -> nat -> Z, exists S' : nat -> pst,
  (forall p, (p < n)%nat -> step_square prg k n mem s x p = Ok (S' p, Z0 p)) /\ crel c' on es' S' /\
  forall i j, inr x i j -> exists z, is_mod k (plain x i j * plain x i j) z /\ shA k n (fun p => Z0 p i j) z.
Proof.
  intros R. assert (K' : 0 <= k) by lia.
  pose proof (aget_status on es x false) as SX. pose proof (fun p => get_ok c on es s p x false R) as GETS.
  pose proof (aget_miss on es x false) as MISS. pose proof (aget_on on es x false) as ONN.
  remember (aget on es x false) as AX eqn:EAX. clear EAX.
  assert (NX : forall st c', snd AX = Some (st, c') -> st <> SInit) by (intros; now apply (SX st c')).
  destruct (afill_cases c AX x) as [FX1 [FX2 FX3]]. specialize (FX2 NX).
  destruct (a_if_get c AX x) as [ca [c1 [l1 [E1 [A1 B1]]]]]; [intros st c' E; apply SX in E; destruct E as [Q1 [Q2 Q3]]; auto|].
  assert (TX : atr AX = false) by (unfold atr; destruct (snd AX) as [[st c']|] eqn:E; [destruct (SX st c' eq_refl) as [_ [-> _]]; auto|reflexivity]).
  set (c' := c1 + blocks k (vsize x)).
  set (bb := fun p => if (p =? 0)%nat then fun i => radd k (prg k (sd p) c1 i) (adjust_square prg k (mkOp (tbl p) ca k false) (mkOp (tbl p) c1 k false) i) else prg k (sd p) c1).
  assert (HH : forall p, (p < n)%nat -> exists r, square_pre prg k p (s p) x = Ok r /\
     (orel p x (fst AX) (ainit AX) (atr AX) ca (fst (fst (fst r))) (snd (fst (fst r))) /\ snd (fst r) = (fun i j => bb p (idx false x i j)) /\ snd r = mkp p c')).
  { intros p P. destruct (GETS p P) as [g [EG GX]]. unfold square_pre. rewrite EG. cbn [rbind]. rewrite (proj1 (R p P)).
    pose proof (tfp_square_ok prg seeds k p c (vsize x) (adesc x AX) (opt g) (adesc_rel p x AX g GX NX)) as T. unfold a_square in T. rewrite E1 in T. cbn [rbind] in T.
    rewrite T. cbn [rbind]. eexists. split; [reflexivity|]. cbn [fst snd r_val r_st r_xd]. split; [|split; reflexivity].
    apply orel_of; auto.
    - intros st c0 E. destruct (SX st c0 E) as [S1 [S2 S3]]. split; [exact S1|]. split; [exact S3|]. eapply B1; eauto.
    - intros Q1 Q2. rewrite (A1 Q2). auto.
    - intros i j I. rewrite TX. reflexivity. }
  destruct (choose _ _ (got0 false, fun _ _ => 0, fun _ _ => 0, mkBst 0 0 []) HH) as [M HM].
  set (a := fun p => snd (fst (fst (M p)))). set (g := fun p => fst (fst (fst (M p)))).
  set (ox := fun p => open_val (g p) (fun i j => allreduce (radd k) n (fun q => match square_pre prg k q (s q) x with Ok (_, a', _, _) => masked k (mem q) x a' i j | _ => 0 end) p)).
  assert (TT : forall i j, inr x i j -> total n (pa k ca (idx (atr AX) x i j)) = total n (fun q => a q i j)).
  { intros i j IJ. apply total_ext. intros q Q. destruct (HM q Q) as [_ [[_ [_ [O _]]] _]]. unfold a. now rewrite O. }
  assert (OX : forall p, (p < n)%nat -> forall i j, inr x i j -> eqm k (ox p i j) (plain x i j - total n (pa k ca (idx (atr AX) x i j)))).
  { intros p P i j IJ. unfold ox, open_val. destruct (HM p P) as [_ [[_ [I0 [_ [_ H]]]] _]]. fold (g p) in I0. rewrite I0. destruct (ainit AX); [|apply H; auto].
    rewrite TT by exact IJ. rewrite (allreduce_ext _ n _ (fun q => masked k (mem q) x (a q) i j) p P).
    - apply (masked_total x a i j p P).
    - intros q Q. destruct (HM q Q) as [-> _]. unfold a. destruct (M q) as [[[? ?] ?] ?]. reflexivity. }
  destruct (choose (fun p => store (p_c (s p)) x (g p) (ox p)) (fun p cc => ch_on cc = on /\ Forall2 (erel p) (stored (fst AX && ainit AX) x ca es) (ch_ent cc)) cache0) as [CC HC].
  { intros p P. destruct (R p P) as [_ [ON F]]. destruct (p_c (s p)) as [on0 l0]. cbn [ch_on ch_ent] in ON, F. subst on0.
    destruct (HM p P) as [_ [O1 _]].
    destruct (store_ok p on es x _ _ _ ca _ _ l0 (ox p) O1 F) as [l1' [EE F1]]; auto.
    - intros A B. now apply MISS.
    - eexists. split; [exact EE|]. now split. }
  exists c', (stored (fst AX && ainit AX) x ca es), (fun p i j => square_a k p (a p i j) (bb p (idx false x i j)) (ox p i j)), (fun p => mkPst (mkp p c') (CC p)).
  split; [|split].
  - intros p P. unfold step_square. destruct (HM p P) as [E [_ [EB ES]]]. rewrite E. cbn [rbind]. destruct (HC p P) as [EC _].
    unfold ox, g, a in *. destruct (M p) as [[[g0 a0] b0] st0]. cbn [fst snd] in *. rewrite EC. cbn [rbind]. subst b0 st0. reflexivity.
  - intros p P. cbn [p_b p_c]. destruct (HC p P) as [_ [A B]]. auto.
  - intros i j IJ. exists (rmul k (plain x i j) (plain x i j)). split; [now apply wrap_is_mod|].
    split; [intros p P; unfold square_a; destruct (_ =? _)%nat; now apply radd_word|].
    assert (G : shA k n (fun p => square_a k p (a p i j) (bb p (idx false x i j)) (ox O i j)) (rmul k (plain x i j) (plain x i j))).
    { apply square_correct; auto.
      - pose proof (square_valid prg prg_word seeds n_pos k ca c1 K' (idx false x i j)) as G. apply eqm_cong in G. symmetry in G. unfold tot in G.
        rewrite (total_ext n (fun p => a p i j) (fun p => prg k (sd p) ca (idx false x i j))); [exact G|]. intros p P. destruct (HM p P) as [_ [[_ [_ [O _]]] _]]. unfold a. rewrite O, TX by exact IJ. reflexivity.
      - rewrite OX, TT by auto. reflexivity. }
    apply (shA_eqm k n _ _ K') in G. split; [now apply rmul_word|]. apply eqm_exists; [exact K'|]. rewrite <- G.
    apply total_eqm. intros p P. unfold square_a.
    assert (EX : eqm k (ox O i j) (ox p i j)) by (rewrite !OX by auto; reflexivity).
    destruct (_ =? _)%nat; repeat rewrite ?eqm_radd, ?eqm_rmul; rewrite EX; reflexivity.
Qed.

(* ---- programs ---- *)
Definition op_ok (o : cop) : Prop :=
  match o with CMul x y => v_r x = v_r y /\ v_c x = v_c y | CMatMul x y => v_c x = v_r y | _ => True end.
Definition op_val (o : cop) (i j : nat) (v : Z) : Prop :=
  match o with
  | CMul x y => inr x i j /\ v = plain x i j * plain y i j
  | CSquare x => inr x i j /\ v = plain x i j * plain x i j
  | CMatMul x y => (i < v_r x)%nat /\ (j < v_c y)%nat /\ v = dot (v_c x) (fun l => plain x i l) (fun l => plain y l j)
  | _ => False
  end.
Lemma cstep_ok s c on es o : crel c on es s -> op_ok o -> exists c' on' es', exists Z0 : nat -> nat -> nat -> Z, exists S' : nat -> pst,
  (forall p, (p < n)%nat -> cstep prg k n mem o s p = Ok (S' p, Z0 p)) /\ crel c' on' es' S' /\
  forall i j v, op_val o i j v -> exists z, is_mod k v z /\ shA k n (fun p => Z0 p i j) z.
Proof.
  intros R OK. destruct o as [b|b|x y|x|x y]; cbn [cstep op_ok op_val] in *.
  - exists c, (if existsb (Nat.eqb b) on then on else b :: on), es. do 2 eexists. split; [intros p P; reflexivity|]. split; [|contradiction].
    intros p P. destruct (R p P) as [A [B F]]. cbn [p_b p_c]. split; [exact A|]. unfold enable. rewrite B. destruct (existsb (Nat.eqb b) on); cbn; auto.
  - exists c, (filter (fun b' => negb (b' =? b)%nat) on), (filter (fun e => negb (v_buf (ae_view e) =? b)%nat) es). do 2 eexists. split; [intros p P; reflexivity|]. split; [|contradiction].
    intros p P. destruct (R p P) as [A [B F]]. cbn [p_b p_c]. split; [exact A|]. unfold disable. cbn [ch_on ch_ent]. rewrite B. split; [reflexivity|].
    clear - F. induction F as [|a e es l E F IH]; [constructor|]. cbn [filter]. destruct (proj1 E). destruct (negb _); auto.
  - destruct (step_mul_ok s c on es R x y false OK) as [c' [es' [Z0 [S' [E [R' G]]]]]]. exists c', on, es', Z0, S'. split; [exact E|]. split; [exact R'|].
    intros i j v [[I J] ->]. apply G. split; [exact I|]. destruct OK as [_ <-]. exact J.
  - destruct (step_square_ok s c on es x R) as [c' [es' [Z0 [S' [E [R' G]]]]]]. exists c', on, es', Z0, S'. split; [exact E|]. split; [exact R'|].
    intros i j v [IJ ->]. now apply G.
  - destruct (step_mul_ok s c on es R x y true OK) as [c' [es' [Z0 [S' [E [R' G]]]]]]. exists c', on, es', Z0, S'. split; [exact E|]. split; [exact R'|].
    intros i j v [I [J ->]]. apply G. now split.
Qed.
Lemma crel_ext c on es s s' : (forall p, (p < n)%nat -> s p = s' p) -> crel c on es s -> crel c on es s'.
Proof. intros H R p P. rewrite <- (H p P). now apply R. Qed.
Lemma crun_ok ops : forall s c on es, crel c on es s -> Forall op_ok ops -> exists c' on' es', crel c' on' es' (crun prg k n mem ops s).
Proof.
  induction ops as [|o ops IH]; intros s c on es R F; [now exists c, on, es|]. inversion F; subst. cbn [crun].
  destruct (cstep_ok s c on es o R H1) as [c' [on' [es' [Z0 [S' [E [R' _]]]]]]]. apply (IH _ c' on' es'); [|assumption].
  apply (crel_ext c' on' es' S'); [|exact R']. intros p P. rewrite E by exact P. reflexivity.
Qed.
Lemma crel_init : crel 0 [] [] (cinit seeds).
Proof. intros p P. split; [reflexivity|]. split; [reflexivity|constructor]. Qed.
End C.
