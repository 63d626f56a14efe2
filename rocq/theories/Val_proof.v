(* Proofs about serialised values. *)
From Coq Require Import Permutation Sorting.Sorted.
From Verif Require Import Ty_model Ty_proof Base Nd_model Nd_spec Nd_proof Ndr_proof Val_model Val_spec.
Open Scope list_scope.
Open Scope Z_scope.

(* ---- bytes ---- *)
Lemma le_length n z : length (le n z) = n.
Proof. revert z; induction n as [|n IH]; intros z; cbn [le length]; [reflexivity|]. now rewrite IH. Qed.
Lemma unle_le n : forall z, 0 <= z < 256 ^ Z.of_nat n -> unle (le n z) = z.
Proof.
  induction n as [|n IH]; intros z H; cbn [le unle].
  - change (256 ^ Z.of_nat 0) with 1 in H. lia.
  - rewrite Nat2Z.inj_succ, Z.pow_succ_r in H by lia. rewrite IH.
    + pose proof (Z.div_mod z 256). lia.
    + split; [apply Z.div_pos; lia|apply Z.div_lt_upper_bound; lia].
Qed.
Lemma to_bytes_length es l : length (to_bytes es l) = (length l * es)%nat.
Proof. induction l as [|x l IH]; cbn [to_bytes flat_map length]; [reflexivity|]. rewrite app_length, le_length. unfold to_bytes in IH. rewrite IH. lia. Qed.
Lemma to_bytes_app es l l' : to_bytes es (l ++ l') = to_bytes es l ++ to_bytes es l'.
Proof. apply flat_map_app. Qed.
Lemma firstn_exact {A} (a b : list A) n : length a = n -> firstn n (a ++ b) = a.
Proof. intros <-. rewrite firstn_app, Nat.sub_diag, firstn_all. cbn. apply app_nil_r. Qed.
Lemma skipn_exact {A} (a b : list A) n : length a = n -> skipn n (a ++ b) = b.
Proof. intros <-. rewrite skipn_app, Nat.sub_diag, skipn_all. reflexivity. Qed.
Lemma to_bytes_firstn es l n : firstn (n * es) (to_bytes es l) = to_bytes es (firstn n l).
Proof.
  destruct (Nat.le_gt_cases n (length l)) as [L|L].
  - rewrite <- (firstn_skipn n l) at 1. rewrite to_bytes_app. apply firstn_exact. rewrite to_bytes_length, firstn_length. now rewrite Nat.min_l.
  - rewrite firstn_all2 by (rewrite to_bytes_length; nia). now rewrite firstn_all2 by lia.
Qed.
Lemma of_to_bytes es l : Forall (fun v => 0 <= v < 256 ^ Z.of_nat es) l -> of_bytes es (length l) (to_bytes es l) = l.
Proof.
  intros F. unfold of_bytes. apply (nth_ext _ _ 0 0); [now rewrite map_length, seq_length|]. rewrite map_length, seq_length. intros i Hi.
  rewrite (nth_indep _ 0 (unle (firstn es (skipn (0 * es) (to_bytes es l))))) by now rewrite map_length, seq_length.
  rewrite (map_nth (fun i => unle (firstn es (skipn (i * es) (to_bytes es l))))), seq_nth by exact Hi. cbn [Nat.add].
  assert (E : l = firstn i l ++ nth i l 0 :: skipn (S i) l).
  { rewrite <- (firstn_skipn i l) at 1. f_equal. clear F. revert i Hi. induction l as [|x l IH]; intros i Hi; cbn [length] in Hi; [lia|].
    destruct i; [reflexivity|]. apply IH. lia. }
  rewrite E at 1. rewrite to_bytes_app, skipn_exact by (rewrite to_bytes_length, firstn_length; lia).
  cbn [to_bytes flat_map]. rewrite firstn_exact by apply le_length. apply unle_le.
  rewrite Forall_forall in F. apply F, nth_In, Hi.
Qed.

Lemma nthf {A} (l : list A) d : forall m i, (i < m)%nat -> nth i (firstn m l) d = nth i l d.
Proof. induction l as [|x l IH]; intros [|m] i H; cbn; try reflexivity; try lia. destruct i; [reflexivity|]. apply IH. lia. Qed.
Lemma nths {A} (l : list A) d : forall m i, nth i (skipn m l) d = nth (m + i) l d.
Proof. induction l as [|x l IH]; intros [|m] i; cbn; try reflexivity; [now destruct i|apply IH]. Qed.

(* ---- making the chunks ---- *)
Definition full (size : Z) (c : chunk) : Prop := ctotal c = size /\ 0 < clen c.
Lemma chunk_loop_ok mem size max K : 0 < max -> 0 <= size -> size <= Z.of_nat (length mem) -> size + max <= 2 ^ 64 ->
  K = (size + max - 1) / max -> forall n i, 0 <= i -> i + Z.of_nat n = K ->
  exists L, chunk_loop mem size max i n = Ok L /\ consecutive (Z.min (i * max) size) L size /\ Forall (fun c => full size c /\ clen c <= max) L /\
    flat_map content L = firstn (Z.to_nat (size - Z.min (i * max) size)) (skipn (Z.to_nat (Z.min (i * max) size)) mem).
Proof.
  intros M S0 SM W KE. assert (KL : size <= K * max).
  { pose proof (Z.div_mod (size + max - 1) max ltac:(lia)). pose proof (Z.mod_pos_bound (size + max - 1) max ltac:(lia)). nia. }
  assert (KU : forall i, i < K -> i * max < size).
  { intros i Hi. pose proof (Z.div_mod (size + max - 1) max ltac:(lia)). pose proof (Z.mod_pos_bound (size + max - 1) max ltac:(lia)). nia. }
  clear KE. induction n as [|n IH]; intros i I E; cbn [chunk_loop].
  - exists []. assert (size <= i * max) by (assert (i = K) by lia; subst; lia). rewrite Z.min_r by lia.
    split; [reflexivity|]. split; [reflexivity|]. split; [constructor|]. now rewrite Z.sub_diag.
  - specialize (KU i ltac:(lia)). rewrite (Z.min_l (i * max) size) by lia. unfold wrap. assert (IM : 0 <= i * max) by (apply Z.mul_nonneg_nonneg; lia). rewrite !Z.mod_small by lia.
    destruct (IH (i + 1) ltac:(lia) ltac:(lia)) as (L & LE & LC & LF & LM). cbv zeta.
    set (cs := Z.min max (size - i * max)).
    assert (NX : Z.min ((i + 1) * max) size = i * max + cs) by (unfold cs; lia).
    assert (CS : 0 < cs /\ cs <= max /\ i * max + cs <= size) by (unfold cs; lia). clearbody cs.
    destruct (Z.ltb_spec 0 cs); [|lia]. destruct (Z.ltb_spec (Z.of_nat (length mem)) (i * max + cs)); [lia|]. cbn [andb]. rewrite LE. cbn [rbind].
    assert (CL : length (firstn (Z.to_nat cs) (skipn (Z.to_nat (i * max)) mem)) = Z.to_nat cs) by (rewrite firstn_length, skipn_length; lia).
    eexists. split; [reflexivity|]. cbn [consecutive coffset clen content ctotal]. unfold clen at 1. cbn [content]. rewrite CL, Z2Nat.id by lia. rewrite <- NX.
    split; [split; [reflexivity|exact LC]|]. split.
    + constructor; [|exact LF]. unfold full, clen. cbn [content ctotal]. rewrite CL. lia.
    + cbn [flat_map content]. rewrite LM, NX.
      rewrite <- (firstn_skipn (Z.to_nat cs) (firstn (Z.to_nat (size - i * max)) (skipn (Z.to_nat (i * max)) mem))).
      rewrite firstn_firstn, Nat.min_l by lia. f_equal. rewrite skipn_firstn_comm, skipn_skipn'. f_equal; [lia|]. f_equal. lia.
Qed.
Lemma build_chunk_ok mem size max : 0 < max -> 0 <= size -> size <= Z.of_nat (length mem) -> size + max <= 2 ^ 64 ->
  exists L, build_chunk mem size max (chunks_count size max) = Ok L /\ consecutive 0 L size /\ Forall (fun c => full size c /\ clen c <= max) L /\
    flat_map content L = firstn (Z.to_nat size) mem.
Proof.
  intros M S0 SM W. unfold build_chunk. destruct (Z.eqb_spec size 0) as [->|NZ].
  - exists []. repeat split; constructor.
  - unfold chunks_count, wrap. rewrite Z.mod_small by lia.
    destruct (chunk_loop_ok mem size max _ M S0 SM W eq_refl (Z.to_nat ((size + max - 1) / max)) 0) as (L & E & C & F & B); [lia| |].
    + rewrite Z2Nat.id; [lia|]. apply Z.div_pos; lia.
    + rewrite Z.mul_0_l, Z.min_l in * by lia. rewrite Z.sub_0_r in B. exists L. repeat split; assumption.
Qed.

(* ---- ordering the chunks ---- *)
Definition before_chunk (c d : chunk) : Prop := coffset c < coffset d.
Lemma insert_ok c : forall l, StronglySorted before_chunk l -> ~ In (coffset c) (map coffset l) ->
  exists l', insert c l = Ok l' /\ StronglySorted before_chunk l' /\ Permutation (c :: l) l'.
Proof.
  induction l as [|d l IH]; intros SS NI; cbn [insert].
  - exists [c]. split; [reflexivity|]. split; [repeat constructor|reflexivity].
  - inversion SS as [|? ? SS' F]; subst. cbn [map] in NI. destruct (Z.ltb_spec (coffset c) (coffset d)) as [L|L].
    + exists (c :: d :: l). split; [reflexivity|]. split; [|reflexivity]. constructor; [exact SS|]. constructor; [exact L|].
      rewrite Forall_forall in *. intros x Hx. specialize (F x Hx). unfold before_chunk in *. lia.
    + destruct (Z.eqb_spec (coffset c) (coffset d)) as [E|NE]; [destruct NI; left; congruence|].
      destruct IH as (l' & E & S' & P); [exact SS'|intros H; apply NI; now right|]. rewrite E. cbn [rbind]. exists (d :: l'). split; [reflexivity|]. split.
      * constructor; [exact S'|]. rewrite Forall_forall in *. intros x Hx. apply (Permutation_in x (Permutation_sym P)) in Hx. destruct Hx as [<-|Hx]; [unfold before_chunk; lia|now apply F].
      * rewrite perm_swap. now constructor.
Qed.
Lemma insert_inv c : forall l l', insert c l = Ok l' -> StronglySorted before_chunk l -> StronglySorted before_chunk l' /\ Permutation (c :: l) l' /\ insert c l <> Ub.
Proof.
  intros l l' E SS. destruct (in_dec Z.eq_dec (coffset c) (map coffset l)) as [I|NI].
  - exfalso. revert l' E. induction l as [|d l IH]; intros l' E; [destruct I|]. cbn [insert] in E. inversion SS as [|? ? SS' F]; subst.
    destruct (Z.ltb_spec (coffset c) (coffset d)) as [L|L].
    + cbn [map] in I. destruct I as [I|I]; [lia|]. apply in_map_iff in I as (x & X1 & X2). rewrite Forall_forall in F. specialize (F x X2). unfold before_chunk in F. lia.
    + destruct (Z.eqb_spec (coffset c) (coffset d)) as [E0|NE]; [discriminate|]. destruct I as [I|I]; [congruence|].
      destruct (insert c l) as [r| |] eqn:Q; try discriminate. exact (IH SS' I r eq_refl).
  - destruct (insert_ok c l SS NI) as (l2 & E2 & S2 & P2). rewrite E in E2. injection E2 as ->. rewrite E. repeat split; [exact S2|exact P2|discriminate].
Qed.
Lemma insert_ub c l : insert c l <> Ub.
Proof. induction l as [|d l IH]; cbn [insert]; [discriminate|]. destruct (_ <? _); [discriminate|]. destruct (_ =? _); [discriminate|]. destruct (insert c l); cbn [rbind]; [discriminate|discriminate|congruence]. Qed.
Lemma order_gen : forall cs acc, StronglySorted before_chunk acc ->
  match fold_left (fun a c => rbind a (insert c)) cs (Ok acc) with
  | Ok l => StronglySorted before_chunk l /\ Permutation (cs ++ acc) l
  | Err => ~ NoDup (map coffset (cs ++ acc))
  | Ub => False
  end.
Proof.
  induction cs as [|c cs IH]; intros acc SS; cbn [fold_left app]; [split; [exact SS|reflexivity]|]. cbn [rbind].
  destruct (insert c acc) as [l| |] eqn:E.
  - destruct (insert_inv c acc l E SS) as (S' & P & _). specialize (IH l S').
    assert (PP : Permutation (c :: cs ++ acc) (cs ++ l)) by (rewrite <- P; apply Permutation_middle).
    destruct (fold_left _ cs (Ok l)).
    + destruct IH as [H1 H2]. split; [exact H1|]. now rewrite PP.
    + intros ND. apply IH. eapply Permutation_NoDup; [|exact ND]. apply Permutation_map, PP.
    + exact IH.
  - assert (F : forall l, fold_left (fun a c => rbind a (insert c)) l Err = Err) by (induction l; [reflexivity|assumption]). rewrite F.
    intros ND. cbn [map app] in ND. apply NoDup_cons_iff in ND as [N1 _]. rewrite map_app in N1.
    destruct (insert_ok c acc SS) as (l & E2 & _); [intros H; apply N1, in_or_app; now right|congruence].
  - now destruct (insert_ub c acc).
Qed.
Lemma sorted_unique : forall l l', StronglySorted before_chunk l -> StronglySorted before_chunk l' -> Permutation l l' -> l = l'.
Proof.
  induction l as [|c l IH]; intros l' S1 S2 P.
  - symmetry. now apply Permutation_nil.
  - destruct l' as [|d l']; [apply Permutation_sym, Permutation_nil in P; discriminate|].
    inversion S1 as [|? ? S1' F1]; inversion S2 as [|? ? S2' F2]; subst. rewrite Forall_forall in *. unfold before_chunk in *.
    assert (c = d).
    { assert (I1 : In c (d :: l')) by (apply (Permutation_in c P); now left). assert (I2 : In d (c :: l)) by (apply (Permutation_in d (Permutation_sym P)); now left).
      destruct I1 as [|I1]; [congruence|]. destruct I2 as [|I2]; [congruence|]. specialize (F1 d I2). specialize (F2 c I1). lia. }
    subst d. f_equal. apply IH; auto. eapply Permutation_cons_inv; exact P.
Qed.
Lemma sorted_nodup l : StronglySorted before_chunk l -> NoDup (map coffset l).
Proof.
  induction 1 as [|c l S IH F]; cbn [map]; [constructor|]. constructor; [|exact IH]. intros H. apply in_map_iff in H as (x & X1 & X2).
  rewrite Forall_forall in F. specialize (F x X2). unfold before_chunk in F. lia.
Qed.
Lemma order_ok cs L : StronglySorted before_chunk L -> Permutation L cs -> order cs = Ok L.
Proof.
  intros SS P. unfold order. pose proof (order_gen cs [] (SSorted_nil _)) as G. rewrite app_nil_r in G.
  destruct (fold_left _ cs (Ok [])) as [l| |].
  - destruct G as [G1 G2]. f_equal. apply sorted_unique; auto. rewrite <- G2. now symmetry.
  - destruct G. eapply Permutation_NoDup; [apply Permutation_map, P|]. now apply sorted_nodup.
  - destruct G.
Qed.
Lemma order_inv cs L : order cs = Ok L -> StronglySorted before_chunk L /\ Permutation cs L.
Proof. intros E. unfold order in E. pose proof (order_gen cs [] (SSorted_nil _)) as G. rewrite app_nil_r in G. now rewrite E in G. Qed.
Lemma order_ub cs : order cs <> Ub.
Proof. intros E. unfold order in E. pose proof (order_gen cs [] (SSorted_nil _)) as G. now rewrite E in G. Qed.
Lemma consecutive_sorted L : forall pos fin, consecutive pos L fin -> Forall (fun c => 0 < clen c) L -> StronglySorted before_chunk L /\ Forall (fun c => pos <= coffset c) L.
Proof.
  induction L as [|c L IH]; intros pos fin C F; [split; constructor|]. destruct C as [C1 C2]. inversion F as [|? ? F1 F2]; subst.
  destruct (IH _ _ C2 F2) as [H1 H2]. split; constructor; auto.
  - eapply Forall_impl; [|exact H2]. intros d Hd. cbv beta in Hd. unfold before_chunk. lia.
  - lia.
  - eapply Forall_impl; [|exact H2]. intros d Hd. cbv beta in Hd. lia.
Qed.

(* ---- copying ---- *)
Definition total_len (cs : list chunk) : Z := sumZ (map clen cs).
Lemma flat_length L : Z.of_nat (length (flat_map content L)) = total_len L.
Proof. unfold total_len. induction L as [|c L IH]; cbn [flat_map map sumZ length]; [reflexivity|]. rewrite app_length, Nat2Z.inj_add, IH. reflexivity. Qed.
Lemma total_len_nonneg L : 0 <= total_len L.
Proof. rewrite <- flat_length. lia. Qed.
Lemma copy_ok : forall L mem pos fin, 0 <= pos -> consecutive pos L fin -> pos + total_len L <= Z.of_nat (length mem) ->
  copy_chunks mem pos L = Ok (firstn (Z.to_nat pos) mem ++ flat_map content L ++ skipn (Z.to_nat fin) mem, fin) /\ fin = pos + total_len L.
Proof.
  induction L as [|c L IH]; intros mem pos fin P C B; cbn [copy_chunks flat_map consecutive] in *.
  - subst fin. unfold total_len. cbn [map sumZ app]. rewrite firstn_skipn. split; [reflexivity|lia].
  - destruct C as [-> C]. rewrite Z.eqb_refl. cbn [negb]. unfold total_len in *. cbn [map sumZ] in *. pose proof (total_len_nonneg L) as TL. unfold total_len in TL.
    assert (CN : 0 <= clen c) by (unfold clen; lia).
    destruct (Z.ltb_spec (Z.of_nat (length mem)) (pos + clen c)); [lia|].
    set (mem' := firstn (Z.to_nat pos) mem ++ content c ++ skipn (Z.to_nat (pos + clen c)) mem).
    assert (LP : length (firstn (Z.to_nat pos) mem ++ content c) = Z.to_nat (pos + clen c)).
    { rewrite app_length, firstn_length. unfold clen in *. lia. }
    assert (LM : length mem' = length mem).
    { unfold mem'. rewrite app_assoc, app_length, LP, skipn_length. lia. }
    destruct (IH mem' (pos + clen c) fin) as [E F]; [lia|exact C|rewrite LM; lia|]. rewrite E. split; [|lia]. f_equal. f_equal.
    assert (FB : pos + clen c <= fin) by (rewrite F; lia).
    assert (EM : mem' = (firstn (Z.to_nat pos) mem ++ content c) ++ skipn (Z.to_nat (pos + clen c)) mem) by (unfold mem'; now rewrite <- app_assoc).
    rewrite EM. rewrite firstn_exact by exact LP. rewrite <- !app_assoc. f_equal. f_equal. f_equal.
    rewrite app_assoc. rewrite skipn_app, LP. rewrite skipn_all2 by (rewrite LP; lia). cbn [app]. rewrite skipn_skipn'. f_equal. lia.
Qed.
Lemma copy_inv : forall L mem pos mem' fin, copy_chunks mem pos L = Ok (mem', fin) -> consecutive pos L fin /\ (0 <= pos <= Z.of_nat (length mem) -> fin <= Z.of_nat (length mem)).
Proof.
  induction L as [|c L IH]; intros mem pos mem' fin E; cbn [copy_chunks consecutive] in *.
  - injection E as _ ->. split; [reflexivity|lia].
  - destruct (Z.eqb_spec (coffset c) pos) as [->|]; [|discriminate]. cbn [negb] in E. destruct (Z.ltb_spec (Z.of_nat (length mem)) (pos + clen c)); [discriminate|].
    apply IH in E as [E1 E2]. split; [split; [reflexivity|exact E1]|]. intros P. unfold clen in *.
    rewrite !app_length, firstn_length, skipn_length in E2. lia.
Qed.
Lemma copy_not_ub : forall L mem pos, 0 <= pos -> pos + total_len L <= Z.of_nat (length mem) -> copy_chunks mem pos L <> Ub.
Proof.
  induction L as [|c L IH]; intros mem pos P B; cbn [copy_chunks]; [discriminate|]. destruct (negb _); [discriminate|].
  unfold total_len in *. cbn [map sumZ] in B. pose proof (total_len_nonneg L) as TL. unfold total_len in TL. assert (CN : 0 <= clen c) by (unfold clen; lia).
  destruct (Z.ltb_spec (Z.of_nat (length mem)) (pos + clen c)); [lia|]. apply IH; [lia|].
  unfold clen in *. rewrite !app_length, firstn_length, skipn_length. lia.
Qed.
Lemma total_perm a b : Permutation a b -> total_len a = total_len b.
Proof. unfold total_len. induction 1 as [|c l l' P IH|c d l|l l2 l3 P1 IH1 P2 IH2]; cbn [map sumZ]; lia. Qed.
Lemma consecutive_end L : forall pos fin, consecutive pos L fin -> fin = pos + total_len L.
Proof. unfold total_len. induction L as [|c L IH]; intros pos fin C; cbn [consecutive map sumZ] in *; [lia|]. destruct C as [_ C]. apply IH in C. lia. Qed.

(* ---- fromProto ---- *)
Lemma from_plain_ok ps junk m cs L t z : from_string ps (mstorage m) = Ok t -> tsize t = Ok z -> mdt m <> 0 -> mvis m = tvisibility t ->
  0 <= z -> shape_ok (mshape m) -> consecutive 0 L (size (mshape m) * z) -> Forall (full (size (mshape m) * z)) L -> Permutation L cs ->
  from_plain ps junk m cs = Ok (t, compact (of_bytes (Z.to_nat z) (Z.to_nat (size (mshape m))) (flat_map content L)) (mshape m)).
Proof.
  intros FS TS DT VI Z0 SO C F P. unfold from_plain. rewrite FS. cbn [rbind]. destruct (Z.eqb_spec (mdt m) 0); [contradiction|]. rewrite VI.
  replace (tvis_eqb _ _) with true by (now destruct (tvisibility t)). cbn [negb].
  assert (SN : 0 <= size (mshape m)) by now apply size_nonneg.
  destruct (consecutive_sorted L _ _ C) as [SS _]; [eapply Forall_impl; [|exact F]; now intros c []|].
  rewrite (order_ok cs L SS P). cbn [rbind]. rewrite TS. cbn [rbind]. rewrite numel_size. destruct (Z.ltb_spec (size (mshape m)) 0); [lia|].
  set (S0 := size (mshape m)) in *.
  assert (TT : match cs with [] => 0 | c :: _ => ctotal c end = S0 * z).
  { destruct cs as [|c cs].
    - apply Permutation_sym, Permutation_nil in P. subst L. cbn in C. exact C.
    - rewrite Forall_forall in F. apply (F c). apply (Permutation_in c (Permutation_sym P)). now left. }
  rewrite TT, Z.eqb_refl. cbn [negb]. pose proof (consecutive_end _ _ _ C) as TE.
  destruct (copy_ok L (repeat junk (Z.to_nat (S0 * z))) 0 (S0 * z) ltac:(lia) C) as [E _]; [rewrite repeat_length; nia|].
  rewrite E. cbn [rbind]. rewrite Z.eqb_refl. cbn [negb]. rewrite skipn_all2 by (rewrite repeat_length; lia). cbn [Z.to_nat firstn app]. now rewrite app_nil_r.
Qed.
Theorem from_plain_inv ps junk m cs t d : from_plain ps junk m cs = Ok (t, d) ->
  exists L z, Permutation cs L /\ tsize t = Ok z /\ consecutive 0 L (numel (mshape m) * z) /\
    d = compact (of_bytes (Z.to_nat z) (Z.to_nat (numel (mshape m))) (flat_map content L)) (mshape m).
Proof.
  unfold from_plain. intros E. destruct (from_string ps (mstorage m)) as [t'| |]; try discriminate. cbn [rbind] in E.
  destruct (mdt m =? 0); [discriminate|]. destruct (negb _); [discriminate|]. destruct (order cs) as [L| |] eqn:O; try discriminate. cbn [rbind] in E.
  destruct (tsize t') as [z| |] eqn:TS; try discriminate. cbn [rbind] in E. destruct (Z.ltb_spec (numel (mshape m)) 0); [discriminate|].
  destruct (Z.eqb_spec (numel (mshape m) * z) (match cs with [] => 0 | c :: _ => ctotal c end)) as [T|]; [|discriminate]. cbn [negb] in E. rewrite <- T in E.
  destruct (copy_chunks _ 0 L) as [[mem fin]| |] eqn:C; try discriminate. cbn [rbind] in E. destruct (Z.eqb_spec (numel (mshape m) * z) fin) as [FE|]; [|discriminate].
  cbn [negb] in E. injection E as <- <-. apply order_inv in O as [SS P]. exists L, z. split; [exact P|]. split; [exact TS|].
  pose proof (copy_inv _ _ _ _ _ C) as [C1 C2]. rewrite <- FE in *. split; [exact C1|].
  pose proof (consecutive_end _ _ _ C1) as CE. pose proof (total_len_nonneg L).
  destruct (copy_ok L (repeat junk (Z.to_nat (numel (mshape m) * z))) 0 _ ltac:(lia) C1) as [E2 _]; [rewrite repeat_length; lia|].
  rewrite C in E2. injection E2 as E2. rewrite E2. rewrite skipn_all2 by (rewrite repeat_length; lia). cbn [Z.to_nat firstn app]. now rewrite app_nil_r.
Qed.

(* ---- toProto ---- *)
Lemma rm_unf p s : shape_ok s -> 0 <= p < size s -> rowmajor (unf p s) s = p.
Proof. intros SO H. rewrite rowmajor_unf by (apply pos_of_size; [exact SO|lia]). apply Z.mod_small. exact H. Qed.
Lemma array_ok es a max : 0 < max -> good_array (Z.of_nat es) a -> size (shp a) * Z.of_nat es + max <= 2 ^ 64 ->
  exists L els, array_to_chunks es (size (shp a)) (chunks_count (size (shp a) * Z.of_nat es) max) max a = Ok L /\
    consecutive 0 L (size (shp a) * Z.of_nat es) /\ Forall (fun c => full (size (shp a) * Z.of_nat es) c /\ clen c <= max) L /\
    flat_map content L = to_bytes es els /\ length els = Z.to_nat (size (shp a)) /\ Forall (fun v => 0 <= v < 256 ^ Z.of_nat es) els /\
    forall idx, valid idx (shp a) -> get (compact els (shp a)) idx = get a idx.
Proof.
  intros M [WF G] W. pose proof WF as [SO SL]. assert (SN : 0 <= size (shp a)) by now apply size_nonneg.
  assert (SF : safe a) by (intros idx V; destruct (G idx V) as (v & E & _); eauto).
  (* the elements in row-major order *)
  assert (EL : exists els, length els = Z.to_nat (size (shp a)) /\ Forall (fun v => 0 <= v < 256 ^ Z.of_nat es) els /\
     (forall idx, valid idx (shp a) -> get (compact els (shp a)) idx = get a idx)).
  { destruct (clone_spec a WF SF) as (c & _ & SC & EC & LB & GC). exists (buf c). split; [lia|].
    assert (GC' : forall idx, valid idx (shp a) -> get (compact (buf c) (shp a)) idx = get a idx) by (intros idx V; rewrite <- EC; now apply GC).
    split; [|exact GC']. apply Forall_forall. intros v Hv. destruct (In_nth _ _ 0 Hv) as (i & Hi & <-).
    assert (PI : 0 <= Z.of_nat i < size (shp a)) by lia.
    pose proof (unf_valid (Z.of_nat i) _ (pos_of_size _ SO ltac:(lia))) as V. specialize (GC' _ V). destruct (G _ V) as (w & E1 & E2).
    rewrite E1, get_compact in GC' by (auto; lia). rewrite rm_unf in GC' by (auto; lia).
    injection GC' as GC'. unfold nthZ in GC'. rewrite Nat2Z.id in GC'. now rewrite GC'. }
  destruct EL as (els & LE & FE & GE).
  unfold array_to_chunks. destruct (is_compact a) eqn:IC.
  - set (mem := to_bytes es (if off a <? 0 then [] else skipn (Z.to_nat (off a)) (buf a))).
    assert (AD : forall idx, valid idx (shp a) -> addr a idx = off a + rowmajor idx (shp a)).
    { intros idx V. unfold is_compact in IC. apply orb_true_iff in IC as [IC|IC].
      - rewrite numel_size in IC. pose proof (rowmajor_range idx (shp a) V) as R. assert (R0 : rowmajor idx (shp a) = 0) by lia.
        assert (S1 : size (shp a) = 1) by lia. rewrite R0. unfold addr. f_equal.
        assert (Z : Forall (fun x => x = 0) idx).
        { clear - V S1. revert S1. induction V as [|i d idx s H V IH]; intros S1; [constructor|]. cbn [size] in S1.
          assert (d = 1 /\ size s = 1) as [-> E] by (destruct (Z.mul_eq_1 _ _ S1) as [->| ->]; lia).
          constructor; [lia|]. apply IH. exact E. }
        clear - Z. generalize (str a). induction Z as [|i idx -> F IH]; intros st; [reflexivity|]. destruct st; [reflexivity|]. cbn [dot]. rewrite IH. lia.
      - apply list_Z_eqb_eq in IC. unfold addr. rewrite IC. now rewrite dot_compact. }
    assert (EB : 0 < size (shp a) -> 0 <= off a /\ firstn (Z.to_nat (size (shp a))) (skipn (Z.to_nat (off a)) (buf a)) = els /\ off a + size (shp a) <= Z.of_nat (length (buf a))).
    { intros SP. assert (GI : forall i, 0 <= i < size (shp a) -> 0 <= off a + i < Z.of_nat (length (buf a)) /\ nthZ (buf a) (Z.to_nat (off a + i)) = nthZ els (Z.to_nat i)).
      { intros i Hi. pose proof (unf_valid i _ (pos_of_size _ SO ltac:(lia))) as V. specialize (GE _ V). destruct (G _ V) as (w & E1 & _).
        pose proof E1 as E1'. unfold get in E1'. apply bufget_ok in E1' as [B1 B2]. rewrite AD, rm_unf in B1, B2 by (auto; lia). split; [exact B1|].
        rewrite E1, get_compact, rm_unf in GE by (auto; lia). congruence. }
      pose proof (GI 0 ltac:(lia)) as [G0 _]. pose proof (GI (size (shp a) - 1) ltac:(lia)) as [G1 _]. split; [lia|]. split; [|lia].
      apply (nth_ext _ _ 0 0); [rewrite firstn_length, skipn_length; lia|]. rewrite firstn_length, skipn_length. intros i Hi.
      rewrite nthf, nths by lia. pose proof (GI (Z.of_nat i) ltac:(lia)) as [_ E]. unfold nthZ in E. rewrite Nat2Z.id in E. rewrite <- E. f_equal. lia. }
    assert (MM : size (shp a) * Z.of_nat es <= Z.of_nat (length mem) /\ firstn (Z.to_nat (size (shp a) * Z.of_nat es)) mem = to_bytes es els).
    { destruct (Z.eq_dec (size (shp a)) 0) as [Z0|NZ].
      - rewrite Z0 in *. assert (els = []) by (destruct els; [reflexivity|cbn in LE; lia]). subst els. cbn. split; [lia|reflexivity].
      - destruct (EB ltac:(lia)) as (O & E & B). unfold mem. destruct (Z.ltb_spec (off a) 0); [lia|]. split.
        + rewrite to_bytes_length, skipn_length. nia.
        + rewrite <- E, <- to_bytes_firstn. f_equal. rewrite Z2Nat.inj_mul, Nat2Z.id by lia. reflexivity. }
    destruct MM as [MM1 MM2].
    destruct (build_chunk_ok mem (size (shp a) * Z.of_nat es) max M ltac:(nia) MM1 W) as (L & E & C & F & B). exists L, els. rewrite MM2 in B. repeat split; assumption.
  - destruct (clone_spec a WF SF) as (c & -> & SC & EC & LB & GC). cbn [rbind].
    assert (EQ : buf c = els).
    { apply (nth_ext _ _ 0 0); [lia|]. intros i Hi. assert (PI : 0 <= Z.of_nat i < size (shp a)) by lia.
      pose proof (unf_valid (Z.of_nat i) _ (pos_of_size _ SO ltac:(lia))) as V. specialize (GC _ V). rewrite EC in GC. rewrite <- GE in GC by exact V.
      rewrite !get_compact, rm_unf in GC by (auto; lia). injection GC as GC. unfold nthZ in GC. now rewrite Nat2Z.id in GC. }
    rewrite EQ. assert (LL : Z.of_nat (length els * es) = size (shp a) * Z.of_nat es) by nia. rewrite LL.
    destruct (build_chunk_ok (to_bytes es els) (size (shp a) * Z.of_nat es) max M ltac:(nia)) as (L & E & C & F & B); [rewrite to_bytes_length; lia|exact W|].
    exists L, els. rewrite <- LL, Nat2Z.id, <- to_bytes_length, firstn_all in B. repeat split; assumption.
Qed.

Lemma plain_round_trip ps junk m t z a L els cs :
  from_string ps (mstorage m) = Ok t -> tsize t = Ok z -> 0 <= z -> mdt m <> 0 -> mvis m = tvisibility t -> mshape m = shp a -> shape_ok (shp a) ->
  consecutive 0 L (size (shp a) * z) -> Forall (full (size (shp a) * z)) L -> flat_map content L = to_bytes (Z.to_nat z) els ->
  length els = Z.to_nat (size (shp a)) -> Forall (fun v => 0 <= v < 256 ^ z) els -> Permutation L cs ->
  from_plain ps junk m cs = Ok (t, compact els (shp a)).
Proof.
  intros FS TS Z0 DT VI SH SO C F B LE FE P. rewrite (from_plain_ok ps junk m cs L t z) by (rewrite ?SH; auto). rewrite SH, B.
  rewrite <- LE. rewrite of_to_bytes; [reflexivity|]. now rewrite Z2Nat.id.
Qed.
Lemma shape_of v : mshape (to_meta v) = shp (vdata v). Proof. reflexivity. Qed.

Theorem value_round_trip ps junk mk v z max :
  args_ok mk -> construct mk = Ok (vty v) -> tsize (vty v) = Ok z -> registered ps (tcls (vty v)) -> tcls (vty v) <> AbyO -> tcls (vty v) <> SpdzB -> mac (vty v) = false ->
  vdt v <> 0 -> tvisibility (vty v) <> VInvalid -> good_array z (vdata v) ->
  match vimag v with Some im => good_array z im /\ shp im = shp (vdata v) | None => True end ->
  0 < max -> size (shp (vdata v)) * z + max <= 2 ^ 64 ->
  exists re im, to_proto max v = Ok (to_meta v, re ++ im) /\ (vimag v = None -> im = []) /\ Forall (fun c => 0 < clen c <= max) (re ++ im) /\
    forall re' im', Permutation re re' -> Permutation im im' -> exists v', from_proto ps junk (to_meta v, re' ++ im') = Ok v' /\
      vty v' = vty v /\ vdt v' = vdt v /\ same_array (vdata v) (vdata v') /\
      match vimag v, vimag v' with Some a, Some b => same_array a b | None, None => True | _, _ => False end.
Proof.
  intros A CO TS R NO NB MC DT VI GA GI M W.
  assert (Z0 : 0 <= z).
  { assert (PP : forall p, 0 <= psize p) by (intros []; cbn; lia). assert (FF : forall f s, fsize f = Ok s -> 0 <= s) by (intros [] s E; inversion E; lia).
    unfold tsize in TS. destruct (tcls (vty v)); try (now destruct NB); cbn [rbind] in TS;
    try (injection TS as <-; try specialize (PP (tpt (vty v))); lia);
    try (destruct (tfield (vty v)); cbn in TS; try discriminate TS; injection TS as <-; lia). }
  pose proof (round_trip ps mk (vty v) z A CO TS R NO NB MC) as RT. fold (mstorage (to_meta v)) in RT. change (to_string (vty v)) with (mstorage (to_meta v)) in RT.
  unfold to_proto. destruct (Z.leb_spec max 0); [lia|]. destruct (Z.eqb_spec (vdt v) 0); [contradiction|]. cbn [orb].
  replace (tvis_eqb (tvisibility (vty v)) VInvalid) with false by (destruct (tvisibility (vty v)); try reflexivity; now destruct VI). rewrite TS. cbn [rbind]. rewrite numel_size.
  assert (ZE : z = Z.of_nat (Z.to_nat z)) by lia. set (es := Z.to_nat z) in *. clearbody es. subst z.
  destruct (array_ok es (vdata v) max M GA W) as (L & els & E & C & F & B & LE & FE & G). rewrite E. cbn [rbind].
  assert (FF : forall x (L : list chunk), Forall (fun c => full x c /\ clen c <= max) L -> Forall (full x) L /\ Forall (fun c => 0 < clen c <= max) L).
  { intros x L0 H0. split; (eapply Forall_impl; [|exact H0]); cbv beta; unfold full; intuition lia. }
  destruct (vimag v) as [b|] eqn:VM.
  - destruct GI as [GB SB]. rewrite <- SB in *.
    destruct (array_ok es b max M GB W) as (L2 & els2 & E2 & C2 & F2 & B2 & LE2 & FE2 & G2). rewrite E2. cbn [rbind].
    exists L, L2. split; [reflexivity|]. split; [discriminate|]. destruct (FF _ _ F) as [F' F'']. destruct (FF _ _ F2) as [F2' F2'']. split; [apply Forall_app; split; assumption|].
    intros re' im' P1 P2.
    assert (LL : length re' = length im').
    { rewrite <- (Permutation_length P1), <- (Permutation_length P2).
      (* both lists have the number of chunks of a value of this size *)
      assert (U : forall a l, array_to_chunks es (size (shp b)) (chunks_count (size (shp b) * Z.of_nat es) max) max a = Ok l -> shp a = shp b -> good_array (Z.of_nat es) a ->
        length l = if size (shp b) * Z.of_nat es =? 0 then O else Z.to_nat (chunks_count (size (shp b) * Z.of_nat es) max)).
      { clear - M. intros a l EA SA [WA GA].
        assert (BL : forall mem n i l, chunk_loop mem (size (shp b) * Z.of_nat es) max i n = Ok l -> length l = n).
        { intros mem. induction n as [|n IH]; intros i l0 H0; cbn [chunk_loop] in H0; [now injection H0 as <-|].
          destruct (_ && _); [discriminate|]. destruct (chunk_loop mem _ max (i + 1) n) as [r| |] eqn:Q; try discriminate. cbn [rbind] in H0. injection H0 as <-. cbn [length]. f_equal. eapply IH; eauto. }
        unfold array_to_chunks in EA. destruct (is_compact a).
        - unfold build_chunk in EA. destruct (_ =? 0); [now injection EA as <-|]. eapply BL; eauto.
        - destruct (clone_spec a WA) as (c & CE & SC & EC & LB & GC); [intros idx V; destruct (GA idx V) as (w & -> & _); eauto|].
          rewrite CE in EA. cbn [rbind] in EA. rewrite SA in LB. replace (Z.of_nat (length (buf c) * es)) with (size (shp b) * Z.of_nat es) in EA by nia.
          unfold build_chunk in EA. destruct (_ =? 0); [now injection EA as <-|]. eapply BL; eauto. }
      rewrite (U _ _ E (eq_sym SB) GA), (U _ _ E2 eq_refl GB). reflexivity. }
    unfold from_proto. cbn [mcomplex to_meta]. rewrite VM. rewrite app_length, LL.
    replace ((length im' + length im') / 2)%nat with (length im') by (replace (length im' + length im')%nat with (length im' * 2)%nat by lia; now rewrite Nat.div_mul by lia).
    rewrite firstn_exact, skipn_exact by exact LL. rewrite firstn_all. fold (to_meta v).
    replace (mkMeta (vdt v) true (tvisibility (vty v)) (shp (vdata v)) (to_string (vty v))) with (to_meta v) by (unfold to_meta; now rewrite VM).
    rewrite (plain_round_trip ps junk (to_meta v) (vty v) (Z.of_nat es) (vdata v) L els) by (auto; rewrite ?Nat2Z.id, <- ?SB; auto; apply GB). cbn [rbind].
    rewrite (plain_round_trip ps junk (to_meta v) (vty v) (Z.of_nat es) b L2 els2) by (auto; try rewrite Nat2Z.id; auto; apply GB). cbn [rbind]. rewrite Ty_proof.eqb_refl.
    eexists. split; [reflexivity|]. cbn [vty vdt vdata vimag]. split; [reflexivity|]. split; [reflexivity|].
    split; split; try reflexivity; auto. intros idx V. rewrite <- SB in V. apply G in V. now rewrite <- SB.
  - cbn [rbind]. exists L, []. split; [reflexivity|]. split; [reflexivity|]. destruct (FF _ _ F) as [F' F'']. split; [now rewrite app_nil_r|].
    intros re' im' P1 P2. apply Permutation_nil in P2. subst im'. rewrite app_nil_r.
    unfold from_proto. cbn [mcomplex to_meta]. rewrite VM.
    replace (mkMeta (vdt v) false (tvisibility (vty v)) (shp (vdata v)) (to_string (vty v))) with (to_meta v) by (unfold to_meta; now rewrite VM).
    rewrite (plain_round_trip ps junk (to_meta v) (vty v) (Z.of_nat es) (vdata v) L els) by (auto; try rewrite Nat2Z.id; auto; apply GA). cbn [rbind].
    eexists. split; [reflexivity|]. cbn [vty vdt vdata vimag]. split; [reflexivity|]. split; [reflexivity|]. split; [split; [reflexivity|exact G]|exact I].
Qed.
Lemma from_plain_safe ps junk m cs t z : from_string ps (mstorage m) = Ok t -> tsize t = Ok z -> 0 <= numel (mshape m) -> total_len cs <= numel (mshape m) * z ->
  from_plain ps junk m cs <> Ub.
Proof.
  intros FS TS N B. unfold from_plain. rewrite FS. cbn [rbind]. destruct (mdt m =? 0); [discriminate|]. destruct (negb _); [discriminate|].
  destruct (order cs) as [L| |] eqn:O; [|discriminate|now destruct (order_ub cs)]. cbn [rbind]. rewrite TS. cbn [rbind].
  destruct (Z.ltb_spec (numel (mshape m)) 0); [lia|]. destruct (negb _); [discriminate|]. apply order_inv in O as [_ P].
  pose proof (total_len_nonneg cs).
  pose proof (copy_not_ub L (repeat junk (Z.to_nat (numel (mshape m) * z))) 0 ltac:(lia)) as U. rewrite repeat_length, <- (total_perm _ _ P) in U. specialize (U ltac:(lia)).
  destruct (copy_chunks _ 0 L) as [[mem fin]| |]; cbn [rbind]; [destruct (negb _); discriminate|discriminate|contradiction].
Qed.
