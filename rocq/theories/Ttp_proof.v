(* Reassembling the streamed replies. *)
From Verif Require Import Base Prg_model Ttp_model.
From Coq Require Import ZifyBool ZifyNat.
Open Scope Z_scope.

(* ---- bytes ---- *)
Lemma le_bytes_length n : forall x, length (le_bytes n x) = n.
Proof. induction n; intros x; cbn [le_bytes length]; auto. Qed.
Lemma le_word_bytes n : forall x, 0 <= x < 256 ^ Z.of_nat n -> le_word (le_bytes n x) = x.
Proof.
  induction n as [|n IH]; intros x X; cbn [le_bytes le_word]; [cbn in X; lia|].
  rewrite IH; [pose proof (Z.div_mod x 256 ltac:(lia)); lia|]. rewrite Nat2Z.inj_succ, Z.pow_succ_r in X by lia. split; [apply Z.div_pos; lia|apply Z.div_lt_upper_bound; lia].
Qed.
Lemma header_length c x : length (header c x) = 9%nat.
Proof. unfold header. cbn [length]. now rewrite le_bytes_length. Qed.
Lemma set_nth_mid {A} (a : list A) x y b : set_nth (a ++ x :: b) (length a) y = a ++ y :: b.
Proof. induction a as [|z a IH]; cbn; [reflexivity|]. now rewrite IH. Qed.
Lemma nth_error_mid {A} (a : list A) x b : nth_error (a ++ x :: b) (length a) = Some x.
Proof. rewrite nth_error_app2 by lia. now rewrite Nat.sub_diag. Qed.
Lemma firstn_app_len {A} (a b : list A) : firstn (length a) (a ++ b) = a.
Proof. rewrite firstn_app, Nat.sub_diag, firstn_all. cbn. apply app_nil_r. Qed.
Lemma skipn_app_len {A} (a b : list A) : skipn (length a) (a ++ b) = b.
Proof. rewrite skipn_app, Nat.sub_diag, skipn_all. reflexivity. Qed.
Lemma blit_app w j d : (length d <= length j)%nat -> blit (w ++ j) (length w) d = w ++ d ++ skipn (length d) j.
Proof. intros L. unfold blit. rewrite firstn_app_len. do 2 f_equal. rewrite skipn_app. replace (length w + length d - length w)%nat with (length d) by lia. rewrite (skipn_all2 w) by lia. reflexivity. Qed.
(* ---- one piece into one buffer ---- *)
Lemma copy_done f bufs idx pos data len dpos : (len <= dpos)%nat -> copy_loop (S f) bufs idx pos data len dpos = Ok (bufs, idx, pos).
Proof. intros L. cbn [copy_loop]. now rewrite (proj2 (Nat.ltb_ge dpos len)) by exact L. Qed.
Lemma copy_more f bufs idx pos data len dpos b : (dpos < len)%nat -> nth_error bufs idx = Some b -> copy_loop (S f) bufs idx pos data len dpos =
  let cp := Nat.min len (length b - pos) in
  if (length data <? dpos + cp)%nat then Ub
  else
    let bufs' := set_nth bufs idx (blit b pos (firstn cp (skipn dpos data))) in
    if (pos + cp =? length b)%nat then copy_loop f bufs' (S idx) 0 data len (dpos + cp) else copy_loop f bufs' idx (pos + cp) data len (dpos + cp).
Proof. intros L E. cbn [copy_loop]. rewrite (proj2 (Nat.ltb_lt dpos len)) by exact L. now rewrite E. Qed.
Lemma copy_ok f done w j tl d more : d <> [] -> (length d <= length j)%nat ->
  copy_loop (S (S f)) (done ++ (w ++ j) :: tl) (length done) (length w) (d ++ more) (length d) 0 =
  if (length d =? length j)%nat then Ok (done ++ (w ++ d) :: tl, S (length done), O)
  else Ok (done ++ (w ++ d ++ skipn (length d) j) :: tl, length done, (length w + length d)%nat).
Proof.
  intros D L. assert (LD : (1 <= length d)%nat) by (destruct d; [congruence|cbn; lia]).
  rewrite (copy_more _ _ _ _ _ _ _ (w ++ j)) by (apply nth_error_mid || lia). cbv zeta. rewrite !app_length. replace (length w + length j - length w)%nat with (length j) by lia. rewrite Nat.min_l by lia.
  replace (length d + length more <? 0 + length d)%nat with false by lia. cbn [skipn]. rewrite firstn_app_len, set_nth_mid, (blit_app w j d L). rewrite !copy_done by lia.
  replace (length w + length d =? length w + length j)%nat with (length d =? length j)%nat by lia. destruct (Nat.eqb_spec (length d) (length j)) as [EQ|NE]; [|reflexivity].
  rewrite EQ, skipn_all, app_nil_r. reflexivity.
Qed.
(* ---- the invariant ---- *)
(* the buffers hold everything before the data d ++ concat cs still to come for the current one; As are the pieces of the later ones *)
Record cursor (T : list bytes) (r : reader) (d : bytes) (cs : list bytes) (As : list (list bytes)) : Prop := mkCursor {
  cu_lay : exists done w j tl, r_bufs r = done ++ (w ++ j) :: tl /\ r_idx r = length done /\ r_pos r = length w /\
             length j = length (d ++ concat cs) /\ map (@length Z) tl = map (fun a => length (concat a)) As /\ T = done ++ (w ++ d ++ concat cs) :: map (@concat Z) As;
  cu_left : r_left r = Z.of_nat (length (d ++ concat cs ++ concat (map (@concat Z) As)));
  cu_some : d ++ concat cs <> [];
  cu_cs : Forall (fun c => c <> [] /\ Z.of_nat (length c) < 2 ^ 64) cs;
  cu_As : Forall (fun a => a <> [] /\ Forall (fun c => c <> [] /\ Z.of_nat (length c) < 2 ^ 64) a) As;
  cu_msg : r_msg r = [] }.
(* what follows the pieces sent: nothing is missing, or an error message *)
Definition tailed (E : bytes) (q : nat) (todo : list bytes) : Prop :=
  (length todo <= q)%nat \/ exists code msg, E = send_error code msg /\ 1 <= code <= 2 /\ msg <> [] /\ Z.of_nat (length msg) < 2 ^ 64.
Inductive Inv (T : list bytes) (E : bytes) (r : reader) (rest : bytes) : Prop :=
| I_flags cs As q : cursor T r [] cs As -> r_state r = ReadFlags -> (r_fpos r < 9)%nat -> length (r_flags r) = 9%nat -> tailed E q (cs ++ concat As) ->
    firstn (r_fpos r) (r_flags r) ++ rest = frames (firstn q (cs ++ concat As)) ++ E -> Inv T E r rest
| I_chunk d cs As q : cursor T r d cs As -> d <> [] -> r_state r = ReadChunk -> r_chunk r = Z.of_nat (length d) -> r_fpos r = O -> length (r_flags r) = 9%nat -> tailed E q (cs ++ concat As) ->
    rest = d ++ frames (firstn q (cs ++ concat As)) ++ E -> Inv T E r rest
| I_err : r_state r = ReadError -> r_chunk r = Z.of_nat (length rest) -> rest <> [] -> E <> [] -> Inv T E r rest
| I_end : r_state r = End -> r_bufs r = T -> r_msg r = [] -> rest = E -> Inv T E r rest.

Lemma todo_some T r cs As : cursor T r [] cs As -> exists c cs', cs = c :: cs' /\ c <> [] /\ Z.of_nat (length c) < 2 ^ 64.
Proof. intros C. pose proof (cu_some _ _ _ _ _ C) as S. pose proof (cu_cs _ _ _ _ _ C) as F. destruct cs as [|c cs]; [now cbn in S|]. exists c, cs. inversion F; subst. tauto. Qed.
Lemma app_split {A} (a b c d : list A) : a ++ b = c ++ d -> (length a <= length c)%nat -> exists e, c = a ++ e /\ b = e ++ d.
Proof.
  revert c. induction a as [|x a IH]; intros c E L; [exists c; auto|]. destruct c as [|y c]; [cbn in L; lia|]. cbn in E. injection E as <- E. destruct (IH c E ltac:(cbn in L; lia)) as (e & -> & ->). exists e. auto.
Qed.
(* one step: at least one byte of the data, at most all, or the end *)
Definition outcome (T : list bytes) (E : bytes) (r' : reader) (rest' : bytes) : Prop := Inv T E r' rest' \/ (E <> [] /\ rest' = [] /\ r_state r' = End /\ r_msg r' <> []).
Lemma flags_step T E r data rest' cs As q : cursor T r [] cs As -> r_state r = ReadFlags -> (r_fpos r < 9)%nat -> length (r_flags r) = 9%nat -> tailed E q (cs ++ concat As) ->
  firstn (r_fpos r) (r_flags r) ++ data ++ rest' = frames (firstn q (cs ++ concat As)) ++ E -> data <> [] ->
  exists r' n, copy_to_flags r data = Ok (r', n) /\ (1 <= n <= length data)%nat /\ Inv T E r' (skipn n data ++ rest').
Proof.
  intros C ST FP FL TL EQ D. assert (LD : (1 <= length data)%nat) by (destruct data; [congruence|cbn; lia]).
  (* the next nine bytes are a header *)
  assert (HD : exists code sz after, frames (firstn q (cs ++ concat As)) ++ E = header code sz ++ after /\ 0 <= sz < 2 ^ 64 /\
    ((code = 0 /\ exists c cs' , cs = c :: cs' /\ c <> [] /\ sz = Z.of_nat (length c) /\ exists q', q = S q' /\ after = c ++ frames (firstn q' (cs' ++ concat As)) ++ E) \/
     ((code = 1 \/ code = 2) /\ sz = Z.of_nat (length after) /\ after <> [] /\ E <> []))).
  { destruct (todo_some T r cs As C) as (c & cs' & -> & NC & LC). destruct q as [|q].
    - destruct TL as [TL|(code & msg & -> & CB & NM & LM)]; [cbn in TL; lia|]. exists code, (Z.of_nat (length msg)), msg. split; [reflexivity|]. split; [lia|]. right. split; [lia|]. split; [reflexivity|]. split; [exact NM|discriminate].
    - exists 0, (Z.of_nat (length c)), (c ++ frames (firstn q (cs' ++ concat As)) ++ E). split; [cbn [app firstn frames map concat]; unfold frames, frame; now rewrite <- !app_assoc|]. split; [lia|]. left. split; [reflexivity|]. exists c, cs'. split; [reflexivity|]. split; [exact NC|]. split; [reflexivity|]. exists q. auto. }
  destruct HD as (code & sz & after & HEQ & SZ & CASE). rewrite HEQ in EQ.
  set (fp := r_fpos r) in *. assert (LF : length (firstn fp (r_flags r)) = fp) by (rewrite firstn_length; lia).
  unfold copy_to_flags. fold fp. set (cp := Nat.min (9 - fp) (length data)). assert (LCP : length (firstn cp data) = cp) by (rewrite firstn_length; lia).
  assert (FB : firstn (fp + cp) (blit (r_flags r) fp (firstn cp data)) = firstn fp (r_flags r) ++ firstn cp data /\ length (blit (r_flags r) fp (firstn cp data)) = 9%nat).
  { split.
    - unfold blit. rewrite app_assoc. replace (fp + cp)%nat with (length (firstn fp (r_flags r) ++ firstn cp data)) by (rewrite app_length, LF, LCP; reflexivity). apply firstn_app_len.
    - unfold blit. rewrite !app_length, LF, LCP, skipn_length. lia. }
  destruct FB as [FB LB]. set (fl := blit (r_flags r) fp (firstn cp data)) in *.
  assert (EQ2 : (firstn fp (r_flags r) ++ firstn cp data) ++ skipn cp data ++ rest' = header code sz ++ after) by (rewrite <- app_assoc, (app_assoc (firstn cp data)), firstn_skipn; exact EQ).
  destruct (Nat.eqb_spec (fp + cp) 9) as [F9|N9].
  - rewrite F9 in FB. rewrite <- LB, firstn_all in FB.
    assert (FH : fl = header code sz /\ skipn cp data ++ rest' = after).
    { rewrite <- FB in EQ2. destruct (app_split fl _ _ _ EQ2 ltac:(rewrite header_length; lia)) as (e & E1 & E2). assert (e = []) by (apply length_zero_iff_nil; apply (f_equal (@length Z)) in E1; rewrite app_length, header_length in E1; lia). subst e. rewrite app_nil_r in E1. auto. }
    destruct FH as [-> FH]. cbn [header skipn nth]. rewrite le_word_bytes by (change (256 ^ Z.of_nat 8) with (2 ^ 64); exact SZ).
    destruct CASE as [(-> & c & cs' & -> & NC & -> & q' & -> & EA)|([-> | ->] & -> & NA & NE)].
    + cbn [Z.eqb]. do 2 eexists. split; [reflexivity|]. split; [lia|]. apply (I_chunk T E _ _ c cs' As q'); cbn [r_state r_chunk r_fpos r_flags]; auto.
      * destruct C as [(done & w & j & tl & A1 & A2 & A3 & A4 & A5 & A6) B1 B2 B3 B4 B5]. cbn [concat app] in *. apply mkCursor; cbn [r_bufs r_idx r_pos r_left r_msg]; [exists done, w, j, tl; exact (conj A1 (conj A2 (conj A3 (conj A4 (conj A5 A6)))))|rewrite B1; now rewrite <- app_assoc|exact B2|now inversion B3|exact B4|exact B5].
      * destruct TL as [TL|TL]; [left; cbn in TL; lia|now right].
      * rewrite FH. exact EA.
    + cbn [Z.eqb orb]. do 2 eexists. split; [reflexivity|]. split; [lia|]. rewrite FH. apply I_err; cbn [r_state r_chunk]; auto.
    + cbn [Z.eqb orb Pos.eqb]. do 2 eexists. split; [reflexivity|]. split; [lia|]. rewrite FH. apply I_err; cbn [r_state r_chunk]; auto.
  - do 2 eexists. split; [reflexivity|]. split; [lia|]. apply (I_flags T E _ _ cs As q); cbn [r_state r_chunk r_fpos r_flags]; auto.
    + destruct C as [A1 B1 B2 B3 B4 B5]. constructor; cbn [r_bufs r_idx r_pos r_left r_msg]; auto.
    + lia.
    + rewrite FB. rewrite EQ2. now rewrite HEQ.
Qed.
Lemma concat_nonempty (cs : list bytes) : Forall (fun c => c <> [] /\ Z.of_nat (length c) < 2 ^ 64) cs -> concat cs = [] -> cs = [].
Proof. intros F E. destruct cs as [|c cs]; [reflexivity|]. inversion F as [|? ? [N _] _]; subst. cbn in E. apply app_eq_nil in E. tauto. Qed.
Lemma concat_some (a : list bytes) : a <> [] -> Forall (fun c => c <> [] /\ Z.of_nat (length c) < 2 ^ 64) a -> concat a <> [].
Proof. intros N F E. apply N. now apply concat_nonempty. Qed.
Lemma chunk_step T E r data rest' d cs As q : cursor T r d cs As -> d <> [] -> r_state r = ReadChunk -> r_chunk r = Z.of_nat (length d) -> r_fpos r = O -> length (r_flags r) = 9%nat -> tailed E q (cs ++ concat As) ->
  data ++ rest' = d ++ frames (firstn q (cs ++ concat As)) ++ E -> data <> [] ->
  exists r' n, copy_to_buffer r data = Ok (r', n) /\ (1 <= n <= length data)%nat /\ Inv T E r' (skipn n data ++ rest').
Proof.
  intros C ND ST CH FP FL TL EQ D. assert (LD : (1 <= length data)%nat) by (destruct data; [congruence|cbn; lia]). assert (L1 : (1 <= length d)%nat) by (destruct d; [congruence|cbn; lia]).
  set (n := Nat.min (length data) (length d)).
  assert (SP : exists d1 d2, d = d1 ++ d2 /\ length d1 = n /\ data = d1 ++ skipn n data /\ skipn n data ++ rest' = d2 ++ frames (firstn q (cs ++ concat As)) ++ E).
  { destruct (Nat.le_gt_cases (length data) (length d)) as [LE|GT].
    - destruct (app_split _ _ _ _ EQ LE) as (e & -> & E2). exists data, e. assert (n = length data) by lia. split; [reflexivity|]. split; [lia|]. rewrite H, skipn_all, app_nil_r. auto.
    - assert (H : n = length d) by lia. clearbody n. symmetry in EQ. destruct (app_split _ _ _ _ EQ ltac:(lia)) as (e & -> & E2). exists d, []. split; [now rewrite app_nil_r|]. split; [lia|]. rewrite H, skipn_app_len. split; [reflexivity|]. now rewrite E2. }
  destruct SP as (d1 & d2 & ED & LN & EDATA & EREST). assert (N1 : (1 <= n)%nat) by lia.
  destruct C as [(done & w & j & tl & A1 & A2 & A3 & A4 & A5 & A6) B1 B2 B3 B4 B5].
  unfold copy_to_buffer. rewrite CH. replace (Z.min (Z.of_nat (length data)) (Z.of_nat (length d))) with (Z.of_nat n) by lia. rewrite Nat2Z.id.
  rewrite !app_length in B1. rewrite app_length in A4. replace (r_left r <? Z.of_nat n) with false by lia.
  assert (LJ : (length d1 <= length j)%nat) by lia. assert (ND1 : d1 <> []) by (destruct d1; [cbn in LN; lia|discriminate]).
  rewrite A1, A2, A3.
  assert (LOOP : copy_loop (S (n + length (done ++ (w ++ j) :: tl))) (done ++ (w ++ j) :: tl) (length done) (length w) data n 0 = if (length d1 =? length j)%nat then Ok (done ++ (w ++ d1) :: tl, S (length done), O) else Ok (done ++ (w ++ d1 ++ skipn (length d1) j) :: tl, length done, (length w + length d1)%nat)).
  { replace (S (n + length (done ++ (w ++ j) :: tl)))%nat with (S (S (n + length done + length tl)))%nat by (rewrite app_length; cbn [length]; lia). rewrite <- (copy_ok (n + length done + length tl) done w j tl d1 (skipn n data) ND1 LJ). rewrite <- EDATA, LN. reflexivity. }
  cbv zeta. unfold bytes in LOOP |- *. rewrite LOOP. clear LOOP.
  assert (LEND : length d = (length d1 + length d2)%nat) by (rewrite ED; apply app_length).
  destruct (Nat.eqb_spec (length d1) (length j)) as [FULL|PART]; cbn [rbind]; do 2 eexists; (split; [reflexivity|]); (split; [lia|]); rewrite EREST.
  - assert (d2 = []) by (apply length_zero_iff_nil; lia). subst d2. rewrite app_nil_r in ED. subst d1. assert (CS : cs = []) by (apply concat_nonempty; [exact B3|]; apply length_zero_iff_nil; lia). subst cs. cbn [concat app length] in *. rewrite app_nil_r in A6.
    replace (Z.of_nat (length d) - Z.of_nat n =? 0) with true by lia. destruct As as [|a As].
    + cbn [map concat length firstn] in *. replace (r_left r - Z.of_nat n =? 0) with true by lia. apply I_end; cbn [r_state r_bufs r_msg]; auto; [|rewrite firstn_nil; reflexivity].
      rewrite A6. destruct tl; [reflexivity|discriminate].
    + inversion B4 as [|? ? [NA FA] FAs]; subst. cbn [map] in A5. destruct tl as [|b tl]; [discriminate|]. cbn [map] in A5. injection A5 as A5 A5'.
      assert (PA : (1 <= length (concat a))%nat) by (pose proof (concat_some a NA FA); destruct (concat a); [congruence|cbn; lia]).
      cbn [map concat] in B1. rewrite app_length in B1. replace (r_left r - Z.of_nat n =? 0) with false by lia. apply (I_flags _ E _ _ a As q); cbn [r_state r_fpos r_flags]; auto; [|lia|rewrite FP; reflexivity].
      apply mkCursor; cbn [r_bufs r_idx r_pos r_left r_msg app]; auto; [|rewrite app_length; lia|intros E0; rewrite E0 in PA; cbn in PA; lia].
      exists (done ++ [w ++ d]), [], b, tl. rewrite app_length. cbn [length]. rewrite <- !app_assoc. cbn [app map concat]. split; [reflexivity|]. split; [lia|]. split; [reflexivity|]. split; [exact A5|]. split; [exact A5'|reflexivity].
  - replace (r_left r - Z.of_nat n =? 0) with false by lia. assert (LAY : T = done ++ ((w ++ d1) ++ d2 ++ concat cs) :: map (@concat Z) As) by (rewrite A6, ED; now rewrite <- !app_assoc).
    assert (LS : length (skipn (length d1) j) = length (d2 ++ concat cs)) by (rewrite skipn_length, app_length; lia).
    assert (NE2 : d2 ++ concat cs <> []) by (intros E0; rewrite E0 in LS; rewrite skipn_length in LS; cbn in LS; lia).
    destruct (Z.eqb_spec (Z.of_nat (length d) - Z.of_nat n) 0) as [Z0|NZ].
    + assert (d2 = []) by (apply length_zero_iff_nil; lia). subst d2. cbn [app] in *. apply (I_flags T E _ _ cs As q); cbn [r_state r_fpos r_flags]; auto; [|lia|rewrite FP; reflexivity].
      apply mkCursor; cbn [r_bufs r_idx r_pos r_left r_msg app]; auto; [|rewrite app_length; lia].
      exists done, (w ++ d1), (skipn (length d1) j), tl. rewrite app_length. split; [now rewrite <- app_assoc|]. split; [reflexivity|]. split; [reflexivity|]. split; [exact LS|]. split; [exact A5|exact LAY].
    + apply (I_chunk T E _ _ d2 cs As q); cbn [r_state r_fpos r_flags r_chunk]; auto; [| |lia].
      * apply mkCursor; cbn [r_bufs r_idx r_pos r_left r_msg]; auto; [|rewrite !app_length; lia].
        exists done, (w ++ d1), (skipn (length d1) j), tl. rewrite app_length. split; [now rewrite <- app_assoc|]. split; [reflexivity|]. split; [reflexivity|]. split; [exact LS|]. split; [exact A5|exact LAY].
      * intros ->. cbn in LEND. lia.
Qed.
Definition ends (E : bytes) (r : reader) : Prop := E <> [] /\ r_state r = End /\ r_msg r <> [].
(* ---- parts ---- *)
Lemma consume_ok T E : forall fuel r data rest', (length data <= fuel)%nat -> Inv T E r (data ++ rest') ->
  match consume fuel r data with Ok r' => Inv T E r' rest' \/ ends E r' | Err => E <> [] | Ub => False end.
Proof.
  induction fuel as [|fuel IH]; intros r data rest' F I; (destruct data as [|x data0] eqn:ED; [left; exact I|]); [cbn in F; lia|]. rewrite <- ED in *. assert (D : data <> []) by (rewrite ED; discriminate).
  assert (STEP : consume (S fuel) r data = match r_state r with
      | ReadFlags => rbind (copy_to_flags r data) (fun '(r', n) => consume fuel r' (skipn n data))
      | ReadChunk => rbind (copy_to_buffer r data) (fun '(r', n) => consume fuel r' (skipn n data))
      | ReadError => let '(r', n) := copy_to_error r data in consume fuel r' (skipn n data)
      | End => Err end) by (rewrite ED; reflexivity). rewrite STEP. clear STEP ED x data0.
  assert (NEXT : forall r' n, (1 <= n <= length data)%nat -> Inv T E r' (skipn n data ++ rest') -> match consume fuel r' (skipn n data) with Ok r' => Inv T E r' rest' \/ ends E r' | Err => E <> [] | Ub => False end).
  { intros r' n N I'. apply IH; [rewrite skipn_length; lia|exact I']. }
  destruct I as [cs As q C ST FP FL TL EQ|d cs As q C ND ST CH FP FL TL EQ|ST CH NR NE|ST BU MS ER]; rewrite ST.
  - destruct (flags_step T E r data rest' cs As q C ST FP FL TL EQ D) as (r' & n & -> & N & I'). now apply NEXT.
  - destruct (chunk_step T E r data rest' d cs As q C ND ST CH FP FL TL EQ D) as (r' & n & -> & N & I'). now apply NEXT.
  - unfold copy_to_error. rewrite CH, app_length. replace (Z.min (Z.of_nat (length data)) (Z.of_nat (length data + length rest'))) with (Z.of_nat (length data)) by lia. rewrite Nat2Z.id, skipn_all, firstn_all.
    assert (LD : (1 <= length data)%nat) by (destruct data; [congruence|cbn; lia]).
    assert (R : forall r0, consume fuel r0 [] = Ok r0) by (intros r0; destruct fuel; reflexivity). rewrite R. destruct rest' as [|y rest'].
    + right. unfold ends. cbn [r_state r_msg length]. replace (Z.of_nat (length data + 0) - Z.of_nat (length data) =? 0) with true by lia. split; [exact NE|]. split; [reflexivity|]. intros E0. apply app_eq_nil in E0. tauto.
    + left. replace (Z.of_nat (length data + length (y :: rest')) - Z.of_nat (length data) =? 0) with false by (cbn [length]; lia). apply I_err; cbn [r_state r_chunk]; auto; [lia|discriminate].
  - intros E0. subst E. apply app_eq_nil in E0. tauto.
Qed.
Lemma on_part_ok T E r data rest' : Inv T E r (data ++ rest') -> match on_part r data with Ok r' => Inv T E r' rest' | Err => E <> [] | Ub => False end.
Proof.
  intros I. unfold on_part. pose proof (consume_ok T E (2 * length data + 2) r data rest' ltac:(lia) I) as H. destruct (consume _ r data) as [r'| |]; cbn [rbind]; auto.
  destruct H as [H|(NE & ST & MS)].
  - destruct (r_state r') eqn:ST; auto. destruct (r_msg r') eqn:MS; auto. destruct H as [cs As q C ST'|d cs As q C ND ST'|ST'|ST' BU MS' ER]; congruence.
  - rewrite ST. destruct (r_msg r'); [congruence|exact NE].
Qed.
Lemma read_parts_ok T E : forall parts r rest', Inv T E r (concat parts ++ rest') -> match read_parts r parts with Ok r' => Inv T E r' rest' | Err => E <> [] | Ub => False end.
Proof.
  induction parts as [|p ps IH]; intros r rest' I; [exact I|]. cbn [read_parts concat] in *. rewrite <- app_assoc in I. pose proof (on_part_ok T E r p _ I) as H. destruct (on_part r p) as [r'| |]; cbn [rbind]; [exact (IH _ _ H)|exact H|exact H].
Qed.
Definition sane (K : list (list bytes)) : Prop := Forall (fun a => a <> [] /\ Forall (fun c => c <> [] /\ Z.of_nat (length c) < 2 ^ 64) a) K.
Lemma reader0_ok junk K L E q : K <> [] -> sane K -> Forall (fun a => length (concat a) = L) K -> tailed E q (concat K) -> Inv (map (@concat Z) K) E (reader0 junk (length K) L) (frames (firstn q (concat K)) ++ E).
Proof.
  intros NK S FL TL. destruct K as [|a As]; [congruence|]. inversion S as [|? ? [NA FA] FAs]; subst. inversion FL as [|? ? LA FLs]; subst. clear S FL.
  apply (I_flags _ _ _ _ a As q); auto; [|cbn; lia].
  assert (LT : length (concat (map (@concat Z) As)) = (length As * length (concat a))%nat).
  { clear - FLs. induction FLs as [|b Bs LB FB IH]; [reflexivity|]. cbn [map concat length]. rewrite app_length, IH, LB. lia. }
  apply mkCursor; cbn [r_bufs r_idx r_pos r_left r_msg reader0 app]; auto; [| |now apply concat_some].
  - exists [], [], (map (junk 1%nat) (seq 0 (length (concat a)))), (map (fun b => map (junk (S b)) (seq 0 (length (concat a)))) (seq 1 (length As))). cbn [app length seq map]. split; [reflexivity|]. split; [reflexivity|]. split; [reflexivity|].
    split; [now rewrite map_length, seq_length|]. split; [|reflexivity]. rewrite map_map. generalize 1%nat. clear - FLs. induction FLs as [|b Bs LB FB IH]; intros s; [reflexivity|]. cbn [length seq map]. rewrite map_length, seq_length, IH. now rewrite LB.
  - rewrite app_length, LT. cbn [length]. lia.
Qed.
(* every split of the complete stream; anything behind it; an error message instead of the rest; a stream cut short *)
Lemma fetch_ok junk K L parts sound : K <> [] -> sane K -> Forall (fun a => length (concat a) = L) K -> concat parts = frames (concat K) -> fetch junk (length K) L parts sound = if sound then Ok (map (@concat Z) K) else Err.
Proof.
  intros NK S FL EQ. assert (I := reader0_ok junk K L [] (length (concat K)) NK S FL (or_introl (le_n _))). rewrite firstn_all, app_nil_r in I. rewrite <- EQ in I. rewrite <- (app_nil_r (concat parts)) in I.
  pose proof (read_parts_ok _ _ _ _ _ I) as H. unfold fetch. destruct (read_parts _ parts) as [r'| |]; cbn [rbind]; [|congruence|contradiction].
  destruct H as [cs As q C ST FP F9 TL HEQ|d cs As q C ND ST CH FP F9 TL HEQ|ST CH NR NE|ST BU MS ER]; try congruence.
  - exfalso. rewrite !app_nil_r in HEQ. destruct TL as [TL|(code & msg & HE & _)]; [|discriminate HE]. rewrite (firstn_all2 (n:=q) (cs ++ concat As) TL) in HEQ.
    destruct (todo_some _ _ _ _ C) as (c & cs' & -> & _). cbn [app frames map concat] in HEQ. apply (f_equal (@length Z)) in HEQ. unfold frames, frame in HEQ. cbn [map concat] in HEQ. rewrite !app_length, header_length, firstn_length in HEQ. lia.
  - exfalso. symmetry in HEQ. apply app_eq_nil in HEQ. tauto.
  - rewrite ST, BU. reflexivity.
Qed.
Lemma fetch_bad junk K L parts sound E q rest' : K <> [] -> sane K -> Forall (fun a => length (concat a) = L) K -> tailed E q (concat K) -> concat parts ++ rest' = frames (firstn q (concat K)) ++ E -> E <> [] \/ rest' <> [] ->
  fetch junk (length K) L parts sound = Err \/ (rest' = E /\ fetch junk (length K) L parts sound = if sound then Ok (map (@concat Z) K) else Err).
Proof.
  intros NK S FL TL EQ BAD. assert (I := reader0_ok junk K L E q NK S FL TL). rewrite <- EQ in I. pose proof (read_parts_ok _ _ _ _ _ I) as H. unfold fetch. destruct (read_parts _ parts) as [r'| |]; cbn [rbind]; [|now left|contradiction].
  destruct H as [cs As q' C ST FP F9 TL' HEQ|d cs As q' C ND ST CH FP F9 TL' HEQ|ST CH NR NE|ST BU MS ER]; rewrite ST; auto. right. rewrite BU. auto.
Qed.
