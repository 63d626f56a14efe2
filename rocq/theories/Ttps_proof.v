(* Whole replies: what the server produced is what the client returns. *)
From Verif Require Import Base Prg_model Ttp_model Ttp_spec Ttp_proof.
From Coq Require Import ZifyBool ZifyNat.
Open Scope Z_scope.

Definition okc (cs : list bytes) : Prop := Forall (fun c => c <> [] /\ Z.of_nat (length c) < 2 ^ 64) cs.
Lemma frames_app a b : frames (a ++ b) = frames a ++ frames b.
Proof. unfold frames. now rewrite map_app, concat_app. Qed.
Lemma pieces_ok C : (0 < C)%nat -> Z.of_nat C < 2 ^ 64 -> forall fuel data, (length data <= fuel)%nat -> concat (pieces fuel C data) = data /\ okc (pieces fuel C data).
Proof.
  intros C0 C1. induction fuel as [|f IH]; intros data L; [destruct data; [split; [reflexivity|constructor]|cbn in L; lia]|]. destruct data as [|x data]; [split; [reflexivity|constructor]|].
  cbn [pieces concat]. destruct (IH (skipn C (x :: data))) as [E F]; [rewrite skipn_length; cbn [length] in *; lia|]. rewrite E, firstn_skipn. split; [reflexivity|]. constructor; [|exact F].
  split; [destruct C; [lia|discriminate]|]. pose proof (firstn_le_length C (x :: data)). lia.
Qed.
Lemma send_array_ok C pad data : (0 < C)%nat -> Z.of_nat C < 2 ^ 64 -> concat (send_array C pad data) = firstn (length data - pad) data /\ okc (send_array C pad data).
Proof. intros C0 C1. unfold send_array. apply pieces_ok; auto. Qed.
Lemma send_array_some C pad data : (0 < C)%nat -> Z.of_nat C < 2 ^ 64 -> (pad < length data)%nat -> send_array C pad data <> [].
Proof. intros C0 C1 L E. destruct (send_array_ok C pad data C0 C1) as [K _]. rewrite E in K. cbn in K. apply (f_equal (@length Z)) in K. rewrite firstn_length in K. cbn in K. lia. Qed.
Lemma send_array_one C data : length data = C -> (0 < C)%nat -> send_array C 0 data = [data].
Proof. intros L C0. unfold send_array. rewrite Nat.sub_0_r, firstn_all. destruct data as [|x data]; [cbn in L; lia|]. cbn [length pieces]. rewrite <- L, firstn_all, skipn_all. destruct (length data); reflexivity. Qed.

Section Replies.
Context {ops : Type}.
Variable adjust : nat -> ops -> res (list bytes * ops).
Variable err : bytes.
Lemma produces_det ce : forall left o A, produces adjust ce left o A -> forall B, produces adjust ce left o B -> A = B.
Proof.
  intros left o A P. induction P as [o|left o arrs o' more L AD P IH]; intros B Q; inversion Q as [|? ? arrs2 o2 more2 L2 AD2 P2]; subst; try lia; auto.
  rewrite AD in AD2. injection AD2 as <- <-. now rewrite (IH _ P2).
Qed.
(* one array per call: the bytes of all the pieces are what was produced, or an error message replaces the rest *)
Lemma chunk_loop_ok C ce esz pad : (0 < C)%nat -> Z.of_nat C < 2 ^ 64 -> (0 < ce)%nat -> (pad < esz)%nat -> one_array adjust esz ->
  forall fuel left o, (left <= fuel)%nat -> exists s, chunk_loop ops adjust err fuel C ce pad left o = Ok s /\
    ((exists As cs, produces adjust ce left o (map (fun a => [a]) As) /\ length (concat As) = (left * esz)%nat /\ s = frames cs /\ okc cs /\ concat cs = firstn (left * esz - pad) (concat As)) \/
     (exists cs, (forall As, ~ produces adjust ce left o As) /\ s = frames cs ++ send_error 1 err /\ okc cs /\ (length (concat cs) < left * esz - pad)%nat)).
Proof.
  intros C0 C1 CE PD ONE. induction fuel as [|fuel IH]; intros left o F.
  { assert (left = O) by lia. subst left. exists []. split; [reflexivity|]. left. exists [], []. split; [constructor|]. split; [reflexivity|]. split; [reflexivity|]. split; [constructor|]. now rewrite firstn_nil. }
  cbn [chunk_loop]. destruct (Nat.eqb_spec left 0) as [->|NZ].
  { exists []. split; [reflexivity|]. left. exists [], []. split; [constructor|]. split; [reflexivity|]. split; [reflexivity|]. split; [constructor|]. now rewrite firstn_nil. }
  set (cur := Nat.min left ce). pose proof (ONE cur o) as O1. assert (LE : (left * esz >= esz)%nat) by nia.
  destruct (adjust cur o) as [[arrs o']| |] eqn:AD; [|clear O1|contradiction]; cbn [or_error].
  2:{ eexists. split; [reflexivity|]. right. exists []. split; [|split; [reflexivity|split; [constructor|cbn; lia]]]. intros As P. inversion P as [|? ? ? ? ? ? AD2]; subst; [lia|]. fold cur in AD2. congruence. }
  destruct O1 as (a & -> & LA). cbn [send_stream or_error map concat]. rewrite app_nil_r.
  set (p := if (left - cur =? 0)%nat then pad else O). destruct (send_array_ok C p a C0 C1) as [SC SO].
  destruct (IH (left - cur)%nat o' ltac:(lia)) as (s' & -> & [(As & cs & P & LAs & -> & OC & EC)|(cs & NP & -> & OC & LC)]); cbn [rbind]; eexists; (split; [reflexivity|]).
  - left. exists (a :: As), (send_array C p a ++ cs). split; [cbn [map]; now apply (produces_chunk _ _ _ _ _ o'); [lia|exact AD|]|]. split; [cbn [concat]; rewrite app_length, LA, LAs; nia|]. split; [now rewrite frames_app|]. split; [now apply Forall_app|].
    cbn [concat]. rewrite concat_app, SC, EC, firstn_app, LA. unfold p. destruct (Nat.eqb_spec (left - cur) 0) as [Z0|NZ0].
    + rewrite Z0. cbn [Nat.mul Nat.sub firstn]. assert (cur = left) by lia. rewrite H. replace (left * esz - pad - left * esz)%nat with O by lia. reflexivity.
    + rewrite Nat.sub_0_r. assert (left * esz = cur * esz + (left - cur) * esz)%nat by nia. assert ((left - cur) * esz >= esz)%nat by nia. rewrite !firstn_all2 with (l := a) by lia. do 2 f_equal. lia.
  - right. exists (send_array C p a ++ cs). split; [|split; [rewrite frames_app; now rewrite <- app_assoc|split; [now apply Forall_app|]]].
    + intros As Q. inversion Q as [|? ? ? o2 more L2 AD2 P2]; subst; [lia|]. fold cur in AD2, P2. rewrite AD in AD2. injection AD2 as <- <-. exact (NP _ P2).
    + rewrite concat_app, app_length, SC, firstn_length, LA. unfold p. destruct (Nat.eqb_spec (left - cur) 0) as [Z0|NZ0]; [rewrite Z0 in LC; lia|]. rewrite Nat.sub_0_r. assert (left * esz = cur * esz + (left - cur) * esz)%nat by nia. lia.
Qed.
Lemma chunk_div C esz : (0 < esz <= C)%nat -> (0 < C / esz)%nat.
Proof. intros H. apply Nat.div_str_pos. lia. Qed.
Lemma chunked_ok C esz pad numel o As : (0 < esz <= C)%nat -> Z.of_nat C < 2 ^ 64 -> (pad < esz)%nat -> (0 < numel)%nat -> one_array adjust esz -> produces adjust (C / esz) numel o (map (fun a => [a]) As) ->
  exists s, reply_chunked ops adjust err C esz pad numel o = Ok s /\ forall junk parts sound, concat parts = s -> fetch junk 1 (numel * esz - pad) parts sound = if sound then Ok [firstn (numel * esz - pad) (concat As)] else Err.
Proof.
  intros E C1 PD NU ONE P. destruct (chunk_loop_ok C (C / esz) esz pad ltac:(lia) C1 (chunk_div _ _ E) PD ONE numel numel o (le_n _)) as (s & ES & [(As' & cs & P' & L & -> & OC & EC)|(cs & NP & _)]); [|exfalso; exact (NP _ P)].
  exists (frames cs). split; [exact ES|]. intros junk parts sound EQ. pose proof (produces_det _ _ _ _ P _ P') as EA. assert (As = As').
  { clear - EA. revert As' EA. induction As as [|a As IH]; intros [|b Bs] EA; try discriminate; [reflexivity|]. cbn in EA. injection EA as <- EA. now rewrite (IH _ EA). }
  subst As'. assert (LE : (numel * esz >= esz)%nat) by nia. assert (LC : length (concat cs) = (numel * esz - pad)%nat) by (rewrite EC, firstn_length; lia).
  pose proof (fetch_ok junk [cs] (numel * esz - pad) parts sound ltac:(discriminate)) as R. cbn [length map concat] in R. rewrite app_nil_r, EC in R. apply R; [|repeat constructor; exact LC|exact EQ].
  repeat constructor; [|exact OC]. intros ->. cbn in LC. lia.
Qed.
Lemma chunked_sound C esz pad numel o s : (0 < esz <= C)%nat -> Z.of_nat C < 2 ^ 64 -> (pad < esz)%nat -> (0 < numel)%nat -> one_array adjust esz -> err <> [] -> Z.of_nat (length err) < 2 ^ 64 -> reply_chunked ops adjust err C esz pad numel o = Ok s ->
  forall junk parts sound, delivers parts s -> match fetch junk 1 (numel * esz - pad) parts sound with
    | Ok bufs => sound = true /\ concat parts = s /\ exists As, produces adjust (C / esz) numel o (map (fun a => [a]) As) /\ bufs = [firstn (numel * esz - pad) (concat As)]
    | Err => True | Ub => False end.
Proof.
  intros E C1 PD NU ONE NE LE ES junk parts sound (lost & EQ). assert (LT : (numel * esz >= esz)%nat) by nia.
  destruct (chunk_loop_ok C (C / esz) esz pad ltac:(lia) C1 (chunk_div _ _ E) PD ONE numel numel o (le_n _)) as (s' & ES' & CASE). unfold reply_chunked in ES. rewrite ES in ES'. injection ES' as <-.
  destruct CASE as [(As & cs & P & L & -> & OC & EC)|(cs & NP & -> & OC & LC)].
  - assert (LC : length (concat cs) = (numel * esz - pad)%nat) by (rewrite EC, firstn_length; lia).
    assert (SANE : sane [cs]) by (repeat constructor; [intros ->; cbn in LC; lia|exact OC]).
    destruct lost as [|y lost].
    + rewrite app_nil_r in EQ. pose proof (fetch_ok junk [cs] (numel * esz - pad) parts sound ltac:(discriminate) SANE ltac:(repeat constructor; exact LC)) as R. cbn [length map concat] in R. rewrite app_nil_r, EC in R. rewrite (R EQ). destruct sound; [|exact I]. split; [reflexivity|]. split; [exact EQ|]. exists As. auto.
    + pose proof (fetch_bad junk [cs] (numel * esz - pad) parts sound [] (length cs) (y :: lost) ltac:(discriminate) SANE ltac:(repeat constructor; exact LC)) as R. cbn [length map concat] in R. rewrite !app_nil_r, firstn_all in R.
      destruct (R ltac:(left; lia) EQ ltac:(right; discriminate)) as [-> | (HH & _)]; [exact I|discriminate].
  - set (fill := repeat 0 (numel * esz - pad - length (concat cs))). set (cs2 := pieces (length fill) C fill). destruct (pieces_ok C ltac:(lia) C1 (length fill) fill (le_n _)) as [FE FO]. fold cs2 in FE, FO.
    assert (LF : length fill = (numel * esz - pad - length (concat cs))%nat) by apply repeat_length.
    assert (LC2 : length (concat (cs ++ cs2)) = (numel * esz - pad)%nat) by (rewrite concat_app, app_length, FE, LF; lia).
    assert (SANE : sane [cs ++ cs2]) by (repeat constructor; [intros E0; rewrite E0 in LC2; cbn in LC2; lia|now apply Forall_app]).
    pose proof (fetch_bad junk [cs ++ cs2] (numel * esz - pad) parts sound (send_error 1 err) (length cs) lost ltac:(discriminate) SANE ltac:(repeat constructor; exact LC2)) as R. cbn [length map concat] in R. rewrite !app_nil_r in R. rewrite firstn_app_len in R.
    destruct (R ltac:(right; exists 1, err; lia || (repeat split; auto; lia)) EQ ltac:(left; discriminate)) as [-> | (HH & EV)]; [exact I|].
    (* the stream before the error message is too short *)
    destruct sound; [exfalso|rewrite EV; exact I]. subst lost. apply app_inv_tail in EQ.
    pose proof (fetch_bad junk [cs ++ cs2] (numel * esz - pad) parts true [] (length (cs ++ cs2)) (frames cs2) ltac:(discriminate) SANE ltac:(repeat constructor; exact LC2)) as R2. cbn [length map concat] in R2. rewrite !app_nil_r, firstn_all in R2.
    assert (NF : frames cs2 <> []). { intros E0. destruct cs2 as [|c cs2]; [cbn in FE; rewrite <- FE in LF; cbn in LF; lia|]. unfold frames, frame in E0. cbn in E0. discriminate. }
    destruct (R2 ltac:(left; lia) ltac:(rewrite EQ, frames_app; reflexivity) ltac:(right; exact NF)) as [R3|(HH & _)]; [|congruence]. congruence.
Qed.
Lemma chunk_more fuel C ce pad left o : (0 < left)%nat -> chunk_loop ops adjust err (S fuel) C ce pad left o =
  or_error err (adjust (Nat.min left ce) o) (fun '(arrs, o') => or_error err (send_stream C (if (left - Nat.min left ce =? 0)%nat then pad else O) arrs) (fun s =>
  rbind (chunk_loop ops adjust err fuel C ce pad (left - Nat.min left ce) o') (fun s' => Ok (s ++ s')))).
Proof. intros L. cbn [chunk_loop]. now replace (left =? 0)%nat with false by lia. Qed.
Lemma chunk_none fuel C ce pad o : chunk_loop ops adjust err fuel C ce pad 0 o = Ok [].
Proof. destruct fuel; reflexivity. Qed.
(* all the arrays of one call *)
Lemma sent_ok C pad L arrs : (0 < C)%nat -> Z.of_nat C < 2 ^ 64 -> arrs <> [] -> Forall (fun a => length a = L) arrs -> (pad < L)%nat -> exists s, send_stream C pad arrs = Ok s /\ forall junk parts sound, concat parts = s -> fetch junk (length arrs) (L - pad) parts sound = if sound then Ok (map (firstn (L - pad)) arrs) else Err.
Proof.
  intros C0 C1 NA FL PL. exists (frames (concat (map (send_array C pad) arrs))). split; [destruct arrs; [congruence|reflexivity]|]. intros junk parts sound EQ.
  assert (EM : map (@concat Z) (map (send_array C pad) arrs) = map (firstn (L - pad)) arrs).
  { rewrite map_map. apply map_ext_in. intros a IN. rewrite (proj1 (send_array_ok C pad a C0 C1)). rewrite Forall_forall in FL. now rewrite (FL _ IN). }
  pose proof (fetch_ok junk (map (send_array C pad) arrs) (L - pad) parts sound) as R. rewrite map_length, EM in R. apply R; [destruct arrs; [congruence|discriminate]| | |exact EQ].
  - unfold sane. rewrite Forall_forall in *. intros x IN. apply in_map_iff in IN. destruct IN as (a & <- & IN). split; [apply send_array_some; auto; rewrite (FL _ IN); exact PL|apply send_array_ok; auto].
  - rewrite Forall_forall in *. intros x IN. apply in_map_iff in IN. destruct IN as (a & <- & IN). rewrite (proj1 (send_array_ok C pad a C0 C1)), firstn_length, (FL _ IN). lia.
Qed.
Lemma one_chunk_ok C esz pad numel o L arrs o' : (0 < esz <= C)%nat -> Z.of_nat C < 2 ^ 64 -> (0 < numel <= C / esz)%nat -> adjust numel o = Ok (arrs, o') -> arrs <> [] -> Forall (fun a => length a = L) arrs -> (pad < L)%nat ->
  exists s, reply_chunked ops adjust err C esz pad numel o = Ok s /\ forall junk parts sound, concat parts = s -> fetch junk (length arrs) (L - pad) parts sound = if sound then Ok (map (firstn (L - pad)) arrs) else Err.
Proof.
  intros E C1 NU AD NA FL PL. destruct (sent_ok C pad L arrs ltac:(lia) C1 NA FL PL) as (s & ES & R). exists s. split; [|exact R]. unfold reply_chunked. assert (EM : exists m, numel = S m) by (exists (numel - 1)%nat; lia). destruct EM as (m & EM). rewrite EM at 1. rewrite chunk_more by lia.
  rewrite Nat.min_l, AD by lia. cbn [or_error]. rewrite Nat.sub_diag. cbn [Nat.eqb]. rewrite ES. cbn [or_error]. rewrite chunk_none. cbn [rbind]. now rewrite app_nil_r.
Qed.
Lemma whole_ok C numel o a o' : (0 < C)%nat -> Z.of_nat C < 2 ^ 64 -> adjust numel o = Ok ([a], o') -> a <> [] ->
  exists s, reply_whole ops adjust err C numel o = Ok s /\ forall junk parts sound, concat parts = s -> fetch junk 1 (length a) parts sound = if sound then Ok [a] else Err.
Proof.
  intros C0 C1 AD NA. destruct (sent_ok C 0 (length a) [a] C0 C1 ltac:(discriminate) ltac:(repeat constructor) ltac:(destruct a; [congruence|cbn; lia])) as (s & ES & R). exists s. split; [unfold reply_whole; rewrite AD; cbn [or_error]; now rewrite ES|].
  intros junk parts sound EQ. specialize (R junk parts sound EQ). cbn [length map] in R. now rewrite Nat.sub_0_r, firstn_all in R.
Qed.
(* two arrays in two chunks: the client interleaves them *)
Lemma two_chunks C esz numel o a1 b1 a2 b2 : (0 < esz <= C)%nat -> Z.of_nat C < 2 ^ 64 -> (C / esz < numel)%nat -> produces adjust (C / esz) numel o [[a1; b1]; [a2; b2]] ->
  reply_chunked ops adjust err C esz 0 numel o = Ok (frames (send_array C 0 a1 ++ send_array C 0 b1 ++ send_array C 0 a2 ++ send_array C 0 b2)).
Proof.
  intros E C1 NU P. pose proof (chunk_div _ _ E) as CD. unfold reply_chunked. set (ce := (C / esz)%nat) in *. inversion P as [|? ? ? o' more L AD P2]; subst. inversion P2 as [|? ? ? o2 more2 L2 AD2 P3]; subst. inversion P3 as [? E0|]; subst.
  assert (EM : exists m, numel = S (S m)) by (exists (numel - 2)%nat; lia). destruct EM as (m & EM). rewrite EM at 1. rewrite chunk_more by lia. rewrite AD. cbn [or_error send_stream map concat].
  replace (numel - Nat.min numel ce =? 0)%nat with false by lia. rewrite chunk_more by lia. rewrite AD2. cbn [or_error send_stream map concat]. rewrite <- E0, chunk_none. cbn [Nat.eqb rbind]. rewrite !app_nil_r, <- frames_app. now rewrite <- !app_assoc.
Qed.
Lemma two_chunks_swapped C esz numel o a1 b1 a2 b2 : (0 < esz <= C)%nat -> Z.of_nat C < 2 ^ 64 -> (C / esz < numel)%nat -> produces adjust (C / esz) numel o [[a1; b1]; [a2; b2]] ->
  length a1 = C -> length b1 = C -> length a2 = C -> length b2 = C ->
  exists s, reply_chunked ops adjust err C esz 0 numel o = Ok s /\ forall junk parts sound, concat parts = s -> fetch junk 2 (2 * C) parts sound = if sound then Ok [a1 ++ b1; a2 ++ b2] else Err.
Proof.
  intros E C1 NU P A1 B1 A2 B2. eexists. split; [exact (two_chunks _ _ _ _ _ _ _ _ E C1 NU P)|]. rewrite !send_array_one by (auto; lia). intros junk parts sound EQ.
  pose proof (fetch_ok junk [[a1; b1]; [a2; b2]] (2 * C) parts sound) as R. cbn [length map concat] in R. rewrite !app_nil_r in R. apply R; [discriminate| | |exact EQ].
  - assert (N : forall x : bytes, length x = C -> x <> []) by (intros x LX ->; cbn in LX; lia). repeat constructor; auto; try discriminate; lia.
  - apply Forall_cons; [|apply Forall_cons; [|constructor]]; cbn [concat]; rewrite app_nil_r, app_length; lia.
Qed.
End Replies.
(* ---- a piece that crosses the end of a buffer ---- *)
Lemma consume_step f r data : data <> [] -> consume (S f) r data = match r_state r with
      | ReadFlags => rbind (copy_to_flags r data) (fun '(r', n) => consume f r' (skipn n data))
      | ReadChunk => rbind (copy_to_buffer r data) (fun '(r', n) => consume f r' (skipn n data))
      | ReadError => let '(r', n) := copy_to_error r data in consume f r' (skipn n data)
      | End => Err end.
Proof. intros D. destruct data; [congruence|reflexivity]. Qed.
Lemma part_frame r d : r_state r = ReadFlags -> r_fpos r = O -> length (r_flags r) = 9%nat -> d <> [] -> Z.of_nat (length d) < 2 ^ 64 ->
  exists f, consume (2 * length (frame d) + 2) r (frame d) = rbind (copy_to_buffer (mkReader ReadChunk (header 0 (Z.of_nat (length d))) 0 (Z.of_nat (length d)) (r_msg r) (r_left r) (r_idx r) (r_pos r) (r_bufs r)) d) (fun '(r', n) => consume f r' (skipn n d)).
Proof.
  intros ST FP FL ND LD. assert (LF : length (frame d) = (9 + length d)%nat) by (unfold frame; rewrite app_length, header_length; reflexivity). set (fu := (2 * length (frame d) + 2)%nat). destruct fu as [|[|f]] eqn:EF; [lia|lia|]. exists f.
  rewrite consume_step by (unfold frame, header; discriminate). rewrite ST. unfold copy_to_flags. rewrite FP, LF. replace (Nat.min (9 - 0) (9 + length d)) with 9%nat by lia.
  assert (FR : firstn 9 (frame d) = header 0 (Z.of_nat (length d))) by (unfold frame; rewrite <- (header_length 0 (Z.of_nat (length d))); apply firstn_app_len).
  assert (SK : skipn 9 (frame d) = d) by (unfold frame; rewrite <- (header_length 0 (Z.of_nat (length d))) at 1; apply skipn_app_len).
  unfold blit. rewrite FR, header_length. cbn [firstn app Nat.add]. rewrite skipn_all2 by lia. rewrite app_nil_r. cbn [Nat.eqb header skipn nth Z.eqb]. rewrite le_word_bytes by (change (256 ^ Z.of_nat 8) with (2 ^ 64); lia). cbn [rbind].
  rewrite SK, consume_step by exact ND. cbn [r_state]. reflexivity.
Qed.
Lemma over_read junk C m a1 b1 more sound : (0 < m < C)%nat -> Z.of_nat C < 2 ^ 64 -> length a1 = C -> length b1 = C -> fetch junk 2 (C + m) (frame a1 :: frame b1 :: more) sound = Ub.
Proof.
  intros M C1 A1 B1. assert (NA : a1 <> []) by (intros ->; cbn in A1; lia). assert (NB : b1 <> []) by (intros ->; cbn in B1; lia). unfold fetch. cbn [read_parts].
  set (J0 := map (junk 1%nat) (seq 0 (C + m))). set (J1 := map (junk 2%nat) (seq 0 (C + m))). assert (L0 : length J0 = (C + m)%nat) by (unfold J0; now rewrite map_length, seq_length). assert (L1 : length J1 = (C + m)%nat) by (unfold J1; now rewrite map_length, seq_length).
  unfold on_part at 1. destruct (part_frame (reader0 junk 2 (C + m)) a1 eq_refl eq_refl ltac:(reflexivity) NA ltac:(lia)) as (f & ->).
  unfold copy_to_buffer. cbn [r_msg r_left r_idx r_pos r_bufs r_chunk r_state reader0 r_flags r_fpos]. cbn [seq map]. fold J0 J1.
  rewrite Z.min_id, Z.sub_diag. cbn [Z.eqb]. replace (Z.of_nat (C + m) * Z.of_nat 2 <? Z.of_nat (length a1)) with false by lia. rewrite Nat2Z.id.
  pose proof (copy_ok (length a1 + 1) [] [] J0 [J1] a1 [] NA ltac:(lia)) as CP. cbn [app length] in CP. rewrite app_nil_r in CP. replace (S (S (length a1 + 1))) with (S (length a1 + length [J0; J1]))%nat in CP by (cbn [length]; lia).
  cbn [app length Nat.add] in *. unfold bytes in *. rewrite CP. replace (length a1 =? length J0)%nat with false by lia. cbn [rbind]. rewrite skipn_all.
  assert (R : forall r0, consume f r0 [] = Ok r0) by (intros r0; destruct f; reflexivity). rewrite R. clear R CP. cbn [rbind r_state]. replace (Z.of_nat (C + m) * Z.of_nat 2 - Z.of_nat (length a1) =? 0) with false by lia. cbn [rbind].
  unfold on_part at 1. set (r1 := mkReader _ _ _ _ _ _ _ _ _). destruct (part_frame r1 b1 eq_refl eq_refl ltac:(apply header_length) NB ltac:(lia)) as (f2 & ->). clear f. unfold r1. clear r1.
  unfold copy_to_buffer. cbn [r_msg r_left r_idx r_pos r_bufs r_chunk r_state r_flags r_fpos]. rewrite Z.min_id, Z.sub_diag. cbn [Z.eqb]. replace (_ <? Z.of_nat (length b1)) with false by lia. rewrite Nat2Z.id.
  assert (LB : length (a1 ++ skipn (length a1) J0) = (C + m)%nat) by (rewrite app_length, skipn_length; lia).
  cbn [length]. replace (S (length b1 + 2))%nat with (S (S (S (length b1)))) by lia.
  rewrite (copy_more _ _ _ _ _ _ _ (a1 ++ skipn (length a1) J0)) by (reflexivity || lia). cbv zeta. rewrite LB. replace (Nat.min (length b1) (C + m - length a1)) with m by lia. replace (length b1 <? 0 + m)%nat with false by lia. replace (length a1 + m =? C + m)%nat with true by lia.
  cbn [set_nth]. rewrite (copy_more _ _ _ _ _ _ _ J1) by (reflexivity || lia). cbv zeta. replace (length b1 <? 0 + m + Nat.min (length b1) (length J1 - 0))%nat with true by lia. reflexivity.
Qed.
(* ---- the words of a reply ---- *)
Lemma words_length esz (ws : list Z) : length (concat (map (le_bytes esz) ws)) = (length ws * esz)%nat.
Proof. induction ws as [|w ws IH]; cbn [map concat length]; [reflexivity|]. rewrite app_length, le_bytes_length, IH. lia. Qed.
Lemma word_at_words esz : forall ws i, (i < length ws)%nat -> 0 <= nth i ws 0 < 256 ^ Z.of_nat esz -> word_at esz (concat (map (le_bytes esz) ws)) i = nth i ws 0.
Proof.
  unfold word_at. induction ws as [|w ws IH]; intros i L B; [cbn in L; lia|]. destruct i as [|i]; cbn [map concat nth] in *.
  - cbn [Nat.mul skipn]. rewrite <- (le_bytes_length esz w) at 1. rewrite firstn_app_len. now apply le_word_bytes.
  - rewrite skipn_app, le_bytes_length. replace (S i * esz - esz)%nat with (i * esz)%nat by lia. rewrite skipn_all2 by (rewrite le_bytes_length; lia). cbn [app]. apply IH; [cbn in L; lia|exact B].
Qed.
Lemma as_words_ok esz ws : (0 < esz)%nat -> Forall (fun w => 0 <= w < 256 ^ Z.of_nat esz) ws -> as_words esz (concat (map (le_bytes esz) ws)) = Ok ws.
Proof.
  intros E F. unfold as_words. rewrite words_length, Nat.mod_mul, Nat.div_mul by lia. cbn [Nat.eqb]. f_equal. apply nth_ext with (d := word_at esz (concat (map (le_bytes esz) ws)) 0) (d' := 0); [now rewrite map_length, seq_length|]. rewrite map_length, seq_length. intros i L.
  rewrite map_nth, seq_nth by exact L. cbn [Nat.add]. apply word_at_words; [exact L|]. rewrite Forall_forall in F. apply F, nth_In, L.
Qed.
