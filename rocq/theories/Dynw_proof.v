(* Windows of row-major arrays: facts about positions, without secret values. *)
From Verif Require Import Base Disp_model Dyn_model Dyn_spec.
Open Scope nat_scope.

Lemma prod_numel sh : prod sh = numel sh.
Proof. induction sh as [|d sh IH]; [reflexivity|]. cbn. now rewrite IH. Qed.
Lemma flat_lt sh : forall idx, inside sh idx -> flat sh idx < numel sh.
Proof.
  induction sh as [|d sh IH]; intros idx I; inversion I; subst; cbn; [lia|]. specialize (IH _ H3). change (fold_right Nat.mul 1 sh) with (numel sh). nia.
Qed.
Lemma flat_inj sh : forall i j, inside sh i -> inside sh j -> flat sh i = flat sh j -> i = j.
Proof.
  induction sh as [|d sh IH]; intros i j I J E; inversion I; inversion J; subst; [reflexivity|]. cbn in E.
  pose proof (flat_lt _ _ H3). pose proof (flat_lt _ _ H8). assert (y = y0) by nia. subst y0. f_equal. apply IH; auto. lia.
Qed.
Lemma flat_surj sh : forall p, p < numel sh -> exists idx, inside sh idx /\ flat sh idx = p.
Proof.
  induction sh as [|d sh IH]; intros p P.
  - cbn in P. exists []. split; [constructor|]. cbn. lia.
  - cbn in P. change (fold_right Nat.mul 1 sh) with (numel sh) in P. assert (NZ : numel sh <> 0) by nia.
    destruct (IH (p mod numel sh)) as (idx & I & E); [now apply Nat.mod_upper_bound|]. exists (p / numel sh :: idx). split.
    + constructor; [apply Nat.div_lt_upper_bound; [exact NZ|lia]|exact I].
    + cbn. rewrite E. rewrite (Nat.div_mod p (numel sh) NZ) at 3. lia.
Qed.
Lemma inside_shift sh sz cs : fits sh sz cs -> forall idx, inside sz idx -> inside sh (shift cs idx).
Proof.
  intros (F & L1 & L2). revert sz cs F L1 L2. induction sh as [|D sh IH]; intros [|s sz] [|c cs] F L1 L2 idx I; try discriminate; inversion I; subst; [constructor|].
  cbn in F. inversion F; subst. cbn in *. constructor; [lia|]. apply IH with (sz := sz); auto.
Qed.

(* concatenation of rows of equal length *)
Lemma nth_concat {A} L : forall (rs : list (list A)), Forall (fun r => length r = L) rs -> forall i j, j < L ->
  nth_error (concat rs) (i * L + j) = match nth_error rs i with Some r => nth_error r j | None => None end.
Proof.
  intros rs F. induction F as [|r rs E F IH]; intros i j J; [cbn; destruct i; destruct (_ * L + j); reflexivity|].
  cbn [concat]. destruct i as [|i].
  - cbn [Nat.mul Nat.add nth_error]. apply nth_error_app1. lia.
  - rewrite nth_error_app2 by nia. cbn [nth_error]. rewrite <- IH by exact J. f_equal. nia.
Qed.
Lemma concat_len {A} L : forall (rs : list (list A)), Forall (fun r => length r = L) rs -> length (concat rs) = length rs * L.
Proof. intros rs F. induction F as [|r rs E F IH]; [reflexivity|]. cbn. rewrite app_length, IH. lia. Qed.
Lemma nth_seq_map {A} (f : nat -> A) m : forall i s, i < m -> nth_error (map f (seq s m)) i = Some (f (s + i)).
Proof.
  induction m as [|m IH]; intros i s I; [lia|]. cbn. destruct i as [|i]; [cbn; now rewrite Nat.add_0_r|]. cbn. rewrite IH by lia. do 2 f_equal. lia.
Qed.
Lemma nth_skipn' {A} : forall m (l : list A) j, nth_error (skipn m l) j = nth_error l (m + j).
Proof. induction m as [|m IH]; intros l j; [reflexivity|]. destruct l; [destruct j; reflexivity|]. cbn. apply IH. Qed.
Lemma nth_firstn' {A} : forall m (l : list A) j, j < m -> nth_error (firstn m l) j = nth_error l j.
Proof. induction m as [|m IH]; intros l j J; [lia|]. destruct l; [reflexivity|]. destruct j; [reflexivity|]. cbn. apply IH. lia. Qed.
Lemma nth_row {A} inner i (data : list A) j : j < inner -> nth_error (row inner i data) j = nth_error data (i * inner + j).
Proof. intros J. unfold row. rewrite nth_firstn' by exact J. apply nth_skipn'. Qed.
Lemma row_len {A} inner i (data : list A) : (i + 1) * inner <= length data -> length (row inner i data) = inner.
Proof. intros H. unfold row. rewrite firstn_length, skipn_length. lia. Qed.

(* the window read row by row *)
Fixpoint win {A} (sh sz cs : list nat) (data : list A) : list A :=
  match sh, sz, cs with
  | _ :: sh, s :: sz, c :: cs => concat (map (fun i => win sh sz cs (row (numel sh) (c + i) data)) (seq 0 s))
  | _, _, _ => data
  end.
Lemma win_window {A} sh : forall sz cs (data : list A), fits sh sz cs -> length data = numel sh -> is_window sh sz cs data (win sh sz cs data).
Proof.
  induction sh as [|D sh IH]; intros [|s sz] [|c cs] data (F & L1 & L2) LD; try discriminate.
  - split; [exact LD|]. intros idx I. inversion I; subst. reflexivity.
  - cbn in F. inversion F as [|? ? ? ? F0 F1]; subst. cbn in F0. cbn in LD. change (fold_right Nat.mul 1 sh) with (numel sh) in LD.
    assert (FT : fits sh sz cs) by (cbn in L1, L2; repeat split; auto).
    assert (RL : forall i, i < s -> length (row (numel sh) (c + i) data) = numel sh) by (intros i LI; apply row_len; rewrite LD; nia).
    assert (WL : Forall (fun r => length r = numel sz) (map (fun i => win sh sz cs (row (numel sh) (c + i) data)) (seq 0 s))).
    { apply Forall_map, Forall_forall. intros i I. apply in_seq in I. apply (IH sz cs); [exact FT|apply RL; lia]. }
    split.
    + cbn [win]. rewrite (concat_len _ _ WL), map_length, seq_length. reflexivity.
    + intros idx I. inversion I as [|? i ? idx' LI I']; subst. cbn [flat win shift zipWith].
      change (zipWith Nat.add cs idx') with (shift cs idx'). rewrite (nth_concat _ _ WL) by now apply flat_lt.
      rewrite nth_seq_map by exact LI. cbn [Nat.add].
      destruct (IH sz cs (row (numel sh) (c + i) data) FT (RL i LI)) as [_ W]. rewrite (W idx' I'). apply nth_row.
      apply flat_lt. now apply (inside_shift sh sz cs FT).
Qed.
Lemma window_unique {A} sh sz cs (data o o' : list A) : is_window sh sz cs data o -> is_window sh sz cs data o' -> o = o'.
Proof.
  intros [L W] [L' W']. assert (E : forall p, nth_error o p = nth_error o' p).
  { intros p. destruct (Nat.lt_ge_cases p (numel sz)) as [H|H].
    - destruct (flat_surj sz p H) as (idx & I & <-). rewrite (W _ I), (W' _ I). reflexivity.
    - rewrite (proj2 (nth_error_None o p)), (proj2 (nth_error_None o' p)) by lia. reflexivity. }
  clear - E. revert o' E. induction o as [|a o IH]; intros [|b o'] E; auto; try (now specialize (E 0)).
  f_equal; [specialize (E 0); cbn in E; congruence|]. apply IH. intros p. exact (E (S p)).
Qed.
(* a window of a window *)
Lemma shift_shift : forall a b idx, length a = length b -> shift (shift a b) idx = shift a (shift b idx).
Proof. induction a as [|x a IH]; intros [|y b] idx L; try discriminate; [reflexivity|]. destruct idx as [|i idx]; [reflexivity|]. cbn. f_equal; [lia|]. apply IH. cbn in L. lia. Qed.
Lemma window_trans {A} sh mid sz c1 c2 (data d1 out : list A) : fits mid sz c2 -> length c1 = length c2 ->
  is_window sh mid c1 data d1 -> is_window mid sz c2 d1 out -> is_window sh sz (shift c1 c2) data out.
Proof.
  intros F LC [L1 W1] [L2 W2]. split; [exact L2|]. intros idx I. rewrite (W2 _ I), shift_shift by exact LC. apply W1. now apply (inside_shift mid sz c2 F).
Qed.

(* the positions of a box *)
Lemma len_positions sh : forall sz (st : list Z) base, length sz = length sh -> length st = length sh -> length (positions sh st sz base) = numel sz.
Proof.
  induction sh as [|D sh IH]; intros [|s sz] [|c st] base L1 L2; try discriminate; [reflexivity|].
  cbn in L1, L2. cbn [positions]. rewrite flat_map_concat_map. rewrite (concat_len (numel sz)).
  - rewrite map_length, seq_length. reflexivity.
  - apply Forall_map, Forall_forall. intros j _. apply IH; lia.
Qed.
Lemma nth_positions sh : forall sz cs base idx, length sz = length sh -> length cs = length sh -> inside sz idx ->
  nth_error (positions sh (map Z.of_nat cs) sz base) (flat sz idx) = Some (base * Z.of_nat (numel sh) + Z.of_nat (flat sh (shift cs idx)))%Z.
Proof.
  induction sh as [|D sh IH]; intros [|s sz] [|c cs] base idx L1 L2 I; try discriminate.
  - inversion I; subst. cbn. f_equal. lia.
  - inversion I as [|? i ? idx' LI I']; subst. cbn in L1, L2. cbn [flat positions map shift zipWith]. rewrite flat_map_concat_map.
    rewrite (nth_concat (numel sz)); [|apply Forall_map, Forall_forall; intros j _; apply len_positions; [lia|rewrite map_length; lia]|now apply flat_lt].
    rewrite nth_seq_map by exact LI. cbn [Nat.add]. rewrite IH by (auto; lia). f_equal.
    change (zipWith Nat.add cs idx') with (shift cs idx'). change (numel (D :: sh)) with (D * numel sh). lia.
Qed.
Lemma in_positions sh sz cs p : length sz = length sh -> length cs = length sh -> In p (positions sh (map Z.of_nat cs) sz 0) ->
  exists idx, inside sz idx /\ p = Z.of_nat (flat sh (shift cs idx)).
Proof.
  intros L1 L2 I. apply In_nth_error in I. destruct I as [q Q]. assert (LQ : q < numel sz).
  { rewrite <- (len_positions sh sz (map Z.of_nat cs) 0%Z) by (rewrite ?map_length; auto). apply nth_error_Some. congruence. }
  destruct (flat_surj sz q LQ) as (idx & IN & E). exists idx. split; [exact IN|]. rewrite <- E, nth_positions in Q by auto. injection Q as <-. lia.
Qed.
Lemma nodup_positions sh sz cs : fits sh sz cs -> NoDup (positions sh (map Z.of_nat cs) sz 0).
Proof.
  intros F. pose proof F as (F0 & L1 & L2). apply NoDup_nth_error. intros i j LI E. rewrite len_positions in LI by (rewrite ?map_length; auto).
  assert (LJ : j < numel sz).
  { rewrite <- (len_positions sh sz (map Z.of_nat cs) 0%Z) by (rewrite ?map_length; auto). apply nth_error_Some. rewrite <- E. apply nth_error_Some.
    rewrite len_positions by (rewrite ?map_length; auto). exact LI. }
  destruct (flat_surj sz i LI) as (a & IA & <-). destruct (flat_surj sz j LJ) as (b & IB & <-). rewrite !nth_positions in E by auto.
  injection E as E. assert (FE : flat sh (shift cs a) = flat sh (shift cs b)) by lia. apply flat_inj in FE; try (eapply inside_shift; eassumption).
  f_equal. clear - FE IA IB L1 L2. assert (LC : length cs = length sz) by lia. clear L1 L2 sh. revert cs a b FE IA IB LC.
  induction sz as [|s sz IH]; intros [|c cs] a b FE IA IB LC; try discriminate; inversion IA; inversion IB; subst; [reflexivity|].
  cbn in FE. injection FE as E1 E2. f_equal; [lia|]. apply (IH cs); auto.
Qed.

(* overwriting elements one after the other *)
Definition put1 {A} (data : list A) (u : A) (p : nat) : list A := firstn p data ++ u :: skipn (S p) data.
Lemma put1_len {A} (data : list A) u p : p < length data -> length (put1 data u p) = length data.
Proof. intros P. unfold put1. rewrite app_length. cbn [length]. rewrite firstn_length, skipn_length. lia. Qed.
Lemma put1_eq {A} (data : list A) u p : p < length data -> nth_error (put1 data u p) p = Some u.
Proof. intros P. unfold put1. rewrite nth_error_app2 by (rewrite firstn_length; lia). rewrite firstn_length, Nat.min_l, Nat.sub_diag by lia. reflexivity. Qed.
Lemma put1_neq {A} (data : list A) u : forall p q, p < length data -> q <> p -> nth_error (put1 data u p) q = nth_error data q.
Proof.
  induction data as [|a data IH]; intros p q P NE; cbn in P; [lia|]. destruct p as [|p]; destruct q as [|q]; try lia; try reflexivity.
  cbn. apply (IH p q); lia.
Qed.
Fixpoint putw {A} (data : list A) (us : list (A * nat)) : list A := match us with [] => data | (u, p) :: us => putw (put1 data u p) us end.
Lemma putw_len {A} : forall us (data : list A), Forall (fun up => snd up < length data) us -> length (putw data us) = length data.
Proof.
  induction us as [|[u p] us IH]; intros data F; [reflexivity|]. inversion F; subst. cbn [putw snd] in *. rewrite IH; [now apply put1_len|]. now rewrite put1_len.
Qed.
Lemma putw_out {A} q : forall us (data : list A), Forall (fun up => snd up < length data) us -> ~ In q (map snd us) -> nth_error (putw data us) q = nth_error data q.
Proof.
  induction us as [|[u p] us IH]; intros data F NI; [reflexivity|]. inversion F; subst. cbn in *. rewrite IH; [|now rewrite put1_len|tauto].
  apply put1_neq; [assumption|]. intros ->. tauto.
Qed.
Lemma putw_in {A} : forall us (data : list A), Forall (fun up => snd up < length data) us -> NoDup (map snd us) -> forall j u p, nth_error us j = Some (u, p) ->
  nth_error (putw data us) p = Some u.
Proof.
  induction us as [|[u0 p0] us IH]; intros data F ND j u p E; [destruct j; discriminate|]. inversion F; subst. cbn in *. inversion ND; subst. destruct j as [|j].
  - injection E as -> ->. rewrite putw_out; [now apply put1_eq|now rewrite put1_len|assumption].
  - apply (IH _) with (j := j); auto. now rewrite put1_len.
Qed.
Lemma nth_combine {A B} : forall (l : list A) (m : list B) j a b, nth_error l j = Some a -> nth_error m j = Some b -> nth_error (combine l m) j = Some (a, b).
Proof. induction l as [|x l IH]; intros m [|j] a b E1 E2; try discriminate; destruct m; try discriminate; cbn in *; [congruence|now apply IH]. Qed.
Lemma combine_snd {A B} : forall (l : list A) (m : list B), length l = length m -> map snd (combine l m) = m.
Proof. induction l as [|x l IH]; intros [|y m] L; try discriminate; [reflexivity|]. cbn. f_equal. apply IH. cbn in L. lia. Qed.
Definition spots sh cs sz := map Z.to_nat (positions sh (map Z.of_nat cs) sz 0).
Lemma nth_spots sh sz cs idx : length sz = length sh -> length cs = length sh -> inside sz idx -> nth_error (spots sh cs sz) (flat sz idx) = Some (flat sh (shift cs idx)).
Proof. intros. unfold spots. rewrite nth_error_map, nth_positions by auto. cbn. f_equal. lia. Qed.
Lemma in_spots sh sz cs p : length sz = length sh -> length cs = length sh -> In p (spots sh cs sz) -> exists idx, inside sz idx /\ p = flat sh (shift cs idx).
Proof. intros L1 L2 I. apply in_map_iff in I. destruct I as (z & <- & I). destruct (in_positions _ _ _ _ L1 L2 I) as (idx & IN & ->). exists idx. split; [exact IN|]. lia. Qed.
Lemma putw_update {A} sh sz cs (data upd : list A) : fits sh sz cs -> length data = numel sh -> length upd = numel sz ->
  is_update sh sz cs data upd (putw data (combine upd (spots sh cs sz))) /\ Forall (fun up => snd up < length data) (combine upd (spots sh cs sz)).
Proof.
  intros F LD LU. pose proof F as (F0 & L1 & L2).
  assert (LS : length (spots sh cs sz) = numel sz) by (unfold spots; rewrite map_length; apply len_positions; rewrite ?map_length; auto).
  assert (MS : map snd (combine upd (spots sh cs sz)) = spots sh cs sz) by (apply combine_snd; lia).
  assert (B : Forall (fun up => snd up < length data) (combine upd (spots sh cs sz))).
  { rewrite <- (Forall_map (snd) (fun p => p < length data)). rewrite MS. apply Forall_forall. intros p P. apply in_spots in P; auto. destruct P as (idx & I & ->).
    rewrite LD. apply flat_lt. now apply (inside_shift sh sz cs). }
  split; [|exact B]. split; [now apply putw_len|]. split.
  - intros idx I. pose proof (flat_lt _ _ I) as LT. destruct (nth_error upd (flat sz idx)) as [u|] eqn:EU; [|apply nth_error_None in EU; lia].
    eapply putw_in; [exact B| |apply nth_combine; [exact EU|now apply nth_spots]]. rewrite MS. unfold spots.
    pose proof (nodup_positions sh sz cs F) as ND. assert (NN : forall p, In p (positions sh (map Z.of_nat cs) sz 0) -> (0 <= p)%Z).
    { intros p P. destruct (in_positions _ _ _ _ L1 L2 P) as (? & _ & ->). lia. }
    revert ND NN. generalize (positions sh (map Z.of_nat cs) sz 0). clear. intros l ND NN. induction ND as [|x l NI ND IH]; [constructor|]. cbn. constructor.
    + intros H. apply in_map_iff in H. destruct H as (y & E & I). apply NI. replace x with y; [exact I|]. apply Z2Nat.inj; auto; apply NN; cbn; auto.
    + apply IH. intros p P. apply NN. now right.
  - intros idx I NI. apply putw_out; [exact B|]. rewrite MS. intros H. apply in_spots in H; auto. destruct H as (j & J & E).
    apply flat_inj in E; [|exact I|now apply (inside_shift sh sz cs)]. exact (NI j J E).
Qed.
