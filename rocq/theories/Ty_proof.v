(* Proofs about type strings. *)
From Verif Require Import Base Ty_model.
Open Scope string_scope.
Open Scope Z_scope.

(* ---- strings ---- *)
Fixpoint has (c : ascii) (s : string) : bool := match s with "" => false | String d r => Ascii.eqb c d || has c r end.
Lemma has_app c a b : has c (a ++ b) = (has c a || has c b)%bool.
Proof. induction a as [|d a IH]; cbn [append has]; [reflexivity|]. now rewrite IH, orb_assoc. Qed.
Lemma find_first_app c a b : has c a = false -> find_first c (a ++ String c b) = Some (String.length a).
Proof.
  induction a as [|d a IH]; cbn [append has find_first String.length]; intros H.
  - now rewrite Ascii.eqb_refl.
  - apply orb_false_iff in H as [-> H]. now rewrite IH.
Qed.
Lemma find_last_none c b : has c b = false -> find_last c b = None.
Proof. induction b as [|d b IH]; cbn [has find_last]; intros H; [reflexivity|]. apply orb_false_iff in H as [E H]. now rewrite IH, E. Qed.
Lemma find_last_app c a b : has c b = false -> find_last c (a ++ String c b) = Some (String.length a).
Proof.
  intros H. induction a as [|d a IH]; cbn [append find_last String.length].
  - now rewrite find_last_none, Ascii.eqb_refl.
  - now rewrite IH.
Qed.
Lemma substring_0 a b : substring 0 (String.length a) (a ++ b) = a.
Proof. induction a as [|d a IH]; cbn [append substring String.length]; [now destruct b|]. now rewrite IH. Qed.
Lemma substring_all a n : (String.length a <= n)%nat -> substring 0 n a = a.
Proof. revert n; induction a as [|d a IH]; intros [|n] L; cbn [substring String.length] in *; try reflexivity; [lia|]. rewrite IH by lia. reflexivity. Qed.
Lemma substring_skip a b n : (String.length b <= n)%nat -> substring (String.length a) n (a ++ b) = b.
Proof. intros L. induction a as [|d a IH]; cbn [append substring String.length]; [now apply substring_all|exact IH]. Qed.
Lemma substring_more a b n : (String.length a <= n)%nat -> substring 0 n (a ++ b) = a ++ substring 0 (n - String.length a) b.
Proof.
  revert n; induction a as [|d a IH]; intros n L; cbn [append String.length] in *.
  - now rewrite Nat.sub_0_r.
  - destruct n as [|n]; [lia|]. cbn [substring]. rewrite IH by lia. reflexivity.
Qed.
Lemma len_app a b : String.length (a ++ b) = (String.length a + String.length b)%nat.
Proof. induction a as [|d a IH]; cbn [append String.length]; [reflexivity|]. now rewrite IH. Qed.
Lemma app_assoc_s a b c : (a ++ b) ++ c = a ++ (b ++ c).
Proof. induction a as [|d a IH]; cbn [append]; [reflexivity|]. now rewrite IH. Qed.
Lemma before_app c a b : has c a = false -> before (a ++ String c b) (find_first c (a ++ String c b)) = a.
Proof. intros H. rewrite find_first_app by exact H. cbn [before]. apply substring_0. Qed.
Lemma after_at c a b : after (a ++ String c b) (Some (String.length a)) = b.
Proof.
  cbn [after]. replace (a ++ String c b) with ((a ++ String c "") ++ b) by (now rewrite app_assoc_s).
  replace (S (String.length a)) with (String.length (a ++ String c "")) by (rewrite len_app; cbn; lia).
  apply substring_skip. rewrite !len_app. lia.
Qed.
Lemma after_app c a b : has c a = false -> after (a ++ String c b) (find_first c (a ++ String c b)) = b.
Proof. intros H. rewrite find_first_app by exact H. apply after_at. Qed.
Lemma last_char_app a c : last_char (a ++ String c "") = Some c.
Proof. induction a as [|d a IH]; [reflexivity|]. cbn [append last_char]. rewrite IH. destruct a; reflexivity. Qed.
Lemma drop_last a c : substring 0 (String.length (a ++ String c "") - 1) (a ++ String c "") = a.
Proof. rewrite len_app. cbn [String.length]. replace (String.length a + 1 - 1)%nat with (String.length a) by lia. apply substring_0. Qed.

(* ---- numbers ---- *)
Lemma digit_cases d : 0 <= d < 10 -> d = 0 \/ d = 1 \/ d = 2 \/ d = 3 \/ d = 4 \/ d = 5 \/ d = 6 \/ d = 7 \/ d = 8 \/ d = 9.
Proof. lia. Qed.
Ltac digit_cases H := apply digit_cases in H; destruct H as [ -> | [ -> | [ -> | [ -> | [ -> | [ -> | [ -> | [ -> | [ -> | -> ]]]]]]]]].
Lemma digit_val_digit d : 0 <= d < 10 -> digit_val (digit d) = Some d.
Proof. intros H. digit_cases H; reflexivity. Qed.
Lemma digits_head fuel : forall n acc, 0 <= n < 10 ^ Z.of_nat (S fuel) -> exists d r, 0 <= d < 10 /\ digits fuel n acc = String (digit d) r.
Proof.
  induction fuel as [|f IH]; intros n acc H; cbn [digits].
  - exists n, acc. split; [|reflexivity]. change (10 ^ Z.of_nat 1) with 10 in H. lia.
  - destruct (Z.ltb_spec n 10); [exists n, acc; split; [lia|reflexivity]|]. apply IH.
    rewrite (Nat2Z.inj_succ (S f)), Z.pow_succ_r in H by lia. split; [apply Z.div_pos; lia|]. apply Z.div_lt_upper_bound; lia.
Qed.
Lemma read_digits fuel : forall n acc b, 0 <= n < 10 ^ Z.of_nat (S fuel) -> read (digits fuel n acc) 0 b = read acc n true.
Proof.
  induction fuel as [|f IH]; intros n acc b H; cbn [digits].
  - change (10 ^ Z.of_nat 1) with 10 in H. cbn [read]. rewrite digit_val_digit by lia. reflexivity.
  - destruct (Z.ltb_spec n 10); [cbn [read]; rewrite digit_val_digit by lia; reflexivity|].
    rewrite (Nat2Z.inj_succ (S f)), Z.pow_succ_r in H by lia.
    rewrite IH by (split; [apply Z.div_pos; lia|apply Z.div_lt_upper_bound; lia]).
    cbn [read]. rewrite digit_val_digit by (apply Z.mod_pos_bound; lia). f_equal. pose proof (Z.div_mod n 10). lia.
Qed.
Lemma fuel_ok n : 0 <= n -> n < 10 ^ Z.of_nat (S (S (Z.to_nat (Z.log2 n)))).
Proof.
  intros H. destruct (Z.eq_dec n 0) as [->|]; [reflexivity|]. pose proof (Z.log2_spec n ltac:(lia)) as [_ L]. pose proof (Z.log2_nonneg n).
  eapply Z.lt_le_trans; [exact L|]. transitivity (10 ^ Z.succ (Z.log2 n)); [apply Z.pow_le_mono_l; lia|]. apply Z.pow_le_mono_r; lia.
Qed.
Lemma digits_app fuel : forall n acc r, digits fuel n acc ++ r = digits fuel n (acc ++ r).
Proof. induction fuel as [|f IH]; intros n acc r; cbn [digits]; [reflexivity|]. destruct (n <? 10); [reflexivity|]. now rewrite IH. Qed.
(* the text after a number that ends it *)
Definition stops (r : string) : Prop := match r with "" => True | String c _ => digit_val c = None end.
Lemma read_stop r n b : stops r -> read r n b = (n, b).
Proof. destruct r as [|c r]; cbn [stops read]; [reflexivity|]. now intros ->. Qed.
Lemma skip_digit d r : 0 <= d < 10 -> skip_space (String (digit d) r) = String (digit d) r.
Proof. intros H. digit_cases H; reflexivity. Qed.
Lemma sign_digit d r : 0 <= d < 10 -> sign (String (digit d) r) = (false, String (digit d) r).
Proof. intros H. digit_cases H; reflexivity. Qed.
Lemma scan_dec n r : 0 <= n -> stops r -> sign (skip_space (dec n ++ r)) = (false, dec n ++ r) /\ read (dec n ++ r) 0 false = (n, true).
Proof.
  intros H ST. unfold dec. rewrite (proj2 (Z.ltb_ge n 0) H). rewrite digits_app. cbn [append]. pose proof (fuel_ok n H) as F. split.
  - destruct (digits_head (S (Z.to_nat (Z.log2 n))) n r ltac:(lia)) as (d & r' & D & ->). rewrite skip_digit, sign_digit by exact D. reflexivity.
  - rewrite read_digits by lia. now apply read_stop.
Qed.
Lemma stoul_dec n r : 0 <= n < 2 ^ 64 -> stops r -> stoul (dec n ++ r) = Ok n.
Proof.
  intros H ST. destruct (scan_dec n r ltac:(lia) ST) as [E1 E2]. unfold stoul. rewrite E1, E2. cbn [negb].
  destruct (Z.leb_spec (2 ^ 64) n); [lia|reflexivity].
Qed.
Lemma app_nil_s a : a ++ "" = a.
Proof. induction a as [|d a IH]; cbn [append]; [reflexivity|]. now rewrite IH. Qed.
Lemma stoll_dec n : - 2 ^ 63 <= n < 2 ^ 63 -> stoll (dec n) = Ok n.
Proof.
  intros H. destruct (Z.ltb_spec n 0) as [L|L].
  - unfold stoll. unfold dec. rewrite (proj2 (Z.ltb_lt n 0) L). pose proof (fuel_ok (- n) ltac:(lia)) as F.
    match goal with |- context [sign (skip_space (String "-" ?x))] => change (sign (skip_space (String "-" x))) with (true, x) end.
    cbv beta iota. rewrite read_digits by lia. cbn [read negb]. rewrite Z.opp_involutive.
    destruct (Z.ltb_spec n (- 2 ^ 63)); [lia|]. destruct (Z.leb_spec (2 ^ 63) n); [lia|]. reflexivity.
  - destruct (scan_dec n "" L I) as [E1 E2]. rewrite app_nil_s in E1, E2. unfold stoll. rewrite E1, E2. cbn [negb].
    destruct (Z.ltb_spec n (- 2 ^ 63)); [lia|]. destruct (Z.leb_spec (2 ^ 63) n); [lia|]. reflexivity.
Qed.
Lemma has_digits c fuel : (forall d, 0 <= d < 10 -> Ascii.eqb c (digit d) = false) -> forall n acc, 0 <= n < 10 ^ Z.of_nat (S fuel) -> has c (digits fuel n acc) = has c acc.
Proof.
  intros D. induction fuel as [|f IH]; intros n acc H; cbn [digits].
  - change (10 ^ Z.of_nat 1) with 10 in H. cbn [has]. now rewrite D by lia.
  - destruct (Z.ltb_spec n 10); [cbn [has]; now rewrite D by lia|].
    rewrite (Nat2Z.inj_succ (S f)), Z.pow_succ_r in H by lia.
    rewrite IH by (split; [apply Z.div_pos; lia|apply Z.div_lt_upper_bound; lia]). cbn [has]. now rewrite D by (apply Z.mod_pos_bound; lia).
Qed.
Lemma has_dec c n : (forall d, 0 <= d < 10 -> Ascii.eqb c (digit d) = false) -> Ascii.eqb c "-" = false -> has c (dec n) = false.
Proof.
  intros D M. unfold dec. destruct (Z.ltb_spec n 0); [cbn [has]; rewrite M; cbn [orb]|]; (rewrite has_digits; [reflexivity|exact D|]).
  - split; [lia|apply fuel_ok; lia].
  - split; [lia|now apply fuel_ok].
Qed.
Lemma comma_dec n : has "," (dec n) = false.
Proof. apply has_dec; [|reflexivity]. intros d H. digit_cases H; reflexivity. Qed.
Lemma less_dec n : has "<" (dec n) = false.
Proof. apply has_dec; [|reflexivity]. intros d H. digit_cases H; reflexivity. Qed.

(* ---- names ---- *)
Lemma fcast_name f : fcast (fname f) = Ok f. Proof. destruct f; reflexivity. Qed.
Lemma pcast_name p : pcast (pname p) = Ok p. Proof. destruct p; reflexivity. Qed.
Lemma comma_f f : has "," (fname f) = false. Proof. destruct f; reflexivity. Qed.
Lemma comma_p p : has "," (pname p) = false. Proof. destruct p; reflexivity. Qed.
Lemma less_id c : has "<" (id c) = false. Proof. destruct c; reflexivity. Qed.

Lemma find_app {A} (f : A -> bool) l l' : find f (l ++ l')%list = match find f l with Some x => Some x | None => find f l' end.
Proof. induction l as [|x l IH]; cbn [app find]; [reflexivity|]. destruct (f x); [reflexivity|exact IH]. Qed.
Lemma find_one c p : c <> AbyO ->
  find (fun d => String.eqb (id d) (id c)) (rev (types_of p)) = if in_dec (fun a b : cls => ltac:(decide equality)) c (types_of p) then Some c else None.
Proof. intros H. destruct c, p; try reflexivity; now destruct H. Qed.
Lemma find_all c ps : c <> AbyO -> forall p, In p ps -> In c (types_of p) ->
  find (fun d => String.eqb (id d) (id c)) (rev (flat_map types_of ps)) = Some c.
Proof.
  intros NO. induction ps as [|q ps IH]; intros p HI HC; [destruct HI|]. cbn [flat_map]. rewrite rev_app_distr, find_app.
  assert (D : {In c (flat_map types_of ps)} + {~ In c (flat_map types_of ps)}) by (apply in_dec; decide equality).
  destruct D as [D|D].
  - apply in_flat_map in D as (p' & H1 & H2). now rewrite (IH p' H1 H2).
  - destruct HI as [->|HI]; [|destruct D; apply in_flat_map; eauto].
    destruct (find _ (rev (flat_map types_of ps))) as [c'|] eqn:F.
    + exfalso. clear IH. apply find_some in F as [F1 F2]. apply in_rev in F1. apply in_flat_map in F1 as (p' & P1 & P2).
      apply String.eqb_eq in F2. apply D. apply in_flat_map. exists p'. split; [exact P1|].
      destruct c, c'; try discriminate F2; try exact P2; try (now destruct NO). destruct p'; cbn in P2 |- *; intuition discriminate.
    + rewrite find_one by exact NO. destruct (in_dec _ _ _); [reflexivity|contradiction].
Qed.
Definition base_cls (c : cls) : bool := match c with CVoid | CPt | CRing | CGfmp => true | _ => false end.
Lemma creator_ok ps c : c <> AbyO -> base_cls c = true \/ (exists p, In p ps /\ In c (types_of p)) -> creator ps (id c) = Ok c.
Proof.
  intros NO H. unfold creator, registry. rewrite rev_app_distr, find_app. destruct H as [H|(p & H1 & H2)].
  - destruct (find _ (rev (flat_map types_of ps))) as [c'|] eqn:F.
    + apply find_some in F as [F1 F2]. apply in_rev in F1. apply in_flat_map in F1 as (p & _ & F1). apply String.eqb_eq in F2.
      exfalso. destruct c; try discriminate H; destruct c'; try discriminate F2; destruct p; cbn in F1; intuition discriminate.
    + destruct c; try discriminate H; reflexivity.
  - now rewrite (find_all c ps NO p H1 H2).
Qed.

(* what the constructors take: size_t and int64_t arguments *)
Definition args_ok (m : make) : Prop :=
  match m with
  | MPriv _ o => - 2 ^ 63 <= o < 2 ^ 63
  | MB _ _ (Some n) | MAbyB _ n | MSpdzB _ n _ => 0 <= n
  | _ => True
  end.
Lemma construct_bits m t : args_ok m -> construct m = Ok t -> 0 <= nbits t < 2 ^ 64.
Proof.
  assert (B : forall s f, fsize f = Ok s -> 0 < s <= 16) by (intros s [] E; inversion E; subst; lia).
  assert (P : forall p, 0 <= psize p <= 16) by (intros []; cbn; lia).
  intros A C. destruct m as [|p|c f|f|f o|c f n|p n|p n f|f m|c]; cbn [construct] in C.
  - injection C as <-. cbn. lia.
  - injection C as <-. cbn. lia.
  - destruct c; try discriminate C; injection C as <-; cbn; lia.
  - destruct (mersenne f); [|discriminate C|discriminate C]. injection C as <-. cbn. lia.
  - injection C as <-. cbn. lia.
  - destruct c; try discriminate C; (destruct (fsize f) as [s| |] eqn:E; [|discriminate C|discriminate C]); cbn [rbind] in C;
      specialize (B s f E); destruct n as [n|]; cbn [args_ok] in A;
      (match type of C with context [?x <=? ?y] => destruct (Z.leb_spec x y); [|discriminate C] end); injection C as <-; cbn [nbits set_nbits]; lia.
  - specialize (P p). destruct (Z.leb_spec n (psize p * 8)); [|discriminate C]. injection C as <-. cbn [nbits set_nbits args_ok] in *. lia.
  - specialize (P p). destruct (Z.leb_spec n (psize p * 8)); [|discriminate C]. destruct (fsize f); [|discriminate C|discriminate C]. injection C as <-.
    cbn [nbits set_nbits set_k set_field args_ok] in *. lia.
  - injection C as <-. cbn. lia.
  - destruct c; try discriminate C; injection C as <-; cbn; lia.
Qed.

(* the detail of a constructed type parses to the type, up to what is not printed *)
Definition printed (t : ty) : ty := set_k (set_mac t false) 0.
Lemma detail_ok m t : args_ok m -> construct m = Ok t -> read_detail (tcls t) (detail t) = Ok (printed t).
Proof.
  intros A C. pose proof (construct_bits m t A C) as NB. destruct m as [|p|c f|f|f o|c f n|p n|p n f|f m|c]; cbn [construct args_ok] in *.
  - injection C as <-. reflexivity.
  - injection C as <-. cbn -[pcast pname]. rewrite pcast_name. reflexivity.
  - destruct c; try discriminate C; injection C as <-; cbn -[fcast fname]; rewrite fcast_name; reflexivity.
  - destruct f; try discriminate C; injection C as <-; vm_compute; reflexivity.
  - injection C as <-. unfold detail, read_detail. cbn [tcls set_owner set_field blank tfield owner].
    change ("," ++ dec o) with (String "," (dec o)). rewrite before_app, after_app by apply comma_f. rewrite fcast_name, stoll_dec by exact A. reflexivity.
  - assert (E : exists nb, t = set_nbits (set_field (blank c) f) nb).
    { destruct c; try discriminate C; (destruct (fsize f); [|discriminate C|discriminate C]); cbn [rbind] in C;
      (match type of C with context [?x <=? ?y] => destruct (x <=? y); [|discriminate C] end); injection C as <-; eauto. }
    destruct E as [nb ->]. cbn [nbits set_nbits] in NB.
    assert (G : forall s, s = fname f ++ "," ++ dec nb -> rbind (fcast (before s (find_first "," s))) (fun f => rbind (stoul (after s (find_first "," s))) (fun n => Ok (set_nbits (set_field (blank c) f) n))) = Ok (set_nbits (set_field (blank c) f) nb)).
    { intros s ->. change ("," ++ dec nb) with (String "," (dec nb)). rewrite before_app, after_app by apply comma_f.
      rewrite fcast_name. cbn [rbind]. rewrite <- (app_nil_s (dec nb)), stoul_dec by (try exact I; lia). reflexivity. }
    destruct c; try discriminate C; exact (G _ eq_refl).
  - destruct (n <=? psize p * 8); [|discriminate C]. injection C as <-. cbn [nbits set_nbits] in NB.
    unfold detail, read_detail. cbn [tcls set_nbits set_pt blank tpt nbits].
    change ("," ++ dec n) with (String "," (dec n)). rewrite before_app, after_app by apply comma_p.
    rewrite pcast_name. cbn [rbind]. rewrite <- (app_nil_s (dec n)), stoul_dec by (try exact I; lia). reflexivity.
  - destruct (n <=? psize p * 8); [|discriminate C]. destruct (fsize f) as [sz| |]; [|discriminate C|discriminate C]. injection C as <-.
    cbn [nbits set_nbits set_k set_field] in NB. unfold detail, read_detail. cbn [tcls set_nbits set_pt set_k set_field blank tpt nbits tfield].
    change ("," ++ dec n ++ "," ++ fname f) with (String "," (dec n ++ String "," (fname f))).
    set (s := pname p ++ String "," (dec n ++ String "," (fname f))).
    assert (L : find_last "," s = Some (String.length (pname p ++ String "," (dec n)))).
    { unfold s. replace (pname p ++ String "," (dec n ++ String "," (fname f))) with ((pname p ++ String "," (dec n)) ++ String "," (fname f)) by (now rewrite app_assoc_s).
      apply find_last_app, comma_f. }
    unfold s in *. rewrite before_app by apply comma_p. rewrite pcast_name. cbn [rbind]. rewrite L. cbn [after_cnt].
    rewrite after_app by apply comma_p. rewrite substring_more by (rewrite len_app; cbn [String.length]; lia).
    rewrite stoul_dec; [|lia|].
    2:{ rewrite len_app. cbn [String.length].
        replace (String.length (pname p) + S (String.length (dec n)) - String.length (dec n))%nat with (S (String.length (pname p))) by lia. reflexivity. }
    cbn [rbind].
    replace (pname p ++ String "," (dec n ++ String "," (fname f))) with ((pname p ++ String "," (dec n)) ++ String "," (fname f)) by (now rewrite app_assoc_s).
    rewrite after_at, fcast_name. reflexivity.
  - injection C as <-. cbn -[fcast fname]. rewrite fcast_name. reflexivity.
  - destruct c; try discriminate C; injection C as <-; reflexivity.
Qed.
Lemma string_ok ps t z : creator ps (id (tcls t)) = Ok (tcls t) -> read_detail (tcls t) (detail t) = Ok (printed t) ->
  tsize (printed t) = Ok z -> from_string ps (to_string t) = Ok (printed t).
Proof.
  intros CR RD TS. unfold from_string, to_string. change ("<" ++ detail t ++ ">") with (String "<" (detail t ++ String ">" "")).
  rewrite before_app, after_app by apply less_id. rewrite last_char_app, drop_last. cbn [Ascii.eqb negb].
  change (Ascii.eqb ">" ">") with true. cbn [negb]. rewrite CR. cbn [rbind]. rewrite RD. cbn [rbind]. rewrite TS. cbn [rbind].
  destruct (tcls t); reflexivity.
Qed.

(* ---- the theorem ---- *)
Definition registered (ps : list proto) (c : cls) : Prop := base_cls c = true \/ exists p, In p ps /\ In c (types_of p).
Lemma printed_id m t : construct m = Ok t -> tcls t <> SpdzB -> mac t = false -> printed t = t.
Proof.
  intros C NB MC. assert (K : kbits t = 0).
  { destruct m as [|p|c f|f|f o|c f n|p n|p n f|f m|c]; cbn [construct] in C.
    - now injection C as <-.
    - now injection C as <-.
    - destruct c; try discriminate C; now injection C as <-.
    - destruct (mersenne f); [|discriminate C|discriminate C]. now injection C as <-.
    - now injection C as <-.
    - destruct c; try discriminate C; (destruct (fsize f); [|discriminate C|discriminate C]); cbn [rbind] in C;
      (match type of C with context [?x <=? ?y] => destruct (x <=? y); [|discriminate C] end); now injection C as <-.
    - destruct (n <=? psize p * 8); [|discriminate C]. now injection C as <-.
    - destruct (n <=? psize p * 8); [|discriminate C]. destruct (fsize f); [|discriminate C|discriminate C]. injection C as <-. now destruct NB.
    - now injection C as <-.
    - destruct c; try discriminate C; now injection C as <-. }
  destruct t; cbn in *. subst. reflexivity.
Qed.
Theorem round_trip ps m t z : args_ok m -> construct m = Ok t -> tsize t = Ok z -> registered ps (tcls t) ->
  tcls t <> AbyO -> tcls t <> SpdzB -> mac t = false -> from_string ps (to_string t) = Ok t.
Proof.
  intros A C SZ R NO NB MC. pose proof (printed_id m t C NB MC) as E. rewrite <- E at 2. apply (string_ok ps t z).
  - now apply creator_ok.
  - eapply detail_ok; eauto.
  - now rewrite E.
Qed.
Lemma eqb_refl t : ty_eqb t t = true.
Proof.
  assert (F : forall f, field_eqb f f = true) by (intros []; reflexivity). assert (P : forall p, pt_eqb p p = true) by (intros; apply String.eqb_refl).
  unfold ty_eqb. rewrite String.eqb_refl. unfold equals. destruct (tcls t); rewrite ?F, ?P, ?Z.eqb_refl; reflexivity.
Qed.
(* every constructed type: the parsed type compares equal, has the same class except for OShr, and the printed attributes *)
Theorem round_trip_equal ps m t z : args_ok m -> construct m = Ok t -> tsize t = Ok z -> registered ps (tcls t) -> tcls t <> AbyO ->
  exists t', from_string ps (to_string t) = Ok t' /\ ty_eqb t' t = true /\ tvisibility t' = tvisibility t.
Proof.
  intros A C SZ R NO. exists (printed t).
  assert (SZ' : exists z', tsize (printed t) = Ok z').
  { unfold tsize in *. cbn [tcls printed set_k set_mac tfield tpt]. destruct (tcls t); try (exists z; exact SZ). destruct (fsize (tfield t)); [eexists; reflexivity|discriminate SZ|discriminate SZ]. }
  destruct SZ' as [z' SZ']. split; [apply (string_ok ps t z'); [now apply creator_ok|eapply detail_ok; eauto|exact SZ']|].
  split; [|reflexivity]. rewrite <- (eqb_refl t). reflexivity.
Qed.
(* ---- any string ---- *)
Lemma ub_bind {A B} (r : res A) (f : A -> res B) : r <> Ub -> (forall a, f a <> Ub) -> rbind r f <> Ub.
Proof. destruct r; cbn [rbind]; auto; discriminate. Qed.
Lemma ub_pcast s : pcast s <> Ub. Proof. unfold pcast. destruct (find _ _); discriminate. Qed.
Lemma ub_fcast s : fcast s <> Ub. Proof. unfold fcast. destruct (find _ _); discriminate. Qed.
Lemma ub_stoul s : stoul s <> Ub.
Proof. unfold stoul. destruct (sign _) as [b r]. destruct (read r 0 false) as [v n]. destruct (negb n); [discriminate|]. destruct (2 ^ 64 <=? v); discriminate. Qed.
Lemma ub_stoll s : stoll s <> Ub.
Proof. unfold stoll. destruct (sign _) as [b r]. destruct (read r 0 false) as [v n]. destruct (negb n); [discriminate|]. cbv zeta. destruct (_ || _); discriminate. Qed.
Lemma ub_fsize f : fsize f <> Ub. Proof. destruct f; discriminate. Qed.
Lemma ub_tsize t : tsize t <> Ub.
Proof.
  unfold tsize. pose proof (ub_fsize (tfield t)) as F. assert (G : match tfield t with FT_INVALID => Ok 0 | f => fsize f end <> Ub) by (destruct (tfield t); discriminate).
  destruct (tcls t); try assumption; try discriminate; (apply ub_bind; [assumption|discriminate]).
Qed.
Lemma ub_detail c s : c <> CGfmp -> read_detail c s <> Ub.
Proof.
  intros H. unfold read_detail. destruct c; try (now destruct H);
    repeat (apply ub_bind; [first [apply ub_pcast|apply ub_fcast|apply ub_stoul|apply ub_stoll]|intros ?]); try discriminate. destruct s; discriminate.
Qed.
Lemma before_spec c s a : before s (find_first c s) = a -> (exists r, s = a ++ String c r) \/ s = a.
Proof.
  revert a. induction s as [|d s IH]; intros a E; [right; exact E|]. cbn [find_first] in E. destruct (Ascii.eqb_spec c d) as [<-|N].
  - cbn [before] in E. left. exists s. cbn in E. now subst a.
  - destruct (find_first c s) as [i|]; cbn [option_map before] in E; [|now right]. cbn [substring] in E. subst a.
    destruct (IH _ eq_refl) as [[r Hr]|Hr]; cbn [before] in Hr.
    + left. exists r. cbn [append]. now rewrite <- Hr.
    + right. now rewrite <- Hr.
Qed.
Theorem total ps s : (forall r, s <> "Gfmp<" ++ r) -> from_string ps s <> Ub.
Proof.
  intros H. unfold from_string. destruct (before s (find_first "<" s)) as [|k kw] eqn:E; [discriminate|].
  destruct (last_char (after s (find_first "<" s))) as [c|] eqn:LC; [|discriminate]. destruct (negb (Ascii.eqb c ">")) eqn:N; [discriminate|].
  unfold creator. destruct (find _ _) as [cl|] eqn:F; [|discriminate]. cbn [rbind]. apply find_some in F as [_ F]. apply String.eqb_eq in F.
  assert (NG : cl <> CGfmp).
  { intros ->. cbn [id] in F. rewrite <- F in E. destruct (before_spec _ _ _ E) as [[r Hr]|Hr].
    - apply (H r). exact Hr.
    - subst s. cbn in LC. injection LC as <-. discriminate N. }
  apply ub_bind; [now apply ub_detail|]. intros t. apply ub_bind; [apply ub_tsize|discriminate].
Qed.
