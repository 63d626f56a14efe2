(* Groups of mergeable keys. *)
From Coq Require Import ZifyBool ZifyNat ZifyN.
From Verif Require Import Base Perm_model Perm_spec Radix_model Radix_spec Pv_model Pv_spec.
Open Scope nat_scope.

Fixpoint ends_from {A} (b : nat) (G : list (list A)) : list nat := match G with [] => [] | g :: r => (b + length g) :: ends_from (b + length g) r end.
Lemma cut_ends {A} (G : list (list A)) : forall b, cut b (ends_from b G) (concat G) = G.
Proof.
  induction G as [|g G IH]; intros b; [reflexivity|]. cbn [ends_from cut concat]. replace (b + length g - b) with (length g) by lia.
  rewrite firstn_app, firstn_all, Nat.sub_diag. cbn [firstn]. rewrite app_nil_r. f_equal. rewrite skipn_app, skipn_all, Nat.sub_diag. cbn [skipn app]. apply IH.
Qed.
Lemma cut_map {A B} (f : A -> B) es : forall b l, cut b es (map f l) = map (map f) (cut b es l).
Proof. induction es as [|e es IH]; intros b l; [reflexivity|]. cbn [cut map]. rewrite firstn_map, skipn_map, IH. reflexivity. Qed.

Definition state (next : vis) (pre : option nat) (g : list vis) (G : list (list vis)) : Prop :=
  (exists gt, g = next :: gt) /\
  match next with
  | Sec => g = [Sec] /\ pre = None
  | _ => exists o, Forall (fun v => v = Pub \/ v = Priv o) g /\
      (pre = Some o \/ (pre = None /\ (Forall (fun v => v = Pub) g \/ exists m b, g = repeat Pub m ++ [Priv o] /\ concat G = Sec :: b)))
  end.
Lemma state_good next pre g G : state next pre g G -> one_group g.
Proof.
  intros [[gt E] S]. destruct next.
  - destruct S as [o [F _]]. right. split; [now rewrite E|]. exists o. exact F.
  - destruct S as [o [F _]]. right. split; [now rewrite E|]. exists o. exact F.
  - left. apply S.
Qed.
Lemma mergeable_loop_ok below : forall next pre g G, state next pre g G -> Forall one_group G -> owners_ok (rev below ++ g ++ concat G) ->
  exists G', rev (mergeable_loop below next pre (length below)) ++ ends_from (length below) (g :: G) = ends_from 0 G' /\ concat G' = rev below ++ g ++ concat G /\ Forall one_group G'.
Proof.
  induction below as [|cur below IH]; intros next pre g G S0 FG OK.
  { exists (g :: G). split; [reflexivity|]. split; [reflexivity|]. constructor; [eapply state_good; eauto|exact FG]. }
  assert (SPLIT : forall p, state cur p [cur] (g :: G) -> exists G', rev (length (cur :: below) :: mergeable_loop below cur p (length (cur :: below) - 1)) ++ ends_from (length (cur :: below)) (g :: G) = ends_from 0 G' /\ concat G' = rev (cur :: below) ++ g ++ concat G /\ Forall one_group G').
  { intros p S'. cbn [length]. replace (S (length below) - 1) with (length below) by lia.
    destruct (IH cur p [cur] (g :: G) S') as [G' [E1 [E2 E3]]].
    - constructor; [eapply state_good; eauto|exact FG].
    - cbn [concat app rev] in *. rewrite <- app_assoc in OK. exact OK.
    - exists G'. split; [|split; [rewrite E2; cbn [rev concat app]; now rewrite <- app_assoc|exact E3]]. rewrite <- E1. cbn [rev]. rewrite <- app_assoc. f_equal. cbn [ends_from app length]. f_equal; [lia|]. f_equal; [lia|]. f_equal. lia. }
  assert (JOIN : forall p, state cur p (cur :: g) G -> exists G', rev (mergeable_loop below cur p (length (cur :: below) - 1)) ++ ends_from (length (cur :: below)) (g :: G) = ends_from 0 G' /\ concat G' = rev (cur :: below) ++ g ++ concat G /\ Forall one_group G').
  { intros p S'. cbn [length]. replace (S (length below) - 1) with (length below) by lia.
    destruct (IH cur p (cur :: g) G S' FG) as [G' [E1 [E2 E3]]].
    - cbn [app rev] in *. rewrite <- app_assoc in OK. exact OK.
    - exists G'. split; [|split; [rewrite E2; cbn [rev app]; now rewrite <- app_assoc|exact E3]]. rewrite <- E1. f_equal. cbn [ends_from length]. f_equal; [lia|]. f_equal. lia. }
  clear IH. cbn [mergeable_loop]. destruct S0 as [[gt E] S0]. destruct next.
  - destruct S0 as [o [F S0]]. destruct cur as [|c|].
    + apply JOIN. split; [now exists g|]. exists o. split; [constructor; auto|]. destruct S0 as [S0|[S1 [S2|[m [b [S2 S3]]]]]]; [auto| |].
      * right. split; [exact S1|]. left. constructor; auto.
      * right. split; [exact S1|]. right. exists (Datatypes.S m), b. split; [cbn; now rewrite S2|exact S3].
    + destruct pre as [p|].
      * destruct S0 as [S0|[S0 _]]; [|discriminate]. injection S0 as ->. destruct (Nat.eqb_spec o c) as [Q|Q].
        -- subst. apply JOIN. split; [now eexists|]. exists c. split; [constructor; auto|]. now left.
        -- apply SPLIT. split; [now eexists|]. exists c. split; [constructor; auto|]. now left.
      * destruct S0 as [S0|[_ S0]]; [discriminate|]. apply JOIN. split; [now eexists|]. exists c. split; [|now left]. constructor; [now right|].
        destruct S0 as [S0|[m [b [S1 S2]]]]; [eapply Forall_impl; [|exact S0]; cbn; auto|].
        assert (c = o) as ->; [|exact F]. apply (OK (rev below) c m o b). rewrite S1, S2. cbn [rev]. rewrite <- !app_assoc. reflexivity.
    + apply SPLIT. split; [now eexists|]. now split.
  - destruct S0 as [o [F S0]]. destruct cur as [|c|].
    + apply JOIN. split; [now exists g|]. exists o. split; [constructor; auto|]. destruct S0 as [S0|[S1 [S2|[m [b [S2 S3]]]]]]; [auto| |].
      * right. split; [exact S1|]. left. constructor; auto.
      * right. split; [exact S1|]. right. exists (Datatypes.S m), b. split; [cbn; now rewrite S2|exact S3].
    + destruct pre as [p|].
      * destruct S0 as [S0|[S0 _]]; [|discriminate]. injection S0 as ->. destruct (Nat.eqb_spec o c) as [Q|Q].
        -- subst. apply JOIN. split; [now eexists|]. exists c. split; [constructor; auto|]. now left.
        -- apply SPLIT. split; [now eexists|]. exists c. split; [constructor; auto|]. now left.
      * destruct S0 as [S0|[_ S0]]; [discriminate|]. apply JOIN. split; [now eexists|]. exists c. split; [|now left]. constructor; [now right|].
        destruct S0 as [S0|[m [b [S1 S2]]]]; [eapply Forall_impl; [|exact S0]; cbn; auto|].
        assert (c = o) as ->; [|exact F]. apply (OK (rev below) c m o b). rewrite S1, S2. cbn [rev]. rewrite <- !app_assoc. reflexivity.
    + apply SPLIT. split; [now eexists|]. now split.
  - destruct S0 as [-> ->]. apply SPLIT. split; [now eexists|]. destruct cur as [|c|].
    + exists 0. split; [constructor; auto|]. right. split; [reflexivity|]. left. now constructor.
    + exists c. split; [constructor; auto|]. right. split; [reflexivity|]. right. exists 0, (concat G). split; reflexivity.
    + now split.
Qed.
Theorem find_mergeable_ok keys : keys <> [] -> owners_ok keys -> exists ends, find_mergeable_keys keys = Ok ends /\ concat (cut 0 ends keys) = keys /\ Forall one_group (cut 0 ends keys).
Proof.
  intros NE OK. unfold find_mergeable_keys. destruct (rev keys) as [|last below] eqn:E; [apply (f_equal (@rev _)) in E; rewrite rev_involutive in E; easy|].
  assert (EK : keys = rev below ++ [last]) by (rewrite <- (rev_involutive keys), E; reflexivity).
  assert (L : length keys - 1 = length below) by (rewrite EK, app_length, rev_length; cbn; lia).
  assert (LK : length keys = S (length below)) by (rewrite EK, app_length, rev_length; cbn; lia).
  destruct (mergeable_loop_ok below last (match last with Priv o => Some o | _ => None end) [last] []) as [G [E1 [E2 E3]]].
  - split; [now eexists|]. destruct last as [|o|]; [exists 0|exists o|now split]; (split; [constructor; auto|]); [right|left]; auto.
  - constructor.
  - cbn [concat]. rewrite app_nil_r, <- EK. exact OK.
  - eexists. split; [reflexivity|]. cbn [rev]. cbn [concat] in E2. rewrite app_nil_r, <- EK in E2. rewrite L.
    replace (rev _ ++ [length keys]) with (ends_from 0 G); [|rewrite <- E1; f_equal; cbn; f_equal; lia]. rewrite <- E2, cut_ends. auto.
Qed.
