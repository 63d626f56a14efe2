(* Dispatch preserves plaintexts. *)
From Verif Require Import Base Ring_model Ring_spec Ring_proof Semi_model Semi_proof Party Circ_proof Perm_proof Disp_model Disp_spec.
Open Scope Z_scope.

Section Proof.
Context {md : Mode} {HS : Shifts}.
Variable k : Z.
Hypothesis K1 : 1 < k.
Variable n : nat.
Variable pr : proto.
Variable isA : ash pr -> Z -> Prop.
Variable isB : bsh pr -> Z -> Prop.
Hypothesis HO : proto_ok k n pr isA isB.
Hypothesis wordA : forall a x, isA a x -> word k x.
Variable others : nat -> Z.
Hypothesis OT : forall t, 0 <= others t <= k.
Notation val := (val pr).
Notation holds := (holds k n pr isA isB).

(* ---- a small weakest-precondition calculus ---- *)
Definition wp {X} (m : M X) (Q : X -> Prop) : Prop := forall t, outcome (m t) (fun r => Q (fst r)).
Lemma wp_bind {X Y} (m : M X) (f : X -> M Y) Q : wp m (fun x => wp (f x) Q) -> wp (bind m f) Q.
Proof. intros H t. specialize (H t). unfold bind. destruct (m t) as [[x t1]| |]; cbn [rbind]; [exact (H t1)|exact H|exact H]. Qed.
Lemma wp_ret {X} (x : X) (Q : X -> Prop) : Q x -> wp (ret x) Q.
Proof. intros q t. exact q. Qed.
Lemma outcome_mono {X} (r : res X) (P Q : X -> Prop) : outcome r P -> (forall x, P x -> Q x) -> outcome r Q.
Proof. intros H I. destruct r; cbn in *; auto. Qed.
Lemma outcome_ok {X} (x : X) (Q : X -> Prop) : Q x -> outcome (Ok x) Q.
Proof using. clear. easy. Qed.
Lemma ok_gives {S} (is : S -> Z -> Prop) r s a : r = Ok s -> is s a -> gives is r a.
Proof using. clear. intros -> H. exact H. Qed.
Lemma wp_mono {X} (m : M X) (P Q : X -> Prop) : wp m P -> (forall x, P x -> Q x) -> wp m Q.
Proof. intros H I t. eapply outcome_mono; [exact (H t)|]. cbv beta. auto. Qed.
Lemma wp_call {X} (f : nat -> res X) (Q : X -> Prop) : (forall t, outcome (f t) Q) -> wp (call f) Q.
Proof. intros H t. specialize (H t). unfold call. destruct (f t) as [x| |]; exact H. Qed.
Lemma wp_bop {X} (f : nat -> res X) (c : X -> val) (Q : val -> Prop) : (forall t, outcome (f t) (fun x => Q (c x))) -> wp (bop pr f c) Q.
Proof. intros H. unfold bop. apply wp_bind. apply wp_call. intros t. eapply outcome_mono; [exact (H t)|]. intros x q. now apply wp_ret. Qed.

Lemma word_wrap' x : word k (wrap k x). Proof using K1. clear - K1. apply word_wrap. lia. Qed.
Lemma wordB b x : isB b x -> word k x.
Proof.
  intros H. destruct (ok_word _ _ _ _ _ HO b x H) as (A & B). split; [lia|].
  apply Z.lt_le_trans with (2 ^ k_nb pr b); [lia|]. apply Z.pow_le_mono_r; lia.
Qed.
Lemma pwidth_ok t p : word k p -> 0 <= pwidth others t p <= k /\ p < 2 ^ pwidth others t p.
Proof using K1 OT. clear - K1 OT.
  intros W. pose proof (OT t). unfold pwidth.
  assert (B : 0 <= bitwidth p <= k /\ p < 2 ^ bitwidth p).
  { unfold bitwidth. destruct (Z.eqb_spec p 0) as [->|N]; [split; [lia|reflexivity]|]. destruct W as [W1 W2].
    pose proof (Z.log2_spec p ltac:(lia)) as L. pose proof (Z.log2_nonneg p).
    assert (Z.log2 p < k) by (apply Z.log2_lt_pow2; lia). split; [lia|]. lia. }
  destruct B as (B1 & B2). split; [lia|]. apply Z.lt_le_trans with (2 ^ bitwidth p); [exact B2|]. apply Z.pow_le_mono_r; lia.
Qed.

(* ---- conversions ---- *)
Definition secret (x : val) : Prop := match x with VA _ | VB _ => True | _ => False end.
Lemma to_a_ok x a : holds x a -> secret x -> wp (to_a pr x) (fun s => isA s a).
Proof.
  intros [W H] S0. destruct x as [p|o f|s|s]; try exact (False_ind _ S0).
  - apply wp_ret. exact H.
  - apply wp_call. intros t. apply (ok_b2a _ _ _ _ _ HO). exact H.
Qed.
Lemma to_b_ok x a : holds x a -> secret x -> wp (to_b pr x) (fun s => isB s a).
Proof.
  intros [W H] S0. destruct x as [p|o f|s|s]; try exact (False_ind _ S0).
  - apply wp_call. intros t. apply (ok_a2b _ _ _ _ _ HO). exact H.
  - apply wp_ret. exact H.
Qed.
Lemma v2s_ok o f a : holds (VV o f) a -> wp (v2s pr o f) (fun r => holds r a /\ secret r).
Proof.
  intros [W [O E]]. apply wp_bop. intros t. eapply outcome_mono; [apply (ok_v2a _ _ _ _ _ HO t o f O); rewrite E; exact W|].
  intros s H. cbv beta in H. split; [|exact I]. split; [exact W|]. rewrite <- E. exact H.
Qed.
Lemma bopA f a : (forall t, gives isA (f t) a) -> wp (bop pr f VA) (fun r => holds r a /\ secret r /\ exists s, r = VA s).
Proof.
  intros H. apply wp_bop. intros t. eapply outcome_mono; [exact (H t)|]. intros s q.
  split; [split; [eapply wordA; exact q|exact q]|]. split; [exact I|now exists s].
Qed.
Lemma bopB f a : (forall t, gives isB (f t) a) -> wp (bop pr f VB) (fun r => holds r a /\ secret r).
Proof.
  intros H. apply wp_bop. intros t. eapply outcome_mono; [exact (H t)|]. intros s q.
  split; [split; [eapply wordB; exact q|exact q]|exact I].
Qed.
Lemma bopA1 f a : (forall t, gives isA (f t) a) -> wp (bop pr f VA) (fun r => holds r a /\ secret r).
Proof. intros H. eapply wp_mono; [apply bopA; exact H|]. intros r (A & B & _). now split. Qed.

(* ---- secret operations ---- *)
Definition cs (m : M val) (a : Z) : Prop := wp m (fun r => holds r a /\ secret r).
Lemma add_ss_ok x y a b : holds x a -> holds y b -> secret x -> secret y ->
  wp (add_ss pr x y) (fun r => holds r (wrap k (a + b)) /\ secret r /\ exists s, r = VA s).
Proof.
  intros X Y SX SY. apply wp_bind. eapply wp_mono; [apply (to_a_ok x a X SX)|]. intros xa HA. apply wp_bind.
  eapply wp_mono; [apply (to_a_ok y b Y SY)|]. intros ya HB. apply bopA. intros t. now apply (ok_add_aa _ _ _ _ _ HO).
Qed.
Lemma add_ss_ok1 x y a b : holds x a -> holds y b -> secret x -> secret y -> cs (add_ss pr x y) (wrap k (a + b)).
Proof. intros. eapply wp_mono; [apply add_ss_ok; eassumption|]. intros r (A & B & _). now split. Qed.
Lemma one_bit b x : isB b x -> k_nb pr b = 1 -> 0 <= x <= 1.
Proof. intros H E. destruct (ok_word _ _ _ _ _ HO b x H) as (_ & B). rewrite E in B. change (2 ^ 1) with 2 in B. lia. Qed.
Lemma mul_ss_ok x y a b : holds x a -> holds y b -> secret x -> secret y -> cs (mul_ss pr x y) (wrap k (a * b)).
Proof.
  intros X Y SX SY.
  assert (G : cs (bind (to_a pr x) (fun xa => bind (to_a pr y) (fun ya => bop pr (fun t => k_mul_aa pr t xa ya) VA))) (wrap k (a * b))).
  { apply wp_bind. eapply wp_mono; [apply (to_a_ok x a X SX)|]. intros xa HA. apply wp_bind.
    eapply wp_mono; [apply (to_a_ok y b Y SY)|]. intros ya HB. apply bopA1. intros t. now apply (ok_mul_aa _ _ _ _ _ HO). }
  unfold mul_ss. destruct x as [p|o f|xa|xb]; try easy; destruct y as [q|o' g|ya|yb]; try easy.
  - destruct (k_mul_a1b pr) as [m|] eqn:E; [|exact G]. destruct (Z.eqb_spec (k_nb pr yb) 1) as [N|N]; [|exact G].
    apply bopA1. intros t. apply (ok_a1b _ _ _ _ _ HO m E); auto; [apply X|apply Y].
  - destruct (k_mul_a1b pr) as [m|] eqn:E; [|exact G]. destruct (Z.eqb_spec (k_nb pr xb) 1) as [N|N]; [|exact G].
    apply bopA1. intros t. rewrite Z.mul_comm. apply (ok_a1b _ _ _ _ _ HO m E); auto; [apply Y|apply X].
  - destruct (Z.eqb_spec (k_nb pr xb) 1) as [N|N]; [|exact G]. destruct (Z.eqb_spec (k_nb pr yb) 1) as [N'|N']; [|exact G].
    cbn [andb]. apply bopB. intros t. destruct X as [WX X], Y as [WY Y].
    pose proof (one_bit _ _ X N). pose proof (one_bit _ _ Y N').
    replace (wrap k (a * b)) with (Z.land a b); [now apply (ok_and_bb _ _ _ _ _ HO)|].
    assert (A : a = 0 \/ a = 1) by lia. assert (B : b = 0 \/ b = 1) by lia.
    assert (W01 : forall v, v = 0 \/ v = 1 -> wrap k v = v).
    { intros v V. apply wrap_small. assert (2 ^ 1 <= 2 ^ k) by (apply Z.pow_le_mono_r; lia). lia. }
    destruct A as [-> | ->]; destruct B as [-> | ->]; symmetry; apply W01; (left; reflexivity) || (right; reflexivity).
Qed.
Lemma and_ss_ok x y a b : holds x a -> holds y b -> secret x -> secret y -> cs (and_ss pr x y) (Z.land a b).
Proof.
  intros X Y SX SY. apply wp_bind. eapply wp_mono; [apply (to_b_ok x a X SX)|]. intros xa HA. apply wp_bind.
  eapply wp_mono; [apply (to_b_ok y b Y SY)|]. intros ya HB. apply bopB. intros t. now apply (ok_and_bb _ _ _ _ _ HO).
Qed.
Lemma xor_ss_ok x y a b : holds x a -> holds y b -> secret x -> secret y -> cs (xor_ss pr x y) (Z.lxor a b).
Proof.
  intros X Y SX SY. apply wp_bind. eapply wp_mono; [apply (to_b_ok x a X SX)|]. intros xa HA. apply wp_bind.
  eapply wp_mono; [apply (to_b_ok y b Y SY)|]. intros ya HB. apply bopB. intros t. now apply (ok_xor_bb _ _ _ _ _ HO).
Qed.
Lemma add_sp_ok x p a : holds x a -> word k p -> secret x -> cs (add_sp pr x p) (wrap k (a + p)).
Proof.
  intros X W SX. apply wp_bind. eapply wp_mono; [apply (to_a_ok x a X SX)|]. intros xa HA. apply bopA1. intros t. now apply (ok_add_ap _ _ _ _ _ HO).
Qed.
Lemma mul_sp_ok x p a : holds x a -> word k p -> secret x -> cs (mul_sp pr x p) (wrap k (a * p)).
Proof.
  intros X W SX. apply wp_bind. eapply wp_mono; [apply (to_a_ok x a X SX)|]. intros xa HA. apply bopA1. intros t. now apply (ok_mul_ap _ _ _ _ _ HO).
Qed.
Lemma and_sp_ok x p a : holds x a -> word k p -> secret x -> cs (and_sp pr others x p) (Z.land a p).
Proof.
  intros X W SX. apply wp_bind. eapply wp_mono; [apply (to_b_ok x a X SX)|]. intros xa HA. apply bopB. intros t.
  destruct (pwidth_ok t p W). now apply (ok_and_bp _ _ _ _ _ HO).
Qed.
Lemma xor_sp_ok x p a : holds x a -> word k p -> secret x -> cs (xor_sp pr others x p) (Z.lxor a p).
Proof.
  intros X W SX. apply wp_bind. eapply wp_mono; [apply (to_b_ok x a X SX)|]. intros xa HA. apply bopB. intros t.
  destruct (pwidth_ok t p W). now apply (ok_xor_bp _ _ _ _ _ HO).
Qed.
Lemma negate_s_ok x a : holds x a -> secret x -> cs (negate_s pr x) (wrap k (- a)).
Proof.
  intros X SX. apply wp_bind. eapply wp_mono; [apply (to_a_ok x a X SX)|]. intros xa HA. apply bopA1. intros t. now apply (ok_neg _ _ _ _ _ HO).
Qed.

(* ---- the commutative dispatch ---- *)
Section Comm.
Variable op : Z -> Z -> Z.
Variable ss : val -> val -> M val.
Variable sv : val -> nat -> (nat -> Z) -> M val.
Variable sp : val -> Z -> M val.
Variable vv : nat -> (nat -> Z) -> nat -> (nat -> Z) -> M val.
Hypothesis OC : forall a b, op a b = op b a.
Hypothesis OW : forall a b, word k a -> word k b -> word k (op a b).
Hypothesis SS : forall x y a b, holds x a -> holds y b -> secret x -> secret y -> cs (ss x y) (op a b).
Hypothesis SP : forall x p a, holds x a -> word k p -> secret x -> cs (sp x p) (op a p).
Hypothesis SV : forall x o f, sv x o f = bind (v2s pr o f) (fun y => ss x y).
Hypothesis VVo : forall o f g, vv o f o g = ret (v_bin pr op o f g).
Hypothesis VVd : forall o f o' g a b, o <> o' -> holds (VV o f) a -> holds (VV o' g) b -> cs (vv o f o' g) (op a b).
Lemma sv_ok x o f a b : holds x a -> secret x -> holds (VV o f) b -> cs (sv x o f) (op a b).
Proof.
  intros X SX F. rewrite SV. apply wp_bind. eapply wp_mono; [apply (v2s_ok o f b F)|]. intros y [Y SY]. now apply SS.
Qed.
Lemma v_bin_ok o f g a b : holds (VV o f) a -> g o = b -> word k b -> holds (v_bin pr op o f g) (op a b).
Proof.
  intros [W [O E]] G WB. split; [now apply OW|]. split; [exact O|]. cbn. rewrite Nat.eqb_refl, E, G. reflexivity.
Qed.
(* the result is secret as soon as one operand is, public when both are *)
Lemma commutative_ok x y a b : holds x a -> holds y b ->
  wp (commutative pr op ss sv sp vv x y) (fun r => holds r (op a b) /\
    ((secret x \/ secret y) -> secret r) /\
    (forall p q, x = VP p -> y = VP q -> exists s, r = VP s) /\
    (forall o f, x = VV o f -> ((exists q, y = VP q) \/ exists g, y = VV o g) -> exists h, r = VV o h) /\
    (forall o f, y = VV o f -> (exists q, x = VP q) -> exists h, r = VV o h)).
Proof.
  intros X Y. assert (WX : word k a) by apply X. assert (WY : word k b) by apply Y.
  assert (SEC : forall m c, (secret x \/ secret y) -> op a b = c -> cs m c -> wp m (fun r => holds r (op a b) /\
    ((secret x \/ secret y) -> secret r) /\ (forall p q, x = VP p -> y = VP q -> exists s, r = VP s) /\
    (forall o f, x = VV o f -> ((exists q, y = VP q) \/ exists g, y = VV o g) -> exists h, r = VV o h) /\
    (forall o f, y = VV o f -> (exists q, x = VP q) -> exists h, r = VV o h))).
  { intros m c S0 <- H. eapply wp_mono; [exact H|]. intros r [A B]. split; [exact A|]. split; [intros _; exact B|].
    split; [intros p q -> ->; destruct S0 as [[] | []]|]. split.
    - intros o f -> [[q ->] | [g ->]]; destruct S0 as [[] | []].
    - intros o f -> [q ->]. destruct S0 as [[] | []]. }
  destruct x as [p|o f|xa|xb]; destruct y as [q|o' g|ya|yb]; cbn [commutative].
  - apply wp_ret. destruct X as [_ <-], Y as [_ <-]. split; [split; [now apply OW|reflexivity]|].
    split; [intros [[] | []]|]. split; [intros; now eexists|]. split; intros; discriminate.
  - apply wp_ret. split; [rewrite OC; apply v_bin_ok; [exact Y| |]; destruct X as [_ <-]; auto|]. split; [intros [[] | []]|].
    split; [intros; discriminate|]. split; [intros; discriminate|]. intros o f [= -> ->] _. now eexists.
  - destruct X as [_ <-]. eapply (SEC _ (op b p)); [now right|apply OC|]. apply SP; auto. exact I.
  - destruct X as [_ <-]. eapply (SEC _ (op b p)); [now right|apply OC|]. apply SP; auto. exact I.
  - apply wp_ret. split; [apply v_bin_ok; [exact X| |]; destruct Y as [_ <-]; auto|]. split; [intros [[] | []]|].
    split; [intros; discriminate|]. split; [|intros; discriminate]. intros o1 f1 [= -> ->] _. now eexists.
  - destruct (Nat.eq_dec o o') as [->|N].
    + rewrite VVo. apply wp_ret. split; [apply v_bin_ok; [exact X|apply Y|exact WY]|]. split; [intros [[] | []]|].
      split; [intros; discriminate|]. split; [|intros ? ? ? [? ?]; discriminate]. intros o1 f1 [= -> ->] _. now eexists.
    + eapply wp_mono; [apply (VVd o f o' g a b N X Y)|]. intros r [A B]. split; [exact A|]. split; [intros _; exact B|].
      split; [intros; discriminate|]. split; [|intros ? ? ? [? ?]; discriminate].
      intros o1 f1 [= -> ->] [[? ?] | [? [= ? ?]]]; [discriminate|congruence].
  - eapply (SEC _ (op b a)); [now right|apply OC|]. apply sv_ok; auto. exact I.
  - eapply (SEC _ (op b a)); [now right|apply OC|]. apply sv_ok; auto. exact I.
  - destruct Y as [_ <-]. eapply (SEC _ (op a q)); [now left|reflexivity|]. apply SP; auto. exact I.
  - eapply (SEC _ (op a b)); [now left|reflexivity|]. apply sv_ok; auto. exact I.
  - eapply (SEC _ (op b a)); [now left|apply OC|]. apply SS; auto; exact I.
  - eapply (SEC _ (op b a)); [now left|apply OC|]. apply SS; auto; exact I.
  - destruct Y as [_ <-]. eapply (SEC _ (op a q)); [now left|reflexivity|]. apply SP; auto. exact I.
  - eapply (SEC _ (op a b)); [now left|reflexivity|]. apply sv_ok; auto. exact I.
  - eapply (SEC _ (op b a)); [now left|apply OC|]. apply SS; auto; exact I.
  - eapply (SEC _ (op b a)); [now left|apply OC|]. apply SS; auto; exact I.
Qed.
End Comm.

Lemma word_land a b : word k a -> word k b -> word k (Z.land a b).
Proof using K1. clear - K1.
  intros A B. split; [apply Z.land_nonneg; left; apply A|]. destruct (Z.eq_dec (Z.land a b) 0) as [->|N]; [apply pow2_pos; lia|].
  apply Z.log2_lt_cancel. rewrite Z.log2_pow2 by lia.
  pose proof (Z.log2_land a b ltac:(apply A) ltac:(apply B)) as L.
  destruct (Z.eq_dec a 0) as [->|Na]; [now rewrite Z.land_0_l in N|].
  assert (Z.log2 a < k) by (apply Z.log2_lt_pow2; [destruct A; lia|apply A]). lia.
Qed.
Lemma word_lxor a b : word k a -> word k b -> word k (Z.lxor a b).
Proof using K1. clear - K1.
  intros A B. split; [apply Z.lxor_nonneg; destruct A, B; lia|]. destruct (Z.eq_dec (Z.lxor a b) 0) as [->|N]; [apply pow2_pos; lia|].
  apply Z.log2_lt_cancel. rewrite Z.log2_pow2 by lia.
  pose proof (Z.log2_lxor a b ltac:(apply A) ltac:(apply B)) as L.
  assert (LA : forall c, word k c -> Z.log2 c < k).
  { intros c [C1 C2]. destruct (Z.eq_dec c 0) as [->|Nc]; [cbn; lia|]. apply Z.log2_lt_pow2; lia. }
  pose proof (LA a A). pose proof (LA b B). lia.
Qed.
Definition vis_info (x y r : val) : Prop :=
  ((secret x \/ secret y) -> secret r) /\
  (forall p q, x = VP p -> y = VP q -> exists s, r = VP s) /\
  (forall o f, x = VV o f -> ((exists q, y = VP q) \/ exists g, y = VV o g) -> exists h, r = VV o h) /\
  (forall o f, y = VV o f -> (exists q, x = VP q) -> exists h, r = VV o h).
Lemma hal_add_ok x y a b : holds x a -> holds y b -> wp (hal_add k pr x y) (fun r => holds r (wrap k (a + b)) /\ vis_info x y r).
Proof.
  intros X Y. refine (commutative_ok (radd k) (add_ss pr) (add_sv pr) (add_sp pr) (add_vv k pr) _ _ _ _ _ _ _ x y a b X Y).
  - intros u v. unfold radd. f_equal. ring.
  - intros u v _ _. apply word_wrap'.
  - intros. now apply add_ss_ok1.
  - intros. now apply add_sp_ok.
  - reflexivity.
  - intros o f g. unfold add_vv. rewrite Nat.eqb_refl. reflexivity.
  - intros o f o' g u v N F G. unfold add_vv. destruct (Nat.eqb_spec o o') as [|_]; [contradiction|].
    apply wp_bind. eapply wp_mono; [apply (v2s_ok o f u F)|]. intros p [P SP]. apply wp_bind.
    eapply wp_mono; [apply (v2s_ok o' g v G)|]. intros q [Q SQ]. now apply add_ss_ok1.
Qed.
Lemma hal_mul_ok x y a b : holds x a -> holds y b -> wp (hal_mul k pr x y) (fun r => holds r (wrap k (a * b)) /\ vis_info x y r).
Proof.
  intros X Y. refine (commutative_ok (rmul k) (mul_ss pr) (mul_sv pr) (mul_sp pr) (mul_vv k pr) _ _ _ _ _ _ _ x y a b X Y).
  - intros u v. unfold rmul. f_equal. ring.
  - intros u v _ _. apply word_wrap'.
  - intros. now apply mul_ss_ok.
  - intros. now apply mul_sp_ok.
  - reflexivity.
  - intros o f g. unfold mul_vv. rewrite Nat.eqb_refl. reflexivity.
  - intros o f o' g u v N F G. unfold mul_vv. destruct (Nat.eqb_spec o o') as [|_]; [contradiction|].
    destruct (k_mul_vvs pr) as [m|] eqn:E.
    + apply bopA1. intros t. destruct F as [WF [OF <-]], G as [WG [OG <-]]. now apply (ok_vvs _ _ _ _ _ HO m E).
    + apply wp_bind. eapply wp_mono; [apply (v2s_ok o f u F)|]. intros p [P SP]. apply wp_bind.
      eapply wp_mono; [apply (v2s_ok o' g v G)|]. intros q [Q SQ]. now apply mul_ss_ok.
Qed.
Lemma hal_and_ok x y a b : holds x a -> holds y b -> wp (hal_and pr others x y) (fun r => holds r (Z.land a b) /\ vis_info x y r).
Proof.
  intros X Y. refine (commutative_ok rand_ (and_ss pr) (and_sv pr) (and_sp pr others) (and_vv pr) _ _ _ _ _ _ _ x y a b X Y).
  - intros u v. apply Z.land_comm.
  - intros u v. apply word_land.
  - intros. now apply and_ss_ok.
  - intros. now apply and_sp_ok.
  - reflexivity.
  - intros o f g. unfold and_vv. rewrite Nat.eqb_refl. reflexivity.
  - intros o f o' g u v N F G. unfold and_vv. destruct (Nat.eqb_spec o o') as [|_]; [contradiction|].
    apply wp_bind. eapply wp_mono; [apply (v2s_ok o f u F)|]. intros p [P SP]. apply wp_bind.
    eapply wp_mono; [apply (v2s_ok o' g v G)|]. intros q [Q SQ]. now apply and_ss_ok.
Qed.
Lemma hal_xor_ok x y a b : holds x a -> holds y b -> wp (hal_xor pr others x y) (fun r => holds r (Z.lxor a b) /\ vis_info x y r).
Proof.
  intros X Y. refine (commutative_ok rxor (xor_ss pr) (xor_sv pr) (xor_sp pr others) (xor_vv pr) _ _ _ _ _ _ _ x y a b X Y).
  - intros u v. apply Z.lxor_comm.
  - intros u v. apply word_lxor.
  - intros. now apply xor_ss_ok.
  - intros. now apply xor_sp_ok.
  - reflexivity.
  - intros o f g. unfold xor_vv. rewrite Nat.eqb_refl. reflexivity.
  - intros o f o' g u v N F G. unfold xor_vv. destruct (Nat.eqb_spec o o') as [|_]; [contradiction|].
    apply wp_bind. eapply wp_mono; [apply (v2s_ok o f u F)|]. intros p [P SP]. apply wp_bind.
    eapply wp_mono; [apply (v2s_ok o' g v G)|]. intros q [Q SQ]. now apply xor_ss_ok.
Qed.
(* ---- unary ---- *)
Definition same_vis (x r : val) : Prop :=
  match x, r with VP _, VP _ => True | VV o _, VV o' _ => o = o' | (VA _ | VB _), (VA _ | VB _) => True | _, _ => False end.
Lemma same_vis_secret x r : secret x -> secret r -> same_vis x r.
Proof. destruct x, r; easy. Qed.
Lemma v_un_ok op o f a : holds (VV o f) a -> word k (op a) -> holds (v_un pr op o f) (op a) /\ same_vis (VV o f) (v_un pr op o f).
Proof. intros [W [O E]] W'. split; [|reflexivity]. split; [exact W'|]. split; [exact O|]. cbn. now rewrite Nat.eqb_refl, E. Qed.
Lemma sec_un x m c : secret x -> cs m c -> wp m (fun r => holds r c /\ same_vis x r).
Proof. intros S0 H. eapply wp_mono; [exact H|]. intros r [A B]. split; [exact A|]. now apply same_vis_secret. Qed.
Lemma hal_negate_ok x a : holds x a -> wp (hal_negate k pr x) (fun r => holds r (wrap k (- a)) /\ same_vis x r).
Proof.
  intros X. destruct x as [p|o f|s|s]; cbn [hal_negate].
  - apply wp_ret. destruct X as [W <-]. split; [|exact I]. rewrite rneg_wrap. split; [apply word_wrap'|reflexivity].
  - apply wp_ret. rewrite <- rneg_wrap. apply v_un_ok; [exact X|]. rewrite rneg_wrap. apply word_wrap'.
  - apply sec_un; [exact I|]. now apply negate_s_ok.
  - apply sec_un; [exact I|]. now apply negate_s_ok.
Qed.
Lemma word_shr s a : 0 <= s -> word k a -> word k (rshr s a).
Proof using K1. clear - K1.
  intros S0 [A B]. pose proof (pow2_pos s S0). unfold rshr. split; [apply Z.div_pos; lia|].
  apply Z.le_lt_trans with a; [|exact B]. apply Z.div_le_upper_bound; [lia|]. nia.
Qed.
Lemma msb_b_ok s a : isB s a -> cs (msb_b k pr s) (a / 2 ^ (k - 1)).
Proof.
  intros H. unfold msb_b. rewrite Z.max_r by lia. apply bopB. intros t. apply (ok_rshift_b _ _ _ _ _ HO can_shift); [exact H|lia].
Qed.
Lemma hal_msb_ok x a : holds x a -> wp (hal_msb k pr x) (fun r => holds r (a / 2 ^ (k - 1)) /\ same_vis x r).
Proof.
  intros X. assert (W : word k a) by apply X. pose proof (word_shr (k - 1) a ltac:(lia) W) as WS. unfold rshr in WS.
  destruct x as [p|o f|s|s]; cbn [hal_msb].
  - apply wp_ret. destruct X as [_ <-]. split; [|exact I]. split; [exact WS|reflexivity].
  - apply wp_ret. apply (v_un_ok (rshr (k - 1))); [exact X|exact WS].
  - apply sec_un; [exact I|]. unfold msb_s. destruct (k_msb_a2b pr) as [m|] eqn:E.
    + apply bopB. intros t. apply (ok_msb _ _ _ _ _ HO m E). apply X.
    + apply wp_bind. eapply wp_mono; [apply (to_b_ok (VA s) a X I)|]. intros b H. now apply msb_b_ok.
  - apply sec_un; [exact I|]. apply msb_b_ok. apply X.
Qed.
(* results of sums are never boolean shares, and their top bit can be taken without a shift when there is a kernel for it *)
Definition plain (x : val) : Prop := match x with VB _ => False | _ => True end.
Lemma wp_also {X} (m : M X) (P Q : X -> Prop) : wp m P -> (forall t r t', m t = Ok (r, t') -> Q r) -> wp m (fun r => P r /\ Q r).
Proof using. clear - md. intros H I t. specialize (H t). specialize (I t). destruct (m t) as [[r t']| |]; [|exact H..]. split; [exact H|]. exact (I r t' eq_refl). Qed.
Lemma bind_inv {X Y} (m : M X) (f : X -> M Y) t r t' : bind m f t = Ok (r, t') -> exists x u, f x u = Ok (r, t').
Proof using. clear. unfold bind. destruct (m t) as [[x u]| |]; cbn [rbind]; [|discriminate..]. now exists x, u. Qed.
Lemma bopA_plain f t r t' : bop pr f VA t = Ok (r, t') -> plain r.
Proof using. clear. intros H. apply bind_inv in H. destruct H as (x & u & [= <- <-]). exact I. Qed.
Lemma add_plain x y t r t' : hal_add k pr x y t = Ok (r, t') -> plain r.
Proof using. clear.
  assert (SS : forall x y t r t', add_ss pr x y t = Ok (r, t') -> plain r).
  { intros x0 y0 t0 r0 t1 H. apply bind_inv in H. destruct H as (u & t2 & H). apply bind_inv in H. destruct H as (v & t3 & H). exact (bopA_plain _ _ _ _ H). }
  assert (SV : forall x o f t r t', add_sv pr x o f t = Ok (r, t') -> plain r).
  { intros x0 o f t0 r0 t1 H. apply bind_inv in H. destruct H as (u & t2 & H). exact (SS _ _ _ _ _ H). }
  assert (SP : forall x p t r t', add_sp pr x p t = Ok (r, t') -> plain r).
  { intros x0 p t0 r0 t1 H. apply bind_inv in H. destruct H as (u & t2 & H). exact (bopA_plain _ _ _ _ H). }
  intros H. unfold hal_add, commutative in H. destruct x as [p|o f|a|b], y as [q|o' g|c|d].
  all: try exact (SS _ _ _ _ _ H); try exact (SV _ _ _ _ _ _ H); try exact (SP _ _ _ _ _ H).
  1-3: injection H as <- <-; exact I.
  unfold add_vv in H. destruct (o =? o')%nat; [injection H as <- <-; exact I|].
  apply bind_inv in H. destruct H as (u & t2 & H). apply bind_inv in H. destruct H as (v & t3 & H). exact (SS _ _ _ _ _ H).
Qed.
Lemma hal_msb_plain x a : holds x a -> plain x -> wp (hal_msb k pr x) (fun r => holds r (a / 2 ^ (k - 1)) /\ same_vis x r).
Proof.
  intros X PL. assert (W : word k a) by apply X. pose proof (word_shr (k - 1) a ltac:(lia) W) as WS. unfold rshr in WS.
  destruct x as [p|o f|s|s]; cbn [hal_msb]; [| | |destruct PL].
  - apply wp_ret. destruct X as [_ <-]. split; [|exact I]. split; [exact WS|reflexivity].
  - apply wp_ret. apply (v_un_ok (rshr (k - 1))); [exact X|exact WS].
  - apply sec_un; [exact I|]. unfold msb_s. destruct (k_msb_a2b pr) as [m|] eqn:E.
    + apply bopB. intros t. apply (ok_msb _ _ _ _ _ HO m E). apply X.
    + apply wp_bind. eapply wp_mono; [apply (to_b_ok (VA s) a X I)|]. intros b H. unfold msb_b. rewrite Z.max_r by lia. apply bopB. intros t.
      apply (ok_rshift_b _ _ _ _ _ HO (ok_no_msb _ _ _ _ _ HO E)); [exact H|lia].
Qed.
Lemma rneg1 a : word k a -> radd k (rneg k a) (rneg k 1) = 2 ^ k - 1 - a.
Proof using K1. clear - K1.
  intros [A B]. unfold radd. rewrite !rneg_wrap. rewrite <- (wrap_small k (2 ^ k - 1 - a)) by lia.
  change (eqm k (wrap k (- a) + wrap k (-1)) (2 ^ k - 1 - a)). rewrite !eqm_wrap.
  replace (2 ^ k - 1 - a) with (- a + -1 + 1 * 2 ^ k) by ring. symmetry. apply eqm_mult.
Qed.
Lemma ones_eq : ones k = 2 ^ k - 1.
Proof using K1. clear - K1.
  unfold ones. rewrite <- (wrap_small k (2 ^ k - 1)) by (pose proof (pow2_pos k ltac:(lia)); lia).
  change (eqm k (-1) (2 ^ k - 1)). replace (2 ^ k - 1) with (-1 + 1 * 2 ^ k) by ring. symmetry. apply eqm_mult.
Qed.
Lemma xor_ones a : word k a -> Z.lxor a (2 ^ k - 1) = 2 ^ k - 1 - a.
Proof using K1. clear - K1.
  intros [A B]. assert (H : Z.lxor a (2 ^ k - 1) + a = 2 ^ k - 1); [|lia].
  assert (ON : 2 ^ k - 1 = Z.ones k) by (rewrite Z.ones_equiv; lia).
  rewrite Z.add_nocarry_lxor.
  - rewrite (Z.lxor_comm a), Z.lxor_assoc, Z.lxor_nilpotent. apply Z.lxor_0_r.
  - apply Z.bits_inj'. intros i I. rewrite Z.land_spec, Z.lxor_spec, Z.bits_0, ON. destruct (Z.lt_ge_cases i k).
    + rewrite Z.ones_spec_low by lia. destruct (Z.testbit a i); reflexivity.
    + replace (Z.testbit a i) with false; [rewrite andb_false_r; reflexivity|].
      rewrite <- (Z.mod_small a (2 ^ k)) by lia. symmetry. apply Z.mod_pow2_bits_high. lia.
Qed.
Lemma hal_not_ok x a : holds x a -> wp (hal_not k pr others x) (fun r => holds r (2 ^ k - 1 - a) /\ same_vis x r).
Proof.
  intros X. assert (W : word k a) by apply X. assert (WN : word k (2 ^ k - 1 - a)) by (destruct W; split; lia).
  destruct x as [p|o f|s|s]; cbn [hal_not].
  - apply wp_ret. destruct X as [_ <-]. rewrite rneg1 by exact W. split; [|exact I]. split; [exact WN|reflexivity].
  - apply wp_ret. rewrite <- (rneg1 a W). apply v_un_ok with (op := fun v => radd k (rneg k v) (rneg k 1)); [exact X|]. rewrite rneg1; assumption.
  - apply sec_un; [exact I|]. unfold not_s. apply wp_bind. eapply wp_mono; [apply (negate_s_ok (VA s) a X I)|]. intros r [HR SR].
    rewrite <- (rneg1 a W). unfold radd. rewrite (rneg_wrap k a). apply add_sp_ok; auto. rewrite rneg_wrap. apply word_wrap'.
  - apply sec_un; [exact I|]. unfold not_s. rewrite ones_eq, <- xor_ones by exact W. apply bopB. intros t.
    assert (WO : word k (2 ^ k - 1)) by (pose proof (pow2_pos k ltac:(lia)); split; lia). destruct (pwidth_ok t _ WO).
    apply (ok_xor_bp _ _ _ _ _ HO); auto. apply X.
Qed.
Lemma hal_square_ok x a : holds x a -> wp (hal_square k pr x) (fun r => holds r (wrap k (a * a)) /\ same_vis x r).
Proof.
  intros X. destruct x as [p|o f|s|s]; cbn [hal_square].
  - apply wp_ret. destruct X as [W <-]. split; [|exact I]. split; [apply word_wrap'|reflexivity].
  - unfold mul_vv. rewrite Nat.eqb_refl. apply wp_ret. destruct X as [W [O E]]. split; [|reflexivity]. split; [apply word_wrap'|].
    split; [exact O|]. cbn. now rewrite Nat.eqb_refl, E.
  - apply sec_un; [exact I|]. unfold square_s. destruct (k_square_a pr) as [m|] eqn:E; [|apply mul_ss_ok; auto; exact I].
    apply bopA1. intros t. apply (ok_square _ _ _ _ _ HO m E). apply X.
  - apply sec_un; [exact I|]. apply mul_ss_ok; auto; exact I.
Qed.
Lemma hal_lshift_ok x a s : holds x a -> 0 <= s < k -> wp (hal_lshift k pr x s) (fun r => holds r (wrap k (a * 2 ^ s)) /\ same_vis x r).
Proof.
  intros X S0. destruct x as [p|o f|v|v]; cbn [hal_lshift].
  - apply wp_ret. destruct X as [W <-]. split; [|exact I]. split; [apply word_wrap'|reflexivity].
  - apply wp_ret. apply (v_un_ok (rshl k s)); [exact X|]. apply word_wrap'.
  - apply sec_un; [exact I|]. apply bopA1. intros t. apply (ok_lshift_a _ _ _ _ _ HO); [apply X|exact S0].
  - apply sec_un; [exact I|]. apply bopB. intros t. apply (ok_lshift_b _ _ _ _ _ HO can_shift); [apply X|exact S0].
Qed.
Lemma hal_rshift_ok x a s : holds x a -> 0 <= s < k -> wp (hal_rshift pr x s) (fun r => holds r (a / 2 ^ s) /\ same_vis x r).
Proof.
  intros X S0. assert (W : word k a) by apply X. pose proof (word_shr s a ltac:(lia) W) as WS. destruct x as [p|o f|v|v]; cbn [hal_rshift].
  - apply wp_ret. destruct X as [_ <-]. split; [|exact I]. split; [exact WS|reflexivity].
  - apply wp_ret. apply (v_un_ok (rshr s)); [exact X|exact WS].
  - apply sec_un; [exact I|]. apply wp_bind. eapply wp_mono; [apply (to_b_ok (VA v) a X I)|]. intros b H. apply bopB. intros t.
    now apply (ok_rshift_b _ _ _ _ _ HO can_shift).
  - apply sec_un; [exact I|]. apply wp_bind. eapply wp_mono; [apply (to_b_ok (VB v) a X I)|]. intros b H. apply bopB. intros t.
    now apply (ok_rshift_b _ _ _ _ _ HO can_shift).
Qed.
Lemma rsar_wrap a s v : signed_value k a v -> word k a -> rsar k s a = wrap k (v / 2 ^ s).
Proof using K1. clear - K1. intros SV W. unfold rsar. f_equal. f_equal. apply (Perm_proof.signed_unique k a); auto; [apply signed_sgn; auto; lia|lia]. Qed.
Lemma hal_arshift_ok x a s v : holds x a -> 0 <= s < k -> signed_value k a v ->
  wp (hal_arshift k pr x s) (fun r => holds r (wrap k (v / 2 ^ s)) /\ same_vis x r).
Proof.
  intros X S0 SV. assert (W : word k a) by apply X. destruct x as [p|o f|u|u]; cbn [hal_arshift].
  - apply wp_ret. destruct X as [_ <-]. rewrite (rsar_wrap _ s v SV W). split; [|exact I]. split; [apply word_wrap'|reflexivity].
  - apply wp_ret. rewrite <- (rsar_wrap _ s v SV W). apply (v_un_ok (rsar k s)); [exact X|]. rewrite (rsar_wrap _ s v SV W). apply word_wrap'.
  - apply sec_un; [exact I|]. apply wp_bind. eapply wp_mono; [apply (to_b_ok (VA u) a X I)|]. intros b H. apply bopB. intros t.
    now apply (ok_arshift_b _ _ _ _ _ HO can_shift) with (x := a).
  - apply sec_un; [exact I|]. apply wp_bind. eapply wp_mono; [apply (to_b_ok (VB u) a X I)|]. intros b H. apply bopB. intros t.
    now apply (ok_arshift_b _ _ _ _ _ HO can_shift) with (x := a).
Qed.
End Proof.
(* strict statements spelled out *)
Lemma wp_run {X} (m : M X) Q : wp (md := strict) m Q -> forall t, exists r t', m t = Ok (r, t') /\ Q r.
Proof. intros H t. specialize (H t). destruct (m t) as [[r t']| |]; [|discriminate H|discriminate H]. now exists r, t'. Qed.
Lemma run_wp {md : Mode} {X} (m : M X) Q : (forall t, exists r t', m t = Ok (r, t') /\ Q r) -> wp m Q.
Proof. intros H t. destruct (H t) as (r & t' & -> & q). exact q. Qed.
Lemma wp_done {md : Mode} {X} (m : M X) Q t r t' : wp m Q -> m t = Ok (r, t') -> Q r.
Proof. intros H E. specialize (H t). now rewrite E in H. Qed.
