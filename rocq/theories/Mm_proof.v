(* Tiled matrix products: kernels, accumulation, merging. *)
From Coq Require Import ZifyNat ZifyBool.
From Verif Require Import Base Ring_model Ring_spec Ring_proof Share_spec Party Semi_model Semi_proof Conv_model Conv_spec Conv_proof.
From Verif Require Import Disp_model Disp_spec Disp_proof Dyn_spec Dynw_proof Mm_model Mm_spec.
Open Scope Z_scope.
#[local] Existing Instance strict.

(* ---- positions ---- *)
Lemma pos_div i j c : (j < c)%nat -> ((i * c + j) / c = i)%nat.
Proof. intros H. symmetry. apply (Nat.div_unique _ _ _ j); lia. Qed.
Lemma pos_mod i j c : (j < c)%nat -> ((i * c + j) mod c = j)%nat.
Proof. intros H. symmetry. apply (Nat.mod_unique _ _ i j); lia. Qed.
Lemma pos_lt i j m c : (i < m)%nat -> (j < c)%nat -> (i * c + j < m * c)%nat.
Proof. intros. nia. Qed.
Lemma pos_split m c p : (p < m * c)%nat -> exists i j, (i < m)%nat /\ (j < c)%nat /\ p = (i * c + j)%nat.
Proof.
  intros H. destruct c as [|c]; [lia|]. exists (p / S c)%nat, (p mod S c)%nat.
  split; [apply Nat.div_lt_upper_bound; lia|]. split; [apply Nat.mod_upper_bound; lia|]. pose proof (Nat.div_mod p (S c)). lia.
Qed.
Lemma dot_comm K a b : dot K a b = dot K b a.
Proof. induction K as [|K IH]; cbn [dot]; [reflexivity|]. rewrite IH. lia. Qed.
Lemma dot_split u v a b : dot (u + v) a b = dot u a b + dot v (fun l => a (u + l)%nat) (fun l => b (u + l)%nat).
Proof. induction v as [|v IH]; [rewrite Nat.add_0_r; cbn [dot]; lia|]. rewrite Nat.add_succ_r. cbn [dot]. rewrite IH. lia. Qed.

(* ---- kinds of arrays ---- *)
Inductive kind := KP | KV (o : nat) | KS.
Definition kind_of (e : els) : kind := match e with EP _ => KP | EV o _ => KV o | _ => KS end.
Definition rkind (a b : kind) : kind :=
  match a, b with
  | KP, KP => KP | KV o, KV o' => if (o =? o')%nat then KV o else KS | KP, KV o | KV o, KP => KV o | _, _ => KS
  end.
Definition has_kind (e : els) (q : kind) : Prop := match q, e with KP, EP _ => True | KV o, EV o' _ => o = o' | KS, EA _ => True | _, _ => False end.
Lemma kind_renumber g e : kind_of (renumber g e) = kind_of e.
Proof. now destruct e. Qed.
Lemma has_renumber g e q : has_kind e q -> has_kind (renumber g e) q.
Proof. now destruct q, e. Qed.
Lemma stands_renumber k n N N' g e a : stands k n N e a -> (forall p, (p < N')%nat -> (g p < N)%nat) -> stands k n N' (renumber g e) (fun p => a (g p)).
Proof.
  intros [O H] G. split; [destruct e; exact O|]. intros p P. specialize (H (g p) (G p P)). destruct e; exact H.
Qed.
Lemma stands_ext k n N e a b : stands k n N e a -> (forall p, (p < N)%nat -> a p = b p) -> stands k n N e b.
Proof. intros [O H] E. split; [exact O|]. intros p P. rewrite <- (E p P). now apply H. Qed.
Lemma stands_le k n N N' e a : stands k n N e a -> (N' <= N)%nat -> stands k n N' e a.
Proof. intros [O H] E. split; [exact O|]. intros p P. apply H. lia. Qed.

(* plaintext of a product *)
Definition prodm (k : Z) (K c : nat) (a b : nat -> Z) (p : nat) : Z :=
  wrap k (dot K (fun l => a (p / c * K + l)%nat) (fun l => b (l * c + p mod c)%nat)).
Lemma prodm_mmul k K c a b p : 0 <= k -> unmx c (ring_mmul k K (mx K a) (mx c b)) p = prodm k K c a b p.
Proof.
  intros H. unfold unmx, prodm, ring_mmul, mx. pose proof (dot_loop_ok k K (fun l => a (p / c * K + l)%nat) (fun l => b (l * c + p mod c)%nat) H) as D.
  exact (is_mod_unique k _ _ _ H D (wrap_is_mod k _ H)).
Qed.
Lemma prodm_ext k m K c a b a' b' p : (p < m * c)%nat -> (forall q, (q < m * K)%nat -> a q = a' q) -> (forall q, (q < K * c)%nat -> b q = b' q) ->
  prodm k K c a b p = prodm k K c a' b' p.
Proof.
  intros P A B. unfold prodm. f_equal. apply dot_ext. destruct (pos_split _ _ _ P) as (i & j & I & J & ->).
  intros l L. rewrite pos_div, pos_mod by exact J. split; [apply A|apply B]; now apply pos_lt.
Qed.
Lemma prodm_word k K c a b p : 0 <= k -> word k (prodm k K c a b p).
Proof. intros H. apply wrap_is_mod. exact H. Qed.

Lemma blocks_bounds len step : (0 < len)%nat -> (0 < step)%nat ->
  (1 <= blocks_of len step)%nat /\ (len <= blocks_of len step * step)%nat /\ forall i, (i < blocks_of len step)%nat -> (i * step < len)%nat.
Proof.
  intros L S0. unfold blocks_of. pose proof (Nat.div_mod (len + step - 1) step ltac:(lia)) as D. pose proof (Nat.mod_upper_bound (len + step - 1) step ltac:(lia)) as M.
  set (q := ((len + step - 1) / step)%nat) in *. split; [|split]; [nia|nia|]. intros i I. nia.
Qed.

Section Mm.
Variable w : nat.
Hypothesis W5 : (5 <= w)%nat.
Hypothesis W7 : (w <= 7)%nat.
Notation k := (2 ^ Z.of_nat w).
Variable n : nat.
Hypothesis N0 : (0 < n)%nat.
Variable T : mtapes.
Hypothesis G : good_mtapes k n T.
Notation stands := (stands k n).

Lemma k0 : 32 <= k.
Proof. clear - W5 W7. assert (H : w = 5%nat \/ w = 6%nat \/ w = 7%nat) by lia. destruct H as [-> | [-> | ->]]; cbn; lia. Qed.

Lemma arr_a_ok N e a : stands N e a -> kind_of e = KS -> wp (arr_a k n T e) (fun f => stands N (EA f) a).
Proof.
  intros [O H] KK. pose proof k0. destruct e as [f|o f|f|nb f]; try discriminate; cbn [arr_a].
  - apply wp_ret. split; [exact I|exact H].
  - destruct (Z.ltb_spec k nb); [lia|]. apply wp_call. intros t. apply outcome_ok; cbv beta. split; [exact I|]. intros p P.
    destruct (H p P) as [Wp SB]. split; [exact Wp|]. unfold b2a_el.
    destruct (b2a_randbit_ok w W5 W7 n N0 (fun _ _ => 0%nat) (mt_bits T t p) nb (nb, f p) (a p)) as (A & E & SA).
    + split; [reflexivity|exact SB].
    + intros j J. apply (gm_bits _ _ _ G t p). lia.
    + now rewrite E.
Qed.
Lemma arr_v2s_ok N o f a : stands N (EV o f) a -> wp (arr_v2s k n T o f) (fun g => stands N (EA g) a).
Proof.
  intros [O H]. pose proof k0. apply wp_call. intros t. apply outcome_ok; cbv beta. split; [exact I|]. intros p P.
  destruct (H p P) as [Wp E]. split; [exact Wp|]. rewrite E. apply v2a_shares; [lia|exact O|exact Wp].
Qed.
Lemma mm_aa_ok m K c f g a b : stands (m * K) (EA f) a -> stands (K * c) (EA g) b ->
  wp (mm_aa k n T m K c f g) (fun r => stands (m * c) r (prodm k K c a b) /\ has_kind r KS).
Proof.
  intros [_ A] [_ B]. pose proof k0. unfold mm_aa. apply wp_bind. apply wp_call. intros t. apply outcome_ok; cbv beta. apply wp_ret.
  split; [|exact I]. split; [exact I|]. intros p P. split; [apply prodm_word; lia|]. rewrite <- prodm_mmul by lia.
  destruct (pos_split _ _ _ P) as (i & j & Hi & Hj & ->). unfold unmx. rewrite pos_div, pos_mod by exact Hj.
  destruct (gm_mm _ _ _ G t m K c) as (ta & tb & tc & TA & TB & TC).
  apply (matmul_all_ok k n K (fun q => mx K (fun s => f s q)) (fun q => mx c (fun s => g s q))); [lia|exact N0| | |].
  - intros l L. apply (A (i * K + l)%nat). now apply pos_lt.
  - intros l L. apply (B (l * c + j)%nat). now apply pos_lt.
  - destruct (TC i j Hi Hj) as [SC [_ [q E]]].
    rewrite (shA_eqm k n _ _ ltac:(lia) SC), E, eqm_mult.
    apply dot_eqm. intros l L. split; [exact (shA_eqm k n _ _ ltac:(lia) (TA i l Hi L))|exact (shA_eqm k n _ _ ltac:(lia) (TB l j L Hj))].
Qed.
Definition okp (m K c : nat) (a b : nat -> Z) (q : kind) (r : els) : Prop := stands (m * c) r (prodm k K c a b) /\ has_kind r q.
Lemma mmul_ss_ok m K c x y a b : stands (m * K) x a -> stands (K * c) y b -> kind_of x = KS -> kind_of y = KS -> wp (mmul_ss k n T m K c x y) (okp m K c a b KS).
Proof.
  intros X Y KX KY. unfold mmul_ss. apply wp_bind. eapply wp_mono; [exact (arr_a_ok _ _ _ X KX)|]. intros f F. cbv beta.
  apply wp_bind. eapply wp_mono; [exact (arr_a_ok _ _ _ Y KY)|]. intros g Gg. now apply mm_aa_ok.
Qed.
Lemma mmul_sv_ok m K c x o g a b : stands (m * K) x a -> stands (K * c) (EV o g) b -> kind_of x = KS -> wp (mmul_sv k n T m K c x o g) (okp m K c a b KS).
Proof.
  intros X Y KX. unfold mmul_sv. apply wp_bind. eapply wp_mono; [exact (arr_v2s_ok _ _ _ _ Y)|]. intros f F. now apply mmul_ss_ok.
Qed.
Lemma mmul_sp_ok m K c x g a b : stands (m * K) x a -> stands (K * c) (EP g) b -> kind_of x = KS -> wp (mmul_sp k n T K c x g) (okp m K c a b KS).
Proof.
  intros X [_ Y] KX. unfold mmul_sp. pose proof k0. apply wp_bind. eapply wp_mono; [exact (arr_a_ok _ _ _ X KX)|]. intros f [_ F]. apply wp_ret.
  split; [|exact I]. split; [exact I|]. intros p P. split; [apply prodm_word; lia|].
  rewrite (prodm_ext k m K c a b a g p P) by (auto; intros q Q; symmetry; now apply Y). rewrite <- prodm_mmul by lia.
  destruct (pos_split _ _ _ P) as (i & j & Hi & Hj & ->). unfold mm_ap, unmx. rewrite pos_div, pos_mod by exact Hj.
  apply (shA_matmul_ap k n K (fun q => mx K (fun s => f s q)) (mx K a)); [lia|]. intros l L. apply (F (i * K + l)%nat). now apply pos_lt.
Qed.
Lemma mm_plain_ok m K c f g a b : stands (m * K) (EP f) a -> stands (K * c) (EP g) b -> forall p, (p < m * c)%nat -> mm_plain k K c f g p = prodm k K c a b p.
Proof.
  intros [_ X] [_ Y] p P. pose proof k0. unfold mm_plain. rewrite prodm_mmul by lia. apply (prodm_ext k m); auto; intros; [now apply X|now apply Y].
Qed.
Lemma mmul_vv_ok m K c o f o' g a b : stands (m * K) (EV o f) a -> stands (K * c) (EV o' g) b ->
  wp (mmul_vv k n T m K c o f o' g) (okp m K c a b (rkind (KV o) (KV o'))).
Proof.
  intros X Y. unfold mmul_vv. cbn [rkind]. pose proof k0. destruct (Nat.eqb_spec o o') as [<-|NE].
  - apply wp_ret. destruct X as [O X], Y as [_ Y]. split; [|reflexivity]. split; [exact O|]. intros p P. split; [apply prodm_word; lia|].
    apply (mm_plain_ok m); [split; [exact I|exact X]|split; [exact I|exact Y]|exact P].
  - apply wp_bind. eapply wp_mono; [exact (arr_v2s_ok _ _ _ _ X)|]. intros x X'. cbv beta.
    apply wp_bind. eapply wp_mono; [exact (arr_v2s_ok _ _ _ _ Y)|]. intros y Y'. now apply mmul_ss_ok.
Qed.
Lemma mmul_vp_ok m K c o f g a b : stands (m * K) (EV o f) a -> stands (K * c) (EP g) b -> wp (mmul_vp k K c o f g) (okp m K c a b (KV o)).
Proof.
  intros [O X] Y. unfold mmul_vp. pose proof k0. apply wp_ret. split; [|reflexivity]. split; [exact O|]. intros p P. split; [apply prodm_word; lia|].
  apply (mm_plain_ok m); [split; [exact I|exact X]|exact Y|exact P].
Qed.
Lemma transpose_stands r c e a : stands (r * c) e a -> stands (c * r) (transpose2 r c e) (fun p => a (p mod r * c + p / r)%nat).
Proof.
  intros H. apply (stands_renumber _ _ _ _ _ _ _ H). intros p P. destruct (pos_split _ _ _ P) as (i & j & I & J & ->). rewrite pos_div, pos_mod by exact J.
  now apply pos_lt.
Qed.
Lemma transposed_ok m K c a b q r : okp c K m (fun p => b (p mod K * c + p / K)%nat) (fun p => a (p mod m * K + p / m)%nat) q r -> okp m K c a b q (transpose2 c m r).
Proof.
  intros [S0 KK]. split; [|now apply has_renumber]. eapply stands_ext; [exact (transpose_stands _ _ _ _ S0)|]. intros p P. cbv beta.
  destruct (pos_split _ _ _ P) as (i & j & I & J & ->). rewrite pos_div, pos_mod by exact J.
  unfold prodm. rewrite !pos_div, !pos_mod by assumption. f_equal. rewrite dot_comm. apply dot_ext. intros l L.
  rewrite !pos_div, !pos_mod by assumption. split; reflexivity.
Qed.
Lemma mmul_impl_ok m K c x y a b : stands (m * K) x a -> stands (K * c) y b -> wp (mmul_impl k n T m K c x y) (okp m K c a b (rkind (kind_of x) (kind_of y))).
Proof.
  intros X Y. pose proof k0. pose proof (transpose_stands _ _ _ _ X) as TX. pose proof (transpose_stands _ _ _ _ Y) as TY.
  destruct x as [f|o f|f|nb f], y as [g|o' g|g|nb' g]; cbn [mmul_impl transpose2 renumber kind_of rkind]; cbn [transpose2 renumber] in TX, TY;
    lazymatch goal with
    | |- context [ret (EP _)] => apply wp_ret; split; [|exact I]; split; [exact I|]; intros p P; split; [apply prodm_word; lia|now apply (mm_plain_ok m)]
    | |- context [transpose2 c m] => apply wp_bind; eapply wp_mono; [first [apply mmul_sp_ok|apply mmul_vp_ok|apply mmul_sv_ok]; try eassumption; reflexivity|];
        intros r R; apply wp_ret; now apply transposed_ok
    | _ => first [now apply mmul_vv_ok|now apply mmul_ss_ok|now apply mmul_sv_ok|now apply mmul_sp_ok|now apply mmul_vp_ok]
    end.
Qed.
Lemma add_els_ok N x y a b q : stands N x a -> stands N y b -> has_kind x q -> has_kind y q ->
  wp (add_els k x y) (fun r => stands N r (fun p => wrap k (a p + b p)) /\ has_kind r q).
Proof.
  intros [OX X] [OY Y] KX KY. pose proof k0. assert (WW : forall v, word k (wrap k v)) by (intros; apply wrap_is_mod; lia).
  destruct q, x as [f|o' f|f|nb f]; try contradiction; destruct y as [g|o'' g|g|nb' g]; try contradiction; cbn [add_els].
  - apply wp_ret. split; [|exact I]. split; [exact I|]. intros p P. split; [apply WW|]. destruct (X p P) as [_ ->], (Y p P) as [_ ->]. reflexivity.
  - cbn in KX, KY. subst o' o''. rewrite Nat.eqb_refl. apply wp_ret. split; [|reflexivity]. split; [exact OX|]. intros p P. split; [apply WW|].
    rewrite Nat.eqb_refl. destruct (X p P) as [_ ->], (Y p P) as [_ ->]. reflexivity.
  - apply wp_call. intros t. apply outcome_ok; cbv beta. split; [|exact I]. split; [exact I|]. intros p P. split; [apply WW|].
    apply shA_add; [lia|now apply X|now apply Y].
Qed.
Lemma block_stands x a r c r0 r1 c0 c1 : stands (r * c) x a -> (r1 <= r)%nat -> (c1 <= c)%nat ->
  stands ((r1 - r0) * (c1 - c0)) (snd (block x c r0 r1 c0 c1)) (fun p => a ((r0 + p / (c1 - c0)) * c + (c0 + p mod (c1 - c0)))%nat).
Proof.
  intros H R C. unfold block. cbn [snd]. apply (stands_renumber _ _ _ _ _ _ _ H). intros p P.
  destruct (pos_split _ _ _ P) as (i & j & I & J & ->). rewrite pos_div, pos_mod by exact J. apply pos_lt; lia.
Qed.
(* the partial sums over the first h columns of x *)
Definition partial_m (K c r0 c0 wd h : nat) (a b : nat -> Z) (p : nat) : Z :=
  wrap k (dot h (fun l => a ((r0 + p / wd) * K + l)%nat) (fun l => b (l * c + (c0 + p mod wd))%nat)).
Lemma tile_prod K c r0 c0 wd k0' h a b p : (0 < wd)%nat ->
  prodm k h wd (fun p => a ((r0 + p / h) * K + (k0' + p mod h))%nat) (fun p => b ((k0' + p / wd) * c + (c0 + p mod wd))%nat) p
  = wrap k (dot h (fun l => a ((r0 + p / wd) * K + (k0' + l))%nat) (fun l => b ((k0' + l) * c + (c0 + p mod wd))%nat)).
Proof.
  intros WD. unfold prodm. f_equal. apply dot_ext. intros l L. rewrite !pos_div, !pos_mod by (try exact L; apply Nat.mod_upper_bound; lia). split; reflexivity.
Qed.
Section Block.
Variables m K c ms ks cs r col : nat.
Variables x y : els.
Variables a b : nat -> Z.
Hypothesis KK : (0 < K)%nat.
Hypothesis MS : (0 < ms)%nat.
Hypothesis KS0 : (0 < ks)%nat.
Hypothesis CS : (0 < cs)%nat.
Hypothesis R : (r * ms < m)%nat.
Hypothesis C : (col * cs < c)%nat.
Hypothesis X : stands (m * K) x a.
Hypothesis Y : stands (K * c) y b.
Let r0 := (r * ms)%nat.
Let r1 := Nat.min m (r0 + ms).
Let c0 := (col * cs)%nat.
Let c1 := Nat.min c (c0 + cs).
Let q := rkind (kind_of x) (kind_of y).
Let good (h : nat) (e : els) : Prop := stands ((r1 - r0) * (c1 - c0)) e (partial_m K c r0 c0 (c1 - c0) h a b) /\ has_kind e q.
Let tile i := let k0 := (i * ks)%nat in let k1 := Nat.min K (k0 + ks) in
    mmul_impl k n T (r1 - r0) (k1 - k0) (c1 - c0) (snd (block x K r0 r1 k0 k1)) (snd (block y c k0 k1 c0 c1)).

Lemma tile_ok i : (i * ks < K)%nat ->
  wp (tile i) (fun e => stands ((r1 - r0) * (c1 - c0)) e (fun p => wrap k (dot (Nat.min K (i * ks + ks) - i * ks)
     (fun l => a ((r0 + p / (c1 - c0)) * K + (i * ks + l))%nat) (fun l => b ((i * ks + l) * c + (c0 + p mod (c1 - c0)))%nat))) /\ has_kind e q).
Proof.
  intros I. unfold tile. cbv zeta.
  eapply wp_mono; [apply mmul_impl_ok; [apply (block_stands x a m K); [exact X|unfold r1; lia|lia]|apply (block_stands y b K c); [exact Y|lia|unfold c1; lia]]|].
  intros e [E1 E2]. split; [|unfold block in E2; cbn [snd] in E2; rewrite !kind_renumber in E2; exact E2].
  eapply stands_ext; [exact E1|]. intros p P. apply (tile_prod K c r0 c0 (c1 - c0) (i * ks) _ a b p). unfold c1, c0. lia.
Qed.
Lemma add_tiles_ok len : forall s acc, (1 <= s)%nat -> (forall i, (i < s + len)%nat -> (i * ks < K)%nat) -> good (Nat.min K (s * ks)) acc ->
  wp (add_tiles k tile acc (seq s len)) (good (Nat.min K ((s + len) * ks))).
Proof.
  induction len as [|len IH]; intros s acc S1 B A; cbn [seq add_tiles].
  - apply wp_ret. now rewrite Nat.add_0_r.
  - pose proof (B s ltac:(lia)) as BS. apply wp_bind. eapply wp_mono; [apply (tile_ok s); exact BS|]. intros t [T1 T2]. cbv beta.
    destruct A as [A1 A2]. apply wp_bind. eapply wp_mono; [exact (add_els_ok _ _ _ _ _ _ A1 T1 A2 T2)|]. intros e [E1 E2]. cbv beta.
    replace (s + S len)%nat with (S s + len)%nat by lia. apply IH; [lia|intros; apply B; lia|]. split; [|exact E2].
    eapply stands_ext; [exact E1|]. intros p P. cbv beta. unfold partial_m. rewrite (Nat.min_r K (s * ks)) by lia.
    replace (Nat.min K (S s * ks)) with (s * ks + (Nat.min K (s * ks + ks) - s * ks))%nat by lia.
    rewrite dot_split. match goal with |- wrap k ?u = wrap k ?v => change (eqm k u v) end. rewrite !eqm_wrap. reflexivity.
Qed.
Lemma result_block_ok : wp (result_block k n T m K c ms ks cs x y r col)
  (fun v => fst v = [(r1 - r0)%nat; (c1 - c0)%nat] /\ stands ((r1 - r0) * (c1 - c0)) (snd v) (partial_m K c r0 c0 (c1 - c0) K a b) /\ has_kind (snd v) q).
Proof.
  unfold result_block. fold r0. fold r1. fold c0. fold c1. cbv zeta. destruct (blocks_bounds K ks KK KS0) as (B1 & B2 & B3).
  destruct (blocks_of K ks) as [|B]; [lia|]. cbn [seq]. apply wp_bind. eapply wp_mono; [exact (tile_ok 0 ltac:(lia))|]. intros t [T1 T2]. cbv beta.
  apply wp_bind. eapply wp_mono; [apply (add_tiles_ok B 1); [lia|intros; apply B3; lia|]|].
  - split; [|exact T2]. eapply stands_ext; [exact T1|]. intros p P. cbv beta. unfold partial_m. rewrite Nat.mul_1_l, Nat.mul_0_l, Nat.sub_0_r. reflexivity.
  - intros e [E1 E2]. apply wp_ret. cbn [fst snd]. split; [reflexivity|]. split; [|exact E2]. eapply stands_ext; [exact E1|]. intros p P.
    now rewrite Nat.min_l by lia.
Qed.
End Block.
End Mm.
