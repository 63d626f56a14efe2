(* C18, C21: semi2k share conversions, sign bit and equality. *)
From Verif Require Import Base Ring_model Ring_spec Circ_model Circ_spec Circ_proof Circc_proof Circr_proof.
From Verif Require Import Share_spec Party Semi_model Semi_proof Conv_model Conv_spec Conv_proof.
Open Scope Z_scope.

(* ---------------- C18 ---------------- *)
(* A2B succeeds and its result, declared with k bits, shares the same word *)
Theorem C18_a2b (w n : nat) TA TB TC tg RR : (5 <= w <= 7)%nat -> (0 < n)%nat -> good_triples n TA TB TC ->
  let k := 2 ^ Z.of_nat w in prss_words k n RR ->
  forall X x, shA k n X x -> exists V, a2b k n TA TB TC tg RR X = Ok V /\ brel k n k V x.
Proof. intros [W5 W7] N TR k WR X x. exact (a2b_ok w W5 W7 n N TA TB TC TR tg RR X x WR). Qed.
Print Assumptions C18_a2b.
(* B2A through shared random bits, for every declared bit count *)
Theorem C18_b2a_randbit (w n : nat) RB : (5 <= w <= 7)%nat -> (0 < n)%nat -> let k := 2 ^ Z.of_nat w in
  forall nb X x, brel k n nb X x -> random_bits k n RB (Z.to_nat nb) ->
  exists A, b2a_randbit k n RB X = Ok A /\ shA k n A x.
Proof. intros [W5 W7] N k nb X x. exact (b2a_randbit_ok w W5 W7 n N (fun _ _ => O) RB nb X x). Qed.
Print Assumptions C18_b2a_randbit.
(* ... bit by bit *)
Theorem C18_b2a_disassemble (w n : nat) RB : (5 <= w <= 7)%nat -> (0 < n)%nat -> let k := 2 ^ Z.of_nat w in
  forall nb X x, 0 < nb -> brel k n nb X x -> random_bits k n RB (Z.to_nat nb) ->
  exists L, b2a_disassemble k n RB X = Ok L /\ length L = Z.to_nat nb /\
    forall j d, (j < Z.to_nat nb)%nat -> shA k n (nth j L d) (if bit x (Z.of_nat j) then 1 else 0).
Proof. intros [W5 W7] N k nb X x. exact (b2a_disassemble_ok w W5 W7 n N (fun _ _ => O) RB nb X x). Qed.
Print Assumptions C18_b2a_disassemble.
(* the adder-based B2A (kept in the code, not registered) needs a full-width boolean share *)
Theorem C18_b2a_adder (w n : nat) TA TB TC tg t RR r : (5 <= w <= 7)%nat -> (0 < n)%nat -> good_triples n TA TB TC ->
  let k := 2 ^ Z.of_nat w in prss_words k n RR -> (forall i, (i < n)%nat -> word k (r i)) ->
  forall X x, brel k n k X x -> exists A, b2a k n TA TB TC tg t RR r X = Ok A /\ shA k n A x.
Proof. intros [W5 W7] N TR k WR Wr X x. exact (b2a_ok w W5 W7 n N TA TB TC TR tg t RR r X x WR Wr). Qed.
Print Assumptions C18_b2a_adder.
(* ... and is rejected on any other declared bit count *)
Theorem C18_b2a_adder_narrow_refuted : exists (n : nat) TA TB TC tg t RR r X x, good_triples n TA TB TC /\ prss_words 32 n RR /\
  brel 32 n 16 X x /\ b2a 32 n TA TB TC tg t RR r X = Err.
Proof.
  exists 2%nat, (fun _ _ _ => 0), (fun _ _ _ => 0), (fun _ _ _ => 0), (fun _ _ => O), O, (fun _ _ => 0), (fun _ => 0), (16, fun i => if (i =? 0)%nat then 5 else 0), 5.
  split; [|split; [|split]].
  - intros t w [<- | [<- | [<- | [<- | [<- | []]]]]]; (split; [intros; repeat split; reflexivity || lia|reflexivity]).
  - intros i j _ _. split; reflexivity || lia.
  - split; [reflexivity|]. split; [|split; [lia|reflexivity]]. apply shBb_ok. reflexivity.
  - vm_compute. reflexivity.
Qed.
Print Assumptions C18_b2a_adder_narrow_refuted.
(* there and back *)
Theorem C18_roundtrip (w n : nat) TA TB TC tg RR RB : (5 <= w <= 7)%nat -> (0 < n)%nat -> good_triples n TA TB TC ->
  let k := 2 ^ Z.of_nat w in prss_words k n RR -> random_bits k n RB (Z.to_nat k) ->
  forall X x, shA k n X x -> exists V A, a2b k n TA TB TC tg RR X = Ok V /\ b2a_randbit k n RB V = Ok A /\ shA k n A x.
Proof.
  intros [W5 W7] N TR k WR HB X x SX. destruct (a2b_ok w W5 W7 n N TA TB TC TR tg RR X x WR SX) as [V [E H]].
  destruct (b2a_randbit_ok w W5 W7 n N tg RB k V x H HB) as [A [E' H']]. exists V, A. split; [exact E|]. split; [exact E'|exact H'].
Qed.
Print Assumptions C18_roundtrip.

(* a dealer's triples for three parties, used by every call *)
Definition ex_ta (_ : nat) (w : Z) (i : nat) : Z := (Z.of_nat i * 77777777777777777777 + 12345678901234567) mod 2 ^ w.
Definition ex_tb (_ : nat) (w : Z) (i : nat) : Z := (Z.of_nat i * 99999999999999999777 + 76543210987654321) mod 2 ^ w.
Definition ex_tc (t : nat) (w : Z) (i : nat) : Z :=
  match i with O => Z.lxor (Z.land (xtotal 3 (ex_ta t w)) (xtotal 3 (ex_tb t w))) (Z.lxor 1 2) | S O => 1 | _ => 2 end.
Lemma ex_triples : good_triples 3 ex_ta ex_tb ex_tc.
Proof.
  intros t w [<- | [<- | [<- | [<- | [<- | []]]]]]; (split; [|vm_compute; reflexivity]);
    (intros i I; destruct i as [|[|[|i]]]; [| | |lia]; (split; [|split]; apply wordb_ok; vm_compute; reflexivity)).
Qed.
Definition ex_prss (j i : nat) : Z := (Z.of_nat j * 1234567891 + Z.of_nat i * 987654321 + 5) mod 2 ^ 32.
Definition ex_X (i : nat) : Z := nth i [4000000000; 3000000000; 1589934605] 0.
Definition ex_bits (j i : nat) : Z := nth i [123456789 * Z.of_nat j; 7; ((if (j mod 3 =? 1)%nat then 1 else 0) - 123456789 * Z.of_nat j - 7)] 0 mod 2 ^ 32.
Example C18_ex : shA 32 3 ex_X 13 /\ prss_words 32 3 ex_prss /\
  forallb (fun j => shAb 32 3 (ex_bits j) (if (j mod 3 =? 1)%nat then 1 else 0)) (seq 0 32) = true /\
  (match a2b 32 3 ex_ta ex_tb ex_tc (fun l j => (100 * l + 30 * j)%nat) ex_prss ex_X with
   | Ok V => (fst V =? 32) && (xtotal 3 (snd V) =? 13) && negb (snd V 0%nat =? 13) &&
             match b2a_randbit 32 3 ex_bits V with Ok A => shAb 32 3 A 13 && negb (A 0%nat =? 13) | _ => false end
   | _ => false end) = true.
Proof.
  split; [apply shAb_ok; reflexivity|]. split; [|split; vm_compute; reflexivity].
  intros i j I J. unfold ex_prss. apply Party.word_wrap. lia.
Qed.

(* ---------------- C21 ---------------- *)
(* the sign bit of the signed reading; two parties use MsbA2B, more parties A2B and a shift *)
Theorem C21_msb (w n : nat) TA TB TC tg t RR : (5 <= w <= 7)%nat -> (0 < n)%nat -> good_triples n TA TB TC ->
  let k := 2 ^ Z.of_nat w in prss_words k n RR ->
  forall X x v, shA k n X x -> signed_value k x v ->
  exists V, msb_s k n TA TB TC tg t RR X = Ok V /\ brel k n 1 V (if v <? 0 then 1 else 0).
Proof.
  intros [W5 W7] N TR k WR X x v SX SV. destruct (msb_s_ok w W5 W7 n N TA TB TC TR tg t RR X x WR SX) as [V [E H]].
  exists V. split; [exact E|]. fold k in H. replace (if v <? 0 then 1 else 0) with (rshr (k - 1) x); [exact H|].
  pose proof (shA_word _ _ _ _ SX) as [X1 X2]. destruct SV as [V1 [q Q]].
  assert (KP : 1 <= k) by (unfold k; change 1 with (2 ^ 0); apply Z.pow_le_mono_r; lia).
  assert (D : 2 ^ k = 2 * 2 ^ (k - 1)) by (replace k with (1 + (k - 1)) at 1 by lia; rewrite Z.pow_add_r by lia; reflexivity).
  assert (P : 0 < 2 ^ (k - 1)) by (apply Z.pow_pos_nonneg; lia). unfold rshr.
  set (p := 2 ^ (k - 1)) in *. rewrite D in Q, X2. clear D. destruct (Z.ltb_spec v 0) as [L|L].
  - assert (q = -1) by nia. subst q. symmetry. apply Z.div_unique with (x - p); lia.
  - assert (q = 0) by nia. subst q. apply Z.div_small. lia.
Qed.
Print Assumptions C21_msb.
(* equality with zero, of two shares, and of a share with a public value.  RA and RB are the dealer's additive and
   boolean sharings of one random word r; pivot is any party *)
Theorem C21_eqz (w n : nat) TA TB TC t pivot RA RB r : (5 <= w <= 7)%nat -> (pivot < n)%nat -> good_triples n TA TB TC ->
  let k := 2 ^ Z.of_nat w in shA k n RA r -> shB k n RB r ->
  forall X x, shA k n X x -> exists V, eqz k n TA TB TC t pivot RA RB X = Ok V /\ brel k n k V (if x =? 0 then 1 else 0).
Proof.
  intros [W5 W7] P TR k SA SB X x SX. assert (N : (0 < n)%nat) by lia.
  exact (eqz_ok w W5 W7 n N TA TB TC TR (fun _ _ => O) t pivot RA RB X x r P SA SB SX).
Qed.
Print Assumptions C21_eqz.
Theorem C21_equal (w n : nat) TA TB TC t pivot RA RB r : (5 <= w <= 7)%nat -> (pivot < n)%nat -> good_triples n TA TB TC ->
  let k := 2 ^ Z.of_nat w in shA k n RA r -> shB k n RB r ->
  forall X x, shA k n X x ->
  (forall Y y, shA k n Y y -> exists V, equal_aa k n TA TB TC t pivot RA RB X Y = Ok V /\ brel k n k V (if x =? y then 1 else 0)) /\
  (forall p, word k p -> exists V, equal_ap k n TA TB TC t pivot RA RB X p = Ok V /\ brel k n k V (if x =? p then 1 else 0)).
Proof.
  intros [W5 W7] P TR k SA SB X x SX. assert (N : (0 < n)%nat) by lia. split.
  - intros Y y SY. exact (equal_aa_ok w W5 W7 n N TA TB TC TR (fun _ _ => O) t pivot RA RB X Y x y r P SA SB SX SY).
  - intros p Wp. exact (equal_ap_ok w W5 W7 n N TA TB TC TR (fun _ _ => O) t pivot RA RB X x p r P SA SB SX Wp).
Qed.
Print Assumptions C21_equal.
(* what a party sees when the result is opened *)
Theorem C21_opened k n nb V x rank : (rank < n)%nat -> brel k n nb V x -> b2p n (snd V) rank = x.
Proof. intros R [_ [[_ [_ E]] _]]. unfold b2p. rewrite allreduce_xor by exact R. exact E. Qed.
Print Assumptions C21_opened.
Definition ex_neg (i : nat) : Z := nth i [4000000000; 3000000000; 1589934592 - 5] 0.
Definition ex_ra (i : nat) : Z := nth i [11; 22; 33] 0.
Definition ex_rb (i : nat) : Z := nth i [11; 22; Z.lxor 66 (Z.lxor 11 22)] 0.
Example C21_ex : shA 32 3 ex_neg (2 ^ 32 - 5) /\ signed_value 32 (2 ^ 32 - 5) (-5) /\ shA 32 3 ex_ra 66 /\ shB 32 3 ex_rb 66 /\
  let tg := fun l j => (100 * l + 30 * j)%nat in
  let open r := match r with Ok V => xtotal 3 (snd V) | _ => -1 end in
  open (msb_s 32 3 ex_ta ex_tb ex_tc tg 0 ex_prss ex_neg) = 1 /\
  open (msb_s 32 3 ex_ta ex_tb ex_tc tg 0 ex_prss ex_X) = 0 /\
  open (equal_aa 32 3 ex_ta ex_tb ex_tc 0 2 ex_ra ex_rb ex_X ex_X) = 1 /\
  open (equal_aa 32 3 ex_ta ex_tb ex_tc 0 1 ex_ra ex_rb ex_X ex_neg) = 0 /\
  open (equal_ap 32 3 ex_ta ex_tb ex_tc 0 1 ex_ra ex_rb ex_X 13) = 1.
Proof.
  split; [apply shAb_ok; reflexivity|]. split; [split; [lia|exists (-1); lia]|].
  split; [apply shAb_ok; reflexivity|]. split; [apply shBb_ok; reflexivity|]. vm_compute. repeat split.
Qed.
