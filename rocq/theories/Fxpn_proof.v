(* Error analysis of the Goldschmidt reciprocal over the integers.  U = 2^f. *)
From Verif Require Import Base.
Open Scope Z_scope.

(* one truncated product: q is p / U up to one *)
Definition tnear (U p q : Z) : Prop := Z.abs (q * U - p) <= U.

Section Num.
Variable U : Z.
Hypothesis U256 : 256 <= U.
Variables N c K w p0 e0 : Z.
Hypothesis N1 : U * U <= 2 * N.
Hypothesis N2 : N < U * U.
Hypothesis C : tnear U N c.
Hypothesis K1 : 4194304 * K <= 12223041 * U.
Hypothesis K2 : 12223041 * U < 4194304 * (K + 1).
Hypothesis Wd : w = K - 2 * c.

Lemma c_hi : c <= U.
Proof using U256 N2 C. clear N1 K1 K2 Wd. unfold tnear in C. apply Z.abs_le in C. nia. Qed.
Lemma c_lo : U - 2 <= 2 * c.
Proof using U256 N1 C. clear N2 K1 K2 Wd. unfold tnear in C. apply Z.abs_le in C. nia. Qed.
Lemma w_lo : 3 * U <= 4 * w.
Proof using U256 N2 C K2 Wd. clear N1 K1. pose proof c_hi. lia. Qed.
Lemma w_hi : w <= 2 * U.
Proof using U256 N1 C K1 Wd. clear N2 K2. pose proof c_lo. lia. Qed.
Lemma cw_hi : c * w <= 2 * U * U.
Proof using U256 N1 N2 C K1 K2 Wd. pose proof c_hi. pose proof c_lo. pose proof w_lo. pose proof w_hi. nia. Qed.
Hypothesis P0 : tnear U (c * w) p0.
Hypothesis E0 : e0 = U - p0.
Lemma S0_ok : Z.abs (c * w + U * e0 - U * U) <= U.
Proof using P0 E0. clear U256 N1 N2 C K1 K2 Wd. unfold tnear in P0. apply Z.abs_le in P0. apply Z.abs_le. subst e0. lia. Qed.
Lemma e0_ok : 128 * Z.abs e0 <= 11 * U + 512.
Proof using U256 N1 N2 C K1 K2 Wd P0 E0.
  pose proof c_hi. pose proof c_lo. unfold tnear in P0. apply Z.abs_le in P0. clear C.
  assert (E : e0 * U = U * U - p0 * U) by (subst e0; ring).
  assert (A1 : 2 * c * c <= c * (3 * U - 2) - U * U + 2 * U) by nia.
  assert (A2 : 4194304 * (3 * U - 2 - K) <= 359871 * U) by lia.
  assert (A3 : c * (4194304 * (3 * U - 2 - K)) <= U * (359871 * U)) by nia.
  assert (Q : U * U - c * w = 2 * c * c - K * c + U * U) by (subst w; ring).
  assert (HI : 4194304 * (U * U - c * w) <= 359871 * U * U + 4194304 * 2 * U) by nia.
  assert (B1 : 0 <= (4 * c - K) * (4 * c - K)) by (apply Z.square_nonneg).
  assert (B2 : K * K <= 9 * U * U) by nia.
  assert (B3 : 4194304 * (K * K) <= 12223041 * (U * K)) by nia.
  assert (B4 : 4194304 * 4194304 * (K * K) <= 12223041 * 12223041 * (U * U)) by nia.
  assert (LO : 8 * (U * U - c * w) >= 8 * U * U - K * K) by nia.
  assert (X1 : 4194304 * e0 <= 359871 * U + 4194304 * 3) by nia.
  assert (X2 : 128 * e0 >= - 11 * U - 512).
  { assert (16 * (U * U - c * w) >= - U * U) by nia. nia. }
  destruct (Z.abs_spec e0) as [[_ ->]|[_ ->]]; lia.
Qed.

(* the bound on |e| and |c r + U e - U^2| after i steps *)
Definition acc (i : Z) : Z := 2 ^ (7 * 2 ^ (i - 1)).
Definition small (i e : Z) : Prop := if i =? 0 then 128 * Z.abs e <= 11 * U + 512 else acc i * Z.abs e <= U + 2 * acc i.
Definition inv (i r e : Z) : Prop := 0 <= i /\ 0 <= r /\ small i e /\ Z.abs (c * r + U * e - U * U) <= (3 * i + 1) * U.

Lemma acc1 : acc 1 = 128. Proof. reflexivity. Qed.
Lemma acc_S i : 1 <= i -> acc (i + 1) = acc i * acc i.
Proof using.
  intros I. unfold acc. rewrite <- Z.pow_add_r by (pose proof (Z.pow_nonneg 2 (i - 1)); lia). f_equal.
  replace (i + 1 - 1) with (Z.succ (i - 1)) by lia. rewrite Z.pow_succ_r by lia. ring.
Qed.
Lemma acc_big i : 1 <= i -> 32 * (3 * i + 1) <= acc i /\ 128 <= acc i.
Proof using. clear.
  intros I. replace i with (1 + (i - 1)) by lia. assert (J : 0 <= i - 1) by lia. revert J. generalize (i - 1). clear I i.
  apply (natlike_ind (fun j => 32 * (3 * (1 + j) + 1) <= acc (1 + j) /\ 128 <= acc (1 + j))).
  - split; vm_compute; discriminate.
  - intros j J [A B]. replace (1 + Z.succ j) with (1 + j + 1) by lia. rewrite acc_S by lia. generalize dependent (acc (1 + j)). intros P A B. clear - A B J.
    assert (128 * P <= P * P) by (apply Z.mul_le_mono_nonneg_r; lia). lia.
Qed.
Lemma small_e i e : 0 <= i -> 16 * (3 * i + 1) <= U -> small i e -> (3 * i + 1) * Z.abs e <= U /\ 128 * Z.abs e <= 13 * U.
Proof using U256. clear N1 N2 C K1 K2 Wd P0 E0.
  intros I B S0. unfold small in S0. destruct (Z.eqb_spec i 0) as [->|NZ]; [lia|].
  destruct (acc_big i ltac:(lia)) as [A1 A2]. set (E := Z.abs e) in *. assert (0 <= E) by (unfold E; lia).
  set (P := acc i) in *. clearbody P E. clear - S0 A1 A2 B H I NZ U256.
  assert (X : 32 * (3 * i + 1) * E <= P * E) by nia.
  assert (Y : P * E <= U + 2 * P) by exact S0.
  destruct (Z.le_gt_cases E 2) as [L|G].
  - nia.
  - assert (32 * (3 * i + 1) * (E - 2) <= U) by nia. assert (128 * (E - 2) <= U) by nia. nia.
Qed.
Lemma r_hi i r e : inv i r e -> 16 * (3 * i + 1) <= U -> 2 * r <= 5 * U.
Proof using U256 N1 C. clear N2 K1 K2 Wd P0 E0.
  intros (I & R & S0 & A) B. destruct (small_e i e I B S0) as [_ E]. pose proof c_lo as CL. apply Z.abs_le in A.
  assert (X : c * r <= U * U + U * Z.abs e + (3 * i + 1) * U) by nia.
  assert (Y : 128 * (c * r) <= 149 * U * U) by nia. clear - CL Y R U256. nia.
Qed.
Lemma step r e r' e' i : inv i r e -> 16 * (3 * i + 1) <= U -> tnear U (r * (e + U)) r' -> 0 <= r' -> tnear U (e * e) e' -> inv (i + 1) r' e'.
Proof using U256 N1 N2 C. clear K1 K2 Wd P0 E0.
  intros H B RR R' EE. destruct H as (I & R & S0 & A). destruct (small_e i e I B S0) as [E1 E2]. pose proof c_hi as CH. pose proof c_lo as CL.
  split; [lia|]. split; [exact R'|]. split.
  - unfold small in *. destruct (Z.eqb_spec (i + 1) 0); [lia|]. unfold tnear in EE. apply Z.abs_le in EE.
    destruct (Z.eqb_spec i 0) as [->|NZ].
    + change (acc (0 + 1)) with 128. set (E := Z.abs e) in *. assert (EQ : e * e = E * E) by (unfold E; symmetry; apply Z.abs_square). rewrite EQ in EE.
      assert (0 <= E) by (unfold E; lia). assert (Q : 16384 * (E * E) <= (11 * U + 512) * (11 * U + 512)) by nia.
      assert (X : 16384 * (e' * U) <= 121 * U * U + 11264 * U + 262144 + 16384 * U) by nia.
      assert (Y : 16384 * e' <= 128 * U + 32768) by nia. assert (Z0 : - 1 <= e') by nia.
      clear - Y Z0 U256. destruct (Z.abs_spec e') as [[_ ->]|[_ ->]]; lia.
    + rewrite acc_S by lia. destruct (acc_big i ltac:(lia)) as [A1 A2]. set (P := acc i) in *. set (E := Z.abs e) in *.
      assert (EQ : e * e = E * E) by (unfold E; symmetry; apply Z.abs_square). rewrite EQ in EE. assert (0 <= E) by (unfold E; lia).
      clearbody P E. clear - EE S0 A2 U256 H.
      assert (Q : (P * P) * (E * E) <= (U + 2 * P) * (U + 2 * P)) by nia.
      assert (Q2 : 0 < P * P) by nia. assert (Q3 : 128 * P <= P * P) by nia.
      assert (X : (P * P) * (e' * U) <= U * U + 4 * P * U + 4 * (P * P) + (P * P) * U) by nia.
      assert (X2 : (P * P) * (e' * U) <= U * U + 2 * (P * P) * U).
      { assert (64 * (4 * P * U) <= 2 * (P * P) * U) by nia. assert (64 * (4 * (P * P)) <= (P * P) * U) by nia. lia. }
      assert (Y : (P * P) * e' <= U + 2 * (P * P)) by nia. assert (Z0 : - 1 <= e') by nia.
      destruct (Z.abs_spec e') as [[_ ->]|[G ->]]; [exact Y|]. nia.
  - unfold tnear in *. apply Z.abs_le in RR, EE, A. set (S := c * r + U * e - U * U) in *.
    assert (EQ : U * (c * r' + U * e' - U * U) = S * (U + e) + c * (r' * U - r * (e + U)) + U * (e' * U - e * e)) by (unfold S; ring).
    assert (B1 : Z.abs (S * (U + e)) <= (3 * i + 1) * U * (U + Z.abs e)).
    { rewrite Z.abs_mul. apply Z.mul_le_mono_nonneg; lia. }
    assert (B2 : Z.abs (c * (r' * U - r * (e + U))) <= U * U).
    { rewrite Z.abs_mul. apply Z.mul_le_mono_nonneg; lia. }
    assert (B3 : Z.abs (U * (e' * U - e * e)) <= U * U).
    { rewrite Z.abs_mul. apply Z.mul_le_mono_nonneg; lia. }
    assert (B4 : (3 * i + 1) * U * (U + Z.abs e) <= (3 * i + 1) * U * U + U * U).
    { replace ((3 * i + 1) * U * (U + Z.abs e)) with ((3 * i + 1) * U * U + U * ((3 * i + 1) * Z.abs e)) by ring.
      apply Z.add_le_mono_l, Z.mul_le_mono_nonneg_l; lia. }
    apply Z.abs_le in B1, B2, B3. apply Z.abs_le. clear - EQ B1 B2 B3 B4 U256 I.
    set (Q := c * r' + U * e' - U * U) in *. clearbody Q. split; apply (Z.mul_le_mono_pos_l _ _ U); lia.
Qed.
Definition final (n r : Z) : Prop := 0 <= r /\ acc n * Z.abs (c * r - U * U) <= U * U + acc n * ((3 * n + 1) * U).
Lemma last r e r' i : inv i r e -> 16 * (3 * i + 1) <= U -> tnear U (r * (e + U)) r' -> 0 <= r' -> final (i + 1) r'.
Proof using U256 N1 N2 C. clear K1 K2 Wd P0 E0.
  intros H B RR R'. destruct H as (I & R & S0 & A). destruct (small_e i e I B S0) as [E1 E2]. pose proof c_hi as CH. pose proof c_lo as CL.
  split; [exact R'|]. unfold tnear in *. apply Z.abs_le in RR, A. set (S := c * r + U * e - U * U) in *. set (E := Z.abs e) in *.
  assert (E0' : 0 <= E) by (unfold E; lia).
  assert (EQ : U * (c * r' - U * U) = - U * (e * e) + S * (U + e) + c * (r' * U - r * (e + U))) by (unfold S; ring).
  assert (B1 : Z.abs (S * (U + e)) <= (3 * i + 1) * U * (U + E)).
  { rewrite Z.abs_mul. apply Z.mul_le_mono_nonneg; unfold E; lia. }
  assert (B2 : Z.abs (c * (r' * U - r * (e + U))) <= U * U).
  { rewrite Z.abs_mul. apply Z.mul_le_mono_nonneg; lia. }
  assert (B4 : (3 * i + 1) * U * (U + E) <= (3 * i + 1) * U * U + U * U).
  { replace ((3 * i + 1) * U * (U + E)) with ((3 * i + 1) * U * U + U * ((3 * i + 1) * E)) by ring.
    apply Z.add_le_mono_l, Z.mul_le_mono_nonneg_l; lia. }
  assert (EE : e * e = E * E) by (unfold E; symmetry; apply Z.abs_square). rewrite EE in EQ.
  apply Z.abs_le in B1, B2.
  assert (M : Z.abs (c * r' - U * U) <= E * E + (3 * i + 3) * U).
  { apply Z.abs_le. clear - EQ B1 B2 B4 U256 I E0'. set (Q := c * r' - U * U) in *. clearbody Q. split; apply (Z.mul_le_mono_pos_l _ _ U); lia. }
  clear EQ B1 B2 B4 RR A. set (Q := Z.abs (c * r' - U * U)) in *.
  unfold small in S0. fold E in S0. destruct (Z.eqb_spec i 0) as [->|NZ].
  - change (acc (0 + 1)) with 128. clearbody E Q. clear - M S0 U256 E0'.
    assert (16384 * (E * E) <= (11 * U + 512) * (11 * U + 512)) by nia. nia.
  - rewrite acc_S by lia. destruct (acc_big i ltac:(lia)) as [A1 A2]. set (P := acc i) in *. clearbody P E Q. clear - M S0 U256 E0' A2 I.
    assert (Q1 : (P * P) * (E * E) <= (U + 2 * P) * (U + 2 * P)) by nia.
    assert (Q3 : 128 * P <= P * P) by nia.
    assert (X1 : 16 * (4 * P * U) <= (P * P) * U) by nia. assert (X2 : 16 * (4 * (P * P)) <= (P * P) * U) by nia.
    assert (X : (P * P) * Q <= (P * P) * (E * E) + (P * P) * ((3 * i + 3) * U)) by nia. nia.
Qed.
Lemma final_hi n r : final n r -> 1 <= n -> 16 * (3 * n + 1) <= U -> 2 * r <= 5 * U.
Proof using U256 N1 C. clear N2 K1 K2 Wd P0 E0.
  intros [R F] N0 B. pose proof c_lo as CL. destruct (acc_big n N0) as [_ A2]. set (P := acc n) in *.
  set (Q := Z.abs (c * r - U * U)) in *. assert (QB : c * r <= U * U + Q) by (unfold Q; lia). clearbody P Q.
  assert (X : Q <= U * U / 8). { apply Z.div_le_lower_bound; [lia|]. assert (16 * ((3 * n + 1) * U) <= U * U) by nia. nia. }
  assert (Y : 8 * Q <= U * U). { pose proof (Z.mul_div_le (U * U) 8 ltac:(lia)). lia. }
  clear - CL QB Y R U256. nia.
Qed.
(* the reciprocal of v: N = v * fac *)
Lemma recip_final n r v fac y : final n r -> 1 <= n -> 16 * (3 * n + 1) <= U -> 0 < v -> N = v * fac -> tnear U (r * fac) y ->
  acc n * Z.abs (v * y - U * U) <= U * U + acc n * ((3 * n + 4) * U + v).
Proof using U256 N1 C. clear N2 K1 K2 Wd P0 E0.
  intros F N0 B V EN Y. pose proof (final_hi n r F N0 B) as RH. destruct F as [R F]. destruct (acc_big n N0) as [_ A2]. unfold tnear in *.
  apply Z.abs_le in Y. pose proof C as C'. apply Z.abs_le in C'.
  assert (EQ : U * (v * y - U * U) = U * (c * r - U * U) - r * (c * U - N) + v * (y * U - r * fac)) by (rewrite EN; ring).
  assert (B1 : Z.abs (r * (c * U - N)) <= r * U). { rewrite Z.abs_mul. rewrite (Z.abs_eq r R). apply Z.mul_le_mono_nonneg_l; lia. }
  assert (B2 : Z.abs (v * (y * U - r * fac)) <= v * U). { rewrite Z.abs_mul. rewrite (Z.abs_eq v) by lia. apply Z.mul_le_mono_nonneg_l; lia. }
  set (Q := Z.abs (c * r - U * U)) in *. assert (QA : - Q <= c * r - U * U <= Q) by (unfold Q; lia).
  apply Z.abs_le in B1, B2. assert (M : Z.abs (v * y - U * U) <= Q + r + v).
  { apply Z.abs_le. set (D := v * y - U * U) in *. set (G := c * r - U * U) in *. clearbody D G Q. clear - EQ B1 B2 QA U256. assert (U * - Q <= U * G <= U * Q) by (split; apply Z.mul_le_mono_nonneg_l; lia). split; apply (Z.mul_le_mono_pos_l _ _ U); lia. }
  set (P := acc n) in *. clearbody P Q. clear - M F RH A2 U256.
  assert (P * Z.abs (v * y - U * U) <= P * (Q + r + v)) by (apply Z.mul_le_mono_nonneg_l; lia).
  assert (P * r <= P * (3 * U)) by (apply Z.mul_le_mono_nonneg_l; lia). lia.
Qed.
(* the quotient a / v *)
Lemma div_final n r a v fac r1 y : final n r -> 1 <= n -> 16 * (3 * n + 1) <= U -> 0 < v -> N = v * fac ->
  tnear U (r * a) r1 -> tnear U (r1 * fac) y ->
  2 * Z.abs r1 <= 5 * Z.abs a + 2 /\
  acc n * Z.abs (v * y - a * U) <= Z.abs a * U + acc n * ((3 * n + 4) * Z.abs a + U + 1 + v).
Proof using U256 N1 N2 C. clear K1 K2 Wd P0 E0.
  intros F N0 B V EN Y1 Y. pose proof (final_hi n r F N0 B) as RH. destruct F as [R F]. destruct (acc_big n N0) as [_ A2]. unfold tnear in *.
  pose proof c_hi as CH. pose proof c_lo as CL. set (A := Z.abs a) in *. assert (A0 : 0 <= A) by (unfold A; lia).
  assert (R1 : 2 * Z.abs r1 <= 5 * A + 2).
  { assert (X : Z.abs (r1 * U) <= Z.abs (r * a) + U) by lia. rewrite !Z.abs_mul in X. rewrite (Z.abs_eq U), (Z.abs_eq r) in X by lia. fold A in X.
    set (R' := Z.abs r1) in *. clearbody R' A. clear - X RH R A0 U256. nia. }
  split; [exact R1|]. apply Z.abs_le in Y, Y1. pose proof C as C'. apply Z.abs_le in C'.
  set (D := v * y - a * U). set (G := c * r - U * U) in *.
  assert (EQ : U * U * D = U * U * (v * y) - U * U * (a * U)) by (unfold D; ring).
  assert (E2 : U * (U * (v * y)) = U * (c * (r1 * U)) - U * (r1 * (c * U - N)) + U * (v * (y * U - r1 * fac))) by (rewrite EN; ring).
  assert (E3 : c * (r1 * U) = a * (U * U) + a * G + c * (r1 * U - r * a)) by (unfold G; ring).
  assert (B1 : Z.abs (r1 * (c * U - N)) <= Z.abs r1 * U). { rewrite Z.abs_mul. apply Z.mul_le_mono_nonneg_l; lia. }
  assert (B2 : Z.abs (v * (y * U - r1 * fac)) <= v * U). { rewrite Z.abs_mul. rewrite (Z.abs_eq v) by lia. apply Z.mul_le_mono_nonneg_l; lia. }
  assert (B3 : Z.abs (c * (r1 * U - r * a)) <= U * U). { rewrite Z.abs_mul. apply Z.mul_le_mono_nonneg; lia. }
  assert (B4 : Z.abs (a * G) = A * Z.abs G) by apply Z.abs_mul.
  assert (ED : U * D = a * G + c * (r1 * U - r * a) - r1 * (c * U - N) + v * (y * U - r1 * fac)).
  { apply (Z.mul_reg_l _ _ U); [lia|]. rewrite E3 in E2. unfold D. lia. }
  set (Q := Z.abs G) in *. assert (M : U * Z.abs D <= A * Q + U * U + Z.abs r1 * U + v * U).
  { rewrite <- (Z.abs_eq U) at 1 by lia. rewrite <- Z.abs_mul, ED. lia. }
  set (P := acc n) in *. set (R' := Z.abs r1) in *. set (D' := Z.abs D) in *. clearbody P Q R' D' A. clear - M F R1 A2 A0 U256 V.
  assert (X : A * (P * Q) <= A * (U * U + P * ((3 * n + 1) * U))) by (apply Z.mul_le_mono_nonneg_l; assumption).
  assert (Y : U * (P * D') <= U * (A * U + P * ((3 * n + 1) * A + U + R' + v))) by nia.
  assert (Y' : P * D' <= A * U + P * ((3 * n + 1) * A + U + R' + v)) by (apply (Z.mul_le_mono_pos_l _ _ U); lia).
  assert (P * R' <= P * (3 * A + 1)) by (apply Z.mul_le_mono_nonneg_l; lia). lia.
Qed.
End Num.
