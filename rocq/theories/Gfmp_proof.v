From Coq Require Import Znumtheory Zpow_facts.
From Verif Require Import Base Gfmp_model Pock_proof.
Open Scope Z_scope.

Lemma width_facts w : is_width w -> 0 < w /\ 0 < mexp w < w /\ 2 * mexp w - w >= 0 /\ w <= 128 /\ mexp w >= 31 /\ 2 * (w - mexp w) < mexp w.
Proof. intros [-> | [-> | ->]]; cbn; lia. Qed.
Lemma mprime_prime w : is_width w -> prime (mprime w).
Proof. intros [-> | [-> | ->]]; [exact m31_prime|exact m61_prime|exact m127_prime]. Qed.
Lemma land_ones_mod x e : 0 <= e -> Z.land x (2 ^ e - 1) = x mod 2 ^ e.
Proof. intros. rewrite <- Z.land_ones by lia. f_equal. rewrite Z.ones_equiv. lia. Qed.
Lemma pow_lt e w : 0 <= e < w -> 2 * 2 ^ e <= 2 ^ w.
Proof. intros. rewrite <- Z.pow_succ_r by lia. apply Z.pow_le_mono_r; lia. Qed.

(* ---- the double-width product ---- *)
Lemma mul_narrow_ok w x y : 0 < w -> 0 <= x < 2 ^ w -> 0 <= y < 2 ^ w ->
  let '(lo, hi) := mul_narrow w x y in 0 <= lo < 2 ^ w /\ 0 <= hi < 2 ^ w /\ lo + 2 ^ w * hi = x * y.
Proof.
  intros W X Y. unfold mul_narrow. pose proof (pow2_pos w ltac:(lia)) as P.
  assert (E : 2 ^ (2 * w) = 2 ^ w * 2 ^ w) by (rewrite <- pow2_split by lia; f_equal; lia).
  rewrite (wrap_small (2 * w)) by nia. rewrite Z.shiftr_div_pow2 by lia.
  split; [apply wrap_range; lia|]. split; [apply wrap_range; lia|].
  rewrite (wrap_small w (_ / _)).
  - unfold wrap. pose proof (Z.div_mod (x * y) (2 ^ w)). lia.
  - split; [apply Z.div_pos; nia|]. apply Z.div_lt_upper_bound; nia.
Qed.
Lemma carry_ok M a b : 0 <= a < M -> 0 <= b < M -> (a + b) mod M + M * (if (a + b) mod M <? b then 1 else 0) = a + b.
Proof.
  intros A B. destruct (Z.lt_ge_cases (a + b) M) as [L|L].
  - rewrite Z.mod_small by lia. destruct (Z.ltb_spec (a + b) b); lia.
  - replace ((a + b) mod M) with (a + b - M).
    + destruct (Z.ltb_spec (a + b - M) b); lia.
    + symmetry. rewrite <- (Z.mod_small (a + b - M) M) by lia. rewrite <- (Z_mod_plus_full (a + b - M) 1 M). f_equal. lia.
Qed.
Lemma add_chain M a b c d : ((((a mod M + b) mod M) + c) mod M + d) mod M = (a + b + c + d) mod M.
Proof.
  rewrite (Zplus_mod_idemp_l a b M). rewrite Zplus_mod_idemp_l.
  replace ((a + b) mod M + c + d) with ((a + b) mod M + (c + d)) by ring. rewrite Zplus_mod_idemp_l. f_equal. ring.
Qed.
Lemma mulH H m : 0 <= m < H -> 0 <= H * m < H * H.
Proof. intros; split; [apply Z.mul_nonneg_nonneg; lia|apply Z.mul_lt_mono_pos_l; lia]. Qed.
Lemma pairH H l h : 0 <= l < H -> 0 <= h < H -> 0 <= l + H * h <= H * H - 1.
Proof. intros. assert (H * h <= H * (H - 1)) by (apply Z.mul_le_mono_nonneg_l; lia). pose proof (mulH H h ltac:(lia)). lia. Qed.
Lemma sqM M x y : 0 <= x <= M - 1 -> 0 <= y <= M - 1 -> x * y < M * M.
Proof. intros. apply Z.le_lt_trans with ((M - 1) * (M - 1)); [apply Z.mul_le_mono_nonneg; lia|lia]. Qed.
Lemma hi_bound M l h z : 0 <= l -> 0 < M -> l + M * h = z -> z < M * M -> h < M.
Proof. intros. destruct (Z.lt_ge_cases h M) as [|G]; [assumption|]. pose proof (Z.mul_le_mono_nonneg_l M h M ltac:(lia) G). lia. Qed.
Lemma limbs_ok H xl xh yl yh : 1 < H -> 0 <= xl < H -> 0 <= xh < H -> 0 <= yl < H -> 0 <= yh < H ->
  let M := H * H in
  let a := (xl * yh) mod M in let b := (xh * yl) mod M in
  let sa := (a * H) mod M in let sb := (b * H) mod M in
  let lo1 := ((xl * yl) mod M + sa) mod M in
  let hi1 := if lo1 <? sa then 1 else 0 in
  let lo2 := (lo1 + sb) mod M in
  let hi2 := (hi1 + if lo2 <? sb then 1 else 0) mod M in
  let hi3 := (hi2 + (xh * yh) mod M) mod M in
  let hi4 := (hi3 + a / H) mod M in
  let hi5 := (hi4 + b / H) mod M in
  0 <= lo2 < M /\ 0 <= hi5 < M /\ lo2 + M * hi5 = (xl + H * xh) * (yl + H * yh).
Proof.
  intros HP XL XH YL YH M. assert (MP : 0 < M) by (unfold M; apply Z.mul_pos_pos; lia).
  assert (B : forall a b, 0 <= a < H -> 0 <= b < H -> 0 <= a * b <= (H - 1) * (H - 1)).
  { intros a b A C. split; [apply Z.mul_nonneg_nonneg; lia|]. apply Z.mul_le_mono_nonneg; lia. }
  assert (MB : (H - 1) * (H - 1) < M - 1) by (unfold M; clear - HP; nia).
  assert (MS : forall a b, 0 <= a < H -> 0 <= b < H -> (a * b) mod M = a * b).
  { intros a b A C. apply Z.mod_small. specialize (B a b A C). lia. }
  rewrite !MS by assumption. clear MS.
  pose proof (B xl yl XL YL) as B0. pose proof (B xl yh XL YH) as B1. pose proof (B xh yl XH YL) as B2. pose proof (B xh yh XH YH) as B3.
  assert (SH : forall z, (z * H) mod M = H * (z mod H)).
  { intros z. unfold M. rewrite Z.mul_comm. apply Z.mul_mod_distr_l; lia. }
  intros a b sa sb. assert (ESA : sa = H * (a mod H)) by apply SH. assert (ESB : sb = H * (b mod H)) by apply SH. clearbody sa sb.
  assert (DD : forall z, 0 <= z <= (H - 1) * (H - 1) -> 0 <= z / H < H /\ 0 <= H * (z mod H) < M /\ z = H * (z / H) + z mod H).
  { intros z Z0. pose proof (Z.mod_pos_bound z H ltac:(lia)). split; [split; [apply Z.div_pos; lia|apply Z.div_lt_upper_bound; lia]|].
    split; [apply mulH; assumption|apply Z.div_mod; lia]. }
  destruct (DD a B1) as (QA & RA & EA). destruct (DD b B2) as (QB & RB & EB). rewrite <- ESA in RA. rewrite <- ESB in RB.
  set (l0 := xl * yl) in *. assert (L0 : 0 <= l0 < M) by lia.
  intros lo1. pose proof (carry_ok M l0 sa L0 RA) as C1. fold lo1 in C1.
  assert (L1 : 0 <= lo1 < M) by (apply Z.mod_pos_bound; exact MP).
  intros hi1. fold hi1 in C1. intros lo2. pose proof (carry_ok M lo1 sb L1 RB) as C2. fold lo2 in C2.
  assert (L2 : 0 <= lo2 < M) by (apply Z.mod_pos_bound; exact MP).
  set (c2 := if lo2 <? sb then 1 else 0) in *. assert (R1 : 0 <= hi1 <= 1) by (unfold hi1; clear; destruct (lo1 <? sa); lia).
  assert (R2 : 0 <= c2 <= 1) by (unfold c2; clear; destruct (lo2 <? sb); lia).
  intros hi2 hi3 hi4 hi5.
  assert (HE : hi5 = (hi1 + c2 + xh * yh + a / H + b / H) mod M).
  { apply add_chain. }
  clearbody hi5. clear hi2 hi3 hi4. clearbody c2 hi1. clearbody lo2. clearbody lo1. clear DD SH B.
  set (qa := a / H) in *. set (qb := b / H) in *. set (ra := a mod H) in *. set (rb := b mod H) in *.
  clearbody qa qb ra rb.
  assert (PR : lo2 + M * (hi1 + c2 + xh * yh + qa + qb) = (xl + H * xh) * (yl + H * yh)).
  { transitivity (l0 + H * ra + H * rb + M * (xh * yh + qa + qb)); [clear - C1 C2 ESA ESB; lia|].
    transitivity (l0 + H * a + H * b + H * H * (xh * yh)); [|unfold l0, a, b; ring].
    rewrite EA, EB. unfold M. ring. }
  assert (H0 : 0 <= hi1 + c2 + xh * yh + qa + qb) by (clear - R1 R2 B3 QA QB; lia).
  set (hh := hi1 + c2 + xh * yh + qa + qb) in *. clearbody hh.
  assert (HM : hh < M).
  { apply (hi_bound M lo2 hh _ (proj1 L2) MP PR). apply sqM; apply pairH; assumption. }
  rewrite HE, Z.mod_small by (split; assumption). split; [exact L2|]. split; [split; assumption|exact PR].
Qed.
Lemma mul_128_ok x y : 0 <= x < 2 ^ 128 -> 0 <= y < 2 ^ 128 ->
  let '(lo, hi) := mul_128 x y in 0 <= lo < 2 ^ 128 /\ 0 <= hi < 2 ^ 128 /\ lo + 2 ^ 128 * hi = x * y.
Proof.
  intros X Y.
  assert (EL : forall z, 0 <= z < 2 ^ 128 -> wrap 64 (Z.land z (2 ^ 64 - 1)) = z mod 2 ^ 64).
  { intros z Z0. rewrite land_ones_mod by lia. unfold wrap. apply Z.mod_mod. lia. }
  assert (EH : forall z, 0 <= z < 2 ^ 128 -> wrap 64 (Z.shiftr z 64) = z / 2 ^ 64 /\ 0 <= z / 2 ^ 64 < 2 ^ 64).
  { intros z Z0. rewrite Z.shiftr_div_pow2 by lia.
    assert (R : 0 <= z / 2 ^ 64 < 2 ^ 64) by (split; [apply Z.div_pos; lia|apply Z.div_lt_upper_bound; lia]).
    split; [apply wrap_small; exact R|exact R]. }
  destruct (EH x X) as (EX & RX). destruct (EH y Y) as (EY & RY).
  pose proof (Z.mod_pos_bound x (2 ^ 64) ltac:(lia)) as MX. pose proof (Z.mod_pos_bound y (2 ^ 64) ltac:(lia)) as MY.
  pose proof (limbs_ok (2 ^ 64) (x mod 2 ^ 64) (x / 2 ^ 64) (y mod 2 ^ 64) (y / 2 ^ 64) ltac:(lia) MX RX MY RY) as L.
  cbv zeta in L. rewrite !(Z.add_comm (_ mod 2 ^ 64)), <- !Z.div_mod in L by lia.
  unfold mul_128. rewrite !EL, EX, EY by assumption. rewrite !Z.shiftl_mul_pow2, !Z.shiftr_div_pow2 by lia.
  unfold wrap. change (2 ^ 128) with (2 ^ 64 * 2 ^ 64). exact L.
Qed.
Lemma mul_wide_ok w x y : is_width w -> 0 <= x < 2 ^ w -> 0 <= y < 2 ^ w ->
  let '(lo, hi) := mul_wide w x y in 0 <= lo < 2 ^ w /\ 0 <= hi < 2 ^ w /\ lo + 2 ^ w * hi = x * y.
Proof.
  intros W X Y. unfold mul_wide. destruct (Z.eqb_spec w 128) as [->|NE]; [apply mul_128_ok; assumption|].
  apply mul_narrow_ok; auto. destruct W as [-> | [-> | ->]]; lia.
Qed.

(* ---- the prime ---- *)
Lemma p_facts w : is_width w -> exists P, P = 2 ^ mexp w /\ mprime w = P - 1 /\ 2 ^ 31 <= P /\ 2 * P <= 2 ^ w.
Proof.
  intros W. exists (2 ^ mexp w). split; [reflexivity|]. split; [reflexivity|].
  destruct (width_facts w W) as (A & B & _ & _ & C & _). split; [apply Z.pow_le_mono_r; lia|apply pow_lt; lia].
Qed.
Lemma disjoint_add u v s : 0 <= s -> 0 <= u < 2 ^ s -> Z.lxor u (v * 2 ^ s) = u + v * 2 ^ s.
Proof.
  intros S0 U. symmetry. apply Z.add_nocarry_lxor. apply Z.bits_inj'. intros i I. rewrite Z.land_spec, Z.bits_0.
  destruct (Z.lt_ge_cases i s).
  - rewrite Z.mul_pow2_bits_low by lia. apply andb_false_r.
  - replace (Z.testbit u i) with false; [reflexivity|]. symmetry. rewrite <- (Z.mod_small u (2 ^ s)) by exact U.
    apply Z.mod_pow2_bits_high. lia.
Qed.
Lemma fold_mersenne P N : 1 < P -> 0 <= N -> N mod (P - 1) = (N mod P + N / P) mod (P - 1) \/ P = 2.
Proof.
  intros HP HN. destruct (Z.eq_dec P 2) as [|NE]; [right; assumption|left].
  rewrite (Z.div_mod N P) at 1 by lia.
  replace (P * (N / P) + N mod P) with (N mod P + N / P + (N / P) * (P - 1)) by ring. apply Z_mod_plus_full.
Qed.
Lemma reduce1 p s : 0 < p -> 0 <= s < 2 * p -> (if p <=? s then s - p else s) = s mod p.
Proof.
  intros P S0. destruct (Z.leb_spec p s).
  - rewrite <- (Z.mod_small (s - p) p) by lia. rewrite <- (Z_mod_plus_full (s - p) 1 p). f_equal. ring.
  - symmetry. apply Z.mod_small. lia.
Qed.
Lemma mul_mod_ok w x y : is_width w -> 0 <= x <= mprime w -> 0 <= y <= mprime w -> mul_mod w x y = (x * y) mod mprime w.
Proof.
  intros W X Y. destruct (p_facts w W) as (P & EP & Ep & P31 & PW). destruct (width_facts w W) as (W0 & WE & WD & _ & WG & _).
  rewrite Ep in *. unfold mul_mod. pose proof (mul_wide_ok w x y W ltac:(lia) ltac:(lia)) as M.
  destruct (mul_wide w x y) as (lo, hi). destruct M as (L & H & E). rewrite Ep.
  set (N := x * y) in *.
  assert (NB : 0 <= N <= (P - 1) * (P - 1)) by (unfold N; split; [apply Z.mul_nonneg_nonneg; lia|apply Z.mul_le_mono_nonneg; lia]).
  clearbody N. clear x y X Y.
  set (s := w - mexp w). assert (PS : 2 ^ w = P * 2 ^ s) by (rewrite EP; unfold s; rewrite <- pow2_split by lia; f_equal; lia).
  pose proof (pow2_pos s ltac:(unfold s; lia)) as SP.
  assert (ND : N / P = lo / P + hi * 2 ^ s).
  { rewrite <- E, PS. replace (lo + P * 2 ^ s * hi) with (lo + (hi * 2 ^ s) * P) by ring. apply Z.div_add. lia. }
  assert (NM : N mod P = lo mod P).
  { rewrite <- E, PS. replace (lo + P * 2 ^ s * hi) with (lo + (hi * 2 ^ s) * P) by ring. apply Z_mod_plus_full. }
  assert (NQ : 0 <= N / P <= P - 2).
  { split; [apply Z.div_pos; lia|]. apply Z.lt_succ_r. apply Z.div_lt_upper_bound; [lia|]. unfold Z.succ. lia. }
  assert (LQ : 0 <= lo / P < 2 ^ s).
  { split; [apply Z.div_pos; lia|]. apply Z.div_lt_upper_bound; lia. }
  assert (HS : 0 <= hi * 2 ^ s) by (apply Z.mul_nonneg_nonneg; lia).
  rewrite Z.shiftl_mul_pow2 by (unfold s; lia). fold s. rewrite (wrap_small w (hi * 2 ^ s)) by lia.
  rewrite Z.shiftr_div_pow2, <- EP by lia. rewrite disjoint_add by (try exact LQ; unfold s; lia). rewrite <- ND.
  assert (LA : Z.land lo (P - 1) = N mod P) by (rewrite EP, land_ones_mod, <- EP by lia; symmetry; exact NM). rewrite LA.
  pose proof (Z.mod_pos_bound N P ltac:(lia)) as MB.
  rewrite (wrap_small w (N mod P + N / P)) by lia.
  destruct (fold_mersenne P N ltac:(lia) ltac:(lia)) as [F|F]; [|lia]. rewrite F.
  rewrite <- (reduce1 (P - 1)) by lia. destruct (Z.leb_spec (P - 1) (N mod P + N / P)); [|reflexivity].
  apply wrap_small. lia.
Qed.
Lemma add_mod_ok w x y : is_width w -> 0 <= x <= mprime w -> 0 <= y <= mprime w ->
  add_mod w x y = if mprime w <=? x + y then x + y - mprime w else x + y.
Proof.
  intros W X Y. destruct (p_facts w W) as (P & EP & Ep & P31 & PW). unfold add_mod. rewrite Ep in *.
  rewrite (wrap_small w (x + y)) by lia. destruct (Z.leb_spec (P - 1) (x + y)); [|reflexivity]. apply wrap_small. lia.
Qed.
Lemma add_mod_canon w x y : is_width w -> 0 <= x < mprime w -> 0 <= y <= mprime w -> add_mod w x y = (x + y) mod mprime w.
Proof. intros W X Y. rewrite add_mod_ok by (auto; lia). apply reduce1; lia. Qed.
Lemma add_mod_canon_r w x y : is_width w -> 0 <= x <= mprime w -> 0 <= y < mprime w -> add_mod w x y = (x + y) mod mprime w.
Proof. intros W X Y. rewrite add_mod_ok by (auto; lia). apply reduce1; lia. Qed.
Lemma add_inv_ok w x : is_width w -> 0 <= x <= mprime w -> add_inv w x = mprime w - x.
Proof.
  intros W X. destruct (p_facts w W) as (P & EP & Ep & P31 & PW). destruct (width_facts w W) as (W0 & WE & _).
  unfold add_inv. rewrite Ep in *. rewrite EP in *. set (e := mexp w) in *.
  assert (ON : 2 ^ e - 1 = Z.ones e) by (rewrite Z.ones_equiv; lia).
  assert (H : Z.lxor x (2 ^ e - 1) + x = 2 ^ e - 1).
  { rewrite Z.add_nocarry_lxor.
    - rewrite (Z.lxor_comm x), Z.lxor_assoc, Z.lxor_nilpotent. apply Z.lxor_0_r.
    - apply Z.bits_inj'. intros i I. rewrite Z.land_spec, Z.lxor_spec, Z.bits_0, ON.
      destruct (Z.lt_ge_cases i e).
      + rewrite Z.ones_spec_low by lia. destruct (Z.testbit x i); reflexivity.
      + rewrite Z.ones_spec_high by lia. replace (Z.testbit x i) with false; [reflexivity|].
        rewrite <- (Z.mod_small x (2 ^ e)) by lia. symmetry. apply Z.mod_pow2_bits_high. lia. }
  lia.
Qed.
Lemma sub_mod_ok w x y : is_width w -> 0 <= x < mprime w -> 0 <= y <= mprime w -> sub_mod w x y = (x - y) mod mprime w.
Proof.
  intros W X Y. unfold sub_mod. rewrite add_inv_ok by auto. rewrite add_mod_canon by (auto; lia).
  rewrite <- (Z_mod_plus_full (x - y) 1). f_equal. ring.
Qed.
Lemma mod_p_ok w x : is_width w -> 0 <= x < 2 ^ w -> mod_p w x = x mod mprime w.
Proof.
  intros W X. destruct (p_facts w W) as (P & EP & Ep & P31 & PW). destruct (width_facts w W) as (W0 & WE & WD & _ & WG & WH).
  unfold mod_p. rewrite Ep. rewrite Z.shiftr_div_pow2, <- EP by lia.
  assert (LA : Z.land x (P - 1) = x mod P) by (rewrite EP, land_ones_mod, <- EP by lia; reflexivity). rewrite LA.
  pose proof (Z.mod_pos_bound x P ltac:(lia)) as MB.
  assert (Q : 0 <= x / P < 2 ^ (w - mexp w)).
  { split; [apply Z.div_pos; lia|]. apply Z.div_lt_upper_bound; [lia|]. rewrite EP, <- pow2_split by lia.
    replace (mexp w + (w - mexp w)) with w by lia. lia. }
  assert (QS : 2 * 2 ^ (w - mexp w) <= P) by (rewrite EP; apply pow_lt; lia).
  rewrite (wrap_small w (x mod P + x / P)) by lia.
  destruct (fold_mersenne P x ltac:(lia) ltac:(lia)) as [F|F]; [|lia]. rewrite F, <- (reduce1 (P - 1)) by lia.
  destruct (Z.leb_spec (P - 1) (x mod P + x / P)); [|reflexivity]. apply wrap_small. lia.
Qed.

(* ---- inversion ---- *)
Lemma bezout_step p a b x y : 0 < p -> b <> 0 ->
  (a * x + b * ((y + (p - (a / b * x) mod p)) mod p)) mod p = (b * y + a mod b * x) mod p.
Proof.
  intros P B. pose proof (Z.div_mod a b B) as D. pose proof (Z.div_mod (a / b * x) p ltac:(lia)) as T.
  set (q := a / b) in *. set (m := a mod b) in *. set (t := (q * x) mod p) in *. set (j := q * x / p) in *.
  clearbody q m t j. rewrite Z.add_mod, Z.mul_mod_idemp_r, <- Z.add_mod by lia.
  replace (a * x + b * (y + (p - t))) with (b * y + m * x + (b + b * j) * p); [apply Z_mod_plus_full|].
  replace t with (q * x - p * j) by lia. rewrite D. ring.
Qed.
Lemma gcd_loop_ok w : is_width w -> forall n a b, 0 <= a <= mprime w -> 0 <= b <= mprime w -> b <= a ->
  a * b < 2 ^ Z.of_nat n ->
  exists x y, extend_gcd (S n) w a b = Some (x, y) /\ 0 <= x < mprime w /\ 0 <= y < mprime w /\
    (a * x + b * y) mod mprime w = Z.gcd a b mod mprime w.
Proof.
  intros W. destruct (p_facts w W) as (P & EP & Ep & P31 & PW). set (p := mprime w) in *.
  induction n as [|n IH]; intros a b A B AB N; cbn [extend_gcd].
  - destruct (Z.eqb_spec b 0) as [->|NE].
    + exists 1, 0. split; [reflexivity|]. rewrite Z.gcd_0_r, Z.abs_eq by lia. repeat split; try lia. f_equal. ring.
    + exfalso. cbn in N. nia.
  - destruct (Z.eqb_spec b 0) as [->|NE].
    + exists 1, 0. split; [reflexivity|]. rewrite Z.gcd_0_r, Z.abs_eq by lia. repeat split; try lia. f_equal. ring.
    + pose proof (Z.mod_pos_bound a b ltac:(lia)) as M. pose proof (Z.div_mod a b NE) as D.
      assert (Q1 : 1 <= a / b) by (apply Z.div_le_lower_bound; lia).
      assert (H2 : 2 * (a mod b) <= a) by nia.
      assert (N2 : b * (a mod b) < 2 ^ Z.of_nat n).
      { rewrite Nat2Z.inj_succ, Z.pow_succ_r in N by lia. nia. }
      destruct (IH b (a mod b) ltac:(lia) ltac:(lia) ltac:(lia) N2) as (y & x & E & Y & X & G).
      cbn [extend_gcd] in E. rewrite E.
      assert (QP : 0 <= a / b <= p) by (split; [lia|]; apply Z.le_trans with a; [|lia]; apply Z.div_le_upper_bound; [lia|];
        assert (1 * a <= b * a) by (apply Z.mul_le_mono_nonneg_r; lia); lia).
      rewrite mul_mod_ok by (auto; fold p; lia). fold p.
      pose proof (Z.mod_pos_bound (a / b * x) p ltac:(lia)) as TB.
      rewrite add_inv_ok by (auto; fold p; lia). fold p. rewrite add_mod_canon by (auto; fold p; lia). fold p.
      eexists _, _. split; [reflexivity|]. split; [lia|]. split; [apply Z.mod_pos_bound; lia|].
      rewrite Z.gcd_comm, <- Z.gcd_mod by lia. rewrite Z.gcd_comm, <- G.
      apply bezout_step; lia.
Qed.
Lemma mul_inv_ok w x : is_width w -> 0 < x < mprime w ->
  exists r, mul_inv w x = Some r /\ 0 < r < mprime w /\ (x * r) mod mprime w = 1.
Proof.
  intros W X. destruct (p_facts w W) as (P & EP & Ep & P31 & PW). destruct (width_facts w W) as (W0 & WE & WD & _ & WG & WH).
  unfold mul_inv. set (p := mprime w) in *.
  destruct (gcd_loop_ok w W (Z.to_nat (2 * w + 1)) p x) as (u & r & E & _ & R & G); fold p; try lia.
  { replace (Z.of_nat (Z.to_nat (2 * w + 1))) with (2 * w + 1) by lia.
    apply Z.lt_le_trans with (2 ^ w * 2 ^ w); [apply Z.mul_lt_mono_nonneg; lia|].
    rewrite <- pow2_split by lia. apply Z.pow_le_mono_r; lia. }
  replace (Z.to_nat (2 * w + 2)) with (S (Z.to_nat (2 * w + 1))) by lia. fold p in E. rewrite E.
  assert (GC : Z.gcd p x = 1).
  { apply Zgcd_1_rel_prime. apply prime_rel_prime; [apply mprime_prime; exact W|]. intros D.
    apply Z.divide_pos_le in D; lia. }
  rewrite GC, (Z.mod_small 1) in G by lia. rewrite Z.add_comm, (Z.mul_comm p), Z_mod_plus_full in G.
  exists r. split; [reflexivity|]. split; [|exact G].
  fold p in R. destruct (Z.eq_dec r 0) as [->|]; [|lia]. rewrite Z.mul_0_r, Zmod_0_l in G. discriminate.
Qed.
Lemma div_mod_ok w x y : is_width w -> 0 <= x <= mprime w -> 0 < y < mprime w ->
  exists r, div_mod w x y = Some r /\ 0 <= r < mprime w /\ (r * y) mod mprime w = x mod mprime w.
Proof.
  intros W X Y. destruct (mul_inv_ok w y W Y) as (z & E & Z0 & M). unfold div_mod. rewrite E.
  destruct (p_facts w W) as (P & EP & Ep & P31 & PW). set (p := mprime w) in *.
  eexists. split; [reflexivity|]. rewrite mul_mod_ok by (auto; fold p; lia). fold p.
  split; [apply Z.mod_pos_bound; lia|]. rewrite Z.mul_mod_idemp_l by lia.
  replace (x * z * y) with (x * (y * z)) by ring. rewrite Z.mul_mod, M, Z.mul_1_r by lia. apply Z.mod_mod. lia.
Qed.

(* ---- exponentiation ---- *)
Lemma exp_loop_ok w : is_width w -> forall f power inter n, 0 <= power <= mprime w -> 0 <= inter <= mprime w ->
  0 < n < 2 ^ Z.of_nat f -> exp_loop f w power inter n = Some ((power ^ n * inter) mod mprime w).
Proof.
  intros W. destruct (p_facts w W) as (P & EP & Ep & P31 & PW). set (p := mprime w) in *.
  induction f as [|f IH]; intros power inter n A B N; [cbn in N; lia|]. cbn [exp_loop].
  rewrite Z.shiftr_div_pow2 by lia. change (2 ^ 1) with 2.
  pose proof (Zmod_odd n) as O. pose proof (Z.div_mod n 2 ltac:(lia)) as D.
  pose proof (Z.mod_pos_bound (power * power) p ltac:(lia)) as PB. pose proof (Z.mod_pos_bound (power * inter) p ltac:(lia)) as IB.
  rewrite !mul_mod_ok by (auto; fold p; lia). fold p.
  rewrite Nat2Z.inj_succ, Z.pow_succ_r in N by lia.
  destruct (Z.eqb_spec (n / 2) 0) as [Q0|QN].
  - assert (n = 1) by (destruct (Z.odd n); lia). subst n. cbn [Z.odd]. rewrite Z.pow_1_r. reflexivity.
  - set (inter' := if Z.odd n then (power * inter) mod p else inter).
    assert (I' : 0 <= inter' <= p) by (unfold inter'; destruct (Z.odd n); lia).
    assert (NB : 0 < n / 2 < 2 ^ Z.of_nat f).
    { pose proof (Z.div_pos n 2). split; [lia|]. apply Z.div_lt_upper_bound; lia. }
    rewrite IH by (fold p; lia). f_equal. fold p.
    rewrite Z.mul_mod, <- Zpower_mod, <- Z.mul_mod by lia.
    assert (PQ : (power * power) ^ (n / 2) = power ^ (2 * (n / 2))).
    { rewrite Z.pow_mul_r by (try lia; apply Z.div_pos; lia). f_equal. rewrite Z.pow_2_r. reflexivity. }
    rewrite PQ. unfold inter'. destruct (Z.odd n) eqn:OD.
    + rewrite Z.mul_mod_idemp_r by lia. f_equal. rewrite D at 2. rewrite O.
      rewrite Z.pow_add_r, Z.pow_1_r by (try lia; pose proof (Z.div_pos n 2); lia). ring.
    + f_equal. rewrite D at 2. rewrite O. rewrite Z.add_0_r. reflexivity.
Qed.
Lemma exp_mod_ok w x n : is_width w -> 0 <= x < mprime w -> 0 <= n < 2 ^ w -> exp_mod w x n = Some (x ^ n mod mprime w).
Proof.
  intros W X N. destruct (p_facts w W) as (P & EP & Ep & P31 & PW). destruct (width_facts w W) as (W0 & _).
  unfold exp_mod. destruct (Z.eqb_spec n 0) as [->|N0]; [rewrite Z.pow_0_r, Z.mod_small by lia; reflexivity|].
  destruct (Z.eqb_spec n 1) as [->|N1]; [rewrite Z.pow_1_r, Z.mod_small by lia; reflexivity|].
  rewrite exp_loop_ok; auto; try lia; [|rewrite Z2Nat.id by lia; lia]. rewrite Z.mul_1_r. reflexivity.
Qed.
