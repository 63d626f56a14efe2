(* C47: type strings. *)
From Verif Require Import Base Ty_model Ty_proof.
Open Scope string_scope.
Open Scope Z_scope.

(* Any type made by a constructor, of a class registered by one of the protocols in use: its string parses back to exactly
   this type, attributes and all.  Exceptions, see below: aby3's OShr, spdz2k's BShr and spdz2k's AShr with its mac flag *)
Theorem C47_round_trip ps m t z :
  args_ok m -> construct m = Ok t -> tsize t = Ok z -> registered ps (tcls t) ->
  tcls t <> AbyO -> tcls t <> SpdzB -> mac t = false -> from_string ps (to_string t) = Ok t.
Proof. exact (round_trip ps m t z). Qed.
Print Assumptions C47_round_trip.
(* without the last two exceptions: the parsed type compares equal and has the same visibility *)
Theorem C47_equal ps m t z :
  args_ok m -> construct m = Ok t -> tsize t = Ok z -> registered ps (tcls t) -> tcls t <> AbyO ->
  exists t', from_string ps (to_string t) = Ok t' /\ ty_eqb t' t = true /\ tvisibility t' = tvisibility t.
Proof. exact (round_trip_equal ps m t z). Qed.
Print Assumptions C47_equal.
(* hence two different types never print the same string *)
Theorem C47_injective ps m1 m2 t1 t2 z1 z2 :
  args_ok m1 -> construct m1 = Ok t1 -> tsize t1 = Ok z1 -> registered ps (tcls t1) -> tcls t1 <> AbyO -> tcls t1 <> SpdzB -> mac t1 = false ->
  args_ok m2 -> construct m2 = Ok t2 -> tsize t2 = Ok z2 -> registered ps (tcls t2) -> tcls t2 <> AbyO -> tcls t2 <> SpdzB -> mac t2 = false ->
  to_string t1 = to_string t2 -> t1 = t2.
Proof.
  intros A1 C1 S1 R1 N1 B1 M1 A2 C2 S2 R2 N2 B2 M2 E.
  pose proof (C47_round_trip ps m1 t1 z1 A1 C1 S1 R1 N1 B1 M1) as H1. pose proof (C47_round_trip ps m2 t2 z2 A2 C2 S2 R2 N2 B2 M2) as H2.
  rewrite E in H1. congruence.
Qed.
Print Assumptions C47_injective.

(* the storage of one element of a share: as many words as the protocol keeps per party, each wide enough for the declared bits.
   aby3 keeps two of three summands, spdz2k the share and its mac, swift three words *)
Definition copies (c : cls) : Z := match c with AbyA | AbyO | AbyB | SpdzA => 2 | SwiftA | SwiftB => 3 | _ => 1 end.
Theorem C47_size m t z : construct m = Ok t -> tsize t = Ok z ->
  match m with
  | MField c f | MB c f None => f <> FT_INVALID -> exists s, fsize f = Ok s /\ z = copies c * s
  | MB c f (Some n) => exists s, fsize f = Ok s /\ z = copies c * s /\ n <= 8 * s
  | MAbyB p n => z = copies AbyB * psize p /\ n <= 8 * psize p
  | _ => True
  end.
Proof.
  destruct m as [|p|c f|f|f o|c f [n|]|p n|p n f|f b|c]; try exact (fun _ _ => I).
  - destruct c, f; intros [= <-] [= <-] F; try (now elim F); eexists; split; reflexivity.
  - cbn [construct]. destruct f, c; cbn [fsize rbind]; try discriminate; destruct (Z.leb_spec n 4); destruct (Z.leb_spec n (4 * 8)); destruct (Z.leb_spec n (8 * 8));
      destruct (Z.leb_spec n (16 * 8)); try discriminate; intros [= <-] [= <-]; eexists; split; try reflexivity; split; lia || reflexivity.
  - destruct c, f; intros [= <-] [= <-] F; eexists; split; reflexivity.
  - cbn [construct]. destruct (Z.leb_spec n (psize p * 8)); [|discriminate]. intros [= <-] [= <-]. cbn [tpt set_nbits set_pt blank copies]. lia.
Qed.
Print Assumptions C47_size.
Example C47_size_ex : exists t, construct (MAbyB PT_U16 9) = Ok t /\ tsize t = Ok 4.
Proof. eexists. split; reflexivity. Qed.

Example C47_ex : exists t, construct (MB SemiB FM128 (Some 117)) = Ok t /\ tsize t = Ok 16 /\ registered [PAby; PSemi] (tcls t) /\
  to_string t = "semi2k.BShr<FM128,117>" /\ from_string [PAby; PSemi] "semi2k.BShr<FM128,117>" = Ok t.
Proof. eexists. split; [reflexivity|]. split; [reflexivity|]. split; [right; exists PSemi; split; [right; left; reflexivity|do 3 right; left; reflexivity]|]. split; reflexivity. Qed.
Example C47_owner_ex : exists t, construct (MPriv FM64 (-1)) = Ok t /\ to_string t = "Priv2k<FM64,-1>" /\ from_string [PSpdz] "Priv2k<FM64,-1>" = Ok t.
Proof. eexists. repeat split; reflexivity. Qed.

(* Findings.  aby3's OShrTy prints the id of OPShrTy, and parses as OPShrTy: an element has half the size *)
Theorem C47_oshr_refuted : exists t t', construct (MField AbyO FM64) = Ok t /\ from_string [PAby] (to_string t) = Ok t' /\
  tsize t = Ok 16 /\ tsize t' = Ok 8 /\ ty_eqb t t' = true.
Proof. do 2 eexists. repeat split; reflexivity. Qed.
Print Assumptions C47_oshr_refuted.
(* spdz2k's BShrTy does not print k_: elements of the parsed type have size 0 *)
Theorem C47_spdz_bshr_refuted : exists t t', construct (MSpdzB PT_U64 64 FM64) = Ok t /\ from_string [PSpdz] (to_string t) = Ok t' /\
  tsize t = Ok 512 /\ tsize t' = Ok 0.
Proof. do 2 eexists. repeat split; reflexivity. Qed.
Print Assumptions C47_spdz_bshr_refuted.
(* spdz2k's AShrTy does not print its mac flag *)
Theorem C47_spdz_mac_refuted : exists t t', construct (MSpdzA FM64 true) = Ok t /\ from_string [PSpdz] (to_string t) = Ok t' /\ mac t = true /\ mac t' = false.
Proof. do 2 eexists. repeat split; reflexivity. Qed.
Print Assumptions C47_spdz_mac_refuted.
(* cheetah does not register its PShrTy: its string is rejected *)
Theorem C47_cheetah_pshr_refuted : forall ps, exists t, construct (MP CheetahP) = Ok t /\ from_string ps (to_string t) = Err.
Proof.
  intros ps. eexists. split; [reflexivity|]. unfold from_string. cbn -[creator]. replace (creator ps "cheetah.PShr") with (@Err cls); [reflexivity|].
  unfold creator. destruct (find _ _) as [c|] eqn:F; [|reflexivity]. apply find_some in F as [F1 F2]. exfalso.
  apply in_rev in F1. unfold registry in F1. apply in_app_or in F1 as [F1|F1].
  - cbn in F1. intuition subst; discriminate.
  - apply in_flat_map in F1 as (p & _ & F1). destruct p; cbn in F1; intuition subst; discriminate.
Qed.
Print Assumptions C47_cheetah_pshr_refuted.
(* a malformed string reaches an undefined shift *)
Theorem C47_gfmp_shift_refuted : exists s, from_string [] s = Ub.
Proof. exists "Gfmp<FM64,200>". reflexivity. Qed.
Print Assumptions C47_gfmp_shift_refuted.
(* nothing else is undefined: a string of any other class is parsed or rejected *)
Theorem C47_total ps s : (forall r, s <> "Gfmp<" ++ r) -> from_string ps s <> Ub.
Proof. exact (total ps s). Qed.
Print Assumptions C47_total.
