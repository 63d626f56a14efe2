(* C48: tiled dispatch. *)
From Verif Require Import Base Ring_model Ring_spec Share_spec Semi_model Semi_proof Nd_model Nd_spec Nd_proof Ndr_proof Tile_model Tile_spec Tile_proof.
Open Scope Z_scope.

(* An elementwise kernel of any number of operands, run tile by tile by any number of parties, the tiles in any order:
   every party gets an array of the same shape and of the kernel's result type, related to the operands at every index as
   the kernel relates them. [blk] is the tile size. *)
Theorem C48_tiled blk fn elsize junk R n m t on ord sh xs :
  0 < blk -> (0 < m)%nat -> elementwise R n m t fn -> operands n m sh xs -> 0 < size sh ->
  (forall sd stride N, plan blk sh = Ok (Some (sd, stride, N)) -> Permutation ord (seq 0 N)) ->
  exists out, (forall p, (p < n)%nat -> tiled blk fn elsize junk on ord xs p = Ok (t, out p) /\ shp (out p) = sh /\ dense (out p)) /\
    pointwise R n sh xs out.
Proof. exact (tiled_ok blk fn elsize junk R n m t on ord sh xs). Qed.
Print Assumptions C48_tiled.

(* In particular, when the kernel computes a function of its operands, tiled and untiled execution agree everywhere. *)
Theorem C48_equal blk fn elsize junk R n m t ord sh xs :
  0 < blk -> (0 < m)%nat -> elementwise R n m t fn -> operands n m sh xs -> 0 < size sh ->
  (forall vs v v', R vs v -> R vs v' -> forall q, (q < n)%nat -> v q = v' q) ->
  (forall vs vs' v, (forall q, (q < n)%nat -> vs q = vs' q) -> R vs v -> R vs' v) ->
  (forall sd stride N, plan blk sh = Ok (Some (sd, stride, N)) -> Permutation ord (seq 0 N)) ->
  forall p, (p < n)%nat -> exists a b, tiled blk fn elsize junk true ord xs p = Ok (t, a) /\ fn None (fun q => Ok (xs q)) p = Ok (t, b) /\
    shp a = sh /\ shp b = sh /\ forall idx, valid idx sh -> get a idx = get b idx.
Proof.
  intros B M E O S DET EXT OR p Hp. destruct (C48_tiled blk fn elsize junk R n m t true ord sh xs B M E O S OR) as (out & A & PW).
  destruct (E None sh xs (fun q => Ok (xs q)) O S ltac:(auto)) as (out' & A' & PW').
  exists (out p), (out' p). destruct (A p Hp) as (A1 & A2 & _), (A' p Hp) as (A1' & A2' & _).
  split; [exact A1|]. split; [exact A1'|]. split; [exact A2|]. split; [exact A2'|].
  intros idx V. destruct (PW idx V) as (vs & v & F & Q), (PW' idx V) as (vs' & v' & F' & Q').
  destruct (F p Hp) as [_ ->], (F' p Hp) as [_ ->]. f_equal. apply (DET vs); [exact Q| |exact Hp]. apply (EXT vs'); [|exact Q'].
  intros q Hq. destruct (F q Hq) as [G _], (F' q Hq) as [G' _]. unfold at_index in *. clear - G G'. revert G'. generalize (vs' q).
  induction G as [|a u l l' H _ IH]; intros w G'; inversion G'; subst; [reflexivity|]. f_equal; [congruence|now apply IH].
Qed.
Print Assumptions C48_equal.

(* Whatever the kernel does (failures included), the order in which the tasks run does not show in the result. *)
Theorem C48_order blk fn elsize junk on ord ord' xs p :
  (forall x rest sd stride N, xs p = x :: rest -> plan blk (shp x) = Ok (Some (sd, stride, N)) -> Permutation ord (seq 0 N) /\ Permutation ord' (seq 0 N)) ->
  tiled blk fn elsize junk on ord xs p = tiled blk fn elsize junk on ord' xs p.
Proof. exact (tiled_order blk fn elsize junk on ord ord' xs p). Qed.
Print Assumptions C48_order.

(* The plan exists for every shape above the tile size, has at least two tiles, and no tile exceeds the tile size. *)
Theorem C48_plan blk sh : 0 < blk -> pos sh -> blk < size sh ->
  exists sd stride N, plan blk sh = Ok (Some (sd, stride, N)) /\ (2 <= N)%nat /\ (sd < length sh)%nat /\
    0 < stride < nthZ sh sd /\ stride * size (skipn (S sd) sh) <= blk.
Proof.
  intros B P L. destruct (plan_ok blk sh B P L) as (O & D & I & stride & E & PO & PI & S1 & S2 & PL).
  exists (length O), stride, (Z.to_nat ((Z.quot D stride + (if Z.rem D stride =? 0 then 0 else 1)) * size O)). split; [exact PL|].
  pose proof (nd_spec D stride S1 S2) as [N2 _]. cbv zeta in N2. pose proof (size_pos O PO). split; [nia|].
  rewrite E, nth_mid, skip_mid, app_length by reflexivity. cbn [length]. split; [lia|]. split; [lia|].
  unfold plan in PL. destruct (find_dim_spec blk (rev sh) 1) as (is_ & d & os & E' & F & R); [now apply pos_rev|lia|rewrite size_rev; lia|].
  rewrite F in PL. rewrite Z.mul_1_l in *.
  assert (E2 : sh = rev os ++ d :: rev is_).
  { rewrite <- (rev_involutive sh), E', rev_app_distr. cbn [rev]. now rewrite <- app_assoc. }
  destruct (Z.eqb_spec (size is_) 0) as [|NZ]; [discriminate|].
  assert (SI : 0 < size is_) by (assert (0 <= size is_); [|lia]; apply size_nonneg, pos_ok; rewrite E2 in P; apply Forall_app in P as [_ P]; inversion P; rewrite <- (rev_involutive is_); now apply pos_rev).
  destruct (Z.eqb_spec (Z.quot blk (size is_)) 0); [discriminate|]. injection PL as LE SE _.
  rewrite E2 in E. assert (I = rev is_) as ->.
  { apply (f_equal (skipn (S (length O)))) in E. rewrite (skip_mid O) in E by reflexivity. rewrite skip_mid in E by (rewrite rev_length; exact LE). now symmetry. }
  rewrite size_rev, <- SE, Z.quot_div_nonneg, Z.mul_comm by lia. apply Z.mul_div_le. lia.
Qed.
Print Assumptions C48_plan.

(* ---- a concrete case: two parties, adding their shares of two transposed arrays ---- *)
Definition ex_add (k : Z) : option nat -> (nat -> res (list nd)) -> nat -> res (Z * nd) := fun _ ys p =>
  rbind (ys p) (fun l => match l with
  | [x; y] => rbind (rmap (fun idx => rbind (get x idx) (fun u => rbind (get y idx) (fun v => Ok (radd k u v)))) (all_indices (shp x)))
                    (fun d => Ok (7, compact d (shp x)))
  | _ => Err end).
Definition ex_arr (c : Z) : nd := mkNd (map (fun i => wrap 8 (c * Z.of_nat i + 250)) (seq 0 24)) [3; 2; 4] [1; 12; 3] 0.
Definition ex_xs (q : nat) : list nd := match q with O => [ex_arr 1; ex_arr 5] | _ => [ex_arr 9; ex_arr 3] end.
Example C48_ex : plan 5 [3; 2; 4] = Ok (Some (1%nat, 1, 6%nat)) /\ operands 2 2 [3; 2; 4] ex_xs /\
  (forall p, (p < 2)%nat -> tiled 5 (ex_add 8) (fun _ => 1) 0 true [4; 0; 5; 2; 1; 3]%nat ex_xs p = ex_add 8 None (fun q => Ok (ex_xs q)) p) /\
  tiled 5 (ex_add 8) (fun _ => 1) 0 true [4; 0; 5; 2; 1; 3]%nat ex_xs 0 <> Err.
Proof.
  split; [reflexivity|]. split.
  - assert (G : forall c, shp (ex_arr c) = [3; 2; 4] /\ wf (ex_arr c) /\ safe (ex_arr c)).
    { intros c. split; [reflexivity|]. split; [split; [repeat constructor; lia|reflexivity]|]. intros idx V.
      assert (B : 0 <= addr (ex_arr c) idx < 24).
      { inversion V as [|a ? i1 ? Ha V1]; subst. inversion V1 as [|b ? i2 ? Hb V2]; subst. inversion V2 as [|d ? i3 ? Hd V3]; subst. inversion V3; subst.
        unfold addr. cbn [off str ex_arr dot]. lia. }
      unfold get. rewrite bufget_in; [eauto|]. cbn [buf ex_arr]. rewrite map_length, seq_length. lia. }
    intros [|q] _; (split; [reflexivity|]); (apply Forall_cons; [apply G|]; apply Forall_cons; [apply G|]; apply Forall_nil).
  - split; [|discriminate]. intros [|[|p]] H; [reflexivity|reflexivity|lia].
Qed.
(* the hypothesis [elementwise] holds of it: it computes the sum of the two values of each party *)
Example C48_elementwise_ex : elementwise (fun vs v => forall q, (q < 2)%nat -> exists a b, vs q = [a; b] /\ v q = radd 8 a b) 2 2 7 (ex_add 8).
Proof.
  intros c sh xs ys OP SZ Y.
  assert (P : forall q, (q < 2)%nat -> exists x y d, xs q = [x; y] /\ shp x = sh /\ wf x /\ shp y = sh /\ safe x /\ safe y /\
     rmap (fun idx => rbind (get x idx) (fun u => rbind (get y idx) (fun v => Ok (radd 8 u v)))) (all_indices sh) = Ok d).
  { intros q Hq. destruct (OP q Hq) as [L F]. destruct (xs q) as [|x [|y [|]]]; cbn [length] in L; try lia.
    inversion F as [|? ? (A1 & A2 & A3) F']; subst. inversion F' as [|? ? (B1 & B2 & B3) _]; subst.
    destruct (rmap_total (fun idx => rbind (get x idx) (fun u => rbind (get y idx) (fun v => Ok (radd 8 u v)))) (all_indices (shp x))) as [d E].
    - intros idx Hi. destruct A2 as [W _]. destruct (all_indices_spec _ W) as [AL AN].
      destruct (In_nth _ _ [] Hi) as (i & Hi1 & Hi2). assert (V : valid idx (shp x)).
      { rewrite <- Hi2. replace i with (Z.to_nat (Z.of_nat i)) by lia. rewrite AN by lia. apply unf_valid, pos_of_size; auto. }
      destruct (A3 _ V) as [u ->]. rewrite <- B1 in V. destruct (B3 _ V) as [v ->]. cbn [rbind]. eauto.
    - exists x, y, d. repeat (split; [reflexivity || assumption|]). exact E. }
  exists (fun q => match ex_add 8 c ys q with Ok (_, o) => o | _ => compact [] [] end).
  assert (R : forall q, (q < 2)%nat -> exists x y d, xs q = [x; y] /\ ex_add 8 c ys q = Ok (7, compact d sh) /\
    forall idx, valid idx sh -> exists u v, get x idx = Ok u /\ get y idx = Ok v /\ get (compact d sh) idx = Ok (radd 8 u v)).
  { intros q Hq. destruct (P q Hq) as (x & y & d & E1 & E2 & W & E3 & SX & SY & E4). exists x, y, d. split; [exact E1|].
    split. { unfold ex_add. rewrite Y by exact Hq. cbn [rbind]. rewrite E1, E2, E4. reflexivity. }
    intros idx V. destruct W as [W _]. rewrite E2 in W. destruct (all_indices_spec _ W) as [AL AN]. pose proof (rowmajor_range _ _ V) as RR.
    pose proof (rmap_length _ _ _ E4) as L. rewrite AL in L.
    pose proof (rmap_nth _ _ _ [] 0 (Z.to_nat (rowmajor idx sh)) E4 ltac:(lia)) as N. cbv beta in N.
    rewrite AN, unf_rowmajor in N by (auto; lia).
    destruct (SX idx) as [u U]; [now rewrite E2|]. destruct (SY idx) as [v U']; [now rewrite E3|]. rewrite U, U' in N. cbn [rbind] in N.
    exists u, v. split; [exact U|]. split; [exact U'|]. rewrite get_compact by (auto; lia). unfold nthZ. now rewrite <- N. }
  split.
  - intros q Hq. destruct (R q Hq) as (x & y & d & _ & -> & _). split; [reflexivity|]. split; [reflexivity|].
    intros idx V. unfold addr. cbn [off str compact shp] in *. now rewrite dot_compact.
  - intros idx V.
    exists (fun q => match xs q with [x; y] => match get x idx, get y idx with Ok u, Ok v => [u; v] | _, _ => [] end | _ => [] end),
      (fun q => match ex_add 8 c ys q with Ok (_, o) => match get o idx with Ok v => v | _ => 0 end | _ => 0 end).
    split; intros q Hq; destruct (R q Hq) as (x & y & d & -> & -> & G); destruct (G idx V) as (u & v & G1 & G2 & G3); rewrite G1, G2, G3.
    + split; [|reflexivity]. repeat constructor; assumption.
    + exists u, v. split; reflexivity.
Qed.
(* Finding: the results of the tiles are copied as raw memory, so a kernel that returns a view of its operand (shape and
   values right, strides not) would give a wrong array; no kernel dispatched this way returns a view. *)
Theorem C48_view_result_refuted : exists x a,
  tiled 2 (fun _ ys p => rbind (ys p) (fun l => match l with [y] => Ok (0, y) | _ => Err end)) (fun _ => 1) 0 true [0; 1; 2; 3]%nat (fun _ => [x]) 0 = Ok (0, a) /\
  shp a = shp x /\ get a [0; 1] <> get x [0; 1] /\ wf x /\ get x [0; 1] = Ok 2.
Proof. exists (mkNd [0; 1; 2; 3; 4; 5; 6; 7] [2; 4] [1; 2] 0). eexists. split; [reflexivity|]. split; [reflexivity|]. split; [discriminate|]. split; [|reflexivity]. split; [repeat constructor; lia|reflexivity]. Qed.
Print Assumptions C48_view_result_refuted.
