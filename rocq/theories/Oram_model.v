(* Oblivious reads of the three-party protocol: libspu/mpc/aby3/oram.cc and oram.h.
   A distributed point function is generated jointly by two of the three parties (D, the one whose rank is ctrl, and E, its
   predecessor), with the third one dealing the multiplication triples.  Each function below is the joint execution of the
   parties; a value that both open is written with both parties' words.  Words of uint128_t are integers in [0, 2^128).
   The block cipher is an argument: [enc key block] (yacl AES-128 in ECB mode, a library), its result read as a 128-bit word.
   Random draws are arguments; pforeach loops are modelled as sequential. *)
From Verif Require Import Base Ring_model Semi_model Aby_model.
Open Scope Z_scope.

(* communicator.h prevRank for three parties *)
Definition prv (i : nat) : nat := match i with O => 2%nat | S j => j end.
(* uint128_t(-1) *)
Definition ones128 : Z := Z.ones 128.
(* core/bit_utils.h:28-30 Log2Ceil *)
Definition log2ceil (n : nat) : nat := if (n <=? 1)%nat then 0%nat else S (Nat.log2 (n - 1)).
(* oram.cc:261-267 setLsb, getLsb *)
Definition set_lsb (x b : Z) : Z := Z.lor (Z.land x (ones128 - 1)) (Z.land b 1).
Definition get_lsb (x : Z) : Z := Z.land x 1.
(* 271-280 bitDecomposeToDpfKeyT *)
Definition bit_decompose (x : Z) (n : nat) : list Z :=
  rev (map (fun i => if Z.land (Z.shiftr x (Z.of_nat i)) 1 =? 0 then 0 else ones128) (seq 0 n)).

(* 282-349 genOramBeaverPrim and genOramBeaverHelper with OpKind::And.  QD, QE: the words D and E draw from the generators
   they share with the helper (3*num each); the helper sends the correction of c to D.  Triple i of either party *)
Definition triple : Type := Z * Z * Z.
Definition and_triple_d (num : nat) (QD QE : nat -> Z) (i : nat) : triple :=
  let adjusted := Z.lxor (Z.land (Z.lxor (QE i) (QD i)) (Z.lxor (QE (num + i)%nat) (QD (num + i)%nat)))
                         (Z.lxor (QE (2 * num + i)%nat) (QD (2 * num + i)%nat)) in
  (QD i, QD (num + i)%nat, Z.lxor (QD (2 * num + i)%nat) adjusted).
Definition triple_e (num : nat) (QE : nat -> Z) (i : nat) : triple := (QE i, QE (num + i)%nat, QE (2 * num + i)%nat).
(* the same with OpKind::Mul on k-bit words *)
Definition mul_triple_d (k : Z) (num : nat) (QD QE : nat -> Z) (i : nat) : triple :=
  let adjusted := rsub k (rmul k (radd k (QE i) (QD i)) (radd k (QE (num + i)%nat) (QD (num + i)%nat)))
                         (radd k (QE (2 * num + i)%nat) (QD (2 * num + i)%nat)) in
  (QD i, QD (num + i)%nat, radd k (QD (2 * num + i)%nat) adjusted).

(* 351-385 computecw: what a party sends ... *)
Definition cw_mask (dpf : bool) (tb suml sumr : Z) (l r : triple) : Z * Z * Z * Z :=
  let '(al, bl, _) := l in let '(ar, br, _) := r in
  (Z.lxor tb al, Z.lxor suml bl, (if dpf then Z.lxor (Z.lxor tb ones128) ar else Z.lxor tb ar), Z.lxor sumr br).
Definition open4 (m m' : Z * Z * Z * Z) : Z * Z * Z * Z :=
  let '(a, b, c, d) := m in let '(a', b', c', d') := m' in (Z.lxor a a', Z.lxor b b', Z.lxor c c', Z.lxor d d').
(* ... and computes from the opened masks *)
Definition cw_share (dpf : bool) (m : Z * Z * Z * Z) (l r : triple) : Z :=
  let '(al, bl, cl) := l in let '(ar, br, cr) := r in let '(m0, m1, m2, m3) := m in
  let z0 := Z.lxor (Z.lxor cl (Z.land m0 bl)) (Z.land m1 al) in
  let z1 := Z.lxor (Z.lxor cr (Z.land m2 br)) (Z.land m3 ar) in
  let z0 := if dpf then Z.lxor z0 (Z.land m0 m1) else z0 in
  let z1 := if dpf then Z.lxor z1 (Z.land m2 m3) else z1 in
  Z.lxor z0 z1.

Section Dpf.
Variable enc : Z -> Z -> Z.
(* 502-520 lengthDoubling *)
Definition child_l (key v : Z) : Z := Z.lxor (wrap 128 (enc key v)) v.
Definition child_r (key v : Z) : Z := Z.lxor (wrap 128 (enc key (Z.lxor v 1))) (Z.lxor v 1).
Definition length_doubling (key : Z) (vs : list Z) : list Z := flat_map (fun v => [child_l key v; child_r key v]) vs.
(* std::vector::resize *)
Definition resize (n : nat) (l : list Z) : list Z := firstn n (l ++ repeat 0 (n - length l)).

(* a party's keys and flags of one tree layer *)
Definition nodes : Type := list Z * list Z.
(* 555-558 *)
Definition sum_of (off half : nat) (cur : list Z) : Z := fold_left (fun s i => Z.lxor s (nthZ cur (2 * i + off)%nat)) (seq 0 half) 0.
(* 583-589: the children of one party; reading or writing outside a vector is undefined behaviour *)
Definition correct (half : nat) (cw t0 t1 : Z) (cur prev_e : list Z) : res nodes :=
  if (length cur <? 2 * half)%nat || (length prev_e <? half)%nat then Ub else
  Ok (flat_map (fun i => let x := if nthZ prev_e i =? 0 then 0 else ones128 in
                         [Z.lxor (nthZ cur (2 * i)%nat) (Z.land x cw); Z.lxor (nthZ cur (2 * i + 1)%nat) (Z.land x cw)]) (seq 0 half),
      flat_map (fun i => [Z.lxor (get_lsb (nthZ cur (2 * i)%nat)) (Z.land (nthZ prev_e i) t0);
                          Z.lxor (get_lsb (nthZ cur (2 * i + 1)%nat)) (Z.land (nthZ prev_e i) t1)]) (seq 0 half)).
(* 541-593: one iteration.  tb: the party's share of the layer's target bit; l, r: its two triples *)
Definition layer (keyD keyE : Z) (half : nat) (tbD tbE : Z) (lD rD lE rE : triple) (D E : nodes) : res (nodes * nodes) :=
  let curD := length_doubling keyD (fst D) in let curE := length_doubling keyE (fst E) in
  let LD := sum_of 0 half curD in let RD := sum_of 1 half curD in
  let LE := sum_of 0 half curE in let RE := sum_of 1 half curE in
  let m := open4 (cw_mask true tbD LD RD lD rD) (cw_mask false tbE LE RE lE rE) in
  let cwD := cw_share true m lD rD in let cwE := cw_share false m lE rE in
  let t0D := Z.lxor (get_lsb LD) (get_lsb tbD) in let t1D := Z.lxor (get_lsb RD) (get_lsb tbD) in
  let t0E := Z.lxor (get_lsb LE) (get_lsb tbE) in let t1E := Z.lxor (get_lsb RE) (get_lsb tbE) in
  rbind (correct half (Z.lxor cwD cwE) (Z.lxor t0D (Z.lxor t0E 1)) (Z.lxor t1D t1E) curD (snd D)) (fun D' =>
  rbind (correct half (Z.lxor cwE cwD) (Z.lxor t0E (Z.lxor t0D 1)) (Z.lxor t1E t1D) curE (snd E)) (fun E' =>
  Ok (D', E'))).
(* 540-594 the loop, from layer l on with r layers to go; half: half_layer_numel.  In the last layer the keys are cut *)
Fixpoint layers (keyD keyE : Z) (numel num r l half : nat) (bD bE : list Z) (QD QE : nat -> Z) (D E : nodes) : res (nodes * nodes) :=
  match r with
  | O => Ok (D, E)
  | S r' =>
    let half := if (r' =? 0)%nat then (numel / 2 + (if (numel mod 2 =? 0)%nat then 0 else 1))%nat else half in
    let cut v := if (r' =? 0)%nat then resize half v else v in
    rbind (layer keyD keyE half (nthZ bD l) (nthZ bE l)
             (and_triple_d num QD QE (2 * l)) (and_triple_d num QD QE (2 * l + 1)) (triple_e num QE (2 * l)) (triple_e num QE (2 * l + 1))
             (cut (fst D), snd D) (cut (fst E), snd E)) (fun DE =>
    layers keyD keyE numel num r' (S l) (2 * half) bD bE QD QE (fst DE) (snd DE))
  end.
(* 522-599 OramDpf::gen, with the copies of the first numel entries at the end *)
Definition take (n : nat) (l : list Z) : res (list Z) := if (length l <? n)%nat then Ub else Ok (firstn n l).
Definition dpf_gen (numel : nat) (keyD keyE seedD seedE xD xE : Z) (QD QE : nat -> Z) : res (nodes * nodes) :=
  let depth := log2ceil numel in
  rbind (layers keyD keyE numel (depth * 2) depth 0 1 (bit_decompose xD depth) (bit_decompose xE depth) QD QE
           ([set_lsb seedD 0], [0]) ([set_lsb seedE 1], [1])) (fun DE =>
  rbind (take numel (snd (fst DE))) (fun eD => rbind (take numel (fst (fst DE))) (fun vD =>
  rbind (take numel (snd (snd DE))) (fun eE => rbind (take numel (fst (snd DE))) (fun vE =>
  Ok ((vD, eD), (vE, eE))))))).
End Dpf.

Section Convert.
Variable k : Z.
(* 479-500 genDpf after gen: cast to the ring, D negates *)
Definition cast_d (l : list Z) : list Z := map (fun x => rmul k (wrap k (-1)) (wrap k x)) l.
Definition cast_e (l : list Z) : list Z := map (fun x => rmul k (wrap k 1) (wrap k x)) l.
(* 387-423 mul2pc on vectors of length one: party's share from the opened differences *)
Definition mul2pc_share (adj : bool) (t : triple) (e u : Z) : Z :=
  let '(a, b, c) := t in
  let z := radd k (radd k c (rmul k e b)) (rmul k u a) in if adj then radd k z (rmul k e u) else z.
Definition mul2pc (tD tE : triple) (xD yD xE yE : Z) : Z * Z :=
  let '(aD, bD, _) := tD in let '(aE, bE, _) := tE in
  (mul2pc_share true tD (radd k (rsub k xD aD) (rsub k xE aE)) (radd k (rsub k yD bD) (rsub k yE bE)),
   mul2pc_share false tE (radd k (rsub k xE aE) (rsub k xD aD)) (radd k (rsub k yE bE) (rsub k yD bD))).
(* 425-462 onehotB2A; rD, rE: private draws; QD, QE: draws of the triple *)
Definition total (l : list Z) : Z := fold_left (radd k) l 0.
Definition neg_total (l : list Z) : Z := fold_left (rsub k) l 0.
Definition convert (e v : list Z) (pm bF : Z) : list Z := zipWith (fun e v => rsub k (rsub k (rmul k e pm) v) (rmul k e bF)) e v.
Definition onehot_b2a (rD rE : Z) (QD QE : nat -> Z) (eD vD eE vE : list Z) : list Z * list Z :=
  let pmD := total eD in let FD := neg_total vD in let pmE := total eE in let FE := neg_total vE in
  let bD := radd k pmD (wrap k rD) in let bE := radd k pmE (wrap k rE) in
  let p := mul2pc (mul_triple_d k 1 QD QE 0) (triple_e 1 QE 0) pmD FD pmE FE in
  let fD := radd k (fst p) (wrap k rD) in let fE := radd k (snd p) (wrap k rE) in
  (convert eD vD (radd k bD bE) (radd k fD fE), convert eE vE (radd k bE bD) (radd k fE fD)).
End Convert.

(* the draws of one round: root seeds, private masks, and the words drawn for the triples *)
Record round := mkRound { seed_d : Z; seed_e : Z; mask_d : Z; mask_e : Z; and_d : nat -> Z; and_e : nat -> Z; mul_d : nat -> Z; mul_e : nat -> Z }.
(* genDpf followed by onehotB2A between D and E (67-70, 130-133): the shares of the two parties *)
Definition onehot2 (enc : Z -> Z -> Z) (k : Z) (s : nat) (keyD keyE xD xE : Z) (R : round) : res (list Z * list Z) :=
  rbind (dpf_gen enc s keyD keyE (seed_d R) (seed_e R) xD xE (and_d R) (and_e R)) (fun DE =>
  let '((vD, eD), (vE, eE)) := DE in
  Ok (onehot_b2a k (mask_d R) (mask_e R) (mul_d R) (mul_e R) (cast_d k eD) (cast_d k vD) (cast_e k eE) (cast_e k vE))).

(* 33-82 OramOneHotAA after a2b; X: the boolean shares of the index.  In round j the party of rank j is D and
   its predecessor E.  keys i: the cipher key drawn by rank i, which its predecessor receives (464-477 genAesKey).
   The result at position p of rank i: its share of round i as D, and of round i+1 as E *)
Definition onehot_aa (enc : Z -> Z -> Z) (k : Z) (s : nat) (X : shr) (keys : nat -> Z) (R : nat -> round) : res (nat -> shr) :=
  let go j := onehot2 enc k s (keys j) (keys (nx (prv j))) (Z.lxor (fst (X j)) (snd (X j))) (fst (X (prv j))) (R j) in
  rbind (go 0%nat) (fun a => rbind (go 1%nat) (fun b => rbind (go 2%nat) (fun c =>
  let o j := match j with O => a | S O => b | _ => c end in
  Ok (fun p i => (nthZ (fst (o i)) p, nthZ (snd (o (nx i))) p))))).
(* the whole kernel; 45-46 reads the shares a2b returns (conversion.cc: Aby_model.v; stored as k-bit words) at the field's type.
   T, t, S: draws of the conversion *)
Definition oram_onehot_aa (enc : Z -> Z -> Z) (k : Z) (s : nat) (T : nat -> nat -> Z) (t : nat) (S : nat -> Z) (X : shr) (keys : nat -> Z) (R : nat -> round) : res (nat -> shr) :=
  rbind (a2b3 k T t X S) (fun V => onehot_aa enc k s (bx V) keys R).
(* 86-141 OramOneHotAP after a2b: one function between ranks 1 (D) and 0 (E); keys are added.  Rank 2 leaves its array unset *)
Definition onehot_ap (enc : Z -> Z -> Z) (k : Z) (s : nat) (X : shr) (keys : nat -> Z) (R : round) : res (nat -> nat -> Z) :=
  rbind (onehot2 enc k s (wrap 128 (keys 1%nat + keys 0%nat)) (wrap 128 (keys 0%nat + keys 1%nat))
                 (Z.lxor (fst (X 1%nat)) (snd (X 1%nat))) (fst (X 0%nat)) R) (fun o =>
  Ok (fun p i => match i with O => nthZ (snd o) p | _ => nthZ (fst o) p end)).

Definition oram_onehot_ap (enc : Z -> Z -> Z) (k : Z) (s : nat) (T : nat -> nat -> Z) (t : nat) (S : nat -> Z) (X : shr) (keys : nat -> Z) (R : round) : res (nat -> nat -> Z) :=
  rbind (a2b3 k T t X S) (fun V => onehot_ap enc k s (bx V) keys R).

(* 168-174, 232-238: shifted_onehot[idx] = onehot[(idx - offset + db_numel) % db_numel]; with offset = 0 the array itself.
   An offset beyond the array would index with a negative number *)
Definition shifted (n offset idx : nat) : nat := if (offset =? 0)%nat then idx else ((idx + n - offset) mod n)%nat.
(* 143-196 OramReadOA, column c.  S: PRSS streams *)
Definition read_oa (k : Z) (n : nat) (O : nat -> shr) (db : nat -> nat -> shr) (S : nat -> Z) (offset c : nat) : res shr :=
  if (n <? offset)%nat then Ub else Ok (rot (fun i =>
    let res0 := ring_mmul k n (fun _ a => fst (O (shifted n offset a) i)) (fun a b => fst (db a b i)) 0 c in
    let res1 := ring_mmul k n (fun _ a => snd (O (shifted n offset a) i)) (fun a b => snd (db a b i)) 0 c in
    radd k (radd k res0 res1) (rsub k (wrap k (S i)) (wrap k (S (nx i)))))).
(* 198-252 OramReadOP, column c of a public database *)
Definition read_op (k : Z) (n : nat) (O : nat -> nat -> Z) (db : nat -> nat -> Z) (S : nat -> Z) (offset c : nat) : res shr :=
  if (n <? offset)%nat then Ub else Ok (rot (fun i =>
    let o := if (i =? 2)%nat then 0 else ring_mmul k n (fun _ a => O (shifted n offset a) i) db 0 c in
    radd k o (rsub k (wrap k (S i)) (wrap k (S (nx i)))))).
(* hlo/indexing.cc:731-759: one one-hot vector for the start index of an axis of n rows, then slice_size reads at increasing
   offsets; the database collapsed to n rows.  Row idx, column c; T idx: the draws of read idx *)
Definition slice_rows (k : Z) (n size : nat) (O : nat -> shr) (db : nat -> nat -> shr) (T : nat -> nat -> nat -> Z) (c : nat) : list (res shr) :=
  map (fun idx => read_oa k n O db (T idx c) idx c) (seq 0 size).
