(* semi2k share conversions, most significant bit and zero test. libspu/mpc/semi2k/conversion.cc *)
From Verif Require Import Base Ring_model Semi_model Circ_model.
Open Scope Z_scope.

(* one element of a BShr array: its bit count and the word held by each party *)
Definition bshare : Type := Z * (nat -> Z).

Section Conv.
Variable k : Z.        (* field width *)
Variable n : nat.      (* world size *)
(* the AND triple used by call t in a w-bit storage type (beaver->And, boolean.cc:175) *)
Variables TA TB TC : nat -> Z -> nat -> Z.

(* boolean.cc:149-208 AndBB with its choice of storage type *)
Definition and_share (t : nat) (x y : bshare) : res bshare :=
  let nb := nb_and (fst x) (fst y) in
  rbind (backtype nb) (fun w => Ok (nb, and_bb_all w n (snd x) (snd y) (TA t w) (TB t w) (TC t w))).
(* the boolean kernels of boolean.cc as operations of the generic circuits.  and_bp takes a public
   constant (make_p reduces it to the field).  BitDeintlB: boolean.cc:304-323 *)
Definition semi_bops : bops bshare :=
  {| b_nb := fst;
     b_setnb := fun x nb => (nb, snd x);
     b_xor := fun x y => (nb_xor (fst x) (fst y), fun i => xor_bb (snd x i) (snd y i));
     b_and := and_share;
     b_andp := fun x p => (nb_and (fst x) (bitwidth (wrap k p)), fun i => and_bp (snd x i) (wrap k p));
     b_lsh := fun x s => (nb_lshift k (fst x) s, fun i => lshift_b k s (snd x i));
     b_rsh := fun x s => (nb_rshift (fst x) s, fun i => rshift_b s (snd x i));
     b_deintl := fun x s => if has_single_bit (fst x) then Ok (fst x, fun i => bit_deintl k s (fst x) (snd x i)) else Err |}.
(* boolean.cc:283-302 BitIntlB *)
Definition bitintl_share (x : bshare) (s : nat) : res bshare :=
  if has_single_bit (fst x) then Ok (fst x, fun i => bit_intl k s (fst x) (snd x i)) else Err.

Variable tg : nat -> nat -> nat.   (* number of the first AND call made for a given level and pair *)
Definition sadd (t : nat) (x y : bshare) : res bshare := add_bb bshare semi_bops t x y.

(* vectorize.h:185-211 vreduce with a throwing operator.  vmap requires equal types on each side (ndarray_ref.h:365-375) *)
Fixpoint rmapi {A B} (f : nat -> A -> res B) (i : nat) (l : list A) : res (list B) :=
  match l with [] => Ok [] | x :: r => rbind (f i x) (fun y => rbind (rmapi f (S i) r) (fun ys => Ok (y :: ys))) end.
Definition same_nb (xs : list bshare) : bool :=
  match xs with [] => true | x :: _ => forallb (fun y => fst y =? fst x) xs end.
Fixpoint vreduce_add (fuel lv : nat) (xs : list bshare) : res bshare :=
  match xs with
  | [] => Ub          (* *first of an empty range *)
  | [x] => Ok x
  | _ =>
      match fuel with
      | O => Err
      | S f =>
          let half := (length xs / 2)%nat in
          let ls := firstn half xs in
          let rs := firstn half (skipn half xs) in
          if same_nb ls && same_nb rs then
            rbind (rmapi (fun j '(x, y) => sadd (tg lv j) x y) 0 (combine ls rs)) (fun next =>
            vreduce_add f (S lv) (next ++ (if (length xs mod 2 =? 1)%nat then skipn (length xs - 1) xs else [])))
          else Err
      end
  end.

(* conversion.cc:65-82: for every party idx a fresh zero sharing R idx; party idx adds its own word *)
Definition own_bshares (R : nat -> nat -> Z) (X : nat -> Z) : list bshare :=
  map (fun idx => (k, fun i => v2b idx i (R idx i) (R idx (nextrank n i)) (X i))) (seq 0 n).
(* conversion.cc:65-88 A2B *)
Definition a2b (R : nat -> nat -> Z) (X : nat -> Z) : res bshare :=
  rbind (vreduce_add n 0 (own_bshares R X)) (fun s => Ok (k, snd s)).

(* conversion.cc:90-111 B2A (not registered by protocol.cc:101); r i is party i's private random word *)
Definition b2a (t : nat) (R : nat -> nat -> Z) (r : nat -> Z) (x : bshare) : res (nat -> Z) :=
  rbind (a2b R r) (fun r_b =>
  rbind (sadd t x r_b) (fun s =>
  Ok (fun i => let r_a := rneg k (r i) in
               if (i =? 0)%nat then radd k r_a (allreduce rxor n (snd s) i) else r_a))).

(* conversion.cc:144-157: the bits of the mask; RB j i is party i's share of random bit j *)
Definition rb_mask (w : Z) (nb : nat) (RB : nat -> nat -> Z) (i : nat) : Z :=
  fold_left (fun m j => radd w m (rshl w (Z.of_nat j) (rand_ (wrap w (RB j i)) 1))) (seq 0 nb) 0.
Definition rb_open (w : Z) (nb : nat) (RB : nat -> nat -> Z) (X : nat -> Z) : Z :=
  allreduce0 rxor n (fun i => wrap w (rxor (X i) (rb_mask w nb RB i))).
(* conversion.cc:163-172, 255-261: the arithmetic share of one bit *)
Definition rb_bit (rank : nat) (c rb : Z) : Z :=
  let d := rmul k (rsub k 1 (rmul k c 2)) rb in
  if (rank =? 0)%nat then radd k c d else d.
Definition rb_c (w c : Z) (j : nat) : Z := rand_ (wrap k (rshr (Z.of_nat j) c)) 1.
(* conversion.cc:116-179 B2A_Randbit *)
Definition b2a_randbit (RB : nat -> nat -> Z) (x : bshare) : res (nat -> Z) :=
  let nb := fst x in
  if k <? nb then Err
  else if nb =? 0 then Ok (fun _ => 0)
  else rbind (backtype nb) (fun w =>
    let c := rb_open w (Z.to_nat nb) RB (snd x) in
    Ok (fun i => fold_left (fun acc j => radd k acc (rshl k (Z.of_nat j) (rb_bit i (rb_c w c j) (RB j i)))) (seq 0 (Z.to_nat nb)) 0)).
(* conversion.cc:211-269 B2A_Disassemble *)
Definition b2a_disassemble (RB : nat -> nat -> Z) (x : bshare) : res (list (nat -> Z)) :=
  let nb := fst x in
  if (0 <? nb) && (nb <=? k) then
    rbind (backtype nb) (fun w =>
      let c := rb_open w (Z.to_nat nb) RB (snd x) in
      Ok (map (fun j => fun i => rb_bit i (rb_c w c j) (RB j i)) (seq 0 (Z.to_nat nb))))
  else Err.

(* conversion.cc:271-314 MsbA2B (non-empty input) *)
Definition msb_a2b (t : nat) (R : nat -> nat -> Z) (X : nat -> Z) : res bshare :=
  if (n =? 2)%nat then
    match own_bshares R X with
    | [m; q] =>
        rbind (carry_a2b bshare semi_bops t m q (k - 1)) (fun carry =>
        Ok (b_xor semi_bops (b_rsh semi_bops (b_xor semi_bops m q) (k - 1)) carry))
    | _ => Err
    end
  else Err.
(* api.cc:323-339 msb_s on an arithmetic share: the kernel when registered (protocol.cc:90-91, two parties), else a2b and a shift *)
Definition msb_s (t : nat) (R : nat -> nat -> Z) (X : nat -> Z) : res bshare :=
  if (n =? 2)%nat then msb_a2b t R X else rbind (a2b R X) (fun s => Ok (b_rsh semi_bops s (Z.max 0 (k - 1)))).

(* conversion.cc:316-374 eqz.  RA, RB: the dealer's additive and boolean shares of one random word.
   ring_rshift keeps the type, so every AND works on k bits. *)
Fixpoint eqz_loop (fuel t : nat) (cur : Z) (x : bshare) : res bshare :=
  if cur =? 1 then Ok x
  else match fuel with
  | O => Err
  | S f => let cur := cur / 2 in
           rbind (and_share t x (fst x, fun i => rshr cur (snd x i))) (eqz_loop f (S t) cur)
  end.
Definition eqz (t pivot : nat) (RA RB X : nat -> Z) : res bshare :=
  let c := fun rank => allreduce (radd k) n (fun i => radd k (RA i) (X i)) rank in
  let rb := fun i => if (i =? pivot)%nat then rnot k (rxor (RB i) (c i)) else RB i in
  rbind (eqz_loop (Z.to_nat k) t k (k, rb)) (fun out =>
  Ok (k, fun i => rand_ (snd out i) 1)).
(* conversion.cc:376-388 EqualAA, 390-408 EqualAP; pivot is drawn from the public generator, modulo the world size *)
Definition equal_aa (t pivot : nat) (RA RB X Y : nat -> Z) : res bshare :=
  eqz t pivot RA RB (fun i => rsub k (X i) (Y i)).
Definition equal_ap (t pivot : nat) (RA RB X : nat -> Z) (p : Z) : res bshare :=
  eqz t pivot RA RB (fun i => if (i =? 0)%nat then rsub k (X i) p else X i).
End Conv.
