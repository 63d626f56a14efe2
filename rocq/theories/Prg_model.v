(* Pseudo-random generator state and pseudo-random secret sharing. libspu/mpc/common/prg_state.{h,cc} *)
From Verif Require Import Base Ring_model Semi_model.
Open Scope Z_scope.

(* bytes of a buffer read as little-endian words of [sz] bytes *)
Fixpoint le_word (bs : list Z) : Z := match bs with [] => 0 | b :: r => b + 256 * le_word r end.
Definition word_at (sz : nat) (bs : list Z) (idx : nat) : Z := le_word (firstn sz (skipn (idx * sz) bs)).

(* prg_state.h:33-48 *)
Record prg := mkPrg {
  pub_seed : Z; pub_ctr : Z;
  priv_seed : Z; priv_ctr : Z;
  self_seed : Z; next_seed : Z;
  r0_ctr : Z; r1_ctr : Z }.

(* GenPrssCtrl, prg_state.h:76 *)
Inductive ctrl := Both | First | Second.
(* calls on the [id]-th generator of a party: 0 is the one made by the constructor, fork appends *)
Inductive pop :=
| OPrss (id : nat) (bytes : nat) (c : ctrl)   (* genPrssPair, prg_state.cc:78-91; fillPrssPair, prg_state.h:81-103 *)
| OPrssPerm (id : nat) (numel : nat)          (* genPrssPermPair, prg_state.cc:115-120 *)
| OPubl (id : nat) (bytes : nat)              (* genPubl, prg_state.cc:102-109; fillPubl, prg_state.h:105-109 *)
| OPriv (id : nat) (bytes : nat)              (* genPriv, prg_state.cc:93-100; fillPriv, prg_state.h:111-115 *)
| OPrivPerm (id : nat) (numel : nat)          (* genPrivPerm, prg_state.cc:111-113 *)
| OFork (id : nat).                           (* fork, prg_state.cc:65-76 *)
Inductive pout :=
| RPair (r0 r1 : option (list Z))
| RPermPair (p0 p1 : list nat)
| RBytes (b : list Z)
| RPerm (p : list nat)
| RNone.

(* nextrank: Semi_model.  yacl's PrevRank: (rank + n - 1) mod n *)
Definition prevrank (n i : nat) : nat := if (i =? 0)%nat then (n - 1)%nat else (i - 1)%nat.

Section Prg.
(* yacl FillPRand: bytes of the stream [seed] from position [ctr], and the new position *)
Variable fill : Z -> Z -> nat -> list Z * Z.
(* permute.cc:128-133 genRandomPerm / yacl ReplayShuffle, and the new position *)
Variable shuffle : Z -> Z -> nat -> list nat * Z.

(* prg_state.cc:37-63, constructor run by n parties; pk, priv and self are each party's SecureRandSeed draws.
   The seed travels from a party to its predecessor, and is received from the successor. *)
Definition prss_sent (n : nat) (self : nat -> Z) (src dst : nat) : option Z :=
  if (dst =? prevrank n src)%nat then Some (self src) else None.
Definition prg_init (n : nat) (pk priv self : nat -> Z) (rank : nat) : res prg :=
  match prss_sent n self (nextrank n rank) rank with
  | Some nx => Ok (mkPrg (fold_left (fun s i => wrap 128 (s + pk i)) (seq 0 n) 0) 0 (priv rank) 0 (self rank) nx 0 0)
  | None => Err   (* Recv would time out *)
  end.

Definition fill_prss (s : prg) (bytes : nat) (c : ctrl) : prg * option (list Z) * option (list Z) :=
  let '(b0, c0) := fill (self_seed s) (r0_ctr s) bytes in
  let '(b1, c1) := fill (next_seed s) (r1_ctr s) bytes in
  let up x0 x1 := mkPrg (pub_seed s) (pub_ctr s) (priv_seed s) (priv_ctr s) (self_seed s) (next_seed s) x0 x1 in
  match c with
  | First => (up c0 (r1_ctr s), Some b0, None)
  | Second => (up (r0_ctr s) c1, None, Some b1)
  | Both => (up c0 c1, Some b0, Some b1)
  end.
Definition fill_publ (s : prg) (bytes : nat) : prg * list Z :=
  let '(b, c) := fill (pub_seed s) (pub_ctr s) bytes in
  (mkPrg (pub_seed s) c (priv_seed s) (priv_ctr s) (self_seed s) (next_seed s) (r0_ctr s) (r1_ctr s), b).
Definition with_priv (s : prg) (c : Z) : prg :=
  mkPrg (pub_seed s) (pub_ctr s) (priv_seed s) c (self_seed s) (next_seed s) (r0_ctr s) (r1_ctr s).
(* prg_state.cc:65-76; [fresh] is a SecureRandSeed draw.  Seeds are 16 bytes of the parent's streams; the
   default constructor (prg_state.cc:28-35) starts every counter at 0 *)
Definition fork (fresh : Z) (s : prg) : prg * prg :=
  let '(s1, pb) := fill_publ s 16 in
  let '(s2, sb, nb) := fill_prss s1 16 Both in
  let seed o := match o with Some b => le_word b | None => 0 end in
  (s2, mkPrg (le_word pb) 0 fresh 0 (seed sb) (seed nb) 0 0).

Fixpoint set_nth {A} (l : list A) (i : nat) (x : A) : list A :=
  match l, i with
  | [], _ => []
  | _ :: r, O => x :: r
  | y :: r, S i' => y :: set_nth r i' x
  end.
Definition op_id (o : pop) : nat :=
  match o with OPrss i _ _ | OPrssPerm i _ | OPubl i _ | OPriv i _ | OPrivPerm i _ | OFork i => i end.
(* one call by one party, whose live generators are [F]; [fresh m] is the party's m-th SecureRandSeed draw *)
Definition prg_step (fresh : nat -> Z) (F : list prg) (o : pop) : res (list prg * pout) :=
  match nth_error F (op_id o) with
  | None => Ub
  | Some s =>
      let upd s' := set_nth F (op_id o) s' in
      match o with
      | OPrss _ b c => let '(s', r0, r1) := fill_prss s b c in Ok (upd s', RPair r0 r1)
      | OPrssPerm _ m =>
          let '(p0, c0) := shuffle (self_seed s) (r0_ctr s) m in
          let '(p1, c1) := shuffle (next_seed s) (r1_ctr s) m in
          Ok (upd (mkPrg (pub_seed s) (pub_ctr s) (priv_seed s) (priv_ctr s) (self_seed s) (next_seed s) c0 c1), RPermPair p0 p1)
      | OPubl _ b => let '(s', r) := fill_publ s b in Ok (upd s', RBytes r)
      | OPriv _ b => let '(r, c) := fill (priv_seed s) (priv_ctr s) b in Ok (upd (with_priv s c), RBytes r)
      | OPrivPerm _ m => let '(r, c) := shuffle (priv_seed s) (priv_ctr s) m in Ok (upd (with_priv s c), RPerm r)
      | OFork _ => let '(s', child) := fork (fresh (length F)) s in Ok (upd s' ++ [child], RNone)
      end
  end.
Fixpoint prg_run (fresh : nat -> Z) (F : list prg) (h : list pop) : res (list prg * list pout) :=
  match h with
  | [] => Ok (F, [])
  | o :: r => rbind (prg_step fresh F o) (fun '(F1, out) =>
              rbind (prg_run fresh F1 r) (fun '(F2, outs) => Ok (F2, out :: outs)))
  end.
End Prg.
