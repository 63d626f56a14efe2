(* Colocated input and output: libspu/device/io.cc:177-357, symbol_table.cc.
   All parties synchronise together.  The link delivers, per ordered pair of parties, what was sent in the order it was sent; sending
   does not wait.  So what a party receives is a function of what the others send, whatever the interleaving.
   Simplified: messages carry the records themselves (the byte strings of protobuf and of decimal numbers are not modelled), and
   the types checked at line 323 are those of the arguments.  When one party throws before sending, the others' receives time out
   and throw as well. *)
From Verif Require Import Ty_model Base Nd_model Val_model.
From Verif Require Semi_model.
Open Scope list_scope.
Open Scope Z_scope.

(* maps with string keys: bindings in the order of iteration *)
Definition smap (A : Type) := list (string * A).
Fixpoint look {A} (m : smap A) (s : string) : option A := match m with [] => None | (q, a) :: m => if String.eqb q s then Some a else look m s end.
(* symbol_table.cc:19-21 data_[name] = val *)
Fixpoint put {A} (m : smap A) (s : string) (a : A) : smap A := match m with [] => [(s, a)] | (q, b) :: m => if String.eqb q s then (q, a) :: m else (q, b) :: put m s a end.
(* unordered_map::insert keeps an existing binding *)
Definition insert_new {A} (m : smap A) (s : string) (a : A) : smap A := match look m s with Some _ => m | None => m ++ [(s, a)] end.
Definition pvalue : Type := meta * list chunk.
Inductive msg := MKey (s : string) | MMeta (m : meta) | MCount (n : nat) | MChunk (c : chunk).

Section Sync.
(* host variables, and what IoClient::makeShares (44-105) returns for one: the value of every party *)
Variable V : Type.
Variable n : nat.
Variable make : nat -> string -> V -> res (list value).
(* iteration order of the hash map of party i for destination j, and of the hash map party p holds for sender i *)
Variable send_order : nat -> nat -> smap pvalue -> smap pvalue.
Variable set_order : nat -> nat -> smap pvalue -> smap pvalue.
Variable ps : list proto.
Variable junk : Z.
Definition max_chunk : Z := 128 * 1024 * 1024.

(* 179-183 hostSetVar, 205-215 deviceSetVar, deviceGetVar, deviceHasVar *)
Record pstate := mkP { symbols : smap value; unsynced : smap V }.
Definition host_set (st : pstate) (s : string) (v : V) : pstate := mkP (symbols st) (put (unsynced st) s v).
Definition device_set (st : pstate) (s : string) (v : value) : pstate := mkP (put (symbols st) s v) (unsynced st).
Definition device_get (st : pstate) (s : string) : res value := match look (symbols st) s with Some v => Ok v | None => Err end.

(* 318-337: party i serialises its variables into one table per party *)
Fixpoint mapR {A B} (f : A -> res B) (l : list A) : res (list B) := match l with [] => Ok [] | a :: l => rbind (f a) (fun b => rbind (mapR f l) (fun r => Ok (b :: r))) end.
Fixpoint add_all (rows : list (smap pvalue)) (s : string) (protos : list pvalue) : list (smap pvalue) :=
  match rows, protos with r :: rows, p :: protos => insert_new r s p :: add_all rows s protos | _, _ => rows end.
Definition make_rows (i : nat) (vars : smap V) : res (list (smap pvalue)) :=
  fold_left (fun acc '(s, v) =>
    rbind acc (fun rows =>
    rbind (make i s v) (fun shares =>
    if negb (length shares =? n)%nat then Err
    else rbind (mapR (to_proto max_chunk) shares) (fun protos => Ok (add_all rows s protos))))) vars (Ok (repeat [] n)).
(* 245-262: what party i sends to party j *)
Definition messages (i j : nat) (rows : list (smap pvalue)) : list msg :=
  flat_map (fun '(s, (m, cs)) => MKey s :: MMeta m :: MCount (length cs) :: map MChunk cs) (send_order i j (nth j rows [])).
(* 264-292: reading [count] variables from a queue *)
Fixpoint recv_chunks (c : nat) (q : list msg) : res (list chunk * list msg) :=
  match c with
  | O => Ok ([], q)
  | S c => match q with MChunk x :: q => rbind (recv_chunks c q) (fun '(cs, q) => Ok (x :: cs, q)) | _ => Err end
  end.
Fixpoint recv_vars (count : nat) (table : smap pvalue) (q : list msg) : res (smap pvalue * list msg) :=
  match count with
  | O => Ok (table, q)
  | S count =>
      match q with
      | MKey s :: MMeta m :: MCount c :: q => rbind (recv_chunks c q) (fun '(cs, q) => recv_vars count (insert_new table s (m, cs)) q)
      | _ => Err
      end
  end.
(* 228-295 all2all at party p; the counts are those of the senders' first tables.  Also what is left in the queues *)
Definition all2all (p : nat) (rows : list (list (smap pvalue))) : res (list (smap pvalue) * list msg) :=
  fold_left (fun acc i =>
    rbind acc (fun '(cols, unread) =>
    let ri := nth i rows [] in
    if (i =? p)%nat then Ok (cols ++ [nth p ri []], unread)
    else rbind (recv_vars (length (nth 0 ri [])) [] (messages i p ri)) (fun '(t, q) => Ok (cols ++ [t], unread ++ q)))) (seq 0 n) (Ok ([], [])).
(* 342-349 *)
Fixpoint check_names (seen : list string) (names : list string) : res unit :=
  match names with [] => Ok tt | s :: names => if existsb (String.eqb s) seen then Err else check_names (seen ++ [s]) names end.
(* 351-356 *)
Definition set_all (sym : smap value) (cols : smap pvalue) : res (smap value) :=
  fold_left (fun acc '(s, pr) => rbind acc (fun sym => rbind (from_proto ps junk pr) (fun v => Ok (put sym s v)))) cols (Ok sym).
(* 297-357 sync at party p; the state afterwards and the messages left unread *)
Definition sync (st : nat -> pstate) (p : nat) : res (pstate * list msg) :=
  rbind (mapR (fun i => make_rows i (unsynced (st i))) (seq 0 n)) (fun rows =>
  rbind (all2all p rows) (fun '(cols, unread) =>
  let all := concat (map (fun i => set_order p i (nth i cols [])) (seq 0 n)) in
  rbind (check_names [] (map fst all)) (fun _ =>
  rbind (set_all (symbols (st p)) all) (fun sym => Ok (mkP sym [], unread))))).
End Sync.

(* ---- IoClient::makeShares with semi2k ---- *)
(* a host variable after encodeToRing (C01): its words in row-major order, and the random words drawn for every element.
   splitting an element is semi2k/io.cc:37-79 toShares: Semi_model.to_shares *)
Record hvar := mkH { hvis : Semi_model.vis; hshape : list Z; hwords : list Z; hdt : Z; hrand : nat -> list Z }.
Definition fbits (f : field) : Z := match f with FM32 => 32 | FM64 => 64 | FM128 => 128 | FT_INVALID => 0 end.
Definition htype (f : field) (v : Semi_model.vis) : ty :=
  match v with
  | Semi_model.VPublic => set_field (blank CPub) f
  | Semi_model.VPrivate o => set_owner (set_field (blank CPriv) f) (Z.of_nat o)
  | Semi_model.VSecret => set_field (blank SemiA) f
  end.
Definition helem (f : field) (n : nat) (h : hvar) (p i : nat) : Z := nth p (Semi_model.to_shares (fbits f) n (hvis h) (nth i (hwords h) 0) (hrand h i)) 0.
(* io.cc:90-104 *)
Definition semi_make (f : field) (n : nat) (owner : nat) (s : string) (h : hvar) : res (list value) :=
  Ok (map (fun p => mkValue (htype f (hvis h)) (compact (map (helem f n h p) (seq 0 (length (hwords h)))) (hshape h)) None (hdt h)) (seq 0 n)).
