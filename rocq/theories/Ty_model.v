(* Storage types and their strings: libspu/core/type.{h,cc}, core/type_util.{h,cc}, mpc/common/pv2k.{h,cc} and the
   type.{h,cc} of every protocol (semi2k, aby3, spdz2k, cheetah, securenn, swift, ref2k).
   Strings are byte strings.  magic_enum's name tables are written out below. *)
From Coq Require Export String Ascii.
From Verif Require Import Base.
Open Scope string_scope.
Open Scope Z_scope.

(* spu.h:64-83, 89-95 *)
Inductive ptype := PT_INVALID | PT_I8 | PT_U8 | PT_I16 | PT_U16 | PT_I32 | PT_U32 | PT_I64 | PT_U64 | PT_I128 | PT_U128 | PT_I1
  | PT_F16 | PT_F32 | PT_F64 | PT_CF32 | PT_CF64.
Inductive field := FT_INVALID | FM32 | FM64 | FM128.
(* magic_enum::enum_name *)
Definition pname (p : ptype) : string :=
  match p with
  | PT_INVALID => "PT_INVALID" | PT_I8 => "PT_I8" | PT_U8 => "PT_U8" | PT_I16 => "PT_I16" | PT_U16 => "PT_U16"
  | PT_I32 => "PT_I32" | PT_U32 => "PT_U32" | PT_I64 => "PT_I64" | PT_U64 => "PT_U64" | PT_I128 => "PT_I128"
  | PT_U128 => "PT_U128" | PT_I1 => "PT_I1" | PT_F16 => "PT_F16" | PT_F32 => "PT_F32" | PT_F64 => "PT_F64"
  | PT_CF32 => "PT_CF32" | PT_CF64 => "PT_CF64"
  end.
Definition fname (f : field) : string :=
  match f with FT_INVALID => "FT_INVALID" | FM32 => "FM32" | FM64 => "FM64" | FM128 => "FM128" end.
Definition all_pt : list ptype := [PT_INVALID; PT_I8; PT_U8; PT_I16; PT_U16; PT_I32; PT_U32; PT_I64; PT_U64; PT_I128; PT_U128; PT_I1;
  PT_F16; PT_F32; PT_F64; PT_CF32; PT_CF64].
Definition all_field : list field := [FT_INVALID; FM32; FM64; FM128].
(* magic_enum::enum_cast; no value: the callers' SPU_ENFORCE *)
Definition pcast (s : string) : res ptype := match find (fun p => String.eqb (pname p) s) all_pt with Some p => Ok p | None => Err end.
Definition fcast (s : string) : res field := match find (fun f => String.eqb (fname f) s) all_field with Some f => Ok f | None => Err end.
(* type_util.cc:111-124 SizeOf(PtType), in bytes *)
Definition psize (p : ptype) : Z :=
  match p with
  | PT_INVALID => 0 | PT_I8 | PT_U8 | PT_I1 => 1 | PT_I16 | PT_U16 | PT_F16 => 2 | PT_I32 | PT_U32 | PT_F32 => 4
  | PT_I64 | PT_U64 | PT_F64 | PT_CF32 => 8 | PT_I128 | PT_U128 | PT_CF64 => 16
  end.
(* type_util.cc:158-169 GetStorageType, type_util.h:256 SizeOf(FieldType) *)
Definition fsize (f : field) : res Z := match f with FT_INVALID => Err | FM32 => Ok 4 | FM64 => Ok 8 | FM128 => Ok 16 end.
(* type_util.cc:137-148 *)
Definition mersenne (f : field) : res Z := match f with FT_INVALID => Err | FM32 => Ok 31 | FM64 => Ok 61 | FM128 => Ok 127 end.

(* The classes of types *)
Inductive cls := CVoid | CPt | CRing | CGfmp | CPub | CPriv
  | SemiA | SemiB | SemiP | AbyA | AbyO | AbyOP | AbyB | AbyP | SpdzA | SpdzB
  | CheetahA | CheetahB | CheetahP | SnnA | SnnB | SwiftA | SwiftB | SwiftP | RefS.
(* getStaticId, one line per class in the headers; note that OShrTy and OPShrTy of aby3/type.h:38 and 51 have the same *)
Definition id (c : cls) : string :=
  match c with
  | CVoid => "Void" | CPt => "Plaintext" | CRing => "Ring" | CGfmp => "Gfmp" | CPub => "Pub2k" | CPriv => "Priv2k"
  | SemiA => "semi2k.AShr" | SemiB => "semi2k.BShr" | SemiP => "semi2k.PShr"
  | AbyA => "aby3.AShr" | AbyO => "aby3.OShr" | AbyOP => "aby3.OShr" | AbyB => "aby3.BShr" | AbyP => "aby3.PShr"
  | SpdzA => "spdz2k.AShr" | SpdzB => "spdz2k.BShr"
  | CheetahA => "cheetah.AShr" | CheetahB => "cheetah.BShr" | CheetahP => "cheetah.PShr"
  | SnnA => "securenn.AShr" | SnnB => "securenn.BShr"
  | SwiftA => "swift.AShr" | SwiftB => "swift.BShr" | SwiftP => "swift.PShr" | RefS => "ref2k.Sec"
  end.
(* The attributes of all classes; those a class does not have keep their default.  [prime] is Gfp::prime_, [kbits] is
   BShrTy::k_ of spdz2k, [mac] AShrTy::has_mac_ of spdz2k *)
Record ty := mkTy { tcls : cls; tfield : field; tpt : ptype; nbits : Z; owner : Z; mpexp : Z; prime : Z; mac : bool; kbits : Z }.
(* the default constructors: Ring2k::field_ = FT_INVALID, BShare::nbits_ = 0, Private::owner_ = -1, PShrTy() sets FM64.
   PtTy::pt_type_ and GfmpTy::mersenne_prime_exp_ are left uninitialised by the code: every use follows fromString *)
Definition blank (c : cls) : ty :=
  mkTy c (match c with SemiP | AbyP | CheetahP | SwiftP => FM64 | _ => FT_INVALID end) PT_INVALID 0 (-1) 0 0 false 0.
Definition set_field (t : ty) (f : field) : ty := mkTy (tcls t) f (tpt t) (nbits t) (owner t) (mpexp t) (prime t) (mac t) (kbits t).
Definition set_pt (t : ty) (p : ptype) : ty := mkTy (tcls t) (tfield t) p (nbits t) (owner t) (mpexp t) (prime t) (mac t) (kbits t).
Definition set_nbits (t : ty) (n : Z) : ty := mkTy (tcls t) (tfield t) (tpt t) n (owner t) (mpexp t) (prime t) (mac t) (kbits t).
Definition set_owner (t : ty) (o : Z) : ty := mkTy (tcls t) (tfield t) (tpt t) (nbits t) o (mpexp t) (prime t) (mac t) (kbits t).
Definition set_mp (t : ty) (e p : Z) : ty := mkTy (tcls t) (tfield t) (tpt t) (nbits t) (owner t) e p (mac t) (kbits t).
Definition set_mac (t : ty) (b : bool) : ty := mkTy (tcls t) (tfield t) (tpt t) (nbits t) (owner t) (mpexp t) (prime t) b (kbits t).
Definition set_k (t : ty) (k : Z) : ty := mkTy (tcls t) (tfield t) (tpt t) (nbits t) (owner t) (mpexp t) (prime t) (mac t) k.

(* ---- the constructors with arguments (the only other way to make a type) ---- *)
Inductive make :=
  | MVoid | MPt (p : ptype)
  | MField (c : cls) (f : field)             (* RingTy, Pub2kTy, the AShrTy's, OShrTy, OPShrTy, Ref2kSecrTy: field_ = field *)
  | MGfmp (f : field) | MPriv (f : field) (o : Z)
  | MB (c : cls) (f : field) (n : option Z)  (* BShrTy of semi2k, cheetah, securenn, swift; None: the default argument *)
  | MAbyB (p : ptype) (n : Z) | MSpdzB (p : ptype) (n : Z) (f : field) | MSpdzA (f : field) (m : bool)
  | MP (c : cls).                            (* PShrTy() *)
Definition construct (m : make) : res ty :=
  match m with
  | MVoid => Ok (blank CVoid)
  | MPt p => Ok (set_pt (blank CPt) p)
  | MField c f => match c with
      | CRing | CPub | SemiA | AbyA | AbyO | AbyOP | SpdzA | CheetahA | SnnA | SwiftA | RefS => Ok (set_field (blank c) f)
      | _ => Err end
  | MGfmp f => rbind (mersenne f) (fun e => Ok (set_mp (set_field (blank CGfmp) f) e (2 ^ e - 1)))  (* type.h:397-401 *)
  | MPriv f o => Ok (set_owner (set_field (blank CPriv) f) o)
  | MB c f n => match c with                                            (* e.g. semi2k/type.h:37-41 *)
      | SemiB | CheetahB | SnnB | SwiftB =>
          rbind (fsize f) (fun s => let nb := match n with None => s * 8 | Some n => n end in
          if nb <=? s * 8 then Ok (set_nbits (set_field (blank c) f) nb) else Err)
      | _ => Err end
  | MAbyB p n => if n <=? psize p * 8 then Ok (set_nbits (set_pt (blank AbyB) p) n) else Err       (* aby3/type.h:84-89 *)
  | MSpdzB p n f =>                                                     (* spdz2k/type.h:51-58 *)
      if n <=? psize p * 8 then rbind (fsize f) (fun s => Ok (set_k (set_field (set_nbits (set_pt (blank SpdzB) p) n) f) (Z.quot (s * 8) 2))) else Err
  | MSpdzA f m => Ok (set_mac (set_field (blank SpdzA) f) m)            (* spdz2k/type.h:33-36 *)
  | MP c => match c with SemiP | AbyP | CheetahP | SwiftP => Ok (blank c) | _ => Err end
  end.

(* ---- sizes in bytes: the overrides of size() ---- *)
Definition tsize (t : ty) : res Z :=
  let ring := match tfield t with FT_INVALID => Ok 0 | f => fsize f end in       (* type.h:372-377, 406-411 *)
  match tcls t with
  | CVoid => Ok 0                                                                (* type.h:299 *)
  | CPt => Ok (psize (tpt t))                                                    (* type.h:336 *)
  | CPriv | AbyOP => fsize (tfield t)                                            (* pv2k.h:48-52, aby3/type.h:56 *)
  | AbyA | AbyO | AbyP | SpdzA => rbind (fsize (tfield t)) (fun s => Ok (s * 2)) (* aby3/type.h:30, 43, 118; spdz2k/type.h:40 *)
  | AbyB => Ok (psize (tpt t) * 2)                                               (* aby3/type.h:98 *)
  | SpdzB => rbind (fsize (tfield t)) (fun s => Ok (s * 2 * kbits t))            (* spdz2k/type.h:71-73 *)
  | SwiftA | SwiftB => rbind ring (fun s => Ok (s * 3))                          (* swift/type.h:29-34, 52-57 *)
  | _ => ring
  end.
(* value.cc:28-38 getVisibilityFromType: isa<Secret>, isa<Public>, isa<Private> *)
Inductive tvis := VSecret | VPublic | VPrivate | VInvalid.
Definition tvisibility (t : ty) : tvis :=
  match tcls t with CVoid | CPt | CRing | CGfmp => VInvalid | CPub => VPublic | CPriv => VPrivate | _ => VSecret end.

(* ---- equality: type.cc:35-40 and the equals() overrides; RingTy::equals where there is none ---- *)
Definition field_eqb (f g : field) : bool := match f, g with FT_INVALID, FT_INVALID | FM32, FM32 | FM64, FM64 | FM128, FM128 => true | _, _ => false end.
Definition pt_eqb (p q : ptype) : bool := String.eqb (pname p) (pname q).
Definition equals (a b : ty) : bool :=
  match tcls a with
  | CVoid => true
  | CPt => pt_eqb (tpt a) (tpt b)
  | CGfmp => field_eqb (tfield a) (tfield b) && (mpexp a =? mpexp b) && (prime a =? prime b)
  | CPriv => field_eqb (tfield a) (tfield b) && (owner a =? owner b)
  | SemiB | CheetahB | SnnB | SwiftB => field_eqb (tfield a) (tfield b) && (nbits a =? nbits b)
  | AbyB => pt_eqb (tpt a) (tpt b) && (nbits a =? nbits b)
  | SpdzB => pt_eqb (tpt a) (tpt b) && (nbits a =? nbits b) && field_eqb (tfield a) (tfield b)
  | _ => field_eqb (tfield a) (tfield b)
  end.
Definition ty_eqb (a b : ty) : bool := String.eqb (id (tcls a)) (id (tcls b)) && equals a b.

(* ---- decimal numbers ---- *)
Definition digit (d : Z) : ascii := ascii_of_nat (48 + Z.to_nat d).
(* fmt's decimal output of an integer *)
Fixpoint digits (fuel : nat) (n : Z) (acc : string) : string :=
  match fuel with
  | O => String (digit n) acc
  | S m => if n <? 10 then String (digit n) acc else digits m (n / 10) (String (digit (n mod 10)) acc)
  end.
Definition dec (n : Z) : string :=
  if n <? 0 then String "-" (digits (S (Z.to_nat (Z.log2 (- n)))) (- n) "") else digits (S (Z.to_nat (Z.log2 n))) n "".
Definition digit_val (c : ascii) : option Z :=
  let n := Z.of_nat (nat_of_ascii c) in if (48 <=? n) && (n <=? 57) then Some (n - 48) else None.
(* strtoul / strtoll, base 10: white space, a sign, the longest run of digits *)
Fixpoint skip_space (s : string) : string :=
  match s with String c r => let n := nat_of_ascii c in if ((9 <=? n) && (n <=? 13) || (n =? 32))%nat%bool then skip_space r else s | "" => "" end.
Definition sign (s : string) : bool * string :=
  match s with String c r => if Ascii.eqb c "-" then (true, r) else if Ascii.eqb c "+" then (false, r) else (false, s) | "" => (false, "") end.
Fixpoint read (s : string) (acc : Z) (seen : bool) : Z * bool :=
  match s with String c r => match digit_val c with Some d => read r (10 * acc + d) true | None => (acc, seen) end | "" => (acc, seen) end.
(* std::stoul: no digits or out of range throw; "-v" is 2^64 - v *)
Definition stoul (s : string) : res Z :=
  let '(ng, r) := sign (skip_space s) in let '(v, seen) := read r 0 false in
  if negb seen then Err else if 2 ^ 64 <=? v then Err else Ok (if ng then (2 ^ 64 - v) mod 2 ^ 64 else v).
Definition stoll (s : string) : res Z :=
  let '(ng, r) := sign (skip_space s) in let '(v, seen) := read r 0 false in
  if negb seen then Err else let w := if ng then - v else v in
  if (w <? - 2 ^ 63) || (2 ^ 63 <=? w) then Err else Ok w.

(* ---- std::string_view ---- *)
(* find_first_of, find_last_of a character; None is npos *)
Fixpoint find_first (c : ascii) (s : string) : option nat :=
  match s with "" => None | String d r => if Ascii.eqb c d then Some 0%nat else option_map S (find_first c r) end.
Fixpoint find_last (c : ascii) (s : string) : option nat :=
  match s with "" => None | String d r => match find_last c r with Some i => Some (S i) | None => if Ascii.eqb c d then Some 0%nat else None end end.
(* substr(0, pos), substr(pos + 1), substr(pos + 1, count); npos + 1 is 0 *)
Definition before (s : string) (i : option nat) : string := match i with Some n => substring 0 n s | None => s end.
Definition after (s : string) (i : option nat) : string := match i with Some n => substring (S n) (String.length s) s | None => s end.
Definition after_cnt (s : string) (i cnt : option nat) : string := match cnt with Some n => substring 0 n (after s i) | None => after s i end.

(* ---- printing: the toString() overrides; type.cc:47-49 ---- *)
Definition detail (t : ty) : string :=
  match tcls t with
  | CVoid => ""                                                                  (* type.h:305 *)
  | CPt => pname (tpt t)                                                         (* type.cc:114-116 *)
  | CGfmp => fname (tfield t) ++ "," ++ dec (mpexp t)                            (* type.cc:139-142 *)
  | CPriv => fname (tfield t) ++ "," ++ dec (owner t)                            (* pv2k.cc:1073-1075 *)
  | SemiB | CheetahB | SnnB | SwiftB => fname (tfield t) ++ "," ++ dec (nbits t) (* semi2k/type.cc:44-46 and the like *)
  | AbyB => pname (tpt t) ++ "," ++ dec (nbits t)                                (* aby3/type.cc:44-46 *)
  | SpdzB => pname (tpt t) ++ "," ++ dec (nbits t) ++ "," ++ fname (tfield t)    (* spdz2k/type.cc:50-53 *)
  | _ => fname (tfield t)                                                        (* type.cc:124-126 *)
  end.
Definition to_string (t : ty) : string := id (tcls t) ++ "<" ++ detail t ++ ">".

(* ---- parsing ---- *)
(* the fromString() overrides, on a default-constructed object *)
Definition read_detail (c : cls) (s : string) : res ty :=
  let comma := find_first "," s in
  let t := blank c in
  match c with
  | CVoid => match s with "" => Ok t | _ => Err end                              (* type.h:301-303 *)
  | CPt => rbind (pcast s) (fun p => Ok (set_pt t p))                            (* type.cc:108-112 *)
  | CGfmp =>                                                                     (* type.cc:128-137 *)
      rbind (fcast (before s comma)) (fun f => rbind (stoul (after s comma)) (fun e =>
      if 128 <=? e then Ub else Ok (set_mp (set_field t f) e (2 ^ e - 1))))      (* shift of a uint128_t *)
  | CPriv => rbind (fcast (before s comma)) (fun f => rbind (stoll (after s comma)) (fun o => Ok (set_owner (set_field t f) o)))
  | SemiB | CheetahB | SnnB | SwiftB =>
      rbind (fcast (before s comma)) (fun f => rbind (stoul (after s comma)) (fun n => Ok (set_nbits (set_field t f) n)))
  | AbyB => rbind (pcast (before s comma)) (fun p => rbind (stoul (after s comma)) (fun n => Ok (set_nbits (set_pt t p) n)))
  | SpdzB =>                                                                     (* spdz2k/type.cc:35-48; k_ stays 0 *)
      let last := find_last "," s in
      rbind (pcast (before s comma)) (fun p => rbind (stoul (after_cnt s comma last)) (fun n =>
      rbind (fcast (after s last)) (fun f => Ok (set_field (set_nbits (set_pt t p) n) f))))
  | _ => rbind (fcast s) (fun f => Ok (set_field t f))                           (* type.cc:118-122 *)
  end.
(* the classes each protocol registers, with Pub2kTy and Priv2kTy (regPV2kTypes): the type.cc's, ref2k.cc:40-46; PShrTy of
   cheetah is not among them *)
Inductive proto := PSemi | PAby | PSpdz | PCheetah | PSnn | PSwift | PRef.
Definition types_of (p : proto) : list cls :=
  app [CPub; CPriv] match p with
  | PSemi => [SemiA; SemiB; SemiP] | PAby => [AbyA; AbyB; AbyO; AbyOP; AbyP] | PSpdz => [SpdzA; SpdzB]
  | PCheetah => [CheetahA; CheetahB] | PSnn => [SnnA; SnnB] | PSwift => [SwiftA; SwiftB; SwiftP] | PRef => [RefS]
  end.
(* TypeContext, type.h:426-467: the base types, then those of the protocols in the order they were registered; a later
   entry replaces an earlier one of the same id.  The unlocked read of the map (type.h:462) is not modelled *)
Definition registry (ps : list proto) : list cls := app [CVoid; CPt; CRing; CGfmp] (flat_map types_of ps).
Definition creator (ps : list proto) (keyword : string) : res cls :=
  match find (fun c => String.eqb (id c) keyword) (rev (registry ps)) with Some c => Ok c | None => Err end.
(* details.back() and the string without it *)
Fixpoint last_char (s : string) : option ascii :=
  match s with "" => None | String c r => match r with "" => Some c | _ => last_char r end end.
(* type.cc:89-106; Type's constructor then asks for the size (type.cc:26-27) *)
Definition from_string (ps : list proto) (repr : string) : res ty :=
  let less := find_first "<" repr in
  let keyword := before repr less in
  let details := after repr less in
  match keyword, last_char details with
  | "", _ | _, None => Err
  | _, Some c =>
      if negb (Ascii.eqb c ">") then Err
      else rbind (creator ps keyword) (fun cl =>
           rbind (read_detail cl (substring 0 (String.length details - 1) details)) (fun t =>
           rbind (tsize t) (fun _ => Ok t)))
  end.
