(** Model of hilti/runtime/include/types/bytes.h and hilti/runtime/src/types/bytes.cc (without decode, toReal, match, upper
    and lower).

    std::string primitives are modelled by their documented meaning; sizes are below 2^63. *)
From Verif Require Import Base IntModel StrModel.
Open Scope Z_scope.

Definition blen (s : bytes) : Z := Z.of_nat (length s).

(** std::string::substr(pos, n) *)
Definition std_substr (s : bytes) (pos n : Z) : res bytes :=
  if blen s <? pos then Throw StdOutOfRange
  else Ok (firstn (Z.to_nat (Z.min n (blen s - pos))) (skipn (Z.to_nat pos) s)).

(** bytes.h:392-398 sub(from, to); [Offset] is uint64_t *)
Definition sub (s : bytes) (from to : Z) : res bytes :=
  match std_substr s from ((to - from) mod 2 ^ 64) with
  | Throw StdOutOfRange => Throw OutOfRange
  | r => r
  end.
(** bytes.h:406 sub(to) *)
Definition sub_to (s : bytes) (to : Z) : res bytes := sub s 0 to.
(** bytes.h:415-421 extract: the [n] bytes written to [dst] and the rest; npos = 2^64 - 1 *)
Definition extract (s : bytes) (n : Z) : res (bytes * bytes) :=
  if blen s <? n then Throw InvalidArgument
  else let* r := sub s n (2 ^ 64 - 1) in Ok (firstn (Z.to_nat n) s, r).

(** bytes.cc:254-260 toInt(base); the base is converted to uint8_t *)
Definition to_int (s : bytes) (base : Z) : res Z :=
  let* r := atoi_s64 s (base mod 256) in
  if snd r =? blen s then Ok (match fst r with Some v => v | None => 0 end) else Throw RuntimeError.
(** conversion to integer::safe<uint64_t> of a signed value *)
Definition safe_u64 (v : Z) : res Z := if v <? 0 then Throw Overflow else Ok v.
(** bytes.cc:262-268 toUInt(base) *)
Definition to_uint (s : bytes) (base : Z) : res Z :=
  let* r := atoi_s64 s (base mod 256) in
  if snd r =? blen s then safe_u64 (match fst r with Some v => v | None => 0 end) else Throw RuntimeError.

(** bytes.cc:299-302 *)
Definition acc_bytes (s : bytes) : Z := fold_left (fun i c => Z.lor (Z.shiftl i 8 mod 2 ^ 64) c) s 0.
(** bytes.cc:293-307: toUInt(order) for orders other than Host and Undef *)
Definition to_uint_plain (hl : bool) (s : bytes) (o : order) : res Z :=
  match s with
  | [] => Throw InvalidValue
  | _ => if 8 <? blen s then Throw InvalidValue else
         let i := acc_bytes s in
         match o with Little => flip_u hl i (blen s) | _ => Ok i end
  end.
(** bytes.cc:270-282: the sign extension of toInt(order) *)
Definition sign_extend (size : Z) (i : Z) : Z :=
  if negb (Z.land i (Z.shiftl 1 (size * 8 - 1)) =? 0) then
    if size =? 8 then wrap (mkIty true W64) ((- ((2 ^ 64 - 1 - i + 1) mod 2 ^ 64)) mod 2 ^ 64)
    else wrap (mkIty true W64) ((- (Z.lxor i (Z.shiftl 1 (size * 8) - 1)) - 1) mod 2 ^ 64)
  else wrap (mkIty true W64) i.
Definition to_int_plain (hl : bool) (s : bytes) (o : order) : res Z :=
  let* i := to_uint_plain hl s o in Ok (sign_extend (blen s) i).
(** bytes.cc:284-308 toUInt(order): Host calls toInt(systemByteOrder()) *)
Definition to_uint_ord (hl : bool) (s : bytes) (o : order) : res Z :=
  match o with
  | Undef => Throw InvalidArgument
  | Host => let* v := to_int_plain hl s (sys_order hl) in safe_u64 v
  | _ => to_uint_plain hl s o
  end.
(** bytes.cc:270-282 toInt(order) *)
Definition to_int_ord (hl : bool) (s : bytes) (o : order) : res Z :=
  let* i := to_uint_ord hl s o in Ok (sign_extend (blen s) i).

(** bytes.cc:86-106 the loop of find(needle): [s] is the data from position [i] on, [first :: n] the needle *)
Fixpoint match_at (s n : bytes) {struct n} : option bool :=   (* None: end of data reached *)
  match n with
  | [] => Some true
  | y :: n' => match s with [] => None | x :: s' => if x =? y then match_at s' n' else Some false end
  end.
Fixpoint find_loop (s n : bytes) (i : Z) : bool * Z :=
  match s with
  | [] => (false, i)
  | x :: s' => match match_at s n with
               | None => (false, i)
               | Some true => (true, i)
               | Some false => find_loop s' n (i + 1)
               end
  end.

(** * Objects and iterators

    An object is a Bytes instance: its content and its control block (bytes.h:643, util.h:709-757). Control blocks have
    identities that are never reused; [None] is a null [_control]. The [_data] pointer of a block always is the object
    itself (bytes.h:643 [_control{this}], also used by the copy and move constructors, bytes.h:257-258, which do not
    mention the member). Destroyed objects are [None]. *)
Record bobj := mkBObj { b_data : bytes; b_ctl : option nat }.
Record bstate := mkBS { bs_objs : list (option bobj); bs_next : nat }.

(** bytes.h:54-65 SafeIterator: control (identity, object) or null, and index *)
Record biter := mkBI { bi_ref : option (nat * nat); bi_index : Z }.

Definition bget (st : bstate) (o : nat) : option bobj := match nth_error (bs_objs st) o with Some (Some b) => Some b | _ => None end.
Fixpoint upd {A} (l : list A) (k : nat) (a : A) : list A :=
  match l, k with [], _ => [] | _ :: l', O => a :: l' | x :: l', S k' => x :: upd l' k' a end.
Definition bput (st : bstate) (o : nat) (b : option bobj) : bstate := mkBS (upd (bs_objs st) o b) (bs_next st).
Definition bnew (st : bstate) (b : bobj) : bstate := mkBS (bs_objs st ++ [Some b]) (bs_next st).

(** util.h:742-747 conversion of a block to a reference: creates the control block on demand *)
Definition bref (st : bstate) (o : nat) : res (bstate * nat) :=
  match bget st o with
  | None => UB
  | Some b => match b_ctl b with
              | Some c => Ok (st, c)
              | None => Ok (mkBS (upd (bs_objs st) o (Some (mkBObj (b_data b) (Some (bs_next st))))) (S (bs_next st)), bs_next st)
              end
  end.

(** util.h:778-808 Reference::isValid/get: the weak pointer is expired unless some live object owns the control block;
    then [*_data] is accessed. *)
Definition alive_ctl (st : bstate) (c : nat) : bool :=
  existsb (fun b => match b with Some b => match b_ctl b with Some c' => Nat.eqb c c' | None => false end | None => false end)
          (bs_objs st).
Definition bderef_data (st : bstate) (it : biter) : res bytes :=
  match bi_ref it with
  | None => Throw InvalidIterator
  | Some (c, o) => if alive_ctl st c then match bget st o with Some b => Ok (b_data b) | None => UB end else Throw InvalidIterator
  end.
(** bytes.h:67-74 operator* *)
Definition bderef (st : bstate) (it : biter) : res Z :=
  let* d := bderef_data st it in
  if blen d <=? bi_index it then Throw IndexError else
  match nth_error d (Z.to_nat (bi_index it)) with Some x => Ok x | None => UB end.

(** util.h:810-812 equality of references: same control block or both null *)
Definition ref_eqb (a b : option (nat * nat)) : bool :=
  match a, b with Some (c, _), Some (c', _) => Nat.eqb c c' | None, None => true | _, _ => false end.

(** bytes.h:76-107: moving; [_index] is a checked uint64 *)
Definition badd (it : biter) (n : Z) : res biter :=
  let i := bi_index it + n in
  if (i <? 0) || (2 ^ 64 <=? i) then Throw Overflow else Ok (mkBI (bi_ref it) i).
(** bytes.h:109-145: comparison (here: ==, < and -) *)
Definition beq (a b : biter) : res bool := if ref_eqb (bi_ref a) (bi_ref b) then Ok (bi_index a =? bi_index b) else Throw InvalidArgument.
Definition blt (a b : biter) : res bool := if ref_eqb (bi_ref a) (bi_ref b) then Ok (bi_index a <? bi_index b) else Throw InvalidArgument.
Definition bdiff (a b : biter) : res Z :=
  if ref_eqb (bi_ref a) (bi_ref b) then
    let d := bi_index a - bi_index b in if (d <? 0) || (2 ^ 63 <=? d) then Throw Overflow else Ok d
  else Throw InvalidArgument.

(** bytes.h:305 begin, 317 end, 329 at *)
Definition bat (st : bstate) (o : nat) (i : Z) : res (bstate * biter) :=
  let* r := bref st o in Ok (fst r, mkBI (Some (snd r, o)) i).
(** bytes.h:370-375 sub(from, to) with iterators *)
Definition bsub_it (st : bstate) (o : nat) (from to : biter) : res (bstate * bytes) :=
  match bget st o with
  | None => UB
  | Some b =>
      if negb (ref_eqb (bi_ref from) (bi_ref to)) then Throw InvalidArgument else
      let* r := bat st o 0 in
      let* f := bdiff from (snd r) in
      let* x := sub (b_data b) f (bi_index to) in Ok (fst r, x)
  end.

(** bytes.cc:77-107 find(needle, start); [None] is a default-constructed start *)
Definition bfind (st : bstate) (o : nat) (needle : bytes) (start : option biter) : res (bstate * (bool * biter)) :=
  match bget st o with
  | None => UB
  | Some b =>
      let* r := bat st o 0 in
      (* start ? start : b; operator bool is isValid, bytes.h:96 *)
      let s := match start with
               | Some it => match bi_ref it with
                            | Some (c, _) => if alive_ctl (fst r) c then it else snd r
                            | None => snd r
                            end
               | None => snd r
               end in
      match needle with
      | [] => Ok (fst r, (true, s))
      | _ =>
          (* i == end() *)
          let* e := beq s (mkBI (bi_ref (snd r)) (blen (b_data b))) in
          if blen (b_data b) <? bi_index s then Throw IndexError else
          let (found, i) := find_loop (skipn (Z.to_nat (bi_index s)) (b_data b)) needle (bi_index s) in
          Ok (fst r, (found, mkBI (bi_ref s) i))
      end
  end.

(** Operations of a client. The content of a moved-from string is unspecified: it is given by the operation. *)
Inductive bop :=
| BNew (d : bytes)                       (* bytes.h:252-255 *)
| BCopy (o : nat)                        (* bytes.h:257 *)
| BMove (o : nat) (rest : bytes)         (* bytes.h:258 *)
| BAssign (dst src : nat)                (* bytes.h:267-274 *)
| BMoveAssign (dst src : nat) (rest : bytes) (* bytes.h:283-287 *)
| BAppend (o : nat) (d : bytes)          (* bytes.h:290, 293, 296 *)
| BDestroy (o : nat)
| BAt (o : nat) (i : Z)                  (* begin, end, at *)
| BAdvance (k : nat) (n : Z)
| BDeref (k : nat)
| BEq (k1 k2 : nat) | BLt (k1 k2 : nat) | BDiff (k1 k2 : nat)
| BSub (o k1 k2 : nat)
| BFind (o : nat) (needle : bytes) (start : option nat).

(** What the client sees. *)
Inductive bobs := ONone | OByte (x : Z) | OBool (b : bool) | OInt (z : Z) | OBytes (d : bytes) | OFound (b : bool) (i : Z).

(** A machine: objects and the iterators the client has kept. Exceptions leave the machine unchanged except that a
    control block may have been created, which cannot be observed; the model drops that. *)
Record bmach := mkBM { bm_st : bstate; bm_its : list biter }.
Definition bm_init : bmach := mkBM (mkBS [] 0) [].
Definition bm_it (m : bmach) (k : nat) : biter := nth k (bm_its m) (mkBI None 0).

Definition bstep (m : bmach) (p : bop) : res (bmach * bobs) :=
  let st := bm_st m in
  let its := bm_its m in
  match p with
  | BNew d => Ok (mkBM (bnew st (mkBObj d None)) its, ONone)
  | BCopy o => match bget st o with None => UB | Some b => Ok (mkBM (bnew st (mkBObj (b_data b) None)) its, ONone) end
  | BMove o rest =>
      match bget st o with
      | None => UB
      | Some b => Ok (mkBM (bnew (bput st o (Some (mkBObj rest (b_ctl b)))) (mkBObj (b_data b) None)) its, ONone)
      end
  | BAssign d s =>
      match bget st d, bget st s with
      | Some bd, Some b => if Nat.eqb d s then Ok (m, ONone) else Ok (mkBM (bput st d (Some (mkBObj (b_data b) None))) its, ONone)
      | _, _ => UB
      end
  | BMoveAssign d s rest =>
      match bget st d, bget st s with
      | Some bd, Some b =>
          if Nat.eqb d s then Ok (mkBM (bput st d (Some (mkBObj rest None))) its, ONone)
          else Ok (mkBM (bput (bput st s (Some (mkBObj rest (b_ctl b)))) d (Some (mkBObj (b_data b) None))) its, ONone)
      | _, _ => UB
      end
  | BAppend o d => match bget st o with None => UB | Some b => Ok (mkBM (bput st o (Some (mkBObj (b_data b ++ d) (b_ctl b)))) its, ONone) end
  | BDestroy o => match bget st o with None => UB | Some _ => Ok (mkBM (bput st o None) its, ONone) end
  | BAt o i => let* r := bat st o i in Ok (mkBM (fst r) (its ++ [snd r]), ONone)
  | BAdvance k n => let* it := badd (bm_it m k) n in Ok (mkBM st (its ++ [it]), ONone)
  | BDeref k => let* x := bderef st (bm_it m k) in Ok (m, OByte x)
  | BEq a b => let* x := beq (bm_it m a) (bm_it m b) in Ok (m, OBool x)
  | BLt a b => let* x := blt (bm_it m a) (bm_it m b) in Ok (m, OBool x)
  | BDiff a b => let* x := bdiff (bm_it m a) (bm_it m b) in Ok (m, OInt x)
  | BSub o a b => let* r := bsub_it st o (bm_it m a) (bm_it m b) in Ok (mkBM (fst r) its, OBytes (snd r))
  | BFind o needle s =>
      let* r := bfind st o needle (option_map (bm_it m) s) in
      Ok (mkBM (fst r) (its ++ [snd (snd r)]), OFound (fst (snd r)) (bi_index (snd (snd r))))
  end.
