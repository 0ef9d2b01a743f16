(** Model of hilti/runtime/include/types/stream.h and hilti/runtime/src/types/stream.cc:
    chunks, chains, safe iterators and the stream operations on them.

    General simplifications:
    - Offset/Size are [integer::safe<uint64_t>] (stream.h:80-84), which throw instead of wrapping.  The model uses [nat], i.e. it
      describes executions whose offsets stay below 2^64.
    - A [Chunk*] is modelled by an identity ([nat]); identities of freed chunks are never reused, and following one is [UB].
    - [_tail] (stream.h:467-469) is "always pointing to last chunk reachable from head": it is the last element here.
    - The memory of non-owning chunks is assumed to stay alive, as their creator has to ensure (stream.h:105-108). *)
From Verif Require Import Base.

(** Payload of a chunk: bytes, or a gap of some size ([_data == nullptr], stream.h:186). *)
Inductive payload := PData (bs : bytes) | PGap (n : nat).

(** stream.h:113-311 class Chunk. [c_alloc] is [_allocated]; 0 means non-owning. *)
Record chunk := mkChunk { c_id : nat; c_off : nat; c_alloc : nat; c_pay : payload }.

(** stream.h:209 Chunk::size *)
Definition c_size (c : chunk) : nat :=
  match c_pay c with PData bs => length bs | PGap n => n end.
(** stream.h:185 Chunk::endOffset *)
Definition c_end (c : chunk) : nat := c_off c + c_size c.
(** stream.h:186 Chunk::isGap *)
Definition c_is_gap (c : chunk) : bool := match c_pay c with PData _ => false | PGap _ => true end.
(** stream.h:187 Chunk::isOwning *)
Definition c_is_owning (c : chunk) : bool := 0 <? c_alloc c.
(** stream.h:188 Chunk::inRange *)
Definition c_in_range (c : chunk) (o : nat) : bool := (c_off c <=? o) && (o <? c_end c).

(** stream.h:190-200 Chunk::data(offset) followed by a read of that byte: throws in a gap, and is an out-of-bounds
    read if the offset is not inside the chunk (assert in debug builds). *)
Definition c_read (c : chunk) (o : nat) : res byte :=
  match c_pay c with
  | PGap _ => Throw MissingData
  | PData bs =>
      if c_in_range c o then
        match nth_error bs (o - c_off c) with Some b => Ok b | None => UB end
      else UB
  end.

(** stream.h:229-239 Chunk::makeOwning *)
Definition c_make_owning (c : chunk) : chunk :=
  if (c_size c =? 0) || c_is_owning c || c_is_gap c then c
  else mkChunk (c_id c) (c_off c) (c_size c) (c_pay c).

(** stream.h:248-256 Chunk::setOffset for a single chunk *)
Definition c_set_off (c : chunk) (o : nat) : chunk := mkChunk (c_id c) o (c_alloc c) (c_pay c).

(** stream.h:44-64 struct Statistics *)
Record stats := mkStats { num_data_bytes : nat; num_data_chunks : nat; num_gap_bytes : nat; num_gap_chunks : nat }.
Definition stats0 : stats := mkStats 0 0 0 0.

(** stream.h:449-453 Chain::State *)
Inductive cstate := SMutable | SFrozen | SInvalid.

(** stream.h:319-475 class Chain. [ch_fresh] is the next unused identity (ghost: the allocator). *)
Record chain := mkChain {
  ch_state : cstate;
  ch_chunks : list chunk;      (* _head and everything linked from it *)
  ch_hoff : nat;               (* _head_offset *)
  ch_stats : stats;            (* _statistics *)
  ch_cached : option chunk;    (* _cached *)
  ch_fresh : nat
}.

(** stream.h:325 Chain() / stream.h:1692 Stream() *)
Definition chain_new : chain := mkChain SMutable [] 0 stats0 None 0.

(** stream.h:327-341 Chain(std::unique_ptr<Chunk>) as used by Stream(Bytes) (stream.cc:498); may create a zero-size chunk *)
Definition chain_of_bytes (bs : bytes) : chain :=
  mkChain SMutable [mkChunk 0 0 (length bs) (PData bs)] 0
    (match bs with [] => stats0 | _ => mkStats (length bs) 1 0 0 end) None 1.

Definition last_chunk (l : list chunk) : option chunk :=
  match rev l with [] => None | c :: _ => Some c end.

(** stream.h:349-350 Chain::tail *)
Definition ch_tail (ch : chain) : option chunk := last_chunk (ch_chunks ch).
(** stream.h:352-353 isFrozen, isValid *)
Definition ch_is_frozen (ch : chain) : bool := match ch_state ch with SFrozen => true | _ => false end.
Definition ch_is_valid (ch : chain) : bool := match ch_state ch with SInvalid => false | _ => true end.
(** stream.h:357 Chain::endOffset *)
Definition ch_end (ch : chain) : nat :=
  match ch_tail ch with Some t => c_end t | None => ch_hoff ch end.
(** stream.h:351 Chain::size: [safe<uint64>] subtraction, throws if negative *)
Definition ch_size (ch : chain) : res nat :=
  if ch_hoff ch <=? ch_end ch then Ok (ch_end ch - ch_hoff ch) else Throw Overflow.
(** stream.h:354 Chain::inRange *)
Definition ch_in_range (ch : chain) (o : nat) : bool := (ch_hoff ch <=? o) && (o <? ch_end ch).

(** stream.h:269-286 Chunk::setNext as called by append(): the old tail becomes owning, the new chunk gets the
    tail's end offset. *)
Fixpoint link_last (l : list chunk) (c : chunk) : list chunk :=
  match l with
  | [] => [c]
  | [t] => [c_make_owning t; c_set_off c (c_end t)]
  | x :: l' => x :: link_last l' c
  end.

Definition stats_add (s : stats) (c : chunk) : stats :=
  if c_is_gap c then
    mkStats (num_data_bytes s) (num_data_chunks s) (num_gap_bytes s + c_size c) (S (num_gap_chunks s))
  else
    mkStats (num_data_bytes s + c_size c) (S (num_data_chunks s)) (num_gap_bytes s) (num_gap_chunks s).

(** stream.cc:108-132 Chain::append(std::unique_ptr<Chunk>) for a single chunk *)
Definition append_chunk (ch : chain) (c : chunk) : chain * res unit :=
  match ch_state ch with
  | SInvalid => (ch, Throw InvalidIterator)
  | SFrozen => (ch, Throw Frozen)
  | SMutable =>
      let cs := match ch_chunks ch with
                | [] => [c_set_off c (ch_hoff ch)]
                | _ => link_last (ch_chunks ch) c
                end in
      (mkChain SMutable cs (ch_hoff ch) (stats_add (ch_stats ch) c) (ch_cached ch) (ch_fresh ch), Ok tt)
  end.

Definition drop_cached (ch : chain) : chain :=
  mkChain (ch_state ch) (ch_chunks ch) (ch_hoff ch) (ch_stats ch) None (ch_fresh ch).
Definition take_fresh (ch : chain) : chain :=
  mkChain (ch_state ch) (ch_chunks ch) (ch_hoff ch) (ch_stats ch) (ch_cached ch) (S (ch_fresh ch)).

(** stream.cc:66-78 Chain::append(data, size) and stream.cc:94-106 append(Bytes&&): copying append with reuse of the
    cached chunk.  [std::move(_cached)] empties the cache even if the nested append throws. *)
Definition append_copy (ch : chain) (bs : bytes) : chain * res unit :=
  match bs with
  | [] => (ch, Ok tt)
  | _ =>
      match ch_cached ch with
      | Some k =>
          if length bs <=? c_alloc k
          then append_chunk (drop_cached ch) (mkChunk (c_id k) 0 (c_alloc k) (PData bs))
          else append_chunk (take_fresh ch) (mkChunk (ch_fresh ch) 0 (length bs) (PData bs))
      | None => append_chunk (take_fresh ch) (mkChunk (ch_fresh ch) 0 (length bs) (PData bs))
      end
  end.

(** stream.cc:80-92 Chain::append(data, size, NonOwning) *)
Definition append_nonowning (ch : chain) (bs : bytes) : chain * res unit :=
  match bs with
  | [] => (ch, Ok tt)
  | _ =>
      match ch_cached ch with
      | Some k =>
          if negb (c_is_owning k)
          then append_chunk (drop_cached ch) (mkChunk (c_id k) 0 (c_alloc k) (PData bs))
          else append_chunk (take_fresh ch) (mkChunk (ch_fresh ch) 0 0 (PData bs))
      | None => append_chunk (take_fresh ch) (mkChunk (ch_fresh ch) 0 0 (PData bs))
      end
  end.

(** stream.cc:149-154 Chain::appendGap *)
Definition append_gap (ch : chain) (n : nat) : chain * res unit :=
  match n with
  | 0 => (ch, Ok tt)
  | _ => append_chunk (take_fresh ch) (mkChunk (ch_fresh ch) 0 0 (PGap n))
  end.

(** stream.cc:174-182: the chunk leaving the chain is cached if it is data and there is no cached one, or it is
    non-owning or larger than the cached one; [detach] (stream.h:288-294) zeroes its offset. *)
Definition cache_update (cached : option chunk) (c : chunk) : option chunk :=
  if negb (c_is_gap c) &&
     match cached with
     | None => true
     | Some k => negb (c_is_owning c) || (c_alloc k <? c_alloc c)
     end
  then Some (c_set_off c 0)
  else cached.

(** stream.cc:167-198: the loop of Chain::trim. [None] is the branch ending in cannot_be_reached(). *)
Fixpoint trim_loop (o : nat) (cs : list chunk) (cached : option chunk) : option (list chunk * option chunk) :=
  match cs with
  | [] => Some ([], cached)
  | c :: cs' =>
      if c_end c <=? o then trim_loop o cs' (cache_update cached c)
      else if c_in_range c o then Some (cs, cached)
      else None
  end.

(** stream.cc:156-201 Chain::trim(offset) *)
Definition ch_trim (ch : chain) (o : nat) : chain * res unit :=
  if negb (ch_is_valid ch) then (ch, Throw InvalidIterator) else
  match ch_chunks ch with
  | [] => (ch, Ok tt)
  | h :: _ =>
      if o <? c_off h then (ch, Ok tt)
      else match trim_loop o (ch_chunks ch) (ch_cached ch) with
           | None => (ch, UB)
           | Some (cs, k) =>
               (mkChain (ch_state ch) cs o (ch_stats ch) k (ch_fresh ch), Ok tt)
           end
  end.

(** stream.h:421-429 Chain::freeze, Chain::unfreeze *)
Definition ch_freeze (ch : chain) : chain :=
  match ch_state ch with
  | SInvalid => ch
  | _ => mkChain SFrozen (ch_chunks ch) (ch_hoff ch) (ch_stats ch) (ch_cached ch) (ch_fresh ch)
  end.
Definition ch_unfreeze (ch : chain) : chain :=
  match ch_state ch with
  | SInvalid => ch
  | _ => mkChain SMutable (ch_chunks ch) (ch_hoff ch) (ch_stats ch) (ch_cached ch) (ch_fresh ch)
  end.

(** stream.h:402-410 Chain::invalidate (destruction of or assignment to the stream object, stream.h:1747,1761,1769) *)
Definition ch_invalidate (ch : chain) : chain := mkChain SInvalid [] 0 stats0 (ch_cached ch) (ch_fresh ch).
(** stream.h:412-419 Chain::reset *)
Definition ch_reset (ch : chain) : chain := mkChain SMutable [] 0 stats0 (ch_cached ch) (ch_fresh ch).

(** stream.h:127-131 copy constructor of Chunk, with the identity of the new object *)
Definition c_copy (id : nat) (c : chunk) : chunk :=
  c_make_owning (mkChunk id (c_off c) 0 (c_pay c)).

(** stream.cc:203-216 Chain::copy: a fresh chain; chunks are appended one by one, then the statistics overwritten. *)
Fixpoint copy_loop (n : chain) (cs : list chunk) : chain * res unit :=
  match cs with
  | [] => (n, Ok tt)
  | c :: cs' =>
      let c' := if c_is_owning c then c_copy (ch_fresh n) c else mkChunk (ch_fresh n) (c_off c) 0 (c_pay c) in
      match append_chunk (take_fresh n) c' with
      | (n', Ok _) => copy_loop n' cs'
      | (n', e) => (n', e)
      end
  end.
Definition ch_copy (ch : chain) : res chain :=
  if negb (ch_is_valid ch) then Throw InvalidIterator else
  match copy_loop chain_new (ch_chunks ch) with
  | (n, Ok _) => Ok (mkChain (ch_state n) (ch_chunks n) (ch_hoff n) (ch_stats ch) (ch_cached n) (ch_fresh n))
  | (_, Throw e) => Throw e
  | (_, UB) => UB
  end.

(** What a [Chunk*] points to: a chunk of the chain (with its successors), the cached detached chunk, or freed memory. *)
Inductive target := TLive (suffix : list chunk) | TCached (k : chunk) | TDangling.

Fixpoint live_suffix (id : nat) (cs : list chunk) : option (list chunk) :=
  match cs with
  | [] => None
  | c :: cs' => if c_id c =? id then Some cs else live_suffix id cs'
  end.

Definition resolve (ch : chain) (id : nat) : target :=
  match live_suffix id (ch_chunks ch) with
  | Some s => TLive s
  | None => match ch_cached ch with
            | Some k => if c_id k =? id then TCached k else TDangling
            | None => TDangling
            end
  end.

(** The walk of stream.h:1120-1126: first chunk on the list that has the offset in range. *)
Definition walk (o : nat) (l : list chunk) : option chunk := find (fun c => c_in_range c o) l.

(** stream.h:1104-1127 Chain::findChunk(offset, hint_prev) const *)
Definition find_chunk (ch : chain) (o : nat) (hint : option nat) : res (option chunk) :=
  if negb (ch_is_valid ch) then Throw InvalidIterator else
  let hint := match hint with
              | Some id => Some id
              | None => match ch_tail ch with Some t => Some (c_id t) | None => None end
              end in
  match hint with
  | None => Ok (walk o (ch_chunks ch))
  | Some id =>
      match resolve ch id with
      | TDangling => UB
      | TLive [] => UB
      | TLive (h :: s) => if c_off h <=? o then Ok (walk o (h :: s)) else Ok (walk o (ch_chunks ch))
      | TCached k => if c_off k <=? o then Ok (walk o [k]) else Ok (walk o (ch_chunks ch))
      end
  end.

(** stream.h:492-817 class SafeConstIterator bound to the chain: [_offset] and [_chunk]. *)
Record iter := mkIter { it_off : nat; it_chunk : option nat }.

(** stream.h:1063-1075 Chain::begin, end, at *)
Definition it_begin (ch : chain) : res iter :=
  if negb (ch_is_valid ch) then Throw InvalidIterator else
  Ok (mkIter (ch_hoff ch) (match ch_chunks ch with [] => None | c :: _ => Some (c_id c) end)).
Definition it_end (ch : chain) : res iter :=
  if negb (ch_is_valid ch) then Throw InvalidIterator else
  Ok (mkIter (ch_end ch) (option_map c_id (ch_tail ch))).
Definition it_at (ch : chain) (o : nat) : res iter :=
  let* c := find_chunk ch o None in Ok (mkIter o (option_map c_id c)).

(** Shared body of stream.h:719-740 and 753-774: new chunk pointer when moving from [o] to [o']. The first component
    is the fast-path test [_chunk && _chunk->inRange(o')]. *)
Definition move_chunk (ch : chain) (i : iter) (o' : nat) : res (option nat) :=
  if ch_is_valid ch then
    if ch_in_range ch (it_off i) then
      match it_chunk i with
      | None => let* c := find_chunk ch o' None in Ok (option_map c_id c)
      | Some id =>
          match resolve ch id with
          | TDangling => UB
          | TLive [] => UB
          | TLive (h :: _) =>
              if c_in_range h o' then Ok (Some id)
              else let* c := find_chunk ch o' (Some id) in Ok (option_map c_id c)
          | TCached k =>
              if c_in_range k o' then Ok (Some id)
              else let* c := find_chunk ch o' (Some id) in Ok (option_map c_id c)
          end
      end
    else
      let* c := find_chunk ch o' (match ch_chunks ch with [] => None | c :: _ => Some (c_id c) end) in
      Ok (option_map c_id c)
  else Ok None.

(** stream.h:712-741 SafeConstIterator::_increment *)
Definition it_incr (ch : chain) (i : iter) (n : nat) : res iter :=
  match n with
  | 0 => Ok i
  | _ => let* c := move_chunk ch i (it_off i + n) in Ok (mkIter (it_off i + n) c)
  end.

(** stream.h:743-775 SafeConstIterator::_decrement *)
Definition it_decr (ch : chain) (i : iter) (n : nat) : res iter :=
  if it_off i <? n then Throw InvalidIterator else
  match n with
  | 0 => Ok i
  | _ => let* c := move_chunk ch i (it_off i - n) in Ok (mkIter (it_off i - n) c)
  end.

(** stream.h:683 SafeConstIterator::chunk() *)
Definition it_chunk_hint (ch : chain) (i : iter) : option nat :=
  if ch_is_valid ch && ch_in_range ch (it_off i) then it_chunk i else None.

(** stream.h:777-793 SafeConstIterator::_dereference *)
Definition it_deref (ch : chain) (i : iter) : res byte :=
  if negb (ch_is_valid ch) then Throw InvalidIterator else
  if negb (ch_in_range ch (it_off i)) then Throw InvalidIterator else
  let* c := find_chunk ch (it_off i) (it_chunk_hint ch i) in
  match c with
  | None => UB
  | Some c => c_read c (it_off i)
  end.

(** stream.h:662-668 SafeConstIterator::isEnd *)
Definition it_is_end (ch : chain) (i : iter) : res bool :=
  if negb (ch_is_valid ch) then Throw InvalidIterator else Ok (ch_end ch <=? it_off i).

(** stream.h:1086-1100 Chain::trim(SafeConstIterator) for an iterator of the same chain *)
Definition ch_trim_iter (ch : chain) (i : iter) : chain * res unit :=
  if negb (ch_is_valid ch) then (ch, Throw InvalidIterator) else ch_trim ch (it_off i).

(** ** A client: one stream object and any number of iterators into it. *)
Inductive op :=
| OAppend (bs : bytes)          (* Stream::append(Bytes) stream.cc:500-509 *)
| OAppendNonOwning (bs : bytes) (* Stream::append(.., NonOwning) stream.cc:511-519 *)
| OGap (n : nat)                (* Stream::append(nullptr, n) stream.cc:504-509 *)
| OTrim (k : nat)               (* Stream::trim(it) stream.h:1823, k-th iterator *)
| OFreeze | OUnfreeze
| ODestroy                      (* end of life of the Stream object stream.h:1767-1770 *)
| OReset                        (* Stream::reset stream.h:1839 *)
| OBegin | OEnd | OAt (o : nat) (* create an iterator *)
| OIncr (k n : nat) | ODecr (k n : nat) (* create an iterator from the k-th one: it + n, it - n *)
| ODeref (k : nat)
| OIsEnd (k : nat)
| OOffset (k : nat)
| OSize | OEndOffset | OIsFrozen | OStats.

Inductive value := VUnit | VByte (b : byte) | VNat (n : nat) | VBool (b : bool) | VStats (s : stats).

Record client := mkClient { cl_chain : chain; cl_its : list iter }.

Definition with_chain (s : client) (r : chain * res unit) : client * res value :=
  (mkClient (fst r) (cl_its s), rmap (fun _ => VUnit) (snd r)).
Definition with_iter (s : client) (r : res iter) : client * res value :=
  match r with
  | Ok i => (mkClient (cl_chain s) (cl_its s ++ [i]), Ok VUnit)
  | Throw e => (s, Throw e)
  | UB => (s, UB)
  end.
(** A client operation on a handle it never created is a no-op of the test harness, not of the code. *)
Definition on_iter (s : client) (k : nat) (f : iter -> client * res value) : client * res value :=
  match nth_error (cl_its s) k with Some i => f i | None => (s, Ok VUnit) end.

Definition step (s : client) (o : op) : client * res value :=
  let ch := cl_chain s in
  match o with
  | OAppend bs => with_chain s (append_copy ch bs)
  | OAppendNonOwning bs => with_chain s (append_nonowning ch bs)
  | OGap n => with_chain s (append_gap ch n)
  | OTrim k => on_iter s k (fun i => with_chain s (ch_trim_iter ch i))
  | OFreeze => with_chain s (ch_freeze ch, Ok tt)
  | OUnfreeze => with_chain s (ch_unfreeze ch, Ok tt)
  | ODestroy => with_chain s (ch_invalidate ch, Ok tt)
  | OReset => with_chain s (ch_reset ch, Ok tt)
  | OBegin => with_iter s (it_begin ch)
  | OEnd => with_iter s (it_end ch)
  | OAt n => with_iter s (it_at ch n)
  | OIncr k n => on_iter s k (fun i => with_iter s (it_incr ch i n))
  | ODecr k n => on_iter s k (fun i => with_iter s (it_decr ch i n))
  | ODeref k => on_iter s k (fun i => (s, rmap VByte (it_deref ch i)))
  | OIsEnd k => on_iter s k (fun i => (s, rmap VBool (it_is_end ch i)))
  | OOffset k => on_iter s k (fun i => (s, Ok (VNat (it_off i))))
  | OSize => (s, rmap VNat (ch_size ch))
  | OEndOffset => (s, Ok (VNat (ch_end ch)))
  | OIsFrozen => (s, Ok (VBool (ch_is_frozen ch)))
  | OStats => (s, Ok (VStats (ch_stats ch)))
  end.

Fixpoint run (s : client) (os : list op) : client * list (res value) :=
  match os with
  | [] => (s, [])
  | o :: os' =>
      let (s1, r) := step s o in
      let (s2, rs) := run s1 os' in
      (s2, r :: rs)
  end.

Definition client_new : client := mkClient chain_new [].
