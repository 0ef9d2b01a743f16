(** Model of stream views: hilti/runtime/include/types/stream.h:836-1053 (unsafe iterators), 1172-1660 (View) and
    hilti/runtime/src/types/stream.cc:226-600.

    Simplifications: views are bound to a chain (the default constructed, unbound view is not modelled); as in
    StreamModel.v offsets are unbounded; [assert]s are those of release builds, i.e. absent. Loops carry fuel; running out of
    fuel is reported as [UB], so that "never UB" includes termination. *)
From Verif Require Import Base StreamModel.

(** stream.h:836-1053 class UnsafeConstIterator: [_offset], [_chunk]. *)
Record uit := mkU { u_off : nat; u_chunk : option nat }.

(** stream.h:1055-1056 UnsafeConstIterator(const SafeConstIterator&) *)
Definition u_of_safe (ch : chain) (i : iter) : res uit :=
  let* c := find_chunk ch (it_off i) (it_chunk_hint ch i) in Ok (mkU (it_off i) (option_map c_id c)).

(** stream.h:1160-1163 SafeConstIterator(const UnsafeConstIterator&) *)
Definition safe_of_u (u : uit) : iter := mkIter (u_off u) (u_chunk u).

(** The chunk a pointer refers to, for member access. *)
Definition deref_chunk (ch : chain) (id : nat) : res chunk :=
  match resolve ch id with
  | TLive (h :: _) => Ok h
  | TLive [] => UB
  | TCached k => Ok k
  | TDangling => UB
  end.

(** stream.h:1004-1014 UnsafeConstIterator::_increment *)
Definition u_incr (ch : chain) (u : uit) (n : nat) : res uit :=
  match n with
  | 0 => Ok u
  | _ =>
      let o := u_off u + n in
      match u_chunk u with
      | Some id =>
          let* h := deref_chunk ch id in
          if o <? c_end h then Ok (mkU o (Some id))
          else let* c := find_chunk ch o (Some id) in Ok (mkU o (option_map c_id c))
      | None => let* c := find_chunk ch o None in Ok (mkU o (option_map c_id c))
      end
  end.

(** stream.h:1016-1026 UnsafeConstIterator::_decrement; [_offset -= n] is checked arithmetic. *)
Definition u_decr (ch : chain) (u : uit) (n : nat) : res uit :=
  match n with
  | 0 => Ok u
  | _ =>
      if u_off u <? n then Throw Overflow else
      let o := u_off u - n in
      match u_chunk u with
      | Some id =>
          let* h := deref_chunk ch id in
          if c_off h <? o then Ok (mkU o (Some id))
          else let* c := find_chunk ch o (Some id) in Ok (mkU o (option_map c_id c))
      | None => let* c := find_chunk ch o None in Ok (mkU o (option_map c_id c))
      end
  end.

(** stream.h:1028-1037 UnsafeConstIterator::_dereference *)
Definition u_deref (ch : chain) (u : uit) : res byte :=
  match u_chunk u with
  | None => UB
  | Some id => let* h := deref_chunk ch id in c_read h (u_off u)
  end.

(** stream.h:920-922, 971-977 operator== and isEnd *)
Definition u_eq (ch : chain) (a b : uit) : bool :=
  (u_off a =? u_off b) || ((ch_end ch <=? u_off a) && (ch_end ch <=? u_off b)).

(** stream.h:1172-1632 class View: [_begin], [_end]. *)
Record view := mkView { v_begin : iter; v_end : option iter }.

(** stream.h:1212 offset(), 1217-1222 endOffset() *)
Definition v_off (v : view) : nat := it_off (v_begin v).
Definition v_end_off (v : view) : option nat := option_map it_off (v_end v).

(** stream.h:1611-1620 _ensureValid *)
Definition v_ensure_valid (ch : chain) (v : view) : res unit :=
  if negb (ch_is_valid ch) then Throw InvalidIterator
  else if v_off v <? ch_hoff ch then Throw InvalidIterator
  else Ok tt.

(** stream.h:1192-1199 View(begin, end) *)
Definition v_static (ch : chain) (b e : iter) : res view :=
  let v := mkView b (Some e) in let* _ := v_ensure_valid ch v in Ok v.

(** stream.h:1638-1657 View::size. The subtraction in the third branch is guarded by the second. *)
Definition v_size (ch : chain) (v : view) : nat :=
  match ch_tail ch with
  | None => 0
  | Some t =>
      if c_end t <? v_off v then 0
      else match v_end_off v with
           | None => c_end t - v_off v
           | Some e => if c_end t <=? e then c_end t - v_off v
                       else if v_off v <? e then e - v_off v else 0
           end
  end.

(** stream.cc:226-236 View::isComplete *)
Definition v_is_complete (ch : chain) (v : view) : res bool :=
  let* _ := v_ensure_valid ch v in
  if ch_is_frozen ch then Ok true
  else match v_end_off v with Some e => Ok (e <=? ch_end ch) | None => Ok false end.

(** stream.h:1390-1393 advance(iterator), 1400 advance(n) *)
Definition v_advance_to (v : view) (i : iter) : view := mkView i (v_end v).
Definition v_advance (ch : chain) (v : view) (n : nat) : res view :=
  let* i := it_incr ch (v_begin v) n in Ok (mkView i (v_end v)).

(** stream.h:1413-1417, 1425-1428 sub(from, to), sub(to) with iterators; 1436, 1444 with offsets *)
Definition v_sub_iter (ch : chain) (from to : iter) : res view := v_static ch from to.
Definition v_sub (ch : chain) (v : view) (from to : nat) : res view :=
  let* b := it_incr ch (v_begin v) from in let* e := it_incr ch (v_begin v) to in v_static ch b e.

(** stream.h:1454-1464 trim *)
Definition v_trim (ch : chain) (v : view) (nb : iter) : res view :=
  match v_end v with
  | None => Ok (mkView nb None)
  | Some e => if it_off e <? it_off nb then v_static ch e e else v_static ch nb e
  end.

(** stream.h:1471-1479 limit. The size is computed on raw uint64_t and wraps. *)
Definition limit_size (v : view) (n : nat) : nat :=
  match v_end_off v with
  | None => n
  | Some e => Z.to_nat (Z.min (Z.of_nat n) ((Z.of_nat e - Z.of_nat (v_off v)) mod 2 ^ 64))
  end.
Definition v_limit (ch : chain) (v : view) (n : nat) : res view :=
  let* e := it_incr ch (v_begin v) (limit_size v n) in v_static ch (v_begin v) e.

(** The chunk a pointer refers to together with the chunks linked behind it. *)
Definition chunk_suffix (ch : chain) (id : nat) : res (chunk * list chunk) :=
  match resolve ch id with
  | TLive (h :: s) => Ok (h, s)
  | TLive [] => UB
  | TCached k => Ok (k, [])
  | TDangling => UB
  end.

(** stream.h:1501-1513: the copy loop of extract; [o] is [offset], [n] what remains to be copied. *)
Fixpoint extract_loop (o n : nat) (cs : list chunk) : res bytes :=
  match n with
  | 0 => Ok []
  | _ =>
      match cs with
      | [] => UB
      | c :: cs' =>
          match c_pay c with
          | PGap _ => Throw MissingData
          | PData bs =>
              if c_in_range c o then
                let m := Nat.min n (c_size c - (o - c_off c)) in
                let* r := extract_loop (o + m) (n - m) cs' in
                Ok (firstn m (skipn (o - c_off c) bs) ++ r)
              else UB
          end
      end
  end.

(** stream.h:1488-1516 extract(dst, n): the bytes written to [dst] and the new view. *)
Definition v_extract (ch : chain) (v : view) (n : nat) : res (bytes * view) :=
  let* _ := v_ensure_valid ch v in
  if v_size ch v <? n then Throw WouldBlock else
  let* c := find_chunk ch (v_off v) None in
  let* cs := match c with
             | None => Ok []
             | Some c => let* hs := chunk_suffix ch (c_id c) in Ok (fst hs :: snd hs)
             end in
  let* bs := extract_loop (v_off v) n cs in
  let* i := it_incr ch (v_begin v) n in
  Ok (bs, mkView i (v_end v)).

(** stream.h:1533 unsafeBegin, 1536-1544 unsafeEnd, 1070-1073 Chain::unsafeEnd *)
Definition v_ubegin (ch : chain) (v : view) : res uit := u_of_safe ch (v_begin v).
Definition v_uend (ch : chain) (v : view) : res uit :=
  match v_end v with
  | Some e => u_of_safe ch e
  | None => if negb (ch_is_valid ch) then Throw InvalidIterator
            else Ok (mkU (ch_end ch) (option_map c_id (ch_tail ch)))
  end.

(** stream.h:1562-1569 View::Block; [bk_data] are the [size] bytes at [start]. *)
Record block := mkBlock {
  bk_data : bytes; bk_off : nat; bk_first : bool; bk_last : bool; bk_next : option nat }.

(** [size] bytes of a data chunk from absolute offset [o] on: out-of-bounds is UB; a gap's data() throws. *)
Definition c_slice (c : chunk) (o n : nat) : res bytes :=
  match c_pay c with
  | PGap _ => Throw MissingData
  | PData bs =>
      if (c_off c <=? o) && (o + n <=? c_end c) then Ok (firstn n (skipn (o - c_off c) bs)) else UB
  end.

Definition next_id (s : list chunk) : option nat := match s with [] => None | c :: _ => Some (c_id c) end.

(** Shared tail of firstBlock and nextBlock, stream.cc:451-467 and 478-495. *)
Definition make_block (ch : chain) (v : view) (c : chunk) (s : list chunk) (o : nat) (first : bool) : res block :=
  let is_last := match s with [] => true | _ => false end ||
                 match v_end_off v with Some e => e <=? c_end c | None => false end in
  let size := match v_end_off v with
              | Some e => if is_last then Nat.max (Nat.min e (ch_end ch)) o - o else c_end c - o
              | None => c_end c - o
              end in
  let* d := c_slice c o size in
  Ok (mkBlock d o first is_last (if is_last then None else next_id s)).

(** stream.cc:436-468 firstBlock *)
Definition v_first_block (ch : chain) (v : view) : res (option block) :=
  let* _ := v_ensure_valid ch v in
  let* b := v_ubegin ch v in
  let* e := v_uend ch v in
  match u_chunk b with
  | None => Ok None
  | Some id =>
      if u_eq ch b e then Ok None else
      let* c := find_chunk ch (u_off b) (Some id) in
      match c with
      | None => Throw InvalidIterator
      | Some c =>
          let* hs := chunk_suffix ch (c_id c) in
          let* k := make_block ch v (fst hs) (snd hs) (u_off b) true in Ok (Some k)
      end
  end.

(** stream.cc:470-496 nextBlock *)
Definition v_next_block (ch : chain) (v : view) (cur : block) : res (option block) :=
  let* _ := v_ensure_valid ch v in
  match bk_next cur with
  | None => Ok None
  | Some id =>
      let* hs := chunk_suffix ch id in
      let* k := make_block ch v (fst hs) (snd hs) (c_off (fst hs)) false in Ok (Some k)
  end.

(** The client loop [for ( auto b = v.firstBlock(); b; b = v.nextBlock(b) )], e.g. hilti/runtime/src/types/bytes.cc:347. *)
Fixpoint blocks_from (fuel : nat) (ch : chain) (v : view) (cur : option block) : res (list block) :=
  match cur with
  | None => Ok []
  | Some b =>
      match fuel with
      | 0 => UB
      | S f => let* nb := v_next_block ch v b in
               let* r := blocks_from f ch v nb in Ok (b :: r)
      end
  end.
Definition v_blocks (ch : chain) (v : view) : res (list block) :=
  let* b := v_first_block ch v in blocks_from (S (length (ch_chunks ch))) ch v b.

(** stream.cc:285-295 find(Byte, n) *)
Fixpoint find_byte_loop (fuel : nat) (ch : chain) (ue : uit) (b : byte) (i : uit) : res uit :=
  match fuel with
  | 0 => UB
  | S f =>
      if u_eq ch i ue then Ok ue else
      let* x := u_deref ch i in
      if Z.eqb x b then Ok i else let* i' := u_incr ch i 1 in find_byte_loop f ch ue b i'
  end.
(** stream.h:1256-1272 find(Byte) and find(Byte, n); the result is the offset of the returned iterator *)
Definition v_find_byte (ch : chain) (v : view) (b : byte) (n : option iter) : res nat :=
  let* _ := v_ensure_valid ch v in
  let* i := match n with None => v_ubegin ch v | Some n => u_of_safe ch n end in
  let* ue := v_uend ch v in
  let* r := find_byte_loop (S (ch_end ch - u_off i)) ch ue b i in
  Ok (u_off r).

(** stream.cc:345-356: inner loop of _findForward *)
Inductive mres := MFull | MEnd | MNo.
Fixpoint match_loop (ch : chain) (ue x : uit) (y : bytes) : res mres :=
  match y with
  | [] => UB
  | c :: y' =>
      if u_eq ch x ue then Ok MEnd else
      let* b := u_deref ch x in
      let* x' := u_incr ch x 1 in
      if Z.eqb b c then match y' with [] => Ok MFull | _ => match_loop ch ue x' y' end
      else Ok MNo
  end.

(** stream.cc:329-359 _findForward from iterator [i] *)
Fixpoint find_fwd_loop (fuel : nat) (ch : chain) (ue : uit) (first : byte) (needle : bytes) (i : uit) : res (bool * uit) :=
  match fuel with
  | 0 => UB
  | S f =>
      if u_eq ch i ue then Ok (false, i) else
      let* b := u_deref ch i in
      if Z.eqb b first then
        let* m := match_loop ch ue i needle in
        match m with
        | MFull => Ok (true, i)
        | MEnd => Ok (false, i)
        | MNo => let* i' := u_incr ch i 1 in find_fwd_loop f ch ue first needle i'
        end
      else let* i' := u_incr ch i 1 in find_fwd_loop f ch ue first needle i'
  end.
Definition find_forward (ch : chain) (v : view) (needle : bytes) (i : uit) : res (bool * uit) :=
  match needle with
  | [] => Ok (true, i)
  | c :: _ => let* ue := v_uend ch v in
              find_fwd_loop (S (ch_end ch - u_off i)) ch ue c needle i
  end.

(** stream.h:1337-1382 find(Bytes, Forward) and 1343-1350 find(Bytes, n, Forward) *)
Definition v_find (ch : chain) (v : view) (needle : bytes) (n : option iter) : res (bool * nat) :=
  let* _ := v_ensure_valid ch v in
  let* i := match n with None => v_ubegin ch v | Some n => u_of_safe ch n end in
  let* r := find_forward ch v needle i in
  Ok (fst r, u_off (snd r)).

(** stream.cc:312-324: inner loop of find(View): [x] runs over the searched view, [y] over the needle, whose stream is
    [ch2]. The order in which *x and *y are evaluated is unspecified; both can only throw MissingData. *)
Inductive mvres := MVFull | MVEnd | MVNo.
Fixpoint match_view_loop (fuel : nat) (ch ch2 : chain) (ue ue2 x y : uit) : res mvres :=
  match fuel with
  | 0 => UB
  | S f =>
      if u_eq ch x ue then Ok MVEnd else
      let* b := u_deref ch x in
      let* x' := u_incr ch x 1 in
      let* c := u_deref ch2 y in
      let* y' := u_incr ch2 y 1 in
      if negb (Z.eqb b c) then Ok MVNo else
      if u_eq ch2 y' ue2 then Ok MVFull else match_view_loop f ch ch2 ue ue2 x' y'
  end.
(** stream.cc:303-326: outer loop of find(View) *)
Fixpoint find_view_loop (fuel : nat) (ch ch2 : chain) (ue ue2 : uit) (first : byte) (ub2 i : uit) : res (bool * uit) :=
  match fuel with
  | 0 => UB
  | S f =>
      if u_eq ch i ue then Ok (false, i) else
      let* b := u_deref ch i in
      if negb (Z.eqb b first) then let* i' := u_incr ch i 1 in find_view_loop f ch ch2 ue ue2 first ub2 i' else
      let* m := match_view_loop (S (ch_end ch2 - u_off ub2)) ch ch2 ue ue2 i ub2 in
      match m with
      | MVFull => Ok (true, i)
      | MVEnd => Ok (false, i)
      | MVNo => let* i' := u_incr ch i 1 in find_view_loop f ch ch2 ue ue2 first ub2 i'
      end
  end.
(** stream.cc:297-326 find(View, n), stream.h:1292-1313 *)
Definition v_find_view (ch : chain) (v : view) (ch2 : chain) (needle : view) (n : option iter) : res (bool * nat) :=
  let* _ := v_ensure_valid ch v in
  let* i := match n with None => u_of_safe ch (v_begin v) | Some n => u_of_safe ch n end in
  if v_size ch2 needle =? 0 then Ok (true, u_off i) else
  let* ub2 := v_ubegin ch2 needle in
  let* first := u_deref ch2 ub2 in
  let* ue := v_uend ch v in
  let* ue2 := v_uend ch2 needle in
  let* r := find_view_loop (S (ch_end ch - u_off i)) ch ch2 ue ue2 first ub2 i in
  Ok (fst r, u_off (snd r)).

(** stream.cc:391-402: inner loop of _findBackward (no test for the end) *)
Fixpoint match_back_loop (ch : chain) (x : uit) (y : bytes) : res bool :=
  match y with
  | [] => UB
  | c :: y' =>
      let* b := u_deref ch x in
      let* x' := u_incr ch x 1 in
      if Z.eqb b c then match y' with [] => Ok true | _ => match_back_loop ch x' y' end
      else Ok false
  end.
Fixpoint find_back_loop (fuel : nat) (ch : chain) (ub : uit) (first : byte) (needle : bytes) (j : uit) : res (bool * uit) :=
  match fuel with
  | 0 => UB
  | S f =>
      let* b := u_deref ch j in
      let* m := if Z.eqb b first then match_back_loop ch j needle else Ok false in
      if m then Ok (true, j)
      else if u_eq ch j ub then Ok (false, j)
      else let* j' := u_decr ch j 1 in find_back_loop f ch ub first needle j'
  end.

(** stream.cc:361-408 _findBackward; the result is unset if there is not enough data. *)
Definition find_backward (ch : chain) (v : view) (needle : bytes) (i : uit) : res (bool * option uit) :=
  match needle with
  | [] => Ok (true, Some i)
  | c :: _ =>
      if v_off v + v_size ch v <? u_off i then Throw InvalidIterator
      else if u_off i <? v_off v then Throw InvalidIterator
      else if u_off i - v_off v <? length needle then Ok (false, None)
      else
        let* j := u_decr ch i (length needle - 1) in
        let* ub := v_ubegin ch v in
        let* r := find_back_loop (S (u_off j - v_off v)) ch ub c needle j in
        Ok (fst r, Some (snd r))
  end.

(** stream.h:1337-1382 and 1343-1350 with Direction::Backward *)
Definition v_rfind (ch : chain) (v : view) (needle : bytes) (n : option iter) : res (bool * option nat) :=
  let* _ := v_ensure_valid ch v in
  let* i := match n with None => v_uend ch v | Some n => u_of_safe ch n end in
  let* r := find_backward ch v needle i in
  Ok (fst r, option_map u_off (snd r)).

(** stream.cc:412-429 startsWith *)
Fixpoint starts_loop (ch : chain) (ue s1 : uit) (s2 : bytes) : res bool :=
  match s2 with
  | [] => Ok true
  | c :: s2' =>
      if u_eq ch s1 ue then Ok false else
      let* b := u_deref ch s1 in
      let* s1' := u_incr ch s1 1 in
      if Z.eqb b c then starts_loop ch ue s1' s2' else Ok false
  end.
Definition v_starts_with (ch : chain) (v : view) (b : bytes) : res bool :=
  let* _ := v_ensure_valid ch v in
  let* s1 := v_ubegin ch v in
  let* e1 := v_uend ch v in
  if v_size ch v =? 0 then Ok (match b with [] => true | _ => false end)
  else starts_loop ch e1 s1 b.

(** stream.cc:583-600 operator==(const Bytes&); reading past [other] is UB *)
Fixpoint eq_bytes_loop (fuel : nat) (ch : chain) (ue i : uit) (j : bytes) : res bool :=
  match fuel with
  | 0 => UB
  | S f =>
      if u_eq ch i ue then Ok true else
      match u_chunk i with
      | None => Ok false
      | Some _ =>
          let* b := u_deref ch i in
          let* i' := u_incr ch i 1 in
          match j with
          | [] => UB
          | c :: j' => if Z.eqb b c then eq_bytes_loop f ch ue i' j' else Ok false
          end
      end
  end.
Definition v_eq_bytes (ch : chain) (v : view) (other : bytes) : res bool :=
  if negb (v_size ch v =? length other) then Ok false else
  let* i := v_ubegin ch v in
  let* ue := v_uend ch v in
  eq_bytes_loop (S (ch_end ch - u_off i)) ch ue i other.

(** stream.cc:560-581 operator==(const View&), the other view possibly over another chain *)
Fixpoint eq_view_loop (fuel : nat) (ch1 ch2 : chain) (ue i j : uit) : res bool :=
  match fuel with
  | 0 => UB
  | S f =>
      if u_eq ch1 i ue then Ok true else
      match u_chunk i, u_chunk j with
      | Some ic, Some jc =>
          let* ci := deref_chunk ch1 ic in
          let* cj := deref_chunk ch2 jc in
          if negb (Bool.eqb (c_is_gap ci) (c_is_gap cj)) then Ok false else
          let* same := if c_is_gap ci then Ok true
                       else let* x := u_deref ch1 i in let* y := u_deref ch2 j in Ok (Z.eqb x y) in
          if negb same then Ok false else
          let* i' := u_incr ch1 i 1 in
          let* j' := u_incr ch2 j 1 in
          eq_view_loop f ch1 ch2 ue i' j'
      | None, None => Ok (u_off i =? u_off j)
      | _, _ => Ok false
      end
  end.
Definition v_eq_view (ch1 : chain) (v1 : view) (ch2 : chain) (v2 : view) : res bool :=
  if negb (v_size ch1 v1 =? v_size ch2 v2) then Ok false else
  let* i := v_ubegin ch1 v1 in
  let* j := v_ubegin ch2 v2 in
  let* ue := v_uend ch1 v1 in
  eq_view_loop (S (ch_end ch1 - u_off i)) ch1 ch2 ue i j.

(** stream.cc:258-268: the search loop of advanceToNextData. Result: offset of the first data chunk if any, end of the
    last chunk seen. *)
Fixpoint skip_gaps (cs : list chunk) (last_end : option nat) : option nat * option nat :=
  match cs with
  | [] => (None, last_end)
  | c :: cs' => if c_is_gap c then skip_gaps cs' (Some (c_end c)) else (Some (c_off c), Some (c_end c))
  end.

(** stream.cc:238-281 advanceToNextData *)
Definition v_next_data (ch : chain) (v : view) : res view :=
  let* i := if v_off v <? ch_hoff ch then it_begin ch else it_incr ch (v_begin v) 1 in
  let* cs := match it_chunk_hint ch i with
             | None => Ok []
             | Some id => let* hs := chunk_suffix ch id in Ok (fst hs :: snd hs)
             end in
  match cs with
  | c :: _ =>
      if negb (c_is_gap c) then Ok (mkView i (v_end v)) else
      let* zero := it_decr ch (v_begin v) (v_off v) in
      match skip_gaps cs None with
      | (Some o, _) => let* n := it_incr ch zero o in Ok (mkView n (v_end v))
      | (None, Some e) => let* n := it_incr ch zero e in Ok (mkView n (v_end v))
      | (None, None) => v_advance ch v 1
      end
  | [] => let* _ := it_decr ch (v_begin v) (v_off v) in v_advance ch v 1
  end.
