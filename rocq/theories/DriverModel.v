(** Model of spicy/runtime/src/driver.cc and include/driver.h: feeding parsers with data.

    Parsers are opaque: what a call into a parser does (yield, finish, throw) is decided by an oracle that sees everything that
    happened so far, including all calls into other parsers (parsers may share a context).  Everything observable is recorded in a
    trace.  Left out: debug output, statistics, profiling, the counters _total_flows and _total_connections, the text printed for
    exceptions; splitting the batch file into commands (driver.cc:444-450) is done already; ids and names are numbers. *)
From Verif Require Import Base.

(** Input: bytes, or a gap (data is nullptr, driver.cc:560). *)
Inductive piece := Data (b : list byte) | Gap (n : nat).
Definition size_of (p : piece) : nat := match p with Data b => length b | Gap n => n end.

(** driver.h:18 *)
Inductive ptype := Stream | Block.
(** The parts of spicy::rt::Parser used here (parser.h:259-298): is parse1 set, is context_new set. *)
Record parser := mkParser { p_parse1 : bool; p_context : bool }.

(** What a call of parse1() or resume() does; a parser that finishes returns a view with an offset. *)
Inductive answer := Yields | Finishes (off : Z) | Throws.
(** The trace.  [EBegin i id t ctx]: parsing state number [i] was created for flow [id] with context [ctx].
    [ECall i input frozen cur a]: a call of parse1() or resume() for state [i] when its input stream has content [input], each piece
    with a flag telling whether the stream owns a copy of it; [cur] is the buffer passed to process() by the caller. *)
Inductive event :=
| EBegin (inst id : nat) (t : ptype) (context : option nat)
| ECall (inst : nat) (input : list (piece * bool)) (frozen : bool) (cur : piece) (a : answer).
Definition oracle := list event -> nat -> list (piece * bool) -> bool -> answer.

(** driver.h:24-148 ParsingState.  [s_res]: _resumable; [Some (Some off)] has a result. *)
Record pstate := mkS { s_type : ptype; s_parser : option parser; s_skip : bool; s_done : bool;
                       s_input : option (list (piece * bool)); s_res : option (option Z) }.
(** driver.h:39-40 *)
Definition new_state (t : ptype) (p : option parser) : pstate := mkS t p false false None None.
Definition set_done (s : pstate) : pstate := mkS (s_type s) (s_parser s) (s_skip s) true (s_input s) (s_res s).
Definition set_input (s : pstate) (i : list (piece * bool)) : pstate := mkS (s_type s) (s_parser s) (s_skip s) (s_done s) (Some i) (s_res s).
Definition set_res (s : pstate) (r : option Z) : pstate := mkS (s_type s) (s_parser s) (s_skip s) (s_done s) (s_input s) (Some r).

(** How _process() ends: returns Done or Continue, throws, calls internalError() (which terminates), or calls a null function pointer. *)
Inductive pres := PDone (s : pstate) (tr : list event) | PContinue (s : pstate) (tr : list event)
                | PThrow (s : pstate) (tr : list event) | PTerminate | PNull.
(** stream.h: Stream::makeOwning() *)
Definition make_owning (i : list (piece * bool)) : list (piece * bool) := map (fun x => (fst x, true)) i.

(** A call into the parser, with the input stream [i]. *)
Definition ask (o : oracle) (tr : list event) (inst : nat) (i : list (piece * bool)) (frozen : bool) (cur : piece) : answer * list event :=
  let a := o tr inst i frozen in (a, tr ++ [ECall inst i frozen cur a]).

(** driver.cc:262-407 _process(); [inst] is the number of this state in the trace *)
Definition process_ (o : oracle) (inst : nat) (s : pstate) (tr : list event) (p : piece) (eod : bool) : pres :=
  match s_parser s with
  | None => PDone s tr
  | Some par =>
      if s_skip s then PDone s tr
      else match s_type s with
      | Block =>
          (* 278-318 *)
          let fresh := match s_input s with None => true | Some _ => false end in
          let s := set_input s [(p, false)] in
          if fresh && negb (p_parse1 par) then PThrow (set_done s) tr
          else if negb (p_parse1 par) then PNull
          else let (a, tr) := ask o tr inst [(p, false)] true p in
               match a with
               | Yields => PTerminate
               | Finishes off => PDone (set_res s (Some off)) tr
               | Throws => PThrow (set_done s) tr
               end
      | Stream =>
          (* 320-388 *)
          if s_done s then PDone s tr
          else match s_input s with
          | None =>
              let i := [(p, false)] in
              let s := set_input s i in
              if negb (p_parse1 par) then PThrow (set_done s) tr
              else let (a, tr) := ask o tr inst i eod p in
                   match a with
                   | Finishes off => PDone (set_done (set_res s (Some off))) tr
                   | Yields => if eod then PTerminate else PContinue (set_res (set_input s (make_owning i)) None) tr
                   | Throws => PThrow (set_done s) tr
                   end
          | Some i =>
              let i := if Nat.eqb (size_of p) 0 then i else i ++ [(p, false)] in
              let s := set_input s i in
              let (a, tr) := ask o tr inst i eod p in
              match a with
              | Finishes off => PDone (set_done (set_res s (Some off))) tr
              | Yields => if eod then PTerminate else PContinue (set_res (set_input s (make_owning i)) None) tr
              | Throws => PThrow (set_done (set_res s None)) tr
              end
          end
      end
  end.
(** driver.h:100 *)
Definition process (o : oracle) (inst : nat) (s : pstate) (tr : list event) (p : piece) : pres := process_ o inst s tr p false.
(** driver.cc:248-260 finish(); the offset it returns is [result_offset] of the state *)
Definition finish (o : oracle) (inst : nat) (s : pstate) (tr : list event) : pres :=
  match s_type s with Block => PDone s tr | Stream => process_ o inst s tr (Data []) true end.
Definition result_offset (s : pstate) : option Z := match s_res s with Some r => r | None => None end.
(** driver.h:69, 75, 116-121 *)
Definition is_finished (s : pstate) : bool := s_done s || s_skip s.
Definition skip_remaining (s : pstate) : pstate := mkS (s_type s) (s_parser s) true (s_done s) (s_input s) (s_res s).
Definition reset (s : pstate) : pstate := mkS (s_type s) (s_parser s) false false None None.

(** The commands of a batch file.  [CMalformed]: wrong number of arguments, unknown command or type, premature end of data;
    [CBadNumber]: the size is no number, std::stoul throws. *)
Inductive cmd :=
| CBeginFlow (id : nat) (t : ptype) (par : nat)
| CBeginConn (cid : nat) (t : ptype) (oid opar rid rpar : nat)
| CData (id : nat) (b : list byte)
| CGap (id : nat) (n : nat)
| CEndFlow (id : nat)
| CEndConn (cid : nat)
| CMalformed
| CBadNumber.

(** An element of the map [flows]: address of its node, number of the state in the trace, the state. *)
Record flow := mkF { f_node : nat; f_inst : nat; f_state : pstate }.
(** driver.h:193-198; the pointers are addresses of nodes *)
Record conn := mkConn { c_orig_id : nat; c_resp_id : nat; c_orig : option nat; c_resp : option nat }.
(** The local variables of processPreBatchedInput() (driver.cc:416-417); counters for fresh addresses, numbers and contexts. *)
Record batch := mkB { b_flows : list (nat * flow); b_conns : list (nat * conn); b_next : nat; b_trace : list event }.
Definition batch0 : batch := mkB [] [] 0 [].

(** std::unordered_map: find, insert_or_assign, erase *)
Fixpoint lookup {A} (l : list (nat * A)) (k : nat) : option A :=
  match l with [] => None | (x, a) :: l' => if Nat.eqb x k then Some a else lookup l' k end.
Fixpoint update {A} (l : list (nat * A)) (k : nat) (a : A) : list (nat * A) :=
  match l with [] => [(k, a)] | (x, b) :: l' => if Nat.eqb x k then (k, a) :: l' else (x, b) :: update l' k a end.
Definition erase {A} (l : list (nat * A)) (k : nat) : list (nat * A) := filter (fun e => negb (Nat.eqb (fst e) k)) l.
(** The element at an address; none if that node was freed. *)
Fixpoint at_node (l : list (nat * flow)) (n : nat) : option (nat * flow) :=
  match l with [] => None | (x, f) :: l' => if Nat.eqb (f_node f) n then Some (x, f) else at_node l' n end.

(** driver.cc:420-441 create_state(); returns the address of the node, and the context.  insert_or_assign() keeps the node of an
    existing element. *)
Definition create_state (parsers : nat -> option parser) (b : batch) (t : ptype) (par id : nat) (context : option nat) : batch * option (nat * option nat) :=
  match parsers par with
  | None => (b, None)
  | Some p =>
      let context := match context with Some c => Some c | None => if p_context p then Some (b_next b) else None end in
      let node := match lookup (b_flows b) id with Some f => f_node f | None => b_next b end in
      let inst := b_next b in
      (mkB (update (b_flows b) id (mkF node inst (new_state t (Some p)))) (b_conns b) (S (b_next b)) (b_trace b ++ [EBegin inst id t context]),
       Some (node, context))
  end.

(** How a command, or the whole batch, ends: goes on; returns an error; exception out of the function; process terminated; null
    function pointer called; freed memory used. *)
Inductive bres := BOk (b : batch) | BError (b : batch) | BUncaught (b : batch) | BTerminate | BNull | BFreed.

(** driver.cc:540-547, 557-564, 573-579: calling process() or finish() for the flow with key [id] and printing exceptions *)
Definition store (b : batch) (id : nat) (f : flow) (s : pstate) (tr : list event) : batch :=
  mkB (update (b_flows b) id (mkF (f_node f) (f_inst f) s)) (b_conns b) (b_next b) tr.
Definition handle (b : batch) (id : nat) (f : flow) (r : pres) : bres :=
  match r with
  | PDone s tr | PContinue s tr | PThrow s tr => BOk (store b id f s tr)
  | PTerminate => BTerminate
  | PNull => BNull
  end.
Definition drop_flow (b : batch) (id : nat) : batch := mkB (erase (b_flows b) id) (b_conns b) (b_next b) (b_trace b).

(** driver.cc:592-605: finish() through a pointer of a connection *)
Definition finish_at (o : oracle) (b : batch) (ptr : option nat) : bres :=
  match ptr with
  | None => BOk b
  | Some n =>
      match at_node (b_flows b) n with
      | None => BFreed
      | Some (id, f) => handle b id f (finish o (f_inst f) (f_state f) (b_trace b))
      end
  end.

Definition feed (o : oracle) (b : batch) (id : nat) (p : piece) : bres :=
  match lookup (b_flows b) id with
  | None => BOk b
  | Some f => handle b id f (process o (f_inst f) (f_state f) (b_trace b) p)
  end.

(** driver.cc:444-616: one command *)
Definition exec (parsers : nat -> option parser) (o : oracle) (b : batch) (c : cmd) : bres :=
  match c with
  | CBeginFlow id t par => BOk (fst (create_state parsers b t par id None))
  | CBeginConn cid t oid opar rid rpar =>
      match lookup (b_conns b) cid with
      | Some _ => BOk b
      | None =>
          let (b, orig) := create_state parsers b t opar oid None in
          let (b, resp) := create_state parsers b t rpar rid (match orig with Some (_, ctx) => ctx | None => None end) in
          match orig, resp with
          | None, None => BOk (drop_flow (drop_flow b oid) rid)
          | _, _ => BOk (mkB (b_flows b) (update (b_conns b) cid (mkConn oid rid (option_map fst orig) (option_map fst resp))) (b_next b) (b_trace b))
          end
      end
  | CData id d => feed o b id (Data d)
  | CGap id n => feed o b id (Gap n)
  | CEndFlow id =>
      match lookup (b_flows b) id with
      | None => BOk b
      | Some f => match handle b id f (finish o (f_inst f) (f_state f) (b_trace b)) with BOk b => BOk (drop_flow b id) | r => r end
      end
  | CEndConn cid =>
      match lookup (b_conns b) cid with
      | None => BOk b
      | Some c =>
          match finish_at o b (c_orig c) with
          | BOk b =>
              match finish_at o b (c_resp c) with
              | BOk b => BOk (mkB (erase (erase (b_flows b) (c_orig_id c)) (c_resp_id c)) (erase (b_conns b) cid) (b_next b) (b_trace b))
              | r => r
              end
          | r => r
          end
      end
  | CMalformed => BError b
  | CBadNumber => BUncaught b
  end.
(** driver.cc:443-621 *)
Fixpoint run (parsers : nat -> option parser) (o : oracle) (b : batch) (cs : list cmd) : bres :=
  match cs with
  | [] => BOk b
  | c :: cs' => match exec parsers o b c with BOk b => run parsers o b cs' | r => r end
  end.
Definition run_batch (parsers : nat -> option parser) (o : oracle) (cs : list cmd) : bres := run parsers o batch0 cs.

(** driver.cc:176-236 processInput().  [file] is the content of the istream; the unit's parser sees the stream's content (pieces) and
    whether it is frozen; [increment] > 0 is the size of a read, otherwise sizeof(buffer).  [n] bounds the number of reads.
    The result: the calls made, or [None] if a read overflows the buffer. *)
Definition buffer_size : nat := 4096.
Definition read_len (increment : Z) : nat := if (increment >? 0)%Z then Z.to_nat increment else buffer_size.
Inductive pi_res := PiCalls (calls : list (list byte * bool * answer)) | PiOverflow | PiMore.
Fixpoint pi_loop (n : nat) (o : list byte -> bool -> answer) (len : nat) (seen file : list byte) (calls : list (list byte * bool * answer)) : pi_res :=
  match n with
  | O => PiMore
  | S n' =>
      let got := firstn len file in
      if Nat.ltb buffer_size (length got) then PiOverflow
      else
        let rest := skipn len file in
        let seen := seen ++ got in
        let frozen := match rest with [] => true | _ => false end in
        let a := o seen frozen in
        let calls := calls ++ [(seen, frozen, a)] in
        match a with
        | Yields => if frozen then PiCalls calls else pi_loop n' o len seen rest calls
        | _ => PiCalls calls
        end
  end.
Definition process_input (o : list byte -> bool -> answer) (file : list byte) (increment : Z) : pi_res :=
  pi_loop (S (length file)) o (read_len increment) [] file [].

(** Use of a ParsingState by a host application (driver.h:64-121).  Its number in the trace grows with each reset(). *)
Inductive op := OProcess (p : piece) | OFinish | OSkip | OReset.
Definition after (inst : nat) (r : pres) : option (nat * pstate * list event) :=
  match r with PDone s tr | PContinue s tr | PThrow s tr => Some (inst, s, tr) | PTerminate | PNull => None end.
Definition do_op (o : oracle) (st : nat * pstate * list event) (x : op) : option (nat * pstate * list event) :=
  let '(inst, s, tr) := st in
  match x with
  | OProcess p => after inst (process o inst s tr p)
  | OFinish => after inst (finish o inst s tr)
  | OSkip => Some (inst, skip_remaining s, tr)
  | OReset => Some (S inst, reset s, tr)
  end.
Fixpoint do_ops (o : oracle) (st : nat * pstate * list event) (l : list op) : option (nat * pstate * list event) :=
  match l with [] => Some st | x :: l' => match do_op o st x with Some st => do_ops o st l' | None => None end end.
