(** Specification of the batch driver: which input belongs to which parsing state, and which calls into a parser that input causes. *)
From Verif Require Import Base DriverModel.

(** What a flow receives. *)
Inductive input := Piece (p : piece) | EndOfData.

(** ** Bookkeeping of flows and connections, without parsers: every created flow has a life. *)
Record life := mkL { l_id : nat; l_type : ptype; l_inputs : list input }.
(** An open connection: ids of its two sides, and whether they have a parser. *)
Record pair := mkPair { pr_oid : nat; pr_rid : nat; pr_orig : bool; pr_resp : bool }.
(** [k_open id]: the number of the life that currently belongs to flow [id]. *)
Record book := mkK { k_lives : list life; k_open : nat -> option nat; k_pairs : nat -> option pair }.
Definition book0 : book := mkK [] (fun _ => None) (fun _ => None).
Definition set {A} (f : nat -> A) (k : nat) (a : A) : nat -> A := fun x => if Nat.eqb x k then a else f x.
Definition known (parsers : nat -> option parser) (par : nat) : bool := match parsers par with Some _ => true | None => false end.

Definition k_begin (parsers : nat -> option parser) (k : book) (id : nat) (t : ptype) (par : nat) : book :=
  if known parsers par then mkK (k_lives k ++ [mkL id t []]) (set (k_open k) id (Some (length (k_lives k)))) (k_pairs k) else k.
Fixpoint add_input (l : list life) (n : nat) (i : input) : list life :=
  match l, n with
  | [], _ => []
  | x :: l', O => mkL (l_id x) (l_type x) (l_inputs x ++ [i]) :: l'
  | x :: l', S n' => x :: add_input l' n' i
  end.
Definition k_give (k : book) (id : nat) (i : input) : book :=
  match k_open k id with Some n => mkK (add_input (k_lives k) n i) (k_open k) (k_pairs k) | None => k end.
Definition k_close (k : book) (id : nat) : book := mkK (k_lives k) (set (k_open k) id None) (k_pairs k).
Definition k_step (parsers : nat -> option parser) (k : book) (c : cmd) : book :=
  match c with
  | CBeginFlow id t par => k_begin parsers k id t par
  | CBeginConn cid t oid opar rid rpar =>
      match k_pairs k cid with
      | Some _ => k
      | None =>
          if known parsers opar || known parsers rpar
          then let k := k_begin parsers (k_begin parsers k oid t opar) rid t rpar in
               mkK (k_lives k) (k_open k) (set (k_pairs k) cid (Some (mkPair oid rid (known parsers opar) (known parsers rpar))))
          else k_close (k_close k oid) rid
      end
  | CData id d => k_give k id (Piece (Data d))
  | CGap id n => k_give k id (Piece (Gap n))
  | CEndFlow id => k_close (k_give k id EndOfData) id
  | CEndConn cid =>
      match k_pairs k cid with
      | None => k
      | Some p =>
          let k := if pr_orig p then k_give k (pr_oid p) EndOfData else k in
          let k := if pr_resp p then k_give k (pr_rid p) EndOfData else k in
          let k := k_close (k_close k (pr_oid p)) (pr_rid p) in
          mkK (k_lives k) (k_open k) (set (k_pairs k) cid None)
      end
  | CMalformed | CBadNumber => k
  end.
Definition k_run (parsers : nat -> option parser) (k : book) (cs : list cmd) : book := fold_left (k_step parsers) cs k.

(** ** Calls into a parser.  A call: the (non-empty) pieces in the stream, whether the end of the data is known, what the call did. *)
Definition nonempty (l : list piece) : list piece := filter (fun p => negb (Nat.eqb (size_of p) 0)) l.
Definition calls_of (inst : nat) (tr : list event) : list (list piece * bool * answer) :=
  flat_map (fun e => match e with
                     | ECall i inp frozen _ a => if Nat.eqb i inst then [(nonempty (map fst inp), frozen, a)] else []
                     | _ => []
                     end) tr.
Definition pieces (l : list input) : list piece := flat_map (fun i => match i with Piece p => [p] | EndOfData => [] end) l.
Definition ended (l : list input) : bool := existsb (fun i => match i with EndOfData => true | _ => false end) l.
(** A stream's parser is called once per input, and sees everything received so far. *)
Definition stream_calls (l : list input) : list (list piece * bool) :=
  map (fun j => (nonempty (pieces (firstn j l)), ended (firstn j l))) (seq 1 (length l)).
(** A block's parser is called once per piece, and sees just that. *)
Definition block_calls (l : list input) : list (list piece * bool) := map (fun p => (nonempty [p], true)) (pieces l).
(** Calls stop once one did not yield, and only then. *)
Definition fed (t : ptype) (l : list input) (calls : list (list piece * bool * answer)) : Prop :=
  match t with
  | Block => map fst calls = block_calls l
  | Stream =>
      map fst calls = firstn (length calls) (stream_calls l) /\
      (forall c, In c (removelast calls) -> snd c = Yields) /\
      (length calls = length l \/ exists front c, calls = front ++ [c] /\ snd c <> Yields)
  end.

(** The stream given to a parser holds copies of earlier pieces; only the caller's current buffer may be borrowed. *)
Definition memory_ok (e : event) : Prop :=
  match e with
  | ECall _ inp _ cur _ => exists old, Forall (fun x => snd x = true) old /\ (inp = old \/ inp = old ++ [(cur, false)])
  | _ => True
  end.

(** ** When ending flows and connections is safe: a flow that belongs to an open connection ends only with that connection. *)
Definition uses (p : pair) (id : nat) : Prop := (pr_oid p = id /\ pr_orig p = true) \/ (pr_rid p = id /\ pr_resp p = true).
Definition safe_cmd (parsers : nat -> option parser) (k : book) (c : cmd) : Prop :=
  match c with
  | CEndFlow id => forall cid p, k_pairs k cid = Some p -> ~ uses p id
  | CEndConn cid => forall p cid' p', k_pairs k cid = Some p -> k_pairs k cid' = Some p' -> cid' <> cid -> ~ uses p' (pr_oid p) /\ ~ uses p' (pr_rid p)
  | CBeginConn cid _ oid opar rid rpar =>
      k_pairs k cid = None -> known parsers opar = false -> known parsers rpar = false ->
      forall cid' p', k_pairs k cid' = Some p' -> ~ uses p' oid /\ ~ uses p' rid
  | _ => True
  end.
Fixpoint safe_batch (parsers : nat -> option parser) (k : book) (cs : list cmd) : Prop :=
  match cs with [] => True | c :: cs' => safe_cmd parsers k c /\ safe_batch parsers (k_step parsers k c) cs' end.
