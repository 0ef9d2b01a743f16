(** Specification of regular-expression matching (C83): what a pattern matches, independently of how the data arrives. *)
From Verif Require Import Base MatchModel.
Open Scope Z_scope.

(** The symbols of a text: "beginning" holds at its first byte only, "end" at its last byte only, and only if nothing can
    follow. *)
Definition text (data : list Z) (complete : bool) : list sym :=
  map (fun i => (nth i data 0, Nat.eqb i 0, complete && Nat.eqb (S i) (length data))) (List.seq 0 (length data)).

Section Spec.
  Variable E : engine.

  Fixpoint path (q : Q E) (w : list sym) : option (Q E) :=
    match w with
    | [] => Some q
    | s :: r => match delta E q s with Some q' => path q' r | None => None end
    end.

  (** The pattern [id] matches the first [k] bytes of the text. *)
  Definition matches (data : list Z) (complete : bool) (k : nat) (id : Z) : Prop :=
    (k <= length data)%nat /\ 0 < id /\
    exists q, path (q0 E) (firstn k (text data complete)) = Some q /\ acc E q = id.

  (** ... and no pattern matches more of it. *)
  Definition longest (data : list Z) (complete : bool) (k : nat) (id : Z) : Prop :=
    matches data complete k id /\ forall k' id', matches data complete k' id' -> (k' <= k)%nat.

  Definition no_match (data : list Z) (complete : bool) : Prop := forall k id, ~ matches data complete k id.

  (** The automaton's report that a state has no transition is right. *)
  Definition engine_ok : Prop := forall q s, more E q = false -> delta E q s = None.

  (** "Beginning" (^) can only make a difference at the first byte. *)
  Definition caret_only_first : Prop :=
    forall q s q', delta E q s = Some q' -> forall c l, delta E q' (c, true, l) = delta E q' (c, false, l).

  (** "End" ($) is not used. *)
  Definition no_dollar : Prop := forall q c f, delta E q (c, f, true) = delta E q (c, f, false).

  (** Data as handed to successive advance() calls: each a list of non-empty blocks. *)
  Definition blocks_ok (bs : list (list Z)) : Prop := Forall (fun b => b <> []) bs.

  (** The first call that has data has it in a single block. *)
  Definition first_unsplit (cs : list (list (list Z))) : Prop :=
    match filter (fun c => negb (is_nil c)) cs with [] => True | c :: _ => length c = 1%nat end.

  Variable cur_acc : jms E -> Z.

  (** advance() on successive pieces until it decides; [complete]: the last piece is known to be the last one. Returns the
      code and the position, counted from the start of the first piece, at which the remaining data begins. *)
  Fixpoint advance_all (s : option (mst E)) (cs : list (list (list Z))) (complete : bool) (pos : Z) : mres (Z * Z) :=
    match cs with
    | [] => Ret (-1, pos)
    | c :: r =>
      match advance E cur_acc s c (complete && is_nil r) with
      | (_, Exc e) => Exc e
      | (s', Ret (rc, n)) =>
        if (0 <=? rc) || is_nil r then Ret (rc, pos + n) else advance_all s' r complete (pos + n)
      end
    end.

  (** jrx_current_accept: nothing if nothing was accepted so far, and the pattern accepted if that was at the current
      position. (Whether it also reports a match that ended earlier is left open.) *)
  Definition cur_acc_ok : Prop :=
    (forall j, jacc E j <= 0 -> cur_acc j = 0) /\
    (forall j, 0 < jacc E j -> jeo E j = joff E j -> cur_acc j = jacc E j).
End Spec.

(** The part of [data] from [s] on, of length [k]. *)
Definition slice (data : list Z) (s k : nat) : list Z := firstn k (skipn s data).

(** Operations that store into, or take away, the variable [x]. *)
Definition assigns (x : nat) (o : mop) : Prop :=
  match o with
  | MNew y | MDefault y => x = y
  | MCopy y z => x = y /\ y <> z
  | MMove y z => y <> z /\ (x = y \/ x = z)
  | MAdvance _ _ _ => False
  end.

(** *** Sample automata *)

(** abc(123)? *)
Definition abc123 : engine :=
  mkEngine nat 0%nat
    (fun q s => let '(c, _, _) := s in
       match q with
       | 0%nat => if c =? 97 then Some 1%nat else None
       | 1%nat => if c =? 98 then Some 2%nat else None
       | 2%nat => if c =? 99 then Some 3%nat else None
       | 3%nat => if c =? 49 then Some 4%nat else None
       | 4%nat => if c =? 50 then Some 5%nat else None
       | 5%nat => if c =? 51 then Some 6%nat else None
       | _ => None
       end)
    (fun q => if Nat.eqb q 3 || Nat.eqb q 6 then 1 else 0)
    (fun q => Nat.ltb q 6).

(** a^b, which matches nothing *)
Definition a_bol_b : engine :=
  mkEngine nat 0%nat
    (fun q s => let '(c, f, _) := s in
       match q with
       | 0%nat => if c =? 97 then Some 1%nat else None
       | 1%nat => if (c =? 98) && f then Some 2%nat else None
       | _ => None
       end)
    (fun q => if Nat.eqb q 2 then 1 else 0)
    (fun q => Nat.ltb q 2).

(** ^b *)
Definition bol_b : engine :=
  mkEngine nat 0%nat
    (fun q s => let '(c, f, _) := s in
       match q with
       | 0%nat => if (c =? 98) && f then Some 1%nat else None
       | _ => None
       end)
    (fun q => if Nat.eqb q 1 then 1 else 0)
    (fun q => Nat.ltb q 1).

(** any number of a *)
Definition astar : engine :=
  mkEngine nat 0%nat
    (fun q s => let '(c, _, _) := s in if c =? 97 then Some 0%nat else None)
    (fun _ => 1) (fun _ => true).

(** a$ *)
Definition a_eol : engine :=
  mkEngine nat 0%nat
    (fun q s => let '(c, _, l) := s in
       match q with
       | 0%nat => if c =? 97 then Some (if l then 2%nat else 1%nat) else None
       | _ => None
       end)
    (fun q => if Nat.eqb q 2 then 1 else 0)
    (fun q => Nat.ltb q 2).

(** What jrx_current_accept may do: report the last match recorded, or only one ending at the current position. *)
Definition cur_recorded (E : engine) (j : jms E) : Z := verdict E j.
Definition cur_here (E : engine) (j : jms E) : Z := if jeo E j =? joff E j then verdict E j else 0.
