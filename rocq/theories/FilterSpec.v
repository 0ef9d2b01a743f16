(** Vocabulary for the claims about filters, in terms of a history of events. *)
From Verif Require Import Base FiberModel FilterModel.

(** the data among a filter's calls, in order *)
Definition fact_data (fs : list fact) : bytes := flat_map (fun f => match f with FData bs => bs | FEod => [] end) fs.
Definition fact_eod (fs : list fact) : bool := existsb (fun f => match f with FEod => true | _ => false end) fs.

(** everything unit [u] has forwarded in a history, in order *)
Definition sent (tr : list event) (u : nat) : bytes :=
  flat_map (fun e => match e with ERun v _ _ fs _ => if Nat.eqb v u then fact_data fs else [] | _ => [] end) tr.
(** unit [u] has signalled the end of its data, or has ended *)
Definition sent_eod (tr : list event) (u : nat) : bool :=
  existsb (fun e => match e with ERun v _ _ fs en => Nat.eqb v u && (fact_eod fs || en) | _ => false end) tr.
(** the input that has arrived, and whether its end has *)
Definition arrived (tr : list event) : bytes := flat_map (fun e => match e with EIn bs => bs | _ => [] end) tr.
Definition arrived_eod (tr : list event) : bool := existsb (fun e => match e with EInEod => true | _ => false end) tr.

(** connecting filter units one after the other *)
Section S.
Context {S : Type}.
Fixpoint connect_all (m : mem) (fs : list (onefilter S)) (us : list nat) : mem * list (onefilter S) :=
  match us with [] => (m, fs) | u :: r => let '(m', fs') := connect m fs u in connect_all m' fs' r end.

(** A unit whose filters [us] are connected before parsing starts on stream [data] at offset [off], in memory [m0]; the filters
    are started; then comes a schedule of new input and flushes. Result: memory, filters, history. *)
Definition filtered_run (start : nat -> S) (beh : nat -> S -> bytes -> bool -> list fact * verdict S)
    (m0 : mem) (data off : nat) (us : list nat) (sched : list (list iop)) : res (mem * list (onefilter S) * list event) :=
  let '(m1, fs) := connect_all m0 [] us in
  let* x := init_go start beh m1 data off fs in
  let '(m2, fs2, es) := x in
  let* y := rounds beh data m2 fs2 sched in
  let '(m3, fs3, es3) := y in
  Ok (m3, fs3, es ++ es3).

(** [before us u]: the filter in front of [u], if any *)
Fixpoint before_from (p : option nat) (us : list nat) (u : nat) : option nat :=
  match us with [] => None | a :: r => if Nat.eqb a u then p else before_from (Some a) r u end.
Definition before (us : list nat) (u : nat) : option nat := before_from None us u.

(** A filter that suspends only if more input can come, as generated code does (parser.cc:214-217): it ends at the end of
    its input. *)
Definition suspends_for_input (beh : nat -> S -> bytes -> bool -> list fact * verdict S) : Prop :=
  forall u s x facts s', beh u s x true <> (facts, VYield s').

(** [realises u T]: filter [u] computes the stream function [T], from all input so far and whether it is complete to all
    output so far and whether the filter ends: however its input is cut into resumptions, it has forwarded exactly that.
    [R s x y]: the states s in which the filter can be after it has seen x and forwarded y. *)
Definition realises (start : nat -> S) (beh : nat -> S -> bytes -> bool -> list fact * verdict S) (u : nat) (T : bytes -> bool -> bytes * bool) : Prop :=
  exists R : S -> bytes -> bytes -> Prop,
    R (start u) [] [] /\
    (forall s x y x' fz facts v, R s x y -> (exists z, x' = x ++ z) -> beh u s x' fz = (facts, v) ->
       fact_eod facts = false /\
       match v with
       | VYield s' => R s' x' (y ++ fact_data facts) /\ T x' fz = (y ++ fact_data facts, false)
       | VFinish => T x' fz = (y ++ fact_data facts, true)
       | VFail _ => True
       end).

(** a unit that waits for input again and again, at positions of its choice *)
Fixpoint waits (beh : nat -> S -> bytes -> bool -> list fact * verdict S) (data out : nat) (m : mem) (fs : list (onefilter S)) (ws : list (nat * nat * list (list iop))) : res (mem * list (onefilter S)) :=
  match ws with
  | [] => Ok (m, fs)
  | (pos, old, sched) :: r =>
      let* x := wait_filtered beh data out pos old m fs sched in
      let '(_, m1, fs1) := x in waits beh data out m1 fs1 r
  end.

(** the composition of stream functions *)
Fixpoint pipe (Ts : list (bytes -> bool -> bytes * bool)) (x : bytes) (fz : bool) : bytes * bool :=
  match Ts with [] => (x, fz) | T :: r => let '(y, e) := T x fz in pipe r y e end.
End S.
