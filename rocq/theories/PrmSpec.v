(** What a user relies on when the optimizer rewrites parameters, and the
    conditions under which it holds. *)
From Coq Require Import ZArith List Bool Arith.
From Verif Require Import PrmModel.
Import ListNotations.

(** Two runs a user cannot tell apart: both finish with the same value, both
    throw, both run on, or neither is a program; and what they printed and
    left in the globals is the same. *)
Definition same_world (s1 s2 : pst) : Prop :=
  p_out s1 = p_out s2 /\ forall g, p_sto s1 (LG g) = p_sto s2 (LG g).

Definition same_obs (r1 r2 : pres Z) : Prop :=
  match r1, r2 with
  | POk s1 a, POk s2 b => a = b /\ same_world s1 s2
  | PThrow s1, PThrow s2 => same_world s1 s2
  | PBad, PBad => True
  | PStop, PStop => True
  | _, _ => False
  end.

(** The optimised program behaves like the original: for every amount of
    fuel (so they also diverge together), every start function (one of the
    program's functions without parameters) and every content of the
    globals. *)
Definition same_behaviour (P P' : pprog) : Prop :=
  forall n main fd globals, plook main P = Some fd -> fn_params fd = [] ->
    same_obs (prun P n main globals) (prun P' n main globals).

(** What the compiler has checked before: parameter names are distinct, calls
    have as many arguments as the callee has parameters, and nobody writes to
    an `in` parameter or to something that is not a parameter at all. *)
Definition call_fits (P : pprog) (c : bool * nat * list pexpr) : Prop :=
  exists gd, plook (snd (fst c)) P = Some gd /\ length (snd c) = length (fn_params gd).

Definition well_formed (P : pprog) : Prop :=
  forall f fd, In (f, fd) P ->
    NoDup (map fst (fn_params fd)) /\
    (forall c, In c (scalls (fn_body fd)) -> call_fits P c) /\
    (forall p, In (VP p) (swr P (fn_body fd)) -> exists k, In (p, k) (fn_params fd) /\ k <> KIn).

(** An expression that can be left out: it neither calls nor throws. *)
Fixpoint quiet (e : pexpr) : Prop :=
  match e with
  | EInt _ | EVar _ => True
  | EAdd a b => quiet a /\ quiet b
  | EDiv _ _ | ECall _ _ _ => False
  end.

(** Condition for the removal of unused parameters: whatever is passed for
    one can be left out, and a call that loses an argument does not have,
    inside its arguments, a call that would lose one as well and whose
    function is declared no earlier. *)
Definition removal_safe (P : pprog) : Prop :=
  forall m g args, In (m, g, args) (pcalls P) ->
    (forall i a, In i (un P g) -> nth_error args i = Some a -> quiet a) /\
    (un P g <> [] ->
     forall a m' h args', In a args -> In (m', h, args') (ecalls a) ->
       un P h = [] \/ rank_of h P < rank_of g P).

(** Condition for turning `copy` into `in`: a variable passed for such a
    parameter belongs to the caller alone (a local, or a `copy` parameter of
    its own), and the same call does not also pass it for an `inout`
    parameter, not even inside another argument. *)
Definition own_var (fd : pfn) (u : pvar) : Prop :=
  match u with
  | VG _ => False
  | VL _ => True
  | VP q => In (q, KCopy) (fn_params fd)
  end.

Definition promotion_safe (P : pprog) : Prop :=
  forall f fd m g args gd p i u,
    In (f, fd) P -> In (m, g, args) (scalls (fn_body fd)) -> plook g P = Some gd ->
    nth_error (fn_params gd) i = Some (p, KCopy) -> promotable P gd p KCopy = true ->
    nth_error args i = Some (EVar u) ->
    own_var fd u /\ ~ In u (ewr P (ECall m g args)).
