(** C88: peephole simplifications do not change what a program does. *)
From Coq Require Import List Bool Arith Lia Wf_nat.
From Verif Require Import PeepModel PeepSpec PeepProofs.
Import ListNotations.

(** Any number of simplifications, in any order, of a program in which hooks run, and the error is taken back, only after it was
    handed over: it ends in the same way, with the same variables, error, output, and self except for the member __error. *)
Theorem C88_preserved : forall hook p p' w, bracketed false p = Some w -> peeps p p' ->
  forall fuel cur s, fst (run hook fuel cur p s) = fst (run hook fuel cur p' s)
    /\ same_but_error (snd (run hook fuel cur p s)) (snd (run hook fuel cur p' s)).
Proof.
  intros hook p p' w H P fuel cur s. destruct (peeps_sim hook p p' P w H fuel cur s s (eqv_refl _ _)) as [A [B _]].
  split; assumption.
Qed.
(** Simplified programs hand the error over for hooks as before. *)
Theorem C88_stays_bracketed : forall p p' w, bracketed false p = Some w -> peeps p p' -> exists w', bracketed false p' = Some w'.
Proof.
  intros p p' w H P. revert w H. induction P as [| p p1 p2 H1 _ IH]; intros w H; [eauto |].
  destruct (proj1 (proj2 (peep_sim (fun _ m => (None, m)))) _ _ H1 _ _ H) as (y & Hy & _). eauto.
Qed.
(** Where the error is never handed over, hooks may run anywhere, and nothing changes at all. *)
Theorem C88_exact : forall hook p p', no_push p = true -> peeps p p' ->
  forall fuel cur s, run hook fuel cur p s = run hook fuel cur p' s.
Proof. intros hook p p' H P fuel cur s. apply peeps_exact; assumption. Qed.
(** Simplified expressions have the same value, or the same exception, and print the same. *)
Theorem C88_expressions : forall e e', peep_e e e' -> forall v o, ev v o e = ev v o e'.
Proof. exact peep_e_ev. Qed.
(** There comes an end to simplifications, whichever are made. *)
Theorem C88_terminates : forall p, Acc (fun a b => peep b a) p.
Proof.
  apply (well_founded_lt_compat _ count). intros a b H. exact (proj1 (proj2 peep_count) _ _ H).
Qed.
(** A hook that runs without the error being handed over to self finds another one there once the pair before is removed. *)
Definition print_error (_ : nat) (m : self) : option nat * self :=
  (if err m =? 9 then Some 5 else None, {| err := 1; rest := rest m; out := out m ++ [err m] |}).
Definition ex_s : state := {| vars := fun x => x; lerr := 1; me := {| err := 0; rest := fun _ => 0; out := [] |} |}.
Theorem C88_REFUTED_error_member : exists p p', peep p p' /\
  out (me (snd (run print_error 0 0 p ex_s))) = [1] /\ out (me (snd (run print_error 0 0 p' ex_s))) = [0].
Proof.
  exists (Cons SPush (Cons SPop (Cons (SHook 0) Nil))), (Cons (SHook 0) Nil). split; [constructor |]. split; reflexivity.
Qed.

(** A program like a parser's: hooks in pairs, one of them removed, inside of a loop and a handler *)
Definition ex_pair (r : stmts) : stmts := Cons SPush (Cons SVoid (Cons SPop r)).
Definition ex_group : expr := EGroup 7 (EVar 3) (ESeq (EVar 7) (ECoerced (EVar 7))).
Definition ex_hook (r : stmts) : stmts := Cons SPush (Cons (SHook 0) (Cons SPop r)).
Definition ex_p : stmts :=
  Cons (STry (ex_hook (ex_pair (Cons (SAssign 1 ex_group) (Cons (SThrow (EConst 8)) Nil)))) (Catch None (Cons SRethrow Nil) NoCatch)) Nil.
Definition ex_p1 : stmts :=
  Cons (STry (ex_hook (Cons SVoid (Cons (SAssign 1 ex_group) (Cons (SThrow (EConst 8)) Nil)))) (Catch None (Cons SRethrow Nil) NoCatch)) Nil.
Definition ex_p2 : stmts := Cons (SBlock (ex_hook (Cons SVoid (Cons (SAssign 1 ex_group) (Cons (SThrow (EConst 8)) Nil))))) Nil.
Definition ex_p3 : stmts := Cons (SBlock (ex_hook (Cons (SAssign 1 ex_group) (Cons (SThrow (EConst 8)) Nil)))) Nil.
Definition ex_p4 : stmts := Cons (SBlock (ex_hook (Cons (SAssign 1 (ESeq (EVar 3) (ECoerced (EVar 3)))) (Cons (SThrow (EConst 8)) Nil)))) Nil.
Example C88_ex : bracketed false ex_p = Some false /\ peeps ex_p ex_p4 /\
  (let '(r, s) := run print_error 3 0 ex_p4 ex_s in r = Thrown 8 /\ vars s 1 = 3 /\ out (me s) = [1]).
Proof.
  split; [reflexivity |]. split.
  - eapply peeps_step with ex_p1. { apply p_head, p_body, p_tail, p_tail, p_tail, p_pair_void. }
    eapply peeps_step with ex_p2. { apply p_head, p_try. }
    eapply peeps_step with ex_p3. { apply p_head, p_block, p_tail, p_tail, p_tail, p_void. }
    eapply peeps_step with ex_p4; [| constructor].
    apply p_head, p_block, p_tail, p_tail, p_tail, p_head, p_assign.
    apply (pe_group 7 (EVar 3) (ESeq (EVar 7) (ECoerced (EVar 7)))); reflexivity.
  - repeat split.
Qed.
(** a loop with a hook on its own and a move, and nothing handed over *)
Example C88_ex_exact : let p := Cons (SWhile (EConst 1) (Cons (SExpr (EMove (ECall (EVar 2)))) (Cons (SHook 0) Nil))) Nil in
  let p' := Cons (SWhile (EConst 1) (Cons (SExpr (ECall (EVar 2))) (Cons (SHook 0) Nil))) Nil in
  no_push p = true /\ peeps p p' /\ fst (run print_error 2 0 p' ex_s) = More /\ out (me (snd (run print_error 2 0 p' ex_s))) = [2; 0; 2; 1].
Proof.
  split; [reflexivity |]. split; [| split; reflexivity].
  eapply peeps_step; [| constructor]. apply p_head, p_while, p_head, p_move.
Qed.
