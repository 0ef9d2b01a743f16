(** C86: Flattening blocks does not change what a program does. *)
From Coq Require Import List Bool Arith Lia.
From Verif Require Import FlatModel FlatSpec FlatProofs FlatProofs2 FlatProofs3 FlatProofs4.
Import ListNotations.

(** A function whose body is [p], with the parameters [sc]; [v]: the parameters and their values. However many blocks are
    folded, in any order: as long as no variable from outside of the blocks is captured, the function ends the same way
    (normally, by return, by a stray break, or not within [fuel] iterations of a loop), with the same output... *)
Theorem C86_no_capture_preserves u p u' p' sc : steps no_capture u p u' p' -> good sc p ->
  forall fuel v, map fst v = map fst sc -> observe fuel p' v = observe fuel p v.
Proof. intros H G. exact (steps_observe _ _ _ _ sc H G). Qed.
(** ... and every name still refers to the declaration it was resolved to. *)
Theorem C86_resolution_kept u p u' p' sc : steps no_capture u p u' p' -> good sc p -> good sc p'.
Proof. apply steps_good. Qed.
(** Nothing is captured where the scope of the outer block knows all variables from outside of it, *)
Theorem C86_function_level u p u' p' sc : steps knows_outer u p u' p' -> good sc p ->
  forall fuel v, map fst v = map fst sc -> observe fuel p' v = observe fuel p v.
Proof.
  intros H G. apply (steps_observe u p u' p' sc); [|exact G]. apply steps_knows; [exact H|]. exact (NoDup_app_r _ _ _ (proj2 G)).
Qed.
(** nor in functions where all variables have different names (not only in the underscores at their ends): there, any blocks
    can be folded. *)
Theorem C86_distinct_names u p u' p' sc : steps anything u p u' p' -> good sc p -> stems_distinct (sc ++ locals p) ->
  good sc p' /\ forall fuel v, map fst v = map fst sc -> observe fuel p' v = observe fuel p v.
Proof.
  intros H G ST. pose proof (steps_stems _ _ _ _ _ H G ST) as K. split; [exact (steps_good _ _ _ _ _ K G)|exact (steps_observe _ _ _ _ _ K G)].
Qed.
(** With names that are the same this is not so. In a body of if or while, a local of a block inside captures uses of the
    function's local after that block: `local x = 1; if ( 1 ) { { local x = 2; print x; } print x; }` *)
Definition ex_x : name := (0, 0).
Definition ex_x_ : name := (0, 1).
Definition ex_after : stmts :=
  Cons (SLocal ex_x 1 (EConst 1)) (Cons (SIf (EConst 1)
    (Cons (SBlock (Cons (SLocal ex_x 2 (EConst 2)) (Cons (SPrint (EVar ex_x 2)) Nil))) (Cons (SPrint (EVar ex_x 1)) Nil)) Nil) Nil).
Definition ex_after' : stmts :=
  Cons (SLocal ex_x 1 (EConst 1)) (Cons (SIf (EConst 1)
    (Cons (SLocal ex_x 2 (EConst 2)) (Cons (SPrint (EVar ex_x 2)) (Cons (SPrint (EVar ex_x 1)) Nil))) Nil) Nil).
Ltac all_good := cbn; repeat match goal with
  | |- _ /\ _ => split
  | |- True => exact Logic.I
  | |- forall _, _ => intros ?
  | H : False |- _ => destruct H
  | H : _ \/ _ |- _ => destruct H as [H|H]
  | H : (_, _) = (_, _) |- _ => inversion H; clear H; subst
  | H : ?x = ?x |- _ => clear H
  | |- refers ?x _ ((?x, _) :: _) => apply refers_here
  | |- refers _ _ (_ :: _) => apply refers_there
  | |- _ <> _ => let E := fresh in intros E; discriminate E
  end.
Lemma good_after : good [] ex_after.
Proof.
  split.
  - all_good.
  - cbn. repeat constructor; cbn; intuition discriminate.
Qed.
Theorem C86_REFUTED_capture_after : exists p u' p', good [] p /\ step anything [] p u' p' /\ observe 1 p [] = (Nrm, [2; 1]) /\ observe 1 p' [] = (Nrm, [2; 2]).
Proof.
  exists ex_after, [(ex_x, 2)], ex_after'. split; [exact good_after|]. split; [|split; reflexivity].
  apply (inside anything [] (Cons (SLocal ex_x 1 (EConst 1)) Nil) _ Nil _ (SIf (EConst 1)
    (Cons (SLocal ex_x 2 (EConst 2)) (Cons (SPrint (EVar ex_x 2)) (Cons (SPrint (EVar ex_x 1)) Nil))) Nil)). constructor.
  apply (here anything [] Nil (Cons (SLocal ex_x 2 (EConst 2)) (Cons (SPrint (EVar ex_x 2)) Nil)) (Cons (SPrint (EVar ex_x 1)) Nil) _ _ [] [(2, ex_x)]); [|exact Logic.I].
  apply (flatten_block [] Nil (Cons (SLocal ex_x 2 (EConst 2)) (Cons (SPrint (EVar ex_x 2)) Nil)) (Cons (SPrint (EVar ex_x 1)) Nil) [(ex_x, 2)] [] [(ex_x, 2)] [] [(2, ex_x)]).
  - intros x d [].
  - cbn. tauto.
  - repeat constructor. intros [].
  - reflexivity.
  - intros ? [].
Qed.
(** And a local that gets a new name captures uses of a variable that has this name already:
    `local x_ = 5; if ( 1 ) { local x = 1; { local x = 2; print x_; } }` *)
Definition ex_ren : stmts :=
  Cons (SLocal ex_x_ 1 (EConst 5)) (Cons (SIf (EConst 1)
    (Cons (SLocal ex_x 2 (EConst 1)) (Cons (SBlock (Cons (SLocal ex_x 3 (EConst 2)) (Cons (SPrint (EVar ex_x_ 1)) Nil))) Nil)) Nil) Nil).
Definition ex_ren' : stmts :=
  Cons (SLocal ex_x_ 1 (EConst 5)) (Cons (SIf (EConst 1)
    (Cons (SLocal ex_x 2 (EConst 1)) (Cons (SLocal ex_x_ 3 (EConst 2)) (Cons (SPrint (EVar ex_x_ 1)) Nil))) Nil) Nil).
Theorem C86_REFUTED_renamed_captures : exists p u' p', good [] p /\ step anything [] p u' p' /\ observe 1 p [] = (Nrm, [5]) /\ observe 1 p' [] = (Nrm, [2]).
Proof.
  exists ex_ren, [(ex_x_, 3)], ex_ren'. split; [|split; [|split; reflexivity]].
  - split.
    + all_good.
    + cbn. repeat constructor; cbn; intuition discriminate.
  - apply (inside anything [] (Cons (SLocal ex_x_ 1 (EConst 5)) Nil) _ Nil _ (SIf (EConst 1)
      (Cons (SLocal ex_x 2 (EConst 1)) (Cons (SLocal ex_x_ 3 (EConst 2)) (Cons (SPrint (EVar ex_x_ 1)) Nil))) Nil)). constructor.
    apply (here anything [] (Cons (SLocal ex_x 2 (EConst 1)) Nil) (Cons (SLocal ex_x 3 (EConst 2)) (Cons (SPrint (EVar ex_x_ 1)) Nil)) Nil _ _ [ex_x] [(3, ex_x_)]); [|exact Logic.I].
    apply (flatten_block [] (Cons (SLocal ex_x 2 (EConst 1)) Nil) (Cons (SLocal ex_x 3 (EConst 2)) (Cons (SPrint (EVar ex_x_ 1)) Nil)) Nil [(ex_x_, 3)] [ex_x] [(ex_x, 3)] [] [(3, ex_x_)]).
    + cbn. intros x d [E|[]]. inversion E. auto.
    + cbn. tauto.
    + repeat constructor. intros [].
    + reflexivity.
    + intros ? [].
Qed.

(** New names: the old one with underscores added; not in the outer block's scope; given to no other local so far; different
    for different locals. Nothing but locals of the block gets a new name; *)
Theorem C86_new_names u pre b post u' p' scn m : flatten_one u pre b post u' p' scn m -> NoDup (map snd (locals b)) ->
  (forall x d, In (x, d) (locals b) -> (exists k, new_name m d x = (fst x, snd x + k)) /\ ~ In (new_name m d x) scn
    /\ (forall e, used_as u (new_name m d x) = Some e -> e = d) /\ used_as u' (new_name m d x) = Some d)
  /\ (forall x d y e, In (x, d) (locals b) -> In (y, e) (locals b) -> d <> e -> new_name m d x <> new_name m e y)
  /\ (forall x d, ~ In d (map snd (locals b)) -> new_name m d x = x).
Proof.
  intros F ND. destruct (fresh_of _ _ _ _ _ _ _ _ F ND) as (ds & DS & [F1 F2 F3 F4 F5 F6]). split; [|split].
  - intros x d HI. apply DS in HI. destruct (F1 _ _ HI) as [G1 G2], (F6 _ _ HI) as (k & K). repeat split.
    + exists k. rewrite K. apply under_snd.
    + exact G2.
    + intros e He. destruct G1 as [G1|G1]; rewrite G1 in He; congruence.
    + apply F4. exact HI.
  - intros x d y e Hx Hy N E. apply N. apply (F2 x d y e); [apply DS; exact Hx|apply DS; exact Hy|exact E].
  - intros x d N. apply F3. intros X. apply N. apply in_map_iff in X as (p & <- & X). apply in_map, DS, X.
Qed.
(** a local keeps its name if nothing else has it. *)
Theorem C86_name_kept u pre b post u' p' scn m x d : flatten_one u pre b post u' p' scn m -> NoDup (map snd (locals b)) -> In (x, d) (locals b) ->
  ~ In x scn -> (forall e, used_as u' x = Some e -> e = d) -> new_name m d x = x.
Proof.
  intros [sc ds rs m0 _ DS NDS RA _] ND HI N U.
  apply (proj2 (rename_unchanged _ _ _ _ _ RA (NoDup_sub ds (locals b) NDS (fun p Hp => proj1 (DS p) Hp) ND)) x d); [apply DS; exact HI|exact N|].
  destruct (used_as u' x) as [e|]; [right; f_equal; apply U; reflexivity|left; reflexivity].
Qed.

(** Each block folded is one less, *)
Theorem C86_ends ok u p u' p' : step ok u p u' p' -> blocks p = S (blocks p').
Proof. apply (proj2 (step_blocks ok u)). Qed.
(** and blocks can be folded until none is left inside of another. *)
Theorem C86_complete p : flat p <-> forall u u' p', ~ step anything u p u' p'.
Proof.
  rewrite (proj2 flat_blocks). split.
  - intros Z u u' p' H. apply (proj2 (step_blocks anything u)) in H. lia.
  - intros H. destruct (Nat.eq_dec (blocks p) 0) as [Z|Z]; [exact Z|]. destruct (proj2 step_exists p Z []) as (u' & p' & K). destruct (H _ _ _ K).
Qed.
(** So the pass leaves none. *)
Theorem C86_flattens p : exists u' p', steps anything [] p u' p' /\ flat p'.
Proof.
  assert (K : forall n u p, blocks p = n -> exists u' p', steps anything u p u' p' /\ flat p').
  { intros n. induction n as [|n IH]; intros u q E.
    - exists u, q. split; [apply no_step|]. apply (proj2 flat_blocks). exact E.
    - destruct (proj2 step_exists q ltac:(lia) u) as (u1 & q1 & H1). pose proof (proj2 (step_blocks anything u) _ _ _ H1) as E1.
      destruct (IH u1 q1 ltac:(lia)) as (u2 & q2 & H2 & F). exists u2, q2. split; [eapply a_step; eauto|exact F]. }
  apply (K (blocks p)). reflexivity.
Qed.

(** A block in a function's body, whose local has to be renamed: `local x = 1; { local x = p; print x; break; } print x;`,
    with a parameter p *)
Definition ex_p : name := (1, 0).
Definition ex_fun : stmts :=
  Cons (SLocal ex_x 1 (EConst 1)) (Cons (SBlock (Cons (SLocal ex_x 2 (EVar ex_p 0)) (Cons (SPrint (EVar ex_x 2)) Nil))) (Cons (SPrint (EVar ex_x 1)) Nil)).
Definition ex_fun' : stmts :=
  Cons (SLocal ex_x 1 (EConst 1)) (Cons (SLocal ex_x_ 2 (EVar ex_p 0)) (Cons (SPrint (EVar ex_x_ 2)) (Cons (SAssign ex_x_ 2 (EConst 0)) (Cons (SPrint (EVar ex_x 1)) Nil)))).
Example C86_ex_function : good [(ex_p, 0)] ex_fun /\ steps knows_outer [] ex_fun [(ex_x_, 2)] ex_fun' /\ flat ex_fun'
  /\ observe 1 ex_fun [(ex_p, 7)] = (Nrm, [7; 1]) /\ observe 1 ex_fun' [(ex_p, 7)] = (Nrm, [7; 1]).
Proof.
  split; [|split; [|cbn; repeat split; reflexivity]].
  - split.
    + all_good.
    + cbn. repeat constructor; cbn; intuition discriminate.
  - eapply a_step; [|apply no_step].
    apply (here knows_outer [] (Cons (SLocal ex_x 1 (EConst 1)) Nil) (Cons (SLocal ex_x 2 (EVar ex_p 0)) (Cons (SPrint (EVar ex_x 2)) Nil)) (Cons (SPrint (EVar ex_x 1)) Nil) _ _ [ex_p; ex_x] [(2, ex_x_)]).
    + apply (flatten_block [] (Cons (SLocal ex_x 1 (EConst 1)) Nil) (Cons (SLocal ex_x 2 (EVar ex_p 0)) (Cons (SPrint (EVar ex_x 2)) Nil)) (Cons (SPrint (EVar ex_x 1)) Nil)
        [(ex_x_, 2)] [ex_p; ex_x] [(ex_x, 2)] [(ex_x_, 2)] [(2, ex_x_)]).
      * cbn. intros x d [E|[]]. inversion E. auto.
      * cbn. tauto.
      * repeat constructor. intros [].
      * reflexivity.
      * cbn. auto using incl_refl.
    + intros x d HI HO. cbn in HI. destruct HI as [E|[E|[E|[]]]]; inversion E; subst; cbn; auto.
Qed.
(** bodies of loops, break, distinct names: `local i = 0; while ( i < 9 ) { { local y = i; print y; if ( 2 < i ) { break; } } i = i + 1; }` *)
Definition ex_i : name := (2, 0).
Definition ex_y : name := (3, 0).
Definition ex_body : stmts :=
  Cons (SLocal ex_y 2 (EVar ex_i 1)) (Cons (SPrint (EVar ex_y 2)) (Cons (SIf (ELess (EConst 2) (EVar ex_i 1)) (Cons SBreak Nil) Nil) Nil)).
Definition ex_incr : stmts := Cons (SAssign ex_i 1 (EAdd (EVar ex_i 1) (EConst 1))) Nil.
Definition ex_loop : stmts := Cons (SLocal ex_i 1 (EConst 0)) (Cons (SWhile (ELess (EVar ex_i 1) (EConst 9)) (Cons (SBlock ex_body) ex_incr)) Nil).
Example C86_ex_loop : good [] ex_loop /\ stems_distinct ([] ++ locals ex_loop) /\ observe 9 ex_loop [] = (Nrm, [0; 1; 2; 3]) /\ observe 2 ex_loop [] = (More, [0; 1])
  /\ exists u' p', steps anything [] ex_loop u' p' /\ flat p' /\ observe 9 p' [] = (Nrm, [0; 1; 2; 3]).
Proof.
  assert (G : good [] ex_loop).
  { split.
    + all_good.
    + cbn. repeat constructor; cbn; intuition discriminate. }
  assert (ST : stems_distinct ([] ++ locals ex_loop)).
  { intros x d y e Hx Hy. cbn in Hx, Hy. repeat destruct Hx as [Hx|Hx]; repeat destruct Hy as [Hy|Hy]; inversion Hx; inversion Hy; subst; cbn; congruence. }
  split; [exact G|]. split; [exact ST|]. split; [reflexivity|]. split; [reflexivity|].
  destruct (C86_flattens ex_loop) as (u' & p' & H & F). exists u', p'. split; [exact H|]. split; [exact F|].
  rewrite (proj2 (C86_distinct_names _ _ _ _ _ H G ST) 9 [] eq_refl). reflexivity.
Qed.
