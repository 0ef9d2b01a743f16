(** C87: Propagating function returns does not change what calls do. *)
From Coq Require Import List Bool Arith Lia.
From Verif Require Import PfrModel PfrSpec PfrProofs.
Import ListNotations.

(** A function and all its uses, of the form `( x1, .., xn ) = f( e1, .., em )`. After the pass has removed elements from the
    tuple that is returned and from what is assigned, each call leaves the same variables, members and output, if
    - no parameter is shadowed by a local, or passed to a method by reference;
    - the use assigns to variables only, to each of them once, and to none that the function itself changes (globals). *)
Theorem C87_preserved params b uses n u s : well_typed params b uses n -> plain params b -> In u uses -> plain_use params b u ->
  same_state (new_call params b uses n u s) (call params b u s).
Proof. apply call_same. Qed.

(** What is removed (element i): in each tuple returned, the parameter p, which is not used in the function other than that
    (and as an argument of method calls); at every use, a variable that is the argument for p. *)
Theorem C87_removed params b uses n i p : well_typed params b uses n -> nth_error (pruned params uses n b) i = Some (Some p) ->
  (forall es, In es (returns b) -> nth_error es i = Some (EVar p)) /\ ~ used p b
  /\ forall u, In u uses -> exists x j, nth_error (lhs u) i = Some (LVar x) /\ nth_error (args u) j = Some (EVar x) /\ nth_error params j = Some p.
Proof.
  intros W H. destruct (pruned_ok params uses n b W) as (_ & A & N & E). split; [|split].
  - intros es HE. apply (A es HE i p H).
  - intro U. exact (N i p H (used_names p b U)).
  - intros u HU. pose proof (E i p H u HU) as K. unfold placed, entries in K. rewrite nth_error_map in K.
    destruct (nth_error (lhs u) i) as [[x|f]|] eqn:X; cbn [option_map entry] in K; try discriminate. injection K as K.
    destruct (param_map_in _ _ _ _ K) as (j & J1 & J2). exists x, j. auto.
Qed.
(** The function does the same as before, and returns the values that have not been removed, in their order; *)
Theorem C87_function params b uses n v s : well_typed params b uses n ->
  run (new_body (pruned params uses n b) b) v s = (keep (pruned params uses n b) (fst (run b v s)), snd (run b v s)).
Proof. intros W. apply run_new. destruct (pruned_ok params uses n b W) as (_ & A & _). exact A. Qed.
(** those that have been are what was passed to it. *)
Theorem C87_handed_back params b uses n i p v s m : well_typed params b uses n -> plain params b -> In p params ->
  nth_error (pruned params uses n b) i = Some (Some p) -> find p v = Some m -> nth_error (fst (run b v s)) i = Some m.
Proof.
  intros W PB HP H F. destruct (pruned_ok params uses n b W) as (_ & A & N & _). destruct (PB p HP) as [B1 B2].
  exact (run_param _ b A i p H (N i p H) B1 B2 v s m F).
Qed.
(** As many values are assigned as are returned, where the uses assign to variables, to each once. *)
Theorem C87_arity params b uses n u v s : well_typed params b uses n -> plain params b -> In u uses -> plain_use params b u ->
  length (lhs (new_use (pruned params uses n b) params u)) = length (fst (run (new_body (pruned params uses n b) b) v s)).
Proof.
  intros W PB HU (xs & EL & NDx & HG). rewrite (C87_function params b uses n v s W). cbn [fst].
  destruct (pruned_ok params uses n b W) as (L & A & N & E). set (pl := pruned params uses n b) in *. destruct W as (NDp & HW & HR).
  destruct (HW u HU) as [LA LL]. unfold new_use. cbn [lhs]. pose proof (run_length b n HR v s) as LR.
  destruct (existsb (fun o : option name => match o with Some _ => true | None => false end) pl) eqn:EX.
  - assert (LP : length pl = n) by (destruct L as [L|L]; [exact L|rewrite L in EX; discriminate]).
    rewrite (filter_keep _ _ pl (lhs u)).
    + assert (K : forall (A B : Type) q (l : list A) (r : list B), length l = length r -> length (keep q l) = length (keep q r)).
      { intros X Y q. induction q as [|[z|] q IH]; intros [|c l] [|d r] HL; cbn in *; try discriminate; auto. }
      apply K. congruence.
    + congruence.
    + intros i a H. destruct (nth_error pl i) as [[p|]|] eqn:P.
      * pose proof (E i p P u HU) as K. unfold placed, entries in K. rewrite nth_error_map, H in K. cbn [option_map] in K. injection K as K.
        destruct a as [x|f]; cbn [entry] in K; [|discriminate]. cbn [keep_lval]. rewrite K. rewrite (proj2 (is_placed_in pl p)); [reflexivity|]. exists i. exact P.
      * rewrite EL, nth_error_map in H. destruct (nth_error xs i) as [x|] eqn:X; [|discriminate]. injection H as <-. cbn [keep_lval].
        destruct (mapped (param_map (args u) params) x) as [p|] eqn:M; [|reflexivity]. destruct (is_placed pl p) eqn:IP; [|reflexivity]. exfalso.
        apply is_placed_in in IP as (k & K). pose proof (E k p K u HU) as Q. unfold placed, entries in Q. rewrite EL, map_map, nth_error_map in Q.
        destruct (nth_error xs k) as [x'|] eqn:X'; cbn [option_map entry] in Q; [|discriminate]. injection Q as Q.
        destruct (param_map_in _ _ _ _ M) as (j & J1 & J2), (param_map_in _ _ _ _ Q) as (j' & J1' & J2').
        assert (j = j') by (apply (proj1 (NoDup_nth_error params) NDp); [apply nth_error_Some; congruence|congruence]). subst j'.
        assert (x' = x) by congruence. subst x'.
        assert (k = i) by (apply (proj1 (NoDup_nth_error xs) NDx); [apply nth_error_Some; congruence|congruence]). subst k. unfold placed in K. congruence.
      * apply nth_error_None in P. assert (i < length (lhs u)) by (apply nth_error_Some; congruence). lia.
  - rewrite (keep_none _ _ _ EX). congruence.
Qed.

(** None of the conditions can be left out. Throughout: the parameter is 1, the caller's variables are 10 (with value 3) and 11. *)
Definition ex_s : state := {| vars := fun _ => 3; fields := fun _ => 0; out := [] |}.
Definition ex_u : use := {| lhs := [LVar 10; LVar 11]; args := [EVar 10] |}.
Definition ex_ret : body := BRet [EVar 1; EConst 7].
Ltac wt := split; [repeat constructor; cbn; intuition discriminate|]; split;
  [intros u HU; cbn in HU; repeat destruct HU as [HU|HU]; try destruct HU; subst; cbn; auto|intros es HE; cbn in HE; repeat destruct HE as [HE|HE]; try destruct HE; subst; reflexivity].
Ltac pl := intros p HP; cbn in HP; repeat destruct HP as [HP|HP]; try destruct HP; subst; cbn; intuition discriminate.
Lemma ex_plain_use b : globals_set [1] b = [] -> plain_use [1] b ex_u.
Proof. intros E. exists [10; 11]. rewrite E. split; [reflexivity|]. split; [repeat constructor; cbn; intuition discriminate|cbn; auto]. Qed.
(** `( x, self.f ) = f( x )` loses the assignment to the member. *)
Theorem C87_REFUTED_members : exists params b uses n u s, well_typed params b uses n /\ plain params b /\ In u uses /\
  fields (call params b u s) 0 = 7 /\ fields (new_call params b uses n u s) 0 = 0.
Proof.
  exists [1], ex_ret, [{| lhs := [LVar 10; LField 0]; args := [EVar 10] |}], 2, {| lhs := [LVar 10; LField 0]; args := [EVar 10] |}, ex_s.
  split; [wt|]. split; [pl|]. split; [left; reflexivity|]. split; reflexivity.
Qed.
(** Next to another use, `( x, x ) = f( x )` loses the second assignment. *)
Theorem C87_REFUTED_twice : exists params b uses n u s, well_typed params b uses n /\ plain params b /\ In u uses /\
  vars (call params b u s) 10 = 7 /\ vars (new_call params b uses n u s) 10 = 3.
Proof.
  exists [1], ex_ret, [ex_u; {| lhs := [LVar 10; LVar 10]; args := [EVar 10] |}], 2, {| lhs := [LVar 10; LVar 10]; args := [EVar 10] |}, ex_s.
  split; [wt|]. split; [pl|]. split; [right; left; reflexivity|]. split; reflexivity.
Qed.
(** A global variable that the function changes is not set back to what was passed. *)
Theorem C87_REFUTED_globals : exists params b uses n u s, well_typed params b uses n /\ plain params b /\ In u uses /\
  vars (call params b u s) 10 = 3 /\ vars (new_call params b uses n u s) 10 = 5.
Proof.
  exists [1], (BSet 10 (EConst 5) ex_ret), [ex_u], 2, ex_u, ex_s.
  split; [wt|]. split; [pl|]. split; [left; reflexivity|]. split; reflexivity.
Qed.
(** A local that shadows the parameter is taken for the parameter: `if ( .. ) { local p = 5; return ( p, 7 ); } return ( p, 7 );` *)
Theorem C87_REFUTED_shadowed : exists params b uses n u s, well_typed params b uses n /\ In u uses /\ plain_use params b u /\
  vars (call params b u s) 10 = 5 /\ vars (new_call params b uses n u s) 10 = 3.
Proof.
  exists [1], (BIf (EConst 1) (BLocal 1 (EConst 5) ex_ret) ex_ret), [ex_u], 2, ex_u, ex_s.
  split; [wt|]. split; [left; reflexivity|]. split; [apply ex_plain_use; reflexivity|]. split; reflexivity.
Qed.
(** A parameter that a method changes by reference is taken for unchanged. *)
Theorem C87_REFUTED_by_reference : exists params b uses n u s, well_typed params b uses n /\ In u uses /\ plain_use params b u /\
  vars (call params b u s) 10 = 4 /\ vars (new_call params b uses n u s) 10 = 3.
Proof.
  exists [1], (BMember 1 true ex_ret), [ex_u], 2, ex_u, ex_s.
  split; [wt|]. split; [left; reflexivity|]. split; [apply ex_plain_use; reflexivity|]. split; reflexivity.
Qed.

(** `( x, y ) = f( x, 4 )` for a function that prints its first parameter's successor by way of a local, sets a member,
    and returns ( p, q + 1 ) or ( p, 7 ): x is removed, y is not *)
Definition ex_f : body :=
  BLocal 5 (EConst 2) (BField 0 (EConst 8) (BSet 5 (EAdd (EVar 2) (EConst 1)) (BPrint (EVar 5)
    (BIf (EVar 2) (BRet [EVar 1; EAdd (EVar 2) (EConst 1)]) ex_ret)))).
Definition ex_call : use := {| lhs := [LVar 10; LVar 11]; args := [EVar 10; EConst 4] |}.
Example C87_ex : well_typed [1; 2] ex_f [ex_call] 2 /\ plain [1; 2] ex_f /\ plain_use [1; 2] ex_f ex_call
  /\ pruned [1; 2] [ex_call] 2 ex_f = [Some 1; None]
  /\ lhs (new_use (pruned [1; 2] [ex_call] 2 ex_f) [1; 2] ex_call) = [LVar 11]
  /\ (let s := new_call [1; 2] ex_f [ex_call] 2 ex_call ex_s in vars s 10 = 3 /\ vars s 11 = 5 /\ fields s 0 = 8 /\ out s = [5]).
Proof.
  split; [wt|]. split; [pl|]. split; [|repeat split; reflexivity].
  exists [10; 11]. split; [reflexivity|]. split; [repeat constructor; cbn; intuition discriminate|cbn; auto].
Qed.
(** different orders, and parameters that are used: nothing is removed *)
Example C87_ex_kept : pruned [1; 2] [{| lhs := [LVar 10; LVar 11]; args := [EVar 10; EVar 11] |}] 2
    (BIf (EConst 0) (BRet [EVar 2; EVar 1]) (BRet [EVar 1; EVar 2])) = [None; None]
  /\ pruned [1] [ex_u] 2 (BSet 1 (EConst 5) ex_ret) = [None; None].
Proof. split; reflexivity. Qed.
