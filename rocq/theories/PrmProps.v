(** C84: rewriting parameters does not change what a program does. *)
From Coq Require Import ZArith List Bool Arith Lia.
From Verif Require Import PrmModel PrmSpec PrmProofs1 PrmProofs2 PrmProofs3 PrmProofs4 PrmProofs5.
Import ListNotations.

(* ------------------------------------------------------------------ *)
(** ** A program both changes apply to *)

(** f(copy a, inout b, copy unused) { if (a) b = b + a; return g(a, b); }
    g(copy u, inout v) { v = v + 1; return u; }
    main { x = 5; y = 7; print f(x, y, x + 1); print y; print x; } *)
Definition ex_f : pfn :=
  PFn [(0, KCopy); (1, KInOut); (2, KCopy)]
      (SSeq (SIf (EVar (VP 0)) (SAssign (VP 1) (EAdd (EVar (VP 1)) (EVar (VP 0)))) SSkip)
            (SReturn (ECall false 2 [EVar (VP 0); EVar (VP 1)])))
      false 1.
Definition ex_g : pfn :=
  PFn [(0, KCopy); (1, KInOut)]
      (SSeq (SAssign (VP 1) (EAdd (EVar (VP 1)) (EInt 1))) (SReturn (EVar (VP 0)))) false 1.
Definition ex_main : pfn :=
  PFn [] (SSeq (SAssign (VL 0) (EInt 5)) (SSeq (SAssign (VL 1) (EInt 7))
           (SSeq (SPrint (ECall false 1 [EVar (VL 0); EVar (VL 1); EAdd (EVar (VL 0)) (EInt 1)]))
                 (SSeq (SPrint (EVar (VL 1))) (SPrint (EVar (VL 0)))))))
      true 1.
Definition ex_prog : pprog := [(0, ex_main); (1, ex_f); (2, ex_g)].

Definition pout (r : pres Z) : option (list Z) :=
  match r with POk s _ => Some (p_out s) | _ => None end.

Ltac in_cases :=
  repeat match goal with
         | H : _ \/ _ |- _ => destruct H
         | H : False |- _ => destruct H
         | H : In _ _ |- _ => cbn in H
         | H : (_, _) = (_, _) |- _ => injection H as ? ?; subst
         | H : (_, _, _) = (_, _, _) |- _ => injection H as ? ? ?; subst
         end.

Ltac wf_tac :=
  intros f fd Hin; cbn in Hin; in_cases;
  (refine (conj _ (conj _ _));
   [cbn; repeat (apply NoDup_cons; [cbn; intros K; in_cases; discriminate|]);
    apply NoDup_nil
   |intros c Hc; cbn in Hc; in_cases; subst; eexists; split; reflexivity
   |intros p Hp; cbn in Hp; in_cases; try discriminate;
    repeat match goal with H : VP _ = VP _ |- _ => injection H as <- end;
    (eexists; split; [cbn; first [left; reflexivity|right; left; reflexivity|right; right; left; reflexivity]|discriminate])]).

Lemma ex_well_formed : well_formed ex_prog.
Proof. wf_tac. Qed.

Lemma ex_promotion_safe : promotion_safe ex_prog.
Proof.
  intros f fd m g args gd p i u Hin Hc Hg Hi Hp Hu.
  cbn in Hin. destruct Hin as [E | [E | [E | []]]]; injection E as <- <-; cbn in Hc; in_cases;
    (cbn in Hg; injection Hg as <-;
     destruct i as [|[|[|i]]]; cbn in Hi; try discriminate; try (destruct i; discriminate);
     injection Hi as <-; cbn in Hu; try discriminate; injection Hu as <-;
     split; [cbn; tauto|cbn; intuition discriminate]).
Qed.

Lemma ex_removal_safe : removal_safe ex_prog.
Proof.
  intros m g args Hin. cbn in Hin. in_cases.
  - split.
    + intros i a Hi Ha. cbn in Hi. in_cases. subst i. cbn in Ha. injection Ha as <-. cbn. tauto.
    + intros _ a m' h args' Ha Hh. cbn in Ha. in_cases; subst; cbn in Hh; destruct Hh.
  - split.
    + intros i a Hi Ha. cbn in Hi. destruct Hi.
    + intros _ a m' h args' Ha Hh. cbn in Ha. in_cases; subst; cbn in Hh; destruct Hh.
Qed.

(** Both changes happen to it: the copies become `in`, the third parameter
    and its argument go. *)
Example ex_changed :
  plook 1 (optimize_params ex_prog) =
  Some (PFn [(0, KIn); (1, KInOut)] (fn_body ex_f) false 1) /\
  pout (prun ex_prog 9 0 (fun _ => 0%Z)) = Some [5; 13; 5]%Z /\
  pout (prun (optimize_params ex_prog) 9 0 (fun _ => 0%Z)) = Some [5; 13; 5]%Z.
Proof. repeat split. Qed.

(* ------------------------------------------------------------------ *)
(** ** The theorems *)

(** Under the two conditions the optimised program prints the same, returns
    the same, throws where the original throws, runs on where it runs on, and
    leaves the same globals. *)
Theorem C84_pass_preserves_behaviour : forall P,
  well_formed P -> promotion_safe P -> removal_safe P -> same_behaviour P (optimize_params P).
Proof. exact optimize_preserves. Qed.

Example C84_pass_example : well_formed ex_prog /\ promotion_safe ex_prog /\ removal_safe ex_prog.
Proof. exact (conj ex_well_formed (conj ex_promotion_safe ex_removal_safe)). Qed.

(** Removing alone needs only the condition on what is left out ... *)
Theorem C84_removal_preserves_behaviour : forall P,
  well_formed P -> removal_safe P -> same_behaviour P (remove P).
Proof. exact removal_preserves. Qed.

(** ... and promoting `inout` parameters needs none. *)
Theorem C84_inout_to_in_preserves_behaviour : forall P,
  well_formed P ->
  (forall f fd p, In (f, fd) P -> In (p, KCopy) (fn_params fd) -> promotable P fd p KCopy = false) ->
  same_behaviour P (promote P).
Proof.
  intros P WF NC. apply promotion_preserves; [exact WF|].
  intros f fd m g args gd p i u _ _ Hg Hi Hp _. exfalso.
  rewrite (NC g gd p (plook_In _ _ _ Hg) (nth_error_In _ _ Hi)) in Hp. discriminate.
Qed.

(** The result is again a program: names stay distinct, every call has as
    many arguments as its callee has parameters, nobody writes to an `in`
    parameter. *)
Theorem C84_result_well_formed : forall P,
  NoDup (map fst P) -> well_formed P -> removal_safe P -> well_formed (optimize_params P).
Proof.
  intros P ND WF RS. apply remove_well_formed.
  - now apply promote_well_formed.
  - now apply promote_removal_safe.
  - unfold promote. rewrite map_map. erewrite map_ext; [exact ND|]. now intros [f fd].
Qed.

(** Which positions go: those of a function that may be changed, is not
    overloaded and is nowhere called with a function call as an argument,
    and whose body does not name the parameter. *)
Theorem C84_removed_exactly : forall P f fd i, plook f P = Some fd ->
  (In i (un P f) <->
   (fn_fixed fd = false /\ fn_overloads fd <= 1 /\
    (forall m args a, In (m, f, args) (pcalls P) -> In a args -> is_fcall a = false) /\
    exists p k, nth_error (fn_params fd) i = Some (p, k) /\ ~ In p (sparams (fn_body fd)))).
Proof.
  intros P f fd i E. unfold un. rewrite E, unused_In.
  assert (K : uses_effects P f = false <->
              forall m args a, In (m, f, args) (pcalls P) -> In a args -> is_fcall a = false).
  { unfold uses_effects. split.
    - intros H m args a Hin Ha. destruct (is_fcall a) eqn:Ef; [|reflexivity].
      assert (T : existsb (fun c => match c with (_, g, l) => Nat.eqb g f && existsb is_fcall l end) (pcalls P) = true).
      { apply existsb_exists. exists (m, f, args). split; [exact Hin|]. rewrite Nat.eqb_refl. cbn [andb].
        apply existsb_exists. now exists a. }
      congruence.
    - intros H. apply not_true_iff_false. intros T. apply existsb_exists in T.
      destruct T as ([[m g] args] & Hin & T). apply andb_true_iff in T. destruct T as [Eg T].
      apply Nat.eqb_eq in Eg. subst g. apply existsb_exists in T. destruct T as (a & Ha & T).
      rewrite (H m args a Hin Ha) in T. discriminate. }
  tauto.
Qed.

(** So an argument that is a function call is never left out. *)
Theorem C84_call_argument_kept : forall P m g args i a,
  In (m, g, args) (pcalls P) -> nth_error args i = Some a -> is_fcall a = true -> ~ In i (un P g).
Proof. exact direct_calls_kept. Qed.

(** Which kinds change: `copy` and `inout` parameters of functions that may
    be changed, if the body neither assigns them nor passes them on for an
    `inout` parameter; they become `in`.  Everything else keeps its kind. *)
Theorem C84_kinds_exactly : forall P f fd, plook f P = Some fd ->
  exists fd', plook f (promote P) = Some fd' /\ map fst (fn_params fd') = map fst (fn_params fd) /\
    fn_body fd' = fn_body fd /\
    forall i p k, nth_error (fn_params fd) i = Some (p, k) ->
      ((k <> KIn /\ fn_fixed fd = false /\ ~ In (VP p) (swr P (fn_body fd))) /\
       nth_error (fn_params fd') i = Some (p, KIn)) \/
      (~ (k <> KIn /\ fn_fixed fd = false /\ ~ In (VP p) (swr P (fn_body fd))) /\
       nth_error (fn_params fd') i = Some (p, k)).
Proof.
  intros P f fd E. exists (promote_fn P fd). rewrite promote_look, E.
  refine (conj eq_refl (conj (pkof_names P fd (fn_params fd)) (conj eq_refl _))).
  intros i p k Hi. cbn [promote_fn fn_params]. rewrite nth_error_map, Hi. cbn [option_map].
  assert (M : In p (modified P fd) <-> In (VP p) (swr P (fn_body fd))).
  { unfold modified. rewrite in_flat_map. split.
    - intros (v & Hv & Hp). destruct v as [x|x|q]; cbn in Hp; try easy. destruct Hp as [-> | []]. exact Hv.
    - intros H. exists (VP p). split; [exact H|now left]. }
  destruct k; cbn [promotable].
  - destruct (fn_fixed fd); cbn [negb andb]; [right; split; [easy|reflexivity]|].
    destruct (memb p (modified P fd)) eqn:D; cbn [negb].
    + right. split; [|reflexivity]. apply memb_spec in D. tauto.
    + left. split; [|reflexivity]. apply memb_false in D. repeat split; [discriminate|tauto].
  - right. split; [tauto|reflexivity].
  - destruct (fn_fixed fd); cbn [negb andb]; [right; split; [easy|reflexivity]|].
    destruct (memb p (modified P fd)) eqn:D; cbn [negb].
    + right. split; [|reflexivity]. apply memb_spec in D. tauto.
    + left. split; [|reflexivity]. apply memb_false in D. repeat split; [discriminate|tauto].
Qed.

(** A function that must not be changed keeps its signature. *)
Theorem C84_interface_kept : forall P f fd, plook f P = Some fd -> fn_fixed fd = true ->
  exists fd', plook f (optimize_params P) = Some fd' /\ fn_params fd' = fn_params fd.
Proof.
  intros P f fd E Fx. unfold optimize_params. exists (remove_fn (promote P) f (promote_fn P fd)). split.
  - unfold remove. rewrite (plook_map f (remove_fn (promote P)) (promote P)), promote_look, E. reflexivity.
  - cbn [remove_fn fn_params]. rewrite promote_un. unfold un. rewrite E. unfold unused. rewrite Fx.
    unfold prune_decl. cbn [rev fold_left promote_fn fn_params]. rewrite <- (map_id (fn_params fd)) at 2.
    apply map_ext. intros [p k]. destruct k; cbn [promotable]; rewrite ?Fx; reflexivity.
Qed.

(** The declaration loses exactly the positions the calls lose, and the other
    parameters keep their order. *)
Theorem C84_declaration_matches_calls : forall P f fd, plook f P = Some fd ->
  prune_decl (un P f) (fn_params fd) = drop_pos 0 (un P f) (fn_params fd) /\
  (forall j, In j (un P f) -> j < length (fn_params fd)).
Proof.
  intros P f fd E. split; [now apply un_params|]. intros j Hj. unfold un in Hj. rewrite E in Hj.
  apply unused_In in Hj. destruct Hj as (_ & _ & _ & p & k & Hj & _). apply nth_error_Some. congruence.
Qed.

(* ------------------------------------------------------------------ *)
(** ** Where the conditions are needed *)

(** f(copy x, inout z) { z = 42; print x; }   main { y = 1; f(y, y); } *)
Definition bad_alias : pprog :=
  [(0, PFn [] (SSeq (SAssign (VL 0) (EInt 1)) (SExpr (ECall false 1 [EVar (VL 0); EVar (VL 0)]))) true 1);
   (1, PFn [(0, KCopy); (1, KInOut)] (SSeq (SAssign (VP 1) (EInt 42)) (SPrint (EVar (VP 0)))) false 1)].

(** f(copy x) { G = 42; print x; }   main { f(G); } *)
Definition bad_global : pprog :=
  [(0, PFn [] (SExpr (ECall false 1 [EVar (VG 0)])) true 1);
   (1, PFn [(0, KCopy)] (SSeq (SAssign (VG 0) (EInt 42)) (SPrint (EVar (VP 0)))) false 1)].

(** A copy that is only read becomes a reference, although the variable it
    was taken of is written while the function runs: through another
    parameter ... *)
Theorem C84_copy_of_inout_argument_refuted :
  well_formed bad_alias /\ removal_safe bad_alias /\
  pout (prun bad_alias 9 0 (fun _ => 0%Z)) = Some [1]%Z /\
  pout (prun (optimize_params bad_alias) 9 0 (fun _ => 0%Z)) = Some [42]%Z.
Proof.
  refine (conj _ (conj _ (conj eq_refl eq_refl))).
  - wf_tac.
  - intros m g args Hin. cbn in Hin. in_cases. split.
    + intros i a Hi Ha. cbn in Hi. destruct Hi.
    + intros _ a m' h args' Ha Hh. cbn in Ha. in_cases; subst; cbn in Hh; destruct Hh.
Qed.

(** ... or because it is a global. *)
Theorem C84_copy_of_global_refuted :
  well_formed bad_global /\ removal_safe bad_global /\
  pout (prun bad_global 9 0 (fun _ => 1%Z)) = Some [1]%Z /\
  pout (prun (optimize_params bad_global) 9 0 (fun _ => 1%Z)) = Some [42]%Z.
Proof.
  refine (conj _ (conj _ (conj eq_refl eq_refl))).
  - wf_tac.
  - intros m g args Hin. cbn in Hin. in_cases. split.
    + intros i a Hi Ha. cbn in Hi. destruct Hi.
    + intros _ a m' h args' Ha Hh. cbn in Ha. in_cases; subst; cbn in Hh; destruct Hh.
Qed.

(** f(x) { }   g() { print 1; return 2; }   main { f(<arg>); } *)
Definition bad_arg (a : pexpr) : pprog :=
  [(0, PFn [] (SExpr (ECall false 1 [a])) true 1);
   (1, PFn [(0, KIn)] SSkip false 1);
   (2, PFn [] (SSeq (SPrint (EInt 1)) (SReturn (EInt 2))) false 1)].

(** A call that is only part of an argument is lost with it, ... *)
Theorem C84_call_inside_argument_refuted :
  well_formed (bad_arg (EAdd (ECall false 2 []) (EInt 1))) /\
  pout (prun (bad_arg (EAdd (ECall false 2 []) (EInt 1))) 9 0 (fun _ => 0%Z)) = Some [1]%Z /\
  pout (prun (optimize_params (bad_arg (EAdd (ECall false 2 []) (EInt 1)))) 9 0 (fun _ => 0%Z)) = Some [].
Proof. refine (conj _ (conj eq_refl eq_refl)). wf_tac. Qed.

(** ... a method call is lost even if it is the argument, ... *)
Theorem C84_method_call_argument_refuted :
  well_formed (bad_arg (ECall true 2 [])) /\
  pout (prun (bad_arg (ECall true 2 [])) 9 0 (fun _ => 0%Z)) = Some [1]%Z /\
  pout (prun (optimize_params (bad_arg (ECall true 2 []))) 9 0 (fun _ => 0%Z)) = Some [].
Proof. refine (conj _ (conj eq_refl eq_refl)). wf_tac. Qed.

(** ... and so is an exception. *)
Theorem C84_throwing_argument_refuted :
  well_formed (bad_arg (EDiv (EInt 1) (EInt 0))) /\
  pout (prun (bad_arg (EDiv (EInt 1) (EInt 0))) 9 0 (fun _ => 0%Z)) = None /\
  pout (prun (optimize_params (bad_arg (EDiv (EInt 1) (EInt 0)))) 9 0 (fun _ => 0%Z)) = Some [].
Proof. refine (conj _ (conj eq_refl eq_refl)). wf_tac. Qed.

(** f(unused, y) { print y; }   g(unused) { return 2; }
    main { f(0, g(3) + 1); }
    If f is declared first, the call of g is copied out of the way before it
    is pruned: it keeps an argument g has no parameter for.  Nothing that
    has a side effect is removed here. *)
Definition bad_order (swap : bool) : pprog :=
  let f := (1, PFn [(0, KIn); (1, KIn)] (SPrint (EVar (VP 1))) false 1) in
  let g := (2, PFn [(0, KIn)] (SReturn (EInt 2)) false 1) in
  (0, PFn [] (SExpr (ECall false 1 [EInt 0; EAdd (ECall false 2 [EInt 3]) (EInt 1)])) true 1) ::
  (if swap then [g; f] else [f; g]).

Theorem C84_nested_call_left_behind_refuted :
  well_formed (bad_order false) /\
  pout (prun (bad_order false) 9 0 (fun _ => 0%Z)) = Some [3]%Z /\
  prun (optimize_params (bad_order false)) 9 0 (fun _ => 0%Z) = PBad /\
  ~ well_formed (optimize_params (bad_order false)) /\
  pout (prun (optimize_params (bad_order true)) 9 0 (fun _ => 0%Z)) = Some [3]%Z.
Proof.
  refine (conj _ (conj eq_refl (conj eq_refl (conj _ eq_refl)))).
  - wf_tac.
  - intros W. destruct (W 0 _ (or_introl eq_refl)) as (_ & CF & _).
    destruct (CF (false, 2, [EInt 3])) as (gd & E & L); [cbn; tauto|]. cbn in E. injection E as <-. cbn in L. discriminate.
Qed.
