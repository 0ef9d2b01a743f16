(* The control-flow graph, the data-flow facts and dead code removal. *)
From Coq Require Import List Arith Bool ZArith Lia.
From Verif Require Import OptModel OptSpec OptProofs1 OptProofs2 OptProofs3 OptProofs4 OptProofs5 OptProofs6.
Import ListNotations.

(* ---- C70: data-flow facts ---- *)

(* The facts at a node are exactly the updates that arrive there on some path of the graph. *)
Theorem C70_facts_exact f d : flow_result f d ->
  forall n x p, In (x, p) (d_in d n) <-> In x (gen_of f p) /\ arrives (build f) (gen_of f) x p n.
Proof.
  intros (fuel & order & HO & HS) n x p.
  rewrite (flow_exact _ _ order fuel d (build_closed f) HO HS n x p). tauto.
Qed.

(* The iteration ends, for any function and any order of the nodes; how many rounds there can be. *)
Theorem C70_finishes f order : (forall n, In n order <-> In n (g_nodes (build f))) ->
  exists d, flow_solve (S (3 * length order * length (flat_map (fun p => map (fun x => (x, p)) (gen_of f p)) (g_nodes (build f)))))
              (build f) (gen_of f) order d0 = Some d.
Proof.
  intros HO. set (U := flat_map _ _).
  assert (HU : forall x p, In x (gen_of f p) -> In p (g_nodes (build f)) -> In (x, p) U).
  { intros x p Hx Hp. apply in_flat_map. exists p. split; auto. apply in_map_iff. exists x. auto. }
  pose proof (flow_solve_terminates (build f) (gen_of f) U HU (build_closed f) order (S (3 * length order * length U)) d0
                (inv0 _ _) (fun n => proj1 (HO n))) as T.
  destruct (flow_solve _ _ _ _ _) as [d|]; [eauto | exfalso; apply T; [lia | reflexivity]].
Qed.

(* So the facts are the same for any two orders. *)
Theorem C70_order_irrelevant f d d' : flow_result f d -> flow_result f d' ->
  forall n q, In q (d_in d n) <-> In q (d_in d' n).
Proof. intros H H' n [x p]. rewrite (C70_facts_exact f d H), (C70_facts_exact f d' H'). tauto. Qed.

(* The graph: edges lead from nodes to nodes, and every node but the start, the declarations and the statements has an
   incoming edge. *)
Theorem C70_graph f :
  (forall a b, edge (build f) a b -> In a (g_nodes (build f)) /\ In b (g_nodes (build f))) /\
  (forall n, In n (g_nodes (build f)) -> is_meta n = true -> n <> NStart -> exists p, edge (build f) p n).
Proof. split; [apply build_closed | apply build_no_dead]. Qed.

(* ---- C71: dead code removal ---- *)

(* The function after the pass does what it did before, unless the original fails in an operator (the failing expression
   may have been removed), or an assignment that reads its own target fails in the result. *)
Theorem C71_dead_code W (L : lang W) f d :
  (forall l, moved W L l = false) -> well_formed (glob W L) f -> each_of no_jump (f_body f) ->
  each_of (dce_cond (glob W L) True) (f_body f) -> flow_result f d ->
  forall n args g w,
  same_seen W (run W L n f args g w) (run W L n (dce f (glob W L) d) args g w) \/
  failed W (run W L n f args g w) \/ failed W (run W L n (dce f (glob W L) d) args g w).
Proof.
  intros HM HW HJ HC HF n args g w. unfold dce. destruct (hits _ _).
  - destruct (dce_unused W L f HW HJ d True HM HF HC n args g w) as [H | [H | [_ H]]]; auto.
  - left. rewrite dce_unreachable; auto. unfold same_seen. now destruct (run W L n f args g w).
Qed.

(* If no assignment reads its own target, removal brings no failure that was not there. *)
Theorem C71_no_new_failure W (L : lang W) f d :
  (forall l, moved W L l = false) -> well_formed (glob W L) f -> each_of no_jump (f_body f) ->
  each_of (dce_cond (glob W L) False) (f_body f) -> flow_result f d ->
  forall n args g w,
  same_seen W (run W L n f args g w) (run W L n (dce f (glob W L) d) args g w) \/ failed W (run W L n f args g w).
Proof.
  intros HM HW HJ HC HF n args g w. unfold dce. destruct (hits _ _).
  - destruct (dce_unused W L f HW HJ d False HM HF HC n args g w) as [H | [H | [[] _]]]; auto.
  - left. rewrite dce_unreachable; auto. unfold same_seen. now destruct (run W L n f args g w).
Qed.

(* If operators do not fail, nothing is left to excuse. *)
Lemma eval_total W (L : lang W) : (forall o v, op1 W L o v <> None) -> (forall o v w, op2 W L o v w <> None) ->
  (forall e s t, eval W L e s <> RExc XOp t) /\ (forall a s t, eval_args W L a s <> RExc XOp t).
Proof.
  intros H1 H2.
  assert (B : forall A B (r : res W A) (k : A -> state W -> res W B), (forall t, r <> RExc XOp t) ->
            (forall v s t, k v s <> RExc XOp t) -> forall t, bind W r k <> RExc XOp t).
  { intros A B0 r k Hr Hk t. destruct r; simpl; auto. intros X. injection X as -> ->. now apply (Hr t). }
  apply expr_mutind; intros; ev; try discriminate; repeat (apply B; intros; auto); try discriminate.
  - specialize (H1 o v). destruct (op1 W L o v); [discriminate | contradiction].
  - specialize (H2 o v v0). destruct (op2 W L o v v0); [discriminate | contradiction].
  - destruct (truth v); [|discriminate]. apply B; auto. discriminate.
  - destruct (truth v); [discriminate|]. apply B; auto. discriminate.
  - specialize (H2 o (get W L s0 x) v). destruct (op2 W L o (get W L s0 x) v); [discriminate | contradiction].
  - cbv zeta. destruct (cr_exc W _); discriminate.
Qed.
Lemma exec_total W (L : lang W) : (forall o v, op1 W L o v <> None) -> (forall o v w, op2 W L o v w <> None) ->
  forall n, (forall c s t, exec W L n c s <> OThr XOp t) /\ (forall cs s t, execs W L n cs s <> OThr XOp t).
Proof.
  intros H1 H2 n. pose proof (proj1 (eval_total W L H1 H2)) as HE.
  assert (B : forall e s k t, (forall v s, k v s <> OThr XOp t) -> obind W (eval W L e s) k <> OThr XOp t).
  { intros e s k t Hk. destruct (eval W L e s) eqn:Ee; simpl; auto. intros X. injection X as -> ->. now apply (HE e s t). }
  assert (BI : forall i s k t, (forall s, k s <> OThr XOp t) -> exec_init W L i s k <> OThr XOp t).
  { intros [[x e]|] s k t Hk; simpl; auto. }
  apply stmt_mutind; intros; try (cbn [exec]; try (apply B; intros); discriminate).
  - destruct i; cbn [exec]; [apply B; intros|]; discriminate.
  - rewrite exec_if. apply BI. intros s1. apply B. intros v s2. destruct (truth v); auto. destruct hasf; [auto | discriminate].
  - rewrite exec_while. apply BI. intros s1. generalize n at 2. intros m. revert s1. induction m as [|m IH]; intros s1; [discriminate|].
    rewrite wloop_S. apply B. intros v s2. destruct (truth v).
    + destruct (execs W L n b s2) eqn:Eb; auto; try discriminate. rewrite <- Eb. auto.
    + destruct hase; [auto | discriminate].
  - cbn [exec]. change (match execs W L n b s with OThr _ s0 => execs W L n c s0 | o => o end <> OThr XOp t).
    destruct (execs W L n b s) eqn:Eb; auto; discriminate.
  - destruct e; cbn [exec]; [apply B; intros|]; discriminate.
  - destruct e; cbn [exec]; [apply B; intros|]; discriminate.
  - cbn [exec]. apply B. intros v s1. destruct (truth v); discriminate.
  - apply H.
  - rewrite execs_cons. destruct (exec W L n s s0) eqn:Es; simpl; auto; try discriminate. rewrite <- Es. apply H.
Qed.
Theorem C71_total_operators W (L : lang W) f d :
  (forall o v, op1 W L o v <> None) -> (forall o v w, op2 W L o v w <> None) ->
  (forall l, moved W L l = false) -> well_formed (glob W L) f -> each_of no_jump (f_body f) ->
  each_of (dce_cond (glob W L) True) (f_body f) -> flow_result f d ->
  forall n args g w, same_seen W (run W L n f args g w) (run W L n (dce f (glob W L) d) args g w).
Proof.
  intros H1 H2 HM HW HJ HC HF n args g w.
  assert (X : forall f', ~ failed W (run W L n f' args g w)).
  { intros f'. unfold run. pose proof (proj2 (exec_total W L H1 H2 n) (f_body f') (start W f' args g w)) as X.
    destruct (execs W L n (f_body f') _) as [s|s|s|v s|x s|]; simpl; auto. destruct x; simpl; auto. intros _. now apply (X s). }
  destruct (C71_dead_code W L f d HM HW HJ HC HF n args g w) as [H | [H | H]]; auto; now apply X in H.
Qed.

(* Removing what the graph has no way to: no change at all. *)
Theorem C71_unreachable W (L : lang W) f :
  well_formed (glob W L) f -> each_of no_jump (f_body f) ->
  forall n args g w,
  run W L n {| f_params := f_params f; f_body := rm_stmts (unreachable f) (f_body f) |} args g w = run W L n f args g w.
Proof. intros. apply dce_unreachable; auto. Qed.

(* ---- concrete cases ---- *)

(* A language: operator 0 adds, 1 divides and fails for 0, 2 compares for less; function 0 sets its inout parameter to
   7, function 1 returns global 100, function 2 throws. *)
Definition eL : lang (list Z) := {|
  op1 := fun _ v => Some (- v)%Z;
  op2 := fun o v w => match o with
                      | 0 => Some (v + w)%Z
                      | 1 => if (w =? 0)%Z then None else Some (v / w)%Z
                      | _ => Some (if (v <? w)%Z then 1 else 0)%Z
                      end;
  call := fun f vs g w => match f with
                          | 0 => {| cr_exc := None; cr_val := 0%Z; cr_outs := [7%Z]; cr_glb := g; cr_wld := 0%Z :: vs ++ w |}
                          | 1 => {| cr_exc := None; cr_val := g 100; cr_outs := []; cr_glb := g; cr_wld := 1%Z :: g 100 :: w |}
                          | _ => {| cr_exc := Some 5%Z; cr_val := 0%Z; cr_outs := []; cr_glb := g; cr_wld := 2%Z :: w |}
                          end;
  dflt := fun _ => 0%Z; glob := fun x => 100 <=? x; moved := fun _ => false; poison := fun _ => 0%Z |}.
Definition facts_of (f : func) : dflow :=
  match flow_solve 100 (build f) (gen_of f) (g_nodes (build f)) d0 with Some d => d | None => d0 end.
Definition value {W} (r : seen W) : option Z := match r with Returns v _ _ _ => v | _ => None end.
Definition world {W} (r : seen W) : option W := match r with Returns _ _ _ w | Throws _ _ _ w => Some w | Diverges => None end.
Fixpoint prog (l : list stmt) : stmts := match l with [] => SNil | s :: r => SCons s (prog r) end.
Notation N x := (EName 0 x).
Notation C z := (EConst 0 z%Z).

(* function f(x, inout y) {
     local a = 1;  local b = 2;  local c = 3;
     while ( a < x ) { b = 5; a = a + 1; b = a; }
     if ( x ) { y = b; } else { y = 3; c = 4; }
     g(c);  y = y + c;  return a;
   } where b = 5 goes, and local b = 2 does not. *)
Definition ex_f : func := {|
  f_params := [(1, false); (2, true)];
  f_body := prog [
    SDecl 10 3 (Some (C 1)); SDecl 11 4 (Some (C 2)); SDecl 12 5 (Some (C 3));
    SWhile None 13 (EBin 2 (N 3) (N 1)) (prog [SAssign 14 4 (C 5); SAssign 15 3 (EBin 0 (N 3) (C 1)); SAssign 16 4 (N 3)]) false SNil;
    SIf None 17 (N 1) (prog [SAssign 18 2 (N 4)]) true (prog [SAssign 19 2 (C 3); SAssign 20 5 (C 4)]);
    SExpr 21 (ECall 0 (AInOut 5 ANil)); SAssign 22 2 (EBin 0 (N 2) (N 5)); SReturn 23 (Some (N 3))] |}.
Example C71_example_result :
  f_body (dce ex_f (glob _ eL) (facts_of ex_f)) = prog [
    SDecl 10 3 (Some (C 1)); SDecl 11 4 (Some (C 2)); SDecl 12 5 (Some (C 3));
    SWhile None 13 (EBin 2 (N 3) (N 1)) (prog [SExpr 14 (C 5); SAssign 15 3 (EBin 0 (N 3) (C 1)); SAssign 16 4 (N 3)]) false SNil;
    SIf None 17 (N 1) (prog [SAssign 18 2 (N 4)]) true (prog [SAssign 19 2 (C 3); SAssign 20 5 (C 4)]);
    SExpr 21 (ECall 0 (AInOut 5 ANil)); SAssign 22 2 (EBin 0 (N 2) (N 5)); SReturn 23 (Some (N 3))].
Proof. vm_compute. reflexivity. Qed.
Ltac nodup := repeat (constructor; [simpl; intuition discriminate|]); constructor.
Example C71_example_meets :
  well_formed (glob _ eL) ex_f /\ each_of no_jump (f_body ex_f) /\ each_of (dce_cond (glob _ eL) True) (f_body ex_f) /\
  flow_result ex_f (facts_of ex_f).
Proof.
  split; [|split; [|split]].
  - split; [|split].
    + cbn. unfold fresh, visible. cbn. intuition (subst; auto; discriminate).
    + cbn. intuition (subst; auto).
    + cbn. nodup.
  - cbn. tauto.
  - cbn. intuition (auto; discriminate).
  - exists 100, (g_nodes (build ex_f)). split; [tauto | vm_compute; reflexivity].
Qed.
Example C71_example_runs :
  value (run _ eL 10 ex_f (fun _ => 3%Z) (fun _ => 0%Z) []) = Some 3%Z /\
  value (run _ eL 10 (dce ex_f (glob _ eL) (facts_of ex_f)) (fun _ => 3%Z) (fun _ => 0%Z) []) = Some 3%Z.
Proof. vm_compute. auto. Qed.

(* ---- the conditions of C71 are needed: functions that the pass changes ---- *)

Definition after (f : func) : func := dce f (glob _ eL) (facts_of f).
Definition differs {A} (see : seen (list Z) -> A) (f : func) (x : Z) : Prop :=
  flow_result f (facts_of f) /\ well_formed (glob _ eL) f /\
  see (run _ eL 10 f (fun _ => x) (fun _ => 0%Z) []) <> see (run _ eL 10 (after f) (fun _ => x) (fun _ => 0%Z) []).
Ltac wf := split; [|split];
  [ cbn; unfold fresh, visible; cbn; intuition (subst; auto; discriminate) | cbn; intuition (subst; auto) | cbn; nodup ].
Ltac differ := lazymatch goal with |- differs _ ?f _ =>
  split; [exists 100, (g_nodes (build f)); split; [tauto | vm_compute; reflexivity] | split; [wf | vm_compute; discriminate]] end.

(* local x = 0; while ( 1 ) { if ( p ) { x = 1; break; } x = 3; } return x;  loses x = 1 *)
Definition ex_break : func := {| f_params := [(1, false)]; f_body := prog [
  SDecl 10 3 (Some (C 0));
  SWhile None 11 (C 1) (prog [SIf None 12 (N 1) (prog [SAssign 13 3 (C 1); SBreak]) false SNil; SAssign 14 3 (C 3)]) false SNil;
  SReturn 15 (Some (N 3))] |}.
Theorem C71_break_refuted : differs value ex_break 1 /\ each_of (dce_cond (glob _ eL) False) (f_body ex_break).
Proof. split; [differ | cbn; intuition discriminate]. Qed.

(* local x = 0; try { x = 1; throws(); x = 2; } catch { } return x;  loses x = 1 *)
Definition ex_try : func := {| f_params := []; f_body := prog [
  SDecl 10 3 (Some (C 0));
  STry (prog [SAssign 11 3 (C 1); SExpr 12 (ECall 2 ANil); SAssign 13 3 (C 2)]) SNil;
  SReturn 14 (Some (N 3))] |}.
Theorem C71_try_refuted : differs value ex_try 1 /\ each_of (dce_cond (glob _ eL) False) (f_body ex_try).
Proof. split; [differ | cbn; intuition discriminate]. Qed.

(* try { return throws(); } catch { return 3; }  loses the body of the catch: the graph has no way to it *)
Definition ex_catch : func := {| f_params := []; f_body := prog [
  STry (prog [SReturn 10 (Some (ECall 2 ANil))]) (prog [SReturn 11 (Some (C 3))])] |}.
Theorem C71_catch_refuted : differs value ex_catch 1 /\ each_of (dce_cond (glob _ eL) False) (f_body ex_catch).
Proof. split; [differ | cbn; intuition discriminate]. Qed.

(* g = 1; reads_g(); g = 2;  loses g = 1 *)
Definition ex_global : func := {| f_params := []; f_body := prog [
  SAssign 10 100 (C 1); SExpr 11 (ECall 1 ANil); SAssign 12 100 (C 2)] |}.
Theorem C71_global_refuted : differs world ex_global 1 /\ each_of no_jump (f_body ex_global).
Proof. split; [differ | cbn; tauto]. Qed.

(* An exception: x = 5; throws(); x = 2;  leaves another value in the inout parameter x *)
Definition outs_of {W} (r : seen W) : list Z := match r with Returns _ o _ _ | Throws _ o _ _ => o | Diverges => [] end.
Definition ex_inout : func := {| f_params := [(1, false); (2, true)]; f_body := prog [
  SAssign 10 2 (C 5); SExpr 11 (ECall 2 ANil); SAssign 12 2 (C 2)] |}.
Theorem C71_inout_refuted : differs outs_of ex_inout 1 /\ each_of no_jump (f_body ex_inout) /\
  each_of (dce_cond (glob _ eL) False) (f_body ex_inout).
Proof. split; [differ | split; [cbn; tauto | cbn; intuition discriminate]]. Qed.

(* 10 / p;  is removed although it fails for p = 0 *)
Definition thrown {W} (r : seen W) : option exc := match r with Throws x _ _ _ => Some x | _ => None end.
Definition ex_fail : func := {| f_params := [(1, false)]; f_body := prog [SExpr 10 (EBin 1 (C 10) (N 1))] |}.
Theorem C71_failure_refuted : differs thrown ex_fail 0 /\ each_of no_jump (f_body ex_fail) /\
  each_of (dce_cond (glob _ eL) False) (f_body ex_fail) /\ thrown (run _ eL 10 ex_fail (fun _ => 0%Z) (fun _ => 0%Z) []) = Some XOp.
Proof. split; [differ | split; [cbn; tauto | split; [cbn; tauto | vm_compute; reflexivity]]]. Qed.

(* local x = 1; local y = 1; local i = 0; while ( i < 2 ) { x = 10 / (x + y); y = -1; i = i + 1; }
   does not fail, but does when x = ... has become the expression 10 / (x + y) with x still 1 *)
Definition ex_self : func := {| f_params := []; f_body := prog [
  SDecl 10 3 (Some (C 1)); SDecl 11 4 (Some (C 1)); SDecl 12 5 (Some (C 0));
  SWhile None 13 (EBin 2 (N 5) (C 2)) (prog [
    SAssign 14 3 (EBin 1 (C 10) (EBin 0 (N 3) (N 4))); SAssign 15 4 (C (-1)); SAssign 16 5 (EBin 0 (N 5) (C 1))]) false SNil] |}.
Theorem C71_self_refuted : differs thrown ex_self 0 /\ each_of no_jump (f_body ex_self) /\
  each_of (dce_cond (glob _ eL) True) (f_body ex_self) /\ thrown (run _ eL 10 ex_self (fun _ => 0%Z) (fun _ => 0%Z) []) = None.
Proof. split; [differ | split; [cbn; tauto | split; [cbn; tauto | vm_compute; reflexivity]]]. Qed.

(* local x = 0; p && (x += 1); return x;  loses the update *)
Definition ex_logical : func := {| f_params := [(1, false)]; f_body := prog [
  SDecl 10 3 (Some (C 0)); SExpr 11 (EAnd (N 1) (EUpd 0 3 (C 1))); SReturn 12 (Some (N 3))] |}.
Theorem C71_logical_refuted : differs value ex_logical 1 /\ each_of no_jump (f_body ex_logical).
Proof. split; [differ | cbn; tauto]. Qed.

(* local x = 1; local y = 1; local i = 0; while ( i < 2 ) { x = (y += x); i = i + 1; } return y;
   returns 3 instead of 4 *)
Definition ex_hidden : func := {| f_params := []; f_body := prog [
  SDecl 10 3 (Some (C 1)); SDecl 11 4 (Some (C 1)); SDecl 12 5 (Some (C 0));
  SWhile None 13 (EBin 2 (N 5) (C 2)) (prog [SAssign 14 3 (EUpd 0 4 (N 3)); SAssign 15 5 (EBin 0 (N 5) (C 1))]) false SNil;
  SReturn 16 (Some (N 4))] |}.
Theorem C71_hidden_update_refuted : differs value ex_hidden 0 /\ each_of no_jump (f_body ex_hidden).
Proof. split; [differ | cbn; tauto]. Qed.
