(* Value propagation of the HILTI optimizer. *)
From Coq Require Import List Arith Bool ZArith Lia.
From Verif Require Import OptModel OptModel2 OptSpec OptSpec2 OptProofs1 OptProofs2 OptProofs3 OptProofs4 OptProofs6 OptProofs8 OptProofs9 OptProofs12 OptProps.
Import ListNotations.

(* ---- the order in which the analysis starts ---- *)

Theorem C72_postorder f : NoDup (postorder (build f)) /\ (forall n, In n (postorder (build f)) <-> leads (build f) NStart n).
Proof.
  destruct (postorder_ok (build f) (build_closed f) (start_node f)) as (H1 & H2 & _). auto.
Qed.

(* ---- the pass ---- *)

(* The function after the pass does exactly what it did before, whatever the bounds with which the analysis finished. *)
Theorem C72_value_propagation W (L : lang W) f d k fuel r :
  (forall l, moved W L l = false) -> flow_result f d -> well_formed (glob W L) f -> each_of no_jump (f_body f) ->
  each_of (vp_cond (glob W L)) (f_body f) -> ret_ok f ->
  vsolve f d k fuel (rpo (build f)) = Some r ->
  forall n args g w, run W L n (vprop f d r) args g w = run W L n f args g w.
Proof. intros. eapply vprop_run; eauto. Qed.

(* ---- concrete cases ---- *)

(* Function 3 sets global 100 to 9. *)
Definition vL : lang (list Z) := {|
  op1 := op1 _ eL; op2 := op2 _ eL;
  call := fun f vs g w => if f =? 3 then {| cr_exc := None; cr_val := 0%Z; cr_outs := []; cr_glb := fun x => if x =? 100 then 9%Z else g x;
                                            cr_wld := 3%Z :: w |}
                          else call _ eL f vs g w;
  dflt := dflt _ eL; glob := glob _ eL; moved := moved _ eL; poison := poison _ eL |}.
Definition vfacts (f : func) : vres :=
  match vsolve f (facts_of f) 100 1000 (rpo (build f)) with Some r => r | None => v0 f end.
Definition vafter (f : func) : func := vprop f (facts_of f) (vfacts f).

(* function f(p, inout q) {
     local a = 1;  local b = p;  local c = b;  local i = 0;  local t = 0;
     while ( i < p ) { q = a + c;  i = i + a;  if ( q ) { c = b; } }
     g(inout a);  q = a + c;  t = q + b;  return t;
   }
   where a is 1 in the loop and not after the call, and b, c are p. *)
Definition vx_f : func := {|
  f_params := [(1, false); (2, true)];
  f_body := prog [
    SDecl 10 3 (Some (EConst 30 1)); SDecl 11 4 (Some (EName 31 1)); SDecl 12 5 (Some (EName 32 4)); SDecl 13 6 (Some (EConst 33 0));
    SDecl 24 7 (Some (EConst 51 0));
    SWhile None 14 (EBin 2 (EName 34 6) (EName 35 1)) (prog [
      SAssign 15 2 (EBin 0 (EName 36 3) (EName 37 5)); SAssign 16 6 (EBin 0 (EName 38 6) (EName 39 3));
      SIf None 17 (EName 40 2) (prog [SAssign 18 5 (EName 41 4)]) false SNil]) false SNil;
    SExpr 19 (ECall 0 (AInOut 3 ANil)); SAssign 20 2 (EBin 0 (EName 42 3) (EName 43 5));
    SAssign 21 7 (EBin 0 (EName 44 2) (EName 45 4)); SReturn 22 (Some (EName 46 7))] |}.
Example C72_example_result :
  f_body (vafter vx_f) = prog [
    SDecl 10 3 (Some (EConst 30 1)); SDecl 11 4 (Some (EName 31 1)); SDecl 12 5 (Some (EName 31 1)); SDecl 13 6 (Some (EConst 33 0));
    SDecl 24 7 (Some (EConst 51 0));
    SWhile None 14 (EBin 2 (EName 34 6) (EName 35 1)) (prog [
      SAssign 15 2 (EBin 0 (EConst 30 1) (EName 31 1)); SAssign 16 6 (EBin 0 (EName 38 6) (EConst 30 1));
      SIf None 17 (EName 40 2) (prog [SAssign 18 5 (EName 31 1)]) false SNil]) false SNil;
    SExpr 19 (ECall 0 (AInOut 3 ANil)); SAssign 20 2 (EBin 0 (EName 42 3) (EName 31 1));
    SReturn 22 (Some (EBin 0 (EName 44 2) (EName 31 1)))].
Proof. vm_compute. reflexivity. Qed.
Lemma vx_solved : vsolve vx_f (facts_of vx_f) 100 1000 (rpo (build vx_f)) = Some (vfacts vx_f).
Proof.
  unfold vfacts. assert (H : (if vsolve vx_f (facts_of vx_f) 100 1000 (rpo (build vx_f)) then true else false) = true) by (vm_compute; reflexivity).
  destruct (vsolve _ _ _ _ _); [reflexivity | discriminate].
Qed.
Example C72_example_meets :
  well_formed (glob _ vL) vx_f /\ each_of no_jump (f_body vx_f) /\ each_of (vp_cond (glob _ vL)) (f_body vx_f) /\
  ret_ok vx_f /\ flow_result vx_f (facts_of vx_f).
Proof.
  split; [wf | split; [cbn; tauto | split; [cbn; intuition (auto; discriminate) | split]]].
  - cbn. intuition discriminate.
  - exists 100, (g_nodes (build vx_f)). split; [tauto | vm_compute; reflexivity].
Qed.
Example C72_example_runs :
  run _ vL 10 vx_f (fun _ => 3%Z) (fun _ => 0%Z) [] = run _ vL 10 (vafter vx_f) (fun _ => 3%Z) (fun _ => 0%Z) [] /\
  value (run _ vL 10 vx_f (fun _ => 3%Z) (fun _ => 0%Z) []) = Some 13%Z.
Proof.
  split; [|vm_compute; reflexivity]. symmetry. destruct C72_example_meets as (H1 & H2 & H3 & H4 & H5).
  eapply C72_value_propagation; eauto using vx_solved.
Qed.

(* ---- the conditions of C72 are needed ---- *)

Definition vdiffers {A} (see : seen (list Z) -> A) (f : func) (x : Z) : Prop :=
  flow_result f (facts_of f) /\ well_formed (glob _ vL) f /\
  vsolve f (facts_of f) 100 1000 (rpo (build f)) <> None /\
  see (run _ vL 10 f (fun _ => x) (fun _ => 0%Z) []) <> see (run _ vL 10 (vafter f) (fun _ => x) (fun _ => 0%Z) []).
Ltac vdiffer := lazymatch goal with |- vdiffers _ ?f _ =>
  split; [exists 100, (g_nodes (build f)); split; [tauto | vm_compute; reflexivity]
         | split; [wf | split; vm_compute; discriminate]] end.

(* local x; if ( p ) { x = 5; } return x;  returns 5 for any p *)
Definition vx_uninit : func := {| f_params := [(1, false)]; f_body := prog [
  SDecl 10 3 None; SIf None 11 (N 1) (prog [SAssign 12 3 (C 5)]) false SNil; SReturn 13 (Some (N 3))] |}.
Theorem C72_uninitialized_refuted : vdiffers value vx_uninit 0 /\ each_of no_jump (f_body vx_uninit) /\ ret_ok vx_uninit.
Proof. split; [vdiffer | cbn; tauto]. Qed.

(* g = 1; sets_g(); return g;  returns 1 instead of 9 *)
Definition vx_global : func := {| f_params := []; f_body := prog [
  SAssign 10 100 (C 1); SExpr 11 (ECall 3 ANil); SReturn 12 (Some (N 100))] |}.
Theorem C72_global_refuted : vdiffers value vx_global 0 /\ each_of no_jump (f_body vx_global) /\ ret_ok vx_global.
Proof. split; [vdiffer | cbn; tauto]. Qed.

(* local x = g; sets_g(); return x;  returns the new value of g *)
Definition vx_copy : func := {| f_params := []; f_body := prog [
  SDecl 10 3 (Some (N 100)); SExpr 11 (ECall 3 ANil); SReturn 12 (Some (N 3))] |}.
Theorem C72_global_copy_refuted : vdiffers value vx_copy 0 /\ each_of no_jump (f_body vx_copy) /\ ret_ok vx_copy.
Proof. split; [vdiffer | cbn; tauto]. Qed.

(* local x = 1; local y = 0; y = f(inout x); return x;  becomes return f(inout x): 0 instead of 7 *)
Definition vx_ret : func := {| f_params := []; f_body := prog [
  SDecl 10 3 (Some (C 1)); SDecl 11 4 (Some (C 0)); SAssign 12 4 (ECall 0 (AInOut 3 ANil)); SReturn 13 (Some (N 3))] |}.
Theorem C72_return_refuted : vdiffers value vx_ret 0 /\ each_of no_jump (f_body vx_ret) /\
  each_of (vp_cond (glob _ vL)) (f_body vx_ret).
Proof. split; [vdiffer | split; [cbn; tauto | cbn; intuition discriminate]]. Qed.

(* x = p + 0; x = p + 1; return x;  with x an inout parameter becomes x = p + 0; return p + 1 *)
Definition vx_inout : func := {| f_params := [(1, false); (2, true)]; f_body := prog [
  SAssign 10 2 (EBin 0 (N 1) (C 0)); SAssign 11 2 (EBin 0 (N 1) (C 1)); SReturn 12 (Some (N 2))] |}.
Theorem C72_return_inout_refuted : vdiffers outs_of vx_inout 0 /\ each_of no_jump (f_body vx_inout) /\
  each_of (vp_cond (glob _ vL)) (f_body vx_inout).
Proof. split; [vdiffer | split; [cbn; tauto | cbn; intuition discriminate]]. Qed.

(* local x = 3; while ( 1 ) { if ( p ) { x = 1; break; } return 7; } return x;  returns 3 instead of 1 *)
Definition vx_break : func := {| f_params := [(1, false)]; f_body := prog [
  SDecl 10 3 (Some (C 3));
  SWhile None 11 (C 1) (prog [SIf None 12 (N 1) (prog [SAssign 13 3 (C 1); SBreak]) false SNil; SReturn 14 (Some (C 7))]) false SNil;
  SReturn 15 (Some (N 3))] |}.
Theorem C72_break_refuted : vdiffers value vx_break 1 /\ each_of (vp_cond (glob _ vL)) (f_body vx_break) /\ ret_ok vx_break.
Proof. split; [vdiffer | cbn; intuition discriminate]. Qed.

(* local x = 0; try { x = 1; throws(); x = 2; } catch { } return x;  returns 2 instead of 1 *)
Theorem C72_try_refuted : vdiffers value ex_try 1 /\ each_of (vp_cond (glob _ vL)) (f_body ex_try) /\ ret_ok ex_try.
Proof. split; [vdiffer | cbn; intuition discriminate]. Qed.

(* The analysis does not end for every function: after x = x the value of x is found to be x. *)
Definition vx_loop : func := {| f_params := [(1, false)]; f_body := prog [
  SAssign 10 1 (N 1); SDecl 11 2 (Some (N 1)); SReturn 12 (Some (N 2))] |}.
Lemma vloop_S f d k fuel n wl r : vloop f d k (S fuel) (n :: wl) r =
  match vstep f d k n (meet (map (v_out r) (upstream (build f) n))) with
  | None => None
  | Some new_out =>
      let r1 := {| v_in := setn (v_in r) n (Some (meet (map (v_out r) (upstream (build f) n)))); v_out := v_out r |} in
      if pmap_eqb (v_out r n) new_out then vloop f d k fuel wl r1
      else vloop f d k fuel (fold_left push (downstream (build f) n) wl) {| v_in := v_in r1; v_out := setn (v_out r1) n new_out |}
  end.
Proof. reflexivity. Qed.
Lemma self_value k m l x : look m x = Some {| rv_expr := RName l x; rv_prop := true |} -> forall l', resolve_r k m (RName l' x) = None.
Proof. intros H. induction k; intros l'; simpl; rewrite H; simpl; auto. Qed.
Theorem C72_terminates_refuted :
  well_formed (glob _ vL) vx_loop /\ each_of no_jump (f_body vx_loop) /\ each_of (vp_cond (glob _ vL)) (f_body vx_loop) /\
  ret_ok vx_loop /\ flow_result vx_loop (facts_of vx_loop) /\
  forall k fuel, vsolve vx_loop (facts_of vx_loop) k fuel (rpo (build vx_loop)) = None.
Proof.
  split; [wf | split; [cbn; tauto | split; [cbn; intuition discriminate | split; [cbn; tauto | split]]]].
  - exists 100, (g_nodes (build vx_loop)). split; [tauto | vm_compute; reflexivity].
  - intros k fuel. unfold vsolve. replace (rpo (build vx_loop)) with [NDecl 1; NStmt 10; NDecl 2; NStmt 12; NEnd 0 [2]] by (vm_compute; reflexivity).
    destruct fuel as [|fuel]; [reflexivity|]. rewrite vloop_S.
    replace (upstream (build vx_loop) (NDecl 1)) with [NStart] by (vm_compute; reflexivity).
    replace (downstream (build vx_loop) (NDecl 1)) with [NStmt 10] by (vm_compute; reflexivity).
    cbn -[vloop facts_of build].
    destruct fuel as [|fuel]; [reflexivity|]. rewrite vloop_S.
    replace (upstream (build vx_loop) (NStmt 10)) with [NDecl 1] by (vm_compute; reflexivity).
    replace (downstream (build vx_loop) (NStmt 10)) with [NDecl 2] by (vm_compute; reflexivity).
    assert (H : forall m, look m 1 = Some rv_no -> resolve_r k (inval 1 m) (RName 0 1) = Some (RName 0 1)).
    { intros m Hm. destruct k; simpl; rewrite look_inval, Hm; reflexivity. }
    cbn -[vloop facts_of build resolve_r inval]. unfold resolve. cbn -[vloop facts_of build resolve_r inval]. rewrite H by reflexivity.
    cbn -[vloop facts_of build].
    destruct fuel as [|fuel]; [reflexivity|]. rewrite vloop_S.
    replace (upstream (build vx_loop) (NDecl 2)) with [NStmt 10] by (vm_compute; reflexivity).
    cbn -[vloop facts_of build resolve_r]. unfold resolve. cbn -[vloop facts_of build resolve_r]. now rewrite (self_value k _ 0 1) by reflexivity.
Qed.

(* local y = 0; if ( local t = g(); p ) { y = t; } else { return 0; } return y;
   ends up as return t, outside of the scope of t *)
Definition vx_scope : func := {| f_params := [(1, false)]; f_body := prog [
  SDecl 10 3 (Some (C 0));
  SIf (Some (4, ECall 1 ANil)) 11 (N 1) (prog [SAssign 12 3 (N 4)]) true (prog [SReturn 13 (Some (C 0))]);
  SReturn 14 (Some (N 3))] |}.
Theorem C72_scope_refuted :
  well_formed (glob _ vL) vx_scope /\ each_of no_jump (f_body vx_scope) /\ each_of (vp_cond (glob _ vL)) (f_body vx_scope) /\
  ret_ok vx_scope /\ flow_result vx_scope (facts_of vx_scope) /\
  vsolve vx_scope (facts_of vx_scope) 100 1000 (rpo (build vx_scope)) <> None /\
  ~ scoped_of (glob _ vL) [1] (f_body (vafter vx_scope)).
Proof.
  split; [wf | split; [cbn; tauto | split; [cbn; intuition discriminate | split; [cbn; tauto | split; [|split]]]]].
  - exists 100, (g_nodes (build vx_scope)). split; [tauto | vm_compute; reflexivity].
  - vm_compute. discriminate.
  - assert (H : f_body (vafter vx_scope) = prog [SDecl 10 3 (Some (C 0));
      SIf (Some (4, ECall 1 ANil)) 11 (N 1) (prog [SAssign 12 3 (N 4)]) true (prog [SReturn 13 (Some (C 0))]);
      SReturn 14 (Some (N 4))]) by (vm_compute; reflexivity).
    rewrite H. cbn. unfold visible. cbn. intros (_ & _ & Hr & _). destruct (Hr 4 (or_introl eq_refl)) as [X | X]; [discriminate | intuition discriminate].
Qed.
