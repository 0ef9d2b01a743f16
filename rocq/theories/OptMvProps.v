(* Moving the last uses of local variables: move-last-uses of the HILTI optimizer. *)
From Coq Require Import List Arith Bool ZArith Lia.
From Verif Require Import OptModel OptModel2 OptSpec OptSpec2 OptMvModel OptMvSpec OptProofs1 OptProofs2 OptProofs3 OptProofs4 OptProofs6 OptProofs8 OptProofs9 OptMvProofs OptMvProofs2 OptMvProofs3 OptMvProofs4 OptProps OptVpProps.
Import ListNotations.

(* ---- the analysis ---- *)

(* It ends, for every function. *)
Theorem C77_liveness_ends f : exists bound, forall fuel, bound <= fuel -> lsolve f fuel <> None.
Proof. eexists. apply lsolve_ends. Qed.

(* What it says about a node that is reached from the start: exactly the variables whose values are needed behind it. *)
Theorem C77_liveness_exact f fuel r : lsolve f fuel = Some r -> forall n, leads (build f) NStart n ->
  exists out, l_out r n = Some out /\ forall x, In x out <-> needed_after (build f) (transfer_of f) x n.
Proof. apply lsolve_exact. Qed.

(* ---- the moves ---- *)

(* The names that become moves: a local variable that occurs once in the expression and is not needed afterwards; what is
   returned is left alone. *)
Theorem C77_moves_last_uses G f fuel r : well_formed G f -> each_of mv_cond (f_body f) -> NoDup (uses_stmts (f_body f)) ->
  lsolve f fuel = Some r ->
  forall n e b l x, leads (build f) NStart n -> In (n, e, b) (ex_stmts (f_body f)) -> In (l, x) (occ e) ->
  (In l (moveable f r) <->
   b = true /\ In x (decls (f_body f)) /\ count_occ Nat.eq_dec (names e) x = 1 /\ ~ needed_after (build f) (transfer_of f) x n).
Proof.
  intros HW HA HN HS n e b l x Hr Hx Ho. split.
  - intros Hm. eapply moved_facts; eauto.
  - intros (-> & H1 & H2 & H3). eapply moved_exactly; eauto.
    destruct HW as (_ & _ & N). clear -N. induction (f_params f); simpl in N; auto. inversion N; auto.
Qed.

(* The function with the moves does exactly what it did before, whatever the moves leave in the variables. *)
Theorem C77_moves W (L : lang W) f fuel r left :
  (forall l, moved W L l = false) -> well_formed (glob W L) f -> each_of no_jump (f_body f) -> each_of mv_cond (f_body f) ->
  NoDup (uses_stmts (f_body f)) -> lsolve f fuel = Some r ->
  forall n args g w, run W (with_moves L (moveable f r) left) n f args g w = run W L n f args g w.
Proof. intros. eapply moves_run; eauto. Qed.

(* ---- concrete cases ---- *)

Definition mv_facts (f : func) : lres := match lsolve f 1000 with Some r => r | None => l0 end.
Definition mv (f : func) : lang (list Z) := with_moves vL (moveable f (mv_facts f)) (fun _ => 99%Z).

(* function f(p, inout q) {
     local a = 1;  local b = p;  local i = 0;  local c = 0;
     while ( i < p ) { c = a + i;  q = c;  i = i + a;  if ( q ) { g(i); } }
     q = b + b;  h(a, inout b);  return b;
   }
   moves c in q = c and a in the last call; not i, b + b or the return. *)
Definition mv_f : func := {|
  f_params := [(1, false); (2, true)];
  f_body := prog [
    SDecl 10 3 (Some (EConst 30 1)); SDecl 11 4 (Some (EName 31 1)); SDecl 12 6 (Some (EConst 33 0)); SDecl 13 5 (Some (EConst 32 0));
    SWhile None 14 (EBin 2 (EName 34 6) (EName 35 1)) (prog [
      SAssign 15 5 (EBin 0 (EName 36 3) (EName 37 6)); SAssign 16 2 (EName 38 5); SAssign 17 6 (EBin 0 (EName 39 6) (EName 40 3));
      SIf None 18 (EName 41 2) (prog [SExpr 19 (ECall 0 (AIn (EName 42 6) ANil))]) false SNil]) false SNil;
    SAssign 20 2 (EBin 0 (EName 43 4) (EName 44 4)); SExpr 21 (ECall 0 (AIn (EName 45 3) (AInOut 4 ANil)));
    SReturn 22 (Some (EName 46 4))] |}.
Example C77_example_result : moveable mv_f (mv_facts mv_f) = [38; 45].
Proof. vm_compute. reflexivity. Qed.
Lemma mv_solved : lsolve mv_f 1000 = Some (mv_facts mv_f).
Proof.
  unfold mv_facts. assert (H : (if lsolve mv_f 1000 then true else false) = true) by (vm_compute; reflexivity).
  destruct (lsolve mv_f 1000); [reflexivity | discriminate].
Qed.
Example C77_example_meets :
  (forall l, moved _ vL l = false) /\ well_formed (glob _ vL) mv_f /\ each_of no_jump (f_body mv_f) /\ each_of mv_cond (f_body mv_f) /\
  NoDup (uses_stmts (f_body mv_f)).
Proof.
  split; [reflexivity | split; [wf | split; [cbn; tauto | split]]].
  - cbn. unfold alone. cbn. intuition (subst; auto).
  - cbn. nodup.
Qed.
Example C77_example_runs :
  run _ (mv mv_f) 10 mv_f (fun _ => 3%Z) (fun _ => 0%Z) [] = run _ vL 10 mv_f (fun _ => 3%Z) (fun _ => 0%Z) [] /\
  value (run _ vL 10 mv_f (fun _ => 3%Z) (fun _ => 0%Z) []) = Some 7%Z.
Proof.
  split; [|vm_compute; reflexivity]. destruct C77_example_meets as (H1 & H2 & H3 & H4 & H5).
  eapply C77_moves; eauto using mv_solved.
Qed.

(* ---- the conditions of C77 are needed ---- *)

Definition mdiffers {A} (see : seen (list Z) -> A) (f : func) (x : Z) : Prop :=
  well_formed (glob _ vL) f /\ NoDup (uses_stmts (f_body f)) /\ lsolve f 1000 <> None /\
  see (run _ vL 10 f (fun _ => x) (fun _ => 0%Z) []) <> see (run _ (mv f) 10 f (fun _ => x) (fun _ => 0%Z) []).
Ltac mdiffer := split; [wf | split; [cbn; nodup | split; vm_compute; discriminate]].

(* local x = 0; while ( 1 ) { if ( p ) { f(x); break; } x = 1; } return x;  moves x in f(x): in the graph the break goes on to x = 1 *)
Definition mx_break : func := {| f_params := [(1, false)]; f_body := prog [
  SDecl 10 3 (Some (EConst 30 0));
  SWhile None 11 (EConst 31 1) (prog [
    SIf None 12 (EName 32 1) (prog [SExpr 13 (ECall 0 (AIn (EName 33 3) ANil)); SBreak]) false SNil;
    SAssign 14 3 (EConst 34 1)]) false SNil;
  SReturn 15 (Some (EName 35 3))] |}.
Theorem C77_break_refuted : mdiffers value mx_break 1 /\ each_of mv_cond (f_body mx_break) /\ ~ each_of no_jump (f_body mx_break).
Proof. split; [mdiffer | cbn; unfold alone; cbn; intuition (subst; auto)]. Qed.

(* local x = 0; try { throws(x); x = 1; } catch { } return x;  moves x in throws(x) *)
Definition mx_try : func := {| f_params := []; f_body := prog [
  SDecl 10 3 (Some (EConst 30 0));
  STry (prog [SExpr 11 (ECall 2 (AIn (EName 31 3) ANil)); SAssign 12 3 (EConst 32 1)]) SNil;
  SReturn 13 (Some (EName 33 3))] |}.
Theorem C77_try_refuted : mdiffers value mx_try 1 /\ each_of mv_cond (f_body mx_try) /\ ~ each_of no_jump (f_body mx_try).
Proof. split; [mdiffer | cbn; unfold alone; cbn; intuition (subst; auto)]. Qed.

(* local x = 5; f(x, inout x);  moves x for the first argument *)
Definition mx_inout : func := {| f_params := []; f_body := prog [
  SDecl 10 3 (Some (EConst 30 5)); SExpr 11 (ECall 0 (AIn (EName 31 3) (AInOut 3 ANil)))] |}.
Theorem C77_inout_refuted : mdiffers world mx_inout 1 /\ each_of no_jump (f_body mx_inout) /\ ~ each_of mv_cond (f_body mx_inout).
Proof.
  split; [mdiffer | split; [cbn; tauto|]]. cbn. unfold alone. cbn. intros (_ & (H & _) & _). specialize (H 3 (or_introl eq_refl)). discriminate.
Qed.
