(** C44 (resumable life cycle) and C46 (nesting). *)
From Verif Require Import Base FiberPoolModel FiberModel FiberSpec FiberProofs.

(** What a resumable shows to its owner in each phase of its life. *)
Definition shows (s : option astatus) : option (bool * option Z) :=
  match s with
  | None => None
  | Some (ADone v) => Some (true, Some v)
  | Some AFailed | Some AAborted => Some (true, None)
  | Some _ => Some (false, None)
  end.
Definition observed (c : cstate) (r : nat) : option (bool * option Z) :=
  match c_res c r with None => None | Some x => Some (r_done x, if r_done x then r_result x else None) end.

(** C44: whatever programs do, as long as they respect the contract, resumables on pooled fibers behave as plain coroutines:
    after any number of steps the same code is about to be executed (in particular all continuations received the same
    values and exceptions: results exactly when bodies finish, exceptions at the run/resume call, rejections of resume after
    completion) and every resumable shows its owner the right status and result; nothing undefined happens. This holds for
    every size of the fiber cache. *)
Theorem C44_coroutines csz p n a : asteps n (ainit p) = Ok a ->
  exists c, csteps csz n (cinit p) = Ok c /\ c_code c = a_code a /\ forall r, observed c r = shows (a_res a r).
Proof.
  intros H. destruct (steps_sim csz n _ _ _ _ (init_rel csz p) H) as (c & fs & E & R). exists c. split; [exact E|]. split; [apply (rl_code _ _ _ _ R)|].
  intros r. pose proof (rl_res _ _ _ _ R r) as HH. unfold observed. destruct (a_res a r) as [[q|cl q| |v| | ]|]; cbn [rrel shows] in *.
  - destruct HH as (f & fb & -> & _). reflexivity.
  - destruct HH as (f & fb & -> & _). reflexivity.
  - destruct HH as (x & -> & Ed). rewrite Ed. reflexivity.
  - rewrite HH. reflexivity.
  - rewrite HH. reflexivity.
  - destruct HH as (f & fb & -> & _). reflexivity.
  - rewrite HH. reflexivity.
Qed.

(** C44: a resumable completes once: what it shows then stays until it is destroyed. *)
Theorem C44_result_once csz p n m a a' r v : asteps n (ainit p) = Ok a -> asteps m a = Ok a' ->
  a_res a r = Some (ADone v) ->
  (forall i ai, i <= m -> asteps i a = Ok ai -> a_res ai r <> None) ->
  exists c', csteps csz (n + m) (cinit p) = Ok c' /\ observed c' r = Some (true, Some v).
Proof.
  intros Hn Hm Hr Hd.
  assert (HA : asteps (n + m) (ainit p) = Ok a').
  { revert Hn. generalize (ainit p) as a0. clear - Hm. induction n as [|n IH]; intros a0; cbn [asteps Nat.add].
    - intros [= ->]. exact Hm.
    - destruct (astep a0); cbn [bind]; try discriminate. apply IH. }
  destruct (C44_coroutines csz p (n + m) a' HA) as (c & E1 & _ & E3). exists c. split; [exact E1|]. rewrite E3.
  assert (X : a_res a' r = Some (ADone v)); [|rewrite X; reflexivity].
  destruct (steps_sim csz n _ _ _ _ (init_rel csz p) Hn) as (c0 & fs0 & _ & R0). clear Hn HA c E1 E3.
  revert a c0 fs0 R0 Hm Hr Hd. induction m as [|m IH]; intros a c0 fs0 R0; cbn [asteps].
  - intros [= ->] Hr _. exact Hr.
  - destruct (astep a) as [a1| |] eqn:E1; cbn [bind]; try discriminate. intros Hm Hr Hd.
    destruct (step_sim csz _ _ _ _ R0 E1) as (c1 & fs1 & _ & R1 & _).
    apply (IH a1 c1 fs1 R1 Hm).
    + assert (ND : a_res a1 r <> None) by (apply (Hd 1 a1); [lia|cbn [asteps]; rewrite E1; reflexivity]).
      assert (NS : ~ In r (map fr_res (a_stack a))) by (intros HI; apply (rl_act _ _ _ _ R0) in HI; congruence).
      assert (NT : r <> a_n a). { intros ->. pose proof (rl_res _ _ _ _ R0 (a_n a)) as HH. rewrite Hr in HH. cbn [rrel] in HH.
        assert (a_n a < c_nres c0) by (apply (rl_rb _ _ _ _ R0); congruence). rewrite (rl_n _ _ _ _ R0) in H. lia. }
      revert E1 ND. unfold astep. destruct (a_code a) as [w|e|cl k|body k|q k|q k|q k|q k|q k].
      * destruct (a_stack a) as [|fr st]; [intros [= <-]; auto|]. cbn [map] in NS.
        assert (r <> fr_res fr) by (intros ->; apply NS; left; reflexivity).
        destruct (fr_kind fr); intros [= <-]; cbn [a_res]; rewrite fup_other; auto.
      * destruct (a_stack a) as [|fr st]; [intros [= <-]; auto|]. cbn [map] in NS.
        assert (r <> fr_res fr) by (intros ->; apply NS; left; reflexivity).
        destruct (fr_kind fr); intros [= <-]; cbn [a_res]; rewrite fup_other; auto.
      * destruct (a_stack a) as [|fr st]; [intros [= <-]; auto|]. cbn [map] in NS.
        assert (r <> fr_res fr) by (intros ->; apply NS; left; reflexivity).
        destruct (fr_kind fr); try discriminate; intros [= <-]; cbn [a_res]; rewrite fup_other; auto.
      * intros [= <-]. cbn [a_res]. rewrite fup_other; auto.
      * destruct (a_res a q) as [[ | | | | | ]|] eqn:EQ; try discriminate; intros [= <-]; cbn [acall agoto a_res]; auto; rewrite fup_other; auto; congruence.
      * destruct (a_res a q) as [[ | | | | | ]|] eqn:EQ; try discriminate; intros [= <-]; cbn [acall agoto a_res]; auto; rewrite fup_other; auto; congruence.
      * destruct (a_res a q) as [[ | | | | | ]|] eqn:EQ; try discriminate; intros [= <-]; cbn [acall agoto a_res]; auto; rewrite fup_other; auto; congruence.
      * destruct (Nat.eq_dec r q) as [<-|N].
        -- rewrite Hr. intros [= <-]. cbn [a_res]. rewrite fup_same. congruence.
        -- destruct (a_res a q) as [[ | | | | | ]|]; try discriminate; intros [= <-]; cbn [acall agoto a_res]; rewrite fup_other; auto.
      * destruct (a_res a q) as [[ | | | | | ]|]; try discriminate; intros [= <-]; auto.
    + intros i ai Hi EI. apply (Hd (S i) ai ltac:(lia)). cbn [asteps]. rewrite E1. exact EI.
Qed.

(** C44 does not cover aborted resumables: after abort() the resumable says it has completed, but resume() is not rejected; it
    runs a fiber that has nothing to run. *)
Definition abort_then_resume : prog :=
  PNew (PYield (PRet 0) (PRet 1)) (fun r => PRun r (fun _ => PAbort r (PObs r (fun d _ => if d then PResume r (fun _ => PRet 0) else PRet 1)))).
Theorem C44_resume_after_abort_refuted :
  (exists c, csteps 200 6 (cinit abort_then_resume) = Ok c /\ observed c 0 = Some (true, None) /\
     c_code c = PResume 0 (fun _ => PRet 0)) /\ csteps 200 7 (cinit abort_then_resume) = UB.
Proof.
  split; [|vm_compute; reflexivity].
  destruct (csteps 200 6 (cinit abort_then_resume)) as [c| |] eqn:E; vm_compute in E; try discriminate E.
  injection E as <-. eexists. split; [reflexivity|]. split; reflexivity.
Qed.

(** C46: when a call (run, resume, abort, or a destructor, with whatever calls inside) has returned or thrown, i.e. when for
    the first time no more calls are in progress than before it, the same fiber executes and the context's active resumable is
    what it was before. *)
Theorem C46_context_restored csz p n m a a' : asteps n (ainit p) = Ok a -> asteps (S m) a = Ok a' ->
  (forall i ai, 0 < i < S m -> asteps i a = Ok ai -> length (a_stack a) < length (a_stack ai)) ->
  length (a_stack a') = length (a_stack a) ->
  exists c c', csteps csz n (cinit p) = Ok c /\ csteps csz (S m) c = Ok c' /\
    c_ctx c' = c_ctx c /\ c_cur c' = c_cur c /\ a_stack a' = a_stack a.
Proof.
  intros Hn Hm HD HL. destruct (steps_sim csz n _ _ _ _ (init_rel csz p) Hn) as (c & fs & E & R). exists c.
  cbn [asteps] in Hm. destruct (astep a) as [a1| |] eqn:E1; cbn [bind] in Hm; try discriminate.
  destruct (step_sim csz _ _ _ _ R E1) as (c1 & fs1 & E2 & R1 & MV).
  pose proof (chain_len _ _ _ (rl_chain _ _ _ _ R)) as LF.
  assert (PRE : exists pre prs, fs1 = pre ++ fs /\ a_stack a1 = prs ++ a_stack a).
  { destruct MV as [(-> & ->)|[(f & fr & -> & ->)|(f & fr & EQ1 & EQ2)]].
    - exists [], []. auto.
    - exists [f], [fr]. auto.
    - exfalso. destruct m as [|m].
      + cbn [asteps] in Hm. injection Hm as ->. rewrite EQ2 in HL. cbn [length] in HL. lia.
      + specialize (HD 1 a1 ltac:(lia)). cbn [asteps] in HD. rewrite E1 in HD. specialize (HD eq_refl). rewrite EQ2 in HD. cbn [length] in HD. lia. }
  destruct (steps_above csz m c1 a1 fs1 a' fs (a_stack a) R1 Hm LF PRE) as (c' & fs' & E3 & R' & pre & prs & EP & ES).
  { intros i ai Hi EI. apply (HD (S i) ai ltac:(lia)). cbn [asteps]. rewrite E1. exact EI. }
  exists c'. split; [exact E|]. split; [rewrite csteps_S, E2; exact E3|].
  assert (prs = []). { rewrite ES, app_length in HL. destruct prs; [reflexivity|cbn [length] in HL; lia]. } subst prs. cbn [app] in ES.
  assert (pre = []). { pose proof (chain_len _ _ _ (rl_chain _ _ _ _ R')) as LF'. rewrite EP, ES, app_length in LF'. destruct pre; [reflexivity|cbn [length] in LF'; lia]. }
  subst pre. cbn [app] in EP. subst fs'. rewrite (rl_ctx _ _ _ _ R), (rl_ctx _ _ _ _ R'), (rl_cur _ _ _ _ R), (rl_cur _ _ _ _ R'), ES. auto.
Qed.

(** C46: what code that may yield finds in the context is its own fiber: bodies run with themselves as the active resumable. *)
Theorem C46_yields_itself csz p n a : asteps n (ainit p) = Ok a ->
  match a_stack a with [] => True | fr :: _ => fr_kind fr = KRun end ->
  exists c, csteps csz n (cinit p) = Ok c /\ c_ctx c = c_cur c.
Proof.
  intros Hn HK. destruct (steps_sim csz n _ _ _ _ (init_rel csz p) Hn) as (c & fs & E & R). exists c. split; [exact E|].
  rewrite (rl_ctx _ _ _ _ R), (rl_cur _ _ _ _ R). pose proof (rl_chain _ _ _ _ R) as CH.
  destruct fs as [|f fs], (a_stack a) as [|fr st]; cbn [chain] in CH; try (destruct CH; fail); [reflexivity|]. cbn [ctx_of hd_error]. rewrite HK. reflexivity.
Qed.

(** Non-vacuity: a body that yields, runs a nested resumable which yields and then throws, and finishes; a second one reusing
    the first one's fiber; destruction of a suspended one. *)
Definition nested : prog :=
  PNew (PYield (PRet 0) (PNew (PYield (PRet 0) (PThrow (EUser 7))) (fun s =>
          PRun s (fun _ => PResume s (fun o => PDel s (match o with Threw (EUser e) => PRet e | _ => PRet 0 end))))))
    (fun r => PRun r (fun o1 => PResume r (fun o2 => PResume r (fun o3 =>
       match o1, o2, o3 with
       | Returned false None, Returned true (Some 7%Z), Threw ELogic =>
           PNew (PYield (PRet 0) (PRet 2)) (fun t => PRun t (fun _ => PDel t (PRet 1)))
       | _, _, _ => PRet 0
       end)))).
Example C44_example : exists a, asteps 30 (ainit nested) = Ok a /\ a_code a = PRet 1 /\ a_stack a = [] /\ shows (a_res a 0) = Some (true, Some 7%Z).
Proof.
  destruct (asteps 30 (ainit nested)) as [a| |] eqn:E; vm_compute in E; try discriminate E.
  injection E as <-. eexists. split; [reflexivity|]. repeat split.
Qed.
Example C46_example : exists a a', asteps 1 (ainit nested) = Ok a /\ asteps 2 a = Ok a' /\ length (a_stack a') = length (a_stack a) /\
  (exists a1, asteps 1 a = Ok a1 /\ length (a_stack a1) = 1).
Proof. eexists. eexists. split; [reflexivity|]. split; [reflexivity|]. split; [reflexivity|]. eexists. split; reflexivity. Qed.
