(** C55: reference counting. *)
From Verif Require Import Base RefModel RefSpec RefProofs.

(** C55: whatever sequence of operations a program performs (copies, moves, assignments including self-assignment, swaps,
    releases, adoptions), the next one never touches a destroyed object, destroys one twice or underflows a counter. *)
Theorem C55_never_twice s o : reachable s -> op_ok s o -> exists s', step s o = Ok s'.
Proof. intros HR HO. destruct (step_ok s o (reachable_J s HR) HO) as (s' & E & _). eauto. Qed.

(** C55: an object exists exactly as long as it has an owner. *)
Theorem C55_alive_iff_owned s : reachable s -> forall o, alive s o <-> owned s o.
Proof. intros HR. apply alive_owned, reachable_J, HR. Qed.

(** C55: the operations make pointers point where they should: every pointer existing afterwards has the value assigned to it
    last, or its old value. *)
Theorem C55_values s o s' : reachable s -> op_ok s o -> step s o = Ok s' ->
  forall l p, value s' l = Some p -> after s (assigns s o) l = Some p.
Proof.
  intros HR HO HS l p HV. destruct (step_ok s o (reachable_J s HR) HO) as (s2 & E & _ & V). apply value_read in HV.
  apply V. congruence.
Qed.

(** C55: ownership without cycles leaks nothing: when all owners outside of objects are gone, so are all objects. *)
Theorem C55_no_leak s (rank : nat -> nat) : reachable s ->
  (forall x k o, member_owns s x k o -> rank o < rank x) ->
  (forall v o, ~ var_owns s v o) -> (forall r o, ~ raw_owns s r o) ->
  forall o, ~ alive s o.
Proof.
  intros HR HK HV HW. pose proof (C55_alive_iff_owned s HR) as HA.
  assert (HB : exists b, forall o, alive s o -> rank o <= b).
  { assert (HB : forall h : heap, exists b, forall o, o < length h -> rank o <= b).
    { clear. intros h. induction (length h) as [|n [b IH]]; [exists 0; lia|]. exists (b + rank n). intros o Ho.
      destruct (Nat.eq_dec o n) as [-> | N]; [lia|]. specialize (IH o ltac:(lia)). lia. }
    destruct (HB (hp s)) as [b Hb]. exists b. intros o [ob E]. apply Hb. apply nth_error_Some. congruence. }
  destruct HB as [b HB]. assert (G : forall n o, alive s o -> b - rank o < n -> False).
  { induction n as [|n IH]; intros o Ho Hn; [lia|]. pose proof Ho as Ho2. apply HA in Ho2.
    destruct Ho2 as [(v & H)|[(r & H)|(x & k & H)]]; [eapply HV; exact H|eapply HW; exact H|].
    assert (Hx : alive s x) by (destruct H as (ob & E & _); exists ob; exact E).
    pose proof (HK _ _ _ H). pose proof (HB x Hx). apply (IH x Hx). lia. }
  intros o Ho. eapply G; [exact Ho|]. apply Nat.lt_succ_diag_r.
Qed.

(** Non-vacuity: list a -> b -> c; a = a->next twice (destroying a, then b), self-assignment, release, adoption. *)
Definition prog : list op :=
  [ ONew 1; ONew 1; ONew 1;
    OAssignMove (mkPath 1 [0]) (mkPath 2 []);
    OAssignMove (mkPath 0 [0]) (mkPath 1 []);
    OAssignCopy (mkPath 0 []) (mkPath 0 [0]);
    OAssignCopy (mkPath 0 []) (mkPath 0 []);
    OAssignMove (mkPath 0 []) (mkPath 0 []);
    OAssignMove (mkPath 0 []) (mkPath 0 [0]);
    ORelease (mkPath 0 []); OAdopt 0 ].
Fixpoint run (s : state) (p : list op) : res state :=
  match p with [] => Ok s | o :: p' => let* s' := step s o in run s' p' end.
Definition is_ok {A} (r : res A) : bool := match r with Ok _ => true | _ => false end.
Definition op_okb (s : state) (o : op) : bool :=
  match o with
  | ONew _ | ONull => true
  | OCopy p | OMove p | OAssignNull p | ORelease p => is_ok (eval s p)
  | OAssignCopy p q | OAssignMove p q | OSwap p q => is_ok (eval s p) && is_ok (eval s q)
  | ODestroy v => match nth_error (vars s) v with Some (Some _) => true | _ => false end
  | OAdopt r | ONewRef r => r <? length (raws s)
  end.
Lemma is_ok_ex s p : is_ok (eval s p) = true -> denotes_ptr s p.
Proof. unfold denotes_ptr. destruct (eval s p); cbn; intros H; try discriminate H. eauto. Qed.
Lemma op_okb_ok s o : op_okb s o = true -> op_ok s o.
Proof.
  destruct o; cbn [op_okb op_ok]; auto using is_ok_ex; rewrite ?andb_true_iff.
  - destruct (nth_error (vars s) v) as [[p|]|]; try discriminate. eauto.
  - intros [H1 H2]; auto using is_ok_ex.
  - intros [H1 H2]; auto using is_ok_ex.
  - intros [H1 H2]; auto using is_ok_ex.
  - apply Nat.ltb_lt.
  - apply Nat.ltb_lt.
Qed.
Fixpoint run_ok (s : state) (p : list op) : option state :=
  match p with [] => Some s | o :: p' => if op_okb s o then match step s o with Ok s' => run_ok s' p' | _ => None end else None end.
Lemma run_ok_reach p : forall s s', reachable s -> run_ok s p = Some s' -> reachable s'.
Proof.
  induction p as [|o p IH]; intros s s' HR; cbn [run_ok].
  - intros [= <-]. exact HR.
  - destruct (op_okb s o) eqn:E; [|discriminate]. destruct (step s o) as [s1| |] eqn:E1; try discriminate.
    apply IH. eapply reach_step; [exact HR|apply op_okb_ok, E|exact E1].
Qed.
Example C55_run : exists s, reachable s /\ var_owns s 3 2 /\ alive s 2 /\ ~ alive s 0 /\ ~ alive s 1.
Proof.
  destruct (run_ok init prog) as [s|] eqn:E; [|vm_compute in E; discriminate].
  assert (HR : reachable s) by (eapply run_ok_reach; [apply reach_init|exact E]).
  vm_compute in E. injection E as <-. eexists. split; [exact HR|]. unfold var_owns, alive. cbn.
  repeat split; try reflexivity; [eauto|intros [ob H]; discriminate H|intros [ob H]; discriminate H].
Qed.
Example C55_run_end : exists s, reachable s /\ length (hp s) = 3 /\ (forall o, ~ alive s o).
Proof.
  destruct (run_ok init (prog ++ [ODestroy 0; ODestroy 1; ODestroy 2; ODestroy 3])) as [s|] eqn:E; [|vm_compute in E; discriminate].
  assert (HR : reachable s) by (eapply run_ok_reach; [apply reach_init|exact E]).
  vm_compute in E. injection E as <-. eexists. split; [exact HR|]. split; [reflexivity|].
  apply (C55_no_leak _ (fun _ => 0) HR).
  - intros x k o (ob & H & _). destruct x as [|[|[|[|x]]]]; discriminate H.
  - intros v o H. unfold var_owns in H. destruct v as [|[|[|[|[|v]]]]]; discriminate H.
  - intros r o H. unfold raw_owns in H. destruct r; discriminate H.
Qed.
