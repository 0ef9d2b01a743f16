(* What the worklist of value propagation ends with. *)
From Coq Require Import List Arith Bool ZArith Lia.
From Verif Require Import OptModel OptModel2 OptSpec OptSpec2 OptProofs1 OptProofs2 OptProofs3 OptProofs4 OptProofs5 OptProofs6 OptProofs7 OptProofs8.
Import ListNotations.

Section Loop.
Variable f : func.
Variable d : dflow.
Variable k : nat.
Let g := build f.
Notation vstep := (vstep f d k).
Notation vloop := (vloop f d k).

(* The facts at a node are those of its predecessors, and what the node makes of them. *)
Definition settled (r : vres) (n : gnode) : Prop :=
  v_in r n = Some (meet (map (v_out r) (upstream g n))) /\
  exists o, vstep n (meet (map (v_out r) (upstream g n))) = Some o /\ same_map (v_out r n) o.

Lemma fold_push ns : forall wl, incl wl (fold_left push ns wl) /\ incl ns (fold_left push ns wl) /\
  forall n, In n (fold_left push ns wl) -> In n wl \/ In n ns.
Proof.
  induction ns as [|n ns IH]; intros wl; simpl; [split; [apply incl_refl|]; split; [apply incl_nil_l | auto]|].
  destruct (IH (push wl n)) as (A & B & C).
  assert (P : incl wl (push wl n) /\ In n (push wl n) /\ forall m, In m (push wl n) -> In m wl \/ m = n).
  { unfold push. destruct (memn n wl) eqn:M.
    - apply memn_in in M. split; [apply incl_refl|]. auto.
    - split; [apply incl_appl, incl_refl|]. split; [apply in_app_iff; simpl; auto|]. intros m Hm.
      apply in_app_iff in Hm as [Hm | [Hm | []]]; auto. }
  destruct P as (P1 & P2 & P3). split; [eapply incl_tran; eauto|]. split.
  - intros m [<- | Hm]; auto.
  - intros m Hm. apply C in Hm as [Hm | Hm]; auto. apply P3 in Hm as [Hm | ->]; auto.
Qed.
Lemma setn_same {A} (h : gnode -> A) n v : setn h n v n = v.
Proof. unfold setn. now rewrite gnode_eqb_refl. Qed.
Lemma setn_other {A} (h : gnode -> A) n v m : m <> n -> setn h n v m = h m.
Proof. intros H. unfold setn. apply gnode_eqb_no in H. now rewrite H. Qed.

Lemma no_to_start n : ~ edge g n NStart.
Proof. intros H. apply build_edges in H. now apply no_edge_to_start in H. Qed.

(* Something that holds of all maps. *)
Variable Q : pmap -> Prop.
Variable Q_meet : forall outs, (forall o, In o outs -> Q o) -> Q (meet outs).
Variable Q_step : forall n m m', Q m -> vstep n m = Some m' -> Q m'.

Definition winv (S : gnode -> Prop) (wl : list gnode) (r : vres) : Prop :=
  (forall n, S n \/ v_in r n <> None -> ~ In n wl -> settled r n) /\
  ~ In NStart wl /\ v_in r NStart = None /\ (forall n, v_in r n = None -> v_out r n = v_out (v0 f) n) /\ (forall n, Q (v_out r n)).

Lemma vloop_eq fuel n wl r : vloop (S fuel) (n :: wl) r =
  match vstep n (meet (map (v_out r) (upstream g n))) with
  | None => None
  | Some new_out =>
      let r1 := {| v_in := setn (v_in r) n (Some (meet (map (v_out r) (upstream g n)))); v_out := v_out r |} in
      if pmap_eqb (v_out r n) new_out then vloop fuel wl r1
      else vloop fuel (fold_left push (downstream g n) wl) {| v_in := v_in r1; v_out := setn (v_out r1) n new_out |}
  end.
Proof. reflexivity. Qed.
Lemma vloop_ok S fuel : forall wl r r', winv S wl r -> vloop fuel wl r = Some r' -> winv S [] r'.
Proof.
  induction fuel as [|fuel IH]; intros [|n wl] r r' Hw E; try (simpl in E; injection E as <-; auto; fail); [discriminate|].
  rewrite vloop_eq in E. destruct (vstep n _) as [o|] eqn:Es; [|discriminate]. cbv zeta in E.
  destruct Hw as (H1 & H2 & H3 & H4 & H5).
  assert (Hn : n <> NStart) by (intros ->; apply H2; simpl; auto).
  destruct (pmap_eqb (v_out r n) o) eqn:B; eapply IH; try exact E; clear E IH.
  - split; [|split; [|split; [|split]]]; simpl; auto.
    + intros m Hm Hwl. destruct (gnode_dec m n) as [-> | Hne].
      * split; simpl; [now rewrite setn_same|]. exists o. split; auto. now apply pmap_eqb_ok.
      * rewrite setn_other in Hm by auto. destruct (H1 m Hm) as (S1 & S2).
        { intros [X | X]; auto. }
        split; simpl; [rewrite setn_other; auto | auto].
    + intros X. apply H2. simpl. auto.
    + rewrite setn_other; auto.
    + intros m Hm. apply H4. destruct (gnode_dec m n) as [-> | Hne]; [rewrite setn_same in Hm; discriminate | rewrite setn_other in Hm; auto].
  - destruct (fold_push (downstream g n) wl) as (P1 & P2 & P3). split; [|split; [|split; [|split]]]; simpl.
    + intros m Hm Hwl.
      assert (Hup : ~ In n (upstream g m)) by (intros X; apply Hwl, P2; apply downstream_in; now apply upstream_in).
      assert (Eup : map (setn (v_out r) n o) (upstream g m) = map (v_out r) (upstream g m)).
      { apply map_ext_in. intros p Hp. apply setn_other. intros ->. auto. }
      unfold settled. simpl. rewrite Eup. destruct (gnode_dec m n) as [-> | Hne].
      * rewrite !setn_same. split; auto. exists o. split; auto. apply same_map_refl.
      * rewrite setn_other in Hm by auto. rewrite !setn_other by auto. apply H1; auto. intros [X | X]; [auto | apply Hwl, P1; auto].
    + intros X. apply P3 in X as [X | X]; [apply H2; simpl; auto|]. apply downstream_in in X. now apply no_to_start in X.
    + rewrite setn_other; auto.
    + intros m Hm. destruct (gnode_dec m n) as [-> | Hne]; [rewrite setn_same in Hm; discriminate | rewrite setn_other in Hm by auto; rewrite setn_other by auto; exact (H4 m Hm)].
    + intros m. destruct (gnode_dec m n) as [-> | Hne]; [|rewrite setn_other; auto].
      rewrite setn_same. eapply Q_step; [|exact Es]. apply Q_meet. intros o' Ho. apply in_map_iff in Ho as (p & <- & _). auto.
Qed.
End Loop.

Section Result.
Variable f : func.
Variable d : dflow.
Variable k : nat.
Let g := build f.
Let E := c_edges (build_raw f).
Lemma reach_leads n : reach E n -> leads g NStart n.
Proof. induction 1 as [|p n Hr IH He]; [constructor|]. eapply leads_edge; [exact IH | now apply reach_kept]. Qed.
Lemma start_node : In NStart (g_nodes g).
Proof. apply reach_node. constructor. Qed.

Theorem vsolve_ok (Q : pmap -> Prop) fuel r :
  (forall outs, (forall o, In o outs -> Q o) -> Q (meet outs)) ->
  (forall n m m', Q m -> vstep f d k n m = Some m' -> Q m') -> Q [] -> Q (v_out (v0 f) NStart) ->
  vsolve f d k fuel (rpo g) = Some r ->
  (forall n, reach E n -> n <> NStart -> settled f d k r n) /\
  (forall n, v_in r n <> None -> settled f d k r n) /\
  (forall n, v_in r n = None -> v_out r n = v_out (v0 f) n) /\ v_in r NStart = None /\
  (forall n, Q (v_out r n)).
Proof.
  intros Qm Qs Q0 Q1 Hs.
  pose proof (vloop_ok f d k Q Qm Qs (fun n => In n (rpo g)) fuel (rpo g) (v0 f) r) as L.
  assert (W : winv f d k Q (fun n => In n (rpo g)) (rpo g) (v0 f)).
  { split; [|split; [|split; [|split]]].
    - intros n [H | H] Hn; [contradiction|]. simpl in H. congruence.
    - intros H. apply (rpo_in g (build_closed f) start_node) in H. tauto.
    - reflexivity.
    - reflexivity.
    - intros n. simpl. destruct (gnode_eqb n NStart) eqn:Eq; auto. }
  destruct (L W Hs) as (W1 & _ & W3 & W4 & W5). split; [|split; [|split; [|split]]]; auto.
  intros n Hr Hn. apply W1; [|tauto]. left. apply (rpo_in g (build_closed f) start_node). split; auto. now apply reach_leads.
Qed.
End Result.
