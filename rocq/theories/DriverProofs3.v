(** Safety of ending flows and connections. *)
From Verif Require Import Base DriverModel DriverSpec DriverProofs DriverProofs2.

Definition live_ptr (b : batch) (id : nat) (p : option nat) : Prop := forall n, p = Some n -> exists f, lookup (b_flows b) id = Some f /\ f_node f = n.
Definition live (b : batch) : Prop := forall cid c, lookup (b_conns b) cid = Some c -> live_ptr b (c_orig_id c) (c_orig c) /\ live_ptr b (c_resp_id c) (c_resp c).
Definition keeps (b b' : batch) : Prop := b_conns b' = b_conns b /\ forall id p, live_ptr b id p -> live_ptr b' id p.
Lemma keeps_live b b' : keeps b b' -> live b -> live b'.
Proof. intros (E & K) L cid c H. rewrite E in H. destruct (L cid c H). auto. Qed.
Lemma keeps_refl b : keeps b b.
Proof. split; auto. Qed.
Lemma keeps_store b id f s tr : lookup (b_flows b) id = Some f -> keeps b (store b id f s tr).
Proof.
  intros L. split; [reflexivity|]. intros x p H n E. destruct (H n E) as (g & LG & N). cbn [store b_flows]. rewrite lookup_update.
  destruct (Nat.eqb_spec x id) as [->|NE]; [|exists g; auto]. eexists. split; [reflexivity|]. cbn [f_node]. congruence.
Qed.
Lemma keeps_create parsers b t par id ctx b1 r : create_state parsers b t par id ctx = (b1, r) -> keeps b b1.
Proof.
  unfold create_state. destruct (parsers par) as [p|]; intros H; injection H as <- _; [|apply keeps_refl]. split; [reflexivity|]. intros x q HQ n E. destruct (HQ n E) as (g & LG & N).
  cbn [b_flows]. rewrite lookup_update. destruct (Nat.eqb_spec x id) as [->|NE]; [|exists g; auto]. eexists. split; [reflexivity|]. cbn [f_node]. rewrite LG. exact N.
Qed.
Lemma live_drop b id x p : live_ptr b x p -> (p <> None -> x <> id) -> live_ptr (drop_flow b id) x p.
Proof.
  intros L N n E. destruct (L n E) as (f & LF & NF). exists f. split; [|exact NF]. cbn [drop_flow b_flows]. rewrite lookup_erase.
  destruct (Nat.eqb_spec x id) as [->|NE]; [|exact LF]. exfalso. apply N; congruence.
Qed.

Section P.
Context (parsers : nat -> option parser) (PP : forall par p, parsers par = Some p -> p_parse1 p = true) (o : oracle).

(** The ways a command may end. *)
Definition ends_ok (c : cmd) (r : bres) (P : batch -> Prop) : Prop :=
  match r with
  | BOk b => P b
  | BError _ => c = CMalformed
  | BUncaught _ => c = CBadNumber
  | BTerminate => exists tr inst inp, o tr inst inp true = Yields
  | BNull | BFreed => False
  end.
Lemma handle_ok c b k id f i (P : batch -> Prop) : inv b k -> lookup (b_flows b) id = Some f -> (forall b', keeps b b' -> P b') ->
  ends_ok c (handle b id f (give o (f_inst f) (f_state f) (b_trace b) i)) P.
Proof.
  intros I L K. pose proof (iv_open _ _ I id) as O. rewrite L in O. cbn [option_map] in O. symmetry in O. destruct (iv_life _ _ I _ _ O) as (X & NE & _).
  pose proof (give_ok o (f_inst f) (f_state f) (b_trace b) _ _ i (iv_state _ _ I _ _ _ L NE) (iv_fed _ _ I _ _ NE)) as G.
  destruct (give o (f_inst f) (f_state f) (b_trace b) i) as [s' tr'|s' tr'|s' tr'| |]; cbn [handle ends_ok]; try (apply K; apply keeps_store; exact L); [|exact G].
  destruct G as (inp & G). eauto.
Qed.
Lemma finish_at_ok c b k id ptr (P : batch -> Prop) : inv b k -> ptr_ok b id ptr -> live_ptr b id ptr -> (forall b', keeps b b' -> P b') -> ends_ok c (finish_at o b ptr) P.
Proof.
  intros I PO LP K. unfold finish_at. destruct ptr as [n|]; [|apply K; apply keeps_refl]. destruct (LP n eq_refl) as (f & LF & NF).
  destruct (at_node (b_flows b) n) as [[x g]|] eqn:AN.
  - apply at_node_some in AN. destruct AN as (IN & FN). apply in_lookup in IN; [|apply (iv_keys _ _ I)]. exact (handle_ok c b k x g EndOfData P I IN K).
  - exfalso. exact (at_node_none _ _ _ _ AN (lookup_in _ _ _ LF) NF).
Qed.
Lemma feed_ok c b k id p (P : batch -> Prop) : inv b k -> (forall b', keeps b b' -> P b') -> ends_ok c (feed o b id p) P.
Proof. intros I K. unfold feed. destruct (lookup (b_flows b) id) as [f|] eqn:L; [exact (handle_ok c b k id f (Piece p) P I L K)|apply K; apply keeps_refl]. Qed.

Lemma not_uses p id : ~ uses p id -> (pr_orig p = true -> pr_oid p <> id) /\ (pr_resp p = true -> pr_rid p <> id).
Proof. intros N. split; intros A B; apply N; [left|right]; auto. Qed.
Lemma pair_ids c id : ~ uses (pair_of c) id -> (c_orig c <> None -> c_orig_id c <> id) /\ (c_resp c <> None -> c_resp_id c <> id).
Proof.
  intros N. apply not_uses in N. destruct N as (A & B). unfold pair_of in *. cbn [pr_orig pr_oid pr_resp pr_rid] in *.
  split; intros E; [apply A; destruct (c_orig c)|apply B; destruct (c_resp c)]; congruence || reflexivity.
Qed.
Lemma exec_live b k c : inv b k -> live b -> safe_cmd parsers k c -> ends_ok c (exec parsers o b c) live.
Proof.
  intros I L SC. assert (K : forall b', keeps b b' -> live b') by (intros b' H; eapply keeps_live; eassumption).
  destruct c as [id t par|cid t oid opar rid rpar|id d|id n|id|cid| |]; cbn [exec].
  - cbn [ends_ok]. apply K. destruct (create_state parsers b t par id None) eqn:E. eapply keeps_create. exact E.
  - cbn [safe_cmd] in SC. pose proof (iv_pairs _ _ I cid) as PR. destruct (lookup (b_conns b) cid) as [c0|] eqn:LC; [exact L|]. cbn [option_map] in PR. specialize (SC (eq_sym PR)).
    destruct (create_state parsers b t opar oid None) as [b1 orig] eqn:C1. pose proof (keeps_create _ _ _ _ _ _ _ _ C1) as K1.
    set (ctx := match orig with Some (_, ctx) => ctx | None => None end) in *.
    destruct (create_state parsers b1 t rpar rid ctx) as [b2 resp] eqn:C2. pose proof (keeps_create _ _ _ _ _ _ _ _ C2) as K2.
    assert (LO : live_ptr b2 oid (option_map fst orig)).
    { destruct orig as [[n c]|]; [|intros m E; discriminate]. destruct (create_some _ _ _ _ _ _ _ _ _ C1) as (_ & _ & _ & f & LF & NF). cbn [option_map fst].
      apply (proj2 K2). intros m E. injection E as <-. exists f. auto. }
    assert (LR : live_ptr b2 rid (option_map fst resp)).
    { destruct resp as [[n c]|]; [|intros m E; discriminate]. destruct (create_some _ _ _ _ _ _ _ _ _ C2) as (_ & _ & _ & f & LF & NF). cbn [option_map fst].
      intros m E. injection E as <-. exists f. auto. }
    assert (NEW : live (mkB (b_flows b2) (update (b_conns b2) cid (mkConn oid rid (option_map fst orig) (option_map fst resp))) (b_next b2) (b_trace b2))).
    { intros x c. cbn [b_conns]. rewrite lookup_update. destruct (Nat.eqb x cid).
      - intros E. injection E as <-. split; [exact LO|exact LR].
      - exact (keeps_live _ _ K2 (keeps_live _ _ K1 L) x c). }
    destruct orig as [ro|], resp as [rr|]; cbn [ends_ok]; try exact NEW.
    apply create_none in C1. destruct C1 as (-> & KO). apply create_none in C2. destruct C2 as (-> & KR). specialize (SC KO KR).
    intros x c E. cbn [drop_flow b_conns] in E. destruct (L x c E) as (A & B). pose proof (iv_pairs _ _ I x) as PX. rewrite E in PX. cbn [option_map] in PX.
    destruct (SC x (pair_of c) (eq_sym PX)) as (U1 & U2). apply pair_ids in U1. apply pair_ids in U2. destruct U1 as (U1 & U1'). destruct U2 as (U2 & U2').
    split; apply live_drop; auto; apply live_drop; auto.
  - eapply feed_ok; [exact I|exact K].
  - eapply feed_ok; [exact I|exact K].
  - cbn [safe_cmd] in SC. destruct (lookup (b_flows b) id) as [f|] eqn:LF; [|exact L].
    pose proof (handle_ok (CEndFlow id) b k id f EndOfData (keeps b) I LF (fun b' H => H)) as H. cbn [give] in H.
    destruct (handle b id f (finish o (f_inst f) (f_state f) (b_trace b))) as [b1| | | | |]; cbn [ends_ok] in *; try exact H.
    intros x c E. cbn [drop_flow b_conns] in E. destruct (keeps_live _ _ H L x c E) as (A & B). destruct H as (CE & _). rewrite CE in E.
    pose proof (iv_pairs _ _ I x) as PX. rewrite E in PX. cbn [option_map] in PX. specialize (SC x (pair_of c) (eq_sym PX)). apply pair_ids in SC. destruct SC as (U1 & U2).
    split; apply live_drop; auto.
  - cbn [safe_cmd] in SC. pose proof (iv_pairs _ _ I cid) as PR. destruct (lookup (b_conns b) cid) as [c0|] eqn:LC; [|exact L]. cbn [option_map] in PR.
    destruct (iv_ptr _ _ I cid c0 LC) as (P1 & P2). destruct (L cid c0 LC) as (L1 & L2).
    pose proof (finish_at_ok (CEndConn cid) b k _ _ (keeps b) I P1 L1 (fun b' H => H)) as H1.
    destruct (finish_at o b (c_orig c0)) as [b1| | | | |] eqn:F1; cbn [ends_ok] in *; try exact H1; try discriminate H1.
    destruct (inv_finish_at parsers PP _ _ _ _ _ _ I P1 F1) as (I1 & CE1 & K1).
    pose proof (finish_at_ok (CEndConn cid) b1 _ _ _ (keeps b1) I1 (K1 _ _ P2) (proj2 H1 _ _ L2) (fun b' H => H)) as H2.
    destruct (finish_at o b1 (c_resp c0)) as [b2| | | | |] eqn:F2; cbn [ends_ok] in *; try exact H2; try discriminate H2.
    intros x c E. cbn [b_conns] in E. rewrite lookup_erase in E. destruct (Nat.eqb_spec x cid) as [->|NE]; [discriminate|].
    destruct (keeps_live _ _ H2 (keeps_live _ _ H1 L) x c E) as (A & B). destruct H2 as (CE2 & _). rewrite CE2, CE1 in E.
    pose proof (iv_pairs _ _ I x) as PX. rewrite E in PX. cbn [option_map] in PX.
    destruct (SC (pair_of c0) x (pair_of c) (eq_sym PR) (eq_sym PX) NE) as (U1 & U2). apply pair_ids in U1. apply pair_ids in U2. destruct U1 as (U1 & U1'). destruct U2 as (U2 & U2').
    cbn [pair_of pr_oid pr_rid] in *.
    change (live_ptr (drop_flow (drop_flow b2 (c_orig_id c0)) (c_resp_id c0)) (c_orig_id c) (c_orig c) /\ live_ptr (drop_flow (drop_flow b2 (c_orig_id c0)) (c_resp_id c0)) (c_resp_id c) (c_resp c)).
    split; apply live_drop; auto; apply live_drop; auto.
  - reflexivity.
  - reflexivity.
Qed.
Lemma run_live cs : forall b k, inv b k -> live b -> safe_batch parsers k cs ->
  match run parsers o b cs with
  | BOk _ => True
  | BError _ => In CMalformed cs
  | BUncaught _ => In CBadNumber cs
  | BTerminate => exists tr inst inp, o tr inst inp true = Yields
  | BNull | BFreed => False
  end.
Proof.
  induction cs as [|c cs IH]; intros b k I L S; [exact Logic.I|]. destruct S as (S1 & S2). cbn [run]. pose proof (exec_live b k c I L S1) as E.
  destruct (exec parsers o b c) as [b1| | | | |] eqn:X; cbn [ends_ok] in E; try exact E; try contradiction.
  - specialize (IH b1 _ (inv_exec parsers PP _ _ _ _ _ I X) E S2). destruct (run parsers o b1 cs); try exact IH; right; exact IH.
  - left. exact E.
  - left. exact E.
Qed.
End P.
