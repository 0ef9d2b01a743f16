(** C53: batch driver; C60: processing a single input. *)
From Verif Require Import Base DriverModel DriverSpec DriverProofs DriverProofs2 DriverProofs3.

Definition externally_usable (parsers : nat -> option parser) : Prop := forall par p, parsers par = Some p -> p_parse1 p = true.
Definition respects_end (o : oracle) : Prop := forall tr inst inp, o tr inst inp true <> Yields.

(** ** C53 *)
(** Every flow ever created gets exactly the input that the bookkeeping of DriverSpec assigns to it, in order, through the calls
    described there; and parsers never see memory of a buffer that is gone. *)
Theorem C53_flows_fed parsers o cs b : externally_usable parsers -> run_batch parsers o cs = BOk b ->
  (forall n L, nth_error (k_lives (k_run parsers book0 cs)) n = Some L -> fed (l_type L) (l_inputs L) (calls_of n (b_trace b))) /\
  (forall n, (length (k_lives (k_run parsers book0 cs)) <= n)%nat -> calls_of n (b_trace b) = []) /\
  Forall memory_ok (b_trace b).
Proof.
  intros P R. pose proof (inv_run parsers P cs _ _ o b inv0 R) as I. split; [exact (iv_fed _ _ I)|]. split; [exact (iv_none _ _ I)|exact (iv_mem _ _ I)].
Qed.

(** The same in terms of the commands, for a flow with its own id: between @begin-flow and @end-flow it gets the data (and gaps) sent to
    that id, whatever other commands come in between, and then the end of the data. *)
Definition touches (id : nat) (c : cmd) : Prop :=
  match c with
  | CBeginFlow i _ _ | CEndFlow i => i = id
  | CBeginConn _ _ oid _ rid _ => oid = id \/ rid = id
  | _ => False
  end.
Definition sent_to (id : nat) (cs : list cmd) : list input :=
  flat_map (fun c => match c with
                     | CData i d => if Nat.eqb i id then [Piece (Data d)] else []
                     | CGap i n => if Nat.eqb i id then [Piece (Gap n)] else []
                     | _ => []
                     end) cs.
(** No connection uses the id. *)
Definition unused (k : book) (id : nat) : Prop := forall cid p, k_pairs k cid = Some p -> pr_oid p <> id /\ pr_rid p <> id.
Definition no_conn (id : nat) (c : cmd) : Prop := match c with CBeginConn _ _ oid _ rid _ => oid <> id /\ rid <> id | _ => True end.
Lemma begin_pairs parsers k id t par : k_pairs (k_begin parsers k id t par) = k_pairs k.
Proof. unfold k_begin. destruct (known parsers par); reflexivity. Qed.
Lemma give_pairs k id i : k_pairs (k_give k id i) = k_pairs k.
Proof. unfold k_give. destruct (k_open k id); reflexivity. Qed.
Lemma unused_step parsers k c id : no_conn id c -> unused k id -> unused (k_step parsers k c) id.
Proof.
  intros N U. destruct c as [i t par|cid t oid opar rid rpar|i d|i n|i|cid| |]; cbn [k_step]; unfold unused in *; rewrite ?begin_pairs, ?give_pairs; try exact U.
  - destruct (k_pairs k cid) eqn:E; [exact U|]. destruct (known parsers opar || known parsers rpar); [|exact U]. cbn [k_pairs]. rewrite ?begin_pairs.
    intros x p. unfold set. destruct (Nat.eqb x cid); [|apply U]. intros H. injection H as <-. exact N.
  - cbn [k_close k_pairs]. rewrite give_pairs. exact U.
  - destruct (k_pairs k cid) as [p|] eqn:E; [|exact U]. cbn [k_close k_pairs]. intros x q. unfold set. destruct (Nat.eqb x cid); [discriminate|].
    destruct (pr_orig p), (pr_resp p); rewrite ?give_pairs; apply U.
Qed.
Lemma unused_run parsers cs id : Forall (no_conn id) cs -> forall k, unused k id -> unused (k_run parsers k cs) id.
Proof. induction 1 as [|c cs N F IH]; intros k U; [exact U|]. unfold k_run. cbn [fold_left]. apply IH. apply unused_step; assumption. Qed.

(** What holds of life [n] of flow [id] while it is open: its inputs so far are [l]. *)
Definition is_life (k : book) (id n : nat) (t : ptype) (l : list input) : Prop := nth_error (k_lives k) n = Some (mkL id t l).
Definition lives_differ (k : book) : Prop := forall id n, k_open k id = Some n -> exists L, nth_error (k_lives k) n = Some L /\ l_id L = id.
Lemma begin_keeps parsers k id n t l id' t' par : is_life k id n t l -> is_life (k_begin parsers k id' t' par) id n t l.
Proof.
  intros H. unfold k_begin. destruct (known parsers par); [|exact H]. unfold is_life in *. cbn [k_lives]. rewrite nth_error_app1; [exact H|]. apply nth_error_Some. congruence.
Qed.
Lemma give_keeps k id n t l id' i : lives_differ k -> is_life k id n t l -> id' <> id -> is_life (k_give k id' i) id n t l.
Proof.
  intros D H N. unfold k_give. destruct (k_open k id') as [m|] eqn:O; [|exact H]. unfold is_life in *. cbn [k_lives]. rewrite add_input_nth.
  destruct (Nat.eqb_spec n m) as [->|NE]; [|exact H]. destruct (D _ _ O) as (L & E & EI). exfalso. apply N. rewrite E in H. injection H as ->. cbn [l_id] in EI. congruence.
Qed.
Lemma give_same k id n t l i : k_open k id = Some n -> is_life k id n t l -> is_life (k_give k id i) id n t (l ++ [i]).
Proof. intros O H. unfold k_give. rewrite O. unfold is_life in *. cbn [k_lives]. rewrite add_input_nth, Nat.eqb_refl, H. reflexivity. Qed.
Lemma give_open k id i : k_open (k_give k id i) = k_open k.
Proof. unfold k_give. destruct (k_open k id); reflexivity. Qed.
Lemma begin_open parsers k id t par x : x <> id -> k_open (k_begin parsers k id t par) x = k_open k x.
Proof. intros N. unfold k_begin. destruct (known parsers par); [|reflexivity]. cbn [k_open]. unfold set. apply Nat.eqb_neq in N. rewrite N. reflexivity. Qed.
Lemma differ_begin parsers k id t par : lives_differ k -> lives_differ (k_begin parsers k id t par).
Proof.
  intros D. unfold k_begin. destruct (known parsers par); [|exact D]. intros x n. cbn [k_open k_lives]. unfold set. destruct (Nat.eqb_spec x id) as [->|N].
  - intros H. injection H as <-. eexists. split; [rewrite nth_error_app2, Nat.sub_diag by lia; reflexivity|reflexivity].
  - intros H. destruct (D x n H) as (L & E & EI). exists L. split; [|exact EI]. rewrite nth_error_app1; [exact E|]. apply nth_error_Some. congruence.
Qed.
Lemma differ_give k id i : lives_differ k -> lives_differ (k_give k id i).
Proof.
  intros D x n. rewrite give_open. intros H. destruct (D x n H) as (L & E & EI). unfold k_give. destruct (k_open k id) as [m|]; [|exists L; auto]. cbn [k_lives]. rewrite add_input_nth.
  destruct (Nat.eqb_spec n m) as [->|N]; [|exists L; auto]. rewrite E. eexists. split; [reflexivity|exact EI].
Qed.
Lemma differ_close k id : lives_differ k -> lives_differ (k_close k id).
Proof. intros D x n. cbn [k_close k_open k_lives]. unfold set. destruct (Nat.eqb x id); [discriminate|apply D]. Qed.
Lemma differ_pairs k p : lives_differ k -> lives_differ (mkK (k_lives k) (k_open k) p).
Proof. intros D. exact D. Qed.
Lemma differ_step parsers k c : lives_differ k -> lives_differ (k_step parsers k c).
Proof.
  intros D. destruct c as [i t par|cid t oid opar rid rpar|i d|i n|i|cid| |]; cbn [k_step]; auto using differ_begin, differ_give, differ_close.
  - destruct (k_pairs k cid); [exact D|]. destruct (_ || _); [apply differ_pairs; auto using differ_begin|auto using differ_close].
  - destruct (k_pairs k cid) as [p|]; [|exact D]. apply differ_pairs. do 2 apply differ_close. destruct (pr_orig p), (pr_resp p); auto using differ_give.
Qed.
Lemma differ_run parsers cs : forall k, lives_differ k -> lives_differ (k_run parsers k cs).
Proof. induction cs as [|c cs IH]; intros k D; [exact D|]. unfold k_run. cbn [fold_left]. apply IH. apply differ_step. exact D. Qed.

Lemma own_step parsers k c id n t l : lives_differ k -> unused k id -> ~ touches id c -> k_open k id = Some n -> is_life k id n t l ->
  k_open (k_step parsers k c) id = Some n /\ is_life (k_step parsers k c) id n t (l ++ sent_to id [c]).
Proof.
  intros D U N O H. destruct c as [i t' par|cid t' oid opar rid rpar|i d|i m|i|cid| |]; cbn [k_step touches sent_to flat_map] in *; rewrite ?app_nil_r; try (split; assumption).
  - split; [rewrite begin_open; auto|apply begin_keeps; exact H].
  - assert (N1 : oid <> id) by tauto. assert (N2 : rid <> id) by tauto. destruct (k_pairs k cid); [split; assumption|]. destruct (_ || _).
    + cbn [k_open]. rewrite !begin_open by auto. split; [exact O|]. unfold is_life. cbn [k_lives]. apply begin_keeps. apply begin_keeps. exact H.
    + cbn [k_close k_open k_lives]. unfold set. destruct (Nat.eqb_spec id rid) as [->|_]; [congruence|]. destruct (Nat.eqb_spec id oid) as [->|_]; [congruence|]. split; [exact O|exact H].
  - rewrite give_open. split; [exact O|]. destruct (Nat.eqb_spec i id) as [->|NE]; [apply give_same; assumption|]. rewrite app_nil_r. apply give_keeps; assumption.
  - rewrite give_open. split; [exact O|]. destruct (Nat.eqb_spec i id) as [->|NE]; [apply give_same; assumption|]. rewrite app_nil_r. apply give_keeps; assumption.
  - cbn [k_close k_open]. rewrite give_open. unfold set. destruct (Nat.eqb_spec id i) as [->|_]; [congruence|]. split; [exact O|].
    unfold is_life. cbn [k_lives]. apply give_keeps; assumption.
  - destruct (k_pairs k cid) as [p|] eqn:E; [|split; assumption]. destruct (U _ _ E) as (N1 & N2). cbn [k_close k_open k_lives]. unfold set.
    destruct (Nat.eqb_spec id (pr_rid p)) as [->|_]; [congruence|]. destruct (Nat.eqb_spec id (pr_oid p)) as [->|_]; [congruence|].
    split; [destruct (pr_orig p), (pr_resp p); rewrite ?give_open; exact O|].
    unfold is_life. cbn [k_lives]. destruct (pr_orig p), (pr_resp p); repeat (apply give_keeps; auto using differ_give); assumption.
Qed.
Lemma own_run parsers id n t cs : Forall (fun c => ~ touches id c) cs -> forall k l, lives_differ k -> unused k id -> k_open k id = Some n -> is_life k id n t l ->
  k_open (k_run parsers k cs) id = Some n /\ is_life (k_run parsers k cs) id n t (l ++ sent_to id cs).
Proof.
  induction 1 as [|c cs N F IH]; intros k l D U O H; unfold k_run; cbn [fold_left]; [cbn; rewrite app_nil_r; auto|].
  destruct (own_step parsers k c id n t l D U N O H) as (O' & H').
  assert (NC : no_conn id c) by (destruct c; cbn [touches no_conn] in *; tauto).
  destruct (IH (k_step parsers k c) _ (differ_step _ _ _ D) (unused_step _ _ _ _ NC U) O' H') as (A & B). split; [exact A|].
  replace (sent_to id (c :: cs)) with (sent_to id [c] ++ sent_to id cs) by (cbn [sent_to flat_map]; rewrite app_nil_r; reflexivity). rewrite app_assoc. exact B.
Qed.
Lemma k_run_app parsers k a b : k_run parsers k (a ++ b) = k_run parsers (k_run parsers k a) b.
Proof. apply fold_left_app. Qed.

Theorem C53_flow_gets_its_data parsers o pre id t par mid post b :
  externally_usable parsers -> parsers par <> None ->
  Forall (no_conn id) pre -> Forall (fun c => ~ touches id c) mid ->
  run_batch parsers o (pre ++ CBeginFlow id t par :: mid ++ CEndFlow id :: post) = BOk b ->
  fed t (sent_to id mid ++ [EndOfData]) (calls_of (length (k_lives (k_run parsers book0 pre))) (b_trace b)).
Proof.
  intros P KP FP FM R. pose proof (C53_flows_fed parsers o _ b P R) as (X & _). set (n := length (k_lives (k_run parsers book0 pre))).
  set (k0 := k_run parsers book0 pre) in *.
  assert (D0 : lives_differ k0) by (apply differ_run; intros x m; discriminate).
  assert (U0 : unused k0 id) by (apply unused_run; [exact FP|intros x p; discriminate]).
  set (k1 := k_step parsers k0 (CBeginFlow id t par)). assert (KN : known parsers par = true) by (unfold known; destruct (parsers par); congruence).
  assert (O1 : k_open k1 id = Some n) by (unfold k1; cbn [k_step]; unfold k_begin; rewrite KN; cbn [k_open]; unfold set; rewrite Nat.eqb_refl; reflexivity).
  assert (H1 : is_life k1 id n t []) by (unfold k1, is_life; cbn [k_step]; unfold k_begin; rewrite KN; cbn [k_lives]; rewrite nth_error_app2, Nat.sub_diag by (unfold n; lia); reflexivity).
  assert (U1 : unused k1 id) by (apply unused_step; [exact Logic.I|exact U0]).
  destruct (own_run parsers id n t mid FM k1 [] (differ_step _ _ _ D0) U1 O1 H1) as (O2 & H2). cbn [app] in H2. set (k2 := k_run parsers k1 mid) in *.
  assert (H3 : is_life (k_step parsers k2 (CEndFlow id)) id n t (sent_to id mid ++ [EndOfData])) by (cbn [k_step]; apply (give_same k2 id n t _ EndOfData O2 H2)).
  (* afterwards the life gets nothing more: its id may be reused, but only with another number *)
  assert (H4 : forall cs k l, lives_differ k -> (forall x, k_open k x <> Some n) -> (n < length (k_lives k))%nat -> is_life k id n t l -> is_life (k_run parsers k cs) id n t l).
  { assert (ST : forall k c l, lives_differ k -> (forall x, k_open k x <> Some n) -> (n < length (k_lives k))%nat -> is_life k id n t l ->
      (forall x, k_open (k_step parsers k c) x <> Some n) /\ (n < length (k_lives (k_step parsers k c)))%nat /\ is_life (k_step parsers k c) id n t l).
    { assert (B : forall k i t' p l, (forall x, k_open k x <> Some n) -> (n < length (k_lives k))%nat -> is_life k id n t l ->
        (forall x, k_open (k_begin parsers k i t' p) x <> Some n) /\ (n < length (k_lives (k_begin parsers k i t' p)))%nat /\ is_life (k_begin parsers k i t' p) id n t l).
      { intros k i t' p l A1 A2 A3. unfold k_begin. destruct (known parsers p); [|auto]. cbn [k_open k_lives]. unfold set, is_life in *. cbn [k_lives]. rewrite app_length, nth_error_app1 by exact A2. split; [|split; [lia|exact A3]].
        intros x. destruct (Nat.eqb x i); [|apply A1]. intros E. injection E as E. lia. }
      assert (G : forall k i v l, (forall x, k_open k x <> Some n) -> (n < length (k_lives k))%nat -> is_life k id n t l ->
        (forall x, k_open (k_give k i v) x <> Some n) /\ (n < length (k_lives (k_give k i v)))%nat /\ is_life (k_give k i v) id n t l).
      { intros k i v l A1 A2 A3. rewrite give_open. split; [exact A1|]. unfold k_give. destruct (k_open k i) as [m|] eqn:O; [|auto]. unfold is_life in *. cbn [k_lives]. rewrite add_input_length, add_input_nth.
        split; [exact A2|]. destruct (Nat.eqb_spec n m) as [->|NE]; [exfalso; exact (A1 _ O)|exact A3]. }
      assert (C : forall k i l, (forall x, k_open k x <> Some n) -> (n < length (k_lives k))%nat -> is_life k id n t l ->
        (forall x, k_open (k_close k i) x <> Some n) /\ (n < length (k_lives (k_close k i)))%nat /\ is_life (k_close k i) id n t l).
      { intros k i l A1 A2 A3. cbn [k_close k_open k_lives]. unfold set. split; [|auto]. intros x. destruct (Nat.eqb x i); [discriminate|apply A1]. }
      intros k c l D A1 A2 A3. destruct c as [i t' p|cid t' oid opar rid rpar|i d|i m|i|cid| |]; cbn [k_step]; auto.
      - destruct (k_pairs k cid); [auto|]. destruct (_ || _).
        + cbn [k_open k_lives]. destruct (B k oid t' opar l A1 A2 A3) as (B1 & B2 & B3). exact (B _ rid t' rpar l B1 B2 B3).
        + destruct (C k oid l A1 A2 A3) as (B1 & B2 & B3). exact (C _ rid l B1 B2 B3).
      - destruct (G k i EndOfData l A1 A2 A3) as (B1 & B2 & B3). exact (C _ i l B1 B2 B3).
      - destruct (k_pairs k cid) as [p|]; [|auto].
        set (ka := if pr_orig p then k_give k (pr_oid p) EndOfData else k). assert (HA : (forall x, k_open ka x <> Some n) /\ (n < length (k_lives ka))%nat /\ is_life ka id n t l) by (unfold ka; destruct (pr_orig p); auto).
        set (kb := if pr_resp p then k_give ka (pr_rid p) EndOfData else ka). assert (HB : (forall x, k_open kb x <> Some n) /\ (n < length (k_lives kb))%nat /\ is_life kb id n t l) by (unfold kb; destruct HA as (? & ? & ?), (pr_resp p); auto).
        destruct HB as (B1 & B2 & B3). destruct (C kb (pr_oid p) l B1 B2 B3) as (E1 & E2 & E3). exact (C _ (pr_rid p) l E1 E2 E3). }
    induction cs as [|c cs IH]; intros k l D A1 A2 A3; [exact A3|]. unfold k_run. cbn [fold_left]. destruct (ST k c l D A1 A2 A3) as (B1 & B2 & B3). apply IH; auto using differ_step. }
  apply (X n (mkL id t (sent_to id mid ++ [EndOfData]))).
  rewrite k_run_app. fold k0. change (CBeginFlow id t par :: mid ++ CEndFlow id :: post) with ([CBeginFlow id t par] ++ mid ++ [CEndFlow id] ++ post).
  rewrite !k_run_app. change (k_run parsers k0 [CBeginFlow id t par]) with k1. fold k2. change (k_run parsers k2 [CEndFlow id]) with (k_step parsers k2 (CEndFlow id)).
  apply H4; [apply differ_step; apply differ_run; apply differ_step; exact D0| | |exact H3].
  - intros x. cbn [k_step k_close k_open]. rewrite give_open. unfold set. destruct (Nat.eqb_spec x id) as [->|NE]; [discriminate|]. intros E.
    assert (D2 : lives_differ k2) by (apply differ_run; apply differ_step; exact D0). destruct (D2 _ _ E) as (L & NL & LI). unfold is_life in H2. rewrite H2 in NL. injection NL as <-. cbn [l_id] in LI. congruence.
  - apply nth_error_Some. unfold is_life in H3. congruence.
Qed.

(** Commands for unknown flows or connections change nothing. *)
Theorem C53_unknown_ignored parsers o b c :
  (match c with CData id _ | CGap id _ | CEndFlow id => lookup (b_flows b) id = None | CEndConn cid => lookup (b_conns b) cid = None | _ => False end) ->
  exec parsers o b c = BOk b.
Proof. destruct c; cbn [exec]; try contradiction; unfold feed; intros ->; reflexivity. Qed.
Theorem C53_known_flows parsers o cs b id : externally_usable parsers -> run_batch parsers o cs = BOk b ->
  (lookup (b_flows b) id = None <-> k_open (k_run parsers book0 cs) id = None).
Proof.
  intros P R. pose proof (inv_run parsers P cs _ _ o b inv0 R) as I. rewrite <- (iv_open _ _ I id). destruct (lookup (b_flows b) id); cbn [option_map]; split; congruence.
Qed.

(** No freed memory is used, and nothing else goes wrong, as long as flows of open connections are ended only together with these. *)
Theorem C53_safe parsers o cs : externally_usable parsers -> respects_end o -> safe_batch parsers book0 cs ->
  match run_batch parsers o cs with
  | BOk _ => True
  | BError _ => In CMalformed cs
  | BUncaught _ => In CBadNumber cs
  | BTerminate | BNull | BFreed => False
  end.
Proof.
  intros P O S. pose proof (run_live parsers P o cs batch0 book0 inv0) as H. specialize (H ltac:(intros x c; discriminate) S). unfold run_batch.
  destruct (run parsers o batch0 cs); try exact H. destruct H as (tr & i & inp & H). exact (O _ _ _ H).
Qed.
(** Without connections every batch is safe. *)
Corollary C53_safe_flows parsers o cs : externally_usable parsers -> respects_end o ->
  Forall (fun c => match c with CBeginConn _ _ _ _ _ _ | CMalformed | CBadNumber => False | _ => True end) cs -> exists b, run_batch parsers o cs = BOk b.
Proof.
  intros P O F. assert (S : safe_batch parsers book0 cs).
  { assert (G : forall k, (forall cid, k_pairs k cid = None) -> safe_batch parsers k cs).
    { induction F as [|c cs H F IH]; intros k N; [exact Logic.I|]. split.
      - destruct c; cbn [safe_cmd]; try exact Logic.I; try contradiction; intros; rewrite N in *; discriminate.
      - apply IH. destruct c; cbn [k_step]; try contradiction; rewrite ?N; intros x; rewrite ?begin_pairs, ?give_pairs; try apply N. cbn [k_close k_pairs]. rewrite give_pairs. apply N. }
    apply G. reflexivity. }
  pose proof (C53_safe parsers o cs P O S) as H. destruct (run_batch parsers o cs) as [b|b|b| | |]; try contradiction; [eauto| |]; rewrite Forall_forall in F; apply F in H; destruct H.
Qed.

(** Non-vacuity: two interleaved flows and a connection. *)
Definition ex_parsers (n : nat) : option parser := if Nat.ltb n 2 then Some (mkParser true true) else None.
Definition ex_oracle : oracle := fun _ _ inp frozen => if frozen then Finishes 0 else if Nat.ltb 2 (length inp) then Throws else Yields.
Definition ex_cmds : list cmd :=
  [CBeginFlow 1 Stream 0; CBeginConn 7 Stream 2 0 3 1; CData 1 [10]%Z; CData 9 [99]%Z; CData 2 [20]%Z; CGap 1 5; CData 3 [30]%Z; CEndFlow 1; CData 1 [11]%Z; CEndConn 7; CBeginFlow 4 Block 5].
Example ex_run : exists b, run_batch ex_parsers ex_oracle ex_cmds = BOk b /\
  calls_of 0 (b_trace b) = [([Data [10]%Z], false, Yields); ([Data [10]%Z; Gap 5], false, Yields); ([Data [10]%Z; Gap 5], true, Finishes 0)] /\
  calls_of 1 (b_trace b) = [([Data [20]%Z], false, Yields); ([Data [20]%Z], true, Finishes 0)].
Proof. eexists. split; [vm_compute; reflexivity|]. split; reflexivity. Qed.
Lemma one_pair parsers k cid p : (forall x q, k_pairs k x = Some q -> x = cid /\ q = p) -> forall id, ~ uses p id -> safe_cmd parsers k (CEndFlow id).
Proof. intros H id N x q E. destruct (H x q E) as (-> & ->). exact N. Qed.
Example ex_safe : safe_batch ex_parsers book0 ex_cmds.
Proof.
  unfold ex_cmds. cbn [safe_batch]. repeat match goal with |- _ /\ _ => split end; try exact Logic.I.
  - intros _ K. discriminate K.
  - apply (one_pair _ _ 7%nat (mkPair 2 3 true true)).
    + intros x q. vm_compute. destruct (Nat.eqb_spec x 7) as [->|N].
      * intros E. injection E as <-. auto.
      * do 8 (destruct x as [|x]; [congruence|]). discriminate.
    + intros [(A & _)|(A & _)]; discriminate A.
  - intros p x q E1 E2 N. exfalso. revert E2. vm_compute. do 8 (destruct x as [|x]; [congruence|]). discriminate.
Qed.
Example ex_usable : externally_usable ex_parsers.
Proof. intros par p. unfold ex_parsers. destruct (Nat.ltb par 2); [intros H; injection H as <-; reflexivity|discriminate]. Qed.
Example ex_end : respects_end ex_oracle.
Proof. intros tr i inp. discriminate. Qed.

(** Ending flows and connections in any order is not safe: @end-flow for a flow of a connection, then @end-conn (driver.cc:595, 602). *)
Theorem C53_end_order_refuted : ~ (forall parsers o cs, externally_usable parsers -> respects_end o -> run_batch parsers o cs <> BFreed).
Proof. intros H. apply (H ex_parsers ex_oracle [CBeginConn 7 Stream 2 0 3 1; CEndFlow 2; CEndConn 7] ex_usable ex_end). reflexivity. Qed.
(** Two connections that share a flow id; and a connection without parsers that reuses ids (driver.cc:512-513). *)
Theorem C53_shared_flow_refuted : ~ (forall parsers o cs, externally_usable parsers -> respects_end o -> (forall id, ~ In (CEndFlow id) cs) -> run_batch parsers o cs <> BFreed).
Proof.
  intros H. apply (H ex_parsers ex_oracle [CBeginConn 7 Stream 2 0 3 1; CBeginConn 8 Stream 2 0 4 1; CEndConn 7; CEndConn 8] ex_usable ex_end); [|reflexivity].
  intros id I. cbn [In] in I. intuition discriminate.
Qed.
Theorem C53_unknown_parser_refuted : ~ (forall parsers o cs, externally_usable parsers -> respects_end o ->
  (forall id, ~ In (CEndFlow id) cs) -> (forall a b, In (CEndConn a) cs -> In (CEndConn b) cs -> a = b) -> run_batch parsers o cs <> BFreed).
Proof.
  intros H. apply (H ex_parsers ex_oracle [CBeginConn 7 Stream 2 0 3 1; CBeginConn 8 Stream 2 5 3 5; CEndConn 7] ex_usable ex_end); [| |reflexivity].
  - intros id I. cbn [In] in I. intuition discriminate.
  - intros a b IA IB. cbn [In] in *. intuition congruence.
Qed.
(** A block-type flow whose unit cannot be used externally: the second @data calls a null function pointer (driver.cc:287-312). *)
Theorem C53_null_call_refuted : ~ (forall parsers o cs, respects_end o -> run_batch parsers o cs <> BNull).
Proof. intros H. apply (H (fun _ => Some (mkParser false false)) ex_oracle [CBeginFlow 1 Block 0; CData 1 [10]%Z; CData 1 [11]%Z] ex_end). reflexivity. Qed.

(** The two sides of a connection share a context (if the originator's parser has one), and nothing older has it. *)
Definition contexts_known (b : batch) : Prop := forall i id t c, In (EBegin i id t (Some c)) (b_trace b) -> (c < b_next b)%nat.
Definition begins (tr : list event) : list event := filter (fun e => match e with EBegin _ _ _ _ => true | _ => false end) tr.
Lemma begins_in i id t c tr : In (EBegin i id t c) tr <-> In (EBegin i id t c) (begins tr).
Proof. unfold begins. rewrite filter_In. tauto. Qed.
Lemma handle_begins o b id f i b' : handle b id f (give o (f_inst f) (f_state f) (b_trace b) i) = BOk b' -> begins (b_trace b') = begins (b_trace b) /\ b_next b' = b_next b.
Proof.
  assert (X : forall inst s tr p e, match process_ o inst s tr p e with PDone _ tr' | PContinue _ tr' | PThrow _ tr' => begins tr' = begins tr | _ => True end).
  { intros inst s tr p e. assert (Y : forall i fr a, begins (tr ++ [ECall inst i fr p a]) = begins tr) by (intros; unfold begins; rewrite filter_app; apply app_nil_r).
    unfold process_, ask. cbv zeta. destruct (s_parser s) as [par|]; [|reflexivity]. destruct (s_skip s); [reflexivity|]. destruct (s_type s).
    - destruct (s_done s); [reflexivity|]. destruct (s_input s) as [inp|]; [|destruct (negb (p_parse1 par)); [reflexivity|]];
        (destruct (o _ _ _ _); [destruct e; [exact Logic.I|]| |]); apply Y.
    - destruct (_ && _); [reflexivity|]. destruct (negb _); [exact Logic.I|]. destruct (o _ _ _ _); [exact Logic.I| |]; apply Y. }
  assert (G : match give o (f_inst f) (f_state f) (b_trace b) i with PDone _ tr' | PContinue _ tr' | PThrow _ tr' => begins tr' = begins (b_trace b) | _ => True end).
  { destruct i as [p|]; cbn [give]; [apply X|]. unfold finish. destruct (s_type (f_state f)); [apply X|reflexivity]. }
  destruct (give o (f_inst f) (f_state f) (b_trace b) i); cbn [handle]; intros H; try discriminate; injection H as <-; auto.
Qed.
Lemma contexts_create parsers b t par id ctx : contexts_known b -> (forall c, ctx = Some c -> (c < b_next b)%nat) -> contexts_known (fst (create_state parsers b t par id ctx)).
Proof.
  intros C K. unfold create_state. destruct (parsers par) as [p|]; [|exact C]. intros i x t' c. cbn [fst b_trace b_next]. rewrite in_app_iff. intros [I|[I|[]]].
  - apply C in I. lia.
  - injection I as <- <- <- I. destruct ctx as [c'|]; [injection I as <-; specialize (K _ eq_refl); lia|]. destruct (p_context p); [injection I as <-; lia|discriminate].
Qed.
Lemma contexts_next parsers b t par id ctx b1 n c : (forall c, ctx = Some c -> (c < b_next b)%nat) -> create_state parsers b t par id ctx = (b1, Some (n, Some c)) -> (c < b_next b1)%nat.
Proof.
  intros K. unfold create_state. destruct (parsers par) as [p|]; [|discriminate]. intros H. injection H as <- _ H. cbn [b_next].
  destruct ctx as [c'|]; [injection H as <-; specialize (K _ eq_refl); lia|]. destruct (p_context p); [injection H as <-; lia|discriminate].
Qed.
Lemma contexts_same b b' : begins (b_trace b') = begins (b_trace b) -> b_next b' = b_next b -> contexts_known b -> contexts_known b'.
Proof. intros E N C i id t c. rewrite begins_in, E, N, <- begins_in. apply C. Qed.
Lemma contexts_exec parsers o b c b' : contexts_known b -> exec parsers o b c = BOk b' -> contexts_known b'.
Proof.
  intros C H. assert (FA : forall b ptr b1, finish_at o b ptr = BOk b1 -> begins (b_trace b1) = begins (b_trace b) /\ b_next b1 = b_next b).
  { intros b0 ptr b1 F. unfold finish_at in F. destruct ptr as [n|]; [|injection F as <-; auto]. destruct (at_node (b_flows b0) n) as [[x f]|]; [|discriminate]. exact (handle_begins o b0 x f EndOfData b1 F). }
  destruct c as [id t par|cid t oid opar rid rpar|id d|id n|id|cid| |]; cbn [exec] in H; try discriminate.
  - injection H as <-. apply contexts_create; [exact C|discriminate].
  - destruct (lookup (b_conns b) cid); [injection H as <-; exact C|].
    destruct (create_state parsers b t opar oid None) as [b1 orig] eqn:C1. pose proof (contexts_create parsers b t opar oid None C ltac:(discriminate)) as K1. rewrite C1 in K1. cbn [fst] in K1.
    set (ctx := match orig with Some (_, ctx) => ctx | None => None end) in *. destruct (create_state parsers b1 t rpar rid ctx) as [b2 resp] eqn:C2.
    assert (KC : forall c, ctx = Some c -> (c < b_next b1)%nat).
    { intros c E. destruct orig as [[n x]|]; cbn in E; [subst ctx; subst x|discriminate]. eapply (contexts_next parsers b t opar oid None); [discriminate|exact C1]. }
    pose proof (contexts_create parsers b1 t rpar rid ctx K1 KC) as K2. rewrite C2 in K2. cbn [fst] in K2. destruct orig, resp; injection H as <-; exact K2.
  - unfold feed in H. destruct (lookup (b_flows b) id) as [f|]; [|injection H as <-; exact C]. destruct (handle_begins o b id f (Piece (Data d)) b' H). eapply contexts_same; eassumption.
  - unfold feed in H. destruct (lookup (b_flows b) id) as [f|]; [|injection H as <-; exact C]. destruct (handle_begins o b id f (Piece (Gap n)) b' H). eapply contexts_same; eassumption.
  - destruct (lookup (b_flows b) id) as [f|]; [|injection H as <-; exact C].
    destruct (handle b id f (finish o (f_inst f) (f_state f) (b_trace b))) as [b1| | | | |] eqn:E; try discriminate. injection H as <-. destruct (handle_begins o b id f EndOfData b1 E). eapply contexts_same; [| |exact C]; assumption.
  - destruct (lookup (b_conns b) cid) as [c0|]; [|injection H as <-; exact C].
    destruct (finish_at o b (c_orig c0)) as [b1| | | | |] eqn:F1; try discriminate. destruct (finish_at o b1 (c_resp c0)) as [b2| | | | |] eqn:F2; try discriminate. injection H as <-.
    destruct (FA _ _ _ F1) as (A1 & A2). destruct (FA _ _ _ F2) as (B1 & B2). eapply contexts_same; [| |exact C]; cbn [b_trace b_next]; congruence.
Qed.
Lemma contexts_run parsers o cs : forall b b', contexts_known b -> run parsers o b cs = BOk b' -> contexts_known b'.
Proof.
  induction cs as [|c cs IH]; intros b b' C H; cbn [run] in H; [injection H as <-; exact C|]. destruct (exec parsers o b c) as [b1| | | | |] eqn:E; try discriminate.
  eapply IH; [|exact H]. eapply contexts_exec; eassumption.
Qed.
Theorem C53_shared_context parsers o cs b cid t oid opar rid rpar p q : run_batch parsers o cs = BOk b ->
  lookup (b_conns b) cid = None -> parsers opar = Some p -> p_context p = true -> parsers rpar = Some q ->
  exists b' i j c, exec parsers o b (CBeginConn cid t oid opar rid rpar) = BOk b' /\
    b_trace b' = b_trace b ++ [EBegin i oid t (Some c); EBegin j rid t (Some c)] /\
    forall i' id' t', ~ In (EBegin i' id' t' (Some c)) (b_trace b).
Proof.
  intros R L P PC Q. assert (C : contexts_known b) by (eapply contexts_run; [|exact R]; intros i id t' c []).
  cbn [exec]. rewrite L. unfold create_state at 1. rewrite P, PC. cbn [fst]. unfold create_state. rewrite Q. do 4 eexists. split; [reflexivity|]. cbn [b_trace]. rewrite <- app_assoc. split; [reflexivity|].
  intros i' id' t' I. apply C in I. lia.
Qed.

(** ** C60 *)
(** The pieces of a file read with [len] bytes at a time: at least one, and the last one knows that it is the last. *)
Lemma pi_loop_ok o len : (0 < len <= buffer_size)%nat -> forall n seen file calls, (length file < n)%nat ->
  (forall c, In c calls -> snd c = Yields) -> (forall s, calls <> [] -> last calls s = last calls (seen, false, Yields) ) ->
  exists more, pi_loop n o len seen file calls = PiCalls (calls ++ more) /\ more <> [] /\
    (forall j c, nth_error more j = Some c ->
       fst (fst c) = seen ++ firstn (S j * len) file /\ snd (fst c) = Nat.leb (length file) (S j * len) /\ snd c = o (fst (fst c)) (snd (fst c)) /\
       (S j < length more -> snd c = Yields)%nat) /\
    (exists front s fr a, more = front ++ [(s, fr, a)] /\ (fr = true \/ a <> Yields)).
Proof.
  intros LB. induction n as [|n IH]; intros seen file calls L Y D; [lia|]. cbn [pi_loop].
  replace (Nat.ltb buffer_size (length (firstn len file))) with false by (symmetry; apply Nat.ltb_ge; rewrite firstn_length; lia).
  set (rest := skipn len file). set (s1 := seen ++ firstn len file). set (fr := match rest with [] => true | _ => false end). set (a := o s1 fr).
  assert (FR : fr = Nat.leb (length file) len).
  { unfold fr. assert (LR : length rest = (length file - len)%nat) by (unfold rest; apply skipn_length). destruct rest as [|x r]; cbn [length] in LR; symmetry; [apply Nat.leb_le|apply Nat.leb_gt]; lia. }
  assert (STOP : fr = true \/ a <> Yields -> exists more, PiCalls (calls ++ [(s1, fr, a)]) = PiCalls (calls ++ more) /\ more <> [] /\
    (forall j c, nth_error more j = Some c -> fst (fst c) = seen ++ firstn (S j * len) file /\ snd (fst c) = Nat.leb (length file) (S j * len) /\ snd c = o (fst (fst c)) (snd (fst c)) /\
       (S j < length more -> snd c = Yields)%nat) /\ (exists front s fr' a', more = front ++ [(s, fr', a')] /\ (fr' = true \/ a' <> Yields))).
  { intros ST. exists [(s1, fr, a)]. split; [reflexivity|]. split; [discriminate|]. split; [|exists [], s1, fr, a; auto].
    intros j c H. destruct j as [|j]; [|destruct j; discriminate]. injection H as <-. cbn [fst snd length]. replace (1 * len)%nat with len by lia. repeat split; [exact FR|lia]. }
  destruct a eqn:EA; [|apply STOP; right; discriminate|apply STOP; right; discriminate]. destruct fr eqn:EF; [apply STOP; left; reflexivity|].
  symmetry in FR. apply Nat.leb_gt in FR.
  destruct (IH s1 rest (calls ++ [(s1, false, Yields)])) as (more & E & NE & NTH & LST).
  - unfold rest. rewrite skipn_length. lia.
  - intros c I. apply in_app_or in I. destruct I as [I|[<-|[]]]; [apply Y; exact I|reflexivity].
  - intros s _. rewrite !last_last. reflexivity.
  - exists ((s1, false, Yields) :: more). rewrite E, <- app_assoc. split; [reflexivity|]. split; [discriminate|]. split.
    + intros j c H. destruct j as [|j].
      * injection H as <-. cbn [fst snd]. replace (1 * len)%nat with len by lia. repeat split; [|symmetry; exact EA]. symmetry. apply Nat.leb_gt. lia.
      * cbn [nth_error] in H. destruct (NTH j c H) as (A & B & C & F). repeat split.
        -- rewrite A. unfold s1. rewrite <- app_assoc. f_equal. unfold rest. replace (S (S j) * len)%nat with (len + S j * len)%nat by lia.
           rewrite <- (firstn_skipn len file) at 3. rewrite firstn_app, firstn_length, firstn_firstn. rewrite Nat.min_r by lia. f_equal. f_equal. lia.
        -- rewrite B. unfold rest. rewrite skipn_length. destruct (Nat.leb_spec (length file - len) (S j * len)), (Nat.leb_spec (length file) (S (S j) * len)); lia || reflexivity.
        -- exact C.
        -- intros LT. apply F. cbn [length] in LT. lia.
    + destruct LST as (front & s & f & x & E1 & E2). exists ((s1, false, Yields) :: front), s, f, x. rewrite E1. auto.
Qed.
(** Whatever the increment (up to the size of the buffer), the parser sees the file growing by that many bytes with each call, knows the end
    exactly when all of it is there, and is called until it stops yielding or has seen everything. *)
Theorem C60_whole_input o file increment : (increment <= Z.of_nat buffer_size)%Z ->
  exists calls, process_input o file increment = PiCalls calls /\ calls <> [] /\
    (forall j c, nth_error calls j = Some c ->
       fst (fst c) = firstn (S j * read_len increment) file /\ snd (fst c) = Nat.leb (length file) (S j * read_len increment) /\
       snd c = o (fst (fst c)) (snd (fst c)) /\ (S j < length calls -> snd c = Yields)%nat) /\
    (exists front s fr a, calls = front ++ [(s, fr, a)] /\ (fr = true \/ a <> Yields)).
Proof.
  intros L. assert (LB : (0 < read_len increment <= buffer_size)%nat).
  { unfold read_len. destruct (Z.gtb_spec increment 0); [lia|]. split; [|lia]. apply Nat.ltb_lt. reflexivity. }
  destruct (pi_loop_ok o (read_len increment) LB (S (length file)) [] file [] ltac:(lia) ltac:(intros c []) ltac:(intros s N; contradiction)) as (more & E & NE & NTH & LST).
  exists more. unfold process_input. rewrite E. auto.
Qed.
Example ex_input : process_input (fun _ fr => if fr then Finishes 3 else Yields) [1; 2; 3; 4; 5]%Z 2 =
  PiCalls [([1; 2]%Z, false, Yields); ([1; 2; 3; 4]%Z, false, Yields); ([1; 2; 3; 4; 5]%Z, true, Finishes 3)].
Proof. reflexivity. Qed.
(** A larger increment overflows the buffer on the stack (driver.cc:186, 197-199). *)
Theorem C60_increment_refuted : ~ (forall o file increment, process_input o file increment <> PiOverflow).
Proof.
  intros H. apply (H (fun _ _ => Throws) (repeat 0%Z (S buffer_size)) (Z.of_nat (S buffer_size))).
  unfold process_input. remember (S buffer_size) as m eqn:M. cbn [pi_loop]. unfold read_len.
  replace (Z.of_nat m >? 0)%Z with true by (symmetry; apply Z.gtb_lt; lia). rewrite Nat2Z.id. rewrite firstn_all2 by (rewrite repeat_length; lia). rewrite repeat_length.
  replace (Nat.ltb buffer_size m) with true by (symmetry; apply Nat.ltb_lt; lia). reflexivity.
Qed.

(** ** C61: a parsing state as used by a host application. *)
(** The inputs since the last reset(), up to skipRemaining(). *)
Definition seg_step (x : nat * bool * list input) (y : op) : nat * bool * list input :=
  let '(n, skipped, l) := x in
  match y with
  | OReset => (S n, false, [])
  | OSkip => (n, true, l)
  | OProcess p => if skipped then x else (n, skipped, l ++ [Piece p])
  | OFinish => if skipped then x else (n, skipped, l ++ [EndOfData])
  end.
Definition segment (l : list op) : nat * bool * list input := fold_left seg_step l (0%nat, false, []).
(** The state either is [st_ok], or it skips. *)
Definition sk_ok (st : nat * pstate * list event) (t : ptype) (x : nat * bool * list input) : Prop :=
  let '(inst, s, tr) := st in let '(n, skipped, l) := x in
  inst = n /\ s_skip s = skipped /\ (exists p, s_parser s = Some p /\ p_parse1 p = true) /\ s_type s = t /\ (forall m, (inst < m)%nat -> calls_of m tr = []) /\
  st_ok (mkS (s_type s) (s_parser s) false (s_done s) (s_input s) (s_res s)) t l (calls_of inst tr) /\ fed t l (calls_of inst tr) /\ Forall memory_ok tr.
Lemma skip_id s : s_skip s = false -> mkS (s_type s) (s_parser s) false (s_done s) (s_input s) (s_res s) = s.
Proof. intros E. destruct s. cbn in *. subst. reflexivity. Qed.
Lemma skipped_give o inst s tr i p : s_parser s = Some p -> s_skip s = true -> exists s', give o inst s tr i = PDone s' tr /\ s' = s.
Proof. intros P K. exists s. split; [|reflexivity]. destruct i; unfold give, process, finish, process_; rewrite P, K; [|destruct (s_type s)]; reflexivity. Qed.
Lemma do_op_give o inst s tr y i : (y = OProcess (input_piece i) /\ (exists p, i = Piece p)) \/ (y = OFinish /\ i = EndOfData) -> do_op o (inst, s, tr) y = after inst (give o inst s tr i).
Proof. intros [(-> & p & ->)|(-> & ->)]; reflexivity. Qed.
Lemma sk_step o st t x y st' : sk_ok st t x -> do_op o st y = Some st' -> sk_ok st' t (seg_step x y).
Proof.
  destruct st as [[inst s] tr], x as [[n sk] l]. intros (-> & SK & (p & P & P1) & T & NC & ST & FD & ME) H.
  assert (IN : forall i, after n (give o n s tr i) = Some st' -> sk_ok st' t (if sk then (n, sk, l) else (n, sk, l ++ [i]))).
  { intros i G. destruct sk.
    - destruct (skipped_give o n s tr i p P SK) as (s' & E & ->). rewrite E in G. injection G as <-. unfold sk_ok. split; [reflexivity|]. split; [exact SK|]. split; [eauto|]. split; [exact T|]. split; [exact NC|]. split; [exact ST|]. split; [exact FD|exact ME].
    - rewrite (skip_id s SK) in ST. pose proof (give_ok o n s tr t l i ST FD) as GK.
      assert (Z : exists s' tr', st' = (n, s', tr') /\ gave n t l i tr s' tr') by (destruct (give o n s tr i) as [s' tr'|s' tr'|s' tr'| |]; try discriminate; injection G as <-; exists s', tr'; auto).
      destruct Z as (s' & tr' & -> & (ev & -> & MV & OT) & SO & FE). pose proof SO as (SO1 & SO2 & SO3 & _). unfold sk_ok. rewrite (skip_id s' SO3).
      split; [reflexivity|]. split; [exact SO3|]. split; [exact SO2|]. split; [exact SO1|]. split.
      + intros m M. rewrite calls_app, NC by exact M. apply OT. lia.
      + split; [exact SO|]. split; [exact FE|]. apply Forall_app. auto. }
  destruct y as [q| | |]; cbn [seg_step].
  - apply (IN (Piece q)). exact H.
  - apply (IN EndOfData). exact H.
  - cbn [do_op] in H. injection H as <-. unfold sk_ok. cbn [skip_remaining s_skip s_parser s_type s_done s_input s_res].
    split; [reflexivity|]. split; [reflexivity|]. split; [eauto|]. split; [exact T|]. split; [exact NC|]. split; [exact ST|]. split; [exact FD|exact ME].
  - cbn [do_op] in H. injection H as <-. unfold sk_ok. cbn [reset s_skip s_parser s_type s_done s_input s_res]. rewrite (NC (S n)) by lia.
    split; [reflexivity|]. split; [reflexivity|]. split; [eauto|]. split; [exact T|]. split; [intros m M; apply NC; lia|]. split; [|split; [|exact ME]].
    + split; [exact T|]. split; [eauto|]. split; [reflexivity|]. intros _. cbn. repeat split. intros c [].
    + destruct t; cbn [fed]; [|reflexivity]. repeat split; [intros c []|left; reflexivity].
Qed.
Lemma sk_run o ops : forall st t x st', sk_ok st t x -> do_ops o st ops = Some st' -> sk_ok st' t (fold_left seg_step ops x).
Proof.
  induction ops as [|y ops IH]; intros st t x st' K H; cbn [do_ops fold_left] in *; [injection H as <-; exact K|]. destruct (do_op o st y) as [st1|] eqn:E; [|discriminate].
  eapply IH; [|exact H]. eapply sk_step; eassumption.
Qed.
(** Whatever the sequence of calls, the parser gets exactly the input since the last reset() and before skipRemaining(). *)
Theorem C61_inputs o t p ops inst s tr : p_parse1 p = true -> do_ops o (0%nat, new_state t (Some p), []) ops = Some (inst, s, tr) ->
  exists skipped l, segment ops = (inst, skipped, l) /\ fed t l (calls_of inst tr) /\ Forall memory_ok tr.
Proof.
  intros P H. assert (K : sk_ok (0%nat, new_state t (Some p), []) t (0%nat, false, [])).
  { cbn. split; [reflexivity|]. split; [reflexivity|]. split; [exists p; auto|]. split; [reflexivity|]. split; [reflexivity|]. split; [|split; [|constructor]].
    - split; [reflexivity|]. split; [exists p; auto|]. split; [reflexivity|]. intros _. cbn. repeat split. intros c [].
    - destruct t; cbn [fed]; [|reflexivity]. repeat split; [intros c []|left; reflexivity]. }
  pose proof (sk_run o ops _ _ _ _ K H) as R. unfold segment. destruct (fold_left seg_step ops (0%nat, false, [])) as [[n sk] l]. destruct R as (-> & _ & _ & _ & _ & _ & FD & ME). eauto.
Qed.
(** For streams, isFinished() says whether input is still of interest. *)
Theorem C61_finished o p ops inst s tr : p_parse1 p = true -> do_ops o (0%nat, new_state Stream (Some p), []) ops = Some (inst, s, tr) ->
  (is_finished s = true <-> snd (fst (segment ops)) = true \/ exists front c, calls_of inst tr = front ++ [c] /\ snd c <> Yields) /\
  (is_finished s = true -> forall x, process o inst s tr x = PDone s tr /\ finish o inst s tr = PDone s tr).
Proof.
  intros P H. assert (K : sk_ok (0%nat, new_state Stream (Some p), []) Stream (0%nat, false, [])).
  { cbn. split; [reflexivity|]. split; [reflexivity|]. split; [exists p; auto|]. split; [reflexivity|]. split; [reflexivity|]. split; [|split; [|constructor]].
    - split; [reflexivity|]. split; [exists p; auto|]. split; [reflexivity|]. intros _. cbn. repeat split. intros c [].
    - repeat split; [intros c []|left; reflexivity]. }
  pose proof (sk_run o ops _ _ _ _ K H) as R. unfold segment. destruct (fold_left seg_step ops (0%nat, false, [])) as [[n sk] l].
  destruct R as (-> & SK & (q & Q & _) & T & _ & (_ & _ & _ & ST) & FD & _). specialize (ST eq_refl). cbn [s_done s_input] in ST. cbn [fst snd]. unfold is_finished. rewrite SK. split.
  - destruct (s_done s); cbn [orb].
    + split; [intros _; right; exact ST|reflexivity].
    + split; [intros ->; left; reflexivity|]. intros [E|(front & c & E & NY)]; [exact E|]. exfalso. apply NY. apply (proj1 (proj2 ST)). rewrite E. apply in_or_app. right. left. reflexivity.
  - intros F x. unfold process, finish, process_. rewrite T, Q, SK. destruct sk; [auto|]. rewrite orb_false_r in F. rewrite F. auto.
Qed.
(** reset() makes it like new. *)
Theorem C61_reset s : s_skip (reset s) = false /\ reset s = new_state (s_type s) (s_parser s).
Proof. split; reflexivity. Qed.
Example ex_ops : do_ops ex_oracle (0%nat, new_state Stream (Some (mkParser true false)), []) [OProcess (Data [1]%Z); OReset; OProcess (Data [2]%Z); OProcess (Data []); OSkip; OProcess (Data [3]%Z); OFinish] <> None /\
  segment [OProcess (Data [1]%Z); OReset; OProcess (Data [2]%Z); OProcess (Data []); OSkip; OProcess (Data [3]%Z); OFinish] = (1%nat, true, [Piece (Data [2]%Z); Piece (Data [])]).
Proof. split; [vm_compute; discriminate|reflexivity]. Qed.
(** For blocks it does not: after an exception isFinished() is true, but further blocks are parsed (driver.cc:278-318 never looks at _done). *)
Theorem C61_block_finished_refuted : ~ (forall o p ops inst s tr, p_parse1 p = true -> do_ops o (0%nat, new_state Block (Some p), []) ops = Some (inst, s, tr) ->
  is_finished s = true -> forall x, process o inst s tr x = PDone s tr).
Proof.
  intros H. set (o := fun (_ : list event) (_ : nat) (_ : list (piece * bool)) (_ : bool) => Throws).
  destruct (do_ops o (0%nat, new_state Block (Some (mkParser true false)), []) [OProcess (Data [1]%Z)]) as [[[inst s] tr]|] eqn:E; [|vm_compute in E; discriminate].
  pose proof (H o (mkParser true false) _ _ _ _ eq_refl E) as X. vm_compute in E. injection E as <- <- <-. specialize (X eq_refl (Data [])). discriminate X.
Qed.

(** The offset that finish() returns: where the last call that finished stopped; none if no call since the last reset() did. *)
Definition last_finished (calls : list (list piece * bool * answer)) : option Z :=
  fold_left (fun r c => match snd c with Finishes off => Some off | _ => r end) calls None.
Definition off_ok (st : nat * pstate * list event) : Prop :=
  let '(inst, s, tr) := st in
  result_offset s = last_finished (calls_of inst tr) /\ (s_type s = Stream -> s_done s = false -> result_offset s = None) /\
  (forall m, (inst < m)%nat -> calls_of m tr = []).
Lemma last_finished_snoc l c : last_finished (l ++ [c]) = match snd c with Finishes off => Some off | _ => last_finished l end.
Proof. unfold last_finished. rewrite fold_left_app. reflexivity. Qed.
Lemma calls_snoc inst tr i fr cur a : calls_of inst (tr ++ [ECall inst i fr cur a]) = calls_of inst tr ++ [(nonempty (map fst i), fr, a)].
Proof. rewrite calls_app. f_equal. unfold calls_of. cbn [flat_map]. rewrite Nat.eqb_refl. reflexivity. Qed.
Lemma calls_snoc_other inst m tr i fr cur a : (inst < m)%nat -> calls_of m (tr ++ [ECall inst i fr cur a]) = calls_of m tr.
Proof. intros L. rewrite calls_app. unfold calls_of at 2. cbn [flat_map]. replace (Nat.eqb inst m) with false by (symmetry; apply Nat.eqb_neq; lia). apply app_nil_r. Qed.
Lemma process_off o inst s tr p eod : off_ok (inst, s, tr) ->
  match process_ o inst s tr p eod with PDone s' tr' | PContinue s' tr' | PThrow s' tr' => off_ok (inst, s', tr') | _ => True end.
Proof.
  intros (A & B & C). unfold process_. destruct (s_parser s) as [par|]; [|repeat split; assumption]. destruct (s_skip s); [repeat split; assumption|].
  assert (N : forall i fr cur a m, (inst < m)%nat -> calls_of m (tr ++ [ECall inst i fr cur a]) = []) by (intros; rewrite calls_snoc_other by assumption; apply C; assumption).
  destruct (s_type s) eqn:T.
  - destruct (s_done s) eqn:D; [unfold off_ok; rewrite T, D; auto|]. specialize (B eq_refl eq_refl). destruct (s_input s) as [i|].
    + cbn zeta. unfold ask. destruct (o _ _ _ _); [destruct eod; [exact I|]| |]; unfold off_ok; rewrite calls_snoc, last_finished_snoc; cbn [snd]; cbn; rewrite <- ?A, ?B; repeat split; try congruence; intros; apply N; assumption.
    + destruct (p_parse1 par); cbn [negb]; [|unfold off_ok; cbn; repeat split; [exact A|congruence|exact C]].
      unfold ask. destruct (o _ _ _ _); [destruct eod; [exact I|]| |]; unfold off_ok; rewrite calls_snoc, last_finished_snoc; cbn [snd]; cbn; rewrite <- ?A, ?B; repeat split; try congruence; try (intros; apply N; assumption).
      all: try (unfold result_offset in B; cbn; exact B).
  - destruct (p_parse1 par); [|rewrite andb_true_r; destruct (match s_input s with None => true | Some _ => false end); [unfold off_ok; cbn; rewrite T; repeat split; [exact A|congruence|exact C]|exact I]].
    rewrite andb_false_r. cbn [negb]. unfold ask. destruct (o _ _ _ _); [exact I| |]; unfold off_ok; rewrite calls_snoc, last_finished_snoc; cbn [snd]; cbn; rewrite T, <- ?A; repeat split; try congruence; intros; apply N; assumption.
Qed.
Theorem C61_offset o t p ops inst s tr : do_ops o (0%nat, new_state t p, []) ops = Some (inst, s, tr) -> result_offset s = last_finished (calls_of inst tr).
Proof.
  assert (G : forall ops st st', off_ok st -> do_ops o st ops = Some st' -> off_ok st').
  { clear. induction ops as [|y ops IH]; intros st st' K H; cbn [do_ops] in H; [injection H as <-; exact K|]. destruct (do_op o st y) as [st1|] eqn:E; [|discriminate].
    apply (IH st1 st'); [|exact H]. clear IH H. destruct st as [[n s] tr]. destruct y as [q| | |]; cbn [do_op] in E.
    - pose proof (process_off o n s tr q false K) as P. unfold process in E. destruct (process_ o n s tr q false); cbn [after] in E; try discriminate; injection E as <-; exact P.
    - unfold finish in E. destruct (s_type s) eqn:T; [|cbn [after] in E; injection E as <-; exact K].
      pose proof (process_off o n s tr (Data []) true K) as P. destruct (process_ o n s tr (Data []) true); cbn [after] in E; try discriminate; injection E as <-; exact P.
    - injection E as <-. exact K.
    - injection E as <-. destruct K as (_ & _ & C). unfold off_ok, reset. rewrite (C (S n)) by lia. cbn. repeat split. intros m L. apply C. lia. }
  intros H. apply (G ops _ _) in H; [apply H|]. cbn. repeat split.
Qed.
Example ex_offset : let o := fun (tr : list event) (_ : nat) (i : list (piece * bool)) (_ : bool) => if Nat.ltb (length i) 2 then Yields else Finishes 7 in
  match do_ops o (0%nat, new_state Stream (Some (mkParser true false)), []) [OProcess (Data [1]%Z); OProcess (Data [2]%Z); OFinish] with
  | Some (inst, s, tr) => result_offset s = Some 7%Z /\ length (calls_of inst tr) = 2%nat
  | None => False
  end.
Proof. vm_compute. auto. Qed.
