(** The batch driver. *)
From Verif Require Import Base DriverModel DriverSpec DriverProofs.

Lemma lookup_update {A} (l : list (nat * A)) k a k' : lookup (update l k a) k' = if Nat.eqb k' k then Some a else lookup l k'.
Proof.
  induction l as [|[x b] l IH]; cbn [update lookup].
  - rewrite Nat.eqb_sym. reflexivity.
  - destruct (Nat.eqb_spec x k) as [->|N]; cbn [lookup].
    + rewrite (Nat.eqb_sym k k'). destruct (Nat.eqb k' k); reflexivity.
    + destruct (Nat.eqb_spec x k') as [->|N']; [apply Nat.eqb_neq in N; rewrite N; reflexivity|]. exact IH.
Qed.
Lemma lookup_erase {A} (l : list (nat * A)) k k' : lookup (erase l k) k' = if Nat.eqb k' k then None else lookup l k'.
Proof.
  unfold erase. induction l as [|[x b] l IH]; cbn [filter lookup fst]; [destruct (Nat.eqb k' k); reflexivity|].
  destruct (Nat.eqb_spec x k) as [->|N]; cbn [negb lookup].
  - rewrite IH, (Nat.eqb_sym k k'). destruct (Nat.eqb k' k); reflexivity.
  - rewrite IH. destruct (Nat.eqb_spec x k') as [->|N']; [|reflexivity]. apply Nat.eqb_neq in N. rewrite N. reflexivity.
Qed.
Lemma lookup_in {A} (l : list (nat * A)) k a : lookup l k = Some a -> In (k, a) l.
Proof.
  induction l as [|[x b] l IH]; cbn [lookup]; [discriminate|]. destruct (Nat.eqb_spec x k) as [->|N]; [intros H; injection H as ->; left; reflexivity|].
  intros H. right. apply IH. exact H.
Qed.
Lemma in_lookup {A} (l : list (nat * A)) k a : NoDup (map fst l) -> In (k, a) l -> lookup l k = Some a.
Proof.
  induction l as [|[x b] l IH]; intros N I; [destruct I|]. cbn [map fst] in N. inversion N; subst. cbn [lookup]. destruct I as [I|I].
  - injection I as -> ->. rewrite Nat.eqb_refl. reflexivity.
  - destruct (Nat.eqb_spec x k) as [->|NE]; [exfalso; apply H1; apply (in_map fst) in I; exact I|]. apply IH; assumption.
Qed.
Lemma keys_update {A} (l : list (nat * A)) k a x : In x (map fst (update l k a)) <-> x = k \/ In x (map fst l).
Proof.
  induction l as [|[y b] l IH]; cbn [update map fst In]; [intuition|]. destruct (Nat.eqb_spec y k) as [->|N]; cbn [map fst In]; [intuition|]. rewrite IH. intuition.
Qed.
Lemma nodup_update {A} (l : list (nat * A)) k a : NoDup (map fst l) -> NoDup (map fst (update l k a)).
Proof.
  induction l as [|[y b] l IH]; intros N; cbn [update map fst]; [repeat constructor; intros []|]. cbn [map fst] in N. inversion N; subst.
  destruct (Nat.eqb_spec y k) as [->|NE]; cbn [map fst]; [constructor; assumption|]. constructor; [|apply IH; assumption].
  rewrite keys_update. intros [E | I]; [congruence|contradiction].
Qed.
Lemma nodup_erase {A} (l : list (nat * A)) k : NoDup (map fst l) -> NoDup (map fst (erase l k)).
Proof.
  unfold erase. induction l as [|[y b] l IH]; intros N; cbn [filter map fst]; [constructor|]. cbn [map fst] in N. inversion N; subst.
  destruct (negb (Nat.eqb y k)); [|apply IH; assumption]. cbn [map fst]. constructor; [|apply IH; assumption].
  intros I. apply H1. apply in_map_iff in I. destruct I as (e & E & I). apply filter_In in I. apply in_map_iff. exists e. tauto.
Qed.
Lemma at_node_some l n id f : at_node l n = Some (id, f) -> In (id, f) l /\ f_node f = n.
Proof.
  induction l as [|[x g] l IH]; cbn [at_node]; [discriminate|]. destruct (Nat.eqb_spec (f_node g) n) as [<-|N].
  - intros H. injection H as -> ->. split; [left; reflexivity|reflexivity].
  - intros H. destruct (IH H) as (I & E). split; [right; exact I|exact E].
Qed.
Lemma at_node_none l n id f : at_node l n = None -> In (id, f) l -> f_node f <> n.
Proof.
  induction l as [|[x g] l IH]; cbn [at_node]; [intros _ []|]. destruct (Nat.eqb_spec (f_node g) n) as [<-|N]; [discriminate|].
  intros H [I | I]; [injection I as -> ->; exact N|apply IH; assumption].
Qed.
Lemma add_input_nth l n i m : nth_error (add_input l n i) m =
  if Nat.eqb m n then option_map (fun x => mkL (l_id x) (l_type x) (l_inputs x ++ [i])) (nth_error l n) else nth_error l m.
Proof.
  revert n m. induction l as [|x l IH]; intros n m; cbn [add_input].
  - destruct m, n; cbn [nth_error Nat.eqb option_map]; try reflexivity. destruct (Nat.eqb m n); reflexivity.
  - destruct n as [|n], m as [|m]; cbn [nth_error Nat.eqb option_map]; try reflexivity. apply IH.
Qed.
Lemma add_input_length l n i : length (add_input l n i) = length l.
Proof. revert n. induction l as [|x l IH]; intros n; cbn [add_input]; [reflexivity|]. destruct n; cbn [length]; [reflexivity|]. rewrite IH. reflexivity. Qed.

Definition is_some {A} (x : option A) : bool := match x with Some _ => true | None => false end.
Definition pair_of (c : conn) : pair := mkPair (c_orig_id c) (c_resp_id c) (is_some (c_orig c)) (is_some (c_resp c)).
Definition ptr_ok (b : batch) (id : nat) (p : option nat) : Prop :=
  forall n, p = Some n -> (n < b_next b)%nat /\ forall id' f, lookup (b_flows b) id' = Some f -> f_node f = n -> id' = id.
Record inv (b : batch) (k : book) : Prop := mkInv {
  iv_keys : NoDup (map fst (b_flows b));
  iv_next : length (k_lives k) = b_next b;
  iv_open : forall id, option_map f_inst (lookup (b_flows b) id) = k_open k id;
  iv_life : forall id n, k_open k id = Some n -> exists L, nth_error (k_lives k) n = Some L /\ l_id L = id;
  iv_state : forall id f L, lookup (b_flows b) id = Some f -> nth_error (k_lives k) (f_inst f) = Some L ->
             st_ok (f_state f) (l_type L) (l_inputs L) (calls_of (f_inst f) (b_trace b));
  iv_fed : forall n L, nth_error (k_lives k) n = Some L -> fed (l_type L) (l_inputs L) (calls_of n (b_trace b));
  iv_none : forall n, (length (k_lives k) <= n)%nat -> calls_of n (b_trace b) = [];
  iv_mem : Forall memory_ok (b_trace b);
  iv_nodes : forall id id' f f', lookup (b_flows b) id = Some f -> lookup (b_flows b) id' = Some f' -> f_node f = f_node f' -> id = id';
  iv_fresh : forall id f, lookup (b_flows b) id = Some f -> (f_node f < b_next b)%nat;
  iv_pairs : forall cid, option_map pair_of (lookup (b_conns b) cid) = k_pairs k cid;
  iv_ptr : forall cid c, lookup (b_conns b) cid = Some c -> ptr_ok b (c_orig_id c) (c_orig c) /\ ptr_ok b (c_resp_id c) (c_resp c) }.
Lemma inv0 : inv batch0 book0.
Proof.
  constructor; cbn; try reflexivity; try discriminate; try constructor; try tauto.
  intros n L H. destruct n; discriminate.
Qed.

Section P.
Context (parsers : nat -> option parser) (PP : forall par p, parsers par = Some p -> p_parse1 p = true).

Lemma inv_begin b k t par id ctx : inv b k -> inv (fst (create_state parsers b t par id ctx)) (k_begin parsers k id t par).
Proof.
  intros I. destruct I as [I1 I2 I3 I4 I5 I6 I7 I8 I9 I10 I11 I12]. unfold create_state, k_begin, known. destruct (parsers par) as [p|] eqn:E; [|constructor; assumption].
  cbn [fst]. set (node := match lookup (b_flows b) id with Some f => f_node f | None => b_next b end).
  assert (NL : (node <= b_next b)%nat) by (unfold node; destruct (lookup (b_flows b) id) as [f|] eqn:L; [specialize (I10 id f L); lia|lia]).
  assert (NK : forall id' f, lookup (b_flows b) id' = Some f -> f_node f = node -> id' = id).
  { intros id' f L N. unfold node in N. destruct (lookup (b_flows b) id) as [g|] eqn:L'; [exact (I9 _ _ _ _ L L' N)|]. specialize (I10 _ _ L). lia. }
  assert (CE : forall n, calls_of n (b_trace b ++ [EBegin (b_next b) id t
     match ctx with Some c => Some c | None => if p_context p then Some (b_next b) else None end]) = calls_of n (b_trace b)).
  { intros n. rewrite calls_app. cbn [calls_of flat_map]. apply app_nil_r. }
  constructor; cbn [b_flows b_conns b_next b_trace k_lives k_open k_pairs].
  - apply nodup_update. exact I1.
  - rewrite app_length. cbn [length]. lia.
  - intros x. rewrite lookup_update. unfold set. destruct (Nat.eqb x id); [cbn [option_map f_inst]; congruence|apply I3].
  - intros x n. unfold set. destruct (Nat.eqb_spec x id) as [->|N].
    + intros H. injection H as <-. exists (mkL id t []). split; [|reflexivity]. rewrite nth_error_app2 by lia. rewrite Nat.sub_diag. reflexivity.
    + intros H. destruct (I4 x n H) as (L & NE & LI). exists L. split; [|exact LI]. rewrite nth_error_app1; [exact NE|]. apply nth_error_Some. congruence.
  - intros x f L. rewrite lookup_update, CE. destruct (Nat.eqb_spec x id) as [->|N].
    + intros H. injection H as <-. cbn [f_inst f_state]. rewrite nth_error_app2 by lia. replace (b_next b - length (k_lives k))%nat with 0%nat by lia. cbn [nth_error].
      intros H. injection H as <-. rewrite I7 by lia. cbn [l_type l_inputs]. split; [reflexivity|]. split; [exists p; split; [reflexivity|eapply PP; eassumption]|]. split; [reflexivity|].
      intros _. repeat split; try reflexivity. intros c [].
    + intros H NE. pose proof (I3 x) as O. rewrite H in O. cbn [option_map] in O. symmetry in O. destruct (I4 _ _ O) as (L' & NE' & _).
      rewrite nth_error_app1 in NE by (apply nth_error_Some; congruence). eapply I5; eassumption.
  - intros n L H. rewrite CE. destruct (Nat.lt_ge_cases n (length (k_lives k))) as [LT|GE].
    + rewrite nth_error_app1 in H by exact LT. apply I6. exact H.
    + rewrite nth_error_app2 in H by exact GE. rewrite I7 by exact GE. destruct (n - length (k_lives k))%nat as [|m]; [|destruct m; discriminate]. injection H as <-.
      cbn [l_type l_inputs]. destruct t; cbn [fed]; [|reflexivity]. repeat split; [intros c []|left; reflexivity].
  - intros n H. rewrite app_length in H. rewrite CE. apply I7. cbn [length] in H. lia.
  - apply Forall_app. split; [exact I8|]. constructor; [exact Logic.I|constructor].
  - intros x y f f'. rewrite !lookup_update. destruct (Nat.eqb_spec x id) as [->|NX], (Nat.eqb_spec y id) as [->|NY]; intros H H' EN; try reflexivity.
    + injection H as <-. cbn [f_node] in EN. symmetry. eapply NK; [exact H'|]. congruence.
    + injection H' as <-. cbn [f_node] in EN. eapply NK; [exact H|]. congruence.
    + eapply I9; eassumption.
  - intros x f. rewrite lookup_update. destruct (Nat.eqb_spec x id) as [->|N]; intros H; [injection H as <-; cbn [f_node]; lia|]. specialize (I10 _ _ H). lia.
  - exact I11.
  - assert (P : forall i q, ptr_ok b i q -> (forall n, q = Some n -> n = node -> i = id) -> ptr_ok (mkB (update (b_flows b) id (mkF node (b_next b) (new_state t (Some p)))) (b_conns b) (S (b_next b))
      (b_trace b ++ [EBegin (b_next b) id t match ctx with Some c => Some c | None => if p_context p then Some (b_next b) else None end])) i q).
    { intros i q H HN n EQ. destruct (H n EQ) as (A & B). cbn [b_next b_flows]. split; [lia|]. intros x f. rewrite lookup_update. destruct (Nat.eqb_spec x id) as [->|N].
      - intros H1 H2. injection H1 as <-. cbn [f_node] in H2. symmetry. apply (HN n EQ). congruence.
      - apply B. }
    intros cid c H. destruct (I12 cid c H) as (A & B).
    assert (Q : forall i q, ptr_ok b i q -> forall n, q = Some n -> n = node -> i = id).
    { intros i q H1 n EQ EN. destruct (H1 n EQ) as (H2 & H3). unfold node in EN. destruct (lookup (b_flows b) id) as [g|] eqn:L; [|lia]. symmetry. eapply H3; [exact L|congruence]. }
    split; apply P; auto; apply Q; assumption.
Qed.

Lemma ptr_mono b b' id p : (b_next b <= b_next b')%nat -> (forall x f, lookup (b_flows b') x = Some f -> exists f0, lookup (b_flows b) x = Some f0 /\ f_node f0 = f_node f) ->
  ptr_ok b id p -> ptr_ok b' id p.
Proof.
  intros L H P n E. destruct (P n E) as (A & B). split; [lia|]. intros x f F N. destruct (H x f F) as (f0 & F0 & N0). eapply B; [exact F0|congruence].
Qed.
Lemma inv_give b k o id f i b' : inv b k -> lookup (b_flows b) id = Some f ->
  handle b id f (give o (f_inst f) (f_state f) (b_trace b) i) = BOk b' -> inv b' (k_give k id i).
Proof.
  intros I LK H. pose proof I as I'. destruct I as [I1 I2 I3 I4 I5 I6 I7 I8 I9 I10 I11 I12].
  pose proof (I3 id) as O. rewrite LK in O. cbn [option_map] in O. symmetry in O. destruct (I4 _ _ O) as (L & NE & LI).
  pose proof (give_ok o (f_inst f) (f_state f) (b_trace b) _ _ i (I5 _ _ _ LK NE) (I6 _ _ NE)) as G.
  assert (KG : k_give k id i = mkK (add_input (k_lives k) (f_inst f) i) (k_open k) (k_pairs k)) by (unfold k_give; rewrite O; reflexivity). rewrite KG. clear KG.
  assert (X : exists s' tr', b' = store b id f s' tr' /\ gave (f_inst f) (l_type L) (l_inputs L) i (b_trace b) s' tr').
  { destruct (give o (f_inst f) (f_state f) (b_trace b) i) as [s' tr'|s' tr'|s' tr'| |]; cbn [handle] in H; try discriminate; injection H as <-; exists s', tr'; auto. }
  clear H G. destruct X as (s' & tr' & -> & (ev & -> & ME & OTH) & SO & FE).
  assert (CE : forall n, n <> f_inst f -> calls_of n (b_trace b ++ ev) = calls_of n (b_trace b)) by (intros n N; rewrite calls_app, (OTH n N); apply app_nil_r).
  assert (INJ : forall x g, lookup (b_flows b) x = Some g -> f_inst g = f_inst f -> x = id).
  { intros x g LX EQ. pose proof (I3 x) as OX. rewrite LX in OX. cbn [option_map] in OX. symmetry in OX. destruct (I4 _ _ OX) as (L' & NE' & LI'). rewrite EQ in NE'. congruence. }
  unfold store. constructor; cbn [b_flows b_conns b_next b_trace k_lives k_open k_pairs].
  - apply nodup_update. exact I1.
  - rewrite add_input_length. exact I2.
  - intros x. rewrite lookup_update. destruct (Nat.eqb_spec x id) as [->|N]; [cbn [option_map f_inst]; congruence|apply I3].
  - intros x n OX. destruct (I4 x n OX) as (L' & NE' & LI'). rewrite add_input_nth. destruct (Nat.eqb_spec n (f_inst f)) as [->|N].
    + rewrite NE'. eexists. split; [reflexivity|]. exact LI'.
    + exists L'. auto.
  - intros x g L'. rewrite lookup_update, add_input_nth. destruct (Nat.eqb_spec x id) as [->|N].
    + intros H. injection H as <-. cbn [f_inst f_state]. rewrite Nat.eqb_refl, NE. cbn [option_map]. intros H. injection H as <-. exact SO.
    + intros H. destruct (Nat.eqb_spec (f_inst g) (f_inst f)) as [EQ|NEQ]; [exfalso; apply N; eapply INJ; eassumption|]. intros H'. rewrite CE by exact NEQ. eapply I5; eassumption.
  - intros n L'. rewrite add_input_nth. destruct (Nat.eqb_spec n (f_inst f)) as [->|N].
    + rewrite NE. cbn [option_map]. intros H. injection H as <-. exact FE.
    + intros H. rewrite CE by exact N. apply I6. exact H.
  - intros n H. rewrite add_input_length in H. rewrite CE; [apply I7; exact H|]. intros ->. apply nth_error_None in H. congruence.
  - apply Forall_app. split; assumption.
  - intros x y g g'. rewrite !lookup_update. destruct (Nat.eqb_spec x id) as [->|NX], (Nat.eqb_spec y id) as [->|NY]; intros H H' EN; try reflexivity.
    + injection H as <-. eapply I9; [exact LK|exact H'|exact EN].
    + injection H' as <-. eapply I9; [exact H|exact LK|exact EN].
    + eapply I9; eassumption.
  - intros x g. rewrite lookup_update. destruct (Nat.eqb_spec x id) as [->|N]; intros H; [injection H as <-; cbn [f_node]; eapply I10; exact LK|eapply I10; exact H].
  - exact I11.
  - intros cid c H. destruct (I12 cid c H) as (A & B). split; (eapply ptr_mono; [| |eassumption]); cbn [b_next b_flows]; try lia;
    intros x g; rewrite lookup_update; (destruct (Nat.eqb_spec x id) as [->|N]; intros H1; [injection H1 as <-; exists f; auto|exists g; auto]).
Qed.
Lemma inv_close b k id : inv b k -> inv (drop_flow b id) (k_close k id).
Proof.
  intros [I1 I2 I3 I4 I5 I6 I7 I8 I9 I10 I11 I12].
  assert (SUB : forall x f, lookup (erase (b_flows b) id) x = Some f -> lookup (b_flows b) x = Some f).
  { intros x f. rewrite lookup_erase. destruct (Nat.eqb x id); [discriminate|auto]. }
  unfold drop_flow, k_close. constructor; cbn [b_flows b_conns b_next b_trace k_lives k_open k_pairs]; try assumption.
  - apply nodup_erase. exact I1.
  - intros x. rewrite lookup_erase. unfold set. destruct (Nat.eqb x id); [reflexivity|apply I3].
  - intros x n. unfold set. destruct (Nat.eqb x id); [discriminate|apply I4].
  - intros x f L H. apply SUB in H. eapply I5. exact H.
  - intros x y f f' H H'. apply SUB in H. apply SUB in H'. eapply I9; eassumption.
  - intros x f H. apply SUB in H. eapply I10. exact H.
  - intros cid c H. destruct (I12 cid c H) as (A & B). split; (eapply ptr_mono; [| |eassumption]); cbn [b_next b_flows]; try lia; intros x f H1; exists f; auto.
Qed.
Lemma inv_conns b k conns pairs : inv b k -> (forall cid, option_map pair_of (lookup conns cid) = pairs cid) ->
  (forall cid c, lookup conns cid = Some c -> ptr_ok b (c_orig_id c) (c_orig c) /\ ptr_ok b (c_resp_id c) (c_resp c)) ->
  inv (mkB (b_flows b) conns (b_next b) (b_trace b)) (mkK (k_lives k) (k_open k) pairs).
Proof. intros [I1 I2 I3 I4 I5 I6 I7 I8 I9 I10 I11 I12] P Q. constructor; auto. Qed.

(** finish() through a pointer is finish() of the flow with the connection's id. *)
Lemma inv_finish_at b k o id ptr b' : inv b k -> ptr_ok b id ptr -> finish_at o b ptr = BOk b' ->
  inv b' (if is_some ptr then k_give k id EndOfData else k) /\ b_conns b' = b_conns b /\
  (forall i p, ptr_ok b i p -> ptr_ok b' i p).
Proof.
  intros I P H. unfold finish_at in H. destruct ptr as [n|]; cbn [is_some]; [|injection H as <-; auto].
  destruct (at_node (b_flows b) n) as [[x f]|] eqn:AN; [|discriminate]. apply at_node_some in AN. destruct AN as (IN & FN).
  apply in_lookup in IN; [|apply (iv_keys _ _ I)]. pose proof (proj2 (P n eq_refl) x f IN FN) as ->.
  split; [exact (inv_give b k o id f EndOfData b' I IN H)|].
  assert (X : exists s' tr', b' = store b id f s' tr').
  { destruct (finish o (f_inst f) (f_state f) (b_trace b)) as [s' tr'|s' tr'|s' tr'| |]; cbn [handle] in H; try discriminate; injection H as <-; exists s', tr'; auto. }
  destruct X as (s' & tr' & ->). split; [reflexivity|]. intros i p. apply ptr_mono; cbn [b_next b_flows store]; [lia|].
  intros y g. rewrite lookup_update. destruct (Nat.eqb_spec y id) as [->|N]; intros H1; [injection H1 as <-; exists f; auto|exists g; auto].
Qed.

Lemma create_none b t par id ctx b1 : create_state parsers b t par id ctx = (b1, None) -> b1 = b /\ known parsers par = false.
Proof. clear PP. unfold create_state, known. destruct (parsers par); [discriminate|]. intros H. injection H as <-. auto. Qed.
Lemma create_some b t par id ctx b1 n c : create_state parsers b t par id ctx = (b1, Some (n, c)) ->
  known parsers par = true /\ b_conns b1 = b_conns b /\ (b_next b <= b_next b1)%nat /\ exists f, lookup (b_flows b1) id = Some f /\ f_node f = n.
Proof.
  clear PP.   unfold create_state, known. destruct (parsers par); [|discriminate]. intros H. injection H as <- <- _. cbn [b_conns b_next b_flows]. repeat split; [lia|].
  eexists. rewrite lookup_update, Nat.eqb_refl. split; reflexivity.
Qed.
Lemma ptr_here b k id f n : inv b k -> lookup (b_flows b) id = Some f -> f_node f = n -> ptr_ok b id (Some n).
Proof.
  intros I L N m E. injection E as <-. split; [rewrite <- N; eapply (iv_fresh _ _ I); exact L|]. intros x g G M. eapply (iv_nodes _ _ I); [exact G|exact L|congruence].
Qed.
Lemma create_keeps b k t par id ctx b1 r i q : inv b k -> create_state parsers b t par id ctx = (b1, r) -> ptr_ok b i q -> ptr_ok b1 i q.
Proof.
  intros I H P n E. destruct (P n E) as (A & B). unfold create_state in H. destruct (parsers par) as [p|]; [|injection H as <- _; auto]. injection H as <- _. cbn [b_next b_flows]. split; [lia|].
  intros x f. rewrite lookup_update. destruct (Nat.eqb_spec x id) as [->|N]; [|apply B]. intros H1 H2. injection H1 as <-. cbn [f_node] in H2.
  destruct (lookup (b_flows b) id) as [g|] eqn:L; [eapply B; eassumption|lia].
Qed.

Lemma inv_exec b k o c b' : inv b k -> exec parsers o b c = BOk b' -> inv b' (k_step parsers k c).
Proof.
  intros I H. destruct c as [id t par|cid t oid opar rid rpar|id d|id n|id|cid| |]; cbn [exec k_step] in *; try discriminate.
  - injection H as <-. apply inv_begin. exact I.
  - pose proof (iv_pairs _ _ I cid) as PR. destruct (lookup (b_conns b) cid) as [c0|] eqn:LC; cbn [option_map] in PR; rewrite <- PR; [injection H as <-; exact I|].
    destruct (create_state parsers b t opar oid None) as [b1 orig] eqn:C1.
    assert (I1 : inv b1 (k_begin parsers k oid t opar)) by (pose proof (inv_begin b k t opar oid None I) as X; rewrite C1 in X; exact X).
    set (ctx := match orig with Some (_, ctx) => ctx | None => None end) in *.
    destruct (create_state parsers b1 t rpar rid ctx) as [b2 resp] eqn:C2.
    assert (I2 : inv b2 (k_begin parsers (k_begin parsers k oid t opar) rid t rpar)) by (pose proof (inv_begin b1 _ t rpar rid ctx I1) as X; rewrite C2 in X; exact X).
    assert (CC : b_conns b2 = b_conns b).
    { transitivity (b_conns b1).
      - destruct resp as [[n c]|]; [apply (create_some _ _ _ _ _ _ _ _ C2)|]. apply create_none in C2. destruct C2 as (-> & _). reflexivity.
      - destruct orig as [[n c]|]; [apply (create_some _ _ _ _ _ _ _ _ C1)|]. apply create_none in C1. destruct C1 as (-> & _). reflexivity. }
    assert (KO : known parsers opar = is_some orig) by (destruct orig as [[n c]|]; [apply (create_some _ _ _ _ _ _ _ _ C1)|apply create_none in C1; apply C1]).
    assert (KR : known parsers rpar = is_some resp) by (destruct resp as [[n c]|]; [apply (create_some _ _ _ _ _ _ _ _ C2)|apply create_none in C2; apply C2]).
    rewrite KO, KR.
    assert (PO : ptr_ok b2 oid (option_map fst orig)).
    { destruct orig as [[n c]|]; [|intros m E; discriminate]. destruct (create_some _ _ _ _ _ _ _ _ C1) as (_ & _ & _ & f & LF & NF). cbn [option_map fst].
      eapply create_keeps; [exact I1|exact C2|]. eapply ptr_here; eassumption. }
    assert (PR2 : ptr_ok b2 rid (option_map fst resp)).
    { destruct resp as [[n c]|]; [|intros m E; discriminate]. destruct (create_some _ _ _ _ _ _ _ _ C2) as (_ & _ & _ & f & LF & NF). cbn [option_map fst]. eapply ptr_here; eassumption. }
    assert (OLD : forall x c, lookup (b_conns b) x = Some c -> ptr_ok b2 (c_orig_id c) (c_orig c) /\ ptr_ok b2 (c_resp_id c) (c_resp c)).
    { intros x c LX. destruct (iv_ptr _ _ I x c LX) as (A & B). split; (eapply create_keeps; [exact I1|exact C2|]); (eapply create_keeps; [exact I|exact C1|]); assumption. }
    assert (NEW : is_some orig || is_some resp = true -> inv (mkB (b_flows b2) (update (b_conns b2) cid (mkConn oid rid (option_map fst orig) (option_map fst resp))) (b_next b2) (b_trace b2))
      (mkK (k_lives (k_begin parsers (k_begin parsers k oid t opar) rid t rpar)) (k_open (k_begin parsers (k_begin parsers k oid t opar) rid t rpar))
         (set (k_pairs (k_begin parsers (k_begin parsers k oid t opar) rid t rpar)) cid (Some (mkPair oid rid (is_some orig) (is_some resp)))))).
    { intros _. apply (inv_conns b2 _ _ _ I2).
      - intros x. rewrite lookup_update. unfold set. destruct (Nat.eqb x cid); [|apply (iv_pairs _ _ I2)]. cbn [option_map pair_of]. unfold pair_of. cbn. destruct orig, resp; reflexivity.
      - intros x c. rewrite lookup_update, CC. destruct (Nat.eqb x cid); [|apply OLD]. intros E. injection E as <-. cbn [c_orig_id c_orig c_resp_id c_resp]. auto. }
    destruct orig as [ro|], resp as [rr|]; cbn [is_some orb] in *; try (injection H as <-; apply NEW; reflexivity).
    apply create_none in C1. destruct C1 as (-> & KO'). apply create_none in C2. destruct C2 as (-> & _). injection H as <-. apply inv_close. apply inv_close. exact I.
  - unfold feed in H. destruct (lookup (b_flows b) id) as [f|] eqn:L.
    + exact (inv_give b k o id f (Piece (Data d)) b' I L H).
    + injection H as <-. unfold k_give. rewrite <- (iv_open _ _ I id), L. exact I.
  - unfold feed in H. destruct (lookup (b_flows b) id) as [f|] eqn:L.
    + exact (inv_give b k o id f (Piece (Gap n)) b' I L H).
    + injection H as <-. unfold k_give. rewrite <- (iv_open _ _ I id), L. exact I.
  - destruct (lookup (b_flows b) id) as [f|] eqn:L.
    + destruct (handle b id f (finish o (f_inst f) (f_state f) (b_trace b))) as [b1| | | | |] eqn:E; try discriminate. injection H as <-. apply inv_close.
      exact (inv_give b k o id f EndOfData b1 I L E).
    + injection H as <-. unfold k_give. rewrite <- (iv_open _ _ I id), L. cbn [option_map].
      destruct I as [I1 I2 I3 I4 I5 I6 I7 I8 I9 I10 I11 I12]. constructor; cbn [k_close k_lives k_open k_pairs]; auto.
      * intros x. unfold set. destruct (Nat.eqb_spec x id) as [->|N]; [rewrite L; reflexivity|apply I3].
      * intros x n. unfold set. destruct (Nat.eqb x id); [discriminate|apply I4].
  - pose proof (iv_pairs _ _ I cid) as PR. destruct (lookup (b_conns b) cid) as [c0|] eqn:LC; cbn [option_map] in PR; rewrite <- PR; [|injection H as <-; exact I].
    destruct (iv_ptr _ _ I cid c0 LC) as (P1 & P2).
    destruct (finish_at o b (c_orig c0)) as [b1| | | | |] eqn:F1; try discriminate. destruct (inv_finish_at _ _ _ _ _ _ I P1 F1) as (I1 & CE1 & K1).
    destruct (finish_at o b1 (c_resp c0)) as [b2| | | | |] eqn:F2; try discriminate. destruct (inv_finish_at _ _ _ _ _ _ I1 (K1 _ _ P2) F2) as (I2 & CE2 & K2).
    injection H as <-. cbn [pair_of pr_orig pr_resp pr_oid pr_rid].
    set (k2 := if is_some (c_resp c0) then k_give (if is_some (c_orig c0) then k_give k (c_orig_id c0) EndOfData else k) (c_resp_id c0) EndOfData
               else if is_some (c_orig c0) then k_give k (c_orig_id c0) EndOfData else k) in *.
    pose proof (inv_close _ _ (c_resp_id c0) (inv_close _ _ (c_orig_id c0) I2)) as I3.
    apply (inv_conns _ _ (erase (b_conns b2) cid) (set (k_pairs (k_close (k_close k2 (c_orig_id c0)) (c_resp_id c0))) cid None)) in I3.
    + exact I3.
    + intros x. rewrite lookup_erase. unfold set. destruct (Nat.eqb x cid); [reflexivity|]. apply (iv_pairs _ _ I2).
    + intros x c. rewrite lookup_erase. destruct (Nat.eqb x cid); [discriminate|]. intros L2. rewrite CE2, CE1 in L2.
      destruct (iv_ptr _ _ I3 x c) as (Q1 & Q2); [cbn [drop_flow b_conns]; rewrite CE2, CE1; exact L2|]. auto.
Qed.
Lemma inv_run cs : forall b k o b', inv b k -> run parsers o b cs = BOk b' -> inv b' (k_run parsers k cs).
Proof.
  induction cs as [|c cs IH]; intros b k o b' I H; cbn [run] in H; [injection H as <-; exact I|]. destruct (exec parsers o b c) as [b1| | | | |] eqn:E; try discriminate.
  unfold k_run. cbn [fold_left]. eapply IH; [|exact H]. eapply inv_exec; eassumption.
Qed.
End P.
