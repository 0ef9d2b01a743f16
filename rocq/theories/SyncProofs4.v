(** Proofs about SyncModel.v: what the search for a synchronization point finds. *)
From Verif Require Import Base SyncModel SyncSpec SyncProofs1 SyncProofs2 SyncProofs3.

Section Search.
Context (D : list (option Z)) (TR : bool) (N : nat).
Local Notation len := (length D).
Context (HN : len + 2 <= N).

Lemma consume_pos s : p_pos (consume TR s) = p_lahe s.
Proof. unfold consume, trim_input. destruct TR; reflexivity. Qed.

Lemma sync_production_spec sp s :
  s_rx sp = None -> NoDup (map tok_word (s_lits sp)) -> (no_gaps D \/ length (s_lits sp) <= 1) -> settled s ->
  (exists p t s', sync_production D TR N sp s = Done s' /\ first_from D (s_lits sp) (p_pos s) p /\ longest D (s_lits sp) p t /\ resumed sp p t s s') \/
  (exists s', sync_production D TR N sp s = Fail s' /\ forall p, p_pos s <= p -> ~ occurs D (s_lits sp) p).
Proof.
  intros RX ND G ST. unfold sync_production, get_look_ahead.
  destruct (at_eod D s) eqn:EOD.
  - right. exists (set_lah s SEod (p_lahe s)).
    assert (E : at_eod D (set_lah s SEod (p_lahe s)) = true) by exact EOD. rewrite E. simpl.
    split; [reflexivity|]. intros p Hp O. apply occurs_lt in O. destruct ST as (_ & _ & S3).
    apply at_eod_settled in EOD; [lia|assumption].
  - destruct (search_loop_spec D TR N sp RX ND G N s ST ltac:(lia)) as
      [(p & t & s' & -> & F & L & O)|(s' & -> & L1 & L2 & L3 & L4 & L5)].
    + left. destruct O as (O1 & O2 & O3 & O4 & O5 & O6). destruct ST as (S1 & _ & _).
      assert (E : at_eod D s' = false).
      { assert (p < len) by (eapply occurs_lt; exists t; split; apply L). unfold at_eod. apply Nat.leb_gt. lia. }
      rewrite E, O3. simpl. unfold resumed.
      destruct (s_mode sp); eexists p, t, _; (split; [reflexivity|]; split; [exact F|]; split; [exact L|]); simpl.
      * repeat split; auto.
      * repeat split; auto.
      * rewrite consume_pos, O4. destruct (keeps_consume TR s') as (K1 & K2). repeat split; auto; congruence.
    + right. exists s'. rewrite L1. simpl. rewrite orb_true_r. split; [reflexivity|assumption].
Qed.

(** * Regular expressions *)
Lemma run_no_gap l : ~ In None l -> map Some (run l) = l /\ run_final l = true.
Proof.
  induction l as [|[b|] l IH]; simpl; intro H; [auto| |exfalso; auto].
  destruct IH as (A & B); [intro X; apply H; auto|]. split; [f_equal; exact A|assumption].
Qed.
Lemma gaps_no_gap l : ~ In None l -> gaps l = 0.
Proof. destruct l as [|[b|] l]; simpl; intro H; [reflexivity|reflexivity|exfalso; auto]. Qed.

Section Rx.
Context (re : bytes -> bool -> rxres) (NG : no_gaps D) (FIN : forall w, re w true <> RMore).
Local Notation rest p := (run (skipn p D)).

Lemma rx_search m : forall fuel s, p_head s <= p_pos s -> len - p_pos s < fuel ->
  (exists p id n s', search_loop D TR N fuel (mkS m (Some re) []) s = Done s' /\ p_pos s <= p < len /\ re (rest p) true = RTok id n /\
    (forall q, p_pos s <= q < p -> re (rest q) true = RNo) /\
    p_pos s' = p /\ p_head s' <= p /\ p_lah s' = STok id /\ p_lahe s' = p + n /\ p_err s' = p_err s /\ p_tr s' = p_tr s) \/
  (exists s', search_loop D TR N fuel (mkS m (Some re) []) s = Done s' /\ (p_lah s' = SNone \/ at_eod D s' = true) /\
    (forall q, p_pos s <= q < len -> re (rest q) true = RNo)).
Proof.
  induction fuel as [|fuel IH]; intros s S3 Hf; [lia|].
  cbn [search_loop]. unfold one_round. simpl s_rx. simpl s_lits.
  assert (NGS : forall q, ~ In None (skipn q D)) by (intros q X; apply NG; eapply in_skipn; exact X).
  destruct (run_no_gap _ (NGS (p_pos s))) as (_ & RF).
  destruct N as [|N'] eqn:EN; [lia|]. cbn [rx_loop].
  assert (LT : Nat.ltb (p_pos s) (p_head s) = false) by (apply Nat.ltb_ge; lia). rewrite LT. simpl andb. cbv iota. simpl app. rewrite RF.
  destruct (re (rest (p_pos s)) true) as [| |id n] eqn:R; [|exfalso; eapply FIN; exact R|].
  - simpl lits. cbv iota.
    destruct (at_eod D (set_lah s SNone (p_pos s))) eqn:EOD.
    + right. exists (set_lah s SNone (p_pos s)). simpl. split; [reflexivity|]. split; [auto|].
      intros q Hq. apply at_eod_settled in EOD; simpl in *; [lia|assumption].
    + simpl. set (s1 := set_lah s SNone (p_pos s)) in *.
      assert (Hlt : p_pos s < len).
      { destruct (Nat.lt_ge_cases (p_pos s) len) as [|X]; [assumption|].
        assert (at_eod D s1 = true) by (apply at_eod_settled; assumption). congruence. }
      assert (NP : next_pos D s1 = S (p_pos s)).
      { unfold next_pos. simpl. rewrite LT. destruct (Nat.ltb (S (p_pos s)) len); [|reflexivity].
        rewrite gaps_no_gap; [lia|apply NGS]. }
      destruct (advance_keeps D TR s1) as (K1 & K2 & K3 & K4 & K5).
      destruct (IH (advance D TR s1)) as [(p & id & n & s' & E & P1 & P2 & P3 & P4)|(s' & E & P1 & P2)].
      * apply advance_head; exact S3.
      * rewrite advance_pos, NP. lia.
      * left. exists p, id, n, s'. rewrite advance_pos, NP in *. rewrite K3, K4 in P4.
        split; [exact E|]. split; [lia|]. split; [exact P2|]. split; [|exact P4].
        intros q Hq. destruct (Nat.eq_dec q (p_pos s)) as [-> |]; [assumption|apply P3; lia].
      * right. exists s'. rewrite advance_pos, NP in *. split; [exact E|]. split; [exact P1|].
        intros q Hq. destruct (Nat.eq_dec q (p_pos s)) as [-> |]; [assumption|apply P2; lia].
  - simpl lits. cbv iota. simpl lah_set. rewrite orb_true_r.
    destruct (Nat.lt_ge_cases (p_pos s) len) as [Hlt|Hge].
    + left. exists (p_pos s), id, n, (set_lah s (STok id) (p_pos s + n - 0)). simpl.
      split; [reflexivity|]. split; [lia|]. split; [exact R|]. split; [intros; lia|].
      repeat split; auto; lia.
    + right. exists (set_lah s (STok id) (p_pos s + n - 0)). split; [reflexivity|]. split; [right|intros; lia].
      unfold at_eod. apply Nat.leb_le. simpl. lia.
Qed.

Lemma sync_production_rx_any m s : p_head s <= p_pos s ->
  (exists p id n s', sync_production D TR N (mkS m (Some re) []) s = Done s' /\ p_pos s <= p < len /\ re (rest p) true = RTok id n /\
    (forall q, p_pos s <= q < p -> re (rest q) true = RNo) /\ p_pos s' = (match m with SAfter => p + n | _ => p end) /\
    p_lah s' = (match m with SFirst => STok id | _ => p_lah s end) /\ p_err s' = p_err s /\ p_tr s' = p_tr s) \/
  (exists s', sync_production D TR N (mkS m (Some re) []) s = Fail s' /\ forall q, p_pos s <= q < len -> re (rest q) true = RNo).
Proof.
  intro ST. unfold sync_production, get_look_ahead.
  destruct (at_eod D s) eqn:EOD.
  - right. exists (set_lah s SEod (p_lahe s)).
    assert (E : at_eod D (set_lah s SEod (p_lahe s)) = true) by exact EOD. rewrite E. simpl.
    split; [reflexivity|]. intros q Hq. apply at_eod_settled in EOD; [lia|assumption].
  - destruct (rx_search m N s ST ltac:(lia)) as [(p & id & n & s' & -> & P1 & P2 & P3 & P4 & P5 & P6 & P7 & P8 & P9)|(s' & -> & P1 & P2)].
    + left. assert (E : at_eod D s' = false) by (unfold at_eod; apply Nat.leb_gt; lia).
      rewrite E, P6. simpl. destruct m; eexists p, id, n, _; (split; [reflexivity|]; split; [exact P1|]; split; [exact P2|]; split; [exact P3|]); simpl.
      * repeat split; auto.
      * repeat split; auto.
      * rewrite consume_pos, P7. destruct (keeps_consume TR s') as (K1 & K2). repeat split; auto; congruence.
    + right. exists s'. split; [|exact P2]. destruct P1 as [-> | ->]; simpl; [rewrite orb_true_r; reflexivity|reflexivity].
Qed.
Lemma sync_production_rx m s : settled s ->
  (exists p id n s', sync_production D TR N (mkS m (Some re) []) s = Done s' /\ p_pos s <= p < len /\ re (rest p) true = RTok id n /\
    (forall q, p_pos s <= q < p -> re (rest q) true = RNo) /\ p_pos s' = (match m with SAfter => p + n | _ => p end) /\
    p_lah s' = (match m with SFirst => STok id | _ => SNone end) /\ p_err s' = p_err s /\ p_tr s' = p_tr s) \/
  (exists s', sync_production D TR N (mkS m (Some re) []) s = Fail s' /\ forall q, p_pos s <= q < len -> re (rest q) true = RNo).
Proof. intros (S1 & _ & S3). rewrite <- S1. apply sync_production_rx_any. assumption. Qed.
End Rx.
End Search.
