From Verif Require Import Base SyncModel SyncSpec SyncProofs1 SyncProofs2 SyncProofs3 SyncProofs4 ListSyncModel ListSyncSpec ListSyncProofs.

(** * Look-ahead lists of elements that begin with literals *)
Section Literals.
Context (D : list (option Z)) (el : elem) (sp : ssp) (w : wlook).
Context (NG : no_gaps D) (CL : clean D el sp) (CO : consistent w sp).

Lemma lits_try_lits ts : forall first s,
  match lits D false first ts s with
  | RNext s' => lits_try D first ts s = Done s'
  | RAmbiguous s' => lits_try D first ts s = Fail s'
  | RAgain _ => False
  | RFatal => lits_try D first ts s = Fatal
  end.
Proof.
  induction ts as [|t ts IH]; intros first s; simpl; [reflexivity|]. destruct (Nat.ltb _ _); [reflexivity|].
  destruct (match_tok D t (p_pos s)) as [| |e] eqn:M; [apply IH|apply NG; eapply match_tok_missing; exact M|].
  destruct first; [apply IH|]. destruct (Nat.leb _ _); [|apply IH]. destruct (_ && _); [reflexivity|apply IH].
Qed.

Lemma elem_at s1 : ready D sp s1 -> match el s1 with
  | EFatal | EOk _ true => True
  | EFail s2 => okf D s2
  | EOk s2 false => ready D sp s2 /\ okf D s2 end.
Proof.
  intro R. pose proof (CL s1 R) as C. destruct (el s1) as [s2 [|]|s2|]; auto.
  - split; [left; exact C|]. right. destruct C as (C1 & C2 & _). split; [exact C1|lia].
  - right. exact C.
Qed.

Lemma one_elem_literals s : ready D sp s -> match one_elem D el w true s with
  | WEnd s' => p_pos s' = p_pos s /\ look_ends D w (p_pos s)
  | WStop s' => look_parsed D el (s_lits sp) true (p_pos s) (p_pos s')
  | WElem s' => look_parsed D el (s_lits sp) false (p_pos s) (p_pos s') /\ ready D sp s'
  | WFail s' => look_failed D el w (s_lits sp) (p_pos s) (p_pos s') /\ okf D s'
  | WFatal => True end.
Proof.
  intro R. destruct CO as (RX & ND & C1 & C2 & C3). unfold one_elem.
  (* the literal t is pending *)
  assert (TOK : forall t s1, p_pos s1 = p_pos s -> In t (w_lits w) -> present D t (p_pos s) ->
    (existsb (Nat.eqb (tok_id t)) (w_end w) = true -> longest D (w_lits w) (p_pos s) t) -> (In t (s_lits sp) -> ready D sp s1) ->
    match (if existsb (Nat.eqb (tok_id t)) (w_end w) then WEnd s1
          else if existsb (Nat.eqb (tok_id t)) (w_elem w)
          then match el s1 with
               | EFatal => WFatal | EFail s2 => WFail s2 | EOk s2 true => WStop s2
               | EOk s2 false => if Nat.eqb (p_pos s2) (p_pos s1) && negb (at_eod D s2) then WFail s2 else WElem s2
               end
          else WFail s1) with
    | WEnd s' => p_pos s' = p_pos s /\ look_ends D w (p_pos s)
    | WStop s' => look_parsed D el (s_lits sp) true (p_pos s) (p_pos s')
    | WElem s' => look_parsed D el (s_lits sp) false (p_pos s) (p_pos s') /\ ready D sp s'
    | WFail s' => look_failed D el w (s_lits sp) (p_pos s) (p_pos s') /\ okf D s'
    | WFatal => True end).
  { intros t s1 PE I1 PR LG R1. specialize (C3 t I1). destruct (existsb (Nat.eqb (tok_id t)) (w_end w)) eqn:WE.
    - split; [exact PE|]. right. exists t. auto.
    - destruct (existsb (Nat.eqb (tok_id t)) (w_elem w)) eqn:WL; [|discriminate]. apply C1 in WL; [|exact I1].
      assert (OC : occurs D (s_lits sp) (p_pos s)) by (exists t; auto).
      pose proof (elem_at s1 (R1 WL)) as E. destruct (el s1) as [s2 [|]|s2|] eqn:X; [| | |exact Logic.I].
      + split; [exact OC|]. exists s1, s2. auto.
      + destruct (Nat.eqb (p_pos s2) (p_pos s1) && negb (at_eod D s2)) eqn:EQ.
        * apply andb_true_iff in EQ as (EQ & _). apply Nat.eqb_eq in EQ. split; [|apply E]. right. left. split; [congruence|]. exists s1, s2. auto.
        * split; [split; [exact OC|exists s1, s2; auto]|apply E].
      + split; [|exact E]. left. split; [exact OC|]. exists s1, s2. auto. }
  destruct R as [(S1 & S2 & S3)|(sp' & t & E1 & E2 & E3 & E4 & E5 & E6)].
  - rewrite S1. cbn [lah_set]. unfold peek. destruct (at_eod D s) eqn:EOD.
    + pose proof EOD as EOD'. apply at_eod_settled in EOD'; [|exact S3].
      cbn [p_lah set_lah]. destruct (w_eod w) eqn:WE.
      * split; [reflexivity|]. left. auto.
      * split; [|left; exact EOD]. right. right. split; [reflexivity|]. split; [|auto]. intro O. apply occurs_lt in O. lia.
    + rewrite RX.
      assert (Hlt : p_pos s < length D).
      { destruct (Nat.lt_ge_cases (p_pos s) (length D)) as [|X]; [assumption|]. apply (at_eod_settled D s S3) in X. congruence. }
      assert (B0 : best D [] s s).
      { repeat split; try reflexivity. left. repeat split; try assumption. intros t []. }
      pose proof (lits_spec D false s (w_lits w) [] true s S3 S2 ND (or_introl NG) B0 ltac:(reflexivity)) as LS. simpl app in LS.
      pose proof (lits_try_lits (w_lits w) true s) as LT.
      destruct (lits D false true (w_lits w) s) as [s'|s'|s'|]; try contradiction. rewrite LT.
      destruct LS as (B1 & B2 & B3 & B4 & [(L1 & L2 & L3)|(t & (T1 & T2 & T3) & T4 & T5)]).
      * rewrite L1. split; [|right; split; [exact L1|]; rewrite L2, B1; lia].
        right. right. split; [exact B1|]. split; [|lia]. intros (t & I1 & I2). eapply L3; eassumption.
      * rewrite T4. apply TOK; [exact B1|exact T1|exact T2|repeat split; auto; apply T2|]. intro X.
        right. exists sp, t. simpl. repeat split; try assumption; try (rewrite B1; apply T2); rewrite ?T5, ?B1, ?B2; auto. apply T2.
  - simpl in E1. inversion E1; subst sp'. rewrite E4. cbn [lah_set]. rewrite E4.
    assert (WL : existsb (Nat.eqb (tok_id t)) (w_elem w) = true) by (apply C1; auto).
    apply TOK; [reflexivity|apply C2; exact E2|exact E3| |].
    + intro X. rewrite C3, WL in X by auto. discriminate.
    + intros _. right. exists sp, t. simpl. repeat split; try assumption; apply E3.
Qed.
End Literals.

(** * Ending *)
Section Ends.
Context (D : list (option Z)) (N : nat) (synced : pst -> hook) (el : elem).
Local Notation len := (length D).
Context (HN : len + 2 <= N) (FE : forward_elem el) (NT : forall s, synced s <> HThrow).

Lemma sync_next_ends sp s : s_mode sp <> SAfter -> p_head s = 0 ->
  match sync_next D false N synced N sp (p_pos s) (set_err s true) with
  | NFound s' => p_head s' = 0 /\ p_pos s < p_pos s' < len
  | NFatal => False
  | _ => True
  end.
Proof.
  intros M H0. rewrite sync_next_step by lia.
  set (s1 := advance D false (set_err s true)).
  assert (H1 : p_head s1 = 0) by exact H0.
  destruct (sync_production_ends D N HN sp s1 M H1) as (E1 & E2).
  assert (P1 : p_pos s < p_pos s1) by (unfold s1; rewrite advance_pos; apply (next_pos_gt D (set_err s true))).
  destruct (sync_production D false N sp s1) as [s2|s2|]; [|exact Logic.I|exact E1].
  specialize (E2 s2 eq_refl). destruct E1 as (E1 & E3).
  assert (NE : Nat.eqb (p_pos s) (p_pos s2) = false) by (apply Nat.eqb_neq; lia). rewrite NE.
  destruct (synced s2) eqn:H; simpl; auto; [lia|lia|]. exfalso. eapply NT. exact H.
Qed.
Lemma counter_ends sync : (forall sp, sync = Some sp -> s_mode sp <> SAfter) ->
  forall n s tr, p_head s = 0 -> counter D false N synced el sync n s tr <> LFatal.
Proof.
  intro M. induction n as [|n IH]; intros s tr H0; simpl; [discriminate|].
  pose proof (FE s H0) as F. destruct (el s) as [s1 [|]|s1|]; [discriminate|apply IH; apply F| |contradiction].
  unfold recover. destruct sync as [sp|]; [|discriminate].
  pose proof (sync_next_ends sp s1 (M sp eq_refl) (proj1 F)) as S1.
  destruct (sync_next _ _ _ _ _ _ _ _) as [s2|s2|s2|]; try discriminate; [apply IH; apply S1|contradiction].
Qed.

Lemma lits_try_head ts : forall first s, p_head s = 0 -> match lits_try D first ts s with Done s' | Fail s' => p_head s' = 0 /\ p_pos s' = p_pos s | Fatal => False end.
Proof.
  induction ts as [|t ts IH]; intros first s H0; simpl; [auto|]. rewrite H0. cbn [Nat.ltb Nat.leb].
  destruct (match_tok D t (p_pos s)) as [| |e]; [apply IH; exact H0|auto|].
  destruct first; [exact (IH false (set_lah s (STok (tok_id t)) e) H0)|].
  destruct (Nat.leb _ _); [|apply IH; exact H0]. destruct (_ && _); [auto|]. exact (IH false (set_lah s (STok (tok_id t)) e) H0).
Qed.
Lemma peek_head w s : p_head s = 0 -> match peek D w s with Done s' | Fail s' => p_head s' = 0 /\ p_pos s' = p_pos s | Fatal => False end.
Proof.
  intro H0. unfold peek. destruct (at_eod D s); [auto|]. destruct (w_rx w) as [re|]; [|apply lits_try_head; exact H0].
  rewrite H0. cbn [Nat.ltb Nat.leb]. destruct (re _ _) as [| |id n].
  - exact (lits_try_head (w_lits w) false (set_lah s SNone (p_pos s)) H0).
  - destruct (run_final _); [|auto]. exact (lits_try_head (w_lits w) false (set_lah s SEod (p_pos s)) H0).
  - exact (lits_try_head (w_lits w) false (set_lah s (STok id) (p_pos s + n)) H0).
Qed.
Lemma one_elem_ends w b s : p_head s = 0 -> match one_elem D el w b s with
  | WElem s' => p_head s' = 0 /\ p_lah s' = SNone /\ p_pos s <= p_pos s' /\ (p_pos s < p_pos s' \/ (len <= p_pos s /\ lah_set (p_lah s) = true))
  | WFail s' => p_head s' = 0 /\ p_pos s <= p_pos s'
  | WFatal => False
  | _ => True end.
Proof.
  intro H0. unfold one_elem.
  assert (P : match (if lah_set (p_lah s) then Done s else peek D w s) with Done s' | Fail s' => p_head s' = 0 /\ p_pos s' = p_pos s | Fatal => False end).
  { destruct (lah_set (p_lah s)); [auto|apply peek_head; exact H0]. }
  assert (Q : match (if lah_set (p_lah s) then Done s else peek D w s) with Done s' => forall id, p_lah s' = STok id -> len <= p_pos s -> lah_set (p_lah s) = true | _ => True end).
  { destruct (lah_set (p_lah s)); [auto|]. unfold peek. destruct (at_eod D s) eqn:E; [discriminate|].
    assert (p_pos s < len) by (unfold at_eod in E; apply Nat.leb_gt in E; lia).
    match goal with |- match ?x with _ => _ end => destruct x end; auto. intros. lia. }
  destruct (if lah_set (p_lah s) then Done s else peek D w s) as [s1|s1|]; [|destruct P; split; [assumption|lia]|exact P].
  destruct P as (P1 & P2).
  assert (O : match (if b then WFail s1 else WEnd s1) with WElem _ => False | WFail s' => p_head s' = 0 /\ p_pos s <= p_pos s' | WFatal => False | _ => True end)
    by (destruct b; [split; [assumption|lia]|exact Logic.I]).
  assert (O' : match (if b then WFail s1 else WEnd s1) with
    | WElem s' => p_head s' = 0 /\ p_lah s' = SNone /\ p_pos s <= p_pos s' /\ (p_pos s < p_pos s' \/ (len <= p_pos s /\ lah_set (p_lah s) = true))
    | WFail s' => p_head s' = 0 /\ p_pos s <= p_pos s' | WFatal => False | _ => True end) by (destruct b; exact O).
  destruct (p_lah s1) as [| |id] eqn:L; [exact O'|destruct (w_eod w); [exact Logic.I|split; [assumption|lia]]|].
  destruct (existsb _ (w_end w)); [exact Logic.I|]. destruct (existsb _ (w_elem w)); [|exact O'].
  pose proof (FE s1 P1) as F. destruct (el s1) as [s2 [|]|s2|]; [exact Logic.I| |split; [apply F|destruct F; lia]|exact F].
  destruct F as (F1 & F2 & F3). destruct (Nat.eqb (p_pos s2) (p_pos s1)) eqn:EQ; simpl.
  - apply Nat.eqb_eq in EQ. destruct (at_eod D s2) eqn:EOD; simpl; [|split; [assumption|lia]].
    unfold at_eod in EOD. apply Nat.leb_le in EOD. rewrite F1 in EOD. split; [assumption|]. split; [assumption|]. split; [lia|]. right.
    split; [lia|]. eapply Q; [reflexivity|lia].
  - apply Nat.eqb_neq in EQ. split; [assumption|]. split; [assumption|]. split; [lia|]. left. lia.
Qed.
Definition measure (s : pst) : nat := 2 * (len - p_pos s) + (if lah_set (p_lah s) then 1 else 0) + 1.
Lemma look_list_ends w sync : (forall sp, sync = Some sp -> s_mode sp <> SAfter) ->
  forall fuel s tr, p_head s = 0 -> measure s <= fuel -> look_list D false N synced el fuel w sync s tr <> LFatal.
Proof.
  intro M. induction fuel as [|fuel IH]; intros s tr H0 Hf; [unfold measure in Hf; lia|]. cbn [look_list].
  pose proof (one_elem_ends w (match sync with Some _ => true | None => false end) s H0) as F.
  assert (EODC : len <= p_pos s -> lah_set (p_lah s) = false -> match one_elem D el w (match sync with Some _ => true | None => false end) s with WElem _ => False | _ => True end).
  { intros L LS. unfold one_elem. rewrite LS. unfold peek. assert (E : at_eod D s = true) by (unfold at_eod; apply Nat.leb_le; lia). rewrite E. cbn [p_lah set_lah].
    destruct (w_eod w); exact Logic.I. }
  destruct (one_elem _ _ _ _ _) as [s1|s1|s1|s1|]; [discriminate|discriminate| | |contradiction].
  - destruct F as (F1 & F2 & F3 & F4). apply IH; [exact F1|]. unfold measure in *. rewrite F2. cbn [lah_set].
    destruct (lah_set (p_lah s)) eqn:LS; [destruct F4 as [F4|(F4 & _)]; lia|].
    destruct F4 as [F4|(_ & F4)]; [|discriminate]. destruct (Nat.lt_ge_cases (p_pos s) len); [lia|]. exfalso. apply EODC; auto.
  - unfold recover. destruct sync as [sp|]; [|discriminate]. destruct F as (F1 & F2).
    pose proof (sync_next_ends sp s1 (M sp eq_refl) F1) as S1.
    destruct (sync_next _ _ _ _ _ _ _ _) as [s2|s2|s2|]; try discriminate; [|contradiction].
    destruct S1 as (S1 & S2). apply IH; [exact S1|]. unfold measure in *. destruct (lah_set (p_lah s2)); destruct (lah_set (p_lah s)); lia.
Qed.
End Ends.
