From Verif Require Import Base SyncModel SyncSpec SyncProofs1 SyncProofs2 SyncProofs3 SyncProofs4 ListSyncModel ListSyncSpec.

(** * Any list *)
Section Any.
Context (D : list (option Z)) (TR : bool) (N : nat) (synced : pst -> hook) (el : elem).

Lemma rev_cons_app {A} (x : A) l l' : rev l ++ x :: l' = rev (x :: l) ++ l'.
Proof. simpl. rewrite <- app_assoc. reflexivity. Qed.

Lemma counter_count sync n : forall s tr s' tr', counter D TR N synced el sync n s tr = LDone s' tr' ->
  elements tr' + failures tr' <= n + (elements tr + failures tr) /\ (stopped tr' \/ elements tr' + failures tr' = n + (elements tr + failures tr)).
Proof.
  induction n as [|n IH]; intros s tr s' tr' E; simpl in E; [inversion E; subst; split; [lia|right; lia]|].
  destruct (el s) as [s1 [|]|s1|] eqn:X; try discriminate.
  - inversion E; subst. simpl. split; [lia|]. left. eexists _, _. left. reflexivity.
  - apply IH in E. simpl in E. destruct E as (A & B). split; [lia|]. destruct B; [auto|right; lia].
  - unfold recover in E. destruct sync as [sp|]; [|discriminate].
    destruct (sync_next _ _ _ _ _ _ _ _) as [s2|s2|s2|]; try discriminate. apply IH in E. simpl in E.
    destruct E as (A & B). split; [lia|]. destruct B; [auto|right; lia].
Qed.

Lemma counter_transparent sp n : forall s tr s' tr', counter D TR N synced el None n s tr = LDone s' tr' -> counter D TR N synced el (Some sp) n s tr = LDone s' tr'.
Proof.
  induction n as [|n IH]; intros s tr s' tr' E; simpl in *; [exact E|].
  destruct (el s) as [s1 [|]|s1|] eqn:X; try discriminate; auto.
Qed.
Lemma look_list_transparent w sp : forall fuel s tr s' tr', look_list D TR N synced el fuel w None s tr = LDone s' tr' ->
  (stopped tr' \/ p_lah s' = SEod \/ exists id, p_lah s' = STok id /\ existsb (Nat.eqb id) (w_end w) = true) ->
  ~ stopped tr -> look_list D TR N synced el fuel w (Some sp) s tr = LDone s' tr'.
Proof.
  induction fuel as [|fuel IH]; intros s tr s' tr' E H NS; [discriminate|]. cbn [look_list] in *. unfold one_elem in *.
  destruct (if lah_set (p_lah s) then Done s else peek D w s) as [s1|s1|]; try discriminate.
  destruct (p_lah s1) as [| |id] eqn:L.
  - inversion E; subst. rewrite L in H. destruct H as [H|[H|(id & H & _)]]; [contradiction|discriminate|discriminate].
  - destruct (w_eod w); [exact E|discriminate].
  - destruct (existsb (Nat.eqb id) (w_end w)) eqn:WE; [exact E|].
    destruct (existsb (Nat.eqb id) (w_elem w)) eqn:WL.
    + destruct (el s1) as [s2 [|]|s2|]; try discriminate; [exact E|].
      destruct (Nat.eqb (p_pos s2) (p_pos s1) && negb (at_eod D s2)); [discriminate|].
      apply IH; auto. intros (p & q & [X|X]); [discriminate|]. apply NS. exists p, q. exact X.
    + inversion E; subst. rewrite L in H. destruct H as [H|[H|(i & H & H')]]; [contradiction|discriminate|]. inversion H; subst. congruence.
Qed.

Lemma counter_plain n : forall s tr s' tr', counter D TR N synced el None n s tr = LDone s' tr' -> failures tr' = failures tr.
Proof.
  induction n as [|n IH]; intros s tr s' tr' E; simpl in E; [inversion E; reflexivity|].
  destruct (el s) as [s1 [|]|s1|]; try discriminate; [inversion E; reflexivity|apply IH in E; exact E].
Qed.
Lemma look_list_plain w : forall fuel s tr s' tr', look_list D TR N synced el fuel w None s tr = LDone s' tr' -> failures tr' = failures tr.
Proof.
  induction fuel as [|fuel IH]; intros s tr s' tr' E; simpl in E; [discriminate|].
  destruct (one_elem _ _ _ _ _) as [s1|s1|s1|s1|]; try discriminate; [inversion E; reflexivity|inversion E; reflexivity|apply IH in E; exact E].
Qed.

(** Errors stay pending. *)
Context (KE : forall s, match el s with EOk s' _ | EFail s' => p_err s = true -> p_err s' = true | EFatal => True end) (NC : forall s, synced s <> HConfirm).
Lemma sync_next_err sp start : forall fuel s, p_err s = true ->
  match sync_next D TR N synced fuel sp start s with NFound s' | NRejected s' | NLost s' => p_err s' = true | NFatal => True end.
Proof.
  induction fuel as [|fuel IH]; intros s E; [exact Logic.I|]. cbn [sync_next].
  destruct (advance_keeps D TR s) as (_ & _ & K & _).
  pose proof (sync_production_keeps D TR N sp (advance D TR s)) as P.
  destruct (sync_production D TR N sp (advance D TR s)) as [s1|s1|]; simpl in P; [|destruct P; congruence|exact Logic.I].
  assert (E1 : p_err s1 = true) by (destruct P; congruence).
  destruct (Nat.eqb start (p_pos s1)).
  - apply IH. destruct (advance_keeps D TR s1) as (_ & _ & K1 & _). congruence.
  - destruct (synced s1) eqn:H; simpl; auto. exfalso. eapply NC. exact H.
Qed.
Lemma recover_err sync s tr go : 
  (forall s1 tr1, p_err s1 = true -> match go s1 tr1 with LDone s' _ => p_err s' = true | _ => True end) ->
  match recover D TR N synced sync s tr go with LDone s' _ => p_err s' = true | _ => True end.
Proof.
  intro G. unfold recover. destruct sync as [sp|]; [|exact Logic.I].
  pose proof (sync_next_err sp (p_pos s) N (set_err s true) eq_refl) as P.
  destruct (sync_next _ _ _ _ _ _ _ _) as [s2|s2|s2|]; try exact Logic.I. apply G. exact P.
Qed.
Lemma counter_err_keeps sync n : forall s tr, p_err s = true -> match counter D TR N synced el sync n s tr with LDone s' _ => p_err s' = true | _ => True end.
Proof.
  induction n as [|n IH]; intros s tr E; simpl; [exact E|]. pose proof (KE s) as K.
  destruct (el s) as [s1 [|]|s1|]; [auto|apply IH; auto|apply recover_err; intros; apply IH; assumption|exact Logic.I].
Qed.
Lemma counter_err sync n : forall s tr s' tr', counter D TR N synced el sync n s tr = LDone s' tr' -> failures tr < failures tr' -> p_err s' = true.
Proof.
  induction n as [|n IH]; intros s tr s' tr' E F; simpl in E; [inversion E; subst; lia|].
  destruct (el s) as [s1 [|]|s1|]; try discriminate.
  - inversion E; subst. simpl in F. lia.
  - eapply IH; [exact E|exact F].
  - pose proof (recover_err sync s1 (LFailed (p_pos s) (p_pos s1) (p_head s1) :: tr) (counter D TR N synced el sync n)) as R. rewrite E in R. apply R.
    intros. apply counter_err_keeps. assumption.
Qed.
Lemma peek_err w s : match peek D w s with Done s' | Fail s' => p_err s' = p_err s /\ p_pos s' = p_pos s | Fatal => True end.
Proof.
  assert (L : forall ts first s0, match lits_try D first ts s0 with Done s' | Fail s' => p_err s' = p_err s0 /\ p_pos s' = p_pos s0 | Fatal => True end).
  { induction ts as [|t ts IH]; intros first s0; simpl; [auto|]. destruct (Nat.ltb _ _); [exact Logic.I|].
    destruct (match_tok D t (p_pos s0)) as [| |e]; [apply IH|auto|].
    destruct first; [exact (IH false (set_lah s0 (STok (tok_id t)) e))|].
    destruct (Nat.leb _ _); [|apply IH]. destruct (_ && _); [auto|]. exact (IH false (set_lah s0 (STok (tok_id t)) e)). }
  unfold peek. destruct (at_eod D s); [auto|]. destruct (w_rx w) as [re|]; [|apply L].
  destruct (Nat.ltb _ _); [exact Logic.I|]. destruct (re _ _) as [| |id n].
  - exact (L (w_lits w) false (set_lah s SNone (p_pos s))).
  - destruct (run_final _); [|auto]. exact (L (w_lits w) false (set_lah s SEod (p_pos s))).
  - exact (L (w_lits w) false (set_lah s (STok id) (p_pos s + n))).
Qed.
Lemma one_elem_err w b s : match one_elem D el w b s with WEnd s' | WStop s' | WElem s' | WFail s' => p_err s = true -> p_err s' = true | WFatal => True end.
Proof.
  unfold one_elem.
  assert (P : match (if lah_set (p_lah s) then Done s else peek D w s) with Done s' | Fail s' => p_err s' = p_err s /\ p_pos s' = p_pos s | Fatal => True end).
  { destruct (lah_set (p_lah s)); [auto|apply peek_err]. }
  destruct (if lah_set (p_lah s) then Done s else peek D w s) as [s1|s1|]; [|destruct P as (P & _); rewrite P; auto|exact Logic.I].
  destruct P as (P & _). pose proof (KE s1) as K. rewrite P in K. rewrite <- P in *.
  assert (O : match (if b then WFail s1 else WEnd s1) with WEnd s' | WStop s' | WElem s' | WFail s' => p_err s1 = true -> p_err s' = true | WFatal => True end) by (destruct b; auto).
  destruct (p_lah s1) as [| |id]; [exact O|destruct (w_eod w); auto|].
  destruct (existsb _ (w_end w)); [auto|]. destruct (existsb _ (w_elem w)); [|exact O].
  destruct (el s1) as [s2 [|]|s2|]; auto. destruct (_ && _); auto.
Qed.
Lemma look_list_err_keeps w sync : forall fuel s tr, p_err s = true -> match look_list D TR N synced el fuel w sync s tr with LDone s' _ => p_err s' = true | _ => True end.
Proof.
  induction fuel as [|fuel IH]; intros s tr E; simpl; [exact Logic.I|].
  pose proof (one_elem_err w (match sync with Some _ => true | None => false end) s) as K.
  destruct (one_elem _ _ _ _ _) as [s1|s1|s1|s1|]; [auto|auto|apply IH; auto|apply recover_err; intros; apply IH; assumption|exact Logic.I].
Qed.
Lemma look_list_err w sync : forall fuel s tr s' tr', look_list D TR N synced el fuel w sync s tr = LDone s' tr' -> failures tr < failures tr' -> p_err s' = true.
Proof.
  induction fuel as [|fuel IH]; intros s tr s' tr' E F; simpl in E; [discriminate|].
  destruct (one_elem _ _ _ _ _) as [s1|s1|s1|s1|]; try discriminate.
  - inversion E; subst. lia.
  - inversion E; subst. simpl in F. lia.
  - eapply IH; [exact E|exact F].
  - pose proof (recover_err sync s1 (LFailed (p_pos s) (p_pos s1) (p_head s1) :: tr) (look_list D TR N synced el fuel w sync)) as R. rewrite E in R. apply R.
    intros. apply look_list_err_keeps. assumption.
Qed.
End Any.

(** * The path of a list, for any search that finds the next element *)
Section Paths.
Context (D : list (option Z)) (TR : bool) (N : nat) (synced : pst -> hook) (el : elem) (sp : ssp) (next : nat -> nat -> Prop) (good : bool -> nat -> nat -> Prop) (ends : nat -> Prop) (okin okf : pst -> Prop).
Context (SN : forall s, okf s ->
  match sync_next D TR N synced N sp (p_pos s) (set_err s true) with
  | NFound s1 => next (Nat.max (S (p_pos s)) (p_head s)) (p_pos s1) /\ hook_accepts synced (p_pos s1) /\ okin s1
  | NRejected s1 => next (Nat.max (S (p_pos s)) (p_head s)) (p_pos s1) /\ hook_rejects synced (p_pos s1)
  | NLost _ => forall p', ~ next (Nat.max (S (p_pos s)) (p_head s)) p'
  | NFatal => True
  end).

(** Everything that is added to [tr] is a path. *)
Definition ext (bad : nat -> nat -> Prop) (p : nat) (tr : list lev) (r : lres) : Prop :=
  match r with
  | LDone s' tr' => exists tr2 e, tr' = rev tr2 ++ tr /\ (e = Whole \/ e = Stopped) /\ path good bad next ends (hook_accepts synced) (hook_rejects synced) p tr2 (p_pos s') e
  | LFail s' tr' => exists tr2 e, tr' = rev tr2 ++ tr /\ (e = Lost \/ e = Rejected) /\ path good bad next ends (hook_accepts synced) (hook_rejects synced) p tr2 (p_pos s') e
  | LFatal => True
  end.
Lemma ext_recovered bad p r : ext bad p [] r -> recovered good bad next ends synced p r.
Proof.
  destruct r as [s' tr'|s' tr'|]; simpl; [| |auto]; intros (tr2 & e & E & H & P); exists e; (split; [exact H|]); subst; rewrite app_nil_r, rev_involutive; exact P.
Qed.
Lemma ext_elem bad p q tr r : good false p q -> ext bad q (LElem p q :: tr) r -> ext bad p tr r.
Proof.
  intro G. destruct r as [s' tr'|s' tr'|]; simpl; [| |auto]; intros (tr2 & e & E & H & P); exists (LElem p q :: tr2), e;
    (split; [rewrite E; apply rev_cons_app|]); (split; [exact H|]); apply path_elem; assumption.
Qed.
Lemma ext_recover (bad : nat -> nat -> Prop) p s tr go : bad p (p_pos s) -> okf s -> (forall s1 tr1, okin s1 -> ext bad (p_pos s1) tr1 (go s1 tr1)) ->
  ext bad p tr (recover D TR N synced (Some sp) s (LFailed p (p_pos s) (p_head s) :: tr) go).
Proof.
  intros B O G. unfold recover. pose proof (SN s O) as S1.
  destruct (sync_next _ _ _ _ _ _ _ _) as [s1|s1|s1|].
  - destruct S1 as (S1 & S3 & S2). specialize (G s1 (LSynced (p_pos s1) :: LFailed p (p_pos s) (p_head s) :: tr) S2).
    destruct (go s1 _) as [s' tr'|s' tr'|]; [| |exact Logic.I]; destruct G as (tr2 & e & E & H & P); exists (LFailed p (p_pos s) (p_head s) :: LSynced (p_pos s1) :: tr2), e;
      (split; [rewrite E, 2!rev_cons_app; reflexivity|]); (split; [exact H|]); apply path_sync; assumption.
  - destruct S1 as (S1 & S2). exists [LFailed p (p_pos s) (p_head s); LSynced (p_pos s1)], Rejected. split; [reflexivity|]. split; [auto|]. apply path_rejected; assumption.
  - exists [LFailed p (p_pos s) (p_head s); LLost], Lost. split; [reflexivity|]. split; [auto|]. apply path_lost; assumption.
  - exact Logic.I.
Qed.

Lemma counter_path : (forall p, ends p) -> (forall b p q, parsed el b p q -> good b p q) ->
  (forall s, okin s -> match el s with EOk s' _ => okin s' | EFail s' => okf s' | EFatal => True end) ->
  forall n s tr, okin s -> ext (failed el) (p_pos s) tr (counter D TR N synced el (Some sp) n s tr).
Proof.
  intros EN GD EL. induction n as [|n IH]; intros s tr O.
  - exists [], Whole. split; [reflexivity|]. split; [auto|]. apply path_end. apply EN.
  - cbn [counter]. pose proof (EL s O) as E1. destruct (el s) as [s1 [|]|s1|] eqn:E; [| | |exact Logic.I].
    + exists [LStop (p_pos s) (p_pos s1)], Stopped. split; [reflexivity|]. split; [auto|]. apply path_stop. apply GD. exists s, s1. auto.
    + apply ext_elem with (q := p_pos s1); [apply GD; exists s, s1; auto|]. apply IH. exact E1.
    + apply ext_recover; [exists s, s1; auto|exact E1|]. intros s2 tr2. apply IH.
Qed.

Lemma look_list_path bad w :
  (forall s, okin s -> match one_elem D el w true s with
    | WEnd s' => p_pos s' = p_pos s /\ ends (p_pos s)
    | WStop s' => good true (p_pos s) (p_pos s')
    | WElem s' => good false (p_pos s) (p_pos s') /\ okin s'
    | WFail s' => bad (p_pos s) (p_pos s') /\ okf s'
    | WFatal => True end) ->
  forall fuel s tr, okin s -> ext bad (p_pos s) tr (look_list D TR N synced el fuel w (Some sp) s tr).
Proof.
  intros EL. induction fuel as [|fuel IH]; intros s tr O; [exact Logic.I|].
  cbn [look_list]. pose proof (EL s O) as P.
  destruct (one_elem D el w true s) as [s1|s1|s1|s1|].
  - exists [], Whole. split; [reflexivity|]. split; [auto|]. destruct P as (P & E). rewrite P. apply path_end. exact E.
  - exists [LStop (p_pos s) (p_pos s1)], Stopped. split; [reflexivity|]. split; [auto|]. apply path_stop. exact P.
  - apply ext_elem with (q := p_pos s1); [apply P|]. apply IH. apply P.
  - apply ext_recover; [apply P|apply P|]. intros s2 tr2. apply IH.
  - exact Logic.I.
Qed.
Lemma one_elem_any w s : match one_elem D el w true s with
              | WEnd s' => p_pos s' = p_pos s
              | WStop s' => parsed el true (p_pos s) (p_pos s')
              | WElem s' => parsed el false (p_pos s) (p_pos s')
              | WFail s' => failed_or_none el (p_pos s) (p_pos s')
              | WFatal => True end.
Proof.
  unfold one_elem.
  assert (P : match (if lah_set (p_lah s) then Done s else peek D w s) with Done s' | Fail s' => p_err s' = p_err s /\ p_pos s' = p_pos s | Fatal => True end).
  { destruct (lah_set (p_lah s)); [auto|apply peek_err]. }
  destruct (if lah_set (p_lah s) then Done s else peek D w s) as [s1|s1|]; [|right; apply P|exact Logic.I].
  destruct P as (_ & P). rewrite <- P.
  destruct (p_lah s1) as [| |id]; [right; reflexivity|destruct (w_eod w); [reflexivity|right; reflexivity]|].
  destruct (existsb _ (w_end w)); [reflexivity|]. destruct (existsb _ (w_elem w)); [|right; reflexivity].
  destruct (el s1) as [s2 [|]|s2|] eqn:E; [exists s1, s2; auto| |left; exists s1, s2; auto|exact Logic.I].
  destruct (_ && _) eqn:X; [|exists s1, s2; auto]. right. apply andb_true_iff in X as (X & _). apply Nat.eqb_eq in X. exact X.
Qed.
End Paths.

(** * Searching *)
Section Search.
Context (D : list (option Z)) (TR : bool) (N : nat) (synced : pst -> hook).
Local Notation len := (length D).
Context (HN : len + 2 <= N).

(** Where advancing leads to. *)
Lemma advance_from s : let q := Nat.max (S (p_pos s)) (p_head s) in
  (q < len /\ q <= p_pos (advance D TR s) /\ p_head (advance D TR s) <= p_pos (advance D TR s) /\ (forall i, q <= i < p_pos (advance D TR s) -> nth_error D i = Some None) /\
    (no_gaps D -> p_pos (advance D TR s) = q)) \/
  (len <= q /\ at_eod D (advance D TR s) = true).
Proof.
  intro q. rewrite advance_pos. unfold next_pos.
  assert (Q : (if Nat.ltb (p_pos s) (p_head s) then p_head s else S (p_pos s)) = q).
  { unfold q. destruct (Nat.ltb (p_pos s) (p_head s)) eqn:E; [apply Nat.ltb_lt in E|apply Nat.ltb_ge in E]; lia. }
  rewrite Q. destruct (Nat.ltb q len) eqn:E; [apply Nat.ltb_lt in E; left|apply Nat.ltb_ge in E; right].
  - destruct (gaps_spec (skipn q D)) as (G1 & G2). split; [exact E|]. split; [lia|]. split; [|split].
    + unfold advance, trim_input, next_pos. rewrite Q. assert (X : Nat.ltb q len = true) by (apply Nat.ltb_lt; exact E). rewrite X.
      assert (p_head s <= q) by (unfold q; lia). destruct TR; unfold set_pos, set_head; cbn [p_head p_pos]; clearbody q; lia.
    + intros i Hi. specialize (G1 (i - q) ltac:(lia)). rewrite nth_error_skipn in G1. replace (q + (i - q)) with i in G1 by lia. exact G1.
    + intro NG. rewrite gaps_no_gap; [lia|]. intro X. apply NG. eapply in_skipn. exact X.
  - split; [exact E|]. unfold at_eod, advance, trim_input, next_pos. rewrite Q. assert (X : Nat.ltb q len = false) by (apply Nat.ltb_ge; exact E). rewrite X.
    apply Nat.leb_le. unfold q in E. destruct TR; unfold set_pos, set_head; cbn [p_head p_pos]; lia.
Qed.

Lemma sync_next_step sp s : sync_next D TR N synced N sp (p_pos s) (set_err s true) =
  match sync_production D TR N sp (advance D TR (set_err s true)) with
  | Fatal => NFatal
  | Fail s' => NLost s'
  | Done s' => if Nat.eqb (p_pos s) (p_pos s') then sync_next D TR N synced (N - 1) sp (p_pos s) (advance D TR s')
               else match run_hook (synced s') s' with Done s2 => NFound s2 | Fail s2 => NRejected s2 | Fatal => NFatal end
  end.
Proof. destruct N as [|N'] eqn:E; [lia|]. cbn [sync_next]. replace (S N' - 1) with N' by lia. reflexivity. Qed.

(** Literals. *)
Definition okf (s : pst) : Prop := at_eod D s = true \/ (p_lah s = SNone /\ p_lahe s <= S (p_pos s)).
Definition ready (sp : ssp) (s : pst) : Prop := entry D (mkF (fun _ => Fatal) (Some sp)) s.
Lemma next_literal sp s : plain D sp -> okf s ->
  match sync_next D TR N synced N sp (p_pos s) (set_err s true) with
  | NFound s1 => first_from D (s_lits sp) (Nat.max (S (p_pos s)) (p_head s)) (p_pos s1) /\ hook_accepts synced (p_pos s1) /\ ready sp s1
  | NRejected s1 => first_from D (s_lits sp) (Nat.max (S (p_pos s)) (p_head s)) (p_pos s1) /\ hook_rejects synced (p_pos s1)
  | NLost _ => forall p', ~ first_from D (s_lits sp) (Nat.max (S (p_pos s)) (p_head s)) p'
  | NFatal => True
  end.
Proof.
  intros P O. rewrite sync_next_step.
  set (q := Nat.max (S (p_pos s)) (p_head s)).
  assert (EODC : at_eod D (advance D TR (set_err s true)) = true -> len <= q ->
    match sync_production D TR N sp (advance D TR (set_err s true)) with Fail _ => forall p', ~ first_from D (s_lits sp) q p' | _ => False end).
  { intros E L. destruct (sync_production_eod D TR N sp _ E) as (s' & -> & _). intros p' (F1 & F2 & _). apply occurs_lt in F2. lia. }
  pose proof (advance_from (set_err s true)) as AF. cbv zeta in AF. change (Nat.max (S (p_pos (set_err s true))) (p_head (set_err s true))) with q in AF.
  destruct AF as [(A1 & A2 & A3 & A4 & _)|(A1 & A2)].
  2:{ specialize (EODC A2 A1). destruct (sync_production _ _ _ _ _); try contradiction. exact EODC. }
  assert (ST : settled (advance D TR (set_err s true))).
  { destruct O as [O|(O1 & O2)].
    - exfalso. unfold at_eod in O. apply Nat.leb_le in O. unfold q in A1. lia.
    - destruct (advance_keeps D TR (set_err s true)) as (K1 & K2 & _). split; [rewrite K1; exact O1|]. split; [|exact A3]. rewrite K2. simpl. unfold q in A2. lia. }
  assert (BEFORE : forall i, q <= i < p_pos (advance D TR (set_err s true)) -> ~ occurs D (s_lits sp) i).
  { intros i Hi (t & _ & X). revert X. apply present_gap. apply A4. exact Hi. }
  destruct (sync_production_plain D TR N HN sp _ P ST) as [(p & t & s' & E & (F1 & F2 & F3) & L & (O1 & O2 & O3 & O4 & O5 & O6))|(s' & E & _ & _ & _ & L)]; rewrite E.
  - assert (NE : Nat.eqb (p_pos s) (p_pos s') = false) by (apply Nat.eqb_neq; unfold q in *; lia). rewrite NE.
    assert (FF : first_from D (s_lits sp) q p).
    { split; [lia|]. split; [exact F2|]. intros i Hi. destruct (Nat.lt_ge_cases i (p_pos (advance D TR (set_err s true)))); [apply BEFORE; lia|apply F3; lia]. }
    assert (RD : forall b, ready sp (set_err s' b)).
    { intro b. right. exists sp, t. simpl. rewrite O1. repeat split; try apply L; try assumption; lia. }
    destruct (synced s') eqn:H; simpl; rewrite ?O1; auto.
    + split; [exact FF|]. split; [exists s'; auto|]. replace s' with (set_err s' (p_err s')) by (destruct s'; reflexivity). apply RD.
    + split; [exact FF|]. split; [exists s'; auto|]. apply RD.
    + split; [exact FF|]. exists s'. auto.
  - intros p' (F1 & F2 & F3). destruct (Nat.lt_ge_cases p' (p_pos (advance D TR (set_err s true)))); [eapply BEFORE; [|exact F2]; lia|eapply L; [|exact F2]; lia].
Qed.

(** Regular expressions. *)
Lemma next_regexp re m s : no_gaps D -> (forall w, re w true <> RMore) ->
  match sync_next D TR N synced N (mkS m (Some re) []) (p_pos s) (set_err s true) with
  | NFound s1 => next_match D re m (Nat.max (S (p_pos s)) (p_head s)) (p_pos s1) /\ hook_accepts synced (p_pos s1) /\ True
  | NRejected s1 => next_match D re m (Nat.max (S (p_pos s)) (p_head s)) (p_pos s1) /\ hook_rejects synced (p_pos s1)
  | NLost _ => forall p', ~ next_match D re m (Nat.max (S (p_pos s)) (p_head s)) p'
  | NFatal => True
  end.
Proof.
  intros NG FIN. rewrite sync_next_step. set (q := Nat.max (S (p_pos s)) (p_head s)).
  pose proof (advance_from (set_err s true)) as AF. cbv zeta in AF. change (Nat.max (S (p_pos (set_err s true))) (p_head (set_err s true))) with q in AF.
  destruct AF as [(A1 & A2 & A3 & A4 & A5)|(A1 & A2)].
  2:{ destruct (sync_production_eod D TR N (mkS m (Some re) []) _ A2) as (s' & -> & _). intros p' (p & id & n & H & _). lia. }
  specialize (A5 NG).
  destruct (sync_production_rx_any D TR N HN re NG FIN m _ A3) as [(p & id & n & s' & E & B1 & B2 & B3 & B4 & _)|(s' & E & B)]; rewrite E; rewrite A5 in *.
  - assert (NE : Nat.eqb (p_pos s) (p_pos s') = false) by (apply Nat.eqb_neq; rewrite B4; unfold q in *; destruct m; lia). rewrite NE.
    assert (FF : next_match D re m q (p_pos s')) by (exists p, id, n; auto).
    destruct (synced s') eqn:H; simpl; auto; (split; [exact FF|]); try split; auto; exists s'; auto.
  - intros p' (p & id & n & H1 & H2 & _). rewrite B in H2; [discriminate|lia].
Qed.
End Search.
