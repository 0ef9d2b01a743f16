(** C81: error recovery inside of lists (doc/programming/parsing.rst:2468-2486). *)
From Verif Require Import Base SyncModel SyncSpec SyncProofs1 SyncProofs2 SyncProofs3 SyncProofs4 SyncProps ListSyncModel ListSyncSpec ListSyncProofs ListSyncProofs2.

(** A list with a count, of elements that begin with literals: what is in the list follows each other; after a failure the parser goes on at the next occurrence of one of
    the literals strictly behind the failure, and fails if there is none; for elements that leave no look-ahead behind. *)
Theorem C81_counted : forall D TR N synced el e n s, length D + 2 <= N ->
  e_rx e = None -> NoDup (map tok_word (e_lits e)) -> (no_gaps D \/ length (e_lits e) <= 1) -> clean D el (counter_point e) -> settled s ->
  recovered (parsed el) (failed el) (first_from D (e_lits e)) anywhere synced (p_pos s) (counter D TR N synced el (Some (counter_point e)) n s []).
Proof.
  intros D TR N synced el e n s HN RX ND G CL ST. apply ext_recovered.
  assert (PL : plain D (counter_point e)) by (repeat split; assumption).
  apply (counter_path D TR N synced el (counter_point e) (first_from D (e_lits e)) (parsed el) anywhere (ready D (counter_point e)) (okf D)).
  - intros s0 O. apply (next_literal D TR N synced HN (counter_point e) s0 PL O).
  - exact (fun _ => Logic.I).
  - auto.
  - intros s0 R. pose proof (CL s0 R) as C. destruct (el s0) as [s1 b|s1|]; [left; exact C|right; exact C|exact Logic.I].
  - left. exact ST.
Qed.
(** The same with regular expressions, for any elements. *)
Theorem C81_counted_regexp : forall D TR N synced el e re n s, length D + 2 <= N ->
  e_rx e = Some re -> e_lits e = [] -> no_gaps D -> (forall w, re w true <> RMore) ->
  recovered (parsed el) (failed el) (next_match D re SFirst) anywhere synced (p_pos s) (counter D TR N synced el (Some (counter_point e)) n s []).
Proof.
  intros D TR N synced el e re n s HN RX LI NG FIN. apply ext_recovered. unfold counter_point. rewrite RX, LI.
  apply (counter_path D TR N synced el _ (next_match D re SFirst) (parsed el) anywhere (fun _ => True) (fun _ => True)).
  - intros s0 _. apply (next_regexp D TR N synced HN re SFirst s0 NG FIN).
  - exact (fun _ => Logic.I).
  - auto.
  - intros s0 _. destruct (el s0); auto.
  - auto.
Qed.
(** Look-ahead lists. *)
Theorem C81_list : forall D TR N synced el e w fuel s, length D + 2 <= N ->
  e_rx e = None -> e_prop e = None -> NoDup (map tok_word (e_lits e)) -> no_gaps D -> clean D el (while_point e) -> consistent w (while_point e) -> settled s ->
  recovered (look_parsed D el (e_lits e)) (look_failed D el w (e_lits e)) (first_from D (e_lits e)) (look_ends D w) synced (p_pos s) (look_list D TR N synced el fuel w (Some (while_point e)) s []).
Proof.
  intros D TR N synced el e w fuel s HN RX PR ND G CL CO ST. apply ext_recovered.
  assert (W : while_point e = mkS SFirst None (e_lits e)) by (unfold while_point; rewrite PR, RX; reflexivity). rewrite W in *.
  assert (PL : plain D (mkS SFirst None (e_lits e))) by (repeat split; auto).
  apply (look_list_path D TR N synced el _ (first_from D (e_lits e)) (look_parsed D el (e_lits e)) (look_ends D w) (ready D (mkS SFirst None (e_lits e))) (okf D)).
  - intros s0 O. apply (next_literal D TR N synced HN _ s0 PL O).
  - intros s0 R. apply (one_elem_literals D el (mkS SFirst None (e_lits e)) w G CL CO s0 R).
  - left. exact ST.
Qed.
(** ... by regular expressions, or by the unit properties %synchronize-at, %synchronize-after; any elements. *)
Theorem C81_list_regexp : forall D TR N synced el e re m w fuel s, length D + 2 <= N ->
  while_point e = mkS m (Some re) [] -> no_gaps D -> (forall b, re b true <> RMore) ->
  recovered (parsed el) (failed_or_none el) (next_match D re m) anywhere synced (p_pos s) (look_list D TR N synced el fuel w (Some (while_point e)) s []).
Proof.
  intros D TR N synced el e re m w fuel s HN W NG FIN. apply ext_recovered. rewrite W.
  apply (look_list_path D TR N synced el _ (next_match D re m) (parsed el) anywhere (fun _ => True) (fun _ => True)).
  - intros s0 _. apply (next_regexp D TR N synced HN re m s0 NG FIN).
  - intros s0 _. pose proof (one_elem_any D el w s0) as A. destruct (one_elem _ _ _ _ _); auto; split; try exact A; exact Logic.I.
  - auto.
Qed.
(** Elements that are literals leave no look-ahead behind, with any hooks. *)
Theorem C81_literals_clean : forall D TR t h, (forall s, h s <> HThrow) -> clean D (elem_of (with_hook (literal D TR t) h)) (mkS SFirst None [t]).
Proof.
  intros D TR t h NT s E. pose proof (literal_tidy D TR t (Some (mkS SFirst None [t])) h (or_intror eq_refl) NT s) as T. unfold f_run in T. unfold elem_of.
  specialize (T E). destruct (with_hook (literal D TR t) h s) as [s'|s'|]; [apply T| |exact Logic.I].
  destruct T as ((T1 & T2 & _) & _). split; [exact T1|lia].
Qed.

(** In a list with a count each failure takes the place of one element, whatever the elements do. *)
Theorem C81_count : forall D TR N synced el sync n s s' tr, counter D TR N synced el sync n s [] = LDone s' tr ->
  elements tr + failures tr <= n /\ (stopped tr \/ elements tr + failures tr = n).
Proof. intros D TR N synced el sync n s s' tr E. apply counter_count in E. simpl in E. rewrite Nat.add_0_r in E. exact E. Qed.

(** Lists without &synchronize do not recover. *)
Theorem C81_plain : forall D TR N synced el n w fuel s s' tr,
  counter D TR N synced el None n s [] = LDone s' tr \/ look_list D TR N synced el fuel w None s [] = LDone s' tr -> failures tr = 0.
Proof. intros D TR N synced el n w fuel s s' tr [E|E]; [eapply counter_plain in E|eapply look_list_plain in E]; exact E. Qed.

(** Where nothing fails, &synchronize makes no difference; in look-ahead lists only if they end with what is expected behind them. *)
Theorem C81_transparent : forall D TR N synced el sp n s s' tr,
  counter D TR N synced el None n s [] = LDone s' tr -> counter D TR N synced el (Some sp) n s [] = LDone s' tr.
Proof. intros. apply counter_transparent. assumption. Qed.
Theorem C81_list_transparent : forall D TR N synced el w sp fuel s s' tr,
  look_list D TR N synced el fuel w None s [] = LDone s' tr ->
  (stopped tr \/ p_lah s' = SEod \/ exists id, p_lah s' = STok id /\ existsb (Nat.eqb id) (w_end w) = true) ->
  look_list D TR N synced el fuel w (Some sp) s [] = LDone s' tr.
Proof. intros. apply look_list_transparent; auto. intros (p & q & []). Qed.

(** Unless a hook confirms, the error is still pending at the end of a list in which something failed: the unit cannot succeed (C79_confirmed). *)
Theorem C81_unconfirmed : forall D TR N synced el sync s s' tr,
  (forall s, match el s with EOk s' _ | EFail s' => p_err s = true -> p_err s' = true | EFatal => True end) -> (forall s, synced s <> HConfirm) ->
  (exists n, counter D TR N synced el sync n s [] = LDone s' tr) \/ (exists fuel w, look_list D TR N synced el fuel w sync s [] = LDone s' tr) ->
  0 < failures tr -> p_err s' = true.
Proof.
  intros D TR N synced el sync s s' tr KE NC [(n & E)|(fuel & w & E)] F.
  - eapply counter_err; eauto.
  - eapply look_list_err; eauto.
Qed.

(** Recovery comes to an end, without trimming, for elements that go forward. *)
Theorem C81_terminates : forall D N synced el sync s, length D + 2 <= N -> forward_elem el -> (forall s, synced s <> HThrow) ->
  (forall sp, sync = Some sp -> s_mode sp <> SAfter) -> p_head s = 0 ->
  (forall n, counter D false N synced el sync n s [] <> LFatal) /\
  (forall w fuel, 2 * length D + 2 <= fuel -> look_list D false N synced el fuel w sync s [] <> LFatal).
Proof.
  intros D N synced el sync s HN FE NT M H0. split.
  - intro n. apply counter_ends; assumption.
  - intros w fuel Hf. apply look_list_ends; auto. unfold measure. destruct (lah_set (p_lah s)); lia.
Qed.

(** ** Examples *)
(** (b"A" &synchronize)[3] on "A?A": two elements. *)
Definition tA : tok := TBytes 1 [65%Z].
Definition eA : esync := mkE None [tA] None.
Definition elA (D : list (option Z)) (TR : bool) : elem := elem_of (with_hook (literal D TR tA) quiet).
Example C81_counted_ex :
  let D := txt [65;63;65]%Z in
  clean D (elA D true) (counter_point eA) /\ settled init_state /\
  exists s, counter D true 5 confirms (elA D true) (Some (counter_point eA)) 3 init_state [] = LDone s [LElem 2 3; LSynced 2; LFailed 1 1 1; LElem 0 1] /\ p_pos s = 3.
Proof.
  cbv zeta. split; [apply C81_literals_clean; discriminate|]. split; [repeat split; simpl; lia|]. eexists. split; vm_compute; reflexivity.
Qed.
(** (b"A" &synchronize)[] followed by b"Z": "A?AZ". *)
Definition wAZ : wlook := mkW None [tA; TBytes 2 [90%Z]] [1] [2] false.
Example C81_list_ex :
  let D := txt [65;63;65;90]%Z in
  consistent wAZ (while_point eA) /\
  exists s, look_list D true 6 confirms (elA D true) 10 wAZ (Some (while_point eA)) init_state [] = LDone s [LElem 2 3; LSynced 2; LFailed 1 1 1; LElem 0 1] /\
    p_pos s = 3 /\ p_lah s = STok 2.
Proof.
  cbv zeta. split; [|eexists; split; [vm_compute; reflexivity|split; reflexivity]].
  split; [reflexivity|]. split; [repeat constructor; simpl; intuition discriminate|]. split; [|split].
  - intros t [<-|[<-|[]]]; simpl; intuition discriminate.
  - intros t [<-|[]]; simpl; auto.
  - intros t [<-|[<-|[]]]; reflexivity.
Qed.
(** type X = unit { : /A/; : b"x"; }; (X &synchronize)[2] on "A?Ax" *)
Definition rxA (w : bytes) (final : bool) : rxres := match w with [] => if final then RNo else RMore | b :: _ => if Z.eqb b 65 then RTok 1 1 else RNo end.
Definition elX (D : list (option Z)) (TR : bool) : elem := elem_of (subunit D TR 9 (mkU [lit D TR 1 65; lit D TR 5 120] quiet)).
Example C81_regexp_ex :
  let D := txt [65;63;65;120]%Z in
  (forall w, rxA w true <> RMore) /\
  exists s, counter D true 9 confirms (elX D true) (Some (counter_point (mkE (Some rxA) [] None))) 2 init_state [] = LDone s [LElem 2 4; LSynced 2; LFailed 0 0 1].
Proof. cbv zeta. split; [intros [|b w]; simpl; [discriminate|destruct (Z.eqb b 65); discriminate]|]. eexists. vm_compute. reflexivity. Qed.
(** Elements that are literals go forward, for C81_terminates. *)
Example C81_forward_ex : forall D, forward_elem (elA D false).
Proof.
  intros D s H0. unfold elA, elem_of, with_hook, quiet, literal. rewrite H0. simpl run_hook. destruct (lah_set (p_lah s)) eqn:L.
  - destruct (p_lah s) as [| |id]; try (split; [exact H0|lia]). destruct (negb _); [split; [exact H0|lia]|]. simpl tok_word. cbn [Nat.ltb Nat.leb tA].
    destruct (starts_with _ _) as [[|]|]; try (split; [exact H0|lia]). destruct (Nat.eqb _ _) eqn:E; [|split; [exact H0|lia]].
    apply Nat.eqb_eq in E. simpl in E. simpl. split; [exact H0|]. split; [lia|reflexivity].
  - destruct (Nat.ltb _ _); [split; [exact H0|lia]|]. cbn [Nat.ltb Nat.leb]. destruct (starts_with _ _) as [[|]|]; try (split; [exact H0|lia]).
    simpl. split; [exact H0|]. split; [lia|]. destruct (p_lah s); [reflexivity|discriminate|discriminate].
Qed.

(** ** Where the code does not do what is documented *)

(** "If the list is of fixed size, after successful synchronization, it will contain the expected number of entries": it has less. *)
Theorem C81_expected_number_refuted : exists D s tr,
  counter D true 5 confirms (elA D true) (Some (counter_point eA)) 3 init_state [] = LDone s tr /\ p_err s = false /\ ~ stopped tr /\ elements tr = 2.
Proof.
  exists (txt [65;63;65]%Z). eexists _, _. split; [vm_compute; reflexivity|]. split; [reflexivity|]. split; [|reflexivity].
  intros (p & q & H). simpl in H. intuition discriminate.
Qed.
(** If the last element of a list with a count fails, the parser goes on searching although there is nothing left to parse: behind what follows the list, which then fails; or the
    list itself fails.  unit { : (b"A" &synchronize)[1]; : b"Z"; } on "?ZA" and on "?Z"; without a failure both would be parsed. *)
Theorem C81_last_refuted : 
  (exists s, counter (txt [63;90;65]%Z) true 5 confirms (elA (txt [63;90;65]%Z) true) (Some (counter_point eA)) 1 init_state [] = LDone s [LSynced 2; LFailed 0 0 0] /\
     p_pos s = 2 /\ exists s', literal (txt [63;90;65]%Z) true (TBytes 2 [90%Z]) s = Fail s') /\
  (exists s, counter (txt [63;90]%Z) true 5 confirms (elA (txt [63;90]%Z) true) (Some (counter_point eA)) 1 init_state [] = LFail s [LLost; LFailed 0 0 0]).
Proof.
  split; [eexists; split; [vm_compute; reflexivity|]; split; [reflexivity|]; eexists; vm_compute; reflexivity|].
  eexists. vm_compute. reflexivity.
Qed.
(** The manual's own example, elements that are units and begin with a literal: the look-ahead that was pending when the unit was called is still pending after it has failed, and the search
    "finds" it at once, one byte further, where the literal is not.  %synced runs there; in lists with a count, elements get lost. *)
Theorem C81_stale_refuted :
  (exists D s tr, look_list D true 9 confirms (elX D true) 20 (mkW None [tA] [1] [] true) (Some (while_point eA)) init_state [] = LDone s tr /\
     In (LSynced 1) tr /\ ~ occurs D (e_lits eA) 1) /\
  (exists D s s' tr tr', 
     counter D true 9 confirms (elX D true) (Some (counter_point eA)) 3 init_state [] = LDone s tr /\ elements tr = 0 /\
     counter D true 9 confirms (elX D true) (Some (counter_point (mkE (Some rxA) [] None))) 3 init_state [] = LDone s' tr' /\ elements tr' = 1).
Proof.
  split.
  - exists (txt [65;63;65;120]%Z). eexists _, _. split; [vm_compute; reflexivity|]. split; [simpl; auto 10|].
    intros (t & [<-|[]] & _ & P). specialize (P 0 65%Z eq_refl). discriminate.
  - exists (txt [63;65;63;65;120]%Z). eexists _, _, _, _. split; [vm_compute; reflexivity|]. split; [reflexivity|]. split; [vm_compute; reflexivity|reflexivity].
Qed.
(** Which elements there are depends on whether the parser trims the data it has parsed: what an element consumed before it failed is searched only if it does not.
    type X = unit { : /A/; : b"A"; : b"x"; } on "AAAx" *)
Theorem C81_trim_refuted : exists D el,
  (exists s tr, counter D false 9 confirms (el false) (Some (counter_point (mkE (Some rxA) [] None))) 2 init_state [] = LDone s tr /\ In (LElem 1 4) tr) /\
  (exists s tr, counter D true 9 confirms (el true) (Some (counter_point (mkE (Some rxA) [] None))) 2 init_state [] = LFail s tr /\ elements tr = 0).
Proof.
  exists (txt [65;65;65;120]%Z), (fun TR => let D := txt [65;65;65;120]%Z in elem_of (subunit D TR 9 (mkU [lit D TR 1 65; lit D TR 2 65; lit D TR 5 120] quiet))).
  split; eexists _, _; (split; [vm_compute; reflexivity|simpl; auto]).
Qed.
(** %synchronize-after of the elements' unit does not count in lists with a count. "A?AxEAx", %synchronize-after = b"E" *)
Definition eXE : esync := mkE (Some rxA) [] (Some (mkS SAfter None [TBytes 9 [69%Z]])).
Theorem C81_property_refuted : exists D,
  (exists s, counter D true 9 confirms (elX D true) (Some (counter_point eXE)) 2 init_state [] = LDone s [LElem 2 4; LSynced 2; LFailed 0 0 1]) /\
  ~ occurs D [TBytes 9 [69%Z]] 2.
Proof.
  exists (txt [65;63;65;120;69;65;120]%Z). split; [eexists; vm_compute; reflexivity|].
  intros (t & [<-|[]] & _ & P). specialize (P 0 69%Z eq_refl). discriminate.
Qed.
(** In look-ahead lists it counts, but the look-ahead symbol that is still pending from the failed element's beginning makes the first search end at once and, after the "E", stands for the
    beginning of an element that has not been looked at: the good element there is not parsed. *)
Theorem C81_stale_property_refuted : exists D s tr s1,
  look_list D true 9 confirms (elX D true) 20 (mkW (Some rxA) [] [1] [] true) (Some (while_point eXE)) init_state [] = LFail s tr /\
  In (LSynced 5) tr /\ In (LFailed 5 5 5) tr /\ elX D true (mkP 5 5 SNone 5 false []) = EOk s1 false.
Proof.
  exists (txt [65;63;65;120;69;65;120]%Z). eexists _, _, _. split; [vm_compute; reflexivity|]. split; [simpl; auto 10|]. split; [simpl; auto 10|]. vm_compute. reflexivity.
Qed.
(** A look-ahead list ends where there is no further element, if no literal is known that follows it; with &synchronize this is an error, for valid input, too. *)
Theorem C81_list_end_refuted : exists D w s s' tr,
  look_list D true 9 confirms (elA D true) 20 w None init_state [] = LDone s [LElem 0 1] /\
  look_list D true 9 confirms (elA D true) 20 w (Some (while_point eA)) init_state [] = LFail s' tr.
Proof. exists (txt [65;33]%Z), (mkW None [tA] [1] [] true). eexists _, _, _. split; vm_compute; reflexivity. Qed.
(** In lists with &eod, &size, &until, ... &synchronize has no effect. *)
Theorem C81_eod_refuted : exists D s s',
  for_each D (elA D true) 9 init_state [] = LFail s [LFailed 1 1 1; LElem 0 1] /\ first_from D (e_lits eA) 2 2 /\
  counter D true 5 confirms (elA D true) (Some (counter_point eA)) 3 init_state [] = LDone s' [LElem 2 3; LSynced 2; LFailed 1 1 1; LElem 0 1].
Proof.
  exists (txt [65;63;65]%Z). eexists _, _. split; [vm_compute; reflexivity|]. split; [|vm_compute; reflexivity].
  split; [lia|]. split; [|intros; lia]. exists tA. split; [left; reflexivity|]. split; [discriminate|]. intros [|[|i]] b E; inversion E; subst; reflexivity.
Qed.
