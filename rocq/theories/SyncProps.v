(** C79: error recovery with &synchronize (doc/programming/parsing.rst:2360-2530). *)
From Verif Require Import Base SyncModel SyncSpec SyncProofs1 SyncProofs2 SyncProofs3 SyncProofs4.

(** ** What holds for all units *)

(** Without any failure, &synchronize makes no difference: all fields are parsed, in order. *)
Theorem C79_transparent : forall D TR N u s s', 0 < N -> p_err s = false ->
  (forall f s s', In f (u_fields u) -> f_run f s = Done s' -> p_err s = false -> p_err s' = false) ->
  run_fields (u_fields u) (List.seq 0 (length (u_fields u))) s = Done s' -> run_unit D TR N u s = Done s'.
Proof.
  intros D TR N u s s' HN E HF R. unfold run_unit.
  eapply exec_transparent; [exact HN|exact HF|apply shape_groups|exact E|]. rewrite Nat.sub_0_r. exact R.
Qed.

(** Whatever the fields and hooks do: a failure is followed by nothing but recovery at the closest synchronization point behind it, if there is
    one (else, at one before it, or parsing ends); a field is parsed only after the field before it or after the parser has synchronized on it, from that offset. *)
Theorem C79_closest : forall D TR N u s', 
  run_unit D TR N u init_state = Done s' \/ run_unit D TR N u init_state = Fail s' -> orderly u (rev (p_tr s')).
Proof. intros D TR N u s'. apply run_unit_orderly. reflexivity. Qed.

(** Parsing that nobody confirms is never a success once a field has failed. *)
Theorem C79_confirmed : forall D TR N u s',
  (forall f s s', In f (u_fields u) -> f_run f s = Done s' \/ f_run f s = Fail s' -> p_err s = true -> p_err s' = true) ->
  (forall s, u_synced u s <> HConfirm) ->
  parse D TR N u = Done s' -> forall i p, ~ In (EvField i p false) (p_tr s').
Proof.
  intros D TR N u s' HF HH R i p X. unfold parse in R.
  destruct (run_unit D TR N u init_state) as [s1|s1|] eqn:E; try discriminate.
  destruct (p_err s1) eqn:PE; [discriminate|]. inversion R; subst.
  assert (U : unconfirmed s').
  { eapply (exec_unconf D TR N u HF HH); [|exact E]. intro Y. inversion Y. }
  assert (p_err s' = true); [|congruence]. apply U. apply Exists_exists. exists (EvField i p false). split; [exact X|exact Logic.I].
Qed.

(** Recovery ends, if fields go forward and no unit uses %synchronize-after (without it: C79_endless_refuted): never more than length + 2
    iterations of any loop. *)
Theorem C79_terminates : forall D N u, length D + 2 <= N -> forward_unit u -> run_unit D false N u init_state <> Fatal.
Proof.
  intros D N u HN (HF & HH & HM) E.
  pose proof (exec_ends D N HN u (fun f s H => HF f H s) HH HM 0 _ (shape_groups u) init_state eq_refl) as R.
  unfold run_unit in E. rewrite E in R. exact R.
Qed.
(** So sub-units may be nested, down to literals. *)
Theorem C79_subunits_forward : forall D N u sy, length D + 2 <= N -> forward_unit u -> forward (mkF (subunit D false N u) sy).
Proof.
  intros D N u sy HN (HF & HH & HM) s H0. unfold f_run, subunit, run_unit.
  pose proof (exec_ends D N HN u (fun f s H => HF f H s) HH HM 0 _ (shape_groups u) (mkP (p_pos s) (p_head s) (p_lah s) (p_lahe s) (p_err s) []) H0) as R.
  destruct (exec _ _ _ _ _ _) as [s1|s1|]; simpl in R; [exact R| |contradiction].
  split; [apply R|simpl; lia].
Qed.
Theorem C79_literals_forward : forall D id w h sy, w <> [] -> (forall s, h s <> HThrow) ->
  forward (mkF (with_hook (literal D false (TBytes id w)) h) sy).
Proof.
  intros D id w h sy NW NT s H0. unfold f_run, with_hook.
  assert (L : match literal D false (TBytes id w) s with Done s' | Fail s' => p_head s' = 0 /\ p_pos s <= p_pos s' | Fatal => False end).
  { unfold literal. destruct (lah_set (p_lah s)).
    - destruct (p_lah s); try (split; [exact H0|simpl; lia]; fail). destruct (negb _); try (split; [exact H0|simpl; lia]; fail). rewrite H0. simpl Nat.ltb. cbv iota.
      destruct (starts_with _ _) as [[|]|]; try (split; [exact H0|simpl; lia]; fail). destruct (Nat.eqb _ _) eqn:E; try (split; [exact H0|simpl; lia]; fail). split; [exact H0|]. simpl.
      apply Nat.eqb_eq in E. simpl in E. destruct w; [congruence|]. simpl length in E. lia.
    - destruct (Nat.ltb _ _); try (split; [exact H0|simpl; lia]; fail). rewrite H0. simpl Nat.ltb. cbv iota. destruct (starts_with _ _) as [[|]|]; try (split; [exact H0|simpl; lia]; fail). }
  destruct (literal _ _ _ _) as [s1|s1|]; [|exact L|exact L].
  destruct (h s1) eqn:HK; simpl; auto. eapply NT; exact HK.
Qed.

(** ** The search *)

(** The parser goes on at the first occurrence, from its position on, of one of the literals of the synchronization point (behind it with
    %synchronize-after); the longest one, if several literals are there; recovery fails only if there is none. *)
Theorem C79_search : forall D TR N sp s, length D + 2 <= N ->
  s_rx sp = None -> NoDup (map tok_word (s_lits sp)) -> (no_gaps D \/ length (s_lits sp) <= 1) -> settled s ->
  (exists p t s', sync_production D TR N sp s = Done s' /\ first_from D (s_lits sp) (p_pos s) p /\ longest D (s_lits sp) p t /\ resumed sp p t s s') \/
  (exists s', sync_production D TR N sp s = Fail s' /\ forall p, p_pos s <= p -> ~ occurs D (s_lits sp) p).
Proof. intros. apply sync_production_spec; assumption. Qed.

(** The same for a regular expression (or several of them, as one), on input without gaps: at the first offset where the matcher, given all the rest of the input, finds a
    token. *)
Theorem C79_search_regexp : forall D TR N re m s, length D + 2 <= N -> no_gaps D -> (forall w, re w true <> RMore) -> settled s ->
  (exists p id n s', sync_production D TR N (mkS m (Some re) []) s = Done s' /\ p_pos s <= p < length D /\ re (run (skipn p D)) true = RTok id n /\
    (forall q, p_pos s <= q < p -> re (run (skipn q D)) true = RNo) /\ p_pos s' = (match m with SAfter => p + n | _ => p end) /\
    p_lah s' = (match m with SFirst => STok id | _ => SNone end) /\ p_err s' = p_err s /\ p_tr s' = p_tr s) \/
  (exists s', sync_production D TR N (mkS m (Some re) []) s = Fail s' /\ forall q, p_pos s <= q < length D -> re (run (skipn q D)) true = RNo).
Proof. intros. apply sync_production_rx; assumption. Qed.

(** ** The documented behaviour *)

(** A unit whose fields leave nothing pending and whose synchronization points are given by their first literals behaves as documented, if it
    has one synchronization point only or its %synced hook always confirms, and the hook does not reject.  For what goes wrong otherwise see below. *)
Theorem C79_documented : forall D TR N u, length D + 2 <= N ->
  plain_unit D u -> (forall s, u_synced u s <> HReject) -> (one_point u \/ forall s, u_synced u s <> HNone) ->
  doc D u 0 0 init_state (to_doc (run_unit D TR N u init_state)).
Proof. intros D TR N u HN PU NR OP. apply run_unit_doc; auto. repeat split; simpl; lia. Qed.

(** Fields that are literals are like that, with any hooks. *)
Theorem C79_literals_tidy : forall D TR t sy h, (sy = None \/ sy = Some (mkS SFirst None [t])) -> (forall s, h s <> HThrow) ->
  tidy D (mkF (with_hook (literal D TR t) h) sy).
Proof. intros. apply literal_tidy; assumption. Qed.

(** ** Examples *)
Definition txt (l : list Z) : list (option Z) := map Some l.
Definition quiet (s : pst) : hook := HNone.
Definition confirms (s : pst) : hook := HConfirm.
(** "c"; and "c" &synchronize { h } *)
Definition lit (D : list (option Z)) (TR : bool) (id : nat) (c : Z) : ufield := mkF (with_hook (literal D TR (TBytes id [c])) quiet) None.
Definition lit_sync (D : list (option Z)) (TR : bool) (id : nat) (c : Z) (h : pst -> hook) : ufield :=
  mkF (with_hook (literal D TR (TBytes id [c])) h) (Some (mkS SFirst None [TBytes id [c]])).

(** unit { : b"A"; : b"B" &synchronize; : b"C" { confirm; } } *)
Definition ABC D TR := mkU [lit D TR 1 65; lit_sync D TR 2 66 quiet; mkF (with_hook (literal D TR (TBytes 3 [67%Z])) confirms) None] quiet.
(** "?B?BC": the first B is tried and abandoned, the second is confirmed. *)
Example C79_recovers : 
  let D := txt [63;66;63;66;67]%Z in
  plain_unit D (ABC D true) /\ one_point (ABC D true) /\
  exists s, parse D true 7 (ABC D true) = Done s /\
    rev (p_tr s) = [EvField 0 0 false; EvSynced 1 1; EvField 1 1 true; EvField 2 2 false; EvSynced 1 3; EvField 1 3 true; EvField 2 4 true].
Proof.
  cbv zeta. split; [|split].
  - split.
    + intros f [<-|[<-|[<-|[]]]]; apply C79_literals_tidy; auto; intros s; discriminate.
    + intros f sp [<-|[<-|[<-|[]]]] E; inversion E; subst. repeat split; simpl; auto. constructor; [intros []|constructor].
  - intros i j f g Hi Hj Fi Fj.
    assert (K : forall i f, nth_error (u_fields (ABC (txt [63;66;63;66;67]%Z) true)) i = Some f -> f_sync f <> None -> i = 1).
    { intros a h. destruct a as [|[|[|[|a]]]]; simpl; intros E NN; inversion E; subst; simpl in NN; congruence. }
    rewrite (K _ _ Hi Fi), (K _ _ Hj Fj). reflexivity.
  - eexists. split; [vm_compute; reflexivity|reflexivity].
Qed.
(** Nobody confirms: an error. *)
Example C79_unconfirmed :
  let D := txt [63;66;67]%Z in exists s, parse D true 7 (mkU [lit D true 1 65; lit_sync D true 2 66 quiet; lit D true 3 67] quiet) = Fail s /\ p_pos s = 3.
Proof. cbv zeta. eexists. split; [vm_compute; reflexivity|reflexivity]. Qed.
(** Input that needs no recovery, for C79_transparent. *)
Example C79_no_error :
  let D := txt [65;66;67]%Z in
  exists s, run_fields (u_fields (ABC D true)) (List.seq 0 3) init_state = Done s /\ run_unit D true 1 (ABC D true) init_state = Done s /\ p_pos s = 3.
Proof. cbv zeta. eexists. split; [vm_compute; reflexivity|]. split; [vm_compute; reflexivity|reflexivity]. Qed.
(** "AB" is longer than "A" and wins; with %synchronize-after parsing goes on behind it. *)
Example C79_search_ex :
  let sp m := mkS m None [TBytes 1 [65]; TBytes 2 [65;66]]%Z in
  (exists s, sync_production (txt [63;63;65;66]%Z) true 9 (sp SFirst) init_state = Done s /\ p_pos s = 2 /\ p_lah s = STok 2) /\
  (exists s, sync_production (txt [63;63;65;66]%Z) true 9 (sp SAfter) init_state = Done s /\ p_pos s = 4 /\ p_lah s = SNone) /\
  (exists s, sync_production (txt [63;63;66;65]%Z) true 9 (sp SAt) init_state = Done s /\ p_pos s = 3) /\
  (exists s, sync_production (txt [63;63;66;66]%Z) true 9 (sp SAt) init_state = Fail s).
Proof. cbv zeta. repeat split; (eexists; split; [vm_compute; reflexivity|]) || (eexists; vm_compute; reflexivity); try split; reflexivity. Qed.

(** ** Where the code does not do what is documented *)

(** A sub-unit that fails after consuming something has trimmed that from the stream, but the parent's view still begins there: the search
    throws InvalidIterator, which is not a recoverable failure, although the literal follows in the input.  Without trimming, it works.
    unit X { : b"1"; : b"2"; }; unit { x: X; : b"Y" &synchronize { confirm; } } on "1?Y" *)
Theorem C79_trimmed_refuted : exists D X,
  let u TR := mkU [mkF (subunit D TR 9 (X TR)) None; lit_sync D TR 3 89 confirms] quiet in
  parse D true 9 (u true) = Fatal /\ (exists s, parse D false 9 (u false) = Done s) /\ occurs D [TBytes 3 [89%Z]] 2.
Proof.
  exists (txt [49;63;89]%Z), (fun TR => mkU [lit (txt [49;63;89]%Z) TR 1 49; lit (txt [49;63;89]%Z) TR 2 50] quiet).
  cbv zeta. split; [vm_compute; reflexivity|]. split; [eexists; vm_compute; reflexivity|].
  exists (TBytes 3 [89%Z]). split; [left; reflexivity|]. split; [discriminate|].
  intros [|[|i]] b E; simpl in *; inversion E; subst; reflexivity.
Qed.

(** When a sub-unit fails in trial mode, the look-ahead that made it begin is still pending in the parent: the next search "finds" it right away, where it
    is not, whatever is there.
    unit B { : b"B"; : b"x"; }; unit { : b"A"; b: B &synchronize { confirm; } } on "?B??": %synced runs at 2 *)
Theorem C79_stale_refuted : exists D u s,
  (forall f, In f (u_fields u) -> f_sync f <> None -> f_sync f = Some (mkS SFirst None [TBytes 2 [66%Z]])) /\
  run_unit D true 9 u init_state = Fail s /\ In (EvSynced 1 2) (p_tr s) /\ ~ occurs D [TBytes 2 [66%Z]] 2.
Proof.
  set (D := txt [63;66;63;63]%Z).
  exists D, (mkU [lit D true 1 65; mkF (with_hook (subunit D true 9 (mkU [lit D true 2 66; lit D true 5 120] quiet)) confirms) (Some (mkS SFirst None [TBytes 2 [66%Z]]))] quiet).
  eexists. split; [|split; [vm_compute; reflexivity|split]].
  - intros f [<-|[<-|[]]] NN; simpl in *; [congruence|reflexivity].
  - simpl. auto 10.
  - intros (t & [<-|[]] & _ & P). specialize (P 0 66%Z eq_refl). discriminate.
Qed.

(** With two synchronization points, a failure in trial mode for the first one does not make the parser look for another location to try, but go on
    with the second one.
    unit { : b"A"; : b"B" &synchronize; : b"C"; : b"D" &synchronize { confirm; } } on "?B?BCD": the second B is never tried *)
Theorem C79_retry_refuted : exists D u s,
  run_unit D true 9 u init_state = Done s /\ plain_unit D u /\
  rev (p_tr s) = [EvField 0 0 false; EvSynced 1 1; EvField 1 1 true; EvField 2 2 false; EvSynced 3 5; EvField 3 5 true] /\
  occurs D [TBytes 2 [66%Z]] 3.
Proof.
  set (D := txt [63;66;63;66;67;68]%Z).
  exists D, (mkU [lit D true 1 65; lit_sync D true 2 66 quiet; lit D true 3 67; lit_sync D true 4 68 confirms] quiet).
  eexists. split; [vm_compute; reflexivity|]. split; [|split; [reflexivity|]].
  - split.
    + intros f [<-|[<-|[<-|[<-|[]]]]]; apply C79_literals_tidy; auto; intros s; discriminate.
    + intros f sp [<-|[<-|[<-|[<-|[]]]]] E; inversion E; subst; repeat split; simpl; auto; constructor; try constructor; intros [].
  - exists (TBytes 2 [66%Z]). split; [left; reflexivity|]. split; [discriminate|].
    intros [|[|i]] b E; simpl in *; inversion E; subst; reflexivity.
Qed.

(** Reaching the next synchronization point in trial mode, without any failure, the parser synchronizes once more and skips what does not match.
    unit { : b"A"; : b"B" &synchronize; : b"C" &synchronize { confirm; } } on "?B!C": '!' goes unnoticed *)
Theorem C79_resync_refuted : exists D u s,
  run_unit D true 9 u init_state = Done s /\ plain_unit D u /\
  rev (p_tr s) = [EvField 0 0 false; EvSynced 1 1; EvField 1 1 true; EvSynced 2 3; EvField 2 3 true].
Proof.
  set (D := txt [63;66;33;67]%Z).
  exists D, (mkU [lit D true 1 65; lit_sync D true 2 66 quiet; lit_sync D true 3 67 confirms] quiet).
  eexists. split; [vm_compute; reflexivity|]. split; [|reflexivity].
  split.
  - intros f [<-|[<-|[<-|[]]]]; apply C79_literals_tidy; auto; intros s; discriminate.
  - intros f sp [<-|[<-|[<-|[]]]] E; inversion E; subst; repeat split; simpl; auto; constructor; try constructor; intros [].
Qed.

(** reject in %synced fails the unit; it does not make the parser find another location to try.
    "?BxB", the hook rejects at offset 1: documented is to go on with the B at offset 3. *)
Theorem C79_synced_reject_refuted : exists D u,
  plain_unit D u /\ one_point u /\ to_doc (run_unit D true 9 u init_state) = DFail /\
  exists s, doc D u 0 0 init_state (DDone s).
Proof.
  set (D := txt [63;66;120;66]%Z).
  set (u := mkU [lit D true 1 65; lit_sync D true 2 66 confirms] (fun s => if Nat.eqb (p_pos s) 1 then HReject else HNone)).
  exists D, u. split; [|split; [|split; [vm_compute; reflexivity|]]].
  - split.
    + intros f [<-|[<-|[]]]; apply C79_literals_tidy; auto; intros s; discriminate.
    + intros f sp [<-|[<-|[]]] E; inversion E; subst; repeat split; simpl; auto; constructor; try constructor; intros [].
  - intros i j f g Hi Hj Fi Fj.
    assert (K : forall i f, nth_error (u_fields u) i = Some f -> f_sync f <> None -> i = 1).
    { intros a h. destruct a as [|[|[|a]]]; simpl; intros E NN; inversion E; subst; simpl in NN; congruence. }
    rewrite (K _ _ Hi Fi), (K _ _ Hj Fj). reflexivity.
  - assert (NO : forall q, nth_error D q <> Some (Some 66%Z) -> ~ occurs D [TBytes 2 [66%Z]] q).
    { intros q H (t & [<-|[]] & _ & P). apply H. specialize (P 0 66%Z eq_refl). rewrite Nat.add_0_r in P. exact P. }
    assert (OC : forall q, nth_error D q = Some (Some 66%Z) -> longest D [TBytes 2 [66%Z]] q (TBytes 2 [66%Z])).
    { intros q H. split; [left; reflexivity|]. split; [split; [discriminate|]|].
      - intros [|[|i]] b E; simpl in *; inversion E; subst; rewrite Nat.add_0_r; exact H.
      - intros t [<-|[]] _. reflexivity. }
    assert (FF : forall from q, from <= q -> nth_error D q = Some (Some 66%Z) -> (forall r, from <= r < q -> nth_error D r <> Some (Some 66%Z)) -> first_from D [TBytes 2 [66%Z]] from q).
    { intros from q L H1 H2. split; [exact L|]. split; [exists (TBytes 2 [66%Z]); split; apply (OC q H1)|]. intros r Hr. apply NO. apply H2. exact Hr. }
    eexists. eapply doc_recover with (k' := 1); [reflexivity|reflexivity|reflexivity| |].
    { split; [lia|]. split; [do 2 eexists; split; reflexivity|]. intros; lia. }
    eapply sync_found with (p := 1) (t := TBytes 2 [66%Z]) (h := 0); [reflexivity|reflexivity| |apply OC; reflexivity|simpl; lia|reflexivity|].
    { apply FF; [simpl; lia|reflexivity|]. intros [|r] Hr; [discriminate|simpl in Hr; lia]. }
    apply resume_reject; [reflexivity|].
    eapply sync_found with (p := 3) (t := TBytes 2 [66%Z]) (h := 0); [reflexivity|reflexivity| |apply OC; reflexivity|simpl; lia|reflexivity|].
    { apply FF; [simpl; lia|reflexivity|]. intros [|[|[|r]]] Hr; simpl in Hr; try lia; discriminate. }
    apply resume_trial; [reflexivity|].
    eapply doc_ok; [reflexivity|vm_compute; reflexivity|]. apply doc_end. reflexivity.
Qed.

(** The matcher for a regular expression goes on across a gap with what it has seen before: /AB/ is found in "A", gap, "B". *)
Definition re_AB (w : bytes) (final : bool) : rxres :=
  match w with
  | [] => if final then RNo else RMore
  | a :: [] => if Z.eqb a 65 then if final then RNo else RMore else RNo
  | a :: b :: _ => if Z.eqb a 65 && Z.eqb b 66 then RTok 1 2 else RNo
  end.
Theorem C79_regexp_gap_refuted : exists s,
  sync_production [Some 65%Z; None; Some 66%Z] false 9 (mkS SAt (Some re_AB) []) init_state = Done s /\ p_pos s = 2.
Proof. eexists. split; [vm_compute; reflexivity|reflexivity]. Qed.

(** A gap inside of one literal makes the search go on behind the gap, without asking for the others: "A" in front of a gap is missed if "AB" is
    tried first, and found if it is tried second — or not even then, being lost when "AB" runs into the gap. *)
Theorem C79_gap_tokens_refuted : exists s s',
  sync_production [Some 65%Z; None] false 9 (mkS SFirst None [TBytes 1 [65;66]%Z; TBytes 2 [65%Z]]) init_state = Fail s /\
  sync_production [Some 65%Z; None] false 9 (mkS SFirst None [TBytes 2 [65%Z]; TBytes 1 [65;66]%Z]) init_state = Fail s' /\
  occurs [Some 65%Z; None] [TBytes 1 [65;66]%Z; TBytes 2 [65%Z]] 0.
Proof.
  do 2 eexists. split; [vm_compute; reflexivity|]. split; [vm_compute; reflexivity|].
  exists (TBytes 2 [65%Z]). split; [right; left; reflexivity|]. split; [discriminate|].
  intros [|[|i]] b E; simpl in *; inversion E; subst; reflexivity.
Qed.

(** The pending look-ahead of a sub-unit that failed makes the search for %synchronize-after end where that look-ahead ended, which may be before the current
    position: parsing never ends, although every field goes forward (in the absence of a look-ahead).
    unit B { : b"B"; : b"x"; }; unit C { %synchronize-after = b"C"; : b"C"; }; unit { : b"A"; b: B &synchronize; c: C &synchronize; } on "?B???" *)
Section Endless.
Let D := txt [63;66;63;63;63]%Z.
Let unitB := mkU [lit D false 2 66; lit D false 5 120] quiet.
Let unitC := mkU [lit D false 3 67] quiet.
Let spB := mkS SFirst None [TBytes 2 [66%Z]].
Let spC := mkS SAfter None [TBytes 3 [67%Z]].
Let u := mkU [lit D false 1 65; mkF (subunit D false 0 unitB) (Some spB); mkF (subunit D false 0 unitC) (Some spC)] quiet.
Let stuck (tr : list event) := mkP 3 0 (STok 2) 2 true tr.

Lemma endless_step N fuel sp k body s s1 s2 : p_err s = true -> sync_production D false N sp s = Done s1 ->
  body (log s1 (EvSynced k (p_pos s1))) = Fail s2 -> p_err s2 = true ->
  sync_loop D false N (S fuel) quiet sp k body s = sync_loop D false N fuel quiet sp k body (advance D false s2).
Proof. intros H1 H2 H3 H4. cbn [sync_loop]. rewrite H1, H2. simpl run_hook. cbv iota. rewrite H3, H4. reflexivity. Qed.
Lemma endless_loop n : forall fuel tr, sync_loop D false (S n) fuel quiet spC 2 (exec D false (S n) u [([2], None)]) (stuck tr) = Fatal.
Proof.
  induction fuel as [|fuel IH]; intro tr; [reflexivity|].
  rewrite (endless_step _ _ _ _ _ _ (mkP 2 0 (STok 2) 2 true tr) (mkP 2 0 (STok 2) 2 true (EvField 2 2 false :: EvSynced 2 2 :: tr))); [|reflexivity..].
  apply (IH (EvField 2 2 false :: EvSynced 2 2 :: tr)).
Qed.
Lemma endless_unit n : run_unit D false (S (S n)) u init_state = Fatal.
Proof.
  unfold run_unit. change (groups (u_fields u)) with [([0], Some 1); ([1], Some 2); ([2], @None nat)].
  set (G2 := exec D false (S (S n)) u [([2], None)]).
  set (G1 := exec D false (S (S n)) u [([1], Some 2); ([2], None)]).
  change (exec D false (S (S n)) u [([0], Some 1); ([1], Some 2); ([2], None)] init_state)
    with (sync_loop D false (S (S n)) (S (S n)) quiet spB 1 G1 (mkP 0 0 SNone 0 true [EvField 0 0 false])).
  assert (B : forall tr, G1 (mkP 1 0 (STok 2) 2 true tr) = Fatal).
  { intro tr. change (G1 (mkP 1 0 (STok 2) 2 true tr)) with (sync_loop D false (S (S n)) (S (S n)) quiet spC 2 G2 (mkP 1 0 (STok 2) 2 true (EvField 1 1 false :: tr))).
    rewrite (endless_step _ _ _ _ _ _ (mkP 2 0 (STok 2) 2 true (EvField 1 1 false :: tr)) (mkP 2 0 (STok 2) 2 true (EvField 2 2 false :: EvSynced 2 2 :: EvField 1 1 false :: tr))); [|reflexivity..].
    apply (endless_loop (S n)). }
  assert (P : sync_production D false (S (S n)) spB (mkP 0 0 SNone 0 true [EvField 0 0 false]) = Done (mkP 1 0 (STok 2) 2 true [EvField 0 0 false])) by reflexivity.
  generalize (S n) at 2. intro m. cbn [sync_loop]. simpl p_err. cbv iota. rewrite P. simpl run_hook. cbv iota. unfold log. simpl p_tr. simpl p_pos. simpl p_head. simpl p_lah. simpl p_lahe. simpl p_err.
  rewrite B. reflexivity.
Qed.
Lemma endless_all N : run_unit D false N u init_state = Fatal.
Proof. destruct N as [|[|n]]; [vm_compute; reflexivity|vm_compute; reflexivity|apply endless_unit]. Qed.
Lemma endless_lit id c s : p_head s = 0 -> match literal D false (TBytes id [c]) s with Done s' | Fail s' => p_head s' = 0 | Fatal => False end.
Proof.
  intro H0. unfold literal. destruct (lah_set (p_lah s)).
  - destruct (p_lah s); auto. destruct (negb _); auto. rewrite H0. simpl Nat.ltb. cbv iota.
    destruct (starts_with _ _) as [[|]|]; auto. destruct (Nat.eqb _ _); auto.
  - destruct (Nat.ltb _ _); auto. rewrite H0. simpl Nat.ltb. cbv iota. destruct (starts_with _ _) as [[|]|]; auto.
Qed.
Lemma endless_sub v s : Forall (fun f => f_sync f = None /\ exists id c, f_run f = with_hook (literal D false (TBytes id [c])) quiet) (u_fields v) ->
  p_head s = 0 -> subunit D false 0 v s <> Fatal.
Proof.
  intros FA H0. unfold subunit, run_unit.
  assert (K : forall is s, p_head s = 0 -> match run_fields (u_fields v) is s with Done s' | Fail s' => p_head s' = 0 | Fatal => False end).
  { induction is as [|i is IH]; intros s1 H1; simpl; [exact H1|]. destruct (nth_error (u_fields v) i) as [f|] eqn:E; [|exact H1].
    rewrite Forall_forall in FA. destruct (FA f (nth_error_In _ _ E)) as (_ & id & c & ->). unfold with_hook.
    pose proof (endless_lit id c s1 H1) as L. destruct (literal _ _ _ _); simpl; auto. apply IH. exact L. }
  assert (Q : forall i gs, shape v i gs -> forall s, p_head s = 0 -> exec D false 0 v gs s <> Fatal).
  { intros i gs SH. destruct SH as [i Hi|i Hi HNB|i k gs HC Hk SH]; intros s1 H1; cbn [exec].
    - discriminate.
    - specialize (K (List.seq i (length (u_fields v) - i)) s1 H1). destruct (run_fields _ _ _); [discriminate|discriminate|contradiction].
    - destruct (HC i ltac:(lia)) as (_ & (f & sp & C2 & C3) & _). rewrite Forall_forall in FA. destruct (FA f (nth_error_In _ _ C2)). congruence. }
  specialize (Q 0 _ (shape_groups v) (mkP (p_pos s) (p_head s) (p_lah s) (p_lahe s) (p_err s) []) H0).
  destruct (exec _ _ _ _ _ _); congruence.
Qed.
Lemma endless_never_fatal f s : In f (u_fields u) -> p_head s = 0 -> f_run f s <> Fatal.
Proof.
  intros [<-|[<-|[<-|[]]]] H0; simpl f_run.
  - unfold with_hook. pose proof (endless_lit 1 65%Z s H0) as L. destruct (literal _ _ _ _); simpl; try discriminate; contradiction. 
  - apply endless_sub; [|exact H0]. repeat (apply Forall_cons; [split; [reflexivity|do 2 eexists; reflexivity]|]). apply Forall_nil.
  - apply endless_sub; [|exact H0]. repeat (apply Forall_cons; [split; [reflexivity|do 2 eexists; reflexivity]|]). apply Forall_nil.
Qed.
End Endless.
Theorem C79_endless_refuted : exists D u,
  (forall f s, In f (u_fields u) -> p_head s = 0 -> f_run f s <> Fatal) /\ (forall s, u_synced u s = HNone) /\
  forall N, run_unit D false N u init_state = Fatal.
Proof. eexists _, _. split; [apply endless_never_fatal|]. split; [reflexivity|apply endless_all]. Qed.
