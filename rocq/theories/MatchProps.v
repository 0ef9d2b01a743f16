(** C83: regular expressions find the longest match, independently of how the data is split. *)
From Verif Require Import Base MatchModel MatchSpec MatchProofs MatchProofs2 MatchProofs3.
Open Scope Z_scope.

(** ** Incremental matching *)

(** Whatever pieces and blocks the data arrives in, advance() reports the longest match of all of the data, where it ends, and
    which pattern it is; 0 only if there is none and more data would not help; and a negative code only if there is none yet. *)
Theorem C83_longest : forall E cur_acc cs complete,
  engine_ok E -> Forall blocks_ok cs -> (complete = true -> last cs [] <> []) -> (first_unsplit cs \/ caret_only_first E) ->
  let data := concat (concat cs) in
  exists rc n, advance_all E cur_acc (Some (minit E)) cs complete 0 = Ret (rc, n) /\
    (0 < rc -> 0 <= n <= Z.of_nat (length data) /\ longest E data complete (Z.to_nat n) rc) /\
    (rc = 0 -> no_match E data complete) /\
    (rc < 0 -> rc = -1 /\ n = Z.of_nat (length data) /\ (complete = true -> no_match E data complete) /\
               exists q, path E (q0 E) (text data complete) = Some q) /\
    (complete = false -> forall more_data c, (more_data <> [] \/ c = false) ->
       (0 < rc -> longest E (data ++ more_data) c (Z.to_nat n) rc) /\ (rc = 0 -> no_match E (data ++ more_data) c)).
Proof.
  intros E cur_acc cs complete OK Hb Hl Hf data. destruct (one_shot E data complete) as [rc n] eqn:O. exists rc, n.
  split; [unfold data in O; rewrite advance_all_one_shot by assumption; rewrite O; reflexivity|].
  exact (one_shot_spec E OK _ _ _ _ O).
Qed.

(** Two ways of cutting up the same data give the same answer. *)
Theorem C83_chunking : forall E cur_acc cs cs' complete,
  Forall blocks_ok cs -> Forall blocks_ok cs' ->
  (complete = true -> last cs [] <> []) -> (complete = true -> last cs' [] <> []) ->
  (first_unsplit cs /\ first_unsplit cs' \/ caret_only_first E) ->
  concat (concat cs) = concat (concat cs') ->
  advance_all E cur_acc (Some (minit E)) cs complete 0 = advance_all E cur_acc (Some (minit E)) cs' complete 0.
Proof.
  intros E cur_acc cs cs' complete H1 H2 H3 H4 H5 H6. rewrite !advance_all_one_shot; [rewrite H6; reflexivity|tauto..].
Qed.

Lemma abc123_ok : engine_ok abc123.
Proof.
  intros q [[c f] l] M. cbn in *. do 6 (destruct q as [|q]; [discriminate|]). reflexivity.
Qed.
Lemma abc123_caret : caret_only_first abc123.
Proof. intros q s q' _ c l. destruct q'; reflexivity. Qed.
Lemma abc123_dollar : no_dollar abc123.
Proof. intros q c f. destruct q; reflexivity. Qed.

(** abc(123)? fed "ab", "c1" and "2X" in two blocks: "abc", three bytes before the end of the data. *)
Example C83_longest_ex :
  let cs := [[[97; 98]]; [[99; 49]]; []; [[50]; [88]]] in
  engine_ok abc123 /\ Forall blocks_ok cs /\ last cs [] <> [] /\ first_unsplit cs /\ caret_only_first abc123 /\
  advance_all abc123 (cur_here abc123) (Some (minit abc123)) cs true 0 = Ret (1, 3) /\
  advance abc123 (cur_here abc123) (fst (advance abc123 (cur_here abc123) (fst (advance abc123 (cur_here abc123) (Some (minit abc123))
     [[97; 98]] false)) [[99; 49]] false)) [[50]; [88]] false
  = (Some (mkM abc123 1 false true (mkJ abc123 5%nat 6 1 4)), Ret (1, -1)).
Proof.
  cbn zeta. split; [exact abc123_ok|]. split; [repeat constructor; discriminate|]. split; [discriminate|]. split; [reflexivity|].
  split; [exact abc123_caret|]. split; reflexivity.
Qed.

(** The documentation of advance() does not restrict the blocks of the first piece, but ^ is taken to hold at the beginning of
    each of its blocks: the pattern a^b matches "ab" if the two bytes lie in different blocks of the stream. *)
Theorem C83_caret_refuted :
  exists E cs cs', engine_ok E /\ Forall blocks_ok cs /\ Forall blocks_ok cs' /\ concat (concat cs) = concat (concat cs') /\
    last cs [] <> [] /\ last cs' [] <> [] /\
    forall cur_acc, advance_all E cur_acc (Some (minit E)) cs true 0 = Ret (0, 1) /\
                    advance_all E cur_acc (Some (minit E)) cs' true 0 = Ret (1, 2) /\
                    no_match E (concat (concat cs')) true.
Proof.
  exists a_bol_b, [[[97; 98]]], [[[97]; [98]]]. split.
  { intros q [[c f] l] M. cbn in *. do 2 (destruct q as [|q]; [discriminate|]). reflexivity. }
  split; [repeat constructor; discriminate|]. split; [repeat constructor; discriminate|]. split; [reflexivity|].
  split; [discriminate|]. split; [discriminate|]. intros ca. split; [reflexivity|]. split; [reflexivity|].
  intros k id (H & H1 & q & H2 & H3). cbn in H.
  do 3 (destruct k as [|k]; [cbn in H2; try (inversion H2; subst q; cbn in H3; lia); discriminate|]). lia.
Qed.

(** Nor does it exclude that the end of the data becomes known only after the data: then the answer is wrong whenever the
    longest match ends before the end of the data, whatever jrx_current_accept returns. *)
Theorem C83_empty_final_refuted : forall cur_acc,
  exists cs, Forall blocks_ok cs /\ first_unsplit cs /\
    longest abc123 (concat (concat cs)) true 3 1 /\
    advance_all abc123 cur_acc (Some (minit abc123)) cs true 0 <> Ret (1, 3).
Proof.
  intros ca. exists [[[97; 98; 99; 49]]; []]. split; [repeat constructor; discriminate|]. split; [reflexivity|]. split.
  - split.
    + split; [cbn; lia|]. split; [lia|]. exists 3%nat. split; reflexivity.
    + intros k id (H & H1 & q & H2 & H3). cbn in H. do 4 (destruct k as [|k]; [lia|]). destruct k; [|lia].
      cbn in H2. inversion H2; subst q. cbn in H3. lia.
  - cbn. destruct ((0 <=? ca (mkJ abc123 4%nat 5 1 4)) || true); intros H; inversion H.
Qed.

(** ** Matching a whole value *)

(** match() is positive exactly if some prefix of the (non-empty) value matches, and is then the pattern of the longest one. *)
Theorem C83_match : forall E data,
  engine_ok E -> data <> [] ->
  (0 < re_match E data -> exists k, longest E data true k (re_match E data)) /\
  (forall k id, longest E data true k id -> re_match E data = id) /\
  (re_match E data <= 0 <-> no_match E data true).
Proof.
  intros E data OK Hd. unfold re_match.
  destruct (search_cases E OK data Hd) as [(k & id & -> & Hid & Hk & HL)|(rc & -> & Hrc & HN)]; cbn [fst].
  - split; [intros _; exists k; exact HL|]. split.
    + intros k' id' HL'. destruct (longest_fun E _ _ _ _ _ _ HL HL') as [_ ->]. reflexivity.
    + split; [lia|]. intros H. exfalso. apply (H k id). apply HL.
  - split; [lia|]. split.
    + intros k id HL. exfalso. apply (HN k id). apply HL.
    + split; [intros _; exact HN|intros _; exact Hrc].
Qed.

(** match() and one call of advance() agree on every non-empty value. *)
Theorem C83_match_advance : forall E cur_acc data, data <> [] ->
  snd (advance E cur_acc (Some (minit E)) [data] true) = Ret (re_match E data, snd (one_shot E data true)) /\
  re_match E data = fst (one_shot E data true).
Proof.
  intros E ca data Hd.
  assert (Hb : blocks_ok [data]) by (constructor; [assumption|constructor]).
  assert (R : re_match E data = fst (one_shot E data true)).
  { unfold re_match. rewrite search_one_shot by assumption. destruct (one_shot E data true) as [rc n]. destruct (0 <? rc); reflexivity. }
  split; [|exact R].
  rewrite advance_exec; [|apply fresh_init|exact Hb|discriminate|right; left; reflexivity]. rewrite R.
  cbn [concat m_first minit m_ms]. rewrite app_nil_r. unfold outc, one_shot. cbn [m_ms minit jinit joff].
  destruct (exec E data true true true (jinit E)) as [j rc].
  destruct (rc =? 0); [reflexivity|]. destruct (0 <? rc); reflexivity.
Qed.

(** The empty value never matches, not even a pattern matching the empty string; advance() does report that match. *)
Theorem C83_match_empty : forall E, re_match E [] = -1 /\ find E [] = (-1, []).
Proof. intros E. split; reflexivity. Qed.
Theorem C83_match_empty_refuted :
  engine_ok astar /\ longest astar [] true 0 1 /\ re_match astar [] = -1 /\ find astar [] = (-1, []) /\
  find astar [98] = (1, []).
Proof.
  split; [intros q s H; discriminate|]. split; [|split; [reflexivity|split; reflexivity]].
  split; [split; [cbn; lia|]; split; [lia|]; exists 0%nat; split; reflexivity|].
  intros k id (H & _). cbn in H. lia.
Qed.

(** find() returns the longest match beginning at any byte of the value, the left-most one among those of the same length; it
    returns -1 and nothing if the pattern matches at none of them. *)
Theorem C83_find : forall E data, engine_ok E ->
  (find E data = (-1, []) /\ forall s, (s < length data)%nat -> no_match E (skipn s data) true) \/
  (exists s k id, find E data = (id, slice data s k) /\ (s < length data)%nat /\ longest E (skipn s data) true k id /\
     forall s' k' id', (s' < length data)%nat -> longest E (skipn s' data) true k' id' ->
       (k' < k)%nat \/ (k' = k /\ (s <= s')%nat)).
Proof. intros E data OK. exact (find_cases E OK data). Qed.

(** "abcXabc123": the second match is longer; "abcXabc": both are equally long. *)
Example C83_find_ex :
  find abc123 [97; 98; 99; 88; 97; 98; 99; 49; 50; 51] = (1, [97; 98; 99; 49; 50; 51]) /\
  find abc123 [97; 98; 99; 88; 97; 98; 99] = (1, [97; 98; 99]) /\
  find abc123 [97; 98] = (-1, []).
Proof. repeat split; reflexivity. Qed.

(** find() takes ^ to hold at every byte: /^b/ is found in "ab", where it matches at no beginning. *)
Theorem C83_find_caret_refuted :
  engine_ok bol_b /\ find bol_b [97; 98] = (1, [98]) /\
  delta bol_b 0%nat (98, false, true) = None /\ no_match bol_b [97; 98] true.
Proof.
  split. { intros q [[c f] l] M. cbn in *. destruct q as [|q]; [discriminate|]. reflexivity. }
  split; [reflexivity|]. split; [reflexivity|].
  intros k id (H & H1 & q & H2 & H3). cbn in H.
  do 3 (destruct k as [|k]; [cbn in H2; try (inversion H2; subst q; cbn in H3; lia); discriminate|]). lia.
Qed.

(** matchGroups(): refused for sets and with &nosub; empty if there is no match; otherwise the match itself first. *)
Theorem C83_match_groups : forall E groups npat no_sub data, engine_ok E ->
  match match_groups E groups npat no_sub data with
  | Exc e => e = NotSupported /\ ((1 < npat)%nat \/ no_sub = true)
  | Ret gs => (npat <= 1)%nat /\ no_sub = false /\
    ((data = [] \/ no_match E data true) /\ gs = [] \/
     exists k id, longest E data true k id /\ nth_error gs 0 = Some (firstn k data))
  end.
Proof.
  intros E groups npat no_sub data OK. unfold match_groups. destruct (Nat.ltb_spec 1 npat) as [h|h]; [auto|].
  destruct no_sub; [auto|].
  destruct data as [|x data].
  { cbn. split; [assumption|]. split; [reflexivity|]. left. split; [left|]; reflexivity. }
  assert (Hd : x :: data <> []) by discriminate. remember (x :: data) as d eqn:Ed. clear Ed.
  destruct (search_cases E OK d Hd) as [(k & id & -> & Hid & Hk & HL)|(rc & -> & Hrc & HN)].
  - replace (0 <? id) with true by (symmetry; apply Z.ltb_lt; lia). split; [assumption|]. split; [reflexivity|].
    right. exists k, id. split; [exact HL|]. cbn [nth_error]. unfold subslice.
    replace ((0 <? 0) || (Z.of_nat k <? 0)) with false by (symmetry; rewrite orb_false_iff; split; apply Z.ltb_ge; lia).
    cbn [Z.to_nat skipn]. rewrite Nat2Z.id, Nat.sub_0_r. reflexivity.
  - replace (0 <? rc) with false by (symmetry; apply Z.ltb_ge; lia). split; [assumption|]. split; [reflexivity|].
    left. split; [right; exact HN|reflexivity].
Qed.

(** captures() yields something only after a successful, finished match, and then the groups that took part, in order; group i
    is at index i if the groups before it all took part. *)
Theorem C83_captures : forall E groups no_sub m data,
  (captures E groups no_sub m data <> [] -> no_sub = false /\ 0 < m_acc E m /\ m_done E m = true) /\
  (no_sub = false -> 0 < m_acc E m -> m_done E m = true ->
   forall i g, nth_error (groups (m_ms E m)) i = Some g -> 0 <= fst g ->
   (forall i' g', (i' < i)%nat -> nth_error (groups (m_ms E m)) i' = Some g' -> 0 <= fst g') ->
   nth_error (captures E groups no_sub m data) i = Some (subslice data (fst g) (snd g))).
Proof.
  intros E groups no_sub m data. unfold captures. split.
  - destruct no_sub; [intros H; exfalso; apply H; reflexivity|]. destruct (Z.leb_spec (m_acc E m) 0) as [h|h]; [intros H; exfalso; apply H; reflexivity|].
    destruct (m_done E m); [auto|intros H; exfalso; apply H; reflexivity].
  - intros -> Ha Hd. replace (m_acc E m <=? 0) with false by (symmetry; apply Z.leb_gt; lia). rewrite Hd. cbn [orb negb].
    generalize (groups (m_ms E m)). intros gs. induction gs as [|g0 gs IH]; intros i g Hi Hg Hb; [destruct i; discriminate|].
    destruct i as [|i].
    + cbn in Hi. inversion Hi; subst g0. cbn [filter]. replace (0 <=? fst g) with true by (symmetry; apply Z.leb_le; lia). reflexivity.
    + cbn [filter]. pose proof (Hb 0%nat g0 ltac:(lia) eq_refl) as h0.
      replace (0 <=? fst g0) with true by (symmetry; apply Z.leb_le; lia). cbn [orb map nth_error].
      apply IH; [exact Hi|assumption|]. intros i' g' hi hn. apply (Hb (S i') g'); [lia|exact hn].
Qed.

(** "For i>0, index i will contain the i'th capture group" (regexp.h:143): not after a group that took no part. With the
    groups of (a)|(b) on "b", index 1 holds group 2, by captures() as well as by matchGroups(). *)
Theorem C83_captures_refuted :
  exists E groups m data, m_acc E m = 1 /\ m_done E m = true /\ nth_error (groups (m_ms E m)) 1 = Some (-1, -1) /\
    nth_error (groups (m_ms E m)) 2 = Some (0, 1) /\ captures E groups false m data = [data; data] /\
    match_groups E groups 1 false data = Ret [data; data].
Proof.
  exists (mkEngine nat 0%nat (fun q s => match q with 0%nat => Some 1%nat | _ => None end) (fun q => if Nat.eqb q 1 then 1 else 0) (fun q => Nat.ltb q 1)),
    (fun _ => [(0, 1); (-1, -1); (0, 1)]), (mkM _ 1 false true (jinit _)), [98].
  repeat split; reflexivity.
Qed.

(** ** Match states *)

Lemma advance_keeps_null : forall E ca s bs fin, fst (advance E ca s bs fin) = None <-> s = None.
Proof.
  intros E ca [m|] bs fin; cbn [advance]; [|split; reflexivity]. destruct (m_done E m); [cbn; split; discriminate|].
  destruct (adv E ca m bs fin) as [m' [rc n]]. cbn. split; discriminate.
Qed.

(** Once advance() has returned a non-negative code, each further call on that state fails with MatchStateReuse, whatever is
    done to it or to other states in between, until the variable is assigned. *)
Theorem C83_reuse : forall E cur_acc std v0 l1 x bs fin rc n l2 bs' fin' v1,
  mrun E cur_acc std v0 l1 = v1 ->
  snd (mstep E cur_acc std (fst v1) (MAdvance x bs fin)) = Ret (Some (rc, n)) -> 0 <= rc ->
  Forall (fun o => ~ assigns x o) l2 ->
  let v2 := fst (mstep E cur_acc std (fst v1) (MAdvance x bs fin)) in
  let v3 := fst (mrun E cur_acc std v2 l2) in
  mstep E cur_acc std v3 (MAdvance x bs' fin') = (upd E v3 x (v3 x), Exc MatchStateReuse).
Proof.
  intros E ca std v0 l1 x bs fin rc n l2 bs' fin' v1 _ Hs Hr HF. cbn zeta.
  assert (D : exists m, fst (mstep E ca std (fst v1) (MAdvance x bs fin)) x = Some m /\ m_done E m = true).
  { revert Hs. cbn [mstep]. destruct (fst v1 x) as [m|]; cbn [advance]; [|discriminate].
    destruct (m_done E m); [discriminate|]. destruct (adv E ca m bs fin) as [m' [rc' n']]. cbn [fst snd]. intros H. inversion H; subst.
    unfold upd. rewrite Nat.eqb_refl. replace (0 <=? rc) with true by (symmetry; apply Z.leb_le; lia).
    eexists. split; [reflexivity|]. reflexivity. }
  revert D. generalize (fst (mstep E ca std (fst v1) (MAdvance x bs fin))). clear Hs. induction l2 as [|o l2 IH]; intros v (m & Hv & Hd).
  - cbn [mrun fst mstep]. rewrite Hv. cbn [advance]. rewrite Hd. reflexivity.
  - inversion HF as [|? ? Ho HF2]; subst. cbn [mrun].
    destruct (mstep E ca std v o) as [v' r] eqn:Es. specialize (IH HF2 v').
    destruct (mrun E ca std v' l2) as [v'' rs] eqn:Er. cbn [fst] in IH |- *. apply IH. exists m. split; [|exact Hd].
    assert (v' = fst (mstep E ca std v o)) as -> by (rewrite Es; reflexivity). clear Es Er IH.
    destruct o as [y|y|y z|y z|y bs1 fin1]; cbn [mstep assigns] in *.
    + cbn. unfold upd. destruct (Nat.eqb_spec x y); [contradiction|exact Hv].
    + cbn. unfold upd. destruct (Nat.eqb_spec x y); [contradiction|exact Hv].
    + destruct (Nat.eqb_spec y z); [exact Hv|]. destruct (v z); [|exact Hv]. destruct std; [exact Hv|].
      cbn. unfold upd. destruct (Nat.eqb_spec x y); [exfalso; tauto|exact Hv].
    + destruct (Nat.eqb_spec y z); [exact Hv|]. cbn. unfold upd.
      destruct (Nat.eqb_spec x z); [exfalso; tauto|]. destruct (Nat.eqb_spec x y); [exfalso; tauto|exact Hv].
    + destruct (Nat.eqb_spec x y) as [<-|hne].
      * rewrite Hv. cbn [advance]. rewrite Hd. cbn. unfold upd. rewrite Nat.eqb_refl. reflexivity.
      * destruct (advance E ca (v y) bs1 fin1) as [s r1]. cbn. unfold upd.
        replace (Nat.eqb x y) with false by (symmetry; apply Nat.eqb_neq; assumption). exact Hv.
Qed.

(** A negative code leaves the state usable - also if the data was final, where regexp.h:109-112 announces MatchStateReuse. *)
Theorem C83_no_reuse_error : forall E cur_acc std v x bs fin rc n bs' fin',
  snd (mstep E cur_acc std v (MAdvance x bs fin)) = Ret (Some (rc, n)) -> rc < 0 ->
  exists p, snd (mstep E cur_acc std (fst (mstep E cur_acc std v (MAdvance x bs fin))) (MAdvance x bs' fin')) = Ret (Some p).
Proof.
  intros E ca std v x bs fin rc n bs' fin'. cbn [mstep]. destruct (v x) as [m|]; cbn [advance]; [|discriminate].
  destruct (m_done E m) eqn:Hd; [discriminate|]. destruct (adv E ca m bs fin) as [m' [rc' n']] eqn:Ea. cbn [fst snd].
  intros H Hr. inversion H; subst. unfold upd. rewrite Nat.eqb_refl.
  replace (0 <=? rc) with false by (symmetry; apply Z.leb_gt; lia).
  assert (Hd' : m_done E m' = false).
  { assert (A : forall bs0 f fi st m0, m_done E (fst (adv_blocks E bs0 f fi st m0)) = m_done E m0).
    { induction bs0 as [|b r IH]; intros f fi st m0; cbn [adv_blocks]; [reflexivity|].
      destruct (exec E b f (fi && is_nil r) (fi && is_nil r) (m_ms E m0)) as [j v0].
      destruct (v0 =? 0); [reflexivity|]. destruct (0 <? v0); [reflexivity|]. rewrite IH. reflexivity. }
    assert (m' = fst (adv E ca m bs fin)) as -> by (rewrite Ea; reflexivity). unfold adv.
    destruct (is_nil (concat bs)); [exact Hd|]. rewrite A. exact Hd. }
  cbn [advance]. rewrite Hd'. destruct (adv E ca m' bs' fin') as [m2 [rc2 n2]]. cbn. eexists. reflexivity.
Qed.
Example C83_no_reuse_error_ex : forall cur_acc,
  snd (mstep abc123 cur_acc false (fun _ => Some (minit abc123)) (MAdvance 0 [[97; 98]] true)) = Ret (Some (-1, 2)).
Proof. intros. reflexivity. Qed.

(** MatchStateReuse is raised only on a state that has decided, PatternError only on one without regular expression; neither
    changes anything. *)
Theorem C83_errors : forall E cur_acc std v x bs fin,
  match snd (mstep E cur_acc std v (MAdvance x bs fin)) with
  | Ret _ => exists m, v x = Some m /\ m_done E m = false
  | Exc e => (e = PatternError /\ v x = None \/ e = MatchStateReuse /\ exists m, v x = Some m /\ m_done E m = true) /\
             forall y, fst (mstep E cur_acc std v (MAdvance x bs fin)) y = v y
  end.
Proof.
  intros E ca std v x bs fin. cbn [mstep]. destruct (v x) as [m|] eqn:Hv; cbn [advance].
  - destruct (m_done E m) eqn:Hd; cbn [fst snd].
    + split; [right; split; [reflexivity|exists m; auto]|]. intros y. unfold upd. destruct (Nat.eqb_spec y x) as [->|]; congruence.
    + destruct (adv E ca m bs fin) as [m' [rc n]]. cbn [snd]. exists m. auto.
  - cbn [fst snd]. split; [left; auto|]. intros y. unfold upd. destruct (Nat.eqb_spec y x) as [->|]; congruence.
Qed.

(** States are independent: no operation changes a variable it does not name; a copy continues as the original would (if that
    had not finished), and the other way round. Copying is refused for the standard matcher. *)
Theorem C83_independent : forall E cur_acc std v o y,
  (match o with MNew x | MDefault x | MCopy x _ | MAdvance x _ _ => y <> x | MMove x z => y <> x /\ y <> z end) ->
  fst (mstep E cur_acc std v o) y = v y.
Proof.
  intros E ca std v o y H. destruct o as [x|x|x z|x z|x bs fin]; cbn [mstep].
  - cbn. unfold upd. destruct (Nat.eqb_spec y x); [contradiction|reflexivity].
  - cbn. unfold upd. destruct (Nat.eqb_spec y x); [contradiction|reflexivity].
  - destruct (Nat.eqb x z); [reflexivity|]. destruct (v z); [|reflexivity]. destruct std; [reflexivity|].
    cbn. unfold upd. destruct (Nat.eqb_spec y x); [contradiction|reflexivity].
  - destruct (Nat.eqb x z); [reflexivity|]. cbn. unfold upd.
    destruct (Nat.eqb_spec y z); [tauto|]. destruct (Nat.eqb_spec y x); [tauto|reflexivity].
  - destruct (advance E ca (v x) bs fin) as [s r]. cbn. unfold upd. destruct (Nat.eqb_spec y x); [contradiction|reflexivity].
Qed.

Theorem C83_copy : forall E cur_acc v x y m, x <> y -> v y = Some m ->
  mstep E cur_acc true v (MCopy x y) = (v, Exc InvalidArgument) /\
  snd (mstep E cur_acc false v (MCopy x y)) = Ret None /\
  (m_done E m = false -> forall bs fin,
     snd (mstep E cur_acc false (fst (mstep E cur_acc false v (MCopy x y))) (MAdvance x bs fin)) =
     snd (mstep E cur_acc false v (MAdvance y bs fin))) /\
  (forall std, snd (mstep E cur_acc std v (MMove x y)) = Ret None /\
     fst (mstep E cur_acc std v (MMove x y)) x = v y /\ fst (mstep E cur_acc std v (MMove x y)) y = None).
Proof.
  intros E ca v x y m Hn Hv. assert (Nx : Nat.eqb x y = false) by (apply Nat.eqb_neq; assumption).
  cbn [mstep]. rewrite Nx, Hv. split; [reflexivity|]. split; [reflexivity|]. split.
  - intros Hd bs fin. cbn [fst]. unfold upd at 1. rewrite Nat.eqb_refl. destruct m as [a f d j]. cbn in Hd. subst d. unfold mcopy. cbn [m_acc m_first m_ms].
    destruct (advance E ca (Some (mkM E a f false j)) bs fin); reflexivity.
  - intros std. split; [reflexivity|]. cbn [fst]. unfold upd. rewrite !Nat.eqb_refl, Nx. split; reflexivity.
Qed.

(** "A matcher copy-constructed from an completed matcher is also completed" (tests/regexp.cc:414, which moves): a copy is not. *)
Theorem C83_copy_finished_refuted : forall cur_acc,
  exists l, map (fun r => match r with Ret (Some p) => Some p | _ => None end)
                (snd (mrun abc123 cur_acc false (fun _ => None) l)) = [None; Some (1, 3); None; Some (1, 0)] /\
            l = [MNew 0; MAdvance 0 [[97; 98; 99; 88]] false; MCopy 1 0; MAdvance 1 [[88]] false].
Proof. intros ca. eexists. split; [|reflexivity]. reflexivity. Qed.

(** Copying a default-constructed or moved-from state dereferences a null pointer. *)
Theorem C83_copy_null_refuted : forall E cur_acc std v x y, x <> y -> v y = None ->
  mstep E cur_acc std v (MCopy x y) = (v, Exc Undefined).
Proof.
  intros E ca std v x y Hn Hv. cbn [mstep]. replace (Nat.eqb x y) with false by (symmetry; apply Nat.eqb_neq; assumption).
  rewrite Hv. reflexivity.
Qed.

(** ** Regular-expression literals of a unit *)

(** If the input is known to be complete by the time its last bytes are looked at, a literal consumes the longest match of the
    rest of the input, however that arrived, and fails exactly if there is none. *)
Theorem C83_literal : forall E cur_acc cs c,
  engine_ok E -> cur_acc_ok E cur_acc -> Forall blocks_ok cs -> blocks_ok c -> c <> [] ->
  (first_unsplit (cs ++ [c]) \/ caret_only_first E) ->
  let data := concat (concat (cs ++ [c])) in
  let r := parse_regexp E cur_acc (map (fun b => (b, false)) cs ++ [(c, true)]) in
  (forall k id, longest E data true k id -> r = PMatched id (Z.of_nat k)) /\ (no_match E data true -> r = PFailed).
Proof.
  intros E ca cs c OK CA Hb Hc Hn Hf data r. unfold r. rewrite parse_one_shot by assumption. fold data.
  destruct (one_shot E data true) as [rc n] eqn:O. destruct (one_shot_spec E OK _ _ _ _ O) as (H1 & H2 & H3 & _).
  unfold presult_of. split.
  - intros k id HL. destruct (Z.ltb_spec 0 rc) as [h|h].
    + destruct (H1 h) as [h1 h2]. destruct (longest_fun E _ _ _ _ _ _ h2 HL) as [h3 ->]. f_equal. lia.
    + exfalso. destruct (Z.eq_dec rc 0) as [h0|h0]; [apply (H2 h0 k id), HL|]. destruct (H3 ltac:(lia)) as (_ & _ & h4 & _).
      apply (h4 eq_refl k id), HL.
  - intros HN. destruct (Z.ltb_spec 0 rc) as [h|h]; [|reflexivity]. exfalso. destruct (H1 h) as [_ h2]. apply (HN _ _ (proj1 h2)).
Qed.
Example C83_literal_ex :
  cur_acc_ok abc123 (cur_recorded abc123) /\ cur_acc_ok abc123 (cur_here abc123) /\
  parse_regexp abc123 (cur_here abc123) [([[97; 98]], false); ([[99]; [49]], true)] = PMatched 1 3 /\
  parse_regexp abc123 (cur_here abc123) [([[97]], false); ([[98]], true)] = PFailed.
Proof.
  split; [|split; [|split; reflexivity]].
  - split; intros j H; unfold cur_recorded, verdict.
    + destruct (Z.ltb_spec 0 (jacc abc123 j)); [lia|reflexivity].
    + intros _. destruct (Z.ltb_spec 0 (jacc abc123 j)); [reflexivity|lia].
  - split; intros j H; unfold cur_here, verdict.
    + destruct (Z.ltb_spec 0 (jacc abc123 j)); [lia|]. destruct (jeo abc123 j =? joff abc123 j); reflexivity.
    + intros ->. rewrite Z.eqb_refl. destruct (Z.ltb_spec 0 (jacc abc123 j)); [reflexivity|lia].
Qed.

(** If the end becomes known only afterwards, the same holds as long as the longest match extends to the end of the data, or
    the automaton got stuck before; $ must not be used. *)
Theorem C83_literal_late_end : forall E cur_acc cs,
  engine_ok E -> no_dollar E -> cur_acc_ok E cur_acc -> Forall blocks_ok cs -> (first_unsplit cs \/ caret_only_first E) ->
  let data := concat (concat cs) in
  let r := parse_regexp E cur_acc (map (fun b => (b, false)) cs) in
  (forall k id, longest E data true k id -> k = length data \/ path E (q0 E) (text data true) = None -> r = PMatched id (Z.of_nat k)) /\
  (no_match E data true -> r = PFailed).
Proof.
  intros E ca cs OK ND CA Hb Hf data r. unfold r, parse_regexp.
  rewrite (parse_loop_late E ca cs (minit E) 0 (fresh_init E) Hb (or_intror Hf)). fold data.
  cbn [m_first minit m_ms jinit joff]. change (mkJ E (q0 E) 1 (if 0 <? acc E (q0 E) then acc E (q0 E) else 0) 1) with (jinit E). split.
  - intros k id HL Hk. pose proof (late_spec E OK data k id ND HL) as HS.
    destruct (exec E data true false false (jinit E)) as [j rc] eqn:Ex. pose proof (exec_rc _ _ _ _ _ _ _ _ Ex) as Hrc.
    destruct HS as [HS1 HS2]. unfold late. assert (Hid : 0 < id) by apply HL.
    destruct Hrc as [Hrc|Hrc].
    + destruct (HS1 Hrc) as [-> He]. replace (id =? 0) with false by (symmetry; apply Z.eqb_neq; lia).
      replace (0 <? id) with true by (symmetry; apply Z.ltb_lt; lia). f_equal. lia.
    + subst rc. destruct (HS2 ltac:(lia)) as (Ha & _ & He & Ho). destruct Hk as [Hk|Hk].
      * rewrite (proj2 CA j) by lia. replace (-1 =? 0) with false by reflexivity. replace (0 <? -1) with false by reflexivity.
        rewrite Ha. replace (id <? 0) with false by (symmetry; apply Z.ltb_ge; lia).
        replace (id =? 0) with false by (symmetry; apply Z.eqb_neq; lia). f_equal. lia.
      * exfalso. destruct (undecided E _ _ _ Ex ltac:(lia)) as (P & _). rewrite text_ptext, (path_dollar E ND), P in Hk. discriminate.
  - intros HN. destruct (exec E data true false false (jinit E)) as [j rc] eqn:Ex. pose proof (exec_rc _ _ _ _ _ _ _ _ Ex) as Hrc.
    assert (NF : no_match E data false) by (intros k id h; apply (HN k id); apply (matches_dollar E ND); exact h). unfold late.
    destruct Hrc as [Hrc|Hrc].
    + destruct (Z.eqb_spec rc 0) as [|h0]; [reflexivity|]. exfalso.
      assert (O : one_shot E data false = (rc, jeo E j - 1)).
      { unfold one_shot. rewrite Ex. replace (rc =? 0) with false by (symmetry; apply Z.eqb_neq; lia).
        replace (0 <? rc) with true by (symmetry; apply Z.ltb_lt; lia). reflexivity. }
      destruct (one_shot_spec E OK _ _ _ _ O) as (h1 & _). destruct (h1 ltac:(lia)) as [_ h2]. apply (NF _ _ (proj1 h2)).
    + subst rc. replace (-1 =? 0) with false by reflexivity. replace (0 <? -1) with false by reflexivity.
      destruct (undecided E _ _ _ Ex ltac:(lia)) as (_ & _ & H3 & H4).
      rewrite (proj1 CA j).
      * reflexivity.
      * destruct (Z.lt_ge_cases 0 (jacc E j)) as [h|h]; [|exact h]. exfalso. destruct (H4 h) as (k & _ & Hm & _).
        apply matches_macc in Hm. apply (NF _ _ Hm).
Qed.
Example C83_literal_late_end_ex :
  longest abc123 [97; 98; 99] true 3 1 /\
  parse_regexp abc123 (cur_here abc123) [([[97; 98]], false); ([[99]], false)] = PMatched 1 3 /\
  path abc123 0%nat (text [97; 98; 99; 49; 88] true) = None /\
  parse_regexp abc123 (cur_here abc123) [([[97; 98; 99; 49]], false); ([[88]], false)] = PMatched 1 3.
Proof.
  split; [|repeat split; reflexivity]. split.
  - split; [cbn; lia|]. split; [lia|]. exists 3%nat. split; reflexivity.
  - intros k id (H & _). exact H.
Qed.

(** In all other cases the literal goes wrong, whatever jrx_current_accept reports: it fails although there is a match, or
    consumes all of the data. *)
Theorem C83_literal_late_end_refuted : forall E cur_acc cs k id q,
  engine_ok E -> no_dollar E -> Forall blocks_ok cs -> (first_unsplit cs \/ caret_only_first E) ->
  let data := concat (concat cs) in
  longest E data true k id -> (k < length data)%nat -> path E (q0 E) (text data true) = Some q -> more E q = true ->
  parse_regexp E cur_acc (map (fun b => (b, false)) cs) <> PMatched id (Z.of_nat k).
Proof.
  intros E ca cs k id q OK ND Hb Hf data HL Hk HP HM. unfold parse_regexp.
  rewrite (parse_loop_late E ca cs (minit E) 0 (fresh_init E) Hb (or_intror Hf)). fold data.
  cbn [m_first minit m_ms jinit joff]. change (mkJ E (q0 E) 1 (if 0 <? acc E (q0 E) then acc E (q0 E) else 0) 1) with (jinit E).
  pose proof (late_spec E OK data k id ND HL) as HS.
  assert (HU : snd (exec E data true false false (jinit E)) < 0).
  { rewrite text_ptext, (path_dollar E ND), <- text_ptext in HP. destruct (still_undecided E OK data q HP HM) as [h|h]; [exact h|].
    rewrite h in Hk. cbn in Hk. lia. }
  destruct (exec E data true false false (jinit E)) as [j rc]. cbn [snd] in HU. destruct (proj2 HS HU) as (_ & _ & _ & Ho).
  unfold late. replace (rc =? 0) with false by (symmetry; apply Z.eqb_neq; lia).
  replace (0 <? rc) with false by (symmetry; apply Z.ltb_ge; lia).
  destruct (ca j <? 0); [discriminate|]. destruct (ca j =? 0); [discriminate|]. intros h. inversion h. lia.
Qed.
Example C83_literal_late_end_refuted_ex :
  longest abc123 [97; 98; 99; 49] true 3 1 /\ path abc123 0%nat (text [97; 98; 99; 49] true) = Some 4%nat /\
  parse_regexp abc123 (cur_recorded abc123) [([[97; 98; 99; 49]], false)] = PMatched 1 4 /\
  parse_regexp abc123 (cur_here abc123) [([[97; 98; 99; 49]], false)] = PFailed /\
  parse_regexp abc123 (cur_here abc123) [([[97; 98; 99; 49]], true)] = PMatched 1 3.
Proof.
  split; [|repeat split; reflexivity]. split.
  - split; [cbn; lia|]. split; [lia|]. exists 3%nat. split; reflexivity.
  - intros k id (H & H1 & q & H2 & H3). cbn in H. do 4 (destruct k as [|k]; [lia|]). destruct k; [|lia].
    cbn in H2. inversion H2; subst q. cbn in H3. lia.
Qed.

(** The end assertion is lost as well: a$ does not match "a" if the end becomes known only afterwards. *)
Theorem C83_dollar_refuted :
  engine_ok a_eol /\ longest a_eol [97] true 1 1 /\
  parse_regexp a_eol (cur_recorded a_eol) [([[97]], true)] = PMatched 1 1 /\
  parse_regexp a_eol (cur_recorded a_eol) [([[97]], false)] = PFailed /\
  parse_regexp a_eol (cur_here a_eol) [([[97]], false)] = PFailed.
Proof.
  split. { intros q [[c f] l] M. cbn in *. do 2 (destruct q as [|q]; [discriminate|]). reflexivity. }
  split; [|repeat split; reflexivity]. split.
  - split; [cbn; lia|]. split; [lia|]. exists 2%nat. split; reflexivity.
  - intros k id (H & _). exact H.
Qed.
