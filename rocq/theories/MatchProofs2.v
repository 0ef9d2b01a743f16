From Verif Require Import Base MatchModel MatchSpec MatchProofs.
Open Scope Z_scope.

Section P2.
  Variable E : engine.

  Lemma feed_app : forall a b f last j,
    feed E (a ++ b) f last j =
    match feed E a f (last && is_nil b) j with
    | (j', None) => feed E b (if is_nil a then f else false) last j'
    | r => r
    end.
  Proof.
    induction a as [|c a IH]; intros b f last j; [reflexivity|].
    cbn [app is_nil]. rewrite !feed_cons.
    assert (Ex : (last && is_nil b) && is_nil a = last && is_nil (a ++ b)).
    { destruct a; cbn [app is_nil]; rewrite ?andb_true_r, ?andb_false_r; reflexivity. }
    rewrite Ex. destruct (delta E (jq E j) (c, f, last && is_nil (a ++ b))) as [q|]; [|reflexivity].
    destruct (more E q); [|reflexivity]. rewrite IH. destruct a; reflexivity.
  Qed.

  Definition entered (j : jms E) : Prop := exists q s, delta E q s = Some (jq E j).

  Lemma feed_entered : forall a f last j j', a <> [] -> feed E a f last j = (j', None) -> entered j'.
  Proof.
    induction a as [|c a IH]; intros f last j j' Hn H; [contradiction|]. rewrite feed_cons in H.
    destruct (delta E (jq E j) (c, f, last && is_nil a)) as [q|] eqn:D; [|discriminate].
    destruct (more E q); [|discriminate]. destruct a as [|c' a].
    - cbn in H. inversion H; subst. eexists _, _. rewrite jq_step. exact D.
    - eapply IH; [discriminate|exact H].
  Qed.

  Lemma feed_caret : forall b f last j, caret_only_first E -> entered j -> feed E b f last j = feed E b false last j.
  Proof.
    intros b f last j HC (q & s & D). destruct b as [|c b]; [reflexivity|]. rewrite !feed_cons.
    destruct f; [|reflexivity]. rewrite (HC _ _ _ D). reflexivity.
  Qed.

  Lemma exec_rc : forall b f l fin j j' rc, exec E b f l fin j = (j', rc) -> 0 <= rc \/ rc = -1.
  Proof.
    assert (V : forall j, 0 <= verdict E j) by (intros; unfold verdict; destruct (Z.ltb_spec 0 (jacc E j)); lia).
    assert (F : forall b f l j j' v, feed E b f l j = (j', Some v) -> 0 <= v).
    { induction b as [|c b IH]; intros f l j j' v H; [discriminate|]. rewrite feed_cons in H.
      destruct (delta E (jq E j) (c, f, l && is_nil b)) as [q|]; [|inversion H; subst; apply V].
      destruct (more E q); [eauto|]. inversion H; subst; apply V. }
    intros b f l fin j j' rc H. unfold exec in H. destruct (feed E b f l j) as [j1 [v|]] eqn:EF.
    - inversion H; subst. left. eauto.
    - inversion H; subst. destruct (fin && (0 <? jacc E j')) eqn:Ea; [|right; reflexivity].
      apply andb_prop in Ea. destruct Ea as [_ Ea]. apply Z.ltb_lt in Ea. left. lia.
  Qed.

  Definition finish (acc0 : Z) (fst_ : bool) (start : Z) (x : jms E * Z) : mst E * (Z * Z) :=
    let '(j, rc) := x in
    if rc =? 0 then (mkM E acc0 fst_ false j, (0, joff E j - start))
    else if 0 <? rc then (mkM E rc fst_ false j, (rc, jeo E j - start))
    else (mkM E (-1) fst_ false j, (-1, joff E j - start)).

  Lemma concat_nil : forall bs, blocks_ok bs -> is_nil (concat bs) = is_nil bs.
  Proof. intros [|b bs] H; [reflexivity|]. inversion H; subst. destruct b; [contradiction|reflexivity]. Qed.

  Lemma adv_blocks_exec : forall bs first fin start m,
    blocks_ok bs -> bs <> [] -> (m_acc E m = 0 \/ m_acc E m = -1) -> m_done E m = false ->
    (first = false \/ length bs = 1%nat \/ caret_only_first E) ->
    adv_blocks E bs first fin start m = finish (m_acc E m) (m_first E m) start (exec E (concat bs) first fin fin (m_ms E m)).
  Proof.
    induction bs as [|b r IH]; intros first fin start m Hb Hn Ha Hd Hf; [contradiction|].
    inversion Hb as [|? ? Hb1 Hb2]; subst. cbn [adv_blocks concat].
    assert (Hz : (if 0 <? m_acc E m then m_acc E m else 0) = 0) by (destruct Ha as [-> | ->]; reflexivity).
    destruct r as [|b2 r].
    - cbn [concat is_nil]. rewrite app_nil_r, andb_true_r.
      destruct (exec E b first fin fin (m_ms E m)) as [j rc] eqn:Ex.
      pose proof (exec_rc _ _ _ _ _ _ _ Ex) as Hrc. unfold finish. rewrite Hz, Hd.
      destruct (rc =? 0) eqn:E0; [reflexivity|]. destruct (0 <? rc) eqn:E1; [reflexivity|].
      cbn [adv_blocks m_acc m_first m_done m_ms].
      assert ((if m_acc E m =? 0 then -1 else m_acc E m) = -1) as -> by (destruct Ha as [-> | ->]; reflexivity).
      reflexivity.
    - cbn [is_nil]. rewrite andb_false_r.
      remember (b2 :: r) as rr eqn:Er.
      assert (Hnn : rr <> []) by (subst; discriminate).
      assert (Hcn : is_nil (concat rr) = false) by (rewrite concat_nil by assumption; subst; reflexivity).
      assert (Hbn : is_nil b = false) by (destruct b; [contradiction|reflexivity]).
      unfold exec at 1 2. rewrite feed_app, Hcn, andb_false_r, Hbn.
      destruct (feed E b first false (m_ms E m)) as [j [v|]] eqn:EF.
      + assert (Hv : 0 <= v).
        { assert (Ex : exec E b first false false (m_ms E m) = (j, v)) by (unfold exec; rewrite EF; reflexivity).
          pose proof (exec_rc _ _ _ _ _ _ _ Ex) as [h|h]; [assumption|]. exfalso. subst v.
          pose proof (feed_inv E b [] first false (m_ms E m)) as _.
          clear -EF. revert EF. generalize (m_ms E m). intros j0. revert first j0.
          induction b as [|c b IHb]; intros first j0 EF; [discriminate|]. rewrite feed_cons in EF.
          destruct (delta E (jq E j0) (c, first, false && is_nil b)).
          - destruct (more E q); [eapply IHb; eassumption|]. inversion EF. unfold verdict in H1. destruct (Z.ltb_spec 0 (jacc E (step_j E j0 q))); lia.
          - inversion EF. unfold verdict in H1. destruct (Z.ltb_spec 0 (jacc E j)); lia. }
        unfold finish. rewrite Hz, Hd. destruct (v =? 0) eqn:E0; [reflexivity|]. destruct (0 <? v) eqn:E1; [reflexivity|].
        apply Z.eqb_neq in E0. apply Z.ltb_ge in E1. lia.
      + cbn [andb]. replace (-1 =? 0) with false by reflexivity. replace (0 <? -1) with false by reflexivity.
        rewrite IH; [|assumption|assumption|assumption|assumption|].
        * cbn [m_acc m_first m_ms]. f_equal. unfold exec.
          assert (feed E (concat rr) first fin j = feed E (concat rr) false fin j) as ->; [|reflexivity].
          destruct Hf as [-> | [Hf|Hf]]; [reflexivity| |].
          -- subst rr. cbn in Hf. lia.
          -- apply feed_caret; [assumption|]. eapply feed_entered; [exact Hb1|exact EF].
        * destruct Hf as [Hf|[Hf|Hf]]; [left; assumption| |right; right; assumption].
          subst rr. cbn in Hf. lia.
  Qed.

  Variable cur_acc : jms E -> Z.

  Definition fresh_like (m : mst E) : Prop := (m_acc E m = 0 \/ m_acc E m = -1) /\ m_done E m = false.

  Definition outc (m : mst E) (x : jms E * Z) : option (mst E) * mres (Z * Z) :=
    let '(j, rc) := x in
    if rc =? 0 then (Some (mkM E (m_acc E m) false true j), Ret (0, joff E j - joff E (m_ms E m)))
    else if 0 <? rc then (Some (mkM E rc false true j), Ret (rc, jeo E j - joff E (m_ms E m)))
    else (Some (mkM E (-1) false false j), Ret (-1, joff E j - joff E (m_ms E m))).

  Lemma advance_exec : forall m bs fin,
    fresh_like m -> blocks_ok bs -> bs <> [] ->
    (m_first E m = false \/ length bs = 1%nat \/ caret_only_first E) ->
    advance E cur_acc (Some m) bs fin = outc m (exec E (concat bs) (m_first E m) fin fin (m_ms E m)).
  Proof.
    intros m bs fin [Ha Hd] Hb Hn Hf. unfold advance, adv. rewrite Hd, concat_nil by assumption.
    assert (is_nil bs = false) as -> by (destruct bs; [contradiction|reflexivity]).
    rewrite adv_blocks_exec; [|exact Hb|exact Hn|exact Ha|reflexivity|exact Hf]. cbn [m_acc m_first m_done m_ms]. unfold finish, outc.
    destruct (exec E (concat bs) (m_first E m) fin fin (m_ms E m)) as [j rc].
    destruct (rc =? 0) eqn:E0; [reflexivity|]. destruct (0 <? rc) eqn:E1; [|reflexivity].
    apply Z.ltb_lt in E1. replace (0 <=? rc) with true by (symmetry; apply Z.leb_le; lia). reflexivity.
  Qed.

  Lemma advance_empty : forall m, fresh_like m -> advance E cur_acc (Some m) [] false = (Some m, Ret (-1, 0)).
  Proof. intros [a f d j] [Ha Hd]. cbn in Hd; subst d. cbn [advance m_done]. reflexivity. Qed.

  Lemma exec_app : forall a b f fin j,
    a <> [] -> exec E (a ++ b) f fin fin j =
    if is_nil b then exec E a f fin fin j
    else match exec E a f false false j with
         | (j', rc) => if 0 <=? rc then (j', rc) else exec E b false fin fin j'
         end.
  Proof.
    intros a b f fin j Ha. destruct b as [|x b]; [rewrite app_nil_r; reflexivity|]. cbn [is_nil].
    unfold exec at 1. rewrite feed_app. cbn [is_nil]. rewrite andb_false_r.
    destruct (exec E a f false false j) as [j' rc] eqn:Ex. pose proof (exec_rc _ _ _ _ _ _ _ Ex) as Hrc.
    unfold exec in Ex. destruct (feed E a f false j) as [j1 [v|]] eqn:EF.
    - inversion Ex; subst.
      assert (exec E a f false false j = (j', rc)) as Ex2 by (unfold exec; rewrite EF; reflexivity).
      assert (Hv : 0 <= rc).
      { clear -EF. revert f j EF. induction a as [|c a IHa]; intros f j EF; [discriminate|]. rewrite feed_cons in EF.
        assert (V : forall j, 0 <= verdict E j) by (intros; unfold verdict; destruct (Z.ltb_spec 0 (jacc E j0)); lia).
        destruct (delta E (jq E j) (c, f, false && is_nil a)); [destruct (more E q)|]; [eauto| |]; inversion EF; subst; apply V. }
      replace (0 <=? rc) with true by (symmetry; apply Z.leb_le; lia). reflexivity.
    - cbn in Ex. inversion Ex; subst. cbn. destruct a; [contradiction|]. reflexivity.
  Qed.

  Definition code (start pos : Z) (x : jms E * Z) : Z * Z :=
    let '(j, rc) := x in
    if rc =? 0 then (0, pos + (joff E j - start)) else if 0 <? rc then (rc, pos + (jeo E j - start)) else (-1, pos + (joff E j - start)).

  Lemma concat2_nil : forall cs, Forall blocks_ok cs -> concat (concat cs) = [] -> forall c, In c cs -> c = [].
  Proof.
    intros cs H Hc c Hin. rewrite Forall_forall in H. specialize (H _ Hin). destruct c as [|b c]; [reflexivity|].
    inversion H; subst. destruct b as [|x b]; [contradiction|]. exfalso.
    apply in_split in Hin. destruct Hin as (l1 & l2 & ->). rewrite concat_app, concat_app in Hc.
    cbn in Hc. apply app_eq_nil in Hc. destruct Hc as [_ Hc]. discriminate.
  Qed.

  Lemma last_In : forall A (r : list A) c d, In (last (c :: r) d) (c :: r).
  Proof.
    induction r as [|c2 r IH]; intros c d; [left; reflexivity|]. right. apply (IH c2 d).
  Qed.

  Lemma advance_all_exec : forall cs fin m pos,
    fresh_like m -> Forall blocks_ok cs -> (fin = true -> last cs [] <> []) ->
    (m_first E m = false \/ first_unsplit cs \/ caret_only_first E) ->
    advance_all E cur_acc (Some m) cs fin pos =
    Ret (code (joff E (m_ms E m)) pos (exec E (concat (concat cs)) (m_first E m) fin fin (m_ms E m))).
  Proof.
    induction cs as [|c r IH]; intros fin m pos Hm Hb Hl Hf.
    - destruct fin; [exfalso; apply Hl; reflexivity|]. cbn. rewrite Z.sub_diag, Z.add_0_r. reflexivity.
    - inversion Hb as [|? ? Hb1 Hb2]; subst. cbn [advance_all concat]. rewrite concat_app.
      destruct (is_nil c) eqn:Ec.
      + destruct c; [|discriminate]. cbn [concat app].
        assert (fin && is_nil r = false) as ->.
        { destruct fin; [|reflexivity]. destruct r; [exfalso; apply Hl; reflexivity|reflexivity]. }
        rewrite advance_empty by assumption. cbn [orb]. replace (0 <=? -1) with false by reflexivity. cbn [orb].
        destruct r as [|c2 r].
        * cbn [is_nil]. destruct fin; [exfalso; apply Hl; reflexivity|]. cbn. rewrite Z.sub_diag. reflexivity.
        * cbn [is_nil]. rewrite IH; [|assumption|assumption|exact Hl|exact Hf]. rewrite Z.add_0_r. reflexivity.
      + assert (Hcn : c <> []) by (intros ->; discriminate).
        assert (Hccn : concat c <> []).
        { intros h. pose proof (concat_nil c Hb1) as h1. rewrite h, Ec in h1. discriminate. }
        assert (Hf1 : m_first E m = false \/ length c = 1%nat \/ caret_only_first E).
        { destruct Hf as [Hf|[Hf|Hf]]; auto. right; left. unfold first_unsplit in Hf. cbn [filter] in Hf. rewrite Ec in Hf. exact Hf. }
        rewrite advance_exec by assumption. rewrite exec_app by assumption.
        destruct r as [|c2 r].
        * cbn [concat is_nil]. rewrite andb_true_r. unfold outc, code.
          destruct (exec E (concat c) (m_first E m) fin fin (m_ms E m)) as [j rc].
          destruct (rc =? 0); [reflexivity|]. destruct (0 <? rc); [rewrite orb_true_r|]; reflexivity.
        * cbn [is_nil]. rewrite andb_false_r. set (rr := c2 :: r) in *.
          destruct (exec E (concat c) (m_first E m) false false (m_ms E m)) as [j rc] eqn:Ex.
          pose proof (exec_rc _ _ _ _ _ _ _ Ex) as Hrc. unfold outc.
          destruct (is_nil (concat (concat rr))) eqn:En.
          -- (* only empty pieces follow *)
             assert (Hz : concat (concat rr) = []) by (destruct (concat (concat rr)); [reflexivity|discriminate]).
             pose proof (concat2_nil rr Hb2 Hz) as Hall.
             assert (fin = false) as ->.
             { destruct fin; [|reflexivity]. exfalso. apply Hl; [reflexivity|]. apply Hall.
               change (last (c :: rr) []) with (last rr []). unfold rr. apply last_In. }
             rewrite Ex. unfold code.
             destruct (Z.eqb_spec rc 0) as [->|h0]; [reflexivity|].
             destruct (Z.ltb_spec 0 rc) as [h1|h1].
             ++ replace (0 <=? rc) with true by (symmetry; apply Z.leb_le; lia). reflexivity.
             ++ replace (0 <=? -1) with false by reflexivity. cbn [orb].
                rewrite IH; [|split; [right; reflexivity|reflexivity]|assumption|discriminate|left; reflexivity].
                cbn [m_ms m_first]. rewrite Hz. cbn. f_equal. f_equal. lia.
          -- destruct (Z.eqb_spec rc 0) as [->|h0]; [reflexivity|].
             destruct (Z.ltb_spec 0 rc) as [h1|h1].
             ++ replace (0 <=? rc) with true by (symmetry; apply Z.leb_le; lia). cbn [orb]. unfold code.
                replace (rc =? 0) with false by (symmetry; apply Z.eqb_neq; lia).
                replace (0 <? rc) with true by (symmetry; apply Z.ltb_lt; lia). reflexivity.
             ++ replace (0 <=? rc) with false by (symmetry; apply Z.leb_gt; lia).
                replace (0 <=? -1) with false by reflexivity. cbn [orb].
                rewrite IH; [|split; [right; reflexivity|reflexivity]|assumption| |left; reflexivity].
                ** cbn [m_ms m_first]. f_equal. unfold code.
                   destruct (exec E (concat (concat rr)) false fin fin j) as [j2 rc2].
                   destruct (rc2 =? 0); [f_equal; lia|]. destruct (0 <? rc2); f_equal; lia.
                ** intros hf. specialize (Hl hf). exact Hl.
  Qed.

  Lemma code_one_shot : forall data fin, code 1 0 (exec E data true fin fin (jinit E)) = one_shot E data fin.
  Proof.
    intros. unfold code, one_shot. destruct (exec E data true fin fin (jinit E)) as [j rc].
    destruct (rc =? 0); [reflexivity|]. destruct (0 <? rc); reflexivity.
  Qed.

  Lemma fresh_init : fresh_like (minit E).
  Proof. split; [left; reflexivity|reflexivity]. Qed.

  Lemma advance_all_one_shot : forall cs fin,
    Forall blocks_ok cs -> (fin = true -> last cs [] <> []) -> (first_unsplit cs \/ caret_only_first E) ->
    advance_all E cur_acc (Some (minit E)) cs fin 0 = Ret (one_shot E (concat (concat cs)) fin).
  Proof.
    intros cs fin H1 H2 H3. rewrite <- code_one_shot.
    exact (advance_all_exec cs fin (minit E) 0 fresh_init H1 H2 (or_intror H3)).
  Qed.

  (** ** find *)
  Hypothesis OK : engine_ok E.

  Lemma search_one_shot : forall d, d <> [] ->
    search_pattern E d =
    let '(rc, n) := one_shot E d true in if 0 <? rc then (rc, 0, n) else (rc, -1, -1).
  Proof. clear cur_acc.
    intros d Hd. unfold search_pattern, one_shot. destruct d as [|x d]; [contradiction|]. cbn [is_nil].
    destruct (exec E (x :: d) true true true (jinit E)) as [j rc] eqn:Ex. pose proof (exec_rc _ _ _ _ _ _ _ Ex) as Hrc.
    destruct (Z.eqb_spec rc 0) as [->|h]; [reflexivity|]. destruct (Z.ltb_spec 0 rc) as [h1|h1].
    - replace (0 <? rc) with true by (symmetry; apply Z.ltb_lt; lia). reflexivity.
    - replace rc with (-1) by lia. reflexivity.
  Qed.

  Lemma longest_fun : forall d c k id k' id', longest E d c k id -> longest E d c k' id' -> k = k' /\ id = id'.
  Proof.
    intros d c k id k' id' [M1 B1] [M2 B2]. assert (k = k') by (apply Nat.le_antisymm; eauto). subst k'. split; [reflexivity|].
    destruct M1 as (_ & _ & q & P & A). destruct M2 as (_ & _ & q' & P' & A'). rewrite P in P'. inversion P'; subst. reflexivity.
  Qed.

  Lemma search_cases : forall d, d <> [] ->
    (exists k id, search_pattern E d = (id, 0, Z.of_nat k) /\ 0 < id /\ (k <= length d)%nat /\ longest E d true k id) \/
    (exists rc, search_pattern E d = (rc, -1, -1) /\ rc <= 0 /\ no_match E d true).
  Proof. clear cur_acc.
    intros d Hd. rewrite search_one_shot by assumption. destruct (one_shot E d true) as [rc n] eqn:O.
    destruct (one_shot_spec E OK _ _ _ _ O) as (H1 & H2 & H3 & _). destruct (Z.ltb_spec 0 rc) as [h|h].
    - left. destruct (H1 h) as [Hn HL]. exists (Z.to_nat n), rc. rewrite Z2Nat.id by lia. repeat split; try assumption; try lia; apply HL.
    - right. exists rc. split; [reflexivity|]. split; [assumption|].
      destruct (Z.eq_dec rc 0) as [h1|h1]; [auto|]. apply H3; [lia|reflexivity].
  Qed.

  Definition best_ok (data : list Z) (i : nat) (b : Z * Z * Z) : Prop :=
    (b = (0, -1, -1) /\ forall s, (s < i)%nat -> no_match E (skipn s data) true) \/
    (exists s k id, b = (id, Z.of_nat s, Z.of_nat s + Z.of_nat k) /\ 0 < id /\ (s < i)%nat /\
       longest E (skipn s data) true k id /\
       forall s' k' id', (s' < i)%nat -> longest E (skipn s' data) true k' id' -> (k' < k)%nat \/ (k' = k /\ (s <= s')%nat)).

  Lemma find_step_ok : forall data i b, (i < length data)%nat -> best_ok data i b -> best_ok data (S i) (find_step E data b i).
  Proof. clear cur_acc.
    intros data i b Hi Hb.
    assert (Hd : skipn i data <> []) by (intros h; apply (f_equal (@length Z)) in h; rewrite skipn_length in h; cbn in h; lia).
    unfold find_step. destruct (search_cases _ Hd) as [(k & id & -> & Hid & Hk & HL)|(rc & -> & Hrc & HN)].
    - replace (0 <? id) with true by (symmetry; apply Z.ltb_lt; lia).
      destruct Hb as [[-> Hno]|(s & k0 & id0 & -> & Hid0 & Hs & HL0 & Hbest)].
      + match goal with |- best_ok _ _ (if ?c then _ else _) => replace c with true end.
        2:{ symmetry. apply andb_true_intro. split; [apply Z.leb_le; lia|]. rewrite orb_true_iff. right. reflexivity. }
        right. exists i, k, id. split; [apply f_equal2; [apply f_equal2; [reflexivity|lia]|lia]|]. split; [assumption|]. split; [lia|]. split; [assumption|].
        intros s' k' id' Hs' HL'. destruct (Nat.eq_dec s' i) as [->|hne].
        * destruct (longest_fun _ _ _ _ _ _ HL HL') as [-> _]. right. lia.
        * exfalso. apply (Hno s' ltac:(lia) k' id'). apply HL'.
      + match goal with |- best_ok _ _ (if ?c then _ else _) => replace c with (Nat.ltb k0 k) end.
        2:{ destruct (Nat.ltb_spec k0 k) as [h|h]; symmetry.
            - apply andb_true_intro. split; [apply Z.leb_le; lia|]. rewrite !orb_true_iff. left; left. apply Z.ltb_lt. lia.
            - apply andb_false_iff. destruct (Z.leb_spec (Z.of_nat s + Z.of_nat k0 - Z.of_nat s) (Z.of_nat k - 0)) as [h1|h1]; [|left; reflexivity].
              right. rewrite !orb_false_iff. repeat split; apply Z.ltb_ge; lia. }
        destruct (Nat.ltb_spec k0 k) as [h|h].
        * right. exists i, k, id. split; [apply f_equal2; [apply f_equal2; [reflexivity|lia]|lia]|]. split; [assumption|]. split; [lia|]. split; [assumption|].
          intros s' k' id' Hs' HL'. destruct (Nat.eq_dec s' i) as [->|hne].
          -- destruct (longest_fun _ _ _ _ _ _ HL HL') as [-> _]. right. lia.
          -- destruct (Hbest s' k' id' ltac:(lia) HL'); left; lia.
        * right. exists s, k0, id0. split; [reflexivity|]. split; [assumption|]. split; [lia|]. split; [assumption|].
          intros s' k' id' Hs' HL'. destruct (Nat.eq_dec s' i) as [->|hne].
          -- destruct (longest_fun _ _ _ _ _ _ HL HL') as [-> _]. lia.
          -- destruct (Hbest s' k' id' ltac:(lia) HL'); lia.
    - replace (0 <? rc) with false by (symmetry; apply Z.ltb_ge; lia).
      assert (forall A (x y z : A), (let '(a, b0, c) := (x, y, z) in (a, b0, c)) = (x, y, z)) by reflexivity.
      destruct b as [[b1 b2] b3]. destruct Hb as [[Eb Hno]|(s & k0 & id0 & Eb & Hid0 & Hs & HL0 & Hbest)].
      + left. split; [exact Eb|]. intros s Hs. destruct (Nat.eq_dec s i) as [->|hne]; [assumption|]. apply Hno. lia.
      + right. exists s, k0, id0. split; [exact Eb|]. split; [assumption|]. split; [lia|]. split; [assumption|].
        intros s' k' id' Hs' HL'. destruct (Nat.eq_dec s' i) as [->|hne].
        * exfalso. apply (HN k' id'). apply HL'.
        * apply (Hbest s' k' id' ltac:(lia) HL').
  Qed.

  Lemma find_fold : forall data n, (n <= length data)%nat ->
    best_ok data n (fold_left (find_step E data) (List.seq 0 n) (0, -1, -1)).
  Proof. clear cur_acc.
    induction n as [|n IH]; intros Hn.
    - left. split; [reflexivity|]. intros; lia.
    - rewrite seq_S, fold_left_app. cbn [fold_left Nat.add]. apply find_step_ok; [lia|]. apply IH. lia.
  Qed.

  Lemma find_cases : forall data,
    (find E data = (-1, []) /\ forall s, (s < length data)%nat -> no_match E (skipn s data) true) \/
    (exists s k id, find E data = (id, slice data s k) /\ (s < length data)%nat /\ longest E (skipn s data) true k id /\
       forall s' k' id', (s' < length data)%nat -> longest E (skipn s' data) true k' id' -> (k' < k)%nat \/ (k' = k /\ (s <= s')%nat)).
  Proof. clear cur_acc.
    intros data. unfold find. destruct (find_fold data (length data) (le_n _)) as [[-> H]|(s & k & id & -> & H0 & H1 & H2 & H3)].
    - left. split; [reflexivity|exact H].
    - right. exists s, k, id. replace (0 <? id) with true by (symmetry; apply Z.ltb_lt; lia). split; [|auto].
      f_equal. unfold subslice, slice.
      replace ((Z.of_nat s <? 0) || (Z.of_nat s + Z.of_nat k <? 0)) with false.
      + f_equal; [lia|]. f_equal. lia.
      + symmetry. rewrite orb_false_iff. split; apply Z.ltb_ge; lia.
  Qed.

  (** ** The loop of a literal *)
  Hypothesis CA : cur_acc_ok E cur_acc.

  Definition presult_of (x : Z * Z) : presult := let '(rc, n) := x in if 0 <? rc then PMatched rc n else PFailed.

  Lemma exec_inv : forall data T f fin j j' rc, Inv E T j -> exec E data f fin fin j = (j', rc) -> rc < 0 ->
    Inv E (T ++ ptext f data fin) j' /\ (fin = true -> jacc E j' <= 0).
  Proof.
    intros data T f fin j j' rc HI Ex Hr. pose proof (exec_rc _ _ _ _ _ _ _ Ex) as Hrc. unfold exec in Ex.
    destruct (feed E data f fin j) as [j1 [v|]] eqn:F.
    - inversion Ex; subst. pose proof (feed_inv E _ _ _ _ _ _ _ HI F) as (Hv & _). unfold verdict in Hv.
      destruct (Z.ltb_spec 0 (jacc E j')); lia.
    - inversion Ex; subst. pose proof (feed_inv E _ _ _ _ _ _ _ HI F) as HI'. cbn in HI'. split; [assumption|].
      intros ->. cbn in Hr. destruct (Z.ltb_spec 0 (jacc E j')); lia.
  Qed.

  Lemma parse_loop_all : forall cs c m pos T,
    fresh_like m -> Inv E T (m_ms E m) -> Forall blocks_ok cs -> blocks_ok c -> c <> [] ->
    (m_first E m = false \/ first_unsplit (cs ++ [c]) \/ caret_only_first E) ->
    parse_loop E cur_acc (Some m) pos (map (fun b => (b, false)) cs ++ [(c, true)]) =
    presult_of (code (joff E (m_ms E m)) pos (exec E (concat (concat (cs ++ [c]))) (m_first E m) true true (m_ms E m))).
  Proof.
    induction cs as [|b r IH]; intros c m pos T Hm HI Hb Hc Hcn Hf.
    - cbn [map app concat]. rewrite app_nil_r. cbn [parse_loop].
      assert (Hf1 : m_first E m = false \/ length c = 1%nat \/ caret_only_first E).
      { destruct Hf as [Hf|[Hf|Hf]]; auto. right; left. unfold first_unsplit in Hf. cbn [filter app] in Hf.
        destruct c; [contradiction|]. exact Hf. }
      rewrite advance_exec by assumption.
      destruct (exec E (concat c) (m_first E m) true true (m_ms E m)) as [j rc] eqn:Ex.
      pose proof (exec_rc _ _ _ _ _ _ _ Ex) as Hrc. unfold outc, code.
      destruct (Z.eqb_spec rc 0) as [->|h0]; [reflexivity|]. destruct (Z.ltb_spec 0 rc) as [h1|h1].
      + replace (rc <? 0) with false by (symmetry; apply Z.ltb_ge; lia).
        replace (rc =? 0) with false by (symmetry; apply Z.eqb_neq; lia).
        cbn [presult_of]. replace (0 <? rc) with true by (symmetry; apply Z.ltb_lt; lia). reflexivity.
      + destruct (exec_inv _ _ _ _ _ _ _ HI Ex ltac:(lia)) as [HI' Hacc]. cbn [advance m_done adv concat is_nil m_acc m_ms m_first].
        replace (-1 <? 0) with true by reflexivity. replace (-1 <=? 0) with true by reflexivity. cbn [andb].
        rewrite (proj1 CA) by auto. reflexivity.
    - inversion Hb as [|? ? Hb1 Hb2]; subst. cbn [map app concat]. rewrite concat_app. cbn [parse_loop].
      destruct (is_nil b) eqn:Eb.
      + destruct b; [|discriminate]. rewrite advance_empty by assumption. cbn [concat app].
        replace (-1 <? 0) with true by reflexivity. rewrite Z.add_0_r.
        apply (IH c m pos T); auto.
      + assert (Hbn : b <> []) by (intros ->; discriminate).
        assert (Hcb : concat b <> []).
        { intros h. pose proof (concat_nil b Hb1) as h1. rewrite h, Eb in h1. discriminate. }
        assert (Hf1 : m_first E m = false \/ length b = 1%nat \/ caret_only_first E).
        { destruct Hf as [Hf|[Hf|Hf]]; auto. right; left. unfold first_unsplit in Hf. cbn [filter app] in Hf. rewrite Eb in Hf. exact Hf. }
        rewrite advance_exec by assumption. rewrite exec_app by assumption.
        assert (is_nil (concat (concat (r ++ [c]))) = false) as ->.
        { rewrite concat_app, concat_app. cbn [concat]. rewrite app_nil_r.
          destruct (concat (concat r) ++ concat c) eqn:Ec; [|reflexivity]. apply app_eq_nil in Ec. destruct Ec as [_ Ec].
          pose proof (concat_nil c Hc) as h1. rewrite Ec in h1. destruct c; [contradiction|discriminate]. }
        destruct (exec E (concat b) (m_first E m) false false (m_ms E m)) as [j rc] eqn:Ex.
        pose proof (exec_rc _ _ _ _ _ _ _ Ex) as Hrc. unfold outc.
        destruct (Z.eqb_spec rc 0) as [->|h0]; [reflexivity|]. destruct (Z.ltb_spec 0 rc) as [h1|h1].
        * replace (rc <? 0) with false by (symmetry; apply Z.ltb_ge; lia).
          replace (rc =? 0) with false by (symmetry; apply Z.eqb_neq; lia).
          replace (0 <=? rc) with true by (symmetry; apply Z.leb_le; lia). unfold code.
          replace (rc =? 0) with false by (symmetry; apply Z.eqb_neq; lia).
          replace (0 <? rc) with true by (symmetry; apply Z.ltb_lt; lia). cbn [presult_of].
          replace (0 <? rc) with true by (symmetry; apply Z.ltb_lt; lia). reflexivity.
        * replace (0 <=? rc) with false by (symmetry; apply Z.leb_gt; lia). replace (-1 <? 0) with true by reflexivity.
          destruct (exec_inv _ _ _ _ _ _ _ HI Ex ltac:(lia)) as [HI' _].
          rewrite (IH c _ _ (T ++ ptext (m_first E m) (concat b) false)); [|split; [right; reflexivity|reflexivity]|cbn [m_ms]; exact HI'|assumption|assumption|assumption|left; reflexivity].
          cbn [m_ms m_first]. f_equal. unfold code. destruct (exec E (concat (concat (r ++ [c]))) false true true j) as [j2 rc2].
          destruct (rc2 =? 0); [f_equal; lia|]. destruct (0 <? rc2); f_equal; lia.
  Qed.

  Lemma parse_one_shot : forall cs c, Forall blocks_ok cs -> blocks_ok c -> c <> [] ->
    (first_unsplit (cs ++ [c]) \/ caret_only_first E) ->
    parse_regexp E cur_acc (map (fun b => (b, false)) cs ++ [(c, true)]) = presult_of (one_shot E (concat (concat (cs ++ [c]))) true).
  Proof.
    intros. unfold parse_regexp. rewrite <- code_one_shot.
    apply (parse_loop_all cs c (minit E) 0 []); auto using fresh_init. apply Inv_init.
  Qed.
End P2.
