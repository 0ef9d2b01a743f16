From Verif Require Import Base MatchModel MatchSpec.
Open Scope Z_scope.

Section P.
  Variable E : engine.

  Fixpoint ptext (first : bool) (data : list Z) (complete : bool) : list sym :=
    match data with
    | [] => []
    | c :: r => (c, first, complete && is_nil r) :: ptext false r complete
    end.

  Lemma ptext_text_aux : forall data c d0 n,
    n = length d0 ->
    map (fun i => (nth i (d0 ++ data) 0, Nat.eqb i 0, c && Nat.eqb (S i) (length (d0 ++ data)))) (List.seq n (length data))
    = ptext (Nat.eqb n 0) data c.
  Proof.
    induction data as [|x r IH]; intros c d0 n H; [reflexivity|].
    cbn [length List.seq map ptext]. f_equal.
    - assert (nth n (d0 ++ x :: r) 0 = x) as -> by (subst n; apply nth_middle).
      f_equal. f_equal. rewrite app_length; cbn [length].
      destruct r; cbn [is_nil length].
      + apply Nat.eqb_eq. lia.
      + apply Nat.eqb_neq. lia.
    - specialize (IH c (d0 ++ [x]) (S n)). rewrite <- app_assoc in IH. cbn [app] in IH.
      replace (Nat.eqb (S n) 0) with false in IH by reflexivity.
      apply IH. rewrite app_length; cbn [length]; lia.
  Qed.
  Lemma text_ptext : forall data c, text data c = ptext true data c.
  Proof. intros. exact (ptext_text_aux data c [] 0%nat eq_refl). Qed.

  Lemma ptext_length : forall d f c, length (ptext f d c) = length d.
  Proof. induction d; intros; cbn [ptext length]; auto. Qed.

  Lemma ptext_app : forall a b f c,
    ptext f (a ++ b) c = ptext f a (c && is_nil b) ++ ptext (if is_nil a then f else false) b c.
  Proof.
    induction a as [|x a IH]; intros b f c; cbn [app ptext is_nil]; [reflexivity|].
    rewrite IH. destruct a; cbn [is_nil app]; destruct b; cbn [is_nil]; rewrite ?andb_true_r, ?andb_false_r; reflexivity.
  Qed.

  Lemma path_app : forall w1 w2 q,
    path E q (w1 ++ w2) = match path E q w1 with Some q' => path E q' w2 | None => None end.
  Proof.
    induction w1 as [|s w1 IH]; intros; cbn [app path]; [reflexivity|].
    destruct (delta E q s); [apply IH|reflexivity].
  Qed.

  Definition macc (T : list sym) (k : nat) (id : Z) : Prop :=
    (k <= length T)%nat /\ 0 < id /\ exists q, path E (q0 E) (firstn k T) = Some q /\ acc E q = id.

  Definition Inv (T : list sym) (j : jms E) : Prop :=
    path E (q0 E) T = Some (jq E j) /\ joff E j = 1 + Z.of_nat (length T) /\
    (jacc E j <= 0 -> jacc E j = 0 /\ forall k id, ~ macc T k id) /\
    (0 < jacc E j -> exists k, jeo E j = 1 + Z.of_nat k /\ macc T k (jacc E j) /\ forall k' id', macc T k' id' -> (k' <= k)%nat).

  Lemma firstn_app_le : forall A (l1 l2 : list A) k, (k <= length l1)%nat -> firstn k (l1 ++ l2) = firstn k l1.
  Proof. intros. rewrite firstn_app. replace (k - length l1)%nat with 0%nat by lia. rewrite firstn_O, app_nil_r. reflexivity. Qed.

  Lemma macc_ext : forall T w k id, macc T k id -> macc (T ++ w) k id.
  Proof.
    intros T w k id (H & H1 & q & H2 & H3). split; [rewrite app_length; lia|]. split; [assumption|].
    exists q. rewrite firstn_app_le by lia. auto.
  Qed.
  Lemma macc_back : forall T w k id, (k <= length T)%nat -> macc (T ++ w) k id -> macc T k id.
  Proof.
    intros T w k id H (_ & H1 & q & H2 & H3). split; [assumption|]. split; [assumption|].
    rewrite firstn_app_le in H2 by lia. eauto.
  Qed.

  Lemma Inv_init : Inv [] (jinit E).
  Proof.
    unfold Inv, jinit. cbn [jq joff jacc jeo path length]. split; [reflexivity|]. split; [reflexivity|].
    destruct (Z.ltb_spec 0 (acc E (q0 E))) as [h|h]; split; intros h1; try lia.
    - exists 0%nat. split; [reflexivity|]. split.
      + split; [cbn; lia|]. split; [assumption|]. exists (q0 E). auto.
      + intros k' id' (h2 & _). cbn in h2. lia.
    - split; [reflexivity|]. intros k id (h2 & h3 & q & h4 & h5). cbn in h2.
      replace k with 0%nat in h4 by lia. cbn in h4. inversion h4; subst. lia.
  Qed.

  Definition step_j (j : jms E) (q : Q E) : jms E :=
    if 0 <? acc E q then mkJ E q (joff E j + 1) (acc E q) (joff E j + 1) else mkJ E q (joff E j + 1) (jacc E j) (jeo E j).

  Lemma jq_step : forall j q, jq E (step_j j q) = q.
  Proof. intros. unfold step_j. destruct (0 <? acc E q); reflexivity. Qed.
  Lemma joff_step : forall j q, joff E (step_j j q) = joff E j + 1.
  Proof. intros. unfold step_j. destruct (0 <? acc E q); reflexivity. Qed.

  Lemma Inv_step : forall T j s q, Inv T j -> delta E (jq E j) s = Some q -> Inv (T ++ [s]) (step_j j q).
  Proof.
    intros T j s q (H1 & H2 & H3 & H4) D.
    assert (P : path E (q0 E) (T ++ [s]) = Some q) by (rewrite path_app, H1; cbn [path]; rewrite D; reflexivity).
    assert (LN : length (T ++ [s]) = S (length T)) by (rewrite app_length; cbn; lia).
    split; [rewrite jq_step; exact P|]. split; [rewrite joff_step, LN; lia|].
    unfold step_j. destruct (Z.ltb_spec 0 (acc E q)) as [h|h]; cbn [jacc jeo]; split; intros h1; try lia.
    - exists (length (T ++ [s])). split; [rewrite LN; lia|]. split.
      + split; [lia|]. split; [assumption|]. exists q. rewrite firstn_all. auto.
      + intros k' id' (h2 & _). exact h2.
    - destruct (H3 h1) as [h2 h3]. split; [assumption|]. intros k id Hm.
      destruct (Nat.le_gt_cases k (length T)) as [hk|hk].
      + exact (h3 k id (macc_back _ _ _ _ hk Hm)).
      + destruct Hm as (h4 & h5 & q' & h6 & h7). rewrite firstn_all2 in h6 by lia. rewrite P in h6. inversion h6; subst. lia.
    - destruct (H4 h1) as (k & h2 & h3 & h4). exists k. split; [assumption|]. split; [apply macc_ext; assumption|].
      intros k' id' Hm. destruct (Nat.le_gt_cases k' (length T)) as [hk|hk].
      + exact (h4 k' id' (macc_back _ _ _ _ hk Hm)).
      + destruct Hm as (h5 & h6 & q' & h7 & h8). rewrite firstn_all2 in h7 by lia. rewrite P in h7. inversion h7; subst. lia.
  Qed.

  Lemma feed_cons : forall c r first last j,
    feed E (c :: r) first last j =
    match delta E (jq E j) (c, first, last && is_nil r) with
    | None => (j, Some (verdict E j))
    | Some q => if more E q then feed E r false last (step_j j q) else (step_j j q, Some (verdict E (step_j j q)))
    end.
  Proof. reflexivity. Qed.

  Definition stopped (j : jms E) (w2 : list sym) : Prop :=
    match w2 with s :: _ => delta E (jq E j) s = None | [] => False end \/ more E (jq E j) = false.

  Lemma feed_inv : forall b T f last j j' o,
    Inv T j -> feed E b f last j = (j', o) ->
    match o with
    | None => Inv (T ++ ptext f b last) j'
    | Some rc => rc = verdict E j' /\ exists w1 w2, ptext f b last = w1 ++ w2 /\ Inv (T ++ w1) j' /\ stopped j' w2
    end.
  Proof.
    induction b as [|c r IH]; intros T f last j j' o HI H.
    - cbn in H. inversion H; subst. cbn. rewrite app_nil_r. exact HI.
    - rewrite feed_cons in H. cbn [ptext]. destruct (delta E (jq E j) (c, f, last && is_nil r)) as [q|] eqn:D.
      + pose proof (Inv_step _ _ _ _ HI D) as HI1. destruct (more E q) eqn:M.
        * specialize (IH _ _ _ _ _ _ HI1 H). destruct o as [rc|].
          -- destruct IH as (h1 & w1 & w2 & h2 & h3 & h4). split; [assumption|].
             exists ((c, f, last && is_nil r) :: w1), w2. rewrite h2. split; [reflexivity|]. split; [|assumption].
             rewrite <- app_assoc in h3. exact h3.
          -- rewrite <- app_assoc in IH. exact IH.
        * inversion H; subst. split; [reflexivity|].
          exists [(c, f, last && is_nil r)], (ptext false r last). split; [reflexivity|]. split; [assumption|].
          right. rewrite jq_step. exact M.
      + inversion H; subst. split; [reflexivity|]. exists [], ((c, f, last && is_nil r) :: ptext false r last).
        split; [reflexivity|]. split; [rewrite app_nil_r; assumption|]. left. exact D.
  Qed.

  Hypothesis OK : engine_ok E.

  Lemma stopped_macc : forall T j w k id,
    Inv T j -> match w with s :: _ => delta E (jq E j) s = None | [] => True end -> macc (T ++ w) k id -> macc T k id.
  Proof.
    intros T j w k id (H1 & _) Hs Hm. destruct (Nat.le_gt_cases k (length T)) as [hk|hk].
    - exact (macc_back _ _ _ _ hk Hm).
    - destruct Hm as (h1 & h2 & q & h3 & h4). exfalso. rewrite firstn_app in h3. rewrite firstn_all2 in h3 by lia.
      destruct w as [|s w]; [rewrite app_nil_r in h1; lia|].
      destruct (k - length T)%nat as [|m] eqn:Em; [lia|]. cbn [firstn] in h3.
      rewrite path_app, H1 in h3. cbn [path] in h3. rewrite Hs in h3. discriminate.
  Qed.

  (** What a stop tells about any text sharing the part read. *)
  Lemma stopped_any : forall T j w2 w3, Inv T j -> stopped j w2 ->
    (exists w4, w3 = w2 ++ w4) \/ w2 = [] ->
    forall k id, macc (T ++ w3) k id -> macc T k id.
  Proof.
    intros T j w2 w3 HI Hs Hw k id Hm. apply (stopped_macc T j w3); [assumption| |assumption].
    destruct w3 as [|s w]; [exact Logic.I|].
    destruct Hs as [Hs|Hs]; [|apply OK; exact Hs].
    destruct w2 as [|s2 w2]; [contradiction|]. destruct Hw as [[w4 Hw]|Hw]; [|discriminate].
    cbn in Hw. inversion Hw; subst. exact Hs.
  Qed.

  Lemma verdict_inv : forall T j, Inv T j ->
    (verdict E j = 0 /\ (forall k id, ~ macc T k id)) \/
    (0 < verdict E j /\ exists k, jeo E j = 1 + Z.of_nat k /\ macc T k (verdict E j) /\ forall k' id', macc T k' id' -> (k' <= k)%nat).
  Proof.
    intros T j (_ & _ & H3 & H4). unfold verdict. destruct (Z.ltb_spec 0 (jacc E j)) as [h|h].
    - right. split; [assumption|]. apply H4; assumption.
    - left. split; [reflexivity|]. apply H3; assumption.
  Qed.

  Lemma matches_macc : forall d c k id, matches E d c k id <-> macc (ptext true d c) k id.
  Proof. intros. unfold matches, macc. rewrite text_ptext, ptext_length. tauto. Qed.

  (** The extension of an incomplete text shares its symbols. *)
  Lemma ptext_prefix : forall d f ext c, (ext <> [] \/ c = false) ->
    exists w, ptext f (d ++ ext) c = ptext f d false ++ w.
  Proof.
    intros d f ext c H. rewrite ptext_app. replace (c && is_nil ext) with false.
    - eauto.
    - destruct H as [H | ->]; [|reflexivity]. destruct ext; [contradiction|]. cbn. rewrite andb_false_r. reflexivity.
  Qed.

  (** ** One call on a fresh state *)
  Definition one_shot (data : list Z) (fin : bool) : Z * Z :=
    let '(j, rc) := exec E data true fin fin (jinit E) in
    if rc =? 0 then (0, joff E j - 1) else if 0 <? rc then (rc, jeo E j - 1) else (-1, joff E j - 1).

  Lemma one_shot_spec : forall data fin rc n, one_shot data fin = (rc, n) ->
    (0 < rc -> 0 <= n <= Z.of_nat (length data) /\ longest E data fin (Z.to_nat n) rc) /\
    (rc = 0 -> no_match E data fin) /\
    (rc < 0 -> rc = -1 /\ n = Z.of_nat (length data) /\ (fin = true -> no_match E data fin) /\
               exists q, path E (q0 E) (text data fin) = Some q) /\
    (fin = false -> forall ext c, (ext <> [] \/ c = false) ->
       (0 < rc -> longest E (data ++ ext) c (Z.to_nat n) rc) /\ (rc = 0 -> no_match E (data ++ ext) c)).
  Proof.
    intros data fin rc n H. unfold one_shot, exec in H.
    destruct (feed E data true fin (jinit E)) as [j o] eqn:F.
    pose proof (feed_inv _ _ _ _ _ _ _ Inv_init F) as HI. destruct o as [v|].
    - destruct HI as (-> & w1 & w2 & Ew & HI & St). cbn [app] in HI.
      assert (Len : (length w1 <= length data)%nat).
      { rewrite <- (ptext_length data true fin), Ew, app_length. lia. }
      assert (Base : forall k id, macc (ptext true data fin) k id -> macc w1 k id).
      { rewrite Ew. apply (stopped_any w1 j w2 w2 HI St). left. exists []. rewrite app_nil_r. reflexivity. }
      assert (Ext : fin = false -> forall ext c, (ext <> [] \/ c = false) ->
                    exists w3, ptext true (data ++ ext) c = w1 ++ w3 /\ forall k id, macc (ptext true (data ++ ext) c) k id -> macc w1 k id).
      { intros -> ext c He. destruct (ptext_prefix data true ext c He) as [w Hw]. rewrite Ew, <- app_assoc in Hw.
        exists (w2 ++ w). split; [exact Hw|]. rewrite Hw. apply (stopped_any w1 j w2 (w2 ++ w) HI St). left; eauto. }
      destruct (verdict_inv _ _ HI) as [[V NM]|[V (k & Hk & Hm & Hb)]].
      + rewrite V in H. cbn in H. inversion H; subst rc n. split; [lia|]. split; [|split; [lia|]].
        * intros _ k id Hm. apply matches_macc in Hm. exact (NM _ _ (Base _ _ Hm)).
        * intros Hf ext c He. split; [lia|]. intros _ k id Hm. apply matches_macc in Hm.
          destruct (Ext Hf ext c He) as (w3 & _ & Hx). exact (NM _ _ (Hx _ _ Hm)).
      + replace (verdict E j =? 0) with false in H by (symmetry; apply Z.eqb_neq; lia).
        replace (0 <? verdict E j) with true in H by (symmetry; apply Z.ltb_lt; lia).
        inversion H; subst rc n. clear H.
        assert (Ek : Z.to_nat (jeo E j - 1) = k) by (rewrite Hk; lia).
        assert (Hkl : (k <= length w1)%nat) by (destruct Hm as (? & _); assumption).
        rewrite Ek. split; [|split; [lia|split; [lia|]]].
        * intros _. split; [rewrite Hk; lia|]. split.
          -- apply matches_macc. rewrite Ew. apply macc_ext. exact Hm.
          -- intros k' id' H'. apply matches_macc in H'. eauto.
        * intros Hf ext c He. split; [|lia]. intros _. destruct (Ext Hf ext c He) as (w3 & E3 & Hx). split.
          -- apply matches_macc. rewrite E3. apply macc_ext. exact Hm.
          -- intros k' id' H'. apply matches_macc in H'. eauto.
    - cbn [app] in HI. destruct HI as (P & Off & H3 & H4).
      destruct (fin && (0 <? jacc E j)) eqn:EF.
      + apply andb_prop in EF. destruct EF as [-> EF]. apply Z.ltb_lt in EF.
        replace (jacc E j =? 0) with false in H by (symmetry; apply Z.eqb_neq; lia).
        replace (0 <? jacc E j) with true in H by (symmetry; apply Z.ltb_lt; lia).
        inversion H; subst rc n. destruct (H4 EF) as (k & Hk & Hm & Hb).
        assert (Ek : Z.to_nat (jeo E j - 1) = k) by (rewrite Hk; lia).
        assert (Hkl : (k <= length data)%nat) by (destruct Hm as (h & _); rewrite ptext_length in h; assumption).
        rewrite Ek. split; [|split; [lia|split; [lia|discriminate]]].
        intros _. split; [rewrite Hk; lia|]. split; [apply matches_macc; exact Hm|].
        intros k' id' H'. apply matches_macc in H'. eauto.
      + cbn in H. inversion H; subst rc n. rewrite ptext_length in Off.
        split; [lia|]. split; [lia|]. split.
        * intros _. split; [reflexivity|]. split; [lia|]. split.
          -- intros ->. cbn in EF. apply Z.ltb_ge in EF. destruct (H3 EF) as [_ NM].
             intros k id Hm. apply matches_macc in Hm. exact (NM _ _ Hm).
          -- exists (jq E j). rewrite text_ptext. exact P.
        * intros _ ext c _. split; lia.
  Qed.
End P.
