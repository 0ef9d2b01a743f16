From Verif Require Import Base MatchModel MatchSpec MatchProofs MatchProofs2.
Open Scope Z_scope.

Section P3.
  Variable E : engine.
  Variable cur_acc : jms E -> Z.

  Definition late (start pos : Z) (x : jms E * Z) : presult :=
    let '(j, rc) := x in
    if rc =? 0 then PFailed
    else if 0 <? rc then PMatched rc (pos + (jeo E j - start))
    else let v := cur_acc j in
         if v <? 0 then PLoops else if v =? 0 then PFailed else PMatched v (pos + (joff E j - start)).

  Lemma parse_loop_late : forall cs m pos,
    fresh_like E m -> Forall blocks_ok cs ->
    (m_first E m = false \/ first_unsplit cs \/ caret_only_first E) ->
    parse_loop E cur_acc (Some m) pos (map (fun b => (b, false)) cs) =
    late (joff E (m_ms E m)) pos (exec E (concat (concat cs)) (m_first E m) false false (m_ms E m)).
  Proof.
    induction cs as [|b r IH]; intros m pos Hm Hb Hf.
    - cbn [map parse_loop concat]. destruct m as [a f d j]. destruct Hm as [Ha Hd]. cbn [m_acc m_done] in Ha, Hd. subst d.
      cbn [advance m_done adv concat is_nil m_acc m_first m_ms andb].
      assert (a <=? 0 = true) as -> by (destruct Ha as [-> | ->]; reflexivity). cbn [exec feed andb late].
      replace (-1 =? 0) with false by reflexivity. replace (0 <? -1) with false by reflexivity. rewrite Z.sub_diag.
      destruct (cur_acc j <? 0) eqn:E0; [reflexivity|]. destruct (cur_acc j =? 0) eqn:E1; reflexivity.
    - inversion Hb as [|? ? Hb1 Hb2]; subst. cbn [map concat]. rewrite concat_app. cbn [parse_loop].
      destruct (is_nil b) eqn:Eb.
      + destruct b; [|discriminate]. rewrite advance_empty by assumption. cbn [concat app].
        replace (-1 <? 0) with true by reflexivity. rewrite Z.add_0_r. apply IH; auto.
      + assert (Hbn : b <> []) by (intros ->; discriminate).
        assert (Hcb : concat b <> []).
        { intros h. pose proof (concat_nil b Hb1) as h1. rewrite h, Eb in h1. discriminate. }
        assert (Hf1 : m_first E m = false \/ length b = 1%nat \/ caret_only_first E).
        { destruct Hf as [Hf|[Hf|Hf]]; auto. right; left. unfold first_unsplit in Hf. cbn [filter] in Hf. rewrite Eb in Hf. exact Hf. }
        rewrite advance_exec by assumption. rewrite exec_app by assumption.
        destruct (exec E (concat b) (m_first E m) false false (m_ms E m)) as [j rc] eqn:Ex.
        pose proof (exec_rc _ _ _ _ _ _ _ _ Ex) as Hrc. unfold outc.
        assert (Dec : 0 <= rc -> (if is_nil (concat (concat r)) then (j, rc) else if 0 <=? rc then (j, rc) else exec E (concat (concat r)) false false false j) = (j, rc)).
        { intros h. replace (0 <=? rc) with true by (symmetry; apply Z.leb_le; lia). destruct (is_nil (concat (concat r))); reflexivity. }
        destruct (Z.eqb_spec rc 0) as [->|h0]; [rewrite Dec by lia; reflexivity|].
        destruct (Z.ltb_spec 0 rc) as [h1|h1].
        * rewrite Dec by lia. replace (rc <? 0) with false by (symmetry; apply Z.ltb_ge; lia). unfold late.
          replace (rc =? 0) with false by (symmetry; apply Z.eqb_neq; lia).
          replace (0 <? rc) with true by (symmetry; apply Z.ltb_lt; lia). reflexivity.
        * replace (-1 <? 0) with true by reflexivity.
          rewrite IH; [|split; [right; reflexivity|reflexivity]|assumption|left; reflexivity]. cbn [m_ms m_first].
          assert ((if is_nil (concat (concat r)) then (j, rc) else if 0 <=? rc then (j, rc) else exec E (concat (concat r)) false false false j)
                  = exec E (concat (concat r)) false false false j) as ->.
          { replace (0 <=? rc) with false by (symmetry; apply Z.leb_gt; lia). destruct (concat (concat r)); [|reflexivity].
            cbn. f_equal. lia. }
          unfold late. destruct (exec E (concat (concat r)) false false false j) as [j2 rc2].
          destruct (rc2 =? 0); [reflexivity|]. destruct (0 <? rc2); [f_equal; lia|].
          destruct (cur_acc j2 <? 0); [reflexivity|]. destruct (cur_acc j2 =? 0); [reflexivity|]. f_equal. lia.
  Qed.

  Lemma path_dollar : no_dollar E -> forall d f q, path E q (ptext f d true) = path E q (ptext f d false).
  Proof. clear cur_acc.
    intros H. induction d as [|c d IH]; intros f q; [reflexivity|]. cbn [ptext path].
    assert (delta E q (c, f, true && is_nil d) = delta E q (c, f, false && is_nil d)) as ->.
    { destruct (is_nil d); cbn [andb]; [apply H|reflexivity]. }
    destruct (delta E q (c, f, false && is_nil d)); [apply IH|reflexivity].
  Qed.

  Lemma firstn_ptext : forall d k f c, (k < length d)%nat -> firstn k (ptext f d c) = ptext f (firstn k d) false.
  Proof. clear cur_acc.
    induction d as [|x d IH]; intros k f c H; [cbn in H; lia|]. destruct k as [|k]; [reflexivity|].
    cbn [length] in H. cbn [ptext firstn]. rewrite IH by lia. f_equal. f_equal. destruct d; [cbn in H; lia|].
    cbn [is_nil]. rewrite andb_false_r. reflexivity.
  Qed.

  Lemma matches_dollar : no_dollar E -> forall d k id, matches E d true k id <-> matches E d false k id.
  Proof. clear cur_acc.
    intros H d k id. unfold matches. rewrite !text_ptext.
    assert (path E (q0 E) (firstn k (ptext true d true)) = path E (q0 E) (firstn k (ptext true d false))) as ->; [|tauto].
    destruct (Nat.lt_ge_cases k (length d)) as [h|h].
    - rewrite !firstn_ptext by assumption. reflexivity.
    - rewrite !firstn_all2 by (rewrite ptext_length; assumption). apply path_dollar. exact H.
  Qed.
  Lemma longest_dollar : no_dollar E -> forall d k id, longest E d true k id <-> longest E d false k id.
  Proof. clear cur_acc.
    intros H d k id. unfold longest. rewrite (matches_dollar H). split; intros [h1 h2]; (split; [exact h1|]);
      intros k' id' h; apply (h2 k' id'); apply (matches_dollar H); exact h.
  Qed.

  Hypothesis OK : engine_ok E.

  (** The text read without a decision. *)
  Lemma undecided : forall data j rc, exec E data true false false (jinit E) = (j, rc) -> rc < 0 -> Inv E (ptext true data false) j.
  Proof. clear cur_acc. intros data j rc Ex H. apply (exec_inv E data [] true false (jinit E) j rc (Inv_init E) Ex H). Qed.

  Lemma late_spec : forall data k id, no_dollar E -> longest E data true k id ->
    match exec E data true false false (jinit E) with
    | (j, rc) =>
      (0 <= rc -> rc = id /\ jeo E j = 1 + Z.of_nat k) /\
      (rc < 0 -> jacc E j = id /\ 0 < id /\ jeo E j = 1 + Z.of_nat k /\ joff E j = 1 + Z.of_nat (length data))
    end.
  Proof. clear cur_acc.
    intros data k id HD HL. apply (longest_dollar HD) in HL. destruct (exec E data true false false (jinit E)) as [j rc] eqn:Ex.
    pose proof (exec_rc _ _ _ _ _ _ _ _ Ex) as Hrc. split; intros Hr.
    - assert (O : one_shot E data false = (if rc =? 0 then (0, joff E j - 1) else if 0 <? rc then (rc, jeo E j - 1) else (-1, joff E j - 1))).
      { unfold one_shot. rewrite Ex. reflexivity. }
      destruct (Z.eqb_spec rc 0) as [->|h].
      + destruct (one_shot_spec E OK _ _ _ _ O) as (_ & h2 & _). exfalso. apply (h2 eq_refl k id). apply HL.
      + replace (0 <? rc) with true in O by (symmetry; apply Z.ltb_lt; lia).
        destruct (one_shot_spec E OK _ _ _ _ O) as (h1 & _). destruct (h1 ltac:(lia)) as [h2 h3].
        destruct (longest_fun E _ _ _ _ _ _ h3 HL) as [h4 h5]. split; [exact h5|]. lia.
    - pose proof (undecided _ _ _ Ex Hr) as (P & Off & H3 & H4). rewrite ptext_length in Off.
      destruct (Z.lt_ge_cases 0 (jacc E j)) as [h|h].
      + destruct (H4 h) as (k2 & Hk & Hm & Hb).
        assert (HL2 : longest E data false k2 (jacc E j)).
        { split; [apply matches_macc; exact Hm|]. intros k' id' Hm'. apply matches_macc in Hm'. eauto. }
        destruct (longest_fun E _ _ _ _ _ _ HL2 HL) as [-> <-]. auto.
      + exfalso. destruct (H3 h) as [_ NM]. apply (NM k id). apply matches_macc. apply HL.
  Qed.

  (** No decision was taken if the automaton could go on after all of the data. *)
  Lemma still_undecided : forall data q, path E (q0 E) (text data false) = Some q -> more E q = true ->
    snd (exec E data true false false (jinit E)) < 0 \/ data = [].
  Proof. clear cur_acc.
    intros data q P M. destruct data as [|x data]; [right; reflexivity|]. left.
    rewrite text_ptext in P. set (d := x :: data) in *. unfold exec.
    destruct (feed E d true false (jinit E)) as [j [v|]] eqn:F; [|cbn; lia]. exfalso.
    pose proof (feed_inv E _ _ _ _ _ _ _ (Inv_init E) F) as (_ & w1 & w2 & Ew & HI & St).
    cbn [app] in HI. destruct HI as (P1 & _). rewrite Ew, path_app, P1 in P.
    destruct w2 as [|s w2].
    - cbn in P. inversion P; subst. destruct St as [St|St]; [contradiction|]. congruence.
    - cbn [path] in P. assert (delta E (jq E j) s = None) as D by (destruct St as [St|St]; [exact St|apply OK; exact St]).
      rewrite D in P. discriminate.
  Qed.
End P3.
