(** A switch in an accepted unit is a chain of links with different names. *)
From Verif Require Import Base GrammarModel GrammarSpec GrammarProofs GrammarProofs2 GrammarProofs3 GrammarProps LahModel LahSpec LahSpec2 LahProofs LahProofs2 LahProofs3 LahProofs4 SwitchModel SwitchSpec SwitchProofs SwitchProofs2.
Local Open Scope nat_scope.

Fixpoint linked (q : sym) (outer_first : list link) : Prop :=
  match outer_first with [] => True | k :: ks => k_sym k = q /\ linked (k_first k) ks end.
Definition outer (prev : sym) (ks : list link) : sym := match rev ks with k :: _ => k_sym k | [] => prev end.
Lemma outer_cons prev k ks : outer prev (k :: ks) = outer (k_sym k) ks.
Proof. unfold outer. cbn [rev]. destruct (rev ks); reflexivity. Qed.
Lemma linked_up lha cs : forall i d prev rest, linked prev rest -> linked (outer prev (link_up lha i d prev cs)) (rev (link_up lha i d prev cs) ++ rest).
Proof.
  induction cs as [|c cs IH]; intros i d prev rest H; [exact H|]. cbn [link_up]. set (i' := if c_default c then i else S i). rewrite outer_cons. cbn [rev k_sym]. rewrite <- app_assoc. cbn [app].
  apply IH. split; [reflexivity|exact H].
Qed.
Lemma reach_added g ks : forall have q, reached g q -> linked q ks -> (forall k, In k (add_links have ks) -> find g (k_sym k) = Some (PLook (k_first k) (k_second k))) ->
  forall k, In k (add_links have ks) -> reached g (k_sym k).
Proof.
  induction ks as [|k0 ks IH]; intros have q RE L F k; cbn [add_links]; [intros []|]. cbn [add_links] in F. destruct (mem (k_sym k0) have); [intros []|]. destruct L as (<- & L). intros [<- | IK]; [exact RE|].
  eapply (IH (k_sym k0 :: have) (k_first k0)); [|exact L| |exact IK].
  - eapply inner_reached; [exact RE|]. apply F. left. reflexivity.
  - intros k' IK'. apply F. right. exact IK'.
Qed.
Lemma top_outer lha c cs : top lha (c :: cs) = outer (c_sym c) (links lha (c :: cs)).
Proof. reflexivity. Qed.
Lemma outer_up lha cs : forall i d prev, cs <> [] -> outer prev (up lha i d prev cs) = lha (i + length cs - 1).
Proof.
  induction cs as [|c cs IH]; intros i d prev N; [congruence|]. cbn [up]. rewrite outer_cons. cbn [k_sym length]. destruct cs as [|c2 cs]; [cbn; f_equal; lia|].
  rewrite IH by discriminate. f_equal. cbn [length]. lia.
Qed.

Section S.
Context {E : Type} (P : prog E) (g : grammar) (CG : compiled P g) (lha : nat -> sym) (w : switch E) (HS : has_switch P g lha w).

Lemma others a d b : w_cases w = a ++ d :: b -> c_default d = true -> forall c, In c (a ++ b) -> c_default c = false.
Proof.
  intros EQ D c IC. destruct (c_default c) eqn:DC; [exfalso|reflexivity].
  assert (ND : nth_error (w_cases w) (length a) = Some d) by (rewrite EQ, nth_error_app2, Nat.sub_diag by lia; reflexivity).
  apply in_app_iff in IC. destruct IC as [IC | IC]; apply In_nth_error in IC; destruct IC as (n & NC).
  - assert (L : n < length a) by (apply nth_error_Some; congruence). assert (N2 : nth_error (w_cases w) n = Some c) by (rewrite EQ, nth_error_app1 by lia; exact NC).
    pose proof (hs_one _ _ _ _ HS _ _ _ _ ND N2 D DC). lia.
  - assert (N2 : nth_error (w_cases w) (length a + S n) = Some c) by (rewrite EQ, nth_error_app2 by lia; replace (length a + S n - length a) with (S n) by lia; exact NC).
    pose proof (hs_one _ _ _ _ HS _ _ _ _ ND N2 D DC). lia.
Qed.
Lemma link_reached k : In k (added lha (w_cases w)) -> reached g (k_sym k).
Proof.
  intros IK. destruct (w_cases w) as [|c cs] eqn:EW; [destruct IK|]. destruct (hs_used _ _ _ _ HS) as (u & v & D). rewrite EW in D. rewrite top_outer in D.
  eapply (reach_added g (rev (links lha (c :: cs))) [] (outer (c_sym c) (links lha (c :: cs)))).
  - exists u, v. exact D.
  - cbn [links]. pose proof (linked_up lha cs (if c_default c then 0 else 1) (if c_default c then DFirst else DNone) (c_sym c) [] Logic.I) as L. rewrite app_nil_r in L. exact L.
  - intros k' IK'. apply (hs_link _ _ _ _ HS). rewrite EW. exact IK'.
  - exact IK.
Qed.
(** The default is among the first two cases. *)
Lemma early c c2 rest : w_cases w = c :: c2 :: rest -> forall d, In d rest -> c_default d = false.
Proof.
  intros EW d ID. destruct (c_default d) eqn:D; [exfalso|reflexivity]. apply in_split in ID. destruct ID as (a & b & ->).
  assert (OT : forall c', In c' ((c2 :: a) ++ b) -> c_default c' = false).
  { intros c' IC. apply (others (c :: c2 :: a) d b EW D). right. exact IC. }
  destruct (late_default lha c (c2 :: a) d b (hs_names _ _ _ _ HS) ltac:(discriminate) OT D) as (k & IK & KF & _). change (c :: (c2 :: a) ++ d :: b) with (c :: c2 :: a ++ d :: b) in IK.
  rewrite <- EW in IK. destruct (hs_link _ _ _ _ HS k IK) as (F & _). rewrite KF in F. destruct CG as (C & _ & m & n & g' & t & FZ & _).
  exact (self_not_accepted g (k_sym k) (k_second k) m n g' t C (link_reached k IK) F FZ).
Qed.
Lemma block_not_look c q a b : In c (w_cases w) -> find g q = Some (PLook a b) -> c_sym c <> q.
Proof. intros IC F Q. destruct (hs_case _ _ _ _ HS c IC) as (ps & es & PB). destruct CG as (_ & PP & _). rewrite Q, (PP _ _ F) in PB. discriminate. Qed.

Lemma up_chain cs : forall i d prev cs0 ds0, chain P g (w_cond w) cs0 ds0 prev ->
  (forall k, In k (up lha i d prev cs) -> find g (k_sym k) = Some (PLook (k_first k) (k_second k)) /\ p_default P (k_sym k) = k_default k /\
     p_call P (k_sym k) = None /\ (forall e, p_cond P (k_sym k) e = w_cond w e /\ p_size P (k_sym k) e = None) /\ (forall a b t, find g (k_first k) = Some (PLook a b) -> Flw g (k_first k) t -> Flw g (k_sym k) t)) ->
  chain P g (w_cond w) (cs0 ++ cs) (ds0 ++ repeat d (length cs)) (outer prev (up lha i d prev cs)).
Proof.
  induction cs as [|c cs IH]; intros i d prev cs0 ds0 H A.
  - cbn. rewrite !app_nil_r. exact H.
  - cbn [up]. rewrite outer_cons. cbn [k_sym]. destruct (A _ (or_introl eq_refl)) as (F & PD & CL & CN & FL). cbn [k_sym k_first k_second k_default] in *.
    replace (cs0 ++ c :: cs) with ((cs0 ++ [c]) ++ cs) by (rewrite <- app_assoc; reflexivity).
    replace (ds0 ++ repeat d (length (c :: cs))) with ((ds0 ++ [d]) ++ repeat d (length cs)) by (rewrite <- app_assoc; reflexivity).
    apply IH; [|intros k IK; apply A; right; exact IK]. rewrite <- PD. apply ch_link with (s := prev); assumption.
Qed.

Definition mode : ldefault := match w_cases w with c :: cs => mode_of c cs | [] => DNone end.
Lemma switch_chain : chain P g (w_cond w) (map c_sym (w_cases w)) (repeat mode (length (w_cases w) - 1)) (top lha (w_cases w)).
Proof.
  unfold mode. destruct (w_cases w) as [|c [|c2 rest]] eqn:EW; [destruct (hs_some _ _ _ _ HS EW)|apply ch_one|].
  pose proof (early c c2 rest EW) as EA. rewrite top_outer, (links_plain lha c c2 rest EA).
  set (i := start_at c (c2 :: rest)). set (d := mode_of c (c2 :: rest)). set (cs := map c_sym (c2 :: rest)). set (ks := up lha i d (c_sym c) cs).
  assert (ND : NoDup (map k_sym (rev ks))).
  { rewrite map_rev. apply NoDup_rev. unfold ks. rewrite up_names. apply names_nodup. apply (hs_names _ _ _ _ HS). }
  assert (AD : added lha (w_cases w) = rev ks).
  { unfold added. rewrite EW, (links_plain lha c c2 rest EA). apply add_links_nodup; [exact ND|]. intros ? _ []. }
  assert (TP : top lha (w_cases w) = lha (i + length cs - 1)).
  { rewrite EW, top_outer, (links_plain lha c c2 rest EA). apply outer_up. discriminate. }
  assert (BLK : forall s, s = c_sym c \/ In s cs -> exists c', In c' (w_cases w) /\ c_sym c' = s).
  { intros s [-> | IS]; [exists c; split; [rewrite EW; left; reflexivity|reflexivity]|]. unfold cs in IS. apply in_map_iff in IS. destruct IS as (c' & Q & IC). exists c'. split; [rewrite EW; right; exact IC|exact Q]. }
  assert (LEN : length (c :: c2 :: rest) - 1 = length cs) by (unfold cs; rewrite map_length; cbn; lia). rewrite LEN.
  change (map c_sym (c :: c2 :: rest)) with ([c_sym c] ++ cs). change (repeat d (length cs)) with ([] ++ repeat d (length cs)). apply up_chain; [apply ch_one|]. fold ks. intros k IK.
  assert (IKA : forall k, In k ks -> In k (added lha (w_cases w))) by (intros k' IK'; rewrite AD; rewrite <- in_rev; exact IK').
  destruct (hs_link _ _ _ _ HS k (IKA k IK)) as (F & PD & CL & CN). split; [exact F|]. split; [exact PD|]. split; [exact CL|]. split; [exact CN|].
  intros a b t FF FW. destruct (up_in lha cs i d (c_sym c) k IK) as (_ & _ & j & LJ & SK & KF). destruct KF as [(-> & KF) | (j' & -> & LJ' & KF)].
  { exfalso. apply (block_not_look c (k_first k) a b); [rewrite EW; left; reflexivity|exact FF|congruence]. }
  assert (K2 : exists k2, In k2 ks /\ k_sym k2 = lha j').
  { assert (IN : In (lha j') (map k_sym ks)) by (unfold ks; rewrite up_names; apply in_map; apply in_seq; lia). apply in_map_iff in IN. destruct IN as (k2 & Q & IK2). exists k2. auto. }
  destruct K2 as (k2 & IK2 & S2).
  assert (UP : forall s0 rhs pre post, In rhs (rhss_of g s0) -> rhs = pre ++ k_first k :: post -> post = [] /\ s0 = k_sym k).
  { intros s0 rhs pre post IR ->. rewrite KF in IR. destruct (hs_only _ _ _ _ HS k2 s0 (pre ++ lha j' :: post) (IKA k2 IK2)) as [TQ | (k' & IK' & ->)].
    - apply alternative_iff. exact IR.
    - rewrite S2. apply in_app_iff. right. left. reflexivity.
    - exfalso. rewrite S2, TP in TQ. apply (hs_names _ _ _ _ HS) in TQ. lia.
    - rewrite AD in IK'. rewrite <- in_rev in IK'. destruct (hs_link _ _ _ _ HS k' (IKA k' IK')) as (F' & _). destruct (up_in lha cs i d (c_sym c) k' IK') as (IS' & _ & j2 & LJ2 & SK2 & KF2).
      unfold rhss_of in IR. rewrite F' in IR. cbn [rhss In] in IR. destruct IR as [IR | [IR | []]].
      + destruct pre as [|? [|]]; try discriminate. injection IR as Q <-. split; [reflexivity|]. destruct KF2 as [(-> & KF2) | (j3 & -> & LJ3 & KF2)].
        * exfalso. apply (block_not_look c (k_first k) a b); [rewrite EW; left; reflexivity|exact FF|congruence].
        * rewrite KF2 in Q. apply (hs_names _ _ _ _ HS) in Q. subst j3. congruence.
      + destruct pre as [|? [|]]; try discriminate. injection IR as Q <-. exfalso. destruct (BLK (k_second k') (or_intror IS')) as (c' & IC' & Q').
        apply (block_not_look c' (k_first k) a b IC' FF). congruence. }
  inversion FW as [s0 rhs pre x post t0 RS IR ER FP|s0 rhs pre x post t0 IR ER NP FS]; subst x t0.
  - destruct (UP s0 rhs pre post IR ER) as (-> & _). destruct FP as ([|] & ? & ? & ? & _); discriminate.
  - destruct (UP s0 rhs pre post IR ER) as (_ & ->). exact FS.
Qed.
Lemma top_reached : reached g (top lha (w_cases w)).
Proof. destruct (hs_used _ _ _ _ HS) as (u & v & D). exists u, v. exact D. Qed.
End S.
