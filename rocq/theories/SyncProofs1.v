(** Proofs about SyncModel.v: grouping of fields, searching. *)
From Verif Require Import Base SyncModel SyncSpec.

(** * Grouping *)
Lemma oeqb_eq a b : oeqb a b = true <-> a = b.
Proof.
  destruct a, b; simpl; split; try congruence; intro H; [apply Nat.eqb_eq in H; congruence|].
  inversion H. apply Nat.eqb_refl.
Qed.

Lemma find_seq (P : nat -> bool) n : forall a,
  match find P (List.seq a n) with
  | Some k => a <= k < a + n /\ P k = true /\ forall j, a <= j < k -> P j = false
  | None => forall j, a <= j < a + n -> P j = false
  end.
Proof.
  induction n as [|n IH]; intro a; simpl.
  - intros j Hj. lia.
  - destruct (P a) eqn:E.
    + split; [lia|]. split; [assumption|]. intros j Hj. lia.
    + specialize (IH (S a)). destruct (find P (List.seq (S a) n)) as [k|].
      * destruct IH as (H1 & H2 & H3). split; [lia|]. split; [assumption|].
        intros j Hj. destruct (Nat.eq_dec j a) as [->|]; [assumption|]. apply H3. lia.
      * intros j Hj. destruct (Nat.eq_dec j a) as [->|]; [assumption|]. apply IH. lia.
Qed.

Lemma is_sync_true fs j : is_sync fs j = true <-> exists f sp, nth_error fs j = Some f /\ f_sync f = Some sp.
Proof.
  unfold is_sync. destruct (nth_error fs j) as [f|]; [destruct (f_sync f) as [sp|] eqn:E|]; split; intro H; try congruence.
  all: try (destruct H as (f' & sp' & H1 & H2); congruence).
  exists f, sp. auto.
Qed.
Lemma is_sync_false fs j : is_sync fs j = false <-> forall f, nth_error fs j = Some f -> f_sync f = None.
Proof.
  unfold is_sync. destruct (nth_error fs j) as [f|]; [destruct (f_sync f) as [sp|] eqn:E|]; split; intro H; try congruence; intros; try reflexivity; try congruence.
  specialize (H f eq_refl). congruence.
Qed.

Lemma sync_point_some u i k : sync_point (u_fields u) i = Some k -> closest u i k /\ k < length (u_fields u).
Proof.
  unfold sync_point. intro H. pose proof (find_seq (is_sync (u_fields u)) (length (u_fields u) - S i) (S i)) as F. rewrite H in F.
  destruct F as (F1 & F2 & F3). apply is_sync_true in F2 as (f & sp & N & Y).
  assert (k < length (u_fields u)) by (apply nth_error_Some; congruence).
  split; [|assumption]. split; [lia|]. split; [eauto|].
  intros j g Hj Ng. assert (E : is_sync (u_fields u) j = false) by (apply F3; lia).
  rewrite is_sync_false in E. auto.
Qed.
Lemma sync_point_none u i : sync_point (u_fields u) i = None -> none_behind u i.
Proof.
  unfold sync_point. intro H. pose proof (find_seq (is_sync (u_fields u)) (length (u_fields u) - S i) (S i)) as F. rewrite H in F.
  intros j f Hj N. assert (j < length (u_fields u)) by (apply nth_error_Some; congruence).
  assert (E : is_sync (u_fields u) j = false) by (apply F; lia). rewrite is_sync_false in E. auto.
Qed.

(** A unit's groups from field i on: the fields up to the next synchronization point, ..., the rest. *)
Inductive shape (u : unit_) : nat -> list (list nat * option nat) -> Prop :=
| shape_end i : length (u_fields u) <= i -> shape u i []
| shape_last i : i < length (u_fields u) -> (forall j, i <= j -> none_behind u j) ->
    shape u i [(List.seq i (length (u_fields u) - i), None)]
| shape_group i k gs : (forall j, i <= j < k -> closest u j k) -> i < k < length (u_fields u) -> shape u k gs ->
    shape u i ((List.seq i (k - i), Some k) :: gs).

Lemma closest_fun u i k k' : closest u i k -> closest u i k' -> k = k'.
Proof.
  intros (H1 & (f & sp & H2 & H3) & H4) (H1' & (f' & sp' & H2' & H3') & H4').
  destruct (Nat.lt_total k k') as [L|[E|L]]; [|assumption|].
  - specialize (H4' k f (conj H1 L) H2). congruence.
  - specialize (H4 k' f' (conj H1' L) H2'). congruence.
Qed.
Lemma closest_not_none u i k : closest u i k -> none_behind u i -> False.
Proof. intros (H1 & (f & sp & H2 & H3) & _) H. specialize (H k f H1 H2). congruence. Qed.
Lemma closest_sp u i k : closest u i k -> sync_point (u_fields u) i = Some k.
Proof.
  intro H. destruct (sync_point (u_fields u) i) as [k'|] eqn:E.
  - apply sync_point_some in E. f_equal. eapply closest_fun; [apply E|assumption].
  - apply sync_point_none in E. exfalso. eapply closest_not_none; eassumption.
Qed.

Lemma shape_groups_from u : forall n i, length (u_fields u) - i = n -> i <= length (u_fields u) ->
  shape u i (group (map (fun i => (i, sync_point (u_fields u) i)) (List.seq i n))).
Proof.
  induction n as [|n IH]; intros i Hn Hi; simpl.
  - constructor. lia.
  - specialize (IH (S i) ltac:(lia) ltac:(lia)).
    set (gs := group _) in *. clearbody gs.
    inversion IH as [j Hj E | j Hj HN E | j k gs' HC Hk Hs E]; subst.
    + assert (n = 0) by lia. subst n.
      destruct (sync_point (u_fields u) i) as [k|] eqn:E.
      { apply sync_point_some in E as ((H1 & _) & H2). lia. }
      apply sync_point_none in E.
      replace [i] with (List.seq i (length (u_fields u) - i)) by (replace (length (u_fields u) - i) with 1 by lia; reflexivity).
      constructor; [lia|]. intros j Hj'. destruct (Nat.eq_dec j i) as [->|]; [assumption|].
      intros j' f L N. apply E with (j := j'); [lia|assumption].
    + destruct (sync_point (u_fields u) i) as [k|] eqn:E; simpl.
      * apply sync_point_some in E as (HC & Hk).
        assert (k = S i).
        { destruct HC as (H1 & (f & sp & H2 & H3) & H4).
          destruct (Nat.eq_dec k (S i)) as [|Hne]; [assumption|]. exfalso.
          assert (Hl : S i < k) by lia. specialize (HN (S i) (Nat.le_refl _) k f Hl H2). congruence. }
        subst k. change [i] with (List.seq i 1). replace 1 with (S i - i) by lia.
        constructor; [|lia|exact IH]. intros j' Hj'. assert (j' = i) by lia. subst. assumption.
      * apply sync_point_none in E.
        replace (i :: List.seq (S i) (length (u_fields u) - S i)) with (List.seq i (length (u_fields u) - i))
          by (replace (length (u_fields u) - i) with (S (length (u_fields u) - S i)) by lia; reflexivity).
        constructor; [lia|]. intros j' Hj'. destruct (Nat.eq_dec j' i) as [->|]; [assumption|]. apply HN. lia.
    + destruct (sync_point (u_fields u) i) as [k'|] eqn:E; simpl.
      * apply sync_point_some in E as (HC' & Hk'). destruct (Nat.eqb k' k) eqn:E2.
        -- apply Nat.eqb_eq in E2. subst k'.
           replace (i :: List.seq (S i) (k - S i)) with (List.seq i (k - i)) by (replace (k - i) with (S (k - S i)) by lia; reflexivity).
           constructor; [|lia|assumption]. intros j' Hj'. destruct (Nat.eq_dec j' i) as [->|]; [assumption|]. apply HC. lia.
        -- apply Nat.eqb_neq in E2.
           assert (k' = S i).
           { destruct (HC (S i) ltac:(lia)) as (C1 & (f & sp & C2 & C3) & C4). destruct HC' as (H1 & (f' & sp' & H2 & H3) & H4).
             destruct (Nat.eq_dec k' (S i)) as [|Hne]; [assumption|]. exfalso.
             destruct (Nat.lt_total k' k) as [L|[L|L]]; [|lia|].
             - specialize (C4 k' f' ltac:(lia) H2). congruence.
             - specialize (H4 k f ltac:(lia) C2). congruence. }
           subst k'. change [i] with (List.seq i 1). replace 1 with (S i - i) by lia.
           constructor; [|lia|exact IH]. intros j' Hj'. assert (j' = i) by lia. subst. assumption.
      * apply sync_point_none in E. exfalso.
        destruct (HC (S i) ltac:(lia)) as (C1 & (f & sp & C2 & C3) & C4).
        specialize (E k f ltac:(lia) C2). congruence.
Qed.
Lemma shape_groups u : shape u 0 (groups (u_fields u)).
Proof. unfold groups. apply shape_groups_from; lia. Qed.

(** * The input *)
Section Input.
Context (D : list (option Z)) (TR : bool).
Local Notation len := (length D).

Lemma gaps_spec l : (forall i, i < gaps l -> nth_error l i = Some None) /\ (gaps l <= length l).
Proof.
  induction l as [|[b|] l (IH1 & IH2)]; simpl; split; try lia.
  intros [|i] H; simpl; [reflexivity|]. apply IH1. lia.
Qed.

(** Advancing always moves on, and skips nothing but gaps. *)
Lemma next_pos_spec s : p_head s <= p_pos s ->
  p_pos s < next_pos D s /\ forall q, p_pos s < q < next_pos D s -> nth_error D q = Some None.
Proof.
  intro H. unfold next_pos. assert (E : Nat.ltb (p_pos s) (p_head s) = false) by (apply Nat.ltb_ge; lia). rewrite E.
  destruct (Nat.ltb (S (p_pos s)) len) eqn:E2; [|split; [lia|intros q Hq; lia]].
  destruct (gaps_spec (skipn (S (p_pos s)) D)) as (G1 & G2). split; [lia|].
  intros q Hq. specialize (G1 (q - S (p_pos s)) ltac:(lia)).
  rewrite nth_error_skipn in G1. replace (S (p_pos s) + (q - S (p_pos s))) with q in G1 by lia. assumption.
Qed.
Lemma next_pos_gt s : p_pos s < next_pos D s.
Proof.
  unfold next_pos. destruct (Nat.ltb (p_pos s) (p_head s)) eqn:E; [apply Nat.ltb_lt in E|];
    destruct (Nat.ltb _ len); lia.
Qed.
Lemma advance_pos s : p_pos (advance D TR s) = next_pos D s.
Proof. unfold advance, trim_input. destruct TR; reflexivity. Qed.
Lemma advance_keeps s : p_lah (advance D TR s) = p_lah s /\ p_lahe (advance D TR s) = p_lahe s /\
  p_err (advance D TR s) = p_err s /\ p_tr (advance D TR s) = p_tr s /\ p_head s <= p_head (advance D TR s).
Proof. unfold advance, trim_input. destruct TR; simpl; repeat split; lia. Qed.
Lemma advance_head s : p_head s <= p_pos s -> p_head (advance D TR s) <= p_pos (advance D TR s).
Proof.
  intro H. pose proof (next_pos_gt s). unfold advance, trim_input. destruct TR; simpl; lia.
Qed.

(** * Matching a literal *)
Lemma starts_with_true w : forall l, starts_with w l = Some true <-> (forall i b, nth_error w i = Some b -> nth_error l i = Some (Some b)).
Proof.
  induction w as [|b w IH]; intro l; simpl.
  - split; [|reflexivity]. intros _ [|i] b H; discriminate.
  - destruct l as [|[c|] l].
    + split; [discriminate|]. intro H. specialize (H 0 b eq_refl). discriminate.
    + destruct (Z.eqb c b) eqn:E.
      * apply Z.eqb_eq in E. subst. rewrite IH. split; intros H i x Hx.
        -- destruct i as [|i]; simpl in *; [inversion Hx; reflexivity|auto].
        -- apply (H (S i) x). assumption.
      * apply Z.eqb_neq in E. split; [discriminate|]. intro H. specialize (H 0 b eq_refl). simpl in H. congruence.
    + split; [discriminate|]. intro H. specialize (H 0 b eq_refl). discriminate.
Qed.

Lemma has_gap_firstn w : forall l, starts_with w l = Some true -> has_gap (firstn (length w) l) = false.
Proof.
  induction w as [|b w IH]; intros l H; simpl in *; [reflexivity|].
  destruct l as [|[c|] l]; try discriminate. simpl. destruct (Z.eqb c b); [auto|discriminate].
Qed.
Lemma starts_with_firstn w : forall l, starts_with w (firstn (length w) l) = starts_with w l.
Proof.
  induction w as [|b w IH]; intro l; simpl; [reflexivity|].
  destruct l as [|[c|] l]; simpl; try reflexivity. destruct (Z.eqb c b); auto.
Qed.
Lemma firstn_firstn_same {A} n (l : list A) : firstn n (firstn n l) = firstn n l.
Proof. rewrite firstn_firstn. f_equal. lia. Qed.

Lemma present_starts t p : present D t p <-> tok_word t <> [] /\ starts_with (tok_word t) (skipn p D) = Some true.
Proof.
  unfold present. rewrite starts_with_true. setoid_rewrite nth_error_skipn. reflexivity.
Qed.
Lemma present_len t p : present D t p -> p + length (tok_word t) <= len.
Proof.
  intros (H1 & H2). destruct (tok_word t) as [|b w] using rev_ind; [congruence|]. clear IHw.
  specialize (H2 (length w) b). rewrite nth_error_app2, Nat.sub_diag in H2 by lia. specialize (H2 eq_refl).
  assert (p + length w < len) by (apply nth_error_Some; congruence). rewrite app_length. simpl. lia.
Qed.
Lemma present_gap t p : nth_error D p = Some None -> ~ present D t p.
Proof.
  intros H (H1 & H2). destruct (tok_word t) as [|b w]; [congruence|]. specialize (H2 0 b eq_refl). rewrite Nat.add_0_r in H2. congruence.
Qed.

Lemma match_tok_yes t p e : match_tok D t p = MYes e <-> present D t p /\ e = p + length (tok_word t).
Proof.
  unfold match_tok. rewrite present_starts.
  assert (Z0 : tok_word t <> [] <-> Nat.eqb (length (tok_word t)) 0 = false).
  { destruct (tok_word t); simpl; split; congruence. }
  destruct (Nat.ltb (len - p) (length (tok_word t))) eqn:E.
  - apply Nat.ltb_lt in E. split; [discriminate|]. intros (HP & _). apply present_starts in HP. apply present_len in HP.
    destruct (tok_word t); simpl in *; lia.
  - rewrite starts_with_firstn.
    destruct t as [id w|id w]; simpl in *.
    + destruct (starts_with w (skipn p D)) as [[|]|] eqn:S1.
      * rewrite Z0. destruct (Nat.eqb (length w) 0) eqn:L; split; intro H; try congruence.
        -- destruct H as ((H & _) & _). congruence.
        -- split; [auto|congruence].
        -- destruct H as (_ & ->). reflexivity.
      * split; [discriminate|]. intros ((_ & H) & _). discriminate.
      * split; [discriminate|]. intros ((_ & H) & _). discriminate.
    + destruct (has_gap (firstn (length w) (skipn p D))) eqn:G.
      * split; [discriminate|]. intros ((_ & H) & _). apply has_gap_firstn in H. congruence.
      * destruct (starts_with w (skipn p D)) as [[|]|] eqn:S1.
        -- rewrite Z0. destruct (Nat.eqb (length w) 0) eqn:L; split; intro H; try congruence.
           ++ destruct H as ((H & _) & _). congruence.
           ++ split; [auto|congruence].
           ++ destruct H as (_ & ->). reflexivity.
        -- split; [discriminate|]. intros ((_ & H) & _). discriminate.
        -- split; [discriminate|]. intros ((_ & H) & _). discriminate.
Qed.

Lemma starts_with_none w : forall l, starts_with w l = None -> In None l.
Proof.
  induction w as [|b w IH]; intros l H; simpl in *; [discriminate|].
  destruct l as [|[c|] l]; try discriminate; simpl; auto. destruct (Z.eqb c b); [auto|discriminate].
Qed.
Lemma has_gap_true l : has_gap l = true -> In None l.
Proof. induction l as [|[c|] l IH]; simpl; intro H; try discriminate; auto. Qed.
Lemma in_firstn {A} (x : A) n : forall l, In x (firstn n l) -> In x l.
Proof. induction n as [|n IH]; intros [|a l] H; simpl in *; try tauto. destruct H; auto. Qed.
Lemma in_skipn {A} (x : A) n : forall l, In x (skipn n l) -> In x l.
Proof. induction n as [|n IH]; intros [|a l] H; simpl in *; try tauto. auto. Qed.

Lemma match_tok_missing t p : match_tok D t p = MMissing -> In None D.
Proof.
  unfold match_tok. destruct (Nat.ltb _ _); [discriminate|].
  intro H. apply (in_skipn None p), (in_firstn None (length (tok_word t))). destruct t as [id w|id w]; simpl in *.
  - destruct (starts_with w _) as [[|]|] eqn:E; [destruct (Nat.eqb _ _); discriminate|discriminate|].
    eapply starts_with_none. exact E.
  - destruct (has_gap _) eqn:E; [apply has_gap_true; exact E|].
    destruct (starts_with w _) as [[|]|]; [destruct (Nat.eqb _ _)| |]; discriminate.
Qed.

Lemma nth_ext_error {A} (l : list A) : forall l', (forall i, nth_error l i = nth_error l' i) -> l = l'.
Proof.
  induction l as [|a l IH]; intros [|a' l'] H; [reflexivity|specialize (H 0); discriminate|specialize (H 0); discriminate|].
  f_equal; [specialize (H 0); simpl in H; congruence|]. apply IH. intro i. apply (H (S i)).
Qed.
Lemma same_word t t' p : present D t p -> present D t' p -> length (tok_word t) = length (tok_word t') -> tok_word t = tok_word t'.
Proof.
  intros (_ & H) (_ & H') L. apply nth_ext_error. intro i.
  destruct (nth_error (tok_word t) i) as [b|] eqn:E.
  - destruct (nth_error (tok_word t') i) as [b'|] eqn:E'.
    + specialize (H i b E). specialize (H' i b' E'). congruence.
    + apply nth_error_None in E'. assert (i < length (tok_word t)) by (apply nth_error_Some; congruence). lia.
  - apply nth_error_None in E. symmetry. apply nth_error_None. lia.
Qed.

(** * One look at the input: the literals *)
(** What has been found after some of the literals. *)
Definition best (seen : list tok) (s0 s : pst) : Prop :=
  p_pos s = p_pos s0 /\ p_head s = p_head s0 /\ p_err s = p_err s0 /\ p_tr s = p_tr s0 /\
  ((p_lah s = SNone /\ p_lahe s = p_lahe s0 /\ forall t, In t seen -> ~ present D t (p_pos s0)) \/
   exists t, longest D seen (p_pos s0) t /\ p_lah s = STok (tok_id t) /\ p_lahe s = p_pos s0 + length (tok_word t)).

Lemma present_pos_len t p : present D t p -> 0 < length (tok_word t).
Proof. intros (H & _). destruct (tok_word t); simpl; [congruence|lia]. Qed.

Lemma lits_spec s0 ts : forall seen first s,
  p_head s0 <= p_pos s0 -> p_lahe s0 <= p_pos s0 -> NoDup (map tok_word (seen ++ ts)) ->
  (no_gaps D \/ length ts <= 1) ->
  best seen s0 s -> (first = true -> seen = []) ->
  match lits D TR first ts s with
  | RNext s' => best (seen ++ ts) s0 s'
  | RAgain s' => s' = advance D TR s /\ In None D /\ length ts = 1 /\ forall t, In t ts -> ~ present D t (p_pos s0)
  | _ => False
  end.
Proof.
  induction ts as [|t ts IH]; intros seen first s Hh He ND G B F; simpl.
  - rewrite app_nil_r. assumption.
  - assert (E0 : Nat.ltb (p_pos s) (p_head s) = false) by (apply Nat.ltb_ge; destruct B as (B1 & B2 & _); lia). rewrite E0.
    assert (Hpos : p_pos s = p_pos s0) by apply B.
    replace (seen ++ t :: ts) with ((seen ++ [t]) ++ ts) by (rewrite <- app_assoc; reflexivity).
    assert (ND' : NoDup (map tok_word ((seen ++ [t]) ++ ts))) by (rewrite <- app_assoc; assumption).
    assert (G' : no_gaps D \/ length ts <= 1) by (destruct G as [G|G]; [auto|simpl in G; right; lia]).
    destruct (match_tok D t (p_pos s)) as [| |e] eqn:M; rewrite ?Hpos in M.
    + assert (NP : ~ present D t (p_pos s0)).
      { intro P. assert (X : match_tok D t (p_pos s0) = MYes (p_pos s0 + length (tok_word t))) by (apply match_tok_yes; auto). congruence. }
      assert (B' : best (seen ++ [t]) s0 s).
      { destruct B as (B1 & B2 & B3 & B4 & B5). refine (conj B1 (conj B2 (conj B3 (conj B4 _)))). destruct B5 as [(L1 & L2 & L3)|(t' & (L1 & L2 & L3) & L4 & L5)].
        - left. repeat split; try assumption. intros t' [Ht'|[<-|[]]]%in_app_iff; auto.
        - right. exists t'. refine (conj (conj _ (conj _ _)) (conj _ _)); try assumption; [apply in_or_app; auto|].
          intros t'' [Ht'|[<-|[]]]%in_app_iff P; [auto|contradiction]. }
      specialize (IH (seen ++ [t]) false s Hh He ND' G' B' ltac:(discriminate)).
      destruct (lits D TR false ts s); try assumption.
      destruct IH as (I1 & I2 & I3 & I4). destruct G as [G|G]; [contradiction|]. simpl in G. lia.
    + assert (NP : ~ present D t (p_pos s0)).
      { intro P. assert (X : match_tok D t (p_pos s0) = MYes (p_pos s0 + length (tok_word t))) by (apply match_tok_yes; auto). congruence. }
      assert (HN : In None D) by (eapply match_tok_missing; exact M). destruct G as [G|G]; [contradiction|].
      simpl in G. assert (ts = []) by (destruct ts; simpl in *; [reflexivity|lia]). subst ts.
      repeat split; try assumption. intros t' [<-|[]]. assumption.
    + apply match_tok_yes in M as (P & ->).
      pose proof (present_pos_len _ _ P) as LP.
      assert (Bt : forall s2, s2 = set_lah s (STok (tok_id t)) (p_pos s0 + length (tok_word t)) ->
                (forall t', In t' seen -> present D t' (p_pos s0) -> length (tok_word t') <= length (tok_word t)) ->
                best (seen ++ [t]) s0 s2).
      { intros s2 -> HL. destruct B as (B1 & B2 & B3 & B4 & _). refine (conj B1 (conj B2 (conj B3 (conj B4 _)))).
        right. exists t. refine (conj (conj _ (conj _ _)) (conj _ _)); try assumption; try reflexivity; [apply in_or_app; simpl; auto|].
        intros t' [Ht'|[<-|[]]]%in_app_iff P'; auto. }
      assert (Goal1 : forall s2, s2 = set_lah s (STok (tok_id t)) (p_pos s0 + length (tok_word t)) ->
                (forall t', In t' seen -> present D t' (p_pos s0) -> length (tok_word t') <= length (tok_word t)) ->
                match lits D TR false ts s2 with
                | RNext s' => best ((seen ++ [t]) ++ ts) s0 s'
                | RAgain s' => s' = advance D TR s /\ In None D /\ length (t :: ts) = 1 /\ (forall t0 : tok, In t0 (t :: ts) -> ~ present D t0 (p_pos s0))
                | _ => False
                end).
      { intros s2 E2 HL. specialize (IH (seen ++ [t]) false s2 Hh He ND' G' (Bt s2 E2 HL) ltac:(discriminate)).
        destruct (lits D TR false ts s2); try assumption. destruct IH as (I1 & I2 & I3 & I4).
        destruct G as [G|G]; [contradiction|]. simpl in G. lia. }
      destruct first.
      * rewrite (F eq_refl) in *. apply Goal1; [reflexivity|]. intros t' [].
      * destruct B as (B1 & B2 & B3 & B4 & B5).
        destruct B5 as [(L1 & L2 & L3)|(t' & (L1 & L2 & L3) & L4 & L5)].
        -- assert (E1 : Nat.leb (p_lahe s) (p_pos s0 + length (tok_word t)) = true) by (apply Nat.leb_le; lia). rewrite E1, L1. simpl.
           apply Goal1; [reflexivity|]. intros t' Ht' P'. exfalso. eapply L3; eassumption.
        -- destruct (Nat.leb (p_lahe s) (p_pos s0 + length (tok_word t))) eqn:E1.
           ++ apply Nat.leb_le in E1. rewrite L4. simpl.
              destruct (Nat.eqb (p_pos s0 + length (tok_word t)) (p_lahe s)) eqn:E2.
              ** apply Nat.eqb_eq in E2. exfalso.
                 assert (W : tok_word t = tok_word t') by (eapply same_word; [exact P|exact L2|lia]).
                 rewrite map_app in ND. simpl in ND. apply NoDup_remove_2 in ND. apply ND. apply in_or_app. left. rewrite W. apply in_map. assumption.
              ** apply Goal1; [reflexivity|]. intros t'' Ht'' P''. specialize (L3 t'' Ht'' P''). lia.
           ++ apply Nat.leb_gt in E1.
              assert (B' : best (seen ++ [t]) s0 s).
              { refine (conj B1 (conj B2 (conj B3 (conj B4 _)))). right. exists t'. refine (conj (conj _ (conj _ _)) (conj _ _)); try assumption; [apply in_or_app; auto|].
                intros t'' [Ht''|[<-|[]]]%in_app_iff P''; [auto|lia]. }
              specialize (IH (seen ++ [t]) false s Hh He ND' G' B' ltac:(discriminate)).
              destruct (lits D TR false ts s); try assumption. destruct IH as (I1 & I2 & I3 & I4).
              destruct G as [G|G]; [contradiction|]. simpl in G. lia.
Qed.

(** * Searching *)
Lemma occurs_lt ts p : occurs D ts p -> p < len.
Proof. intros (t & _ & P). pose proof (present_len _ _ P). pose proof (present_pos_len _ _ P). lia. Qed.

Lemma at_eod_settled s : p_head s <= p_pos s -> (at_eod D s = true <-> len <= p_pos s).
Proof. intro H. unfold at_eod. rewrite Nat.leb_le. lia. Qed.

(** The state in which a search from state s ends at offset p. *)
Definition found (s s' : pst) (p : nat) (t : tok) : Prop :=
  p_pos s' = p /\ p_head s <= p_head s' <= p /\ p_lah s' = STok (tok_id t) /\ p_lahe s' = p + length (tok_word t) /\
  p_err s' = p_err s /\ p_tr s' = p_tr s.

Lemma search_loop_spec N sp : s_rx sp = None -> NoDup (map tok_word (s_lits sp)) -> (no_gaps D \/ length (s_lits sp) <= 1) ->
  forall fuel s, settled s -> len - p_pos s < fuel ->
  (exists p t s', search_loop D TR N fuel sp s = Done s' /\ first_from D (s_lits sp) (p_pos s) p /\ longest D (s_lits sp) p t /\ found s s' p t) \/
  (exists s', search_loop D TR N fuel sp s = Done s' /\ p_lah s' = SNone /\ len <= p_pos s' /\ p_err s' = p_err s /\ p_tr s' = p_tr s /\ (forall p, p_pos s <= p -> ~ occurs D (s_lits sp) p)).
Proof.
  intros RX ND G. induction fuel as [|fuel IH]; intros s ST Hf; [lia|].
  cbn [search_loop]. unfold one_round. rewrite RX.
  destruct ST as (S1 & S2 & S3).
  assert (B0 : best [] s s).
  { repeat split; try reflexivity. left. repeat split; try assumption. intros t []. }
  pose proof (lits_spec s (s_lits sp) [] true s S3 S2 ND G B0 ltac:(reflexivity)) as LS. simpl app in LS.
  (* going on with the rest *)
  assert (REST : ~ occurs D (s_lits sp) (p_pos s) -> p_pos s < len ->
    (exists p t s', search_loop D TR N fuel sp (advance D TR s) = Done s' /\ first_from D (s_lits sp) (p_pos s) p /\ longest D (s_lits sp) p t /\ found s s' p t) \/
    (exists s', search_loop D TR N fuel sp (advance D TR s) = Done s' /\ p_lah s' = SNone /\ len <= p_pos s' /\ p_err s' = p_err s /\ p_tr s' = p_tr s /\ (forall p, p_pos s <= p -> ~ occurs D (s_lits sp) p))).
  { intros NO Hlt. destruct (next_pos_spec s S3) as (N1 & N2).
    destruct (advance_keeps s) as (K1 & K2 & K3 & K4 & K5).
    assert (ST' : settled (advance D TR s)).
    { repeat split; [congruence| |apply advance_head; assumption]. rewrite K2, advance_pos. lia. }
    assert (NB : forall q, p_pos s <= q < next_pos D s -> ~ occurs D (s_lits sp) q).
    { intros q Hq. destruct (Nat.eq_dec q (p_pos s)) as [->|]; [assumption|].
      intros (t & _ & P). revert P. apply present_gap. apply N2. lia. }
    destruct (IH (advance D TR s) ST') as [(p & t & s' & E & (F1 & F2 & F3) & L & (O1 & O2 & O3 & O4 & O5 & O6))|(s' & E & L1 & L2 & L3 & L4 & L5)].
    - rewrite advance_pos. lia.
    - left. exists p, t, s'. split; [assumption|]. rewrite advance_pos in F1.
      split; [|split; [assumption|]].
      + split; [lia|]. split; [assumption|]. intros q Hq. destruct (Nat.lt_ge_cases q (next_pos D s)); [apply NB; lia|].
        apply F3. rewrite advance_pos. lia.
      + repeat split; try congruence; lia.
    - right. exists s'. repeat split; try congruence. intros p Hp. destruct (Nat.lt_ge_cases p (next_pos D s)); [apply NB; lia|].
      apply L5. rewrite advance_pos. assumption. }
  destruct (lits D TR true (s_lits sp) s) as [s'|s'|s'|] eqn:EL; try contradiction.
  - destruct LS as (B1 & B2 & B3 & B4 & [(L1 & L2 & L3)|(t & (T1 & T2 & T3) & T4 & T5)]).
    + assert (NO : ~ occurs D (s_lits sp) (p_pos s)) by (intros (t & I & P); eapply L3; eassumption).
      rewrite L1. simpl. rewrite orb_false_r.
      assert (s' = s) by (destruct s, s'; simpl in *; congruence). subst s'.
      destruct (at_eod D s) eqn:EOD.
      * right. exists s. apply at_eod_settled in EOD; [|assumption]. repeat split; try assumption.
        intros p Hp O. apply occurs_lt in O. lia.
      * assert (p_pos s < len).
        { destruct (Nat.lt_ge_cases (p_pos s) len) as [|X]; [assumption|]. apply at_eod_settled in X; [congruence|assumption]. }
        apply REST; assumption.
    + rewrite T4. simpl. rewrite orb_true_r. left. exists (p_pos s), t, s'. split; [reflexivity|]. split; [|split].
      * split; [lia|]. split; [exists t; auto|]. intros q Hq. lia.
      * exact (conj T1 (conj T2 T3)).
      * repeat split; try assumption; lia.
  - destruct LS as (-> & HN & L1 & NP). apply REST.
    + intros (t & I & P). eapply NP; eassumption.
    + (* a gap was seen, so this is not the end *)
      destruct (s_lits sp) as [|t ts]; simpl in L1; [lia|]. simpl in EL.
      destruct (Nat.ltb (p_pos s) (p_head s)); [discriminate|].
      destruct (match_tok D t (p_pos s)) eqn:M.
      * destruct ts; simpl in *; [discriminate|lia].
      * unfold match_tok in M. destruct (Nat.ltb (len - p_pos s) (length (tok_word t))) eqn:E; [discriminate|].
        apply Nat.ltb_ge in E. destruct (Nat.lt_ge_cases (p_pos s) len) as [|X]; [assumption|].
        rewrite skipn_all2 in M by assumption. rewrite firstn_nil in M.
        destruct t as [id w|id w]; simpl in *; destruct w; simpl in *; try discriminate; lia.
      * destruct ts; simpl in *; [discriminate|lia].
Qed.
End Input.
