(* The order of the nodes; propagation maps; what the worklist ends with. *)
From Coq Require Import List Arith Bool ZArith Lia.
From Verif Require Import OptModel OptModel2 OptSpec OptSpec2 OptProofs1 OptProofs2 OptProofs3 OptProofs4 OptProofs5 OptProofs6 OptProofs7.
Import ListNotations.

(* ---- postorder ---- *)
Section Dfs.
Variable g : graph.
Variable Hc : closed g.
Definition left_ (vis : list gnode) : nat := length (filter (fun m => negb (memn m vis)) (g_nodes g)).
Lemma memn_no n l : memn n l = false <-> ~ In n l.
Proof. rewrite <- memn_in. now destruct (memn n l). Qed.
Lemma left_mono v v' : incl v v' -> left_ v' <= left_ v.
Proof.
  intros H. unfold left_. induction (g_nodes g) as [|n l IH]; simpl; auto.
  destruct (memn n v) eqn:M.
  - apply memn_in, H, memn_in in M. rewrite M. simpl. auto.
  - simpl. destruct (negb (memn n v')); simpl; lia.
Qed.
Lemma memn_cons n m v : memn n (m :: v) = gnode_eqb n m || memn n v.
Proof. reflexivity. Qed.
Lemma left_lt n v : In n (g_nodes g) -> ~ In n v -> left_ (n :: v) < left_ v.
Proof.
  intros Hn Hv. unfold left_. induction (g_nodes g) as [|m l IH]; [destruct Hn|].
  assert (X : length (filter (fun m => negb (memn m (n :: v))) l) <= length (filter (fun m => negb (memn m v)) l)).
  { clear. induction l as [|a l IH]; [simpl; lia|]. cbn [filter]. rewrite memn_cons. destruct (gnode_eqb a n), (memn a v); cbn [negb orb length]; lia. }
  cbn [filter]. rewrite memn_cons. destruct Hn as [-> | Hn].
  - rewrite gnode_eqb_refl. apply memn_no in Hv. rewrite Hv. cbn [negb orb length]. lia.
  - specialize (IH Hn). destruct (gnode_eqb m n), (memn m v); cbn [negb orb length]; lia.
Qed.

(* What a visit of the nodes does. *)
Definition visits (roots : list gnode) (st st' : list gnode * list gnode) : Prop :=
  incl (fst st) (fst st') /\ incl roots (fst st') /\
  (forall m p, In m (fst st') -> ~ In m (fst st) -> edge g m p -> In p (fst st')) /\
  (forall m, In m (fst st') -> ~ In m (fst st) -> exists n, In n roots /\ leads g n m) /\
  exists new, snd st' = snd st ++ new /\ NoDup new /\ (forall m, In m new <-> In m (fst st') /\ ~ In m (fst st)).
Lemma leads_first a b c : edge g a b -> leads g b c -> leads g a c.
Proof. intros H. induction 1; eapply leads_edge; eauto. apply leads_here. Qed.
Lemma NoDup_app_i {A} (a b : list A) : NoDup a -> NoDup b -> (forall x, In x a -> ~ In x b) -> NoDup (a ++ b).
Proof.
  induction a as [|x a IH]; simpl; auto. intros Ha Hb H. inversion Ha; subst. constructor.
  - rewrite in_app_iff. intros [X | X]; auto. eapply H; eauto.
  - apply IH; auto.
Qed.
Lemma in_dec_n (n : gnode) l : In n l \/ ~ In n l.
Proof. destruct (memn n l) eqn:M; [left; now apply memn_in | right; now apply memn_no]. Qed.
Lemma visits_seq a b s1 s2 s3 : visits a s1 s2 -> visits b s2 s3 -> visits (a ++ b) s1 s3.
Proof.
  intros (A1 & A2 & A3 & A4 & na & A5 & A6 & A7) (B1 & B2 & B3 & B4 & nb & B5 & B6 & B7).
  split; [eapply incl_tran; eauto|]. split; [apply incl_app; auto; eapply incl_tran; eauto|]. split; [|split].
  - intros m p H1 H2 He. destruct (in_dec_n m (fst s2)) as [X | X]; eauto.
  - intros m H1 H2. destruct (in_dec_n m (fst s2)) as [X | X].
    + destruct (A4 m X H2) as (n & ? & ?). exists n. rewrite in_app_iff. auto.
    + destruct (B4 m H1 X) as (n & ? & ?). exists n. rewrite in_app_iff. auto.
  - exists (na ++ nb). split; [rewrite B5, A5; now rewrite app_assoc|]. split.
    + apply NoDup_app_i; auto. intros x Hx Hx'. apply A7 in Hx. apply B7 in Hx'. tauto.
    + intros m. rewrite in_app_iff, A7, B7. split.
      * intros [[H1 H2] | [H1 H2]]; split; auto.
      * intros [H1 H2]. destruct (in_dec_n m (fst s2)); auto.
Qed.
Lemma visits_nil st : visits [] st st.
Proof.
  split; [apply incl_refl|]. split; [apply incl_nil_l|]. split; [tauto|]. split; [tauto|]. exists []. rewrite app_nil_r.
  split; auto. split; [constructor|]. simpl. tauto.
Qed.
Lemma visits_fold k ns : (forall n st, In n (g_nodes g) -> left_ (fst st) <= k -> visits [n] st (dfs k g n st)) ->
  forall st, incl ns (g_nodes g) -> left_ (fst st) <= k -> visits ns st (fold_left (fun st m => dfs k g m st) ns st).
Proof.
  intros H. induction ns as [|n ns IH]; intros st Hi Hl; [apply visits_nil|]. simpl.
  assert (Hn : In n (g_nodes g)) by (apply Hi; simpl; auto).
  specialize (H n st Hn Hl). apply (visits_seq [n] ns _ _ _ H). apply IH.
  - intros y Hy. apply Hi. simpl. auto.
  - etransitivity; [|exact Hl]. apply left_mono. apply H.
Qed.
Lemma dfs_eq k n st : dfs (S k) g n st = if memn n (fst st) then st else
  let (visited, sorted) := fold_left (fun st m => dfs k g m st) (downstream g n) (n :: fst st, snd st) in (visited, sorted ++ [n]).
Proof. reflexivity. Qed.
Lemma dfs_visits k : forall n st, In n (g_nodes g) -> left_ (fst st) <= k -> visits [n] st (dfs k g n st).
Proof.
  assert (V0 : forall n st, In n (fst st) -> visits [n] st st).
  { intros n st H. destruct (visits_nil st) as (A1 & A2 & A3 & A4 & A5). split; auto. split; [|split; [auto | split; [tauto | auto]]].
    intros y [<- | []]. auto. }
  induction k as [|k IH]; intros n st Hn Hl.
  - assert (X : In n (fst st)).
    { destruct (in_dec_n n (fst st)) as [|X]; auto. pose proof (left_lt n (fst st) Hn X). lia. }
    simpl. apply memn_in in X as X'. rewrite X'. auto.
  - rewrite dfs_eq. destruct (memn n (fst st)) eqn:M; [apply memn_in in M; auto|]. apply memn_no in M.
    pose proof (left_lt n (fst st) Hn M) as Hlt.
    assert (Hd : incl (downstream g n) (g_nodes g)) by (intros m Hm; apply downstream_in in Hm; now apply (Hc n m)).
    assert (Hl' : left_ (fst (n :: fst st, snd st)) <= k) by (simpl; lia).
    pose proof (visits_fold k (downstream g n) IH (n :: fst st, snd st) Hd Hl') as V.
    destruct (fold_left _ _ _) as [vis out]. destruct V as (V1 & V2 & V3 & V4 & new & V5 & V6 & V7). simpl in *.
    split; [|split; [|split; [|split]]]; simpl.
    + intros y Hy. apply V1. simpl. auto.
    + intros y [<- | []]. apply V1. simpl. auto.
    + intros m p H1 H2 He. destruct (gnode_dec n m) as [<- | Hne].
      * apply V2. now apply downstream_in.
      * eapply (V3 m p); auto. intros [X | X]; auto.
    + intros m H1 H2. exists n. split; auto. destruct (gnode_dec n m) as [<- | Hne]; [constructor|].
      destruct (V4 m H1) as (p & Hp & Hp'); [intros [X | X]; auto|]. apply downstream_in in Hp. eapply leads_first; eauto.
    + exists (new ++ [n]). split; [rewrite V5; now rewrite app_assoc|]. split.
      * apply NoDup_app_i; auto; [constructor; simpl; auto; constructor|]. intros x Hx [<- | []]. apply V7 in Hx. simpl in Hx. tauto.
      * intros m. rewrite in_app_iff, V7. simpl. split.
        -- intros [[H1 H2] | [<- | []]]; [split; [auto | intros X; apply H2; auto] | split; [apply V1; simpl; auto | auto]].
        -- intros [H1 H2]. destruct (gnode_dec n m) as [<- | Hne]; auto. left. split; auto. intros [X | X]; auto.
Qed.
Lemma dfs_last k n st : 0 < k -> ~ In n (fst st) -> exists r, snd (dfs k g n st) = r ++ [n].
Proof.
  destruct k as [|k]; [lia|]. intros _ H. rewrite dfs_eq. apply memn_no in H. rewrite H.
  destruct (fold_left _ _ _) as [v s]. exists s. reflexivity.
Qed.
Lemma postorder_ok : In NStart (g_nodes g) ->
  (forall n, In n (postorder g) <-> leads g NStart n) /\ NoDup (postorder g) /\ exists r, postorder g = r ++ [NStart].
Proof.
  intros Hs. unfold postorder. set (k := length (g_nodes g)).
  assert (Hl : left_ [] <= k).
  { unfold left_, k. clear. induction (g_nodes g); simpl in *; auto. lia. }
  pose proof (dfs_visits k NStart ([], []) Hs Hl) as (V1 & V2 & V3 & V4 & new & V5 & V6 & V7). cbn [fst snd app] in *.
  rewrite V5. split; [|split; auto].
  - intros n. rewrite V7. split.
    + intros [H _]. destruct (V4 n H) as (m & [<- | []] & Hm); auto.
    + intros H. split; [|auto]. induction H as [|b c _ IH He]; [apply V2; simpl; auto|]. eapply V3; eauto.
  - rewrite <- V5. apply dfs_last; auto. unfold k. destruct (g_nodes g); [destruct Hs | simpl; lia].
Qed.
Lemma rpo_in : In NStart (g_nodes g) -> forall n, In n (rpo g) <-> leads g NStart n /\ n <> NStart.
Proof.
  intros Hs n. destruct (postorder_ok Hs) as (P1 & P2 & r & P3). unfold rpo. rewrite P3, rev_app_distr. simpl.
  rewrite <- in_rev. rewrite <- P1, P3, in_app_iff. rewrite P3 in P2. apply NoDup_remove_2 in P2. rewrite app_nil_r in P2. simpl.
  split; [intros H; split; auto; intros ->; auto | intros [[H | [H | []]] H']; auto; congruence].
Qed.
End Dfs.

(* ---- propagation maps ---- *)
Definition has (m : pmap) (x : var) : Prop := look m x <> None.
Definition fact (m : pmap) (x : var) (e : rexpr) : Prop := exists r, look m x = Some r /\ rv_prop r = true /\ rv_expr r = e.
Definition about (e : rexpr) (x : var) : Prop := match e with RName _ y => y = x | _ => False end.

Lemma look_erase m x y : look (erase m x) y = if y =? x then None else look m y.
Proof.
  unfold erase. induction m as [|[z r] m IH]; simpl; [now destruct (y =? x)|].
  destruct (Nat.eqb_spec z x) as [-> | Hz]; simpl.
  - rewrite IH. destruct (y =? x); auto.
  - destruct (Nat.eqb_spec y z) as [-> | Hy].
    + apply Nat.eqb_neq in Hz. now rewrite Hz.
    + apply IH.
Qed.
Lemma look_put m x r y : look (put m x r) y = if y =? x then Some r else look m y.
Proof. unfold put. simpl. rewrite look_erase. destruct (y =? x); auto. Qed.
Definition inval1 (x : var) (r : rval) : rval :=
  match rv_expr r with RName _ y => if rv_prop r && (y =? x) then stop r else r | _ => r end.
Lemma look_inval x m y : look (inval x m) y = option_map (inval1 x) (look m y).
Proof.
  unfold inval. induction m as [|[z r] m IH]; simpl; auto. unfold inval1 at 1.
  destruct (rv_expr r) as [| |l w] eqn:Er; simpl.
  - destruct (y =? z); simpl; auto. unfold inval1. now rewrite Er.
  - destruct (y =? z); simpl; auto. unfold inval1. now rewrite Er.
  - destruct (rv_prop r && (w =? x)) eqn:B; simpl; destruct (y =? z); simpl; auto; unfold inval1; now rewrite Er, B.
Qed.
Lemma has_inval x m y : has (inval x m) y <-> has m y.
Proof. unfold has. rewrite look_inval. destruct (look m y); simpl; split; intros H; auto; discriminate. Qed.
Lemma fact_inval x m y e : fact (inval x m) y e <-> fact m y e /\ ~ about e x.
Proof.
  unfold fact. rewrite look_inval. split.
  - intros (r & Hr & Hp & He). destruct (look m y) as [r0|]; [|discriminate]. simpl in Hr. injection Hr as <-.
    unfold inval1 in *. destruct (rv_expr r0) as [| |l w] eqn:Er; simpl in *.
    + split; [exists r0; rewrite Er in *; subst; auto | rewrite Er in He; subst; simpl; tauto].
    + split; [exists r0; rewrite Er in *; subst; auto | rewrite Er in He; subst; simpl; tauto].
    + destruct (rv_prop r0) eqn:Ep; simpl in *; [|congruence]. destruct (Nat.eqb_spec w x) as [-> | Hw]; simpl in *; [discriminate|].
      rewrite Er in He. subst e. split; [exists r0; auto | simpl; auto].
  - intros ((r & Hr & Hp & He) & Ha). exists (inval1 x r). rewrite Hr. split; auto. unfold inval1.
    destruct (rv_expr r) as [| |l w] eqn:Er; auto; try (rewrite Er; auto). rewrite Hp. simpl.
    destruct (Nat.eqb_spec w x) as [-> | Hw]; [subst e; simpl in Ha; tauto|]. rewrite Er. auto.
Qed.
Lemma has_put m x r y : has (put m x r) y <-> y = x \/ has m y.
Proof.
  unfold has. rewrite look_put. destruct (Nat.eqb_spec y x) as [-> | H]; split; auto; try discriminate. intros [-> | ?]; auto; congruence.
Qed.
Lemma fact_put m x r y e : fact (put m x r) y e <-> (y = x /\ rv_prop r = true /\ rv_expr r = e) \/ (y <> x /\ fact m y e).
Proof.
  unfold fact. rewrite look_put. destruct (Nat.eqb_spec y x) as [-> | H]; split.
  - intros (r0 & Hr & ?). injection Hr as <-. auto.
  - intros [(_ & ?) | [? _]]; [eauto | congruence].
  - auto.
  - intros [[? _] | [_ ?]]; auto; congruence.
Qed.
Lemma has_taint x m y : has m y -> has (taint x m) y.
Proof. intros H. unfold taint. apply has_put. right. now apply has_inval. Qed.
Lemma fact_taint x m y e : fact (taint x m) y e -> fact m y e /\ y <> x /\ ~ about e x.
Proof.
  unfold taint. intros H. apply fact_put in H as [(_ & H & _) | [H1 H2]].
  - destruct (look (inval x m) x); discriminate.
  - apply fact_inval in H2. tauto.
Qed.
Lemma taints_cons x xs m : taints (x :: xs) m = taints xs (taint x m).
Proof. reflexivity. Qed.
Lemma has_taints xs : forall m y, has m y -> has (taints xs m) y.
Proof. induction xs as [|x xs IH]; intros m y H; auto. rewrite taints_cons. apply IH. now apply has_taint. Qed.
Lemma fact_taints xs : forall m y e, fact (taints xs m) y e -> fact m y e /\ ~ In y xs /\ (forall x, In x xs -> ~ about e x).
Proof.
  induction xs as [|x xs IH]; intros m y e H; [simpl; tauto|]. rewrite taints_cons in H. apply IH in H as (H1 & H2 & H3).
  apply fact_taint in H1 as (H4 & H5 & H6). split; [auto|]. split; [intros [X | X]; auto|].
  intros z [<- | Hz]; auto.
Qed.
Lemma kill_all_cons x xs m : kill_all (x :: xs) m = kill_all xs (erase (inval x m) x).
Proof. reflexivity. Qed.
Lemma has_kill_all xs : forall m y, has m y -> ~ In y xs -> has (kill_all xs m) y.
Proof.
  induction xs as [|x xs IH]; intros m y H Hn; auto. rewrite kill_all_cons. apply IH; [|intros X; apply Hn; simpl; auto].
  unfold has. rewrite look_erase. destruct (Nat.eqb_spec y x) as [-> |]; [destruct Hn; simpl; auto|]. now apply has_inval.
Qed.
Lemma fact_kill_all xs : forall m y e, fact (kill_all xs m) y e -> fact m y e /\ ~ In y xs /\ (forall x, In x xs -> ~ about e x).
Proof.
  induction xs as [|x xs IH]; intros m y e H; [simpl; tauto|]. rewrite kill_all_cons in H. apply IH in H as (H1 & H2 & H3).
  unfold fact in H1. rewrite look_erase in H1. destruct (Nat.eqb_spec y x) as [-> | Hne]; [destruct H1 as (? & ? & _); discriminate|].
  change (fact (inval x m) y e) in H1. apply fact_inval in H1 as [H1 H4].
  split; [auto|]. split; [intros [X | X]; auto|]. intros z [<- | Hz]; auto.
Qed.

Lemma rexpr_eqb_ok a b : rexpr_eqb a b = true -> a = b.
Proof.
  destruct a, b; simpl; intros H; try discriminate; auto; apply andb_true_iff in H as [H1 H2];
    apply Nat.eqb_eq in H1; [apply Z.eqb_eq in H2 | apply Nat.eqb_eq in H2]; subst; auto.
Qed.
Lemma rval_eqb_l a b : rval_eqb a b = true -> rv_prop a = true -> rv_prop b = true /\ rv_expr a = rv_expr b.
Proof.
  unfold rval_eqb. intros H Ha. rewrite Ha in H. simpl in H. apply andb_true_iff in H as [H1 H2].
  apply rexpr_eqb_ok in H1. destruct (rv_prop b); [auto | discriminate].
Qed.
Lemma rval_eqb_r a b : rval_eqb a b = true -> rv_prop b = true -> rv_prop a = true /\ rv_expr a = rv_expr b.
Proof.
  unfold rval_eqb. intros H Hb. rewrite Hb in H. rewrite andb_false_r in H. simpl in H. apply andb_true_iff in H as [H1 H2].
  apply rexpr_eqb_ok in H1. destruct (rv_prop a); [auto | discriminate].
Qed.
Definition same_map (a b : pmap) : Prop := (forall x, has a x <-> has b x) /\ (forall x e, fact a x e <-> fact b x e).
Lemma same_map_refl a : same_map a a.
Proof. split; tauto. Qed.
Lemma look_key m x r : look m x = Some r -> In x (map fst m).
Proof.
  induction m as [|[y s] m IH]; simpl; [discriminate|]. destruct (Nat.eqb_spec x y) as [-> | H]; auto.
Qed.
Lemma pmap_eqb_ok a b : pmap_eqb a b = true -> same_map a b.
Proof.
  intros H. unfold pmap_eqb in H. rewrite forallb_forall in H.
  assert (X : forall x, same_at a b x = true).
  { intros x. destruct (look a x) as [r|] eqn:Ea; [apply H, in_app_iff; left; eapply look_key; eauto|].
    destruct (look b x) as [r|] eqn:Eb; [apply H, in_app_iff; right; eapply look_key; eauto|].
    unfold same_at. now rewrite Ea, Eb. }
  split; intros x; specialize (X x); unfold same_at in X; unfold has, fact.
  - destruct (look a x), (look b x); try discriminate; split; intros; auto; discriminate.
  - intros e. destruct (look a x) as [r|], (look b x) as [r'|]; try discriminate; [|tauto].
    split; intros (r0 & Hr & Hp & He); injection Hr as <-.
    + destruct (rval_eqb_l _ _ X Hp) as [H1 H2]. exists r'. rewrite <- H2. auto.
    + destruct (rval_eqb_r _ _ X Hp) as [H1 H2]. exists r. rewrite H2. auto.
Qed.

(* ---- the meet ---- *)
Lemma meet_concat outs : forall m, fold_left (fun m o => fold_left meet1 o m) outs m = fold_left meet1 (concat outs) m.
Proof. induction outs as [|o outs IH]; intros m; simpl; auto. now rewrite fold_left_app, IH. Qed.
Lemma meet1_spec m y r x :
  (has m x \/ x = y -> has (meet1 m (y, r)) x) /\
  (forall e, fact (meet1 m (y, r)) x e ->
     (has m x -> fact m x e) /\ (x = y -> rv_prop r = true /\ rv_expr r = e) /\ (has m x \/ x = y)).
Proof.
  unfold meet1. simpl. destruct (look m y) as [r0|] eqn:Ey.
  - assert (Hy : has m y) by (unfold has; rewrite Ey; discriminate).
    destruct (rval_eqb r0 r) eqn:B.
    + split; [intros [H | ->]; auto|]. intros e H. split; [auto|]. split.
      * intros ->. destruct H as (r1 & H1 & H2 & H3). rewrite Ey in H1. injection H1 as <-.
        destruct (rval_eqb_l _ _ B H2) as [X1 X2]. split; congruence.
      * left. destruct H as (r1 & H1 & _). unfold has. rewrite H1. discriminate.
    + split; [intros [H | ->]; apply has_put; auto|]. intros e H. apply fact_put in H as [(-> & H & _) | [H1 H2]]; [discriminate|].
      split; [auto|]. split; [intros ->; congruence|]. left. destruct H2 as (r1 & X & _). unfold has. rewrite X. discriminate.
  - split; [intros [H | ->]; apply has_put; auto|]. intros e H. apply fact_put in H as [(-> & H1 & H2) | [H1 H2]].
    + split; [unfold has; congruence|]. auto.
    + split; [auto|]. split; [intros ->; congruence|]. left. destruct H2 as (r1 & X & _). unfold has. rewrite X. discriminate.
Qed.
Lemma meets_spec ps : forall m x,
  (has m x \/ (exists r, In (x, r) ps) -> has (fold_left meet1 ps m) x) /\
  (forall e, fact (fold_left meet1 ps m) x e ->
     (has m x -> fact m x e) /\ (forall r, In (x, r) ps -> rv_prop r = true /\ rv_expr r = e) /\
     (has m x \/ exists r, In (x, r) ps)).
Proof.
  induction ps as [|[y r] ps IH]; intros m x.
  - simpl. split; [intros [H | (? & [])]; auto|]. intros e H. split; [auto|]. split; [intros ? []|]. left.
    destruct H as (r1 & X & _). unfold has. rewrite X. discriminate.
  - cbn [fold_left]. destruct (meet1_spec m y r x) as [M1 M2]. destruct (IH (meet1 m (y, r)) x) as [I1 I2]. split.
    + intros [H | (r1 & [H | H])]; apply I1; [left; auto | left; injection H as -> ->; auto | right; eauto].
    + intros e H. destruct (I2 e H) as (A & B & C). split; [|split].
      * intros Hm. assert (Hm' : has (meet1 m (y, r)) x) by auto. apply A in Hm'. apply M2 in Hm'. tauto.
      * intros r1 [Hr | Hr]; [|auto]. injection Hr as -> ->. assert (Hm' : has (meet1 m (x, r1)) x) by auto.
        apply A in Hm'. apply M2 in Hm'. tauto.
      * destruct C as [C | (r1 & C)]; [|right; exists r1; simpl; auto].
        apply A, M2 in C. destruct C as (_ & _ & [C | ->]); auto. right. exists r. simpl. auto.
Qed.
Lemma look_in m x r : look m x = Some r -> In (x, r) m.
Proof.
  induction m as [|[y s] m IH]; simpl; [discriminate|]. destruct (Nat.eqb_spec x y) as [-> | H]; intros E; [injection E as <-; auto | auto].
Qed.
Lemma in_has m x r : In (x, r) m -> has m x.
Proof.
  unfold has. induction m as [|[y s] m IH]; simpl; [tauto|]. intros H. destruct (Nat.eqb_spec x y) as [-> | Hne]; [discriminate|].
  destruct H as [H | H]; auto. congruence.
Qed.
Lemma meet_spec outs x :
  (forall o, In o outs -> has o x -> has (meet outs) x) /\
  (forall e, fact (meet outs) x e ->
     (forall o, In o outs -> has o x -> fact o x e) /\ (exists o, In o outs /\ fact o x e)).
Proof.
  unfold meet. rewrite meet_concat. destruct (meets_spec (concat outs) [] x) as [M1 M2]. split.
  - intros o Ho H. apply M1. right. unfold has in H. destruct (look o x) as [r|] eqn:E; [|congruence].
    exists r. apply in_concat. exists o. split; auto. now apply look_in.
  - intros e H. destruct (M2 e H) as (_ & A & [B | (r & B)]); [unfold has in B; simpl in B; congruence|].
    assert (X : forall o, In o outs -> has o x -> fact o x e).
    { intros o Ho Hx. unfold has in Hx. destruct (look o x) as [r1|] eqn:E; [|congruence].
      exists r1. split; auto. apply A. apply in_concat. exists o. split; auto. now apply look_in. }
    split; auto. apply in_concat in B as (o & Ho & Hr). exists o. split; auto. apply X; auto. eapply in_has; eauto.
Qed.
