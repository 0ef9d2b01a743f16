(* Moving the last uses keeps what the function does. *)
From Coq Require Import List Arith Bool ZArith Lia.
From Verif Require Import OptModel OptModel2 OptSpec OptSpec2 OptMvModel OptMvSpec OptProofs1 OptProofs2 OptProofs3 OptProofs4 OptProofs5 OptProofs6 OptProofs7 OptProofs8 OptProofs9 OptMvProofs.
Import ListNotations.

(* ---- what the walk finds ---- *)
Lemma occ_uses_mut : (forall e, map fst (occ e) = uses e) /\ (forall a, map fst (occ_args a) = uses_args a).
Proof. apply expr_mutind; simpl; intros; rewrite ?map_app; congruence. Qed.
Lemma occ_names_mut : (forall e l x, In (l, x) (occ e) -> In x (names e)) /\ (forall a l x, In (l, x) (occ_args a) -> In x (names_args a)).
Proof.
  apply expr_mutind; simpl; intros; try contradiction; eauto; rewrite ?in_app_iff in *;
    repeat match goal with H : _ \/ _ |- _ => destruct H end; eauto; try contradiction.
  injection H as -> ->. auto.
Qed.
Lemma occ_names e l x : In (l, x) (occ e) -> In x (names e).
Proof. apply occ_names_mut. Qed.
(* The names that the walk sees. *)
Fixpoint wnames (e : expr) : list var :=
  match e with
  | EConst _ _ => []
  | EName _ x => [x]
  | EUn _ e | ENot e => wnames e
  | EBin _ a b | EAnd a b | EOr a b => wnames a ++ wnames b
  | EUpd _ x e => x :: wnames e
  | ECall _ a => wnames_args a
  end
with wnames_args (a : args) : list var :=
  match a with ANil => [] | AIn e a => wnames e ++ wnames_args a | AInOut _ a => wnames_args a end.
Notation cnt := (count_occ Nat.eq_dec).
Lemma cnt_cons (y : var) l x : cnt (y :: l) x = (if y =? x then 1 else 0) + cnt l x.
Proof. simpl. destruct (Nat.eq_dec y x) as [-> | H]; [now rewrite Nat.eqb_refl|]. apply Nat.eqb_neq in H. now rewrite H. Qed.
Lemma cnt_names_mut x : (forall e, cnt (names e) x = cnt (wnames e) x + cnt (call_gen e) x) /\
  (forall a, cnt (names_args a) x = cnt (wnames_args a) x + cnt (call_gen_args a) x).
Proof.
  apply expr_mutind; cbn [names names_args wnames wnames_args call_gen call_gen_args]; intros; rewrite ?count_occ_app, ?cnt_cons; cbn [count_occ] in *; unfold var in *; try lia.
Qed.

Section Walk.
Variable x : var.
Definition walks (c : nat) (os : list (lab * var)) (wk : walked -> walked) : Prop :=
  wk GivenUp = GivenUp /\ (forall o, wk (Found o) = if c =? 0 then Found o else GivenUp) /\
  ((c = 0 /\ wk Searching = Searching) \/ (c = 1 /\ exists o, wk Searching = Found o /\ forall l, o = Some l <-> In (l, x) os) \/
   (2 <= c /\ wk Searching = GivenUp)) /\ (forall l, In (l, x) os -> 1 <= c).
Lemma walks_none os : (forall l, ~ In (l, x) os) -> walks 0 os (fun w => w).
Proof. intros H. split; auto. split; auto. split; auto. intros l Hl. destruct (H l Hl). Qed.
Lemma walks_find o os : (forall l, o = Some l <-> In (l, x) os) -> walks 1 os (find_name o).
Proof. intros H. split; auto. split; auto. split; auto. right. left. split; auto. exists o. auto. Qed.
Lemma walks_seq c1 c2 o1 o2 w1 w2 : walks c1 o1 w1 -> walks c2 o2 w2 -> walks (c1 + c2) (o1 ++ o2) (fun w => w2 (w1 w)).
Proof.
  intros (A1 & A2 & A3 & A5) (B1 & B2 & B3 & B5). split; [now rewrite A1|]. split; [|split].
  - intros o. rewrite A2. destruct c1; simpl; auto.
  - destruct A3 as [[-> A3] | [[-> (o & A3 & A4)] | [A0 A3]]]; rewrite A3.
    + destruct B3 as [[-> B3] | [[-> (o & B3 & B4)] | [B0 B3]]]; rewrite B3; simpl; auto.
      right. left. split; auto. exists o. split; auto. intros l. rewrite in_app_iff, B4. split; auto. intros [H | H]; auto.
      specialize (A5 l H). lia.
    + rewrite B2. destruct c2; simpl.
      * right. left. split; auto. exists o. split; auto. intros l. rewrite in_app_iff, A4. split; auto. intros [H | H]; auto.
        specialize (B5 l H). lia.
      * right. right. split; auto. lia.
    + rewrite B1. right. right. split; auto. lia.
  - intros l H. apply in_app_iff in H as [H | H]; [specialize (A5 l H) | specialize (B5 l H)]; lia.
Qed.
Lemma walk_ok_mut : (forall e, walks (cnt (wnames e) x) (occ e) (walk x e)) /\ (forall a, walks (cnt (wnames_args a) x) (occ_args a) (walk_args x a)).
Proof.
  apply expr_mutind; intros; cbn [walk walk_args wnames wnames_args occ occ_args]; rewrite ?count_occ_app, ?cnt_cons; cbn [count_occ]; auto;
    try (apply walks_seq; assumption); try (apply walks_none; intros ? []).
  - destruct (x0 =? x) eqn:Ex.
    + apply Nat.eqb_eq in Ex. subst. apply walks_find. intros l0. simpl. split; [intros E; injection E as <-; auto | intros [E | []]; injection E as <-; auto].
    + apply walks_none. intros l0 [E | []]. injection E as <- <-. now rewrite Nat.eqb_refl in Ex.
  - change (occ e) with ([] ++ occ e). destruct (x0 =? x).
    + apply (walks_seq 1 _ [] _ (find_name None)); auto. apply walks_find. intros l. split; [discriminate | intros []].
    + apply (walks_seq 0 _ [] _ (fun w => w)); auto. apply walks_none. intros l [].
Qed.
Lemma mark_ok e l : In l (mark x e) <-> In (l, x) (occ e) /\ cnt (wnames e) x = 1.
Proof.
  unfold mark. destruct (proj1 walk_ok_mut e) as (_ & _ & [[H0 H] | [[H1 (o & H2 & H3)] | [H0 H]]] & H5); rewrite ?H, ?H2;
    try (split; [intros [] | intros [_ X]; lia]).
  rewrite <- H3. destruct o as [l'|]; simpl; split; try tauto.
  - intros [<- | []]. auto.
  - intros [E _]. injection E as <-. auto.
  - intros [E _]. discriminate.
Qed.
End Walk.
Lemma mark_once x e l : alone e -> In l (mark x e) <-> In (l, x) (occ e) /\ cnt (names e) x = 1.
Proof.
  intros HA. rewrite mark_ok. pose proof (proj1 (cnt_names_mut x) e) as E. split; intros [H1 H2]; split; auto.
  - destruct (in_dec Nat.eq_dec x (call_gen e)) as [Hi | Hn]; [now apply HA|]. apply (count_occ_not_In Nat.eq_dec) in Hn. lia.
  - destruct (proj1 (walk_ok_mut x) e) as (_ & _ & _ & H5). specialize (H5 l H1). lia.
Qed.

(* ---- the expressions of a body, with the node and whether the walk looks at it ---- *)
Definition ex_uses (p : exinfo) : list lab := uses (snd (fst p)).
Lemma ex_uses_mut : (forall s, flat_map ex_uses (ex_stmt s) = uses_stmt s) /\ (forall ss, flat_map ex_uses (ex_stmts ss) = uses_stmts ss).
Proof.
  assert (O : forall n o b, flat_map ex_uses (ex_opt n o b) = uses_opt o) by (intros n [e|] b; simpl; rewrite ?app_nil_r; auto).
  assert (J : forall i, flat_map ex_uses (ex_init i) = uses_init i) by (intros [[x e]|]; simpl; rewrite ?app_nil_r; auto).
  apply stmt_mutind; cbn [ex_stmt ex_stmts uses_stmt uses_stmts]; intros; auto; rewrite ?flat_map_app; cbn [flat_map]; rewrite ?flat_map_app, ?O, ?J, ?H, ?H0, ?app_nil_r; auto.
Qed.
Lemma ex_walked_mut : (forall s n e, In (n, e) (walked_stmt s) -> In (n, e, true) (ex_stmt s)) /\
  (forall ss n e, In (n, e) (walked_stmts ss) -> In (n, e, true) (ex_stmts ss)).
Proof.
  assert (J : forall i n e, In (n, e) (walked_init i) -> In (n, e, true) (ex_init i)).
  { intros [[x e0]|] n e; simpl; [|tauto]. intros [H | []]. injection H as <- <-. auto. }
  apply stmt_mutind; simpl; intros; try contradiction; try (destruct H as [H | []]; injection H as <- <-; auto; fail);
    rewrite ?in_app_iff in *; cbn [In] in *; rewrite ?in_app_iff in *.
  - destruct i as [e0|]; simpl in *; [|tauto]. destruct H as [H | []]. injection H as <- <-. auto.
  - destruct H1 as [H1 | [H1 | [H1 | H1]]]; auto. injection H1 as <- <-. auto.
  - destruct H1 as [H1 | [H1 | [H1 | H1]]]; auto. injection H1 as <- <-. auto.
  - destruct H1 as [H1 | H1]; auto.
  - destruct e as [e1|]; simpl in *; [|tauto]. destruct H as [H | []]. injection H as <- <-. auto.
  - auto.
  - destruct H1 as [H1 | H1]; auto.
Qed.
Lemma ex_walked2_mut : (forall s n e, In (n, e, true) (ex_stmt s) -> In (n, e) (walked_stmt s)) /\
  (forall ss n e, In (n, e, true) (ex_stmts ss) -> In (n, e) (walked_stmts ss)).
Proof.
  assert (J : forall i n e, In (n, e, true) (ex_init i) -> In (n, e) (walked_init i)).
  { intros [[x e0]|] n e; simpl; [|tauto]. intros [H | []]. injection H as <- <-. auto. }
  apply stmt_mutind; simpl; intros; try contradiction; try (destruct H as [H | []]; injection H as <- <-; auto; fail);
    rewrite ?in_app_iff in *; cbn [In] in *; rewrite ?in_app_iff in *.
  - destruct i as [e9|]; simpl in *; [|tauto]. destruct H as [H | []]. injection H as <- <-. auto.
  - destruct H1 as [H1 | [H1 | [H1 | H1]]]; auto. injection H1 as <- <-. auto.
  - destruct H1 as [H1 | [H1 | [H1 | H1]]]; auto. injection H1 as <- <-. auto.
  - destruct H1 as [H1 | H1]; auto.
  - destruct e as [e9|]; simpl in *; [|tauto]. destruct H as [H | []]. injection H as <- <-. auto.
  - destruct e as [e9|]; simpl in *; [|tauto]. destruct H as [H | []]. discriminate.
  - auto.
  - destruct H1 as [H1 | H1]; auto.
Qed.
Lemma ex_info_mut : (forall s n e b, In (n, e, b) (ex_stmt s) -> exists t, In (n, t) (info_stmt s) /\ t_read t = names e) /\
  (forall ss n e b, In (n, e, b) (ex_stmts ss) -> exists t, In (n, t) (info ss) /\ t_read t = names e).
Proof.
  assert (J : forall i n e b, In (n, e, b) (ex_init i) -> exists t, In (n, t) (init_info i) /\ t_read t = names e).
  { intros [[x e0]|] n e b; simpl; [|tauto]. intros [H | []]. injection H as <- <- <-. eauto. }
  assert (R : forall l o n e b, In (n, e, b) (ex_opt (NStmt l) o b) -> exists t, In (n, t) [(NStmt l, tr_kept o)] /\ t_read t = names e).
  { intros l [e0|] n e b; simpl; [|tauto]. intros [H | []]. injection H as <- <-. eauto. }
  apply stmt_mutind; cbn [ex_stmt ex_stmts info_stmt info]; intros; try contradiction;
    try (destruct H as [H | []]; injection H as <- <- <-; eexists; split; [left; reflexivity | reflexivity]; fail).
  - destruct i as [e9|]; simpl in *; [|tauto]. destruct H as [H | []]. injection H as <- <- <-. eexists; split; [left; reflexivity | reflexivity].
  - apply in_app_iff in H1 as [H1 | [H1 | H1]].
    + destruct (J _ _ _ _ H1) as (t1 & T1 & T2). exists t1. rewrite in_app_iff. auto.
    + injection H1 as <- <- <-. eexists. rewrite in_app_iff. split; [right; left; reflexivity | reflexivity].
    + apply in_app_iff in H1 as [H1 | H1]; [destruct (H _ _ _ H1) as (t1 & T1 & T2) | destruct (H0 _ _ _ H1) as (t1 & T1 & T2)];
        exists t1; rewrite in_app_iff; simpl; rewrite in_app_iff; auto.
  - apply in_app_iff in H1 as [H1 | [H1 | H1]].
    + destruct (J _ _ _ _ H1) as (t1 & T1 & T2). exists t1. rewrite in_app_iff. auto.
    + injection H1 as <- <- <-. eexists. rewrite in_app_iff. split; [right; left; reflexivity | reflexivity].
    + apply in_app_iff in H1 as [H1 | H1]; [destruct (H _ _ _ H1) as (t1 & T1 & T2) | destruct (H0 _ _ _ H1) as (t1 & T1 & T2)];
        exists t1; rewrite in_app_iff; simpl; rewrite in_app_iff; auto.
  - apply in_app_iff in H1 as [H1 | H1]; [destruct (H _ _ _ H1) as (t1 & T1 & T2) | destruct (H0 _ _ _ H1) as (t1 & T1 & T2)];
        exists t1; rewrite in_app_iff; auto.
  - destruct e as [e9|]; simpl in *; [|tauto]. destruct H as [H | []]. injection H as <- <- <-. eexists; split; [left; reflexivity | reflexivity].
  - destruct e as [e9|]; simpl in *; [|tauto]. destruct H as [H | []]. injection H as <- <- <-. eexists; split; [left; reflexivity | reflexivity].
  - eauto.
  - apply in_app_iff in H1 as [H1 | H1]; [destruct (H _ _ _ H1) as (t1 & T1 & T2) | destruct (H0 _ _ _ H1) as (t1 & T1 & T2)];
        exists t1; rewrite in_app_iff; auto.
Qed.
Lemma ex_alone_mut : (forall s, each mv_cond s -> forall n e, In (n, e, true) (ex_stmt s) -> alone e) /\
  (forall ss, each_of mv_cond ss -> forall n e, In (n, e, true) (ex_stmts ss) -> alone e).
Proof.
  apply stmt_mutind; simpl; intros; try contradiction;
    rewrite ?in_app_iff in *; cbn [In] in *; rewrite ?in_app_iff in *.
  - destruct H as [H _]. destruct H0 as [H0 | []]. injection H0 as <- <-. auto.
  - destruct H as [H _]. destruct H0 as [H0 | []]. injection H0 as <- <-. auto.
  - destruct H as [H _]. destruct i as [e9|]; simpl in *; [|tauto]. destruct H0 as [H0 | []]. injection H0 as <- <-. auto.
  - destruct H1 as ((H1 & H3) & H4 & H5). destruct H2 as [H2 | [H2 | [H2 | H2]]]; eauto.
    + destruct i as [[y ey]|]; simpl in *; [|tauto]. destruct H2 as [H2 | []]. injection H2 as <- <-. auto.
    + injection H2 as <- <-. auto.
  - destruct H1 as ((H1 & H3) & H4 & H5). destruct H2 as [H2 | [H2 | [H2 | H2]]]; eauto.
    + destruct i as [[y ey]|]; simpl in *; [|tauto]. destruct H2 as [H2 | []]. injection H2 as <- <-. auto.
    + injection H2 as <- <-. auto.
  - destruct H1 as (_ & H4 & H5). destruct H2 as [H2 | H2]; eauto.
  - destruct H as [H _]. destruct e as [e9|]; simpl in *; [|tauto]. destruct H0 as [H0 | []]. injection H0 as <- <-. auto.
  - destruct e as [e9|]; simpl in *; [|tauto]. destruct H0 as [H0 | []]. discriminate.
  - destruct H as [H _]. destruct H0 as [H0 | []]. injection H0 as <- <-. auto.
  - destruct H0 as [_ H0]. eauto.
  - destruct H1 as [H3 H4]. destruct H2 as [H2 | H2]; eauto.
Qed.
Lemma nodup_flat {A B} (h : A -> list B) l : NoDup (flat_map h l) -> forall a b y, In a l -> In b l -> In y (h a) -> In y (h b) -> a = b.
Proof.
  induction l as [|c l IH]; simpl; [tauto|]. intros N a b y Ha Hb Ya Yb.
  assert (D : forall z, In z (h c) -> ~ In z (flat_map h l)).
  { clear -N. intros z H1 H2. induction (h c) as [|w r IHr]; [destruct H1|]. simpl in N. inversion N as [|? ? N1 N2]; subst.
    destruct H1 as [-> | H1]; [|auto]. apply N1, in_app_iff. auto. }
  assert (N2 : NoDup (flat_map h l)) by (clear -N; induction (h c); simpl in N; auto; inversion N; auto).
  destruct Ha as [-> | Ha], Hb as [-> | Hb]; auto.
  - destruct (D y Ya). apply in_flat_map. eauto.
  - destruct (D y Yb). apply in_flat_map. eauto.
  - eapply IH; eauto.
Qed.
Lemma nodup_part {A B} (h : A -> list B) l a : NoDup (flat_map h l) -> In a l -> NoDup (h a).
Proof.
  induction l as [|c l IH]; simpl; [tauto|]. intros N Ha.
  assert (N2 : NoDup (h c) /\ NoDup (flat_map h l)).
  { clear -N. induction (h c) as [|w r IHr]; simpl in N; [split; [constructor | auto]|]. inversion N as [|? ? N1 N2]; subst.
    destruct (IHr N2). split; auto. constructor; auto. intros H1. apply N1, in_app_iff. auto. }
  destruct Ha as [-> | Ha]; [apply N2 | apply IH; [apply N2 | auto]].
Qed.
Lemma nodup_fst {A B} (l : list (A * B)) a b b' : NoDup (map fst l) -> In (a, b) l -> In (a, b') l -> b = b'.
Proof.
  induction l as [|[c d] l IH]; simpl; [tauto|]. intros N [H1 | H1] [H2 | H2]; inversion N as [|? ? N1 N2]; subst.
  - congruence.
  - injection H1 as -> ->. destruct N1. apply in_map_iff. exists (a, b'). auto.
  - injection H2 as -> ->. destruct N1. apply in_map_iff. exists (a, b). auto.
  - eauto.
Qed.

(* What is moved, seen from a node of the graph. *)
Section Moved.
Variable f : func.
Variable fuel : nat.
Variable r : lres.
Variable HS : lsolve f fuel = Some r.
Variable HA : each_of mv_cond (f_body f).
Variable HN : NoDup (uses_stmts (f_body f)).
Notation g := (build f).
Notation tr := (transfer_of f).
Theorem moved_facts n e b l x : leads g NStart n -> In (n, e, b) (ex_stmts (f_body f)) -> In (l, x) (occ e) -> In l (moveable f r) ->
  b = true /\ In x (decls (f_body f)) /\ cnt (names e) x = 1 /\ ~ needed_after g tr x n.
Proof.
  intros Hr Hx Ho Hm. apply in_flat_map in Hm as ((n' & e') & Hp & Hl). unfold moves_at in Hl. simpl in Hl.
  destruct (l_out r n') as [out|] eqn:Eo; [|destruct Hl]. apply in_flat_map in Hl as (x' & Hx' & Hl).
  destruct (negb (mem x' out) && mem x' (decls (f_body f))) eqn:B; [|destruct Hl]. apply andb_true_iff in B as [B1 B2].
  apply negb_true_iff, mem_not in B1. apply mem_in in B2. apply ex_walked_mut in Hp.
  pose proof (proj2 ex_alone_mut _ HA _ _ Hp) as Al. apply (mark_once _ _ _ Al) in Hl as [Ho' Hc].
  rewrite <- (proj2 ex_uses_mut) in HN.
  assert (U : forall l x e, In (l, x) (occ e) -> In l (uses e)) by (intros l0 x0 e0 H0; rewrite <- (proj1 occ_uses_mut); apply in_map_iff; exists (l0, x0); auto).
  assert (Eq : (n, e, b) = (n', e', true)) by (eapply (nodup_flat ex_uses); [exact HN | exact Hx | exact Hp | eapply U; eauto | eapply U; eauto]).
  injection Eq as -> -> ->. assert (x' = x).
  { eapply nodup_fst; [|exact Ho' | exact Ho]. rewrite (proj1 occ_uses_mut). exact (nodup_part ex_uses _ _ HN Hp). }
  subst x'. split; auto. split; auto. split; auto. intros Hne. apply B1.
  eapply (proj2 (lsolve_some f fuel r HS n' out Eo)); [exact Hne | exact Hr].
Qed.
Theorem moved_exactly n e l x : NoDup (map fst (info (f_body f))) -> leads g NStart n -> In (n, e, true) (ex_stmts (f_body f)) -> In (l, x) (occ e) ->
  In x (decls (f_body f)) -> cnt (names e) x = 1 -> ~ needed_after g tr x n -> In l (moveable f r).
Proof.
  intros HI Hr Hx Ho HD Hc Hn. apply in_flat_map. exists (n, e). split; [now apply ex_walked2_mut|]. unfold moves_at. simpl.
  destruct (lsolve_exact f fuel r HS n Hr) as (out & -> & Eo). apply in_flat_map. exists x. split.
  - destruct (proj2 ex_info_mut _ _ _ _ Hx) as (t & T1 & T2). rewrite (transfer_of_in f n t HI T1), T2. now apply occ_names in Ho.
  - apply mem_in in HD. rewrite HD. assert (B : mem x out = false) by (apply mem_not; intros X; apply Hn; now apply Eo).
    rewrite B. simpl. apply (mark_once x e l); auto. exact (proj2 ex_alone_mut _ HA _ _ Hx).
Qed.
End Moved.
