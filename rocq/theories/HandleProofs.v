(** * Proofs about HILTI references *)
From Coq Require Import List Arith Bool Lia.
From Verif Require Import HandleModel HandleSpec.
Import ListNotations.

(** ** Lists *)
Lemma upd_length : forall A (l : list A) i x, length (upd l i x) = length l.
Proof. induction l; destruct i; simpl; intros; auto. Qed.

Lemma upd_eq : forall A (l : list A) i x, i < length l -> nth_error (upd l i x) i = Some x.
Proof.
  induction l; intros i x H; [simpl in H; lia|].
  destruct i; simpl; auto. apply IHl. simpl in H. lia.
Qed.

Lemma upd_neq : forall A (l : list A) i j x, i <> j -> nth_error (upd l i x) j = nth_error l j.
Proof.
  induction l; intros i j x H; destruct i, j; simpl; auto; try congruence.
Qed.

Lemma upd_nth_neq : forall A (l : list A) i j x d, i <> j -> nth j (upd l i x) d = nth j l d.
Proof.
  induction l; intros i j x d H; destruct i, j; simpl; auto; try congruence.
Qed.

Lemma upd_nth_eq : forall A (l : list A) i x d, i < length l -> nth i (upd l i x) d = x.
Proof.
  induction l; intros i x d H; [simpl in H; lia|].
  destruct i; simpl; auto. apply IHl. simpl in H. lia.
Qed.

Lemma upd_out : forall A (l : list A) i x, length l <= i -> upd l i x = l.
Proof.
  induction l; intros i x H; destruct i; simpl in *; auto; try lia. f_equal. apply IHl. lia.
Qed.

Section P.
Context {V : Type}.
Variable dflt : V.
Variable veqb : V -> V -> bool.
Notation state := (state V).
Notation cell := (cell V).
Notation op := (op V).
Notation step := (step dflt veqb).
Notation run := (run dflt veqb).

Definition counted (cs : list cell) (c : nat) : Prop :=
  exists v n, nth_error cs c = Some (mkCell v (Counted n)).

(** ** Effects on cells *)
Lemma count_other : forall f p (cs : list cell) c, p <> Some c ->
  nth_error (count f p cs) c = nth_error cs c.
Proof.
  intros f [d|] cs c H; simpl; auto.
  destruct (nth_error cs d); auto. apply upd_neq. congruence.
Qed.

Lemma count_same : forall f (cs : list cell) c,
  nth_error (count f (Some c) cs) c = option_map (bump f) (nth_error cs c).
Proof.
  intros f cs c. simpl. destruct (nth_error cs c) eqn:E; simpl.
  - apply upd_eq. apply nth_error_Some. congruence.
  - exact E.
Qed.

Lemma count_length : forall f p (cs : list cell), length (count f p cs) = length cs.
Proof.
  intros f [d|] cs; simpl; auto. destruct (nth_error cs d); auto. apply upd_length.
Qed.

(** same values, same kinds; counts may differ *)
Definition sim_cell (x y : cell) : Prop :=
  c_val x = c_val y /\
  match c_life x, c_life y with
  | Counted _, Counted _ => True
  | Local a, Local b => a = b
  | _, _ => False
  end.
Definition sim (cs cs' : list cell) : Prop :=
  forall c, match nth_error cs c, nth_error cs' c with
            | Some x, Some y => sim_cell x y
            | None, None => True
            | _, _ => False
            end.

Lemma sim_cell_refl : forall x, sim_cell x x.
Proof. intros [v [n|b]]; split; simpl; auto. Qed.
Lemma sim_refl : forall cs, sim cs cs.
Proof. intros cs c. destruct (nth_error cs c); auto using sim_cell_refl. Qed.

Lemma sim_cell_trans : forall x y z, sim_cell x y -> sim_cell y z -> sim_cell x z.
Proof.
  intros [v l] [w m] [u k] [A B] [C D]. split; simpl in *; [congruence|].
  destruct l, m, k; auto; try contradiction. congruence.
Qed.
Lemma sim_trans : forall a b c, sim a b -> sim b c -> sim a c.
Proof.
  intros a b c H K i. specialize (H i). specialize (K i).
  destruct (nth_error a i), (nth_error b i), (nth_error c i); auto; try contradiction.
  eapply sim_cell_trans; eauto.
Qed.

Lemma sim_bump : forall f x, sim_cell x (bump f x).
Proof. intros f [v [n|b]]; split; simpl; auto. Qed.

Lemma sim_count : forall f p cs, sim cs (count f p cs).
Proof.
  intros f [d|] cs; [|apply sim_refl]. intros c.
  destruct (Nat.eq_dec d c) as [->|NE].
  - rewrite count_same. destruct (nth_error cs c); simpl; auto. apply sim_bump.
  - rewrite count_other by congruence. apply sim_refl.
Qed.

Lemma sim_counted : forall cs cs' c, sim cs cs' -> counted cs c -> counted cs' c.
Proof.
  intros cs cs' c H (v & n & E). specialize (H c). rewrite E in H.
  destruct (nth_error cs' c) as [[w [m|b]]|] eqn:E'; try contradiction.
  - unfold counted. rewrite E'. eauto.
  - destruct H as [_ H]. contradiction.
Qed.

Lemma sim_lt : forall cs cs' c, sim cs cs' -> c < length cs -> c < length cs'.
Proof.
  intros cs cs' c H L. specialize (H c). apply nth_error_Some in L.
  destruct (nth_error cs c); [|congruence].
  destruct (nth_error cs' c) eqn:E; [|contradiction].
  apply nth_error_Some. congruence.
Qed.

(** ** Well-formed states *)
Definition ok_ref (cs : list cell) (r : ref) : Prop :=
  match r with
  | RV (VShared (Some c)) | RS (Some c) | RW (Some c) | RG (Some (Some c)) => counted cs c
  | RV (VRaw (Some c)) => c < length cs
  | _ => True
  end.

Definition b2n (b : bool) : nat := if b then 1 else 0.
Fixpoint owners (l : list ref) (c : nat) : nat :=
  match l with [] => 0 | r :: t => b2n (manages r c) + owners t c end.

Definition WF (st : state) : Prop :=
  (forall c v n, nth_error (cells st) c = Some (mkCell v (Counted n)) -> n = owners (slots st) c) /\
  (forall r, In r (slots st) -> ok_ref (cells st) r).

Lemma rown_manages : forall r c, manages r c = true <-> rown r = Some c.
Proof.
  intros r c. destruct r as [[[p|]|[p|]]|[p|]|[p|]|[[p|]|]|]; simpl; split; intros H; try discriminate.
  all: try (apply Nat.eqb_eq in H; congruence).
  all: injection H as ->; apply Nat.eqb_refl.
Qed.

Lemma owners_app : forall l m c, owners (l ++ m) c = owners l c + owners m c.
Proof. induction l; simpl; intros; auto. rewrite IHl. lia. Qed.

Lemma owners_upd : forall l i r c, i < length l ->
  owners (upd l i r) c + b2n (manages (nth i l RDead) c) = owners l c + b2n (manages r c).
Proof.
  induction l; intros i r c H; [simpl in H; lia|].
  destruct i; simpl; [lia|]. simpl in H. specialize (IHl i r c). lia.
Qed.

Lemma owners_pos : forall (st : state) c, managed st c = (0 <? owners (slots st) c).
Proof.
  intros st c. unfold managed. induction (slots st) as [|r t IH]; simpl; auto.
  rewrite IH. destruct (manages r c); simpl; auto.
Qed.

Lemma owners_zero : forall l c, (forall r, In r l -> rown r <> Some c) -> owners l c = 0.
Proof.
  induction l; simpl; intros c H; auto.
  rewrite IHl by (intros; apply H; auto).
  destruct (manages a c) eqn:E; auto. apply rown_manages in E. exfalso. apply (H a); auto.
Qed.

Lemma ok_rown : forall cs r c, ok_ref cs r -> rown r = Some c -> counted cs c.
Proof.
  intros cs r c H E. destruct r as [[[p|]|[p|]]|[p|]|[p|]|[[p|]|]|]; simpl in *; congruence.
Qed.

Lemma ok_sim : forall cs cs' r, sim cs cs' -> ok_ref cs r -> ok_ref cs' r.
Proof.
  intros cs cs' r S H.
  destruct r as [[[p|]|[p|]]|[p|]|[p|]|[[p|]|]|]; simpl in *; auto;
    try (eapply sim_counted; eauto); eapply sim_lt; eauto.
Qed.

Lemma counted_app : forall cs x c, counted cs c -> counted (cs ++ x) c.
Proof.
  intros cs x c (v & n & E). exists v, n. rewrite nth_error_app1; auto.
  apply nth_error_Some. congruence.
Qed.

Lemma counted_lt : forall (cs : list cell) c, counted cs c -> c < length cs.
Proof. intros cs c (v & n & E). apply nth_error_Some. congruence. Qed.

Lemma ok_app : forall cs x r, ok_ref cs r -> ok_ref (cs ++ x) r.
Proof.
  intros cs x r H.
  destruct r as [[[p|]|[p|]]|[p|]|[p|]|[[p|]|]|]; simpl in *; auto using counted_app.
  rewrite app_length. lia.
Qed.

Lemma init_WF : WF init.
Proof. split; simpl; [intros c v m H; destruct c; discriminate | intros; contradiction]. Qed.

Lemma slot_in : forall (st : state) i, slot st i <> RDead -> i < length (slots st) /\ In (slot st i) (slots st).
Proof.
  intros st i H. unfold slot in *.
  destruct (Nat.lt_ge_cases i (length (slots st))) as [L|L].
  - split; auto. apply nth_In; auto.
  - rewrite nth_overflow in H; [congruence|lia].
Qed.

Lemma slot_ok : forall (st : state) i, WF st -> ok_ref (cells st) (slot st i).
Proof.
  intros st i [_ W]. destruct (slot st i) eqn:E; [| | | |exact Logic.I];
    rewrite <- E; apply W; apply slot_in; congruence.
Qed.

Lemma WF_alloc : forall (st : state) v, WF st -> WF (alloc st v).
Proof.
  intros st v [A B]. split; simpl.
  - intros c w n H.
    destruct (Nat.lt_ge_cases c (length (cells st))) as [L|L].
    + rewrite nth_error_app1 in H by auto. eauto.
    + rewrite nth_error_app2 in H by auto.
      destruct (c - length (cells st)) as [|k] eqn:K; simpl in H; [|destruct k; discriminate].
      injection H as _ H. subst n. symmetry. apply owners_zero. intros r I E.
      apply B in I. apply (ok_rown _ _ _ I) in E. apply counted_lt in E. lia.
  - intros r I. apply ok_app; auto.
Qed.

Lemma nth_alloc : forall (st : state) v, nth_error (cells (alloc st v)) (fresh st) = Some (mkCell v (Counted 0)).
Proof.
  intros. unfold alloc, fresh; simpl. rewrite nth_error_app2, Nat.sub_diag by auto. reflexivity.
Qed.

Lemma fresh_ok : forall (st : state) v, counted (cells (alloc st v)) (fresh st).
Proof. intros. unfold counted. rewrite nth_alloc. eauto. Qed.

Lemma WF_push : forall st r, WF st -> ok_ref (cells st) r -> WF (push st r).
Proof.
  intros st r [A B] K. split; simpl.
  - intros c v n H. rewrite owners_app. simpl.
    destruct (manages r c) eqn:E; simpl.
    + apply rown_manages in E. rewrite E in H. rewrite count_same in H.
      destruct (nth_error (cells st) c) as [[w [m|b]]|] eqn:N; simpl in H; try discriminate.
      injection H as -> <-. rewrite (A _ _ _ N). lia.
    + rewrite count_other in H by (intros X; apply rown_manages in X; congruence).
      rewrite (A _ _ _ H). lia.
  - intros x I. apply in_app_or in I. apply (ok_sim (cells st)); [apply sim_count|].
    destruct I as [I|[<-|[]]]; auto.
Qed.

Lemma WF_put : forall st i r, WF st -> i < length (slots st) -> ok_ref (cells st) r -> WF (put st i r).
Proof.
  intros st i r [A B] L K. unfold put. split; simpl.
  - intros c v n H.
    pose proof (owners_upd (slots st) i r c L) as O. fold (slot st i) in O.
    assert (G : forall m v, nth_error (count S (rown r) (cells st)) c = Some (mkCell v (Counted m)) ->
                m = owners (slots st) c + b2n (manages r c)).
    { intros m w G. destruct (manages r c) eqn:E; simpl.
      - apply rown_manages in E. rewrite E in G. rewrite count_same in G.
        destruct (nth_error (cells st) c) as [[u [k|b]]|] eqn:N; simpl in G; try discriminate.
        injection G as -> <-. rewrite (A _ _ _ N). lia.
      - rewrite count_other in G by (intros X; apply rown_manages in X; congruence).
        rewrite (A _ _ _ G). lia. }
    destruct (manages (slot st i) c) eqn:E; simpl in *.
    + apply rown_manages in E. rewrite E in H. rewrite count_same in H.
      destruct (nth_error (count S (rown r) (cells st)) c) as [[u [k|b]]|] eqn:N; simpl in H; try discriminate.
      injection H as -> <-. rewrite (G _ _ eq_refl). lia.
    + rewrite count_other in H by (intros X; apply rown_manages in X; congruence).
      rewrite (G _ _ H). lia.
  - intros x I.
    apply (ok_sim (count S (rown r) (cells st))); [apply sim_count|].
    apply (ok_sim (cells st)); [apply sim_count|].
    apply In_nth_error in I. destruct I as [j J].
    destruct (Nat.eq_dec i j) as [<-|NE].
    + rewrite upd_eq in J by auto. injection J as <-. exact K.
    + rewrite upd_neq in J by auto. apply nth_error_In in J. auto.
Qed.

Lemma WF_cells : forall st cs, WF st -> length cs = length (cells st) ->
  (forall c v n, nth_error cs c = Some (mkCell v (Counted n)) -> exists w, nth_error (cells st) c = Some (mkCell w (Counted n))) ->
  (forall c, counted (cells st) c -> counted cs c) ->
  WF (mkSt cs (slots st)).
Proof.
  intros st cs [A B] L H K. split; simpl.
  - intros c v n E. apply H in E. destruct E as [w E]. eauto.
  - intros r I. apply B in I.
    destruct r as [[[p|]|[p|]]|[p|]|[p|]|[[p|]|]|]; simpl in *; auto. lia.
Qed.

Lemma write_inv : forall st c v (st' : state), write st c v = Some st' ->
  exists w l, nth_error (cells st) c = Some (mkCell w l) /\ lalive l = true /\
              st' = mkSt (upd (cells st) c (mkCell v l)) (slots st).
Proof.
  intros st c v st' H. unfold write in H.
  destruct (nth_error (cells st) c) as [[w l]|]; [|discriminate]. simpl in H.
  destruct (lalive l) eqn:E; [|discriminate]. injection H as <-. eauto.
Qed.

Lemma WF_upd : forall st c v w l l', WF st -> nth_error (cells st) c = Some (mkCell w l) ->
  (match l, l' with Counted n, Counted m => n = m | Local _, Local _ => True | _, _ => False end) ->
  WF (mkSt (upd (cells st) c (mkCell v l')) (slots st)).
Proof.
  intros st c v w l l' W E M.
  assert (L : c < length (cells st)) by (apply nth_error_Some; congruence).
  apply WF_cells; auto.
  - apply upd_length.
  - intros d u n H. destruct (Nat.eq_dec c d) as [<-|NE].
    + rewrite upd_eq in H by auto. injection H as <- ->.
      destruct l; [|contradiction]. subst. eauto.
    + rewrite upd_neq in H by auto. eauto.
  - intros d (u & n & H). unfold counted. destruct (Nat.eq_dec c d) as [<-|NE].
    + rewrite upd_eq by auto. rewrite E in H. injection H as <- ->.
      destruct l'; [|contradiction]. eauto.
    + rewrite upd_neq by auto. eauto.
Qed.

Lemma WF_write : forall st c v st', WF st -> write st c v = Some st' -> WF st'.
Proof.
  intros st c v st' W H. apply write_inv in H. destruct H as (w & l & E & _ & ->).
  eapply WF_upd; eauto. destruct l; auto.
Qed.

Lemma write_slots : forall (st : state) c v st', write st c v = Some st' -> slots st' = slots st.
Proof. intros st c v st' H. apply write_inv in H. destruct H as (w & l & _ & _ & ->). reflexivity. Qed.

Lemma write_slot : forall (st : state) c v st' i, write st c v = Some st' -> slot st' i = slot st i.
Proof. intros. unfold slot. erewrite write_slots; eauto. Qed.

Lemma WF_local : forall st v, WF st -> WF (mkSt (cells st ++ [mkCell v (Local true)]) (slots st)).
Proof.
  intros st v [A B]. split; simpl.
  - intros c w n H.
    destruct (Nat.lt_ge_cases c (length (cells st))) as [L|L].
    + rewrite nth_error_app1 in H by auto. eauto.
    + rewrite nth_error_app2 in H by auto.
      destruct (c - length (cells st)) as [|k] eqn:K; simpl in H; [|destruct k]; discriminate.
  - intros r I. apply ok_app; auto.
Qed.

Lemma asShared_ok : forall st x p, WF st -> ok_ref (cells st) (RV x) -> asShared st x = Some (inl p) ->
  ok_ref (cells st) (RS p) /\ ok_ref (cells st) (RW p).
Proof.
  intros st x p W K H. destruct x as [q|[c|]]; simpl in H.
  - injection H as <-. split; exact K.
  - destruct (nth_error (cells st) c) as [[v l]|] eqn:E; [|discriminate]. simpl in H.
    destruct (lalive l); [|discriminate]. destruct l; [|discriminate]. injection H as <-.
    split; simpl; unfold counted; eauto.
  - discriminate.
Qed.

Lemma lock_ok : forall st p, ok_ref (cells st) (RW p) -> ok_ref (cells st) (RV (VShared (lock st p))).
Proof. intros st [c|] K; simpl; auto. destruct (alive st c); simpl; auto. Qed.

Lemma push_slot : forall (st : state) r i, i < length (slots st) -> slot (push st r) i = slot st i.
Proof. intros. unfold slot, push; simpl. apply app_nth1; auto. Qed.

Lemma push_len : forall (st : state) r, length (slots (push st r)) = S (length (slots st)).
Proof. intros. unfold push; simpl. rewrite app_length; simpl. lia. Qed.
Lemma put_len : forall (st : state) i r, length (slots (put st i r)) = length (slots st).
Proof. intros. unfold put; simpl. apply upd_length. Qed.

Lemma alive_lt : forall (st : state) c, alive st c = true -> c < length (cells st).
Proof.
  intros st c H. unfold alive in H. apply nth_error_Some.
  destruct (nth_error (cells st) c); congruence.
Qed.

Ltac lt_slot :=
  match goal with
  | E : slot ?st ?i = _ |- ?i < length (slots ?st) => apply (slot_in st i); rewrite E; discriminate
  | E : slot ?st ?i = _ |- ?i < length (slots (alloc ?st _)) => apply (slot_in st i); rewrite E; discriminate
  | E : slot ?st ?i = _ |- ?i < length (slots (push ?st _)) =>
      rewrite push_len; apply Nat.lt_lt_succ_r; apply (slot_in st i); rewrite E; discriminate
  | E : slot ?st ?i = _ |- ?i < length (slots (put ?st _ _)) =>
      rewrite put_len; apply (slot_in st i); rewrite E; discriminate
  end.

Lemma slot_ok' : forall st i r, WF st -> slot st i = r -> ok_ref (cells st) r.
Proof. intros st i r W E. rewrite <- E. apply slot_ok; auto. Qed.

Ltac cases H :=
  repeat match type of H with
  | context [match ?x with _ => _ end] => destruct x eqn:?; try discriminate
  end.

Lemma step_WF : forall st o st' x, WF st -> step st o = Some (st', x) -> WF st'.
Proof.
  intros st o st' x W H.
  destruct o; unfold HandleModel.step, new, set, ret in H; cases H; injection H as <- <-;
    repeat match goal with
           | E : slot st ?i = _ |- _ =>
               lazymatch goal with
               | K : ok_ref (cells st) (slot st i) |- _ => fail
               | _ => pose proof (slot_ok st i W)
               end
           end;
    auto using WF_local.
  all: try (apply WF_push; [|first [exact Logic.I | apply fresh_ok | idtac]]; auto using WF_alloc).
  all: try (apply WF_put; [| lt_slot | first [exact Logic.I | apply fresh_ok | idtac]]; auto using WF_alloc).
  all: try (eapply WF_write; eassumption).
  all: try match goal with
    | E : slot ?s ?i = _, W : WF ?s |- ok_ref (cells ?s) _ => exact (slot_ok' s i _ W E)
    | E : slot ?s ?i = _, W : WF ?s |- ok_ref (cells ?s) _ => apply lock_ok; exact (slot_ok' s i _ W E)
    | E : slot ?s ?i = _, W : WF ?s |- WF (push ?s _) => apply WF_push; [exact W | exact (slot_ok' s i _ W E)]
    | E : slot ?s ?i = _, W : WF ?s |- WF (put ?s _ _) =>
        apply WF_put; [exact W | lt_slot | exact (slot_ok' s i _ W E)]
    | E : asShared ?s ?y = Some (inl ?p), F : slot ?s ?i = RV ?y, W : WF ?s |- _ =>
        destruct (asShared_ok s y p W (slot_ok' s i _ W F) E); assumption
    | E : alive ?s ?c = true |- _ => exact (alive_lt s c E)
    | E : write ?s ?c ?v = Some ?s', W : WF ?s |- WF (put ?s' ?q _) =>
        apply WF_put; [eapply WF_write; eauto | rewrite (write_slots _ _ _ _ E); lt_slot | exact Logic.I]
    | E : nth_error (cells ?s) ?c = Some _ |- WF (mkSt (upd _ _ _) _) =>
        eapply WF_upd; eauto; exact Logic.I
    | E : nth_error (cells ?s) ?c = Some _ |- ok_ref (cells ?s) (RV (VRaw (Some ?c))) =>
        simpl; apply nth_error_Some; congruence
    end.
Qed.

Lemma run_WF : forall ops st st' xs, WF st -> run st ops = Some (st', xs) -> WF st'.
Proof.
  induction ops as [|o ops IH]; simpl; intros st st' xs W H.
  - injection H as <- <-; auto.
  - destruct (step st o) as [[st1 x]|] eqn:E; [|discriminate].
    destruct (run st1 ops) as [[st2 ys]|] eqn:R; [|discriminate].
    injection H as <- <-. apply (IH st1 st2 ys); auto. eapply step_WF; eauto.
Qed.

(** ** Liveness *)
Lemma alive_instance : forall st c, WF st ->
  alive st c = match instance st c with Some _ => true | None => false end.
Proof.
  intros st c [A _]. unfold alive, instance.
  destruct (nth_error (cells st) c) as [[v [n|b]]|] eqn:E; simpl; auto.
  - rewrite (A _ _ _ E), owners_pos. destruct (0 <? owners (slots st) c); auto.
  - destruct b; auto.
Qed.

Lemma read_instance : forall st c, WF st -> read st c = instance st c.
Proof.
  intros st c [A _]. unfold read, instance.
  destruct (nth_error (cells st) c) as [[v [n|b]]|] eqn:E; simpl; auto.
  rewrite (A _ _ _ E), owners_pos. destruct (0 <? owners (slots st) c); auto.
Qed.

Lemma managed_slot : forall (st : state) i c, manages (slot st i) c = true -> managed st c = true.
Proof.
  intros st i c H. unfold managed. apply existsb_exists. exists (slot st i). split; auto.
  apply slot_in. intros E. rewrite E in H. discriminate.
Qed.

Lemma managed_iff : forall (st : state) c, managed st c = true <-> exists i, manages (slot st i) c = true.
Proof.
  intros st c; split.
  - intros H. apply existsb_exists in H. destruct H as (r & I & H).
    apply In_nth with (d := RDead) in I. destruct I as (i & _ & E). exists i. unfold slot. rewrite E. exact H.
  - intros (i & H). eapply managed_slot; eauto.
Qed.

Lemma strong_instance : forall st i c, WF st -> rown (slot st i) = Some c ->
  exists v, instance st c = Some v.
Proof.
  intros st i c W E.
  pose proof (ok_rown _ _ _ (slot_ok st i W) E) as (v & n & K).
  exists v. unfold instance. rewrite K.
  rewrite (managed_slot st i c); auto. apply rown_manages; auto.
Qed.

Lemma load_view : forall st i, WF st ->
  step st (Load i) =
  match view st i with
  | SeenVal v => Some (st, OVal v)
  | SeenNull => Some (st, OExn NullReference)
  | SeenExpired => Some (st, OExn ExpiredReference)
  | SeenDangling => None
  | SeenNothing => Some (st, OIll)
  end.
Proof.
  intros st i W. unfold HandleModel.step, view, ret.
  destruct (slot st i) as [[[c|]|[c|]]|[c|]|[c|]|[[c|]|]|] eqn:E; simpl; auto;
    try rewrite alive_instance by auto; rewrite ?read_instance by auto;
    destruct (instance st c) eqn:F; auto; rewrite read_instance, F by auto; auto.
Qed.


(** ** Undefined behaviour *)
Lemma view_value_dangling : forall st i x c, WF st -> slot st i = RV x -> vget x = Some c ->
  instance st c = None -> view st i = SeenDangling.
Proof.
  intros st i x c W E G F. unfold view. rewrite E. destruct x; simpl in *; subst; rewrite F; auto.
Qed.

Lemma read_none : forall st i x c, WF st -> slot st i = RV x -> vget x = Some c ->
  read st c = None -> view st i = SeenDangling.
Proof.
  intros st i x c W E G F. rewrite read_instance in F by auto. eapply view_value_dangling; eauto.
Qed.

Lemma write_read : forall (st : state) c v, write st c v = None -> read st c = None.
Proof.
  intros st c v. unfold write, read. destruct (nth_error (cells st) c); auto.
  destruct (lalive (c_life c0)); congruence.
Qed.

Lemma asShared_none : forall st i x, WF st -> slot st i = RV x -> asShared st x = None ->
  view st i = SeenDangling.
Proof.
  intros st i x W E H. destruct x as [p|[c|]]; simpl in H; try discriminate.
  apply (read_none st i (VRaw (Some c)) c); auto. unfold read.
  destruct (nth_error (cells st) c) as [y|]; auto.
  destruct (lalive (c_life y)); auto. destruct (c_life y); discriminate.
Qed.

Lemma reach_dangling : forall st i c, WF st -> reach st (slot st i) = inl (Some c) ->
  instance st c = None -> view st i = SeenDangling.
Proof.
  intros st i c W E F. unfold view, reach in *.
  destruct (slot st i) as [[[d|]|[d|]]|[d|]|[d|]|[[d|]|]|]; simpl in *; try discriminate;
    try (injection E as ->; rewrite F; reflexivity).
  rewrite alive_instance in E by auto.
  destruct (instance st d) eqn:G; try discriminate. injection E as ->. congruence.
Qed.

Lemma ub_dangling : forall st o, WF st -> step st o = None ->
  exists i, In i (names o) /\ view st i = SeenDangling.
Proof.
  intros st o W H.
  destruct o; unfold HandleModel.step, new, set, ret in H; cases H; try discriminate H; simpl names.
  all: try match goal with
    | E : slot ?s ?i = RV ?x, G : vget ?x = Some ?c, F : read ?s ?c = None , W : WF ?s |- _ =>
        exists i; split; [simpl; tauto | exact (read_none s i x c W E G F)]
    | E : slot ?s ?i = RV ?x, G : vget ?x = Some ?c, F : write ?s ?c _ = None , W : WF ?s |- _ =>
        exists i; split; [simpl; tauto | exact (read_none s i x c W E G (write_read _ _ _ F))]
    | E : slot ?s ?i = RV ?x, F : asShared ?s ?x = None , W : WF ?s |- _ =>
        exists i; split; [simpl; tauto | exact (asShared_none s i x W E F)]
    | E : reach ?s (slot ?s ?i) = inl (Some ?c), F : read ?s ?c = None , W : WF ?s |- _ =>
        exists i; split; [simpl; tauto | rewrite read_instance in F by auto; exact (reach_dangling s i c W E F)]
    | E : reach ?s (slot ?s ?i) = inl (Some ?c), F : write ?s ?c _ = None , W : WF ?s |- _ =>
        exists i; split; [simpl; tauto | apply write_read in F; rewrite read_instance in F by auto; exact (reach_dangling s i c W E F)]
    | E : reach ?s (slot ?s ?i) = inl (Some ?c), F : alive ?s ?c = false , W : WF ?s |- _ =>
        exists i; split; [simpl; tauto |
          rewrite alive_instance in F by auto; apply (reach_dangling s i c W E);
          destruct (instance s c); [discriminate|reflexivity]]
    end.
Qed.

(** *** Without wrapped [this] pointers nothing dangles *)
Definition noraw (st : state) : Prop := forall i c, slot st i <> RV (VRaw (Some c)).

Lemma push_new : forall (st : state) r, slot (push st r) (length (slots st)) = r.
Proof. intros. unfold slot, push; simpl. rewrite app_nth2, Nat.sub_diag by auto. reflexivity. Qed.

Lemma slot_over : forall (st : state) i, length (slots st) <= i -> slot st i = RDead.
Proof. intros. unfold slot. apply nth_overflow; auto. Qed.

Lemma push_any : forall (st : state) r i, slot (push st r) i =
  if i =? length (slots st) then r else slot st i.
Proof.
  intros st r i. destruct (Nat.eqb_spec i (length (slots st))) as [->|NE]; [apply push_new|].
  destruct (Nat.lt_ge_cases i (length (slots st))) as [L|L]; [apply push_slot; auto|].
  rewrite !slot_over; auto. rewrite push_len. lia.
Qed.

Lemma put_any : forall (st : state) i r j, i < length (slots st) ->
  slot (put st i r) j = if j =? i then r else slot st j.
Proof.
  intros st i r j L. unfold slot, put; simpl.
  destruct (Nat.eqb_spec j i) as [->|NE]; [apply upd_nth_eq; auto | apply upd_nth_neq; auto].
Qed.

Lemma alloc_slot : forall (st : state) v i, slot (alloc st v) i = slot st i.
Proof. reflexivity. Qed.

Lemma noraw_push : forall st r, noraw st -> (forall c, r <> RV (VRaw (Some c))) -> noraw (push st r).
Proof. intros st r H K i c. rewrite push_any. destruct (i =? _); auto. Qed.

Lemma noraw_put : forall (st : state) i r, noraw st -> (forall c, r <> RV (VRaw (Some c))) -> noraw (put st i r).
Proof.
  intros st i r H K j c. destruct (Nat.lt_ge_cases i (length (slots st))) as [L|L].
  - rewrite put_any by auto. destruct (j =? i); auto.
  - unfold slot, put; simpl. rewrite upd_out by auto. apply H.
Qed.

Lemma noraw_slots : forall (st st' : state), slots st' = slots st -> noraw st -> noraw st'.
Proof. intros st st' E H i c. unfold slot. rewrite E. apply H. Qed.

Lemma noraw_step : forall st o st' x, noraw st -> wraps_this o = false ->
  step st o = Some (st', x) -> noraw st'.
Proof.
  intros st o st' x N B H.
  destruct o; try discriminate B; clear B; unfold HandleModel.step, new, set, ret in H; cases H;
    injection H as <- <-; auto.
  all: try (eapply noraw_slots; [eapply write_slots; eassumption|]; auto; fail).
  all: repeat first [ apply noraw_push; [|intros; first [discriminate | intros [=]]]
                    | apply noraw_put; [|intros; first [discriminate | intros [=]]] ]; auto.
  all: try match goal with N : noraw ?s |- noraw _ => apply (noraw_slots s); [reflexivity | exact N] end.
  all: try (apply noraw_push; auto; intros c E; injection E as ->; eapply N; eauto; fail).
  all: try (apply noraw_put; auto; [|intros; discriminate]; eapply noraw_slots; [eapply write_slots; eassumption|]; auto; fail).
  all: try match goal with
    | E : write _ _ _ = Some ?s |- noraw ?s => eapply noraw_slots; [eapply write_slots; exact E | assumption]
    | E : slot ?s _ = RV (VRaw ?p), F : ?p = Some _, N : noraw ?s |- False => subst; eapply N; eauto
    end.
Qed.

Lemma noraw_run : forall ops st st' xs, noraw st -> forallb (fun o => negb (wraps_this o)) ops = true ->
  run st ops = Some (st', xs) -> noraw st'.
Proof.
  induction ops as [|o ops IH]; simpl; intros st st' xs W B H.
  - injection H as <- <-; auto.
  - apply andb_true_iff in B. destruct B as [B1 B2]. apply negb_true_iff in B1.
    destruct (step st o) as [[st1 x]|] eqn:E; [|discriminate].
    destruct (run st1 ops) as [[st2 ys]|] eqn:R; [|discriminate].
    injection H as <- <-. apply (IH st1 st2 ys); auto. eapply noraw_step; eauto.
Qed.

Lemma noraw_view : forall st i, WF st -> noraw st -> view st i <> SeenDangling.
Proof.
  intros st i W N H. unfold view in H.
  assert (O : forall c, rown (slot st i) = Some c -> instance st c <> None).
  { intros c E F. destruct (strong_instance st i c W E). congruence. }
  destruct (slot st i) as [[[c|]|[c|]]|[c|]|[c|]|[[c|]|]|] eqn:E; simpl in *; try discriminate.
  - destruct (instance st c) eqn:F; try discriminate. apply (O c); auto.
  - eapply N; eauto.
  - destruct (instance st c) eqn:F; try discriminate. apply (O c); auto.
  - destruct (instance st c); discriminate.
Qed.

Lemma no_ub : forall ops st, WF st -> noraw st -> forallb (fun o => negb (wraps_this o)) ops = true ->
  run st ops <> None.
Proof.
  induction ops as [|o ops IH]; simpl; intros st W NR B; [discriminate|].
  apply andb_true_iff in B. destruct B as [B1 B2]. apply negb_true_iff in B1.
  destruct (step st o) as [[st1 x]|] eqn:E.
  - specialize (IH st1 (step_WF _ _ _ _ W E) (noraw_step _ _ _ _ NR B1 E) B2).
    destruct (run st1 ops) as [[? ?]|]; congruence.
  - destruct (ub_dangling st o W E) as (i & _ & D). intros _. exact (noraw_view st i W NR D).
Qed.


(** ** Frames *)
Lemma sim_content : forall (st st' : state) c, sim (cells st) (cells st') -> content st' c = content st c.
Proof.
  intros st st' c H. specialize (H c). unfold content.
  destruct (nth_error (cells st) c), (nth_error (cells st') c); simpl; try contradiction; auto.
  destruct H as [H _]. congruence.
Qed.

Lemma push_sim : forall (st : state) r, sim (cells st) (cells (push st r)).
Proof. intros. apply sim_count. Qed.
Lemma put_sim : forall (st : state) i r, sim (cells st) (cells (put st i r)).
Proof. intros. eapply sim_trans; apply sim_count. Qed.

Lemma content_push : forall (st : state) r c, content (push st r) c = content st c.
Proof. intros. apply sim_content, push_sim. Qed.
Lemma content_put : forall (st : state) i r c, content (put st i r) c = content st c.
Proof. intros. apply sim_content, put_sim. Qed.
Lemma content_alloc : forall (st : state) v c, c < length (cells st) -> content (alloc st v) c = content st c.
Proof. intros. unfold content, alloc; simpl. rewrite nth_error_app1; auto. Qed.
Lemma content_local : forall (st : state) x c, c < length (cells st) -> content (mkSt (cells st ++ x) (slots st)) c = content st c.
Proof. intros. unfold content; simpl. rewrite nth_error_app1; auto. Qed.
Lemma content_write : forall (st : state) d v st' c, write st d v = Some st' ->
  content st' c = if c =? d then Some v else content st c.
Proof.
  intros st d v st' c H. apply write_inv in H. destruct H as (w & l & E & _ & ->).
  unfold content; simpl. destruct (Nat.eqb_spec c d) as [->|NE].
  - rewrite upd_eq; auto. apply nth_error_Some. congruence.
  - rewrite upd_neq; auto.
Qed.

Lemma instance_content : forall (st : state) c v, instance st c = Some v -> content st c = Some v.
Proof.
  intros st c v H. unfold instance, content in *.
  destruct (nth_error (cells st) c) as [[w [n|b]]|]; try discriminate; simpl.
  - destruct (managed st c); congruence.
  - destruct b; congruence.
Qed.

Lemma view_val : forall st i v, WF st -> view st i = SeenVal v ->
  exists c, target (slot st i) = Some c /\ reach st (slot st i) = inl (Some c) /\
            instance st c = Some v /\ read st c = Some v.
Proof.
  intros st i v W H. unfold view in H. 
  destruct (slot st i) as [[[c|]|[c|]]|[c|]|[c|]|[[c|]|]|]; simpl in *; try discriminate;
    destruct (instance st c) eqn:F; try discriminate; injection H as ->;
    exists c; rewrite read_instance by auto; repeat split; auto.
  rewrite alive_instance, F by auto. reflexivity.
Qed.

Lemma reach_val : forall st i c v, WF st -> reach st (slot st i) = inl (Some c) -> read st c = Some v ->
  view st i = SeenVal v /\ target (slot st i) = Some c.
Proof.
  intros st i c v W H R. rewrite read_instance in R by auto. unfold view.
  destruct (slot st i) as [[[d|]|[d|]]|[d|]|[d|]|[[d|]|]|]; simpl in *; try discriminate.
  4: destruct (alive st d); try discriminate.
  all: injection H as ->; rewrite R; auto.
Qed.

Lemma vget_target : forall x, target (RV x) = vget x.
Proof. destruct x; reflexivity. Qed.

Lemma vget_val : forall st i x c v, WF st -> slot st i = RV x -> vget x = Some c -> read st c = Some v ->
  view st i = SeenVal v /\ target (slot st i) = Some c.
Proof.
  intros st i x c v W E G R. apply reach_val; auto. rewrite E. simpl. rewrite G. reflexivity.
Qed.

Lemma write_ok : forall (st : state) c v st', write st c v = Some st' -> exists w, read st c = Some w.
Proof.
  intros st c v st' H. apply write_inv in H. destruct H as (w & l & E & L & _).
  exists w. unfold read. rewrite E; simpl. rewrite L. reflexivity.
Qed.

Lemma read_write : forall (st : state) c w v, read st c = Some w -> exists st', write st c v = Some st'.
Proof.
  intros st c w v H. unfold read, write in *. destruct (nth_error (cells st) c) as [y|]; try discriminate.
  destruct (lalive (c_life y)); try discriminate. eauto.
Qed.

Lemma put_other : forall (st : state) i r j, j <> i -> slot (put st i r) j = slot st j.
Proof. intros. unfold slot, put; simpl. apply upd_nth_neq. auto. Qed.

Lemma step_slots : forall st o st' x j, WF st -> step st o = Some (st', x) ->
  j < length (slots st) -> ~ In j (rebinds o) -> slot st' j = slot st j.
Proof.
  intros st o st' x j W H L N.
  destruct o; unfold HandleModel.step, new, set, ret in H; cases H; injection H as <- <-; auto; simpl in N.
  all: repeat match goal with
    | |- slot (push _ _) _ = _ => rewrite push_slot by assumption
    | |- slot (put _ _ _) _ = _ => rewrite put_other by (intros ->; tauto)
    | E : write _ _ _ = Some ?s |- slot ?s _ = _ => apply (write_slot _ _ _ _ _ E)
    end; auto.
Qed.

(** ** Contents *)
Lemma content_reach : forall st i c v st', WF st -> reach st (slot st i) = inl (Some c) ->
  write st c v = Some st' ->
  exists w, view st i = SeenVal w /\ target (slot st i) = Some c.
Proof.
  intros st i c v st' W R E. destruct (write_ok _ _ _ _ E) as [w K].
  exists w. apply (reach_val st i c w W R K).
Qed.

Lemma content_vget : forall st i x c v st', WF st -> slot st i = RV x -> vget x = Some c ->
  write st c v = Some st' ->
  exists w, view st i = SeenVal w /\ target (slot st i) = Some c.
Proof.
  intros st i x c v st' W F G E. destruct (write_ok _ _ _ _ E) as [w K].
  exists w. apply (vget_val st i x c w W F G K).
Qed.

Lemma step_content_other : forall st o st' x c, WF st -> step st o = Some (st', x) ->
  c < length (cells st) ->
  (forall d v w, stores st o = Some (d, v) -> view st d = SeenVal w -> target (slot st d) <> Some c) ->
  content st' c = content st c.
Proof.
  intros st o st' x c W H L N.
  destruct o; unfold HandleModel.step, new, set, ret in H; cases H; injection H as <- <-; auto.
  all: rewrite ?content_put, ?content_push; auto using content_alloc, content_local.
  all: try (rewrite content_push; auto; fail).
  all: try (rewrite content_put; auto; fail).
  - (* LocalDel *)
    unfold content; simpl. destruct (Nat.eq_dec c0 c) as [->|NE].
    + rewrite upd_eq by auto. match goal with E : nth_error _ _ = _ |- _ => rewrite E end. reflexivity.
    + rewrite upd_neq; auto.
  - (* VSetT *)
    rewrite (content_write _ _ _ _ c Heqo0). destruct (Nat.eqb_spec c n) as [->|]; auto.
    exfalso. destruct (content_vget _ _ _ _ _ _ W Heqr0 Heqo Heqo0) as (w & A & B).
    eapply N; eauto. reflexivity.
  - (* VSetV *)
    rewrite (content_write _ _ _ _ c Heqo2). destruct (Nat.eqb_spec c n0) as [->|]; auto.
    exfalso. destruct (content_vget _ _ _ _ _ _ W Heqr0 Heqo1 Heqo2) as (w & A & B).
    destruct (vget_val _ _ _ _ _ W Heqr1 Heqo Heqo0) as [C _].
    apply (N r v w); auto. simpl. rewrite C. reflexivity.
  - (* VMoveV *)
    rewrite (content_write _ _ _ _ c Heqo2). destruct (Nat.eqb_spec c n0) as [->|]; auto.
    exfalso. destruct (content_vget _ _ _ _ _ _ W Heqr0 Heqo1 Heqo2) as (w & A & B).
    destruct (vget_val _ _ _ _ _ W Heqr1 Heqo Heqo0) as [C _].
    apply (N r v w); auto. simpl. rewrite C. reflexivity.
  - (* Store *)
    rewrite (content_write _ _ _ _ c Heqo1). destruct (Nat.eqb_spec c n) as [->|]; auto.
    exfalso. destruct (content_reach _ _ _ _ _ W Heqs Heqo1) as (w & A & B).
    eapply N; eauto. reflexivity.
Qed.

Lemma step_content_stored : forall st o st' c d v w, WF st -> step st o = Some (st', ODone) ->
  stores st o = Some (d, v) -> view st d = SeenVal w -> target (slot st d) = Some c ->
  content st' c = Some v.
Proof.
  intros st o st' c d v w W H SS K T.
  destruct (view_val st d w W K) as (c' & T' & R & J & RD). rewrite T in T'. injection T' as <-.
  assert (KV : forall y, slot st d = RV y -> vget y = Some c).
  { intros y E. rewrite <- vget_target, <- E. exact T. }
  destruct o; try discriminate SS; simpl in SS; unfold HandleModel.step, new, set, ret in H.
  - (* VSetT *)
    injection SS as -> ->. destruct (slot st d) eqn:E; try discriminate H.
    rewrite (KV _ eq_refl) in H.
    destruct (write st c v) eqn:WR; [|discriminate]. injection H as <-.
    rewrite (content_write _ _ _ _ c WR), Nat.eqb_refl. reflexivity.
  - (* VSetV *)
    destruct (view st q) as [u| | | |] eqn:Q; try discriminate. injection SS as -> ->.
    destruct (view_val st q v W Q) as (c2 & T2 & _ & J2 & RD2).
    destruct (slot st d) eqn:E; try discriminate H. destruct (slot st q) eqn:F; try discriminate H.
    rewrite vget_target in T2.
    destruct (Nat.eqb_spec d q) as [->|NE].
    + injection H as <-. apply instance_content. congruence.
    + rewrite T2, RD2, (KV _ eq_refl) in H.
      destruct (write st c v) eqn:WR; [|discriminate]. injection H as <-.
      rewrite (content_write _ _ _ _ c WR), Nat.eqb_refl. reflexivity.
  - (* VMoveV *)
    destruct (view st q) as [u| | | |] eqn:Q; try discriminate. injection SS as -> ->.
    destruct (view_val st q v W Q) as (c2 & T2 & _ & J2 & RD2).
    destruct (slot st d) eqn:E; try discriminate H. destruct (slot st q) eqn:F; try discriminate H.
    rewrite vget_target in T2.
    destruct (Nat.eqb_spec d q) as [->|NE].
    + injection H as <-. apply instance_content. congruence.
    + rewrite T2, RD2, (KV _ eq_refl) in H.
      destruct (write st c v) eqn:WR; [|discriminate]. injection H as <-.
      rewrite content_put, (content_write _ _ _ _ c WR), Nat.eqb_refl. reflexivity.
  - (* Store *)
    injection SS as -> ->. rewrite R in H.
    destruct (write st c v) eqn:WR; [|discriminate]. injection H as <-.
    rewrite (content_write _ _ _ _ c WR), Nat.eqb_refl. reflexivity.
Qed.

(** ** Private instances *)
Definition private (st : state) (n c : nat) : Prop :=
  slot st n = RV (VShared (Some c)) /\ forall j, j <> n -> target (slot st j) <> Some c.

Lemma private_lt : forall st n c, WF st -> private st n c -> n < length (slots st) /\ counted (cells st) c.
Proof.
  intros st n c W [E _]. split.
  - apply slot_in. congruence.
  - pose proof (slot_ok st n W) as K. rewrite E in K. exact K.
Qed.

Lemma private_push : forall st r n c, n < length (slots st) -> private st n c -> target r <> Some c -> private (push st r) n c.
Proof.
  intros st r n c L [E P] T. split.
  - rewrite push_slot; auto.
  - intros j NE. rewrite push_any. destruct (j =? _); auto.
Qed.

Lemma private_put : forall (st : state) i r n c, i <> n -> private st n c -> target r <> Some c -> private (put st i r) n c.
Proof.
  intros st i r n c NE [E P] T. split.
  - rewrite put_other; auto.
  - intros j NJ. destruct (Nat.lt_ge_cases i (length (slots st))) as [L|L].
    + rewrite put_any by auto. destruct (j =? i); auto.
    + unfold slot, put; simpl. rewrite upd_out by auto. apply P; auto.
Qed.

Lemma private_slots : forall (st st' : state) n c, slots st' = slots st -> private st n c -> private st' n c.
Proof. intros st st' n c E [A B]. unfold private, slot in *. rewrite E. auto. Qed.

Lemma asShared_target : forall (st : state) x p, asShared st x = Some (inl p) -> p = target (RV x).
Proof.
  intros st [q|[c|]] p H; simpl in *; [congruence| |discriminate].
  destruct (nth_error (cells st) c) as [y|]; [|discriminate].
  destruct (lalive (c_life y)); [|discriminate]. destruct (c_life y); congruence.
Qed.

Lemma lock_some : forall (st : state) p c, lock st p = Some c -> p = Some c.
Proof. intros st [d|] c; simpl; [|discriminate]. destruct (alive st d); congruence. Qed.

Lemma reach_target : forall (st : state) r c, reach st r = inl (Some c) -> target r = Some c.
Proof.
  intros st r c. destruct r as [[[d|]|[d|]]|[d|]|[d|]|[[d|]|]|]; simpl; try discriminate; try congruence.
  destruct (alive st d); congruence.
Qed.

Lemma private_step : forall st o st' x n c, WF st -> private st n c -> ~ In n (names o) ->
  step st o = Some (st', x) -> private st' n c /\ content st' c = content st c.
Proof.
  intros st o st' x n c W P N H.
  destruct (private_lt st n c W P) as [L C].
  pose proof (counted_lt _ _ C) as LC.
  assert (T : forall i r, i <> n -> slot st i = r -> target r <> Some c)
    by (intros i r NE <-; apply P; auto).
  assert (FR : fresh st <> c) by (unfold fresh; lia).
  assert (PA : forall v, private (alloc st v) n c) by (intros; apply (private_slots st); auto).
  split.
  - destruct o; unfold HandleModel.step, new, set, ret in H; cases H; injection H as <- <-; auto; simpl in N.
    all: try match goal with
      | E : write _ _ _ = Some ?s |- private ?s _ _ =>
          apply (private_slots st); [exact (write_slots _ _ _ _ E) | exact P]
      end.
    all: try (apply (private_slots st); [reflexivity | exact P]).
    all: try apply private_put; try (intros ->; tauto); try apply private_push; auto; try (intros ->; tauto).
    all: simpl target; try discriminate; try congruence.
    all: try match goal with
      | T : (forall i r, _ -> slot ?s i = r -> _), E : slot ?s ?i = _ |- private (put ?s _ _) _ _ =>
          apply private_put; [intros ->; tauto | assumption |
            refine (T i _ _ E); intros ->; tauto]
      | E : write ?s _ _ = Some ?s', P : private ?s _ _ |- private ?s' _ _ =>
          apply (private_slots s); [exact (write_slots _ _ _ _ E) | exact P]
      end.
    all: intros X; try apply lock_some in X; try subst.
    all: try match goal with
      | T : (forall i r, _ -> slot ?s i = r -> _), E : slot ?s ?i = _ |- _ =>
          refine (T i _ _ E _); [intros ->; tauto | simpl; congruence]
      | T : (forall i r, _ -> slot ?s i = r -> _), E : slot ?s ?i = RV ?x, F : asShared ?s ?x = Some (inl _) |- _ =>
          apply asShared_target in F; refine (T i _ _ E _); [intros ->; tauto | congruence]
      | T : (forall i r, _ -> slot ?s i = r -> _), E : reach ?s (slot ?s ?i) = inl (Some _) |- _ =>
          apply reach_target in E; refine (T i _ _ eq_refl _); [intros ->; tauto | congruence]
      | C : counted (cells ?s) ?c, E : nth_error (cells ?s) _ = Some _ |- _ =>
          destruct C as (? & ? & C); congruence
      end.
  - apply (step_content_other st o st' x); auto.
    intros d v w SS K. apply P. intros ->. apply N.
    destruct o; try discriminate SS; simpl in SS |- *;
      try (destruct (view st q); try discriminate); injection SS as -> ->; auto.
Qed.

Lemma private_run : forall ops st st' xs n c, WF st -> private st n c ->
  (forall o, In o ops -> ~ In n (names o)) ->
  run st ops = Some (st', xs) -> WF st' /\ private st' n c /\ content st' c = content st c.
Proof.
  induction ops as [|o ops IH]; simpl; intros st st' xs n c W P N H.
  - injection H as <- <-; auto.
  - destruct (step st o) as [[st1 x]|] eqn:E; [|discriminate].
    destruct (run st1 ops) as [[st2 ys]|] eqn:R; [|discriminate].
    injection H as <- <-.
    destruct (private_step st o st1 x n c W P (N o (or_introl eq_refl)) E) as [P1 C1].
    destruct (IH st1 st2 ys n c (step_WF _ _ _ _ W E) P1 (fun o' I' => N o' (or_intror I')) R) as (A & B & C2).
    refine (conj A (conj B _)). congruence.
Qed.

Lemma private_view : forall st n c v, WF st -> private st n c -> content st c = Some v -> view st n = SeenVal v.
Proof.
  intros st n c v W P C. unfold view. rewrite (proj1 P). simpl.
  destruct (strong_instance st n c W) as [w J]; [rewrite (proj1 P); reflexivity|].
  rewrite J. apply instance_content in J. congruence.
Qed.

(** ** Fresh instances *)
Lemma target_lt : forall st i c, WF st -> target (slot st i) = Some c -> c < length (cells st).
Proof.
  intros st i c W T. pose proof (slot_ok st i W) as K.
  destruct (slot st i) as [[[d|]|[d|]]|[d|]|[d|]|[[d|]|]|]; simpl in *; try discriminate; injection T as ->;
    auto using counted_lt.
Qed.

Lemma fresh_push : forall st v r, WF st -> target r = Some (fresh st) -> manages r (fresh st) = true ->
  let st' := push (alloc st v) r in
  slot st' (length (slots st)) = r /\ instance st' (fresh st) = Some v /\
  forall j, j <> length (slots st) -> target (slot st' j) <> Some (fresh st).
Proof.
  intros st v r W T M st'. 
  assert (E : slot st' (length (slots st)) = r) by apply (push_new (alloc st v) r).
  split; [exact E|]. split.
  - assert (M' : managed st' (fresh st) = true).
    { apply managed_iff. exists (length (slots st)). rewrite E. exact M. }
    unfold instance. rewrite M'. unfold st', push. cbn [cells].
    apply rown_manages in M. rewrite M, count_same, nth_alloc. reflexivity.
  - intros j NE X. unfold st' in X. rewrite push_any in X. simpl in X.
    destruct (Nat.eqb_spec j (length (slots st))); [congruence|].
    rewrite alloc_slot in X. apply target_lt in X; auto. unfold fresh in X. lia.
Qed.

Lemma fresh_put : forall st i v r, WF st -> i < length (slots st) ->
  target r = Some (fresh st) -> manages r (fresh st) = true ->
  let st' := put (alloc st v) i r in
  slot st' i = r /\ instance st' (fresh st) = Some v /\
  forall j, j <> i -> target (slot st' j) <> Some (fresh st).
Proof.
  intros st i v r W L T M st'.
  assert (E : slot st' i = r).
  { unfold st'. rewrite put_any by auto. rewrite Nat.eqb_refl. reflexivity. }
  split; [exact E|]. split.
  - assert (M' : managed st' (fresh st) = true).
    { apply managed_iff. exists i. rewrite E. exact M. }
    unfold instance. rewrite M'. unfold st', put. cbn [cells].
    apply rown_manages in M. rewrite M, alloc_slot.
    rewrite count_other.
    + rewrite count_same. rewrite (nth_alloc st v). reflexivity.
    + intros X. assert (Y : target (slot st i) = Some (fresh st)).
      { destruct (slot st i) as [[[d|]|[d|]]|[d|]|[d|]|[[d|]|]|]; simpl in *; congruence. }
      apply target_lt in Y; auto. unfold fresh in Y. lia.
  - intros j NE X. unfold st' in X. rewrite put_other in X by auto.
    rewrite alloc_slot in X. apply target_lt in X; auto. unfold fresh in X. lia.
Qed.

(** ** Instances after an operation *)
Lemma instance_eq : forall (st st' : state) c, sim (cells st) (cells st') ->
  (on_heap st c -> managed st' c = managed st c) -> instance st' c = instance st c.
Proof.
  intros st st' c H M. specialize (H c). unfold instance.
  unfold on_heap in M.
  destruct (nth_error (cells st) c) as [[v [n|b]]|]; destruct (nth_error (cells st') c) as [[w [m|b']]|];
    try contradiction; auto; destruct H as [E F]; simpl in *; try contradiction.
  - rewrite M by eauto. subst. reflexivity.
  - subst. reflexivity.
Qed.

Lemma managed_push : forall (st : state) r c, managed (push st r) c = managed st c || manages r c.
Proof.
  intros. unfold managed, push; simpl. rewrite existsb_app. simpl. rewrite orb_false_r. reflexivity.
Qed.

Lemma managed_put_keep : forall (st : state) i r c, i < length (slots st) ->
  (manages (slot st i) c = true -> manages r c = true) ->
  managed st c = true -> managed (put st i r) c = true.
Proof.
  intros st i r c L K M. apply managed_iff in M. destruct M as [j M]. apply managed_iff.
  destruct (Nat.eq_dec j i) as [->|NE].
  - exists i. rewrite put_any, Nat.eqb_refl by auto. auto.
  - exists j. rewrite put_other by auto. exact M.
Qed.

Lemma instance_push : forall (st : state) r c v, instance st c = Some v -> instance (push st r) c = Some v.
Proof.
  intros st r c v H. rewrite <- H. apply instance_eq; [apply push_sim|].
  intros (w & n & E). unfold instance in H. rewrite E in H. rewrite managed_push.
  destruct (managed st c); [reflexivity|discriminate].
Qed.

Lemma instance_put : forall (st : state) i r c v, i < length (slots st) ->
  (manages (slot st i) c = true -> manages r c = true) ->
  instance st c = Some v -> instance (put st i r) c = Some v.
Proof.
  intros st i r c v L K H. rewrite <- H. apply instance_eq; [apply put_sim|].
  intros (w & n & E). unfold instance in H. rewrite E in H.
  destruct (managed st c) eqn:M; [|discriminate].
  apply managed_put_keep; auto.
Qed.

(** An expired instance of the heap stays expired. *)
Lemma instance_push_none : forall st r c, WF st -> instance st c = None ->
  manages r c = false -> c < length (cells st) -> instance (push st r) c = None.
Proof.
  intros st r c W H K L. rewrite <- H. apply instance_eq; [apply push_sim|].
  intros _. rewrite managed_push, K. apply orb_false_r.
Qed.

Lemma managed_put_none : forall (st : state) i r c, managed st c = false -> manages r c = false ->
  managed (put st i r) c = false.
Proof.
  intros st i r c M K. destruct (managed (put st i r) c) eqn:E; auto.
  apply managed_iff in E. destruct E as [j E].
  destruct (Nat.lt_ge_cases i (length (slots st))) as [L|L].
  - rewrite put_any in E by auto. destruct (j =? i); [congruence|].
    apply managed_slot in E. congruence.
  - unfold slot, put in E; simpl in E. rewrite upd_out in E by auto. fold (slot st j) in E.
    apply managed_slot in E. congruence.
Qed.

(** ** No resurrection *)
Lemma asShared_managed : forall st i x p c, WF st -> slot st i = RV x -> asShared st x = Some (inl p) -> p = Some c ->
  managed st c = true.
Proof.
  intros st i x p c W E H ->. destruct x as [q|[d|]]; simpl in H; try discriminate.
  - injection H as ->. apply (managed_slot st i). rewrite E. simpl. apply Nat.eqb_refl.
  - destruct (nth_error (cells st) d) as [[v l]|] eqn:F; [|discriminate]. simpl in H.
    destruct (lalive l) eqn:G; [|discriminate]. destruct l as [n|b]; [|discriminate].
    injection H as ->. rewrite owners_pos, <- (proj1 W _ _ _ F). exact G.
Qed.

Lemma lock_managed : forall st i p c, WF st -> slot st i = RW p -> lock st p = Some c -> managed st c = true.
Proof.
  intros st i p c W E H. pose proof (slot_ok st i W) as K. rewrite E in K.
  destruct p as [d|]; simpl in *; [|discriminate]. destruct (alive st d) eqn:A; [|discriminate].
  injection H as ->. destruct K as (v & n & K). unfold alive in A. rewrite K in A. simpl in A.
  rewrite owners_pos, <- (proj1 W _ _ _ K). exact A.
Qed.

Lemma slot_not_managed : forall (st : state) i r c, managed st c = false -> slot st i = r -> manages r c = false.
Proof.
  intros st i r c M <-. destruct (manages (slot st i) c) eqn:E; auto. apply managed_slot in E. congruence.
Qed.

Lemma no_resurrection : forall st o st' x c, WF st -> step st o = Some (st', x) ->
  c < length (cells st) -> managed st c = false -> managed st' c = false.
Proof.
  intros st o st' x c W H L M.
  assert (FR : (fresh st =? c) = false) by (apply Nat.eqb_neq; unfold fresh; lia).
  destruct o; unfold HandleModel.step, new, set, ret in H; cases H; injection H as <- <-; auto.
  all: try match goal with
    | E : write _ _ _ = Some ?s |- managed ?s _ = false =>
        unfold managed; rewrite (write_slots _ _ _ _ E); exact M
    end.
  all: rewrite ?managed_push; repeat (apply managed_put_none; [|reflexivity]).
  all: rewrite ?managed_push; try (apply managed_put_none).
  all: try (apply orb_false_iff; split).
  all: try exact FR; try exact M; try reflexivity.
  all: try match goal with
    | E : slot ?s ?i = _, M : managed ?s ?c = false |- manages _ ?c = false =>
        exact (slot_not_managed s i _ c M E)
    | E : write _ _ _ = Some ?s, M : managed _ _ = false |- managed ?s _ = false =>
        unfold managed; rewrite (write_slots _ _ _ _ E); exact M
    | E : slot ?s ?i = RW ?p, M : managed ?s ?c = false, W : WF ?s |- manages (RV (VShared (lock ?s ?p))) ?c = false =>
        simpl; destruct (lock s p) as [d|] eqn:F; [|reflexivity];
        apply (lock_managed s i p d W E) in F; apply Nat.eqb_neq; intros ->; congruence
    | E : slot ?s ?i = RV ?x, F : asShared ?s ?x = Some (inl ?p), M : managed ?s ?c = false, W : WF ?s |- manages (RS ?p) ?c = false =>
        destruct p as [d|]; [|reflexivity]; simpl; apply Nat.eqb_neq; intros ->;
        rewrite (asShared_managed s i x (Some c) c W E F eq_refl) in M; discriminate
    end.
Qed.

(** ** Sharing *)
Lemma view_of : forall (st : state) i c v, reach st (slot st i) = inl (Some c) -> instance st c = Some v ->
  view st i = SeenVal v.
Proof.
  intros st i c v R J. unfold view. pose proof (reach_target _ _ _ R) as T.
  destruct (slot st i) as [[[d|]|[d|]]|[d|]|[d|]|[[d|]|]|]; simpl in *; try discriminate;
    injection T as ->; rewrite J; reflexivity.
Qed.

Lemma view_target : forall (st : state) i c v, target (slot st i) = Some c -> instance st c = Some v ->
  (forall g, slot st i <> RG g) -> view st i = SeenVal v.
Proof.
  intros st i c v T J G. unfold view.
  destruct (slot st i) as [[[d|]|[d|]]|[d|]|[d|]|[[d|]|]|]; simpl in *; try discriminate;
    try (injection T as ->; rewrite J; reflexivity).
  exfalso; eapply G; reflexivity.
Qed.

(** the reference an operation puts into its destination *)
Lemma share_push : forall (st : state) r c v, target r = Some c -> instance st c = Some v ->
  slot (push st r) (length (slots st)) = r /\ instance (push st r) c = Some v.
Proof. intros. split; [apply push_new | apply instance_push; auto]. Qed.

Lemma share_put : forall (st : state) d r c v, d < length (slots st) -> target r = Some c ->
  manages r c = true \/ rown (slot st d) = None -> instance st c = Some v ->
  slot (put st d r) d = r /\ instance (put st d r) c = Some v.
Proof.
  intros st d r c v L T M J. split.
  - rewrite put_any, Nat.eqb_refl; auto.
  - apply instance_put; auto. intros K. destruct M as [M|M]; auto.
    apply rown_manages in K. congruence.
Qed.

Lemma lock_instance : forall st c v, WF st -> instance st c = Some v -> lock st (Some c) = Some c.
Proof. intros st c v W J. simpl. rewrite alive_instance, J by auto. reflexivity. Qed.

Definition not_generic (r : ref) : Prop := match r with RG _ => False | _ => True end.

Lemma shares_ok : forall st o st' d s v c, WF st -> step st o = Some (st', ODone) ->
  shares st o = Some (d, s) -> target (slot st s) = Some c -> instance st c = Some v ->
  target (slot st' d) = Some c /\ instance st' c = Some v /\
  (manages (slot st' d) c = true \/ slot st' d = RW (Some c) \/
   slot st d = RV (VRaw (Some c)) /\ st' = st).
Proof.
  intros st o st' d s v c W H SH T J.
  pose proof (lock_instance st c v W J) as LK.
  pose proof (Nat.eqb_refl c) as CC.
  destruct o; try discriminate SH; simpl in SH; injection SH as <- <-;
    unfold HandleModel.step, new, set, ret in H; cases H; injection H as <-.
  all: try match goal with F : asShared _ _ = Some (inl _) |- _ => apply asShared_target in F end.
  all: subst; try match goal with T : target (slot ?s ?i) = Some ?c, E : slot ?s ?i = _ |- _ => rewrite E in T end;
    simpl in T; rewrite ?LK.
  all: try match goal with
    | X : target (RV _) = Some _ |- _ => rewrite X
    | X : match ?x with VShared _ => _ | VRaw _ => _ end = Some _ |- _ =>
        change (target (RV x) = Some c) in X; rewrite X
    end.
  all: subst; rewrite ?LK.
  all: try match goal with
    | J : instance ?s ?c = Some ?v |- context [push ?s ?r] =>
        destruct (share_push s r c v eq_refl J) as [A B]; rewrite A, B; simpl; rewrite ?CC; auto
    | J : instance ?s ?c = Some ?v, E : slot ?s ?d = RW _ |- context [put ?s ?d ?r] =>
        destruct (share_put s d r c v ltac:(lt_slot) eq_refl ltac:(right; rewrite E; reflexivity) J) as [A B];
        rewrite A, B; simpl; rewrite ?CC; auto
    | J : instance ?s ?c = Some ?v, E : slot ?s ?d = _ |- context [put ?s ?d ?r] =>
        destruct (share_put s d r c v ltac:(lt_slot) eq_refl ltac:(left; simpl; exact CC) J) as [A B];
        rewrite A, B; simpl; rewrite ?CC; auto
    end.
  destruct x as [[e|]|[e|]]; simpl in Heqb; try discriminate; apply Nat.eqb_eq in Heqb; subst;
    rewrite Heqr0; refine (conj eq_refl (conj J _)); simpl; rewrite ?CC; tauto.
Qed.

Lemma moves_ok : forall st o st' d s, WF st -> step st o = Some (st', ODone) ->
  moves st o = Some (d, s) ->
  slot st' d = slot st s /\ view st' d = view st s /\ view st' s = SeenNull /\ target (slot st' s) = None.
Proof.
  intros st o st' d s W H M.
  assert (PV : forall i (s1 : state) r, slot s1 i = r -> sim (cells st) (cells s1) ->
            (forall c, managed s1 c = managed st c) -> r = slot st s -> view s1 i = view st s).
  { intros i s1 r E SM MM ->. unfold view. rewrite E.
    destruct (slot st s) as [[[c|]|[c|]]|[c|]|[c|]|[[c|]|]|]; simpl; auto;
      rewrite (instance_eq st s1) by auto; reflexivity. }
  assert (MO : forall (st1 : state) i c r r', i < length (slots st1) -> slot st1 i = r ->
            manages r' c = false ->
            managed (put st1 i r') c = true -> exists j, j <> i /\ manages (slot st1 j) c = true).
  { intros st1 i c r r' L E N K. apply managed_iff in K. destruct K as [j K].
    rewrite put_any in K by auto. destruct (Nat.eqb_spec j i); [congruence|]. eauto. }
  destruct o; try discriminate M; simpl in M.
  - (* SMove *)
    injection M as <- <-. unfold HandleModel.step, set, ret in H.
    destruct (slot st s0) as [|p| | |] eqn:E; try discriminate. injection H as <-.
    assert (L : s0 < length (slots st)) by (apply slot_in; congruence).
    assert (L' : s0 < length (slots (push st (RS p)))) by (rewrite push_len; lia).
    assert (D : slot (put (push st (RS p)) s0 (RS None)) (length (slots st)) = RS p).
    { rewrite put_other by lia. apply push_new. }
    split; [exact D|]. split.
    + apply (PV _ _ _ D); auto.
      * eapply sim_trans; [apply push_sim | apply put_sim].
      * intros c. destruct (managed st c) eqn:MC.
        -- apply managed_iff. apply managed_iff in MC. destruct MC as [j MC].
           destruct (Nat.eq_dec j s0) as [->|NE].
           ++ exists (length (slots st)). rewrite D. rewrite E in MC. exact MC.
           ++ exists j. rewrite put_other by auto.
              assert (j < length (slots st)) by (apply slot_in; intros X; rewrite X in MC; discriminate).
              rewrite push_slot by auto. exact MC.
        -- apply managed_put_none; auto. rewrite managed_push, MC. simpl.
           exact (slot_not_managed st s0 _ c MC E).
    + unfold view. rewrite put_any, Nat.eqb_refl by auto. auto.
  - (* WMove *)
    injection M as <- <-. unfold HandleModel.step, set, ret in H.
    destruct (slot st w) as [| |p| |] eqn:E; try discriminate. injection H as <-.
    assert (L : w < length (slots st)) by (apply slot_in; congruence).
    assert (L' : w < length (slots (push st (RW p)))) by (rewrite push_len; lia).
    assert (D : slot (put (push st (RW p)) w (RW None)) (length (slots st)) = RW p).
    { rewrite put_other by lia. apply push_new. }
    split; [exact D|]. split.
    + apply (PV _ _ _ D); auto.
      * eapply sim_trans; [apply push_sim | apply put_sim].
      * intros c. destruct (managed st c) eqn:MC.
        -- apply managed_put_keep; auto.
           ++ rewrite push_slot by auto. rewrite E. discriminate.
           ++ rewrite managed_push, MC. reflexivity.
        -- apply managed_put_none; auto. rewrite managed_push, MC. reflexivity.
    + unfold view. rewrite put_any, Nat.eqb_refl by auto. auto.
  - (* SMoveS *)
    unfold HandleModel.step, set, ret in H.
    destruct (Nat.eqb_spec s0 t) as [|NE]; [discriminate|]. injection M as <- <-.
    destruct (slot st s0) as [|q| | |] eqn:F; try discriminate.
    destruct (slot st t) as [|p| | |] eqn:E; try discriminate. injection H as <-.
    assert (LS : s0 < length (slots st)) by (apply slot_in; congruence).
    assert (LT : t < length (slots st)) by (apply slot_in; congruence).
    assert (LT' : t < length (slots (put st s0 (RS p)))) by (rewrite put_len; auto).
    assert (D : slot (put (put st s0 (RS p)) t (RS None)) s0 = RS p).
    { rewrite put_other by auto. rewrite put_any, Nat.eqb_refl by auto. reflexivity. }
    split; [exact D|]. split.
    + (* the released instance is not the one moved, or is managed still *)
      unfold view. rewrite D, E. destruct p as [c|]; simpl; auto.
      assert (J : exists v, instance st c = Some v) by (apply (strong_instance st t c W); rewrite E; reflexivity).
      destruct J as [v J]. rewrite J.
      assert (J1 : instance (put st s0 (RS (Some c))) c = Some v)
        by (apply instance_put; auto; intros _; simpl; apply Nat.eqb_refl).
      assert (J2 : instance (put (put st s0 (RS (Some c))) t (RS None)) c = Some v).
      { rewrite <- J1. apply instance_eq; [apply put_sim|]. intros _.
        transitivity true; [|symmetry].
        - apply managed_iff. exists s0. rewrite D. simpl. apply Nat.eqb_refl.
        - apply managed_iff. exists s0. rewrite put_any, Nat.eqb_refl by auto. simpl. apply Nat.eqb_refl. }
      rewrite J2. reflexivity.
    + unfold view. rewrite put_any, Nat.eqb_refl by auto. auto.
  - (* WMoveW *)
    unfold HandleModel.step, set, ret in H.
    destruct (Nat.eqb_spec w u) as [|NE]; [discriminate|]. injection M as <- <-.
    destruct (slot st w) as [| |q| |] eqn:F; try discriminate.
    destruct (slot st u) as [| |p| |] eqn:E; try discriminate. injection H as <-.
    assert (LS : w < length (slots st)) by (apply slot_in; congruence).
    assert (LT : u < length (slots st)) by (apply slot_in; congruence).
    assert (LT' : u < length (slots (put st w (RW p)))) by (rewrite put_len; auto).
    assert (D : slot (put (put st w (RW p)) u (RW None)) w = RW p).
    { rewrite put_other by auto. rewrite put_any, Nat.eqb_refl by auto. reflexivity. }
    split; [exact D|]. split.
    + apply (PV _ _ _ D); auto.
      * eapply sim_trans; apply put_sim.
      * intros c. destruct (managed st c) eqn:MC.
        -- apply managed_put_keep; auto.
           ++ rewrite put_other by auto. rewrite E. discriminate.
           ++ apply managed_put_keep; auto. rewrite F. discriminate.
        -- apply managed_put_none; auto. apply managed_put_none; auto.
    + unfold view. rewrite put_any, Nat.eqb_refl by auto. auto.
Qed.

Lemma creates_ok : forall st o st' d v, WF st -> step st o = Some (st', ODone) ->
  creates dflt st o = Some (d, v) ->
  slot st' d = match o with SNew _ | SSetT _ _ => RS (Some (fresh st)) | _ => RV (VShared (Some (fresh st))) end /\
  instance st' (fresh st) = Some v /\
  forall j, j <> d -> target (slot st' j) <> Some (fresh st).
Proof.
  intros st o st' d v W H C.
  assert (MF : manages (RV (VShared (Some (fresh st)))) (fresh st) = true) by (simpl; apply Nat.eqb_refl).
  assert (MF' : manages (RS (Some (fresh st))) (fresh st) = true) by (simpl; apply Nat.eqb_refl).
  destruct o; try discriminate C; simpl in C; unfold HandleModel.step, new, set, ret in H.
  - injection C as <- <-. injection H as <-. exact (fresh_push st dflt (RV (VShared (Some (fresh st)))) W eq_refl MF).
  - injection C as <- <-. injection H as <-. exact (fresh_push st v0 (RV (VShared (Some (fresh st)))) W eq_refl MF).
  - destruct (view st r) as [u| | | |] eqn:Q; try discriminate. injection C as <- <-.
    destruct (view_val st r u W Q) as (c & T & R & J & RD).
    destruct (slot st r) as [x| | | |] eqn:E; try discriminate H.
    rewrite vget_target in T. rewrite T, RD in H. injection H as <-.
    exact (fresh_push st u (RV (VShared (Some (fresh st)))) W eq_refl MF).
  - injection C as <- <-. injection H as <-. exact (fresh_push st v0 (RS (Some (fresh st))) W eq_refl MF').
  - destruct (view st r) as [u| | | |] eqn:Q; try discriminate. injection C as <- <-.
    destruct (slot st r) as [x| | | |] eqn:E; try discriminate H.
    assert (NT : vget x = None).
    { unfold view in Q. rewrite E in Q. rewrite vget_target in Q. destruct (vget x); auto.
      destruct (instance st n); discriminate. }
    rewrite NT in H. injection H as <-.
    apply (fresh_put st r v0 _ W); auto. lt_slot.
  - destruct (view st r) as [u| | | |] eqn:Q; try discriminate.
    destruct (view st q) as [u| | | |] eqn:Q'; try discriminate. injection C as <- <-.
    destruct (slot st r) as [x| | | |] eqn:E; try discriminate H.
    destruct (slot st q) as [y| | | |] eqn:F; try discriminate H.
    destruct (view_val st q u W Q') as (c & T & R & J & RD). rewrite F, vget_target in T.
    assert (NT : vget x = None).
    { unfold view in Q. rewrite E in Q. rewrite vget_target in Q. destruct (vget x); auto.
      destruct (instance st n); discriminate. }
    destruct (Nat.eqb_spec r q) as [->|NE]; [congruence|].
    rewrite T, RD, NT in H. injection H as <-.
    apply (fresh_put st r u _ W); auto. lt_slot.
  - destruct (view st r) as [u| | | |] eqn:Q; try discriminate.
    destruct (view st q) as [u| | | |] eqn:Q'; try discriminate. injection C as <- <-.
    destruct (slot st r) as [x| | | |] eqn:E; try discriminate H.
    destruct (slot st q) as [y| | | |] eqn:F; try discriminate H.
    destruct (view_val st q u W Q') as (c & T & R & J & RD). rewrite F, vget_target in T.
    assert (NT : vget x = None).
    { unfold view in Q. rewrite E in Q. rewrite vget_target in Q. destruct (vget x); auto.
      destruct (instance st n); discriminate. }
    destruct (Nat.eqb_spec r q) as [->|NE]; [congruence|].
    rewrite T, RD, NT in H. injection H as <-.
    apply (fresh_put st r u _ W); auto. lt_slot.
  - injection C as <- <-. destruct (slot st s) as [|p| | |] eqn:E; try discriminate. injection H as <-.
    apply (fresh_put st s v0 _ W); auto. lt_slot.
Qed.

Lemma exn_unchanged : forall st o st' e, step st o = Some (st', OExn e) -> st' = st.
Proof.
  intros st o st' e H.
  destruct o; unfold HandleModel.step, new, set, ret in H; cases H; try discriminate H; injection H; auto; congruence.
Qed.

Lemma push_clen : forall (st : state) r, length (cells (push st r)) = length (cells st).
Proof. intros. apply count_length. Qed.
Lemma put_clen : forall (st : state) i r, length (cells (put st i r)) = length (cells st).
Proof. intros. unfold put. cbn [cells]. rewrite !count_length. reflexivity. Qed.
Lemma alloc_clen : forall (st : state) v, length (cells (alloc st v)) = S (length (cells st)).
Proof. intros. unfold alloc. cbn [cells]. rewrite app_length. simpl. lia. Qed.
Lemma write_clen : forall (s : state) c v s', write s c v = Some s' -> length (cells s') = length (cells s).
Proof. intros s c v s' E. apply write_inv in E. destruct E as (? & ? & _ & _ & ->). simpl. apply upd_length. Qed.

Lemma step_cells_len : forall st o st' x, step st o = Some (st', x) -> length (cells st) <= length (cells st').
Proof.
  intros st o st' x H.
  destruct o; unfold HandleModel.step, new, set, ret in H; cases H; injection H as <- <-; auto.
  all: rewrite ?put_clen, ?push_clen, ?alloc_clen; auto.
  all: rewrite ?push_clen, ?put_clen, ?alloc_clen; auto.
  all: try match goal with E : write _ _ _ = Some ?s |- _ <= length (cells ?s) => rewrite (write_clen _ _ _ _ E); auto end.
  all: cbn [cells]; rewrite ?app_length, ?upd_length; lia.
Qed.

Lemma shares_len : forall st o st' d s v, WF st -> step st o = Some (st', ODone) ->
  shares st o = Some (d, s) -> view st s = SeenVal v -> length (cells st') = length (cells st).
Proof.
  intros st o st' d s v W H SH K.
  destruct o; try discriminate SH; simpl in SH; injection SH as <- <-;
    unfold HandleModel.step, new, set, ret in H; cases H; injection H as <-; auto.
  all: rewrite ?put_clen, ?push_clen, ?alloc_clen; auto.
  unfold view in K. rewrite Heqr in K. discriminate.
Qed.

End P.
